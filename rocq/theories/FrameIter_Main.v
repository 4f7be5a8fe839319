(** Proofs about FrameIterator: creation and the loop. *)
From Coq Require Import Permutation.
From Verif Require Import Base Bits_Model Bits_Proofs Bitmap_Model Bitmap_Proofs Dense_Model Dense_Spec Dense_Proofs
  IdFilter_Model IdFilter_Spec IdFilter_Proofs Array_Model Array_Spec Array_Proofs FrameIter_Model FrameIter_Spec FrameIter_Proofs FrameIter_Loop.

Lemma Forall2_nth_l {X Y} (R : X -> Y -> Prop) l l' i x : Forall2 R l l' -> nth_error l i = Some x -> exists y, nth_error l' i = Some y /\ R x y.
Proof. intros F. revert i. induction F as [|a b l l' H F IH]; intros [|i] E; try discriminate; cbn in *; [injection E as <-; eauto|auto]. Qed.
Lemma Forall2_nth_r {X Y} (R : X -> Y -> Prop) l l' i y : Forall2 R l l' -> nth_error l' i = Some y -> exists x, nth_error l i = Some x /\ R x y.
Proof. intros F. revert i. induction F as [|a b l l' H F IH]; intros [|i] E; try discriminate; cbn in *; [injection E as <-; eauto|auto]. Qed.

Lemma firstn_In {X} n (l : list X) x : In x (firstn n l) -> In x l.
Proof. revert l. induction n as [|n IH]; intros [|a l] H; cbn in *; try tauto. destruct H; auto. Qed.
Lemma skipn_In {X} n (l : list X) x : In x (skipn n l) -> In x l.
Proof. revert l. induction n as [|n IH]; intros [|a l] H; cbn in *; try tauto. auto. Qed.
Lemma nth_error_firstn_lt' {X} n (l : list X) i : i < n -> nth_error (firstn n l) i = nth_error l i.
Proof. revert l i. induction n as [|n IH]; intros [|a l] [|i] H; cbn; try lia; try reflexivity. apply IH. lia. Qed.
Lemma Forall2_len {X Y} {R : X -> Y -> Prop} {l m} : Forall2 R l m -> length l = length m.
Proof. induction 1; cbn; congruence. Qed.

Lemma nth_error_combine {X Y} (l : list X) (l' : list Y) j x y : nth_error l j = Some x -> nth_error l' j = Some y -> nth_error (combine l l') j = Some (x, y).
Proof. revert l' j. induction l as [|a l IH]; intros [|b l'] [|j] E1 E2; cbn in *; try discriminate; [congruence|auto]. Qed.

Section P.
Context {A : Type} (dflt : A).
Notation cell := (bool * A)%type. Notation frame := (list (bool * A)). Notation src := (src A).

(** ** Creation *)
Definition ic_good (c : icopier A) : Prop :=
  ic_row A c = 0 /\ ic_maps A c <> [] /\ exists r, ic_rows A c = Some r /\ forall m, In m (ic_maps A c) -> src_size A (fst m) = r.
Lemma ic_add_ok c t s c' : (ic_row A c = 0 /\ forall r, ic_rows A c = Some r -> forall m, In m (ic_maps A c) -> src_size A (fst m) = r) -> (ic_rows A c = None -> ic_maps A c = []) ->
  ic_add A c t s = Some c' -> fits_in t s /\ ic_good c' /\ ic_maps A c' = ic_maps A c ++ [(ts_src A t, s)].
Proof.
  intros [R0 Hr] Hn E. unfold ic_add in E.
  destruct (match ic_rows A c with Some r => r =? src_size A (ts_src A t) | None => true end) eqn:E1; [|discriminate]. cbn [andb] in E.
  destruct (Nat.eqb_spec (ts_ty A t) (sl_ty s)) as [E2|]; [|discriminate]. cbn [andb] in E.
  destruct (sl_opt s || negb (is_arr A (ts_src A t))) eqn:E3; [|discriminate]. injection E as <-. split; [|split; [|reflexivity]].
  - split; [exact E2|]. destruct (sl_opt s); [left; reflexivity|right]. destruct (ts_src A t) as [a|a]; [exists a; reflexivity|discriminate].
  - split; [exact R0|]. cbn [ic_maps ic_rows]. split; [destruct (ic_maps A c); discriminate|]. eexists. split; [reflexivity|]. intros m I. apply in_app_iff in I. destruct I as [I|[<-|[]]]; [|reflexivity].
    destruct (ic_rows A c) as [r|] eqn:Er; [|rewrite Hn in I by reflexivity; destruct I]. rewrite (Hr r eq_refl m I). lia.
Qed.
Lemma ic_insert_ok cs t s : forall cs', Forall ic_good cs -> ic_insert A cs t s = Some cs' ->
  fits_in t s /\ Forall ic_good cs' /\ Permutation (imaps cs') ((ts_src A t, s) :: imaps cs).
Proof.
  induction cs as [|c cs IH]; intros cs' G E; cbn [ic_insert] in E.
  - match type of E with bind ?x _ = _ => destruct x as [c|] eqn:Ec; [|discriminate] end. cbn [bind] in E. injection E as <-.
    apply ic_add_ok in Ec; [|split; [reflexivity|cbn; discriminate]|reflexivity]. destruct Ec as (F & Gc & M). split; [exact F|]. split; [constructor; [exact Gc|constructor]|]. cbn [imaps flat_map]. rewrite M, app_nil_r. reflexivity.
  - inversion G as [|? ? Gc G']; subst. destruct (key_eqb (ic_key A c) _).
    + destruct (ic_add A c t s) as [c'|] eqn:Ec; [|discriminate]. cbn [bind] in E. injection E as <-. destruct Gc as (R0 & Nn & r & Er & Hr).
      apply ic_add_ok in Ec; [|split; [exact R0|intros r' Er'; assert (r' = r) by congruence; subst r'; exact Hr]|congruence]. destruct Ec as (F & Gc & M). split; [exact F|]. split; [constructor; assumption|].
      cbn [imaps flat_map]. rewrite M, <- app_assoc. cbn [app]. symmetry. apply Permutation_middle.
    + destruct (ic_insert A cs t s) as [r'|] eqn:Er; [|discriminate]. cbn [bind] in E. injection E as <-. destruct (IH r' G' eq_refl) as (F & G2 & P). split; [exact F|]. split; [constructor; assumption|].
      cbn [imaps flat_map]. fold (imaps r') (imaps cs). rewrite P. symmetry. apply Permutation_middle.
Qed.
Lemma ic_create_ok ts : forall ss cs cs', Forall ic_good cs -> ic_create A ts ss cs = Some cs' ->
  Forall2 fits_in ts ss /\ Forall ic_good cs' /\ Permutation (imaps cs') (combine (map (ts_src A) ts) ss ++ imaps cs).
Proof.
  induction ts as [|t ts IH]; intros [|s ss] cs cs' G E; cbn [ic_create] in E; try discriminate.
  - injection E as <-. split; [constructor|]. split; [exact G|reflexivity].
  - destruct (ic_insert A cs t s) as [c1|] eqn:E1; [|discriminate]. cbn [bind] in E. destruct (ic_insert_ok cs t s c1 G E1) as (F & G1 & P1). destruct (IH ss c1 cs' G1 E) as (F2 & G2 & P2).
    split; [constructor; assumption|]. split; [exact G2|]. cbn [map combine app]. rewrite P2, P1. symmetry. apply Permutation_middle.
Qed.
Definition all_rows (n : nat) (cs : list (icopier A)) : Prop := Forall (fun c => ic_rows A c = Some n) cs.
Lemma ic_create_conv n ts : forall ss cs, all_rows n cs -> Forall2 fits_in ts ss -> (forall t, In t ts -> src_size A (ts_src A t) = n) ->
  exists cs', ic_create A ts ss cs = Some cs' /\ all_rows n cs'.
Proof.
  induction ts as [|t ts IH]; intros ss cs R F H; inversion F as [|? s ? ss' Fs Fr]; subst; cbn [ic_create].
  - exists cs. auto.
  - assert (Add : forall c, (ic_rows A c = None \/ ic_rows A c = Some n) -> exists c', ic_add A c t s = Some c' /\ ic_rows A c' = Some n).
    { intros c Hc. unfold ic_add. destruct Fs as [E2 Ho]. rewrite E2, Nat.eqb_refl. rewrite (H t (or_introl eq_refl)).
      replace (match ic_rows A c with Some r => r =? n | None => true end) with true by (destruct Hc as [-> | ->]; [reflexivity|symmetry; apply Nat.eqb_refl]).
      replace (sl_opt s || negb (is_arr A (ts_src A t))) with true by (destruct Ho as [-> |[a ->]]; [reflexivity|symmetry; apply orb_true_r]). cbn [andb]. eexists. split; reflexivity. }
    assert (Ins : exists c1, ic_insert A cs t s = Some c1 /\ all_rows n c1).
    { clear IH Fr F. induction cs as [|c cs IHc]; cbn [ic_insert].
      - destruct (Add {| ic_key := (is_arr A (ts_src A t), ts_ty A t); ic_rows := None; ic_row := 0; ic_maps := [] |} (or_introl eq_refl)) as (c' & E & E'). rewrite E. cbn [bind]. eexists. split; [reflexivity|constructor; [exact E'|constructor]].
      - inversion R as [|? ? Rc R']; subst. destruct (key_eqb (ic_key A c) _).
        + destruct (Add c (or_intror Rc)) as (c' & E & E'). rewrite E. cbn [bind]. eexists. split; [reflexivity|constructor; assumption].
        + destruct (IHc R') as (c1 & E & E'). rewrite E. cbn [bind]. eexists. split; [reflexivity|constructor; assumption]. }
    destruct Ins as (c1 & E1 & R1). rewrite E1. cbn [bind]. apply IH; [exact R1|exact Fr|]. intros u I. apply H. right. exact I.
Qed.
Lemma common_rows_ok n cs : (forall m, n = Some m -> True) -> forall r, common_rows A cs n = Some r -> (cs = [] /\ r = n) \/ (exists m, r = Some m /\ all_rows m cs /\ (n = None \/ n = Some m)).
Proof.
  intros _. revert n. induction cs as [|c cs IH]; intros n r E; cbn [common_rows] in E; [left; split; congruence|]. right.
  destruct (ic_rows A c) as [k|] eqn:Ek; [|discriminate]. assert (common_rows A cs (Some k) = Some r /\ (n = None \/ n = Some k)) as [E' Hn].
  { destruct n as [m|]; [|auto]. destruct (Nat.eqb_spec m k); [subst; auto|discriminate]. }
  destruct (IH (Some k) r E') as [[-> ->]|(m & -> & R & H)]; [exists k|exists m].
  - split; [reflexivity|]. split; [constructor; [exact Ek|constructor]|exact Hn].
  - destruct H as [H|H]; [discriminate|]. injection H as <-. split; [reflexivity|]. split; [constructor; assumption|exact Hn].
Qed.
Lemma common_rows_conv m cs : forall n, all_rows m cs -> (n = None \/ n = Some m) -> common_rows A cs n = Some (match cs with [] => n | _ => Some m end).
Proof.
  induction cs as [|c cs IH]; intros n R H; cbn [common_rows]; [reflexivity|]. inversion R as [|? ? Rc R']; subst. rewrite Rc.
  assert (E : common_rows A cs (Some m) = Some (Some m)) by (rewrite IH by auto; destruct cs; reflexivity). destruct H as [-> | ->]; [exact E|]. rewrite Nat.eqb_refl. exact E.
Qed.
Lemma imaps_nil cs : Forall ic_good cs -> imaps cs = [] -> cs = [].
Proof. destruct cs as [|c cs]; intros G E; [reflexivity|]. inversion G as [|? ? (_ & N & _) _]; subst. cbn in E. apply app_eq_nil in E. destruct E. contradiction. Qed.
Lemma row_count_ok cs want n : Forall ic_good cs -> row_count A cs want = Some n ->
  (forall m, In m (imaps cs) -> src_size A (fst m) = n) /\ (want = None \/ want = Some n) /\ (cs = [] -> want <> None).
Proof.
  intros G E. unfold row_count in E. destruct (common_rows A cs None) as [r|] eqn:Er; [|discriminate]. cbn [bind] in E.
  destruct (common_rows_ok None cs ltac:(auto) r Er) as [[-> ->]|(m & -> & R & _)].
  - destruct want as [w|]; [|discriminate]. injection E as <-. split; [intros ? []|]. split; [auto|discriminate].
  - assert (n = m /\ (want = None \/ want = Some n)) as [-> Hw]. { destruct want as [w|]; [destruct (Nat.eqb_spec w m); [|discriminate]; injection E as <-; subst; auto|injection E as <-; auto]. }
    split; [|split; [exact Hw|]].
    + intros x I. unfold imaps in I. apply in_flat_map in I. destruct I as (c & Ic & Ix). rewrite Forall_forall in G. destruct (G c Ic) as (_ & _ & r & E1 & E2). unfold all_rows in R. rewrite Forall_forall in R. rewrite (R c Ic) in E1. injection E1 as <-. exact (E2 x Ix).
    + intros ->. cbn in Er. discriminate.
Qed.

Lemma oc_insert_ok cs s o : forall cs', Forall (fun c => oc_row A c = 0) cs -> oc_insert A cs s o = Some cs' ->
  fits_out o s /\ Forall (fun c => oc_row A c = 0) cs' /\
  exists m, om_slot A m = s /\ om_out A m = o /\ Permutation (flat_map (oc_maps A) cs') (m :: flat_map (oc_maps A) cs).
Proof.
  assert (Add : forall c c', oc_row A c = 0 -> oc_add A c s o = Some c' -> fits_out o s /\ oc_row A c' = 0 /\ oc_maps A c' = oc_maps A c ++ [{| om_slot := s; om_out := o; om_vals := []; om_bits := None |}]).
  { intros c c' R E. unfold oc_add in E. destruct (Nat.eqb_spec (as_ty o) (sl_ty s)) as [Et|]; [|discriminate]. injection E as <-. auto. }
  induction cs as [|c cs IH]; intros cs' G E; cbn [oc_insert] in E.
  - match type of E with bind ?x _ = _ => destruct x as [c|] eqn:Ec; [|discriminate] end. cbn [bind] in E. injection E as <-. apply Add in Ec; [|reflexivity]. destruct Ec as (F & R & M).
    split; [exact F|]. split; [constructor; [exact R|constructor]|]. exists {| om_slot := s; om_out := o; om_vals := []; om_bits := None |}. split; [reflexivity|]. split; [reflexivity|]. cbn [flat_map]. rewrite M. reflexivity.
  - inversion G as [|? ? Gc G']; subst. destruct (key_eqb (oc_key A c) _).
    + destruct (oc_add A c s o) as [c'|] eqn:Ec; [|discriminate]. cbn [bind] in E. injection E as <-. apply Add in Ec; [|exact Gc]. destruct Ec as (F & R & M). split; [exact F|]. split; [constructor; assumption|].
      exists {| om_slot := s; om_out := o; om_vals := []; om_bits := None |}. split; [reflexivity|]. split; [reflexivity|]. cbn [flat_map]. rewrite M, <- app_assoc. cbn [app]. symmetry. apply Permutation_middle.
    + destruct (oc_insert A cs s o) as [r'|] eqn:Er; [|discriminate]. cbn [bind] in E. injection E as <-. destruct (IH r' G' eq_refl) as (F & G2 & m & Es & Eo & P). split; [exact F|]. split; [constructor; assumption|].
      exists m. split; [exact Es|]. split; [exact Eo|]. cbn [flat_map]. rewrite P. symmetry. apply Permutation_middle.
Qed.
Definition opairs (ms : list (omap A)) : list (slot * aslot) := map (fun m => (om_slot A m, om_out A m)) ms.
Lemma oc_create_ok os : forall ss cs cs', Forall (fun c => oc_row A c = 0) cs -> oc_create A os ss cs = Some cs' ->
  Forall2 fits_out os ss /\ Forall (fun c => oc_row A c = 0) cs' /\ Permutation (opairs (flat_map (oc_maps A) cs')) (combine ss os ++ opairs (flat_map (oc_maps A) cs)).
Proof.
  induction os as [|o os IH]; intros [|s ss] cs cs' G E; cbn [oc_create] in E; try discriminate.
  - injection E as <-. split; [constructor|]. split; [exact G|reflexivity].
  - destruct (oc_insert A cs s o) as [c1|] eqn:E1; [|discriminate]. cbn [bind] in E. destruct (oc_insert_ok cs s o c1 G E1) as (F & G1 & m & Es & Eo & P1). destruct (IH ss c1 cs' G1 E) as (F2 & G2 & P2).
    split; [constructor; assumption|]. split; [exact G2|]. cbn [combine app]. rewrite P2. unfold opairs in *. rewrite P1. cbn [map]. rewrite Es, Eo. symmetry. apply Permutation_middle.
Qed.
Lemma oc_create_conv os : forall ss cs, Forall2 fits_out os ss -> exists cs', oc_create A os ss cs = Some cs'.
Proof.
  induction os as [|o os IH]; intros ss cs F; inversion F as [|? s ? ss' Fs Fr]; subst; cbn [oc_create]; [eauto|].
  assert (Ins : exists c1, oc_insert A cs s o = Some c1).
  { clear - Fs. unfold fits_out in Fs. induction cs as [|c cs [r E]]; cbn [oc_insert].
    - unfold oc_add. rewrite Fs, Nat.eqb_refl. cbn. eauto.
    - destruct (key_eqb _ _); [unfold oc_add; rewrite Fs, Nat.eqb_refl; cbn; eauto|]. rewrite E. cbn. eauto. }
  destruct Ins as [c1 E]. rewrite E. cbn [bind]. apply IH. exact Fr.
Qed.
Lemma combine_In1 (ts : list (tsrc A)) (ss : list slot) t : Forall2 fits_in ts ss -> In t ts -> exists s, In (ts_src A t, s) (combine (map (ts_src A) ts) ss).
Proof. induction 1 as [|a b ts ss _ _ IH]; intros []; [subst; exists b; left; reflexivity|]. destruct (IH H) as [s I]. exists s. right. exact I. Qed.

Section created.
Variables (alloc : nat -> list A) (allocw : nat -> list N).
Variables (iorder : list (icopier A) -> list (icopier A)) (oorder : list (ocopier A) -> list (ocopier A)).
Hypothesis IO : forall l, Permutation (iorder l) l.
Hypothesis OO : forall l, Permutation (oorder l) l.
Lemma flat_map_perm {X Y} (f : X -> list Y) l l' : Permutation l l' -> Permutation (flat_map f l) (flat_map f l').
Proof.
  induction 1; cbn; [reflexivity|apply Permutation_app_head; assumption| |etransitivity; eassumption].
  rewrite !app_assoc. apply Permutation_app_tail. apply Permutation_app_comm.
Qed.
Lemma create_ok arrays islots outs oslots fresh want buffer it : create A alloc allocw iorder oorder arrays islots outs oslots fresh want buffer = Some it ->
  Forall2 fits_in arrays islots /\ Forall2 fits_out outs oslots /\ agreed arrays want (it_rows A it) /\
  it_frames A it = repeat fresh (Nat.min (it_rows A it) buffer) /\ ics_at 0 (fst (it_cp A it)) /\ Permutation (imaps (fst (it_cp A it))) (combine (map (ts_src A) arrays) islots) /\
  exists ocs, snd (it_cp A it) = map (oc_start A alloc allocw (it_rows A it)) ocs /\ Forall (fun c => oc_row A c = 0) ocs /\ Permutation (opairs (flat_map (oc_maps A) ocs)) (combine oslots outs).
Proof.
  intros E. unfold create in E. destruct (ic_create A arrays islots []) as [ics|] eqn:Ei; [|discriminate]. cbn [bind] in E.
  destruct (oc_create A outs oslots []) as [ocs|] eqn:Eo; [|discriminate]. cbn [bind] in E. destruct (row_count A (iorder ics) want) as [n|] eqn:En; [|discriminate]. cbn [bind] in E. injection E as <-.
  cbn [it_rows it_cp it_frames fst snd].
  destruct (ic_create_ok _ _ _ _ (Forall_nil _) Ei) as (F1 & G1 & P1). destruct (oc_create_ok _ _ _ _ (Forall_nil _) Eo) as (F2 & G2 & P2). cbn in P1, P2. rewrite app_nil_r in P1, P2.
  assert (G1' : Forall ic_good (iorder ics)) by (apply (Permutation_Forall (Permutation_sym (IO ics))); exact G1).
  assert (Pi : Permutation (imaps (iorder ics)) (combine (map (ts_src A) arrays) islots)) by (rewrite <- P1; apply flat_map_perm, IO).
  destruct (row_count_ok _ _ _ G1' En) as (R1 & R2 & R3).
  split; [exact F1|]. split; [exact F2|]. split; [|split; [reflexivity|]; split; [|split; [exact Pi|]]].
  - split; [|split; [exact R2|]].
    + intros t It. destruct (combine_In1 arrays islots t F1 It) as [s Is]. apply (R1 (ts_src A t, s)). apply (Permutation_in _ (Permutation_sym Pi)). exact Is.
    + intros ->. apply R3. apply imaps_nil; [exact G1'|]. apply Permutation_nil. symmetry. exact Pi.
  - unfold ics_at. eapply Forall_impl; [|exact G1']. intros c (R & _). exact R.
  - exists (oorder ocs). split; [reflexivity|]. split; [apply (Permutation_Forall (Permutation_sym (OO ocs))); exact G2|]. rewrite <- P2. apply Permutation_map, flat_map_perm, OO.
Qed.
Lemma create_conv arrays islots outs oslots fresh want buffer n : Forall2 fits_in arrays islots -> Forall2 fits_out outs oslots -> agreed arrays want n ->
  exists it, create A alloc allocw iorder oorder arrays islots outs oslots fresh want buffer = Some it.
Proof.
  intros F1 F2 (A1 & A2 & A3). unfold create. destruct (ic_create_conv n arrays islots [] (Forall_nil _) F1 A1) as (ics & E1 & R1). rewrite E1. cbn [bind].
  destruct (oc_create_conv outs oslots [] F2) as [ocs E2]. rewrite E2. cbn [bind].
  assert (R1' : all_rows n (iorder ics)) by (apply (Permutation_Forall (Permutation_sym (IO ics))); exact R1).
  unfold row_count. rewrite (common_rows_conv n (iorder ics) None R1' (or_introl eq_refl)). cbn [bind]. destruct (iorder ics) as [|c r] eqn:Eo.
  - assert (ics = []) by (apply Permutation_nil; rewrite <- (IO ics), Eo; reflexivity). subst ics.
    assert (arrays = []). { destruct (ic_create_ok _ _ _ _ (Forall_nil _) E1) as (_ & _ & P). cbn in P. apply Permutation_nil in P. rewrite app_nil_r in P. destruct arrays as [|t ts]; [reflexivity|]. inversion F1; subst. discriminate. }
    destruct want as [w|]; [cbn; eauto|]. exfalso. apply A3; auto.
  - destruct A2 as [-> | ->]; [cbn; eauto|]. rewrite Nat.eqb_refl. cbn. eauto.
Qed.
End created.

(** ** The loop *)
Section run.
Variables (fn : frame -> frame) (Inv : frame -> Prop) (iss oss : list slot) (cols : list (list (option A))) (g : nat -> list (option A)) (n len : nat).
Variable pairs : list (src * slot).
Hypothesis Cmp : computes Inv iss oss cols n fn g.
Hypothesis Nd : NoDup (map sl_id iss).
Hypothesis Gd : Forall2 (fun m s => snd m = s) pairs iss.
Hypothesis Gc : Forall2 (fun m l => column (fst m) l /\ length l = n) pairs cols.
Hypothesis Go : Forall (fun m : src * slot => sl_opt (snd m) = true \/ exists a, fst m = SD A a) pairs.
Hypothesis In1 : forall s, In s iss -> sl_id s < len.

Definition fine (f : frame) : Prop := Inv f /\ length f = len.
Definition out_ok (row : nat) (m : omap A) : Prop :=
  In (om_slot A m) oss /\ exists cs, om_at n row m cs /\ forall k c, rd cs k = Some c -> forall j, nth_error oss j = Some (om_slot A m) -> shows (sl_opt (om_slot A m)) (nth j (g k) None) c.
Definition ocs_at (row : nat) (cs : list (ocopier A)) : Prop := Forall (fun c => oc_row A c = row /\ Forall (out_ok row) (oc_maps A c)) cs.
Definition osig (cs : list (ocopier A)) := opairs (flat_map (oc_maps A) cs).

Lemma mids_iss : mids pairs = map sl_id iss.
Proof. unfold mids. generalize Gd. clear. intros G. induction G as [|m s ms ss E _ IH]; [reflexivity|]. cbn [map]. rewrite E, IH. reflexivity. Qed.
Lemma pairs_good : Forall (good_map n) pairs.
Proof. generalize Gc Go. clear. intros Gx. induction Gx as [|m l ms ls [Cl Ll] _ IH]; intros Go; [constructor|]. constructor; [split; [exists l; auto|exact (Forall_inv Go)]|]. apply IH. exact (Forall_inv_tail Go). Qed.
Lemma loaded_row maps r f f' : Permutation maps pairs -> r < n -> loaded maps r f f' -> same_but iss f f' /\ holds iss (row_of cols r) f'.
Proof.
  intros P Hr (L & K & H). split.
  - split; [exact L|]. intros k Nk. apply K. intros I. apply Nk. rewrite <- mids_iss. unfold mids in *. apply (Permutation_in _ (Permutation_map (fun m => sl_id (snd m)) P)). exact I.
  - assert (H' : forall s sl, In (s, sl) pairs -> exists c, rd f' (sl_id sl) = Some c /\ shows (sl_opt sl) (elem s r) c) by (intros s sl I; apply H; apply (Permutation_in _ (Permutation_sym P)); exact I).
    generalize iss Gd. revert H'. generalize Gc. clear - Hr. intros Gx. unfold holds, row_of. induction Gx as [|[s sl] l ms ls [Cl Ll] Gc' IH]; intros H' iss Gd; inversion Gd as [|? s' ? ss' Es Gd' E1 E2]; [constructor|]; clear E1; subst iss; cbn [snd] in Es; subst s'.
    cbn [map snd fst] in *. constructor.
    + destruct (H' s sl (or_introl eq_refl)) as (c & E & Sh). exists c. split; [exact E|]. rewrite <- (column_elem s l r Cl) by lia. exact Sh.
    + apply IH; [intros a b I; apply H'; right; exact I|exact Gd'].
Qed.

Lemma run_frames_ok k : forall i fs, i + k <= length fs -> exists fs', run_frames fn fs i k = Some fs' /\ length fs' = length fs /\
  forall j, rd fs' j = if (i <=? j) && (j <? i + k) then option_map fn (rd fs j) else rd fs j.
Proof.
  induction k as [|k IH]; intros i fs L; cbn [run_frames].
  - exists fs. split; [reflexivity|]. split; [reflexivity|]. intros j. replace ((i <=? j) && (j <? i + 0)) with false by lia. reflexivity.
  - destruct (rd_lt fs i) as [f Ef]; [lia|]. rewrite Ef. cbn [bind]. destruct (upd_lt fs i (fn f)) as [fs1 E1]; [lia|]. rewrite E1. cbn [bind]. destruct (upd_spec _ _ _ _ E1) as (_ & L1 & K1).
    destruct (IH (S i) fs1) as (fs' & E & L2 & K2); [lia|]. exists fs'. split; [exact E|]. split; [lia|]. intros j. rewrite K2, K1.
    destruct (Nat.eqb_spec j i) as [->|N].
    + replace ((S i <=? i) && (i <? S i + k)) with false by lia. replace ((i <=? i) && (i <? i + S k)) with true by lia. rewrite Ef. reflexivity.
    + replace ((i <=? j) && (j <? i + S k)) with ((S i <=? j) && (j <? S i + k)) by lia. reflexivity.
Qed.

Lemma save_ok row fs : forall ocs, ocs_at row ocs -> row + length fs <= n -> (forall i f, rd fs i = Some f -> holds oss (g (row + i)) f) ->
  exists ocs', all_some (map (fun o => oc_next A o fs) ocs) = Some ocs' /\ ocs_at (row + length fs) ocs' /\ osig ocs' = osig ocs.
Proof.
  intros ocs O L H.
  assert (One : forall m, out_ok row m -> exists m', om_next A row fs m = Some m' /\ (om_slot A m', om_out A m') = (om_slot A m, om_out A m) /\ out_ok (row + length fs) m').
  { intros m (Is & cs & At & Sh). pose proof (proj1 At) as Lc. destruct (om_next_ok n row m cs fs At L) as (m' & ds & E & Es & Eo & F2 & At').
    { intros f If. apply In_nth_error in If. destruct If as [i Ei]. specialize (H i f Ei). apply In_nth_error in Is. destruct Is as [j Ej].
      destruct (Forall2_nth_l _ _ _ j _ H Ej) as (o & _ & c & Ec & _). exists c. exact Ec. }
    exists m'. split; [exact E|]. split; [congruence|]. split; [rewrite Es; exact Is|]. exists (cs ++ ds). split; [exact At'|]. rewrite Es. intros k c Ec j Ej. unfold rd in Ec.
    destruct (Nat.lt_ge_cases k row) as [X|X]; [rewrite nth_error_app1 in Ec by lia; exact (Sh k c Ec j Ej)|]. rewrite nth_error_app2 in Ec by lia. rewrite Lc in Ec.
    destruct (Forall2_nth_r _ _ _ (k - row) _ F2 Ec) as (f & Ef & Erd). specialize (H (k - row) f Ef). replace (row + (k - row)) with k in H by lia.
    destruct (Forall2_nth_l _ _ _ j _ H Ej) as (o & Eo' & c' & Ec' & Sc). rewrite (nth_error_nth _ _ _ Eo'). unfold rd in Erd. assert (c' = c) by congruence. subst c'. exact Sc. }
  induction O as [|c ocs [Er Fo] O IH]; cbn [map all_some]; [exists []; split; [reflexivity|split; [constructor|reflexivity]]|].
  assert (Ms : exists ms, all_some (map (om_next A (oc_row A c) fs) (oc_maps A c)) = Some ms /\ Forall (out_ok (row + length fs)) ms /\ opairs ms = opairs (oc_maps A c)).
  { rewrite Er. clear - Fo One. induction Fo as [|m ms Om Fo IH]; cbn [map all_some]; [exists []; split; [reflexivity|split; [constructor|reflexivity]]|].
    destruct (One m Om) as (m' & E & Sg & Om'). rewrite E. cbn [bind]. destruct IH as (r & Er & Fr & Pr). rewrite Er. cbn [bind]. exists (m' :: r). split; [reflexivity|]. split; [constructor; assumption|]. cbn [opairs map]. fold (opairs r) (opairs ms). rewrite Sg, Pr. reflexivity. }
  destruct Ms as (ms & Em & Fm & Pm). unfold oc_next at 1. rewrite Em. cbn [bind]. destruct IH as (ocs' & E & O' & Sg). rewrite E. cbn [bind]. eexists. split; [reflexivity|]. split.
  - constructor; [split; [cbn [oc_row]; lia|exact Fm]|exact O'].
  - unfold osig, opairs in *. cbn [flat_map oc_maps]. rewrite !map_app, Sg, Pm. reflexivity.
Qed.

Definition st_ok (row : nat) (c : copiers A) (fs : list frame) : Prop :=
  ics_at row (fst c) /\ Permutation (imaps (fst c)) pairs /\ ocs_at row (snd c) /\ Forall fine fs.
Lemma batch_ok o c fs : o < n -> st_ok o c fs ->
  exists c' fs', batch (preload A dflt) (save A) fn n o c fs = Some (c', fs') /\ st_ok (Nat.min (o + length fs) n) c' fs' /\ length fs' = length fs /\ osig (snd c') = osig (snd c).
Proof.
  intros Ho (I1 & I2 & I3 & I4). unfold batch. set (count := Nat.min (length fs) (n - o)). assert (Hc : count <= length fs /\ o + count <= n) by (unfold count; lia). destruct Hc as [Hc1 Hc2].
  assert (Lf : length (firstn count fs) = count) by (rewrite firstn_length; lia).
  assert (Ids : Permutation (mids (imaps (fst c))) (map sl_id iss)) by (rewrite <- mids_iss; unfold mids; apply Permutation_map; exact I2).
  destruct (ics_next_ok dflt n (fst c) o (firstn count fs) I1) as (cs' & fl & E1 & [L1 H1] & I1' & Im).
  - apply (Permutation_Forall (Permutation_sym I2)). exact pairs_good.
  - apply (Permutation_NoDup (Permutation_sym Ids)). exact Nd.
  - lia.
  - intros f k If Ik. apply firstn_In in If. rewrite Forall_forall in I4. destruct (I4 f If) as [_ ->]. apply (Permutation_in _ Ids) in Ik. apply in_map_iff in Ik. destruct Ik as (s & <- & Is). exact (In1 s Is).
  - unfold preload at 1. replace (count <=? length fs) with true by (symmetry; apply Nat.leb_le; exact Hc1). rewrite E1. cbn [bind].
    set (fs1 := fl ++ skipn count fs). assert (Ll : length fl = count) by (rewrite L1; exact Lf).
    assert (L2 : length fs1 = length fs) by (unfold fs1; rewrite app_length, skipn_length; lia).
    destruct (run_frames_ok count 0 fs1 ltac:(lia)) as (fs2 & E2 & L3 & K2). rewrite E2. cbn [bind].
    assert (Done : forall i f, i < count -> rd fs2 i = Some f -> fine f /\ holds oss (g (o + i)) f).
    { intros i f Hi Ef. rewrite K2 in Ef. replace ((0 <=? i) && (i <? 0 + count)) with true in Ef by lia. unfold rd, fs1 in Ef. rewrite nth_error_app1 in Ef by lia.
      destruct (rd_lt fs i) as [f0 E0]; [lia|]. destruct (H1 i f0) as (f1 & Ef1 & Ld); [unfold rd; rewrite nth_error_firstn_lt' by lia; exact E0|]. unfold rd in Ef1. rewrite Ef1 in Ef. cbn [option_map] in Ef. injection Ef as <-.
      rewrite Forall_forall in I4. destruct (I4 f0 (nth_error_In _ _ E0)) as [V0 L0]. destruct (loaded_row (imaps (fst c)) (o + i) f0 f1 I2 ltac:(lia) Ld) as [Sb Hd].
      destruct (Cmp (o + i) f0 f1 ltac:(lia) V0 Sb Hd) as (V & Lv & Ho'). split; [split; [exact V|congruence]|exact Ho']. }
    assert (Rest : forall i f, count <= i -> rd fs2 i = Some f -> fine f).
    { intros i f Hi Ef. rewrite K2 in Ef. replace ((0 <=? i) && (i <? 0 + count)) with false in Ef by lia. unfold rd, fs1 in Ef. rewrite nth_error_app2 in Ef by lia. apply nth_error_In in Ef. apply skipn_In in Ef. rewrite Forall_forall in I4. exact (I4 f Ef). }
    unfold save at 1. replace (count <=? length fs2) with true by (symmetry; apply Nat.leb_le; lia). cbn [snd fst].
    assert (Lf2 : length (firstn count fs2) = count) by (rewrite firstn_length; lia).
    destruct (save_ok o (firstn count fs2) (snd c) I3) as (ocs' & E3 & O' & Sg).
    + lia.
    + intros i f Ef. assert (Hi : i < count) by (rewrite <- Lf2; apply nth_error_Some; unfold rd in Ef; congruence). unfold rd in Ef. rewrite nth_error_firstn_lt' in Ef by exact Hi. exact (proj2 (Done i f Hi Ef)).
    + rewrite E3. cbn [bind fst snd]. eexists. exists fs2. split; [reflexivity|]. rewrite Lf2 in O'. rewrite Lf in I1'. cbn [snd fst].
      replace (Nat.min (o + length fs) n) with (o + count) by (unfold count; lia). split; [|split; [lia|exact Sg]]. unfold st_ok. cbn [fst snd]. split; [exact I1'|]. split; [rewrite Im; exact I2|]. split; [exact O'|].
      apply Forall_forall. intros f If. apply In_nth_error in If. destruct If as [i Ei]. destruct (Nat.lt_ge_cases i count) as [X|X]; [exact (proj1 (Done i f X Ei))|exact (Rest i f X Ei)].
Qed.
Lemma for_each_ok fuel : forall o c fs, n - o <= fuel -> (length fs > 0 \/ n = 0) -> st_ok (Nat.min o n) c fs ->
  exists c' fs', for_each (preload A dflt) (save A) fn fuel n o c fs = Finished (c', fs') /\ st_ok n c' fs' /\ length fs' = length fs /\ osig (snd c') = osig (snd c).
Proof.
  induction fuel as [|fuel IH]; intros o c fs Hf Hb St; cbn [for_each].
  - replace (o <? n) with false by (symmetry; apply Nat.ltb_ge; lia). exists c, fs. replace (Nat.min o n) with n in St by lia. auto.
  - destruct (Nat.ltb_spec o n) as [X|X].
    + replace (Nat.min o n) with o in St by lia. destruct (batch_ok o c fs X St) as (c1 & fs1 & E & St1 & L1 & Sg). rewrite E. rewrite <- L1 in St1 |- *. destruct (IH (o + length fs1) c1 fs1) as (c' & fs' & E' & St' & L' & Sg'); [lia|lia|exact St1|].
      exists c', fs'. split; [exact E'|]. split; [exact St'|]. split; [lia|congruence].
    + exists c, fs. replace (Nat.min o n) with n in St by lia. auto.
Qed.
End run.

(** ** Everything together *)
Lemma combine_fits (ts : list (tsrc A)) (ss : list slot) : Forall2 fits_in ts ss ->
  Forall2 (fun m s => snd m = s) (combine (map (ts_src A) ts) ss) ss /\ Forall (fun m : src * slot => sl_opt (snd m) = true \/ exists a, fst m = SD A a) (combine (map (ts_src A) ts) ss).
Proof. induction 1 as [|t s ts ss [_ H] _ [IH1 IH2]]; cbn [map combine]; [split; constructor|]. split; constructor; auto. Qed.
Lemma combine_cols n (ts : list (tsrc A)) : forall (ss : list slot) cols, length ts = length ss -> Forall2 (fun t l => column (ts_src A t) l) ts cols -> (forall t, In t ts -> src_size A (ts_src A t) = n) ->
  Forall2 (fun (m : src * slot) l => column (fst m) l /\ length l = n) (combine (map (ts_src A) ts) ss) cols.
Proof.
  induction ts as [|t ts IH]; intros [|s ss] cols L F H; try discriminate; inversion F as [|? l ? ls Fl Fr]; subst; cbn [map combine]; [constructor|].
  constructor; [split; [exact Fl|]; rewrite <- (column_size _ _ Fl); apply H; left; reflexivity|]. apply IH; [injection L as L; exact L|exact Fr|]. intros u I. apply H. right. exact I.
Qed.
Lemma in_combine_nth {X Y} (l : list X) (l' : list Y) x y : In (x, y) (combine l l') -> exists j, nth_error l j = Some x /\ nth_error l' j = Some y.
Proof. revert l'. induction l as [|a l IH]; intros [|b l']; cbn; try tauto. intros [E|I]; [injection E as -> ->; exists 0; auto|]. destruct (IH l' I) as (j & E1 & E2). exists (S j). auto. Qed.

Theorem iterate_ok alloc allocw iorder oorder arrays islots outs oslots fresh want buffer it (finit fn : frame -> frame) (Inv : frame -> Prop) cols g :
  alloc_sz alloc -> allocw_ok allocw -> (forall l, Permutation (iorder l) l) -> (forall l, Permutation (oorder l) l) ->
  create A alloc allocw iorder oorder arrays islots outs oslots fresh want buffer = Some it ->
  Forall2 (fun t l => column (ts_src A t) l) arrays cols ->
  NoDup (map sl_id islots) -> (forall s, In s islots -> sl_id s < length (finit fresh)) -> Inv (finit fresh) ->
  computes Inv islots oslots cols (it_rows A it) fn g ->
  (forall j s, nth_error oslots j = Some s -> sl_opt s = false -> forall i, i < it_rows A it -> nth j (g i) None <> None) ->
  buffer > 0 \/ it_rows A it = 0 -> forall fuel, it_rows A it <= fuel ->
  exists c fs, iterate_frames A dflt fuel fn (custom_init A finit it) = Finished (c, fs) /\ length (store_output A c) = length outs /\
  forall j o, nth_error outs j = Some o -> exists v, In (as_id o, v) (store_output A c) /\ is_arr A v = as_arr o /\
    column v (map (fun i => nth j (g i) None) (seq 0 (it_rows A it))).
Proof.
  intros Ha Hw IO OO Ec Fc Nd In1 Iv Cmp Nn Hb fuel Hf.
  destruct (create_ok alloc allocw iorder oorder IO OO _ _ _ _ _ _ _ _ Ec) as (F1 & F2 & (A1 & _ & _) & Ef & Ic & Pi & ocs & Eo & Go & Po).
  set (n := it_rows A it) in *. set (pairs := combine (map (ts_src A) arrays) islots) in *.
  destruct (combine_fits arrays islots F1) as [G1 G2].
  assert (Gc := combine_cols n arrays islots cols (Forall2_len F1) Fc A1).
  assert (Lo : length oslots = length outs) by (symmetry; exact (Forall2_len F2)).
  assert (So : osig (snd (it_cp A it)) = opairs (flat_map (oc_maps A) ocs)).
  { rewrite Eo. unfold osig, opairs. clear. induction ocs as [|c ocs IH]; [reflexivity|]. cbn [map flat_map oc_start oc_maps]. rewrite !map_app, IH, map_map. reflexivity. }
  assert (St : st_ok Inv oslots g n (length (finit fresh)) pairs 0 (it_cp A it) (map finit (it_frames A it))).
  { split; [exact Ic|]. split; [exact Pi|]. split.
    - rewrite Eo. unfold ocs_at. apply Forall_forall. intros c I. apply in_map_iff in I. destruct I as (c0 & <- & I0). cbn [oc_start oc_row oc_maps]. rewrite Forall_forall in Go. split; [exact (Go c0 I0)|].
      apply Forall_forall. intros m Im. apply in_map_iff in Im. destruct Im as (m0 & <- & Im0). split.
      + cbn [om_start om_slot]. assert (Ip : In (om_slot A m0, om_out A m0) (combine oslots outs)).
        { apply (Permutation_in _ Po). apply (in_map (fun m => (om_slot A m, om_out A m))). apply in_flat_map. eauto. }
        exact (in_combine_l _ _ _ _ Ip).
      + exists []. split; [apply om_start_ok; assumption|]. intros k c E. unfold rd in E. destruct k; discriminate.
    - rewrite Ef. apply Forall_forall. intros f I. apply in_map_iff in I. destruct I as (f0 & <- & I0). apply repeat_spec in I0. subst f0. split; [exact Iv|reflexivity]. }
  assert (Lb : length (map finit (it_frames A it)) > 0 \/ n = 0) by (rewrite map_length, Ef, repeat_length; destruct Hb; [destruct n; [right; reflexivity|left; lia]|auto]).
  destruct (for_each_ok fn Inv islots oslots cols g n (length (finit fresh)) pairs Cmp Nd G1 Gc G2 In1 fuel 0 (it_cp A it) _ ltac:(lia) Lb St) as (c' & fs' & E & (_ & _ & O & _) & _ & Sg).
  exists c', fs'. split; [exact E|]. rewrite So in Sg. unfold osig in Sg.
  set (ms := flat_map (oc_maps A) (snd c')) in *. assert (Es : store_output A c' = map (om_final A) ms).
  { unfold store_output, ms. generalize (snd c'). clear. intros l. induction l as [|o l IH]; [reflexivity|]. cbn [flat_map]. rewrite map_app, IH. reflexivity. }
  assert (Pm : Permutation (opairs ms) (combine oslots outs)) by (rewrite Sg; exact Po).
  split.
  - rewrite Es, map_length. transitivity (length (opairs ms)); [unfold opairs; rewrite map_length; reflexivity|]. rewrite (Permutation_length Pm), combine_length. lia.
  - intros j o Ej. destruct (nth_error oslots j) as [s|] eqn:Esl.
    2: { apply nth_error_None in Esl. assert (j < length outs) by (apply nth_error_Some; congruence). lia. }
    assert (Ip : In (s, o) (opairs ms)). { apply (Permutation_in _ (Permutation_sym Pm)). apply (nth_error_In _ j). apply nth_error_combine; assumption. }
    unfold opairs in Ip. apply in_map_iff in Ip. destruct Ip as (m & Em & Im). injection Em as Ems Emo.
    assert (Om : out_ok oslots g n n m). { unfold ms in Im. apply in_flat_map in Im. destruct Im as (oc & Ioc & Im'). unfold ocs_at in O. rewrite Forall_forall in O. destruct (O oc Ioc) as [_ Fo]. rewrite Forall_forall in Fo. exact (Fo m Im'). }
    destruct Om as (_ & cs & At & Sh). destruct (om_final_ok n m cs (map (fun i => nth j (g i) None) (seq 0 n)) At) as (Q1 & Q2 & Q3).
    + rewrite map_length, seq_length. reflexivity.
    + intros k cl Ek. assert (Hk : k < n) by (rewrite <- (proj1 At); apply nth_error_Some; unfold rd in Ek; congruence).
      rewrite (nth_indep _ None (nth j (g 0) None)) by (rewrite map_length, seq_length; exact Hk). rewrite (map_nth (fun i => nth j (g i) None)), seq_nth by exact Hk. cbn [Nat.add]. apply (Sh k cl Ek j). rewrite Ems. exact Esl.
    + rewrite Ems. intros Op. apply Forall_forall. intros v Iv'. apply in_map_iff in Iv'. destruct Iv' as (i & <- & Ii). apply in_seq in Ii. apply (Nn j s Esl Op i). lia.
    + exists (snd (om_final A m)). rewrite <- Emo, Es. split; [|auto]. rewrite <- Q1, <- surjective_pairing. apply in_map. exact Im.
Qed.
End P.
