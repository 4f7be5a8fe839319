(** Proofs about FrameIterator. *)
From Coq Require Import Permutation.
From Verif Require Import Base Bits_Model Bits_Proofs Bitmap_Model Bitmap_Proofs Dense_Model Dense_Spec Dense_Proofs
  IdFilter_Model IdFilter_Spec IdFilter_Proofs Array_Model Array_Spec Array_Proofs FrameIter_Model FrameIter_Spec FrameIter_Proofs.

Section P.
Context {A : Type} (dflt : A).
Notation cell := (bool * A)%type. Notation frame := (list (bool * A)). Notation src := (src A).

(** ** Input *)
Definition good_map (n : nat) (m : src * slot) : Prop :=
  (exists l, column (fst m) l /\ length l = n) /\ (sl_opt (snd m) = true \/ exists a, fst m = SD A a).
Definition mids (ms : list (src * slot)) : list nat := map (fun m => sl_id (snd m)) ms.
Definition loaded (ms : list (src * slot)) (r : nat) (f f' : frame) : Prop :=
  length f' = length f /\ (forall k, ~ In k (mids ms) -> rd f' k = rd f k) /\
  forall s sl, In (s, sl) ms -> exists c, rd f' (sl_id sl) = Some c /\ shows (sl_opt sl) (elem s r) c.
Lemma loaded_app ms ms' r f f1 f2 : (forall k, In k (mids ms) -> ~ In k (mids ms')) -> loaded ms r f f1 -> loaded ms' r f1 f2 -> loaded (ms ++ ms') r f f2.
Proof.
  intros D (L1 & K1 & S1) (L2 & K2 & S2). split; [lia|]. split.
  - intros k N. unfold mids in *. rewrite map_app, in_app_iff in N. rewrite K2, K1 by tauto. reflexivity.
  - intros s sl I. apply in_app_iff in I. destruct I as [I|I]; [|exact (S2 s sl I)]. destruct (S1 s sl I) as (c & E & H). exists c. split; [|exact H].
    rewrite K2; [exact E|]. apply D. unfold mids. apply (in_map (fun m => sl_id (snd m)) _ (s, sl) I).
Qed.
Definition all_loaded ms row (fs fs' : list frame) : Prop :=
  length fs' = length fs /\ forall i f, rd fs i = Some f -> exists f', rd fs' i = Some f' /\ loaded ms (row + i) f f'.
Lemma NoDup_app_split {X} (l m : list X) : NoDup (l ++ m) -> NoDup l /\ NoDup m /\ forall x, In x l -> ~ In x m.
Proof.
  induction l as [|x l IH]; cbn; intros H; [split; [constructor|split; [exact H|intros x []]]|]. inversion H as [|? ? N D]; subst.
  destruct (IH D) as (A1 & A2 & A3). rewrite in_app_iff in N. split; [constructor; tauto|]. split; [exact A2|]. intros y [<-|I]; [tauto|exact (A3 y I)].
Qed.
Lemma all_loaded_app ms ms' row fs fs1 fs2 : NoDup (mids (ms ++ ms')) -> all_loaded ms row fs fs1 -> all_loaded ms' row fs1 fs2 -> all_loaded (ms ++ ms') row fs fs2.
Proof.
  intros D [L1 H1] [L2 H2]. unfold mids in D. rewrite map_app in D. apply NoDup_app_split in D. destruct D as (_ & _ & D). split; [lia|]. intros i f E.
  destruct (H1 i f E) as (f1 & E1 & X1). destruct (H2 i f1 E1) as (f2 & E2 & X2). exists f2. split; [exact E2|]. exact (loaded_app ms ms' _ f f1 f2 D X1 X2).
Qed.
Lemma all_loaded_len ms row fs fs' k : all_loaded ms row fs fs' -> (forall f, In f fs -> k < length f) -> forall f, In f fs' -> k < length f.
Proof.
  intros [L H] Hk f I. apply In_nth_error in I. destruct I as [i Ei]. destruct (rd_lt fs i) as [g Eg]; [rewrite <- L; apply nth_error_Some; congruence|].
  destruct (H i g Eg) as (f' & Ef & Lf & _). unfold rd in Ef. assert (f' = f) by congruence. subst f'. specialize (Hk g (nth_error_In _ _ Eg)). lia.
Qed.

Lemma copy_maps_ok n ms row : forall fs, Forall (good_map n) ms -> NoDup (mids ms) -> row + length fs <= n -> (forall f k, In f fs -> In k (mids ms) -> k < length f) ->
  exists fs', copy_maps A dflt ms row (length fs) fs = Some fs' /\ all_loaded ms row fs fs'.
Proof.
  induction ms as [|[s sl] ms IH]; intros fs G D L B; cbn [copy_maps].
  - exists fs. split; [reflexivity|]. split; [reflexivity|]. intros i f E. exists f. split; [exact E|]. split; [reflexivity|]. split; [reflexivity|]. intros ? ? [].
  - inversion G as [|? ? [(l & Cl & Ll) Ho] G']; subst. cbn [fst snd] in *. destruct (writes_ok dflt s (sl_opt sl) l row (length fs) Cl Ho ltac:(lia)) as (ws & Ew & W1 & W2).
    rewrite Ew. cbn [bind]. destruct (set_cells_ok (sl_id sl) ws fs W1) as (fs1 & E1 & L1 & H1); [intros f I; apply (B f _ I); left; reflexivity|]. rewrite E1. cbn [bind].
    assert (X : all_loaded [(s, sl)] row fs fs1).
    { split; [exact L1|]. intros i f Ef. destruct (H1 i f Ef) as (f' & Ef' & Lf & Kf & Sf). exists f'. split; [exact Ef'|]. split; [exact Lf|]. split.
      - intros k N. apply Kf. intros ->. apply N. left. reflexivity.
      - intros s' sl' [E|[]]. injection E as <- <-. pose proof (rd_Some_lt _ _ _ Ef) as Li. destruct (W2 i Li) as (c & Ec & Sc). rewrite Ec in Sf. exists c. split; [exact Sf|].
        rewrite (column_elem s l) by (assumption || lia). exact Sc. }
    destruct (IH fs1 G') as (fs' & E & H).
    + inversion D; assumption.
    + lia.
    + intros f k I Ik. apply (all_loaded_len _ _ _ _ k X); [|exact I]. intros g Ig. apply (B g k Ig). right. exact Ik.
    + exists fs'. rewrite <- L1. split; [exact E|]. exact (all_loaded_app [(s, sl)] ms row fs fs1 fs' D X H).
Qed.

Definition imaps (cs : list (icopier A)) : list (src * slot) := flat_map (ic_maps A) cs.
Definition ics_at (row : nat) (cs : list (icopier A)) : Prop := Forall (fun c => ic_row A c = row) cs.
Lemma ics_next_ok n cs row : forall fs, ics_at row cs -> Forall (good_map n) (imaps cs) -> NoDup (mids (imaps cs)) -> row + length fs <= n ->
  (forall f k, In f fs -> In k (mids (imaps cs)) -> k < length f) ->
  exists cs' fs', ics_next A dflt cs fs = Some (cs', fs') /\ all_loaded (imaps cs) row fs fs' /\ ics_at (row + length fs) cs' /\ imaps cs' = imaps cs.
Proof.
  induction cs as [|c cs IH]; intros fs Ic G D L B; cbn [ics_next].
  - exists [], fs. split; [reflexivity|]. split; [|split; [constructor|reflexivity]]. split; [reflexivity|]. intros i f E. exists f. split; [exact E|]. split; [reflexivity|]. split; [reflexivity|]. intros ? ? [].
  - inversion Ic as [|? ? Er Ic']; subst. cbn [imaps flat_map] in *. fold (imaps cs) in *. apply Forall_app in G. destruct G as [G1 G2]. pose proof D as D'. unfold mids in D'. rewrite map_app in D'. apply NoDup_app_split in D'. destruct D' as (D1 & D2 & _).
    destruct (copy_maps_ok n (ic_maps A c) (ic_row A c) fs G1 D1 L) as (fs1 & E1 & X1).
    { intros f k I Ik. apply (B f k I). unfold mids in *. rewrite map_app, in_app_iff. left. exact Ik. }
    unfold ic_next. rewrite E1. cbn [bind]. pose proof (proj1 X1) as L1. destruct (IH fs1 Ic' G2 D2) as (cs' & fs' & E & X2 & I2 & M2); [lia| |].
    { intros f k I Ik. apply (all_loaded_len _ _ _ _ k X1); [|exact I]. intros g Ig. apply (B g k Ig). unfold mids in *. rewrite map_app, in_app_iff. right. exact Ik. }
    rewrite E. cbn [bind]. eexists _, fs'. split; [reflexivity|]. split; [exact (all_loaded_app _ _ _ fs fs1 fs' D X1 X2)|]. split.
    + constructor; [reflexivity|]. rewrite <- L1. exact I2.
    + cbn [imaps flat_map]. fold (imaps cs'). rewrite M2. reflexivity.
Qed.

(** ** Output *)
Lemma put_values_ok vs : forall (mem : list A) row, row + length vs <= length mem -> exists mem', put_values A mem row vs = Some mem' /\ length mem' = length mem /\
  forall k, rd mem' k = if (row <=? k) && (k <? row + length vs) then rd vs (k - row) else rd mem k.
Proof.
  induction vs as [|v vs IH]; intros mem row L; cbn [put_values length] in *.
  - exists mem. split; [reflexivity|]. split; [reflexivity|]. intros k. replace ((row <=? k) && (k <? row + 0)) with false by lia. reflexivity.
  - destruct (upd_lt mem row v ltac:(lia)) as [m1 E1]. rewrite E1. cbn [bind]. destruct (upd_spec _ _ _ _ E1) as (_ & L1 & K1). destruct (IH m1 (S row) ltac:(lia)) as (m2 & E2 & L2 & K2).
    exists m2. split; [exact E2|]. split; [lia|]. intros k. rewrite K2, K1. destruct (Nat.eqb_spec k row) as [->|N].
    + replace ((S row <=? row) && (row <? S row + length vs)) with false by lia. replace ((row <=? row) && (row <? row + S (length vs))) with true by lia. rewrite Nat.sub_diag. reflexivity.
    + replace ((row <=? k) && (k <? row + S (length vs))) with ((S row <=? k) && (k <? S row + length vs)) by lia. destruct ((S row <=? k) && (k <? S row + length vs)) eqn:Eb; [|reflexivity].
      replace (k - row) with (S (k - S row)) by lia. reflexivity.
Qed.

Lemma add_word_wok data p bo x d' : Forall (wok W) data -> wok W x -> add_word data p bo x = Some d' -> Forall (wok W) d'.
Proof.
  intros F X E. unfold add_word in E. destruct (rd data p) as [d|] eqn:Ed; [|discriminate]. cbn [bind] in E.
  destruct (wshl W x bo) as [s|] eqn:Es; [|discriminate]. cbn [bind] in E. destruct (upd data p (N.lor d s)) as [d1|] eqn:E1; [|discriminate]. cbn [bind] in E.
  assert (F1 : Forall (wok W) d1). { eapply Forall_upd; [exact F| |exact E1]. apply wok_lor; [exact (wok_rd _ _ _ F Ed)|exact (wok_wshl _ _ _ _ Es)]. }
  destruct (p + 1 <? length d1); [|congruence]. destruct (wshr W x (W - bo)) as [t|] eqn:Et; [|discriminate]. cbn [bind] in E.
  eapply Forall_upd; [exact F1| |exact E]. exact (wok_wshr _ _ _ _ X Et).
Qed.
Lemma add_unaligned_wok fuel : forall data pos bo bits all data' all', Forall (wok W) data -> add_unaligned fuel data pos bo bits all = Some (data', all') -> Forall (wok W) data'.
Proof.
  induction fuel as [|fuel IH]; intros data pos bo bits all data' all' H E; cbn [add_unaligned] in E.
  all: destruct (Nat.leb_spec W (length bits)) as [L|L]; try discriminate.
  2: { destruct (group_word (firstn W bits) 0 0%N all) as [x a2] eqn:Eg. destruct (add_word data (pos / W) bo x) as [d1|] eqn:E1; [|discriminate]. cbn [bind] in E.
       eapply IH; [|exact E]. eapply add_word_wok; [exact H| |exact E1]. eapply group_word_wok; [|exact Eg]. rewrite firstn_length. lia. }
  all: destruct (0 <? length bits); [|congruence]; destruct (group_word bits 0 0%N all) as [x a2] eqn:Eg;
    destruct (add_word data (pos / W) bo x) as [d1|] eqn:E1; [|discriminate]; cbn [bind] in E;
    injection E as <- <-; eapply add_word_wok; [exact H| |exact E1]; eapply group_word_wok; [|exact Eg]; lia.
Qed.
Lemma builder_add_wok b bits b' : Forall (wok W) (b_data b) -> builder_add b bits = Some b' -> Forall (wok W) (b_data b').
Proof.
  intros F E. unfold builder_add in E. destruct (b_cur b mod W =? 0).
  - destruct (add_aligned (length bits) (b_data b) (b_cur b / W) bits (b_all b)) as [[d a]|] eqn:E1; [|discriminate]. cbn [bind] in E. injection E as <-. cbn [b_data]. eapply add_aligned_wok; eassumption.
  - destruct (add_unaligned (length bits) (b_data b) (b_cur b) (b_cur b mod W) bits (b_all b)) as [[d a]|] eqn:E1; [|discriminate]. cbn [bind] in E. injection E as <-. cbn [b_data]. eapply add_unaligned_wok; eassumption.
Qed.

(** What an output holds after [row] rows: the cells [cs]. *)
Definition om_at (n row : nat) (m : omap A) (cs : list cell) : Prop :=
  length cs = row /\ length (om_vals A m) = n /\ (forall k, k < row -> rd (om_vals A m) k = rd (map snd cs) k) /\
  match om_bits A m with
  | None => sl_opt (om_slot A m) = false
  | Some b => sl_opt (om_slot A m) = true /\ builder_inv b (map fst cs) /\ length (b_data b) = bitmap_size n /\ Forall (wok W) (b_data b)
  end.
Lemma om_next_ok n row m cs (fs : list frame) : om_at n row m cs -> row + length fs <= n -> (forall f, In f fs -> exists c, rd f (sl_id (om_slot A m)) = Some c) ->
  exists m' ds, om_next A row fs m = Some m' /\ om_slot A m' = om_slot A m /\ om_out A m' = om_out A m /\
    Forall2 (fun f c => rd f (sl_id (om_slot A m)) = Some c) fs ds /\ om_at n (row + length fs) m' (cs ++ ds).
Proof.
  intros (Lc & Lv & Kv & B) L H. unfold om_next.
  destruct (all_some_Forall2 (fun f c => rd f (sl_id (om_slot A m)) = Some c) (fun f => rd f (sl_id (om_slot A m))) fs) as (ds & E & F2).
  { intros f I. destruct (H f I) as [c Ec]. exists c. auto. }
  rewrite E. cbn [bind]. assert (Ld : length ds = length fs) by (clear - F2; induction F2; cbn; congruence).
  destruct (put_values_ok (map snd ds) (om_vals A m) row) as (vs & Ev & L2 & K2); [rewrite map_length; lia|]. rewrite Ev. cbn [bind]. rewrite map_length in K2.
  assert (Kv' : forall k, k < row + length fs -> rd vs k = rd (map snd (cs ++ ds)) k).
  { intros k Hk. rewrite K2, map_app. unfold rd. destruct (Nat.lt_ge_cases k row) as [X|X].
    - replace ((row <=? k) && (k <? row + length ds)) with false by lia. rewrite nth_error_app1 by (rewrite map_length; lia). apply Kv. exact X.
    - replace ((row <=? k) && (k <? row + length ds)) with true by lia. rewrite nth_error_app2 by (rewrite map_length; lia). rewrite map_length, Lc. reflexivity. }
  destruct (om_bits A m) as [b|] eqn:Eb.
  - destruct B as (So & Bi & Bl & Bw). destruct (builder_add_ok b (map fst cs) (map fst ds) Bi) as (b' & Eb' & Lb & Ib).
    { rewrite !map_length, Bl. pose proof (bitmap_size_ge n). lia. }
    rewrite Eb'. cbn [bind]. eexists _, ds. split; [reflexivity|]. split; [reflexivity|]. split; [reflexivity|]. split; [exact F2|]. split; [rewrite app_length; lia|]. cbn [om_vals om_bits om_slot].
    split; [lia|]. split; [exact Kv'|]. split; [exact So|]. split; [rewrite map_app; exact Ib|]. split; [lia|]. exact (builder_add_wok _ _ _ Bw Eb').
  - cbn [bind]. eexists _, ds. split; [reflexivity|]. split; [reflexivity|]. split; [reflexivity|]. split; [exact F2|]. split; [rewrite app_length; lia|]. cbn [om_vals om_bits om_slot].
    split; [lia|]. split; [exact Kv'|exact B].
Qed.
Lemma om_start_ok (alloc : nat -> list A) allocw n m : alloc_sz alloc -> allocw_ok allocw -> om_at n 0 (om_start A alloc allocw n m) [].
Proof.
  intros Ha Hw. split; [reflexivity|]. cbn [om_start om_vals om_bits om_slot]. split; [apply Ha|]. split; [intros k X; lia|]. destruct (sl_opt (om_slot A m)); [|reflexivity].
  split; [reflexivity|]. destruct (Hw (bitmap_size n)) as [L F]. split; [|split; [exact L|apply words_ok; exact F]]. split; [|split; reflexivity]. split; cbn; [intros i X; lia|congruence].
Qed.
Lemma om_final_ok n m cs (l : list (option A)) : om_at n n m cs -> length l = n ->
  (forall k c, rd cs k = Some c -> shows (sl_opt (om_slot A m)) (nth k l None) c) -> (sl_opt (om_slot A m) = false -> Forall (fun o => o <> None) l) ->
  fst (om_final A m) = as_id (om_out A m) /\ is_arr A (snd (om_final A m)) = as_arr (om_out A m) /\ column (snd (om_final A m)) l.
Proof.
  intros (Lc & Lv & Kv & B) Ll Sh Nn. unfold om_final. cbn [fst snd]. split; [reflexivity|].
  assert (R : represents (mkD (om_vals A m) (match om_bits A m with Some b => builder_build b | None => [] end) 0) l).
  { apply rep_mk; [lia| | |].
    - destruct (om_bits A m) as [b|]; [|constructor]. unfold builder_build. destruct (b_all b); [constructor|]. apply wok_words. apply B.
    - destruct (om_bits A m) as [b|]; [|left; reflexivity]. unfold builder_build. destruct (b_all b); [left; reflexivity|]. right. rewrite Lv. apply B.
    - intros i Hi. destruct (rd_lt cs i ltac:(lia)) as [c Ec]. specialize (Sh i c Ec). specialize (Kv i ltac:(lia)).
      assert (Ev : rd (map snd cs) i = Some (snd c)) by (unfold rd in *; rewrite nth_error_map, Ec; reflexivity). rewrite Ev in Kv. split.
      + destruct (om_bits A m) as [b|].
        * destruct B as (So & ((Bi & _) & _ & Ba) & Bl & _). rewrite So in Sh. assert (Ef : nth i (map fst cs) false = fst c).
          { apply nth_error_nth. rewrite nth_error_map. unfold rd in Ec. rewrite Ec. reflexivity. }
          assert (Ff : fst c = is_some (nth i l None)). { unfold shows in Sh. destruct (nth i l None); cbn; [apply Sh; reflexivity|auto]. }
          unfold builder_build. destruct (b_all b) eqn:Eb.
          -- rewrite <- Ff. symmetry in Ba. rewrite forallb_forall in Ba. symmetry. rewrite <- Ef. apply (Ba (nth i (map fst cs) false)). apply nth_In. rewrite map_length. lia.
          -- specialize (Bi i ltac:(rewrite map_length; lia)). rewrite Ef in Bi. pose proof (bitmap_size_ge n). destruct (b_data b) as [|w r] eqn:Ed; [cbn [length] in Bl; lia|]. rewrite <- Ed in *.
             rewrite <- Ff. unfold bit. rewrite Bi. reflexivity.
        * cbn. rewrite B in Nn. specialize (Nn eq_refl). rewrite Forall_forall in Nn. specialize (Nn (nth i l None) (nth_In _ _ Hi)). destruct (nth i l None); [reflexivity|congruence].
      + intros x Ex. rewrite Ex in Sh. destruct Sh as [<- _]. exact Kv. }
  destruct (as_arr (om_out A m)); cbn [is_arr column]; split; try reflexivity; [apply ar_dense_rep; exact R|exact R].
Qed.
End P.
