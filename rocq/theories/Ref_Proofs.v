From Verif Require Import Base Ref_Model Ref_Spec.

(** ** Lists and sums *)
Lemma rd_set {A} (l : list A) i j x : i < length l -> rd (set_nth l i x) j = if j =? i then Some x else rd l j.
Proof.
  unfold rd. revert i j. induction l as [|a r IH]; intros [|i] [|j] H; cbn in *; try lia; try reflexivity. rewrite IH by lia. reflexivity.
Qed.
Lemma set_len {A} (l : list A) i x : length (set_nth l i x) = length l.
Proof. revert i. induction l as [|a r IH]; intros [|i]; cbn; auto. Qed.
Definition sm {A} (f : A -> nat) (l : list A) : nat := list_sum (map f l).
Lemma sm_cons {A} (f : A -> nat) a r : sm f (a :: r) = f a + sm f r.
Proof. reflexivity. Qed.
Lemma sm_set {A} (f : A -> nat) l i a b : rd l i = Some a -> sm f (set_nth l i b) + f a = sm f l + f b.
Proof.
  unfold rd. revert i. induction l as [|x r IH]; intros [|i] H; cbn [set_nth nth_error] in *; try discriminate; rewrite !sm_cons; [injection H as ->; lia|]. specialize (IH i H). lia.
Qed.
Lemma sm_app {A} (f : A -> nat) l r : sm f (l ++ r) = sm f l + sm f r.
Proof. unfold sm. rewrite map_app, list_sum_app. reflexivity. Qed.
Lemma sm_ge {A} (f : A -> nat) l i a : rd l i = Some a -> f a <= sm f l.
Proof. unfold rd. revert i. induction l as [|x r IH]; intros [|i] H; cbn [nth_error] in *; try discriminate; rewrite sm_cons; [injection H as ->; lia|]. specialize (IH i H). lia. Qed.
Lemma sm_two {A} (f : A -> nat) l i j a b : i <> j -> rd l i = Some a -> rd l j = Some b -> f a + f b <= sm f l.
Proof.
  revert i j. induction l as [|x r IH]; intros [|i] [|j] N H K; unfold rd in *; cbn [nth_error] in *; try discriminate; try lia; rewrite sm_cons.
  - injection H as ->. pose proof (sm_ge f r j b K). lia.
  - injection K as ->. pose proof (sm_ge f r i a H). lia.
  - specialize (IH i j ltac:(lia) H K). lia.
Qed.
Lemma sm_sub {A} (f g : A -> nat) l : (forall a, In a l -> g a <= f a) -> sm g l + sm (fun a => f a - g a) l = sm f l.
Proof.
  induction l as [|x r IH]; intros H; [reflexivity|]. rewrite !sm_cons. specialize (IH (fun a Ha => H a (or_intror Ha))). pose proof (H x (or_introl eq_refl)). lia.
Qed.
Lemma sm_zero {A} (f : A -> nat) l : sm f l = 0 <-> forall a, In a l -> f a = 0.
Proof.
  induction l as [|x r IH]; [split; [intros _ a []|reflexivity]|]. rewrite sm_cons. split.
  - intros H a [<-|Ha]; [lia|]. apply IH; [lia|exact Ha].
  - intros H. rewrite (H x (or_introl eq_refl)). apply IH. intros a Ha. apply H. right. exact Ha.
Qed.
Lemma sm_pos {A} (f : A -> nat) l : 1 <= sm f l -> exists i a, rd l i = Some a /\ 1 <= f a.
Proof.
  induction l as [|x r IH]; [cbn; lia|]. rewrite sm_cons. intros H. destruct (Nat.eq_dec (f x) 0) as [E|E].
  - destruct IH as (i & a & Hi & Ha); [lia|]. exists (S i), a. auto.
  - exists 0, x. split; [reflexivity|lia].
Qed.

Definition one (o : nat) (h : option nat) : nat := if same (Some o) h then 1 else 0.
Lemma occ_cons o h l : occ o (h :: l) = one o h + occ o l.
Proof. unfold occ, one. cbn [filter]. destruct (same (Some o) h); reflexivity. Qed.
Lemma occ_set o l i a b : rd l i = Some a -> occ o (set_nth l i b) + one o a = occ o l + one o b.
Proof.
  unfold rd. revert i. induction l as [|x r IH]; intros [|i] H; cbn [set_nth nth_error] in *; try discriminate; rewrite !occ_cons.
  - injection H as ->. lia.
  - specialize (IH i H). lia.
Qed.
Lemma occ_ge o l i a : rd l i = Some a -> one o a <= occ o l.
Proof. unfold rd. revert i. induction l as [|x r IH]; intros [|i] H; cbn [nth_error] in *; try discriminate; rewrite occ_cons; [injection H as ->; lia|]. specialize (IH i H). lia. Qed.
Lemma occ_two o l i j a b : i <> j -> rd l i = Some a -> rd l j = Some b -> one o a + one o b <= occ o l.
Proof.
  revert i j. induction l as [|x r IH]; intros [|i] [|j] N H K; unfold rd in *; cbn [nth_error] in *; try discriminate; try lia; rewrite occ_cons.
  - injection H as ->. pose proof (occ_ge o r j b K). lia.
  - injection K as ->. pose proof (occ_ge o r i a H). lia.
  - specialize (IH i j ltac:(lia) H K). lia.
Qed.
Lemma occ_in o l : 1 <= occ o l <-> In (Some o) l.
Proof.
  induction l as [|x r IH]; [cbn; split; [lia|intros []]|]. rewrite occ_cons. unfold one. cbn [In].
  destruct x as [b|]; cbn [same].
  - destruct (Nat.eqb_spec o b) as [->|N]; [split; [auto|lia]|]. cbn [plus]. rewrite IH. split; [auto|]. intros [K|K]; [congruence|exact K].
  - cbn [plus]. rewrite IH. split; [auto|]. intros [K|K]; [discriminate|exact K].
Qed.
Lemma occ_rev o l : occ o (rev l) = occ o l.
Proof.
  induction l as [|x r IH]; [reflexivity|]. cbn [rev]. unfold occ in *. rewrite filter_app, app_length, IH. cbn [filter]. destruct (same (Some o) x); cbn [length]; lia.
Qed.
Lemma occ_none o n : occ o (repeat None n) = 0.
Proof. induction n as [|n IH]; [reflexivity|]. cbn [repeat]. rewrite occ_cons, IH. reflexivity. Qed.

Definition dec1 (o : nat) (w : item) : nat := match w with WDec b | WSub b => if o =? b then 1 else 0 | _ => 0 end.
Definition inc1 (o : nat) (w : item) : nat := match w with WInc b => if o =? b then 1 else 0 | _ => 0 end.
Definition del1 (o : nat) (w : item) : nat := match w with WDel b => if o =? b then 1 else 0 | _ => 0 end.
Definition free1 (o : nat) (w : item) : nat := match w with WFree b => if o =? b then 1 else 0 | _ => 0 end.
Definition fr (o : nat) (th : thread) : nat := occ o (vars th) + sm (dec1 o) (work th).
Definition fi (o : nat) (th : thread) : nat := sm (inc1 o) (work th).
Definition fd (o : nat) (th : thread) : nat := sm (del1 o) (work th).
Definition ff (o : nat) (th : thread) : nat := sm (free1 o) (work th).
Definition fo (o : nat) (x : option obj) : nat := match x with Some ob => occ o (flds ob) | None => 0 end.
Definition refs (s : st) (o : nat) : nat := sm (fr o) (ths s) + sm (fo o) (objs s).
Definition incs (s : st) (o : nat) : nat := sm (fi o) (ths s).
Definition delp (s : st) (o : nat) : nat := sm (fd o) (ths s).
Definition frees (s : st) (o : nat) : nat := sm (ff o) (ths s).

Definition live (s : st) (o : nat) (ob : obj) : Prop := rd (objs s) o = Some (Some ob).
Definition incok (obs : list (option obj)) (th : thread) : Prop :=
  match work th with
  | WInc o :: rest => (forall a, sm (inc1 a) rest = 0) /\ 1 <= occ o (vars th) /\
      (2 <= occ o (vars th) \/ exists p ob, rd obs p = Some (Some ob) /\ In (Some o) (flds ob) /\ 1 <= occ p (vars th) + sm (dec1 p) rest)
  | w => forall a, sm (inc1 a) w = 0
  end.
Record inv (s : st) : Prop := {
  v_live : forall o ob, live s o ob ->
     (delp s o + frees s o = 1 /\ refs s o = 0 /\ incs s o = 0) \/
     (delp s o + frees s o = 0 /\ cnt ob = (Z.of_nat (refs s o) - Z.of_nat (incs s o))%Z /\ incs s o < refs s o);
  v_dead : forall o, (forall ob, ~ live s o ob) -> delp s o = 0 /\ frees s o = 0 /\ refs s o = 0 /\ incs s o = 0;
  v_acyc : forall p ob o, live s p ob -> In (Some o) (flds ob) -> o < p;
  v_inc : forall t th, rd (ths s) t = Some th -> incok (objs s) th;
  v_free : forall o, 1 <= frees s o -> exists ob, live s o ob /\ flds ob = [];
  v_del : forall o, In o (dels s) <-> o < length (objs s) /\ (rd (objs s) o = Some None \/ 1 <= frees s o);
  v_nd : NoDup (dels s) }.

Lemma incok_le obs th o : incok obs th -> fi o th <= occ o (vars th).
Proof.
  unfold incok, fi. destruct (work th) as [|w r]; [intros _; cbn; lia|]. destruct w; try (intros H; rewrite H; lia).
  intros (H & K & _). rewrite sm_cons, H. cbn [inc1]. destruct (Nat.eqb_spec o o0) as [->|]; lia.
Qed.
(** An increment that is still to come: there is another reference. *)
Lemma incok_refs s t th o : inv s -> rd (ths s) t = Some th -> 1 <= fi o th ->
  exists rest, work th = WInc o :: rest /\ fi o th = 1 /\
   (fi o th < fr o th \/ exists p ob, live s p ob /\ In (Some o) (flds ob) /\ p <> o).
Proof.
  intros I Ht Hi. pose proof (v_inc s I t th Ht) as K. unfold incok, fi, fr in *. destruct (work th) as [|w r] eqn:Ew; [cbn in Hi; lia|].
  destruct w; try (rewrite K in Hi; lia). destruct K as (K1 & K2 & K3). rewrite !sm_cons in *. rewrite K1 in *. cbn [inc1 dec1] in *.
  destruct (Nat.eqb_spec o o0) as [<-|]; [|lia]. exists r. split; [reflexivity|]. split; [lia|]. destruct K3 as [K3|(p & ob & L & Hin & _)]; [left; lia|].
  right. exists p, ob. split; [exact L|]. split; [exact Hin|]. pose proof (v_acyc s I p ob o L Hin). lia.
Qed.
Lemma fld_refs s p ob o : live s p ob -> In (Some o) (flds ob) -> 1 <= sm (fo o) (objs s).
Proof. intros L H. pose proof (sm_ge (fo o) (objs s) p (Some ob) L) as K. cbn [fo] in K. apply occ_in in H. lia. Qed.
Lemma inc_le s : inv s -> forall o th, In th (ths s) -> fi o th <= fr o th.
Proof.
  intros I o th H. apply In_nth_error in H. destruct H as [t Ht]. pose proof (incok_le _ _ o (v_inc s I t th Ht)). unfold fr. lia.
Qed.
(** A pending increment implies one more reference. *)
Lemma inc_more s o : inv s -> 1 <= incs s o -> incs s o < refs s o.
Proof.
  intros I H. unfold incs, refs in *. pose proof (sm_sub (fr o) (fi o) (ths s) (fun a Ha => inc_le s I o a Ha)) as E.
  destruct (sm_pos _ _ H) as (t & th & Ht & Hi). destruct (incok_refs s t th o I Ht Hi) as (rest & _ & _ & [K|(p & ob & L & Hin & _)]).
  - pose proof (sm_ge (fun a => fr o a - fi o a) (ths s) t th Ht) as G. cbn beta in G. lia.
  - pose proof (fld_refs s p ob o L Hin). lia.
Qed.
(** ... besides of the one of another thread. *)
Lemma inc_two s o t th : inv s -> rd (ths s) t = Some th -> fi o th < fr o th -> fi o th = 0 -> 1 <= incs s o -> 2 + incs s o <= refs s o.
Proof.
  intros I Ht Hf H0 H. unfold incs, refs in *. pose proof (sm_sub (fr o) (fi o) (ths s) (fun a Ha => inc_le s I o a Ha)) as E.
  destruct (sm_pos _ _ H) as (u & tu & Hu & Hi). assert (t <> u) by (intros <-; assert (tu = th) by congruence; subst tu; lia).
  destruct (incok_refs s u tu o I Hu Hi) as (rest & _ & _ & [K|(p & ob & L & Hin & _)]).
  - pose proof (sm_two (fun a => fr o a - fi o a) (ths s) t u th tu H1 Ht Hu) as G. cbn beta in G. lia.
  - pose proof (fld_refs s p ob o L Hin). pose proof (sm_ge (fun a => fr o a - fi o a) (ths s) t th Ht) as G. cbn beta in G. lia.
Qed.
Lemma ref_live s o : inv s -> 1 <= refs s o -> exists ob, live s o ob.
Proof.
  intros I H. destruct (rd (objs s) o) as [[ob|]|] eqn:E; [exists ob; exact E| |];
    exfalso; (destruct (v_dead s I o) as (_ & _ & K & _); [intros ob K; unfold live in K; congruence|lia]).
Qed.
Lemma ref_ok s o ob : inv s -> 1 <= refs s o -> live s o ob -> delp s o = 0 /\ frees s o = 0 /\ cnt ob = (Z.of_nat (refs s o) - Z.of_nat (incs s o))%Z /\ incs s o < refs s o.
Proof. intros I H L. destruct (v_live s I o ob L) as [K|K]; lia. Qed.
Lemma th_refs s t th o : rd (ths s) t = Some th -> fr o th <= refs s o.
Proof. intros H. pose proof (sm_ge (fr o) (ths s) t th H). unfold refs. lia. Qed.

(** Steps change one thread and one object. *)
Lemma incok_frame obs obs' th : incok obs th ->
  (forall p ob, rd obs p = Some (Some ob) -> 1 <= fr p th -> exists ob', rd obs' p = Some (Some ob') /\ flds ob' = flds ob) -> incok obs' th.
Proof.
  intros K F. unfold incok in *. destruct (work th) as [|w r] eqn:Ew; [exact K|]. destruct w; try exact K. destruct K as (K1 & K2 & K3).
  split; [exact K1|]. split; [exact K2|]. destruct K3 as [K3|(p & ob & L & Hin & Hp)]; [auto|]. right.
  destruct (F p ob L) as (ob' & L' & E); [unfold fr; rewrite Ew, sm_cons; cbn [dec1]; lia|]. exists p, ob'. rewrite E. auto.
Qed.

(** An operation on local handles. *)
Lemma inv_local s t th th' : inv s -> rd (ths s) t = Some th -> work th = [] ->
  (forall o, fr o th' = fr o th + fi o th') -> (forall o, fd o th' = 0) -> (forall o, ff o th' = 0) -> incok (objs s) th' -> inv (put s t th').
Proof.
  intros I Ht Hw Hr Hd Hf Hi.
  assert (Lt : t < length (ths s)) by (eapply rd_Some_lt; exact Ht).
  assert (W0 : forall o, fi o th = 0 /\ fd o th = 0 /\ ff o th = 0) by (intros o; unfold fi, fd, ff; rewrite Hw; auto).
  assert (Er : forall o, refs (put s t th') o = refs s o + fi o th').
  { intros o. unfold refs, put. cbn [ths objs]. pose proof (sm_set (fr o) (ths s) t th th' Ht). rewrite (Hr o) in H. lia. }
  assert (Ei : forall o, incs (put s t th') o = incs s o + fi o th').
  { intros o. unfold incs, put. cbn [ths objs]. pose proof (sm_set (fi o) (ths s) t th th' Ht). destruct (W0 o). lia. }
  assert (Ed : forall o, delp (put s t th') o = delp s o).
  { intros o. unfold delp, put. cbn [ths objs]. pose proof (sm_set (fd o) (ths s) t th th' Ht). rewrite Hd in H. destruct (W0 o) as (_ & W & _). lia. }
  assert (Ef : forall o, frees (put s t th') o = frees s o).
  { intros o. unfold frees, put. cbn [ths objs]. pose proof (sm_set (ff o) (ths s) t th th' Ht). rewrite Hf in H. destruct (W0 o) as (_ & _ & W). lia. }
  assert (Pos : forall o, 1 <= fi o th' -> 1 <= refs s o).
  { intros o K. pose proof (th_refs s t th o Ht) as G. unfold incok in Hi. unfold fi in K. specialize (Hr o). unfold fi in Hr. unfold fr in Hr at 1. destruct (work th') as [|w r]; [cbn in K; lia|].
    destruct w; try (rewrite Hi in K; lia). destruct Hi as (H1 & H2 & H3). rewrite !sm_cons in *. rewrite H1 in *. cbn [inc1 dec1] in *.
    destruct (Nat.eqb_spec o o0) as [<-|]; [|lia]. destruct H3 as [H3|(p & ob & L & Hin & _)]; [lia|].
    pose proof (fld_refs s p ob o L Hin). unfold refs. lia. }
  constructor; cbn [put objs dels].
  - intros o ob L. rewrite Er, Ei, Ed, Ef. specialize (Pos o). destruct (v_live s I o ob L) as [K|K]; [left; lia|right]. destruct K as (K1 & K2 & K3). repeat split; lia.
  - intros o L. rewrite Er, Ei, Ed, Ef. specialize (Pos o). pose proof (v_dead s I o L). lia.
  - apply (v_acyc s I).
  - intros u tu. unfold put. cbn [ths]. rewrite rd_set by exact Lt. destruct (Nat.eqb_spec u t) as [->|]; [intros E; injection E as <-; exact Hi|apply (v_inc s I)].
  - intros o. rewrite Ef. apply (v_free s I).
  - intros o. rewrite Ef. apply (v_del s I).
  - apply (v_nd s I).
Qed.

Lemma sums s t th th' o x x' d : rd (ths s) t = Some th -> rd (objs s) o = Some x ->
  forall a, let s' := mkS (set_nth (objs s) o x') (set_nth (ths s) t th') d in
  refs s' a + fr a th + fo a x = refs s a + fr a th' + fo a x' /\ incs s' a + fi a th = incs s a + fi a th' /\
  delp s' a + fd a th = delp s a + fd a th' /\ frees s' a + ff a th = frees s a + ff a th'.
Proof.
  intros Ht Ho a. cbn zeta. unfold refs, incs, delp, frees. cbn [ths objs].
  pose proof (sm_set (fr a) (ths s) t th th' Ht). pose proof (sm_set (fi a) (ths s) t th th' Ht). pose proof (sm_set (fd a) (ths s) t th th' Ht).
  pose proof (sm_set (ff a) (ths s) t th th' Ht). pose proof (sm_set (fo a) (objs s) o x x' Ho). lia.
Qed.
Lemma set_same {A} (l : list A) i a : rd l i = Some a -> set_nth l i a = l.
Proof. unfold rd. revert i. induction l as [|x r IH]; intros [|i] H; cbn in *; try discriminate; [congruence|]. rewrite IH by exact H. reflexivity. Qed.
Definition eqn (a b : nat) : nat := if a =? b then 1 else 0.

(** The thread after the head of its work was done. *)
Section Work.
  Variables (s : st) (t : nat) (v : list (option nat)) (w : item) (rest : list item).
  Hypothesis (I : inv s) (Ht : rd (ths s) t = Some (mkTh v (w :: rest))).

  Lemma rest_noinc a : sm (inc1 a) rest = 0.
  Proof. pose proof (v_inc s I t _ Ht) as K. unfold incok in K. cbn [work] in K. destruct w; try (specialize (K a); rewrite sm_cons in K; lia). apply K. Qed.
  Lemma thread_vals a : fr a (mkTh v (w :: rest)) = fr a (mkTh v rest) + dec1 a w /\ fi a (mkTh v (w :: rest)) = inc1 a w /\ fi a (mkTh v rest) = 0 /\
    fd a (mkTh v (w :: rest)) = fd a (mkTh v rest) + del1 a w /\ ff a (mkTh v (w :: rest)) = ff a (mkTh v rest) + free1 a w.
  Proof. unfold fr, fi, fd, ff. cbn [vars work]. rewrite !sm_cons. pose proof (rest_noinc a). lia. Qed.

  Lemma inv_winc o ob : w = WInc o -> live s o ob ->
    inv (mkS (set_nth (objs s) o (Some (mkO (cnt ob + 1)%Z (flds ob)))) (set_nth (ths s) t (mkTh v rest)) (dels s)).
  Proof.
    intros Hw L. set (s' := mkS _ _ _). assert (Lt : t < length (ths s)) by (eapply rd_Some_lt; exact Ht).
    assert (Lo : o < length (objs s)) by (eapply rd_Some_lt; exact L).
    assert (Q : forall a, refs s' a = refs s a /\ incs s' a + eqn a o = incs s a /\ delp s' a = delp s a /\ frees s' a = frees s a).
    { intros a. destruct (sums s t _ (mkTh v rest) o _ (Some (mkO (cnt ob + 1)%Z (flds ob))) (dels s) Ht L a) as (E1 & E2 & E3 & E4).
      destruct (thread_vals a) as (F1 & F2 & F3 & F4 & F5). subst w. cbn [dec1 inc1 del1 free1 fo flds] in *. fold s' in E1, E2, E3, E4. unfold eqn. lia. }
    assert (NI : 1 <= incs s o). { destruct (Q o) as (_ & K & _). unfold eqn in K. rewrite Nat.eqb_refl in K. lia. }
    assert (RR := inc_more s o I NI). destruct (ref_ok s o ob I ltac:(lia) L) as (D0 & F0 & C0 & _).
    assert (OB : forall a b, live s' a b -> exists b0, live s a b0 /\ flds b = flds b0 /\ cnt b = (cnt b0 + Z.of_nat (eqn a o))%Z).
    { intros a b. unfold live, s'. cbn [objs]. rewrite rd_set by exact Lo. unfold eqn. destruct (Nat.eqb_spec a o) as [->|]; [intros E; injection E as <-; exists ob; cbn; auto|].
      intros K. exists b. rewrite Z.add_0_r. auto. }
    assert (DD : forall a b, live s a b -> exists b', live s' a b' /\ flds b' = flds b).
    { intros a b K. unfold live, s'. cbn [objs]. rewrite rd_set by exact Lo. destruct (Nat.eqb_spec a o) as [->|]; [|eauto].
      unfold live in *. assert (b = ob) by congruence. subst b. eexists. split; [reflexivity|reflexivity]. }
    constructor.
    - intros a b K. destruct (OB a b K) as (b0 & L0 & _ & ->). destruct (Q a) as (-> & Q2 & -> & ->). unfold eqn in *. destruct (Nat.eqb_spec a o) as [->|].
      + assert (b0 = ob) by (unfold live in *; congruence). subst b0. right. lia.
      + rewrite Nat.add_0_r in Q2. rewrite Q2. destruct (v_live s I a b0 L0) as [X|X]; [left; exact X|right; lia].
    - intros a K. assert (K' : forall b, ~ live s a b) by (intros b X; destruct (DD a b X) as (b' & X' & _); apply (K b' X')).
      destruct (v_dead s I a K') as (X1 & X2 & X3 & X4). destruct (Q a) as (-> & Q2 & -> & ->). lia.
    - intros p b a K Hin. destruct (OB p b K) as (b0 & L0 & E & _). rewrite E in Hin. apply (v_acyc s I p b0 a L0 Hin).
    - intros u tu. unfold s'. cbn [ths objs]. rewrite rd_set by exact Lt. destruct (Nat.eqb_spec u t) as [->|].
      + intros E. injection E as <-. unfold incok. cbn [work]. pose proof rest_noinc as N. destruct rest as [|w2 r2] eqn:Er; [intros a; reflexivity|].
        destruct w2; try exact N. specialize (N o0). rewrite sm_cons in N. cbn [inc1] in N. rewrite Nat.eqb_refl in N. lia.
      + intros E. apply incok_frame with (objs s); [apply (v_inc s I u tu E)|]. intros p b K _. apply (DD p b K).
    - intros a K. destruct (Q a) as (_ & _ & _ & Q4). rewrite Q4 in K. destruct (v_free s I a K) as (b & Lb & E). destruct (DD a b Lb) as (b' & Lb' & E'). exists b'. split; [exact Lb'|congruence].
    - intros a. destruct (Q a) as (_ & _ & _ & ->). unfold s'. cbn [dels objs]. rewrite set_len, rd_set by exact Lo. rewrite (v_del s I a).
      unfold live in L. destruct (Nat.eqb_spec a o) as [->|]; [|reflexivity]. rewrite L. intuition discriminate.
    - apply (v_nd s I).
  Qed.

  (** The load of skewed_decrement. *)
  Lemma inv_load o ob : w = WDec o -> live s o ob -> inv (put s t (mkTh v ((if (cnt ob =? 1)%Z then WDel o else WSub o) :: rest))).
  Proof.
    intros Hw L. set (w' := if (cnt ob =? 1)%Z then WDel o else WSub o). set (s' := put _ _ _). assert (Lt : t < length (ths s)) by (eapply rd_Some_lt; exact Ht).
    assert (Q : forall a, refs s' a + dec1 a w = refs s a + dec1 a w' /\ incs s' a = incs s a /\ delp s' a = delp s a + del1 a w' /\ frees s' a = frees s a).
    { intros a. destruct (sums s t _ (mkTh v (w' :: rest)) o _ (Some ob) (dels s) Ht L a) as (E1 & E2 & E3 & E4).
      rewrite (set_same (objs s)) in E1, E2, E3, E4 by exact L. change (mkS (objs s) (set_nth (ths s) t (mkTh v (w' :: rest))) (dels s)) with s' in *.
      destruct (thread_vals a) as (F1 & F2 & F3 & F4 & F5). unfold fr, fi, fd, ff in *. cbn [vars work] in *. rewrite !sm_cons in *.
      subst w. unfold w' in *. destruct (cnt ob =? 1)%Z; cbn [dec1 inc1 del1 free1] in *; lia. }
    assert (FR : 1 <= fr o (mkTh v (w :: rest))) by (unfold fr; cbn [vars work]; rewrite sm_cons; subst w; cbn [dec1]; rewrite Nat.eqb_refl; lia).
    assert (FI : fi o (mkTh v (w :: rest)) = 0) by (destruct (thread_vals o) as (_ & -> & _); subst w; reflexivity).
    assert (RR := th_refs s t _ o Ht). destruct (ref_ok s o ob I ltac:(lia) L) as (D0 & F0 & C0 & M0).
    assert (Last : cnt ob = 1%Z -> refs s o = 1 /\ incs s o = 0).
    { intros E. destruct (Nat.eq_dec (incs s o) 0) as [K|K]; [lia|]. pose proof (inc_two s o t _ I Ht ltac:(lia) FI ltac:(lia)). lia. }
    constructor.
    - intros a b K. change (live s a b) in K. destruct (Q a) as (Q1 & -> & -> & ->). subst w. unfold w' in *. cbn [dec1] in Q1.
      destruct (Nat.eq_dec a o) as [->|N].
      + assert (b = ob) by (unfold live in *; congruence). subst b. rewrite Nat.eqb_refl in Q1. destruct (Z.eqb_spec (cnt ob) 1) as [E|E]; cbn [dec1 del1] in *; rewrite ?Nat.eqb_refl in *.
        * specialize (Last E). left. lia.
        * right. replace (refs s' o) with (refs s o) by lia. lia.
      + destruct (cnt ob =? 1)%Z; cbn [dec1 del1] in *; replace (a =? o) with false in * by lia; rewrite Nat.add_0_r in *;
          replace (refs s' a) with (refs s a) by lia; apply (v_live s I a b K).
    - intros a K. destruct (Q a) as (Q1 & -> & -> & ->). destruct (v_dead s I a K) as (X1 & X2 & X3 & X4). assert (a <> o) by (intros ->; apply (K ob L)).
      subst w. unfold w' in *. destruct (cnt ob =? 1)%Z; cbn [dec1 del1] in *; replace (a =? o) with false in * by lia; lia.
    - apply (v_acyc s I).
    - intros u tu. unfold s', put. cbn [ths objs]. rewrite rd_set by exact Lt. destruct (Nat.eqb_spec u t) as [->|]; [|apply (v_inc s I)].
      intros E. injection E as <-. unfold incok. cbn [work]. unfold w'. pose proof rest_noinc as N. destruct (cnt ob =? 1)%Z; intros a; rewrite sm_cons; cbn [inc1]; apply N.
    - intros a K. destruct (Q a) as (_ & _ & _ & Q4). rewrite Q4 in K. apply (v_free s I a K).
    - intros a. destruct (Q a) as (_ & _ & _ & ->). apply (v_del s I a).
    - apply (v_nd s I).
  Qed.

  Lemma inv_sub o ob : w = WDec o \/ w = WSub o -> live s o ob ->
    inv (mkS (set_nth (objs s) o (Some (mkO (cnt ob - 1)%Z (flds ob)))) (set_nth (ths s) t (mkTh v ((if (cnt ob =? 1)%Z then [WDel o] else []) ++ rest))) (dels s)).
  Proof.
    intros Hw L. set (pre := if (cnt ob =? 1)%Z then [WDel o] else []). set (s' := mkS _ _ _). assert (Lt : t < length (ths s)) by (eapply rd_Some_lt; exact Ht).
    assert (Lo : o < length (objs s)) by (eapply rd_Some_lt; exact L).
    assert (W1 : forall a, dec1 a w = eqn a o /\ inc1 a w = 0 /\ del1 a w = 0 /\ free1 a w = 0) by (intros a; destruct Hw as [-> | ->]; cbn; auto).
    assert (Q : forall a, refs s' a + eqn a o = refs s a /\ incs s' a = incs s a /\ delp s' a = delp s a + sm (del1 a) pre /\ frees s' a = frees s a).
    { intros a. destruct (sums s t _ (mkTh v (pre ++ rest)) o _ (Some (mkO (cnt ob - 1)%Z (flds ob))) (dels s) Ht L a) as (E1 & E2 & E3 & E4). fold s' in E1, E2, E3, E4.
      destruct (thread_vals a) as (F1 & F2 & F3 & F4 & F5). destruct (W1 a) as (G1 & G2 & G3 & G4). rewrite G1 in *. rewrite G2 in *. rewrite G3 in *. rewrite G4 in *.
      cbn [fo flds] in E1. unfold fr, fi, fd, ff in *. cbn [vars work] in *. rewrite !sm_app in *.
      assert (P : sm (dec1 a) pre = 0 /\ sm (inc1 a) pre = 0 /\ sm (free1 a) pre = 0) by (unfold pre; destruct (cnt ob =? 1)%Z; cbn; auto). lia. }
    assert (FR : 1 <= fr o (mkTh v (w :: rest))) by (unfold fr; cbn [vars work]; rewrite sm_cons; destruct (W1 o) as (-> & _); unfold eqn; rewrite Nat.eqb_refl; lia).
    assert (FI : fi o (mkTh v (w :: rest)) = 0) by (destruct (thread_vals o) as (_ & -> & _); apply W1).
    assert (RR := th_refs s t _ o Ht). destruct (ref_ok s o ob I ltac:(lia) L) as (D0 & F0 & C0 & M0).
    assert (Last : cnt ob = 1%Z -> refs s o = 1 /\ incs s o = 0).
    { intros E. destruct (Nat.eq_dec (incs s o) 0) as [K|K]; [lia|]. pose proof (inc_two s o t _ I Ht ltac:(lia) FI ltac:(lia)). lia. }
    assert (OB : forall a b, live s' a b -> exists b0, live s a b0 /\ flds b = flds b0 /\ cnt b = (cnt b0 - Z.of_nat (eqn a o))%Z).
    { intros a b. unfold live, s'. cbn [objs]. rewrite rd_set by exact Lo. unfold eqn. destruct (Nat.eqb_spec a o) as [->|]; [intros E; injection E as <-; exists ob; cbn; auto|].
      intros K. exists b. rewrite Z.sub_0_r. auto. }
    assert (DD : forall a b, live s a b -> exists b', live s' a b' /\ flds b' = flds b).
    { intros a b K. unfold live, s'. cbn [objs]. rewrite rd_set by exact Lo. destruct (Nat.eqb_spec a o) as [->|]; [|eauto].
      unfold live in *. assert (b = ob) by congruence. subst b. eexists. split; [reflexivity|reflexivity]. }
    constructor.
    - intros a b K. destruct (OB a b K) as (b0 & L0 & _ & ->). destruct (Q a) as (Q1 & -> & -> & ->). unfold eqn in *. destruct (Nat.eqb_spec a o) as [->|N].
      + assert (b0 = ob) by (unfold live in *; congruence). subst b0. unfold pre. destruct (Z.eqb_spec (cnt ob) 1) as [E|E].
        * specialize (Last E). left. assert (sm (del1 o) [WDel o] = 1) as -> by (cbn; rewrite Nat.eqb_refl; reflexivity). lia.
        * right. change (sm (del1 o) []) with 0. lia.
      + assert (sm (del1 a) pre = 0) as -> by (unfold pre; destruct (cnt ob =? 1)%Z; cbn; replace (a =? o) with false by lia; reflexivity).
        rewrite Nat.add_0_r in *. rewrite Q1. destruct (v_live s I a b0 L0) as [X|X]; [left; exact X|right; lia].
    - intros a K. assert (K' : forall b, ~ live s a b) by (intros b X; destruct (DD a b X) as (b' & X' & _); apply (K b' X')).
      assert (a <> o) by (intros ->; apply (K' ob L)). destruct (v_dead s I a K') as (X1 & X2 & X3 & X4). destruct (Q a) as (Q1 & -> & -> & ->).
      assert (sm (del1 a) pre = 0) as -> by (unfold pre; destruct (cnt ob =? 1)%Z; cbn; replace (a =? o) with false by lia; reflexivity). lia.
    - intros p b a K Hin. destruct (OB p b K) as (b0 & L0 & E & _). rewrite E in Hin. apply (v_acyc s I p b0 a L0 Hin).
    - intros u tu. unfold s'. cbn [ths objs]. rewrite rd_set by exact Lt. destruct (Nat.eqb_spec u t) as [->|].
      + intros E. injection E as <-. unfold incok. cbn [work]. pose proof rest_noinc as N. unfold pre. destruct (cnt ob =? 1)%Z; cbn [app].
        * intros a. rewrite sm_cons. cbn [inc1]. apply N.
        * destruct rest as [|w2 r2] eqn:Er; [intros a; reflexivity|]. destruct w2; try exact N. specialize (N o0). rewrite sm_cons in N. cbn [inc1] in N. rewrite Nat.eqb_refl in N. lia.
      + intros E. apply incok_frame with (objs s); [apply (v_inc s I u tu E)|]. intros p b K _. apply (DD p b K).
    - intros a K. destruct (Q a) as (_ & _ & _ & Q4). rewrite Q4 in K. destruct (v_free s I a K) as (b & Lb & E). destruct (DD a b Lb) as (b' & Lb' & E'). exists b'. split; [exact Lb'|congruence].
    - intros a. destruct (Q a) as (_ & _ & _ & ->). unfold s'. cbn [dels objs]. rewrite set_len, rd_set by exact Lo. rewrite (v_del s I a).
      unfold live in L. destruct (Nat.eqb_spec a o) as [->|]; [|reflexivity]. rewrite L. intuition discriminate.
    - apply (v_nd s I).
  Qed.

  Lemma decs_sums a l : sm (dec1 a) (flat_map decs_of l) = occ a l /\ sm (inc1 a) (flat_map decs_of l) = 0 /\ sm (del1 a) (flat_map decs_of l) = 0 /\ sm (free1 a) (flat_map decs_of l) = 0.
  Proof.
    induction l as [|h r IH]; [repeat split|]. cbn [flat_map]. rewrite !sm_app, occ_cons. destruct IH as (-> & -> & -> & ->). unfold one. destruct h as [b|]; cbn; [|auto].
    destruct (a =? b); auto.
  Qed.
  Lemma inv_del o ob : w = WDel o -> live s o ob ->
    inv (mkS (set_nth (objs s) o (Some (mkO (cnt ob) []))) (set_nth (ths s) t (mkTh v (flat_map decs_of (rev (flds ob)) ++ WFree o :: rest))) (o :: dels s)).
  Proof.
    intros Hw L. set (s' := mkS _ _ _). assert (Lt : t < length (ths s)) by (eapply rd_Some_lt; exact Ht).
    assert (Lo : o < length (objs s)) by (eapply rd_Some_lt; exact L).
    assert (Q : forall a, refs s' a = refs s a /\ incs s' a = incs s a /\ delp s' a + eqn a o = delp s a /\ frees s' a = frees s a + eqn a o).
    { intros a. destruct (sums s t _ (mkTh v (flat_map decs_of (rev (flds ob)) ++ WFree o :: rest)) o _ (Some (mkO (cnt ob) [])) (o :: dels s) Ht L a) as (E1 & E2 & E3 & E4). fold s' in E1, E2, E3, E4.
      destruct (thread_vals a) as (F1 & F2 & F3 & F4 & F5). subst w. cbn [dec1 inc1 del1 free1 fo flds] in *.
      unfold fr, fi, fd, ff in *. cbn [vars work] in *. rewrite !sm_app, !sm_cons in *. destruct (decs_sums a (rev (flds ob))) as (G1 & G2 & G3 & G4). rewrite occ_rev in G1.
      rewrite G1, G2, G3, G4 in *. cbn [dec1 inc1 del1 free1] in *. change (occ a []) with 0 in *. unfold eqn. lia. }
    assert (DP : 1 <= delp s o). { destruct (Q o) as (_ & _ & K & _). unfold eqn in K. rewrite Nat.eqb_refl in K. lia. }
    assert (R0 : delp s o = 1 /\ frees s o = 0 /\ refs s o = 0 /\ incs s o = 0) by (destruct (v_live s I o ob L); lia).
    assert (OB : forall a b, live s' a b -> exists b0, live s a b0 /\ (forall x, In x (flds b) -> In x (flds b0)) /\ cnt b = cnt b0).
    { intros a b. unfold live, s'. cbn [objs]. rewrite rd_set by exact Lo. destruct (Nat.eqb_spec a o) as [->|]; [intros E; injection E as <-; exists ob; cbn; split; [exact L|]; split; [intros x []|reflexivity]|].
      intros K. exists b. auto. }
    assert (DD : forall a b, live s a b -> exists b', live s' a b' /\ (a = o -> flds b' = []) /\ (a <> o -> b' = b)).
    { intros a b K. unfold live, s'. cbn [objs]. rewrite rd_set by exact Lo. destruct (Nat.eqb_spec a o) as [->|]; [|eexists; split; [exact K|]; split; [congruence|reflexivity]].
      eexists. split; [reflexivity|]. split; [reflexivity|congruence]. }
    constructor.
    - intros a b K. destruct (OB a b K) as (b0 & L0 & _ & ->). destruct (Q a) as (-> & -> & Q3 & ->). unfold eqn in *. destruct (Nat.eqb_spec a o) as [->|N].
      + left. lia.
      + rewrite Nat.add_0_r in *. rewrite Q3. apply (v_live s I a b0 L0).
    - intros a K. assert (K' : forall b, ~ live s a b) by (intros b X; destruct (DD a b X) as (b' & X' & _); apply (K b' X')).
      assert (a <> o) by (intros ->; apply (K' ob L)). destruct (v_dead s I a K') as (X1 & X2 & X3 & X4). destruct (Q a) as (-> & -> & Q3 & ->).
      unfold eqn in *. replace (a =? o) with false in * by lia. lia.
    - intros p b a K Hin. destruct (OB p b K) as (b0 & L0 & E & _). apply (v_acyc s I p b0 a L0 (E _ Hin)).
    - intros u tu. unfold s'. cbn [ths objs]. rewrite rd_set by exact Lt. destruct (Nat.eqb_spec u t) as [->|].
      + intros E. injection E as <-. assert (N : forall a, sm (inc1 a) (flat_map decs_of (rev (flds ob)) ++ WFree o :: rest) = 0).
        { intros a. rewrite sm_app, sm_cons. destruct (decs_sums a (rev (flds ob))) as (_ & -> & _). cbn [inc1]. rewrite rest_noinc. reflexivity. }
        unfold incok. cbn [work]. destruct (flat_map decs_of (rev (flds ob)) ++ WFree o :: rest) as [|w2 r2]; [exact N|]. destruct w2; try exact N.
        specialize (N o0). rewrite sm_cons in N. cbn [inc1] in N. rewrite Nat.eqb_refl in N. lia.
      + intros E. apply incok_frame with (objs s); [apply (v_inc s I u tu E)|]. intros p b K Hp. destruct (DD p b K) as (b' & K' & _ & X). exists b'. split; [exact K'|].
        rewrite X; [reflexivity|]. intros ->. pose proof (th_refs s u tu o E). lia.
    - intros a K. destruct (Q a) as (_ & _ & _ & Q4). rewrite Q4 in K. unfold eqn in K. destruct (Nat.eq_dec a o) as [E0|N]; [|replace (a =? o) with false in K by lia].
      + rewrite E0. destruct (DD o ob L) as (b' & Lb' & E & _). exists b'. auto.
      + destruct (v_free s I a ltac:(lia)) as (b & Lb & E). destruct (DD a b Lb) as (b' & Lb' & _ & E'). exists b'. split; [exact Lb'|]. rewrite E' by exact N. exact E.
    - intros a. destruct (Q a) as (_ & _ & _ & ->). unfold s'. cbn [dels objs In]. rewrite set_len, rd_set by exact Lo. rewrite (v_del s I a).
      unfold eqn. destruct (Nat.eqb_spec a o) as [->|N].
      + split; [intros _; split; [exact Lo|right; lia]|auto].
      + rewrite Nat.add_0_r. split; [intros [K|K]; [congruence|exact K]|auto].
    - unfold s'. cbn [dels]. constructor; [|apply (v_nd s I)]. rewrite (v_del s I o). unfold live in L. rewrite L. intros (_ & [K|K]); [discriminate|lia].
  Qed.

  Lemma inv_wfree o ob : w = WFree o -> live s o ob ->
    inv (mkS (set_nth (objs s) o None) (set_nth (ths s) t (mkTh v rest)) (dels s)).
  Proof.
    intros Hw L. set (s' := mkS _ _ _). assert (Lt : t < length (ths s)) by (eapply rd_Some_lt; exact Ht).
    assert (Lo : o < length (objs s)) by (eapply rd_Some_lt; exact L).
    assert (F1 : 1 <= frees s o).
    { unfold frees. pose proof (sm_ge (ff o) (ths s) t _ Ht) as K. unfold ff in K at 1. cbn [work] in K. rewrite sm_cons in K. subst w. cbn [free1] in K. rewrite Nat.eqb_refl in K. lia. }
    destruct (v_free s I o F1) as (b0 & Lb & Fl). assert (b0 = ob) by (unfold live in *; congruence). subst b0.
    assert (Q : forall a, refs s' a = refs s a /\ incs s' a = incs s a /\ delp s' a = delp s a /\ frees s' a + eqn a o = frees s a).
    { intros a. destruct (sums s t _ (mkTh v rest) o _ None (dels s) Ht L a) as (E1 & E2 & E3 & E4). fold s' in E1, E2, E3, E4.
      destruct (thread_vals a) as (G1 & G2 & G3 & G4 & G5). subst w. cbn [dec1 inc1 del1 free1 fo] in *. rewrite Fl in *. change (occ a []) with 0 in *. unfold eqn. lia. }
    assert (R0 : delp s o = 0 /\ frees s o = 1 /\ refs s o = 0 /\ incs s o = 0) by (destruct (v_live s I o ob L); lia).
    assert (OB : forall a b, live s' a b <-> live s a b /\ a <> o).
    { intros a b. unfold live, s'. cbn [objs]. rewrite rd_set by exact Lo. destruct (Nat.eqb_spec a o) as [->|]; [split; [discriminate|intros [_ K]; congruence]|tauto]. }
    constructor.
    - intros a b K. apply OB in K. destruct K as [K N]. destruct (Q a) as (-> & -> & -> & Q4). unfold eqn in Q4. replace (a =? o) with false in Q4 by lia. rewrite Nat.add_0_r in Q4. rewrite Q4. apply (v_live s I a b K).
    - intros a K. destruct (Q a) as (-> & -> & -> & Q4). unfold eqn in Q4. destruct (Nat.eqb_spec a o) as [->|N]; [lia|].
      destruct (v_dead s I a) as (X1 & X2 & X3 & X4); [intros b X; apply (K b), OB; auto|]. lia.
    - intros p b a K Hin. apply OB in K. apply (v_acyc s I p b a (proj1 K) Hin).
    - intros u tu. unfold s'. cbn [ths objs]. rewrite rd_set by exact Lt. destruct (Nat.eqb_spec u t) as [->|].
      + intros E. injection E as <-. unfold incok. cbn [work]. pose proof rest_noinc as N. destruct rest as [|w2 r2] eqn:Er; [intros a; reflexivity|].
        destruct w2; try exact N. specialize (N o0). rewrite sm_cons in N. cbn [inc1] in N. rewrite Nat.eqb_refl in N. lia.
      + intros E. apply incok_frame with (objs s); [apply (v_inc s I u tu E)|]. intros p b K Hp. exists b. split; [|reflexivity].
        rewrite rd_set by exact Lo. destruct (Nat.eqb_spec p o) as [->|]; [|exact K]. pose proof (th_refs s u tu o E). lia.
    - intros a K. destruct (Q a) as (_ & _ & _ & Q4). unfold eqn in Q4. destruct (Nat.eqb_spec a o) as [->|N]; [lia|].
      destruct (v_free s I a ltac:(lia)) as (b & Lb2 & E). exists b. split; [apply OB; auto|exact E].
    - intros a. destruct (Q a) as (_ & _ & _ & Q4). unfold s' at 1 2 3. cbn [dels objs]. rewrite set_len, rd_set by exact Lo. rewrite (v_del s I a).
      unfold eqn in Q4. destruct (Nat.eqb_spec a o) as [E0|N].
      + rewrite E0 in *. split; [intros (K & _); auto|]. intros _. split; [exact Lo|right; lia].
      + rewrite Nat.add_0_r in Q4. rewrite Q4. reflexivity.
    - apply (v_nd s I).
  Qed.
End Work.

Lemma inv_init : inv init.
Proof.
  constructor; cbn.
  - intros o ob H. unfold live in H. cbn in H. destruct o; discriminate.
  - auto.
  - intros p ob o H. unfold live in H. cbn in H. destruct p; discriminate.
  - intros t th H. destruct t; discriminate.
  - unfold frees. cbn. lia.
  - intros o. unfold frees. cbn. split; [intros []|lia].
  - constructor.
Qed.
Lemma inv_spawn s n : inv s -> inv (mkS (objs s) (ths s ++ [mkTh (repeat None n) []]) (dels s)).
Proof.
  intros I. set (s' := mkS _ _ _).
  assert (Q : forall a, refs s' a = refs s a /\ incs s' a = incs s a /\ delp s' a = delp s a /\ frees s' a = frees s a).
  { intros a. unfold refs, incs, delp, frees, s'. cbn [ths objs]. rewrite !sm_app. assert (sm (fr a) [mkTh (repeat None n) []] = 0) as -> by (rewrite sm_cons; unfold fr at 1; cbn [vars work]; rewrite occ_none; reflexivity).
    change (sm (fi a) [_]) with 0. change (sm (fd a) [_]) with 0. change (sm (ff a) [_]) with 0. lia. }
  constructor.
  - intros o ob L. destruct (Q o) as (-> & -> & -> & ->). apply (v_live s I o ob L).
  - intros o L. destruct (Q o) as (-> & -> & -> & ->). apply (v_dead s I o L).
  - apply (v_acyc s I).
  - intros t th. unfold s'. cbn [ths objs]. unfold rd. destruct (Nat.lt_ge_cases t (length (ths s))) as [K|K].
    + rewrite nth_error_app1 by exact K. apply (v_inc s I).
    + rewrite nth_error_app2 by exact K. destruct (t - length (ths s)) as [|k]; cbn; [|destruct k; discriminate]. intros E. injection E as <-. intros a. reflexivity.
  - intros o. destruct (Q o) as (_ & _ & _ & ->). apply (v_free s I).
  - intros o. destruct (Q o) as (_ & _ & _ & ->). apply (v_del s I).
  - apply (v_nd s I).
Qed.
Lemma take_all_occ o ys : forall v hs v1, take_all v ys = (hs, v1) -> occ o v = occ o hs + occ o v1 /\ length v1 = length v.
Proof.
  induction ys as [|y r IH]; intros v hs v1; cbn [take_all].
  - intros E. injection E as <- <-. auto.
  - destruct (rd v y) as [h|] eqn:Ey; [|apply IH]. destruct (take_all (set_nth v y None) r) as [hs0 v0] eqn:Et. intros E. injection E as <- <-.
    destruct (IH _ _ _ Et) as (E1 & E2). rewrite set_len in E2. pose proof (occ_set o v y h None Ey). change (one o None) with 0 in H. rewrite occ_cons.
    split; [lia|exact E2].
Qed.
Lemma inv_make s t th hs v1 x ys : inv s -> rd (ths s) t = Some th -> work th = [] -> take_all (vars th) ys = (hs, v1) -> rd v1 x = Some None ->
  inv (mkS (objs s ++ [Some (mkO 1 hs)]) (set_nth (ths s) t (mkTh (set_nth v1 x (Some (length (objs s)))) [])) (dels s)).
Proof.
  intros I Ht Hw Et Hx. set (n := length (objs s)). set (th' := mkTh _ _). set (s' := mkS _ _ _).
  assert (Lt : t < length (ths s)) by (eapply rd_Some_lt; exact Ht).
  assert (Ln : forall b, ~ live s n b). { intros b K. apply rd_Some_lt in K. unfold n in K. lia. }
  assert (Q : forall a, refs s' a = refs s a + eqn a n /\ incs s' a = incs s a /\ delp s' a = delp s a /\ frees s' a = frees s a).
  { intros a. unfold refs, incs, delp, frees, s'. cbn [ths objs]. rewrite sm_app, sm_cons. cbn [fo flds]. change (sm (fo a) []) with 0.
    pose proof (sm_set (fr a) (ths s) t th th' Ht). pose proof (sm_set (fi a) (ths s) t th th' Ht). pose proof (sm_set (fd a) (ths s) t th th' Ht).
    pose proof (sm_set (ff a) (ths s) t th th' Ht). assert (A1 : fr a th' = occ a (set_nth v1 x (Some n)) /\ fi a th' = 0 /\ fd a th' = 0 /\ ff a th' = 0) by (unfold fr, fi, fd, ff, th'; cbn [vars work]; change (sm _ []) with 0; rewrite ?Nat.add_0_r; auto).
    assert (A2 : fr a th = occ a (vars th) /\ fi a th = 0 /\ fd a th = 0 /\ ff a th = 0) by (unfold fr, fi, fd, ff; rewrite Hw; change (sm _ []) with 0; rewrite ?Nat.add_0_r; auto).
    destruct (take_all_occ a ys _ _ _ Et) as [E _]. pose proof (occ_set a v1 x None (Some n) Hx) as F. unfold one in F. cbn [same] in F. unfold eqn. destruct (a =? n); lia. }
  destruct (v_dead s I n Ln) as (N1 & N2 & N3 & N4).
  assert (OB : forall a b, live s' a b <-> live s a b \/ (a = n /\ b = mkO 1 hs)).
  { intros a b. unfold live, s', rd. cbn [objs]. destruct (Nat.lt_ge_cases a n) as [K|K].
    - rewrite nth_error_app1 by exact K. split; [auto|]. intros [E|[E _]]; [exact E|lia].
    - rewrite nth_error_app2 by exact K. fold n. destruct (a - n) as [|k] eqn:Ek; cbn.
      + assert (a = n) by lia. subst a. split; [intros E; injection E as <-; auto|]. intros [E|[_ ->]]; [destruct (Ln b E)|reflexivity].
      + split; [destruct k; discriminate|]. intros [E|[E _]]; [|lia]. assert (a < length (objs s)) by (apply nth_error_Some; congruence). unfold n in *. lia. }
  assert (HS : forall f, In (Some f) hs -> f < n).
  { intros f Hf. apply occ_in in Hf. destruct (take_all_occ f ys _ _ _ Et) as [E _]. pose proof (th_refs s t th f Ht) as G. unfold fr in G.
    destruct (ref_live s f I ltac:(lia)) as [b Lb]. apply rd_Some_lt in Lb. exact Lb. }
  constructor.
  - intros a b K. apply OB in K. destruct (Q a) as (-> & -> & -> & ->). unfold eqn. destruct K as [K|[-> ->]].
    + destruct (Nat.eqb_spec a n) as [->|]; [destruct (Ln b K)|]. rewrite Nat.add_0_r. apply (v_live s I a b K).
    + rewrite Nat.eqb_refl. right. cbn [cnt]. lia.
  - intros a K. destruct (Q a) as (-> & -> & -> & ->). assert (a <> n) by (intros ->; apply (K (mkO 1 hs)), OB; auto).
    unfold eqn. replace (a =? n) with false by lia. rewrite Nat.add_0_r. apply (v_dead s I). intros b X. apply (K b), OB. auto.
  - intros p b a K Hin. apply OB in K. destruct K as [K|[-> ->]]; [apply (v_acyc s I p b a K Hin)|]. apply HS. exact Hin.
  - intros u tu. unfold s'. cbn [ths objs]. rewrite rd_set by exact Lt. destruct (Nat.eqb_spec u t) as [->|].
    + intros E. injection E as <-. intros a. reflexivity.
    + intros E. apply incok_frame with (objs s); [apply (v_inc s I u tu E)|]. intros p b K _. exists b. split; [|reflexivity]. apply (OB p b). auto.
  - intros a. destruct (Q a) as (_ & _ & _ & ->). intros K. destruct (v_free s I a K) as (b & L & E). exists b. split; [apply OB; auto|exact E].
  - intros a. destruct (Q a) as (_ & _ & _ & ->). unfold s'. cbn [dels objs]. rewrite (v_del s I a), app_length. cbn [length]. unfold rd.
    destruct (Nat.lt_ge_cases a n) as [K|K]; [rewrite nth_error_app1 by exact K; fold n; split; intros [_ X]; (split; [unfold n in *; lia|exact X])|].
    fold n. split; [intros [X _]; unfold n in *; lia|]. intros [X1 X2]. exfalso. assert (a = n) by lia. subst a. rewrite nth_error_app2 in X2 by (unfold n; lia). fold n in X2. rewrite Nat.sub_diag in X2. cbn in X2.
    destruct X2 as [X2|X2]; [discriminate|lia].
  - apply (v_nd s I).
Qed.
Lemma inv_send s t u th tu x y h : inv s -> rd (ths s) t = Some th -> work th = [] -> rd (ths s) u = Some tu -> u <> t ->
  rd (vars th) x = Some h -> rd (vars tu) y = Some None -> 
  inv (put (put s t (mkTh (set_nth (vars th) x None) [])) u (mkTh (set_nth (vars tu) y h) (work tu))).
Proof.
  intros I Ht Hw Hu N Hx Hy. set (th' := mkTh (set_nth (vars th) x None) []). set (tu' := mkTh (set_nth (vars tu) y h) (work tu)). set (s' := put _ _ _).
  assert (Lt : t < length (ths s)) by (eapply rd_Some_lt; exact Ht). assert (Lu : u < length (ths s)) by (eapply rd_Some_lt; exact Hu).
  assert (Hu' : rd (set_nth (ths s) t th') u = Some tu) by (rewrite rd_set by exact Lt; replace (u =? t) with false by lia; exact Hu).
  assert (Q : forall a, refs s' a = refs s a /\ incs s' a = incs s a /\ delp s' a = delp s a /\ frees s' a = frees s a).
  { intros a. unfold refs, incs, delp, frees, s', put. cbn [ths objs].
    pose proof (sm_set (fr a) (ths s) t th th' Ht). pose proof (sm_set (fi a) (ths s) t th th' Ht). pose proof (sm_set (fd a) (ths s) t th th' Ht). pose proof (sm_set (ff a) (ths s) t th th' Ht).
    pose proof (sm_set (fr a) _ u tu tu' Hu'). pose proof (sm_set (fi a) _ u tu tu' Hu'). pose proof (sm_set (fd a) _ u tu tu' Hu'). pose proof (sm_set (ff a) _ u tu tu' Hu').
    assert (A1 : fr a th' + one a h = fr a th). { unfold fr, th'. cbn [vars work]. rewrite Hw. pose proof (occ_set a (vars th) x h None Hx) as K. change (one a None) with 0 in K. lia. }
    assert (A2 : fr a tu' = fr a tu + one a h). { unfold fr, tu'. cbn [vars work]. pose proof (occ_set a (vars tu) y None h Hy) as K. change (one a None) with 0 in K. lia. }
    assert (A3 : fi a th' = fi a th /\ fd a th' = fd a th /\ ff a th' = ff a th) by (unfold fi, fd, ff, th'; cbn [work]; rewrite Hw; auto).
    assert (A4 : fi a tu' = fi a tu /\ fd a tu' = fd a tu /\ ff a tu' = ff a tu) by (unfold fi, fd, ff, tu'; cbn [work]; auto). lia. }
  constructor.
  - intros o ob L. destruct (Q o) as (-> & -> & -> & ->). apply (v_live s I o ob L).
  - intros o L. destruct (Q o) as (-> & -> & -> & ->). apply (v_dead s I o L).
  - apply (v_acyc s I).
  - intros k tk. unfold s', put. cbn [ths objs]. rewrite rd_set by (rewrite set_len; exact Lu). destruct (Nat.eqb_spec k u) as [->|].
    + intros E. injection E as <-. pose proof (v_inc s I u tu Hu) as K. unfold incok in *. unfold tu'. cbn [work vars]. destruct (work tu) as [|w r]; [exact K|]. destruct w; try exact K.
      destruct K as (K1 & K2 & K3). split; [exact K1|]. assert (G : forall a, occ a (vars tu) <= occ a (set_nth (vars tu) y h)).
      { intros a. pose proof (occ_set a (vars tu) y None h Hy) as X. change (one a None) with 0 in X. lia. }
      pose proof (G o). split; [lia|]. destruct K3 as [K3|(p & ob & L & Hin & Hp)]; [left; lia|]. right. exists p, ob. specialize (G p). split; [exact L|]. split; [exact Hin|lia].
    + rewrite rd_set by exact Lt. destruct (Nat.eqb_spec k t) as [->|]; [|apply (v_inc s I)]. intros E. injection E as <-. intros a. reflexivity.
  - intros o. destruct (Q o) as (_ & _ & _ & ->). apply (v_free s I).
  - intros o. destruct (Q o) as (_ & _ & _ & ->). apply (v_del s I).
  - apply (v_nd s I).
Qed.

Lemma same_spec a b : same a b = true <-> a = b.
Proof. destruct a as [a|], b as [b|]; cbn; split; try congruence; [intros H; apply Nat.eqb_eq in H; congruence|intros H; injection H as ->; apply Nat.eqb_refl]. Qed.
Definition source (s : st) (v : list (option nat)) (r : src) (h : option nat) : Prop :=
  match r with
  | SVar y => rd v y = Some h
  | SField y i => exists p ob, rd v y = Some (Some p) /\ live s p ob /\ rd (flds ob) i = Some h
  end.
Lemma read_src_ok s v r k : (forall p, In (Some p) v -> exists ob, live s p ob) ->
  (exists h, source s v r h /\ read_src s v r k = k h) \/ read_src s v r k = Blocked.
Proof.
  intros A. destruct r as [y|y i]; cbn [read_src source].
  - destruct (rd v y) as [h|]; [left; eauto|auto].
  - destruct (rd v y) as [[p|]|] eqn:E; [|auto|auto]. destruct (A p) as [ob L]; [eapply nth_error_In; exact E|]. unfold live in L. rewrite L.
    destruct (rd (flds ob) i) as [h|] eqn:Ef; [left; exists h; split; [exists p, ob; auto|reflexivity]|auto].
Qed.
Lemma vals_nowork v o : fr o (mkTh v []) = occ o v /\ fi o (mkTh v []) = 0 /\ fd o (mkTh v []) = 0 /\ ff o (mkTh v []) = 0.
Proof. unfold fr, fi, fd, ff. cbn [vars work]. change (sm _ []) with 0. rewrite Nat.add_0_r. auto. Qed.
Lemma vals_inc v h o old : fr o (mkTh v (incs_of h ++ decs_of old)) = occ o v + one o old /\ fi o (mkTh v (incs_of h ++ decs_of old)) = one o h /\
  fd o (mkTh v (incs_of h ++ decs_of old)) = 0 /\ ff o (mkTh v (incs_of h ++ decs_of old)) = 0.
Proof.
  unfold fr, fi, fd, ff, one. cbn [vars work]. destruct h as [b|], old as [c|]; cbn [incs_of decs_of app same]; rewrite ?sm_cons; cbn [dec1 inc1 del1 free1]; change (sm _ []) with 0; try (destruct (o =? b)); lia.
Qed.
Lemma incok_assign s v x old r h : rd v x = Some old -> source s v r h -> old <> h -> incok (objs s) (mkTh (set_nth v x h) (incs_of h ++ decs_of old)).
Proof.
  intros Hx Hr N. assert (Lx : x < length v) by (eapply rd_Some_lt; exact Hx).
  assert (D : forall a, sm (inc1 a) (decs_of old) = 0) by (intros a; destruct old; reflexivity).
  unfold incok. cbn [work vars]. destruct h as [o|]; cbn [incs_of app].
  - split; [exact D|]. assert (Hh : rd (set_nth v x (Some o)) x = Some (Some o)) by (rewrite rd_set by exact Lx; rewrite Nat.eqb_refl; reflexivity).
    assert (O1 : one o (Some o) = 1) by (unfold one; cbn; rewrite Nat.eqb_refl; reflexivity).
    pose proof (occ_ge o _ _ _ Hh) as G1. split; [lia|]. destruct r as [y|y i]; cbn [source] in Hr.
    + left. assert (x <> y) by (intros ->; congruence).
      pose proof (occ_two o (set_nth v x (Some o)) x y (Some o) (Some o) H Hh) as G. rewrite rd_set in G by exact Lx. replace (y =? x) with false in G by lia. specialize (G Hr). lia.
    + right. destruct Hr as (p & ob & Hy & L & Hf). exists p, ob. split; [exact L|]. split; [eapply nth_error_In; exact Hf|]. 
      assert (O2 : one p (Some p) = 1) by (unfold one; cbn; rewrite Nat.eqb_refl; reflexivity).
      destruct (Nat.eq_dec y x) as [->|Nyx].
      * assert (old = Some p) by congruence. subst old. cbn [decs_of]. rewrite sm_cons. cbn [dec1]. rewrite Nat.eqb_refl. lia.
      * pose proof (occ_ge p (set_nth v x (Some o)) y (Some p)) as G. rewrite rd_set in G by exact Lx. replace (y =? x) with false in G by lia. specialize (G Hy). lia.
  - destruct (decs_of old) as [|w r2] eqn:E; [exact D|]. destruct old; [|discriminate]. cbn in E. injection E as <- <-. exact D.
Qed.

(** Every step preserves the invariant and none is undefined. *)
Lemma inv_step s t c : inv s -> step s t c <> Undef /\ forall s', step s t c = Next s' -> inv s'.
Proof.
  intros I. unfold step. destruct (rd (ths s) t) as [th|] eqn:Ht.
  2: { destruct c; (split; [discriminate|]); intros s' E; try discriminate. cbn [start] in E. injection E as <-. apply inv_spawn, I. }
  assert (A : forall p, In (Some p) (vars th) -> exists ob, live s p ob).
  { intros p Hp. apply occ_in in Hp. pose proof (th_refs s t th p Ht) as G. unfold fr in G. apply ref_live; [exact I|lia]. }
  destruct (work th) as [|w rest] eqn:Hw.
  - assert (V0 : forall o, fr o th = occ o (vars th)) by (intros o; unfold fr; rewrite Hw; change (sm _ []) with 0; lia).
    assert (LOC : forall v' old h, (forall o, occ o v' + one o old = occ o (vars th) + one o h) -> incok (objs s) (mkTh v' (incs_of h ++ decs_of old)) ->
              inv (put s t (mkTh v' (incs_of h ++ decs_of old)))).
    { intros v' old h Ho Hi. apply inv_local with th; try assumption; try (intros o; apply (vals_inc v' h o old)).
      intros o. destruct (vals_inc v' h o old) as (-> & -> & _). rewrite V0. apply Ho. }
    assert (LOC0 : forall v', (forall o, occ o v' = occ o (vars th)) -> inv (put s t (mkTh v' []))).
    { intros v' Ho. apply (LOC v' None None); [intros o; rewrite Ho; reflexivity|]. intros a. reflexivity. }
    destruct c as [n|x ys|x r|x y|x r|x y|x|x u y|b]; cbn [start].
    + split; [discriminate|]. intros s' E. injection E as <-. apply inv_spawn, I.
    + destruct (take_all (vars th) ys) as [hs v1] eqn:Et. destruct (rd v1 x) as [[o|]|] eqn:Ex; (split; [discriminate|]); intros s' E; try discriminate.
      injection E as <-. apply (inv_make s t th hs v1 x ys I Ht Hw Et Ex).
    + destruct (rd (vars th) x) as [[o|]|] eqn:Ex; [split; discriminate| |split; discriminate].
      destruct (read_src_ok s (vars th) r (fun h => Next (put s t (mkTh (set_nth (vars th) x h) (incs_of h)))) A) as [(h & Hs & E)|E]; rewrite E; [|split; discriminate].
      split; [discriminate|]. intros s' K. injection K as <-. rewrite <- (app_nil_r (incs_of h)). change (@nil item) with (decs_of None).
      destruct h as [o|].
      * apply LOC; [intros a; pose proof (occ_set a (vars th) x None (Some o) Ex); lia|]. apply incok_assign with r; [exact Ex|exact Hs|discriminate].
      * apply LOC; [intros a; pose proof (occ_set a (vars th) x None None Ex); lia|]. intros a. reflexivity.
    + destruct (rd (vars th) x) as [[o|]|] eqn:Ex; [split; discriminate| |split; discriminate]. destruct (rd (vars th) y) as [h|] eqn:Ey; [|split; discriminate].
      split; [discriminate|]. intros s' E. injection E as <-. apply LOC0. intros o. pose proof (occ_set o (vars th) y h None Ey) as G1.
      assert (Ex' : rd (set_nth (vars th) y None) x = Some None). { rewrite rd_set by (eapply rd_Some_lt; exact Ey). destruct (x =? y); [reflexivity|exact Ex]. }
      pose proof (occ_set o _ x None h Ex') as G2. lia.
    + destruct (rd (vars th) x) as [old|] eqn:Ex; [|split; discriminate].
      destruct (read_src_ok s (vars th) r (fun h => if same old h then Next s else Next (put s t (mkTh (set_nth (vars th) x h) (incs_of h ++ decs_of old)))) A) as [(h & Hs & E)|E]; rewrite E; [|split; discriminate].
      destruct (same old h) eqn:Es; (split; [discriminate|]); intros s' K; injection K as <-; [exact I|].
      apply LOC; [intros o; apply occ_set, Ex|]. apply incok_assign with r; [exact Ex|exact Hs|]. intros K. apply same_spec in K. congruence.
    + destruct (rd (vars th) x) as [a|] eqn:Ex; [|split; discriminate]. destruct (rd (vars th) y) as [b|] eqn:Ey; [|split; discriminate].
      split; [discriminate|]. intros s' E. injection E as <-. apply LOC0. intros o. pose proof (occ_set o (vars th) x a b Ex) as G1.
      assert (Lx : x < length (vars th)) by (eapply rd_Some_lt; exact Ex).
      assert (Ey' : rd (set_nth (vars th) x b) y = Some b). { rewrite rd_set by exact Lx. destruct (y =? x); [reflexivity|exact Ey]. }
      pose proof (occ_set o _ y b a Ey') as G2. lia.
    + destruct (rd (vars th) x) as [h|] eqn:Ex; [|split; discriminate]. split; [discriminate|]. intros s' E. injection E as <-.
      change (decs_of h) with (incs_of None ++ decs_of h). apply LOC; [intros o; apply occ_set, Ex|].
      unfold incok. cbn [work incs_of app]. destruct h; intros a; reflexivity.
    + destruct (rd (vars th) x) as [h|] eqn:Ex; [|split; discriminate]. destruct (rd (ths s) u) as [tu|] eqn:Hu; [|split; discriminate].
      destruct (Nat.eqb_spec u t) as [|N]; [split; discriminate|]. destruct (rd (vars tu) y) as [[o|]|] eqn:Ey; try (split; discriminate).
      split; [discriminate|]. intros s' E. injection E as <-. apply (inv_send s t u th tu x y h I Ht Hw Hu N Ex Ey).
    + split; discriminate.
  - destruct c as [n|x ys|x r|x y|x r|x y|x|x u y|skewed]; try (split; discriminate).
    destruct th as [v wk]. cbn [work vars] in *. subst wk.
    assert (LV : forall o, dec1 o w = 1 \/ inc1 o w = 1 \/ del1 o w = 1 \/ free1 o w = 1 -> exists ob, live s o ob).
    { intros o Ho. destruct (rd (objs s) o) as [[ob|]|] eqn:E; [exists ob; exact E| |]; exfalso;
        (destruct (v_dead s I o) as (K1 & K2 & K3 & K4); [intros ob K; unfold live in K; congruence|]);
        pose proof (sm_ge (fr o) _ t _ Ht) as G1; pose proof (sm_ge (fi o) _ t _ Ht) as G2; pose proof (sm_ge (fd o) _ t _ Ht) as G3; pose proof (sm_ge (ff o) _ t _ Ht) as G4;
        unfold refs, incs, delp, frees in *; unfold fr at 1 in G1; unfold fi at 1 in G2; unfold fd at 1 in G3; unfold ff at 1 in G4; cbn [work vars] in *; rewrite sm_cons in *; lia. }
    destruct w as [o|o|o|o|o]; cbn [dec1 inc1 del1 free1] in LV; (destruct (LV o) as [ob L]; [rewrite Nat.eqb_refl; tauto|]); assert (L' := L); unfold live in L'; cbn [continue]; unfold fetch_sub, with_obj; rewrite L'.
    + split; [discriminate|]. intros s' E. injection E as <-. eapply inv_winc; [exact I|exact Ht|reflexivity|exact L].
    + destruct skewed; (split; [discriminate|]); intros s' E; injection E as <-; [eapply inv_load|eapply inv_sub]; solve [eassumption|auto].
    + split; [discriminate|]. intros s' E. injection E as <-. eapply inv_sub; solve [eassumption|auto].
    + split; [discriminate|]. intros s' E. injection E as <-. eapply inv_del; solve [eassumption|auto].
    + split; [discriminate|]. intros s' E. injection E as <-. eapply inv_wfree; solve [eassumption|auto].
Qed.
Lemma reach_inv s : reach s -> inv s.
Proof. induction 1 as [|s t c s' _ I H]; [apply inv_init|]. apply (proj2 (inv_step s t c I) s' H). Qed.
