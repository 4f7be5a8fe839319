(** Proofs about [GroupOps_Model]. *)
From Verif Require Import Base Bits_Model Bitmap_Model Dense_Model Dense_Spec Dense_Proofs
  DenseOps_Model DenseOps_Spec DenseOps_Proofs Edge_Model Edge_Spec Edge_Proofs GroupOps_Model GroupOps_Spec.

(** ** Lists *)
Lemma upd_map {B} (f : nat -> B) p q x : q < p ->
  upd (map f (seq 0 p)) q x = Some (map (fun j => if j =? q then x else f j) (seq 0 p)).
Proof.
  intros H. destruct (upd_lt (map f (seq 0 p)) q x) as [l E]; [rewrite map_length, seq_length; exact H|].
  rewrite E. f_equal. apply list_eq_rd. intros i. apply upd_spec in E as (_ & L & R). rewrite R.
  unfold rd. rewrite !nth_error_map. destruct (Nat.lt_ge_cases i p) as [Hi|Hi].
  - rewrite (nth_error_nth' _ 0) by (rewrite seq_length; exact Hi). rewrite seq_nth by exact Hi.
    cbn [option_map Nat.add]. destruct (i =? q); reflexivity.
  - replace (i =? q) with false by lia.
    replace (nth_error (seq 0 p) i) with (@None nat); [reflexivity|].
    symmetry. apply nth_error_None. rewrite seq_length. exact Hi.
Qed.
Lemma rd_map {B} (f : nat -> B) p q : q < p -> rd (map f (seq 0 p)) q = Some (f q).
Proof.
  intros H. unfold rd. rewrite nth_error_map, (nth_error_nth' _ 0) by (rewrite seq_length; exact H).
  rewrite seq_nth by exact H. reflexivity.
Qed.
Lemma map_ext_seq {B} (f g : nat -> B) p : (forall i, i < p -> f i = g i) -> map f (seq 0 p) = map g (seq 0 p).
Proof. intros H. apply map_ext_in. intros i Hi. apply in_seq in Hi. apply H. lia. Qed.
Lemma repeat_map {B} (x : B) p : repeat x p = map (fun _ => x) (seq 0 p).
Proof.
  rewrite <- (seq_length p 0) at 1. generalize (seq 0 p). induction l; [reflexivity|]. cbn. f_equal. exact IHl.
Qed.
Lemma filter_false {B} (P : B -> bool) l : (forall x, In x l -> P x = false) -> filter P l = [].
Proof.
  induction l as [|a l IH]; intros H; [reflexivity|]. cbn [filter]. rewrite (H a) by (left; reflexivity).
  apply IH. intros x Hx. apply H. right. exact Hx.
Qed.
Lemma filter_seq_split (P : nat -> bool) i l1 l2 : forall k lo, filter P (seq lo k) = l1 ++ i :: l2 ->
  lo <= i < lo + k /\ P i = true /\ l1 = filter P (seq lo (i - lo)).
Proof.
  intros k. revert l1. induction k as [|k IH]; intros l1 lo E; cbn [seq filter] in E.
  - destruct l1; discriminate.
  - destruct (P lo) eqn:Ep.
    + destruct l1 as [|a l1].
      * cbn in E. injection E as -> _. split; [lia|]. split; [exact Ep|]. rewrite Nat.sub_diag. reflexivity.
      * cbn in E. injection E as <- E. destruct (IH _ _ E) as (H1 & H2 & H3). split; [lia|]. split; [exact H2|].
        replace (i - lo) with (Datatypes.S (i - Datatypes.S lo)) by lia. cbn [seq filter]. rewrite Ep, H3. reflexivity.
    + destruct (IH _ _ E) as (H1 & H2 & H3). split; [lia|]. split; [exact H2|].
      replace (i - lo) with (Datatypes.S (i - Datatypes.S lo)) by lia. cbn [seq filter]. rewrite Ep. exact H3.
Qed.

(** ** Builder contents as functions *)
Section B.
Context {R : Type}.
Definition setf (f : nat -> option R) (o : nat * option R) : nat -> option R :=
  fun i => match snd o with Some v => if i =? fst o then Some v else f i | None => f i end.
Definition setfs (outs : list (nat * option R)) (f : nat -> option R) := fold_left setf outs f.

Lemma db_inv_ext N (b : dbuilder R) f g : db_inv N b f -> (forall i, i < N -> f i = g i) -> db_inv N b g.
Proof.
  intros (H1 & H2 & H3 & H4) E. split; [exact H1|]. split; [exact H2|]. split; [exact H3|].
  intros i Hi. rewrite <- E by exact Hi. apply H4, Hi.
Qed.
Lemma db_set_f N (b : dbuilder R) f id v : db_inv N b f -> id < N ->
  exists b', db_set b id v = Some b' /\ db_inv N b' (setf f (id, v)).
Proof.
  intros H Hi. destruct (db_set_ok N b f id v H Hi) as (b' & E & I). exists b'. split; [exact E|].
  eapply db_inv_ext; [exact I|]. intros i _. unfold setf, write. cbn [fst snd]. destruct v; [|reflexivity].
  destruct (Nat.eqb_spec i id) as [->|Ne].
  - replace ((id <=? id) && (id <? id + 1)) with true by lia. reflexivity.
  - replace ((id <=? i) && (i <? id + 1)) with false by lia. reflexivity.
Qed.
Lemma build_rep N (b : dbuilder R) f : db_inv N b f -> represents (db_build b) (map f (seq 0 N)).
Proof.
  intros I. destruct (db_build_size_ok N b f N I (Nat.le_refl N)) as (r & E & V & Sz & El).
  rewrite (db_build_full _ _ _ I) in E. injection E as <-. apply represents_fn; assumption.
Qed.
Lemma setfs_at (outs : list (nat * option R)) (o : nat -> option R) : (forall i r, In (i, r) outs -> r = o i) ->
  forall f i, (f i = None \/ f i = o i) ->
  setfs outs f i = if existsb (fun x => fst x =? i) outs then o i else f i.
Proof.
  induction outs as [|[j r] outs IH]; intros Ho f i Hf; cbn [setfs fold_left existsb fst]; [reflexivity|].
  fold (setfs outs (setf f (j, r))).
  assert (Hr : r = o j) by (apply Ho; left; reflexivity). subst r.
  assert (Hs : setf f (j, o j) i = if j =? i then match o i with Some _ => o i | None => f i end else f i).
  { unfold setf. cbn [fst snd]. rewrite (Nat.eqb_sym j i). destruct (Nat.eqb_spec i j) as [->|]; [destruct (o j); reflexivity|].
    destruct (o j); reflexivity. }
  rewrite IH.
  - rewrite Hs. destruct (Nat.eqb_spec j i) as [->|]; cbn [orb]; [|reflexivity].
    destruct (existsb _ outs); [reflexivity|]. destruct (o i) as [v|]; [reflexivity|]. destruct Hf; assumption.
  - intros x y H. apply Ho. right. exact H.
  - rewrite Hs. destruct (j =? i); [|exact Hf]. destruct (o i) as [v|]; [right; reflexivity|exact Hf].
Qed.
End B.

(** ** One group *)
Section Group.
Context {S P C R Err : Type}.
Variable acc : accum S P C R Err.
Variable cls : list (list (option C)).
Notation add := (add acc cls).
Notation next := (next acc).
Notation result := (result acc).
Notation cv := (child_valid acc cls).
Definition padd (s : S) (c : nat) : S := next (add s c).

Fixpoint partial_outs (s : S) (ids : list nat) : list (nat * option R) :=
  match ids with
  | [] => []
  | c :: t => (c, result (add s c)) :: partial_outs (padd s c) t
  end.
Fixpoint draw_outs (s : S) (ids : list nat) : list (nat * option R) :=
  match ids with
  | [] => []
  | c :: t => (c, result s) :: draw_outs (next s) t
  end.
Definition outs (q : nat) (s : S) (ids : list nat) : list (nat * option R) :=
  match a_kind acc with
  | Aggregator => [(q, aggregate acc cls s ids)]
  | Partial => partial_outs s ids
  | Full => draw_outs (a_finalize acc (fold_left add ids s)) ids
  end.

Lemma partial_outs_in i r ids : forall s, In (i, r) (partial_outs s ids) ->
  exists l1 l2, ids = l1 ++ i :: l2 /\ r = result (add (fold_left padd l1 s) i).
Proof.
  induction ids as [|c t IH]; intros s H; [destruct H|]. destruct H as [H|H].
  - injection H as -> <-. exists [], t. split; reflexivity.
  - destruct (IH _ H) as (l1 & l2 & -> & ->). exists (c :: l1), l2. split; reflexivity.
Qed.
Lemma draw_outs_in i r ids : forall s, In (i, r) (draw_outs s ids) ->
  exists l1 l2, ids = l1 ++ i :: l2 /\ r = result (fold_left (fun s _ => next s) l1 s).
Proof.
  induction ids as [|c t IH]; intros s H; [destruct H|]. destruct H as [H|H].
  - injection H as -> <-. exists [], t. split; reflexivity.
  - destruct (IH _ H) as (l1 & l2 & -> & ->). exists (c :: l1), l2. split; reflexivity.
Qed.
Lemma partial_outs_fst ids : forall s, map fst (partial_outs s ids) = ids.
Proof. induction ids as [|c t IH]; intros s; [reflexivity|]. cbn. f_equal. apply IH. Qed.
Lemma draw_outs_fst ids : forall s, map fst (draw_outs s ids) = ids.
Proof. induction ids as [|c t IH]; intros s; [reflexivity|]. cbn. f_equal. apply IH. Qed.

(** Value read for member [i] of a group whose members are [filter Q (seq 0 k)]. *)
Lemma outs_in q s (Q : nat -> bool) k i r : a_kind acc <> Aggregator ->
  In (i, r) (outs q s (filter Q (seq 0 k))) ->
  i < k /\ Q i = true /\
  r = child_result acc cls s (filter Q (seq 0 i)) (filter Q (seq 0 k)) i.
Proof.
  intros Hk H. unfold outs in H. unfold child_result. destruct (a_kind acc); [congruence| |].
  - apply partial_outs_in in H as (l1 & l2 & E & ->). apply filter_seq_split in E as (H1 & H2 & ->).
    rewrite Nat.sub_0_r. split; [lia|]. split; [exact H2|]. reflexivity.
  - apply draw_outs_in in H as (l1 & l2 & E & ->). apply filter_seq_split in E as (H1 & H2 & ->).
    rewrite Nat.sub_0_r. split; [lia|]. split; [exact H2|]. reflexivity.
Qed.
Lemma outs_exists q s ids i : a_kind acc <> Aggregator ->
  existsb (fun x => fst x =? i) (outs q s ids) = existsb (fun j => j =? i) ids.
Proof.
  intros Hk. assert (G : map fst (outs q s ids) = ids).
  { unfold outs. destruct (a_kind acc); [congruence|apply partial_outs_fst|apply draw_outs_fst]. }
  rewrite <- G at 2. generalize (outs q s ids). induction l as [|a l IH]; [reflexivity|]. cbn. rewrite IH. reflexivity.
Qed.
Lemma existsb_filter_seq (Q : nat -> bool) k i : existsb (fun j => j =? i) (filter Q (seq 0 k)) = (i <? k) && Q i.
Proof.
  apply Bool.eq_iff_eq_true. rewrite existsb_exists. split.
  - intros (x & Hx & E). apply Nat.eqb_eq in E as ->. apply filter_In in Hx as [Hx Hq]. apply in_seq in Hx.
    rewrite Hq. lia.
  - intros H. apply andb_true_iff in H as [H1 H2]. exists i. split; [|apply Nat.eqb_refl].
    apply filter_In. split; [apply in_seq; lia|exact H2].
Qed.

(** *** The callback loop *)
Lemma child_steps calls ids : Forall2 (row_call (a_copts acc) cls) calls ids ->
  match a_kind acc with
  | Aggregator => forall s b rows, fold_opt (child_step acc) calls (s, b, rows)
      = Some (fold_left add (filter cv ids) s, b, rows)
  | Full => forall s b rows, fold_opt (child_step acc) calls (s, b, rows)
      = Some (fold_left add (filter cv ids) s, b, rows ++ filter cv ids)
  | Partial => forall N s b rows f, db_inv N b f -> Forall (fun i => i < N) ids ->
      exists b', fold_opt (child_step acc) calls (s, b, rows) = Some (fold_left padd (filter cv ids) s, b', rows) /\
        db_inv N b' (setfs (partial_outs s (filter cv ids)) f)
  end.
Proof.
  intros F. destruct (a_kind acc) eqn:K.
  - induction F as [|[[id v] r] i calls ids (E1 & E2 & E3) F IH]; intros s b rows; [reflexivity|].
    cbn [fold_opt child_step]. cbn [filter]. fold (cv i) in E2. rewrite <- E2. destruct v.
    + rewrite K. cbn [bind fold_left]. rewrite IH. subst id. rewrite (E3 eq_refl). reflexivity.
    + apply IH.
  - induction F as [|[[id v] r] i calls ids (E1 & E2 & E3) F IH]; intros N s b rows f I HN.
    + exists b. split; [reflexivity|exact I].
    + inversion HN as [|? ? H1 H2]; subst. cbn [fold_opt child_step]. cbn [filter]. fold (cv i). destruct (cv i) eqn:Ev.
      * rewrite K. unfold g_add. rewrite E3 by exact Ev. fold (add s i).
        rewrite (surjective_pairing (a_result acc (add s i))).
        destruct (db_set_f N b f i (result (add s i)) I H1) as (b1 & Eb & I1).
        change (fst (a_result acc (add s i))) with (result (add s i)). rewrite Eb. cbn [bind].
        destruct (IH N (padd s i) b1 rows _ I1 H2) as (b2 & E & I2). exists b2. split; [exact E|exact I2].
      * cbn [bind]. apply IH; assumption.
  - induction F as [|[[id v] r] i calls ids (E1 & E2 & E3) F IH]; intros s b rows.
    + cbn. rewrite app_nil_r. reflexivity.
    + cbn [fold_opt child_step]. cbn [filter]. fold (cv i) in E2. rewrite <- E2. destruct v.
      * rewrite K. cbn [bind fold_left]. rewrite IH. subst id. rewrite (E3 eq_refl), <- app_assoc. reflexivity.
      * apply IH.
Qed.
Lemma draw_steps N ids : Forall (fun i => i < N) ids -> forall s b f, db_inv N b f ->
  exists b', fold_opt (draw_step acc) ids (s, b) = Some (fold_left (fun s _ => next s) ids s, b') /\
    db_inv N b' (setfs (draw_outs s ids) f).
Proof.
  induction 1 as [|i ids Hi _ IH]; intros s b f I; [exists b; split; [reflexivity|exact I]|].
  cbn [fold_opt draw_step]. rewrite (surjective_pairing (a_result acc s)).
  destruct (db_set_f N b f i (result s) I Hi) as (b1 & Eb & I1).
  change (fst (a_result acc s)) with (result s). rewrite Eb. cbn [bind].
  destruct (IH (next s) b1 _ I1) as (b2 & E & I2). exists b2. split; [exact E|exact I2].
Qed.

(** All the work for one group. *)
Lemma group_ok N q calls ids s b f : Forall2 (row_call (a_copts acc) cls) calls ids -> db_inv N b f ->
  (a_kind acc = Aggregator -> q < N) -> (a_kind acc <> Aggregator -> Forall (fun i => i < N) ids) ->
  exists b', (let? x := fold_opt (child_step acc) calls (s, b, []) in
     let '(s, b, rows) := x in
     match a_kind acc with
     | Aggregator => draw_step acc (s, b) q
     | Partial => Some (s, b)
     | Full => fold_opt (draw_step acc) rows (a_finalize acc s, b)
     end) = Some (group_final acc cls s (filter cv ids), b') /\
    db_inv N b' (setfs (outs q s (filter cv ids)) f).
Proof.
  intros F I Hq Hids. assert (Hc := child_steps calls ids F). unfold outs, group_final.
  destruct (a_kind acc) eqn:K.
  - rewrite Hc. cbn [bind].
    assert (Fq : Forall (fun i => i < N) [q]) by (constructor; [apply Hq; reflexivity|constructor]).
    destruct (draw_steps N [q] Fq (fold_left add (filter cv ids) s) b f I) as (b' & E & I').
    exists b'. cbn [fold_opt] in E. destruct (draw_step acc _ q) as [[s' b1]|]; [|discriminate]. cbn [bind] in E. split; [exact E|exact I'].
  - destruct (Hc N s b [] f I) as (b' & E & I'); [apply Hids; discriminate|]. rewrite E. cbn [bind].
    exists b'. split; [reflexivity|exact I'].
  - rewrite Hc. cbn [bind app]. apply draw_steps; [|exact I].
    apply Forall_forall. intros x Hx. apply filter_In in Hx as [Hx _].
    assert (Ha : Forall (fun i => i < N) ids) by (apply Hids; discriminate). rewrite Forall_forall in Ha. apply Ha, Hx.
Qed.

(** *** Independence of the past *)
Lemma alike_ok rel (a b : S) : alike acc rel a b -> (ok acc a <-> ok acc b).
Proof. intros [(H1 & H2 & _)|[H1 H2]]; tauto. Qed.

Section Con.
Hypothesis Hbad : forall s, ~ ok acc s -> (forall r, ~ ok acc (a_reset acc r s)) /\ (forall i r, ~ ok acc (a_add acc i r s)) /\
     ~ ok acc (a_finalize acc s) /\ ~ ok acc (snd (a_result acc s)).

Lemma bad_fold (g : S -> nat -> S) : (forall s c, ~ ok acc s -> ~ ok acc (g s c)) ->
  forall ids s, ~ ok acc s -> ~ ok acc (fold_left g ids s).
Proof. intros Hg. induction ids as [|c t IH]; intros s H; [exact H|]. cbn [fold_left]. apply IH, Hg, H. Qed.
Lemma bad_add s c : ~ ok acc s -> ~ ok acc (add s c). Proof. intros H. apply (Hbad s H). Qed.
Lemma bad_next s : ~ ok acc s -> ~ ok acc (next s). Proof. intros H. apply (Hbad s H). Qed.
Lemma bad_padd s c : ~ ok acc s -> ~ ok acc (padd s c). Proof. intros H. apply bad_next, bad_add, H. Qed.
Lemma bad_final s ids : ~ ok acc s -> ~ ok acc (group_final acc cls s ids).
Proof.
  intros H. unfold group_final. destruct (a_kind acc).
  - apply bad_next, bad_fold; [apply bad_add|exact H].
  - apply (bad_fold padd); [apply bad_padd|exact H].
  - apply bad_fold; [intros ? _; apply bad_next|]. apply (Hbad (fold_left add ids s)). apply bad_fold; [apply bad_add|exact H].
Qed.
Lemma ok_dec s : ok acc s \/ ~ ok acc s.
Proof. unfold ok. destruct (a_status acc s); [right; discriminate|left; reflexivity]. Qed.

Variables sim fin : S -> S -> Prop.
Hypothesis Hadd : forall i r s s', ok acc s -> ok acc s' -> sim s s' -> alike acc sim (a_add acc i r s) (a_add acc i r s').
Hypothesis Hres : a_kind acc <> Full -> forall s s', ok acc s -> ok acc s' -> sim s s' -> same_result acc sim s s'.
Hypothesis Hfin : a_kind acc = Full -> forall s s', ok acc s -> ok acc s' -> sim s s' -> alike acc fin (a_finalize acc s) (a_finalize acc s').
Hypothesis Hdraw : a_kind acc = Full -> forall s s', ok acc s -> ok acc s' -> fin s s' -> same_result acc fin s s'.

Lemma fold_add_alike ids : forall s s', alike acc sim s s' -> alike acc sim (fold_left add ids s) (fold_left add ids s').
Proof.
  induction ids as [|c t IH]; intros s s' H; [exact H|]. cbn [fold_left]. apply IH.
  destruct H as [(H1 & H2 & H3)|[H1 H2]]; [apply Hadd; assumption|right; split; apply bad_add; assumption].
Qed.
Lemma partial_alike : a_kind acc = Partial -> forall ids s s', alike acc sim s s' ->
  (ok acc (fold_left padd ids s) <-> ok acc (fold_left padd ids s')) /\
  (ok acc (fold_left padd ids s) -> partial_outs s ids = partial_outs s' ids).
Proof.
  intros K. induction ids as [|c t IH]; intros s s' H; cbn [fold_left partial_outs]; [split; [apply (alike_ok _ _ _ H)|reflexivity]|].
  assert (Ha : alike acc sim (add s c) (add s' c)).
  { destruct H as [(H1 & H2 & H3)|[H1 H2]]; [apply Hadd; assumption|right; split; apply bad_add; assumption]. }
  destruct Ha as [(H1 & H2 & H3)|[H1 H2]].
  - destruct (Hres ltac:(congruence) _ _ H1 H2 H3) as [Hn Hr]. destruct (IH (padd s c) (padd s' c) Hn) as [I1 I2]. split; [exact I1|].
    intros Hok. rewrite I2 by exact Hok. f_equal. f_equal. apply Hr.
    destruct (ok_dec (snd (a_result acc (add s c)))) as [Y|Y]; [exact Y|].
    exfalso. exact (bad_fold padd bad_padd t _ Y Hok).
  - assert (B1 := bad_fold padd bad_padd t _ (bad_next _ H1)). assert (B2 := bad_fold padd bad_padd t _ (bad_next _ H2)).
    unfold padd at 2 4 6. split; tauto.
Qed.
Lemma draw_alike : a_kind acc = Full -> forall ids s s', alike acc fin s s' ->
  let d := fold_left (fun s (_ : nat) => next s) in
  (ok acc (d ids s) <-> ok acc (d ids s')) /\
  (ok acc (d ids s) -> draw_outs s ids = draw_outs s' ids).
Proof.
  intros K. cbv zeta. induction ids as [|c t IH]; intros s s' H; cbn [fold_left draw_outs]; [split; [apply (alike_ok _ _ _ H)|reflexivity]|].
  destruct H as [(H1 & H2 & H3)|[H1 H2]].
  - destruct (Hdraw K _ _ H1 H2 H3) as [Hn Hr]. destruct (IH (next s) (next s') Hn) as [I1 I2]. split; [exact I1|].
    intros Hok. rewrite I2 by exact Hok. f_equal. f_equal. apply Hr.
    destruct (ok_dec (snd (a_result acc s))) as [Y|Y]; [exact Y|].
    exfalso. exact (bad_fold (fun s _ => next s) (fun s _ => bad_next s) t _ Y Hok).
  - assert (B1 := bad_fold (fun s _ => next s) (fun s _ => bad_next s) t _ (bad_next _ H1)).
    assert (B2 := bad_fold (fun s _ => next s) (fun s _ => bad_next s) t _ (bad_next _ H2)). split; tauto.
Qed.
Lemma group_alike q ids s s' : alike acc sim s s' ->
  (ok acc (group_final acc cls s ids) <-> ok acc (group_final acc cls s' ids)) /\
  (ok acc (group_final acc cls s ids) -> outs q s ids = outs q s' ids).
Proof.
  intros H. unfold group_final, outs. assert (Ha := fold_add_alike ids s s' H). remember (a_kind acc) as k eqn:K in |- *. symmetry in K. destruct k.
  - destruct Ha as [(H1 & H2 & H3)|[H1 H2]].
    + destruct (Hres ltac:(congruence) _ _ H1 H2 H3) as [Hn Hr]. split; [apply (alike_ok _ _ _ Hn)|].
      intros Hok. unfold aggregate. f_equal. f_equal. apply Hr, Hok.
    + assert (B1 := bad_next _ H1). assert (B2 := bad_next _ H2). split; tauto.
  - apply partial_alike; [exact K|exact H].
  - apply draw_alike; [exact K|]. destruct Ha as [(H1 & H2 & H3)|[H1 H2]].
    + apply Hfin; [exact K|assumption..].
    + right. split; [apply (Hbad _ H1)|apply (Hbad _ H2)].
Qed.
End Con.
End Group.

(** ** Operators *)
Lemma sizes_ok {A} (l : list (darr A)) ls (Q : darr A -> bool) n : Forall2 represents l ls ->
  Forall (fun x => length x = n) ls -> (forall a, da_size a = n -> Q a = false) -> existsb Q l = false.
Proof.
  intros H Hn HQ. induction H as [|a x l ls Hr _ IH]; [reflexivity|]. inversion Hn; subst. cbn [existsb].
  rewrite HQ by apply Hr. apply IH. assumption.
Qed.

Section Ops.
Context {S P C R Err : Type}.
Variable acc : accum S P C R Err.
Notation kind_agg := (a_kind acc = Aggregator).

Lemma scalar_finish n cls prow b : a_kind acc <> Aggregator ->
  db_inv n b (setfs (outs acc cls 0 (start acc prow) (filter (child_valid acc cls) (seq 0 n))) (fun _ => None)) ->
  let s := group_final acc cls (start acc prow) (filter (child_valid acc cls) (seq 0 n)) in
  match a_status acc (group_final acc cls (start acc prow) (all_members acc cls n)) with
  | Some e => finish acc s b = GError e
  | None => exists d, finish acc s b = GOut d /\ represents d (map (scalar_out acc cls n prow) (seq 0 n))
  end.
Proof.
  intros K I. cbv zeta. unfold finish. fold (all_members acc cls n) in *.
  destruct (a_status acc _); [reflexivity|]. eexists. split; [reflexivity|].
  eapply eq_rect; [apply build_rep; exact I|]. apply map_ext_seq. intros i Hi.
  rewrite (setfs_at _ (scalar_out acc cls n prow)).
  - rewrite outs_exists by exact K. unfold all_members. rewrite existsb_filter_seq.
    replace (i <? n) with true by lia. cbn [andb]. unfold scalar_out. destruct (child_valid acc cls i); reflexivity.
  - intros j r Hin. apply outs_in in Hin as (H1 & H2 & ->); [|exact K]. unfold scalar_out. rewrite H2. reflexivity.
  - left. reflexivity.
Qed.

Lemma scalar_ok alloc n prow (cargs : list (darr C)) cls :
  length cargs = length (a_copts acc) -> Forall2 represents cargs cls -> Forall (fun l => length l = n) cls ->
  (forall k, length (alloc k) = k) ->
  exists res, apply_scalar acc alloc n prow cargs = Some res /\
    match a_status acc (group_final acc cls (start acc prow) (all_members acc cls n)) with
    | Some e => res = GError e
    | None => match a_kind acc with
              | Aggregator => res = GScalar (aggregate acc cls (start acc prow) (all_members acc cls n))
              | _ => exists d, res = GOut d /\ represents d (map (scalar_out acc cls n prow) (seq 0 n))
              end
    end.
Proof.
  intros Hl HR Hn Ha. unfold apply_scalar.
  rewrite (sizes_ok cargs cls _ n HR Hn) by (intros a ->; rewrite Nat.eqb_refl; reflexivity).
  destruct (rep_iterate false n (a_copts acc) cargs cls 0 n Hl HR Hn) as (calls & Ec & Fc); [discriminate|lia|].
  rewrite Ec. cbn [bind]. rewrite Nat.sub_0_r in Fc. fold (start acc prow).
  destruct (a_kind acc) eqn:K.
  - assert (Hc := child_steps acc cls calls _ Fc). rewrite K in Hc. rewrite Hc. cbn [bind fst].
    unfold group_final. rewrite K. fold (all_members acc cls n).
    rewrite (surjective_pairing (a_result acc _)). eexists. split; [reflexivity|].
    fold (next acc (fold_left (add acc cls) (all_members acc cls n) (start acc prow))).
    destruct (a_status acc _); reflexivity.
  - destruct (group_ok acc cls n 0 calls (seq 0 n) (start acc prow) (db_init (alloc n)) (fun _ => None) Fc) as (b' & E & I).
    { rewrite <- (Ha n) at 1. apply db_init_inv. } { congruence. }
    { intros _. apply Forall_forall. intros x Hx. apply in_seq in Hx. lia. }
    rewrite K in E. destruct (fold_opt (child_step acc) calls _) as [[[s1 b1] rows]|]; [|discriminate]. cbn [bind] in E |- *.
    injection E as -> ->. cbn [bind fst snd]. eexists. split; [reflexivity|].
    apply scalar_finish; [congruence|exact I].
  - destruct (group_ok acc cls n 0 calls (seq 0 n) (start acc prow) (db_init (alloc n)) (fun _ => None) Fc) as (b' & E & I).
    { rewrite <- (Ha n) at 1. apply db_init_inv. } { congruence. }
    { intros _. apply Forall_forall. intros x Hx. apply in_seq in Hx. lia. }
    rewrite K in E. destruct (fold_opt (child_step acc) calls _) as [[[s1 b1] rows]|]; [|discriminate]. cbn [bind] in E |- *.
    rewrite E. cbn [bind fst snd]. eexists. split; [reflexivity|].
    apply scalar_finish; [congruence|exact I].
Qed.


(** *** Split points *)
Section Shared.
Variables (pls : list (list (option P))) (cls : list (list (option C))) (m : list (option nat)) (p : nat).
Notation n := (length m).
Notation gv := (group_valid acc pls).
Notation cv := (child_valid acc cls).
Notation mem_ q k := (members acc cls m q k).
Notation fin_of := (final_of acc pls cls n m).
Notation rows := (match a_kind acc with Aggregator => p | _ => n end).

Lemma members_in q k c : In c (mem_ q k) <-> c < k /\ nth c m None = Some q /\ cv c = true.
Proof.
  unfold members. rewrite filter_In, in_seq, andb_true_iff. split.
  - intros (H1 & H2 & H3). split; [lia|]. split; [|exact H3]. destruct (nth c m None) as [r|]; [|discriminate].
    apply Nat.eqb_eq in H2. congruence.
  - intros (H1 & -> & ->). rewrite Nat.eqb_refl. repeat split; lia.
Qed.

Lemma split_members s q : split_of s p m -> q < p ->
  mem_ q n = filter cv (seq (nth q s 0) (nth (Datatypes.S q) s 0 - nth q s 0)).
Proof.
  intros Hs Hq. assert (Hs' := Hs). destruct Hs' as ((Hne & H0 & Hmo) & Hl & He & H).
  assert (Hab : nth q s 0 <= nth (Datatypes.S q) s 0) by (apply Hmo; lia).
  assert (Hbn : nth (Datatypes.S q) s 0 <= n) by (apply (split_le s p m); [exact Hs|lia]).
  set (a := nth q s 0) in *. set (b := nth (Datatypes.S q) s 0) in *. unfold members.
  replace n with (a + ((b - a) + (n - b))) by lia. rewrite !seq_app, !filter_app. cbn [Nat.add].
  rewrite (filter_false _ (seq 0 a)).
  2:{ intros c Hc. apply in_seq in Hc. destruct (nth c m None) as [r|] eqn:Er; [|reflexivity].
      assert (Hx := split_char s p m c r q Hs ltac:(lia) Er). fold a in Hx. replace (r =? q) with false by lia. reflexivity. }
  rewrite (filter_false _ (seq (a + (b - a)) (n - b))).
  2:{ intros c Hc. apply in_seq in Hc. destruct (nth c m None) as [r|] eqn:Er; [|reflexivity].
      assert (Hx := split_char s p m c r (Datatypes.S q) Hs ltac:(lia) Er). fold b in Hx. replace (r =? q) with false by lia. reflexivity. }
  rewrite app_nil_r. cbn [app]. apply filter_ext_in. intros c Hc. apply in_seq in Hc.
  rewrite (H q c Hq) by (fold a b; lia). rewrite Nat.eqb_refl. reflexivity.
Qed.

(** What position [i] of the result must be, and whether it belongs to a group before [k]. *)
Definition want (i : nat) : option R :=
  match a_kind acc with Aggregator => parent_out acc pls cls n m i | _ => child_out acc pls cls n m i end.
Definition owned (k i : nat) : bool :=
  match a_kind acc with
  | Aggregator => i <? k
  | _ => match nth i m None with Some q => q <? k | None => false end
  end.

Lemma outs_want q i r : gv q = true ->
  In (i, r) (outs acc cls q (start acc (row pls q)) (mem_ q n)) -> r = want i.
Proof.
  intros Hv Hin. unfold want. destruct (a_kind acc) eqn:K.
  - unfold outs in Hin. rewrite K in Hin. destruct Hin as [E|[]]. injection E as -> <-. unfold parent_out. rewrite Hv. reflexivity.
  - apply outs_in in Hin as (H1 & H2 & ->); [|congruence]. apply andb_true_iff in H2 as [H2 H3].
    unfold child_out. destruct (nth i m None) as [q'|]; [|discriminate]. apply Nat.eqb_eq in H2 as ->. rewrite Hv, H3. reflexivity.
  - apply outs_in in Hin as (H1 & H2 & ->); [|congruence]. apply andb_true_iff in H2 as [H2 H3].
    unfold child_out. destruct (nth i m None) as [q'|]; [|discriminate]. apply Nat.eqb_eq in H2 as ->. rewrite Hv, H3. reflexivity.
Qed.
(** Positions of group [q] that are not written have no value. *)
Lemma outs_missing q i s : i < rows -> owned (Datatypes.S q) i = true -> owned q i = false ->
  gv q = false \/ existsb (fun x => fst x =? i) (outs acc cls q s (mem_ q n)) = false -> want i = None.
Proof.
  intros Hi H1 H2 H3. unfold owned, want in *. destruct (a_kind acc) eqn:K.
  - replace i with q in * by lia. unfold parent_out. destruct H3 as [->|H3]; [reflexivity|].
    unfold outs in H3. rewrite K in H3. cbn [existsb fst] in H3. rewrite Nat.eqb_refl in H3. discriminate.
  - unfold child_out. destruct (nth i m None) as [q'|] eqn:Em; [|discriminate]. replace q' with q in * by lia.
    destruct H3 as [->|H3]; [reflexivity|]. rewrite outs_exists in H3 by congruence.
    unfold members in H3. rewrite existsb_filter_seq, Em, Nat.eqb_refl in H3. cbn [andb] in H3.
    destruct (cv i); [lia|]. rewrite andb_false_r. reflexivity.
  - unfold child_out. destruct (nth i m None) as [q'|] eqn:Em; [|discriminate]. replace q' with q in * by lia.
    destruct H3 as [->|H3]; [reflexivity|]. rewrite outs_exists in H3 by congruence.
    unfold members in H3. rewrite existsb_filter_seq, Em, Nat.eqb_refl in H3. cbn [andb] in H3.
    destruct (cv i); [lia|]. rewrite andb_false_r. reflexivity.
Qed.
Lemma outs_owned q i s : existsb (fun x => fst x =? i) (outs acc cls q s (mem_ q n)) = true ->
  owned (Datatypes.S q) i = true.
Proof.
  unfold owned. destruct (a_kind acc) eqn:K; intros H.
  - unfold outs in H. rewrite K in H. cbn [existsb fst] in H. lia.
  - rewrite outs_exists in H by congruence. unfold members in H. rewrite existsb_filter_seq in H.
    destruct (nth i m None); lia.
  - rewrite outs_exists in H by congruence. unfold members in H. rewrite existsb_filter_seq in H.
    destruct (nth i m None); lia.
Qed.
Lemma owned_mono k i : owned k i = true -> owned (Datatypes.S k) i = true.
Proof. unfold owned. destruct (a_kind acc); [lia| |]; (destruct (nth i m None); [lia|discriminate]). Qed.

Lemma group_step_content q : gv q = true -> forall i f, i < rows ->
  f i = (if owned q i then want i else None) ->
  setfs (outs acc cls q (start acc (row pls q)) (mem_ q n)) f i = if owned (Datatypes.S q) i then want i else None.
Proof.
  intros Hv i f Hi Hf. rewrite (setfs_at _ want).
  - destruct (existsb _ _) eqn:Ex.
    + rewrite (outs_owned _ _ _ Ex). reflexivity.
    + rewrite Hf. destruct (owned q i) eqn:E1; [rewrite owned_mono by exact E1; reflexivity|].
      destruct (owned (Datatypes.S q) i) eqn:E2; [|reflexivity].
      symmetry. eapply outs_missing; [exact Hi|exact E2|exact E1|right; exact Ex].
  - intros j r H. eapply outs_want; [exact Hv|exact H].
  - rewrite Hf. destruct (owned q i); [right|left]; reflexivity.
Qed.
Lemma skip_step_content q : gv q = false -> forall i (f : nat -> option R), i < rows ->
  f i = (if owned q i then want i else None) -> f i = if owned (Datatypes.S q) i then want i else None.
Proof.
  intros Hv i f Hi Hf. rewrite Hf. destruct (owned q i) eqn:E1; [rewrite owned_mono by exact E1; reflexivity|].
  destruct (owned (Datatypes.S q) i) eqn:E2; [|reflexivity]. symmetry.
  eapply (outs_missing q i (a_empty acc)); [exact Hi|exact E2|exact E1|left; exact Hv].
Qed.
Lemma first_error_snoc l q : first_error acc pls cls n m (l ++ [q]) =
  match first_error acc pls cls n m l with Some e => Some e | None => group_error acc pls cls n m q end.
Proof.
  induction l as [|a l IH]; cbn [app first_error]; [destruct (group_error acc pls cls n m q); reflexivity|].
  destruct (group_error acc pls cls n m a); [reflexivity|exact IH].
Qed.

Variables (pargs : list (darr P)) (cargs : list (darr C)).
Hypothesis Hpl : length pargs = length (a_popts acc).
Hypothesis Hpr : Forall2 represents pargs pls.
Hypothesis Hpn : Forall (fun l => length l = p) pls.
Hypothesis Hcl : length cargs = length (a_copts acc).
Hypothesis Hcr : Forall2 represents cargs cls.
Hypothesis Hcn : Forall (fun l => length l = n) cls.

Lemma process_group_ok s sp q st b f : split_of s p m -> vals sp = zs s -> q < p -> db_inv rows b f ->
  exists b', process_group acc sp cargs (st, b) q = Some (group_final acc cls st (mem_ q n), b') /\
    db_inv rows b' (setfs (outs acc cls q st (mem_ q n)) f).
Proof.
  intros Hs Hv Hq I. unfold process_group. rewrite Hv.
  assert (Hlen : length s = Datatypes.S p) by apply Hs.
  rewrite rd_zs by lia. cbn [bind]. rewrite rd_zs by lia. cbn [bind]. rewrite Nat.add_1_r.
  assert (Hab : nth q s 0 <= nth (Datatypes.S q) s 0) by (apply Hs; lia).
  assert (Hbn : nth (Datatypes.S q) s 0 <= n) by (apply (split_le s p m); [exact Hs|lia]).
  rewrite (split_members s q Hs Hq).
  set (a := nth q s 0) in *. set (e := nth (Datatypes.S q) s 0) in *.
  replace ((0 <=? Z.of_nat a)%Z && (Z.of_nat a <=? Z.of_nat e)%Z) with true by lia. cbn [bind guard].
  rewrite !Nat2Z.id.
  destruct (rep_iterate false n (a_copts acc) cargs cls a e Hcl Hcr Hcn) as (calls & Ec & Fc); [discriminate|lia|].
  rewrite Ec. cbn [bind]. apply group_ok; [exact Fc|exact I|intros K; rewrite K; exact Hq|].
  intros K. apply Forall_forall. intros x Hx. apply in_seq in Hx. destruct (a_kind acc); [congruence|lia|lia].
Qed.

Lemma splits_ok sp mem_buf s : contract acc -> ok acc (a_empty acc) ->
  split_of s p m -> represents sp (map Some (zs s)) -> length mem_buf = rows ->
  exists res, apply_splits acc p sp pargs cargs mem_buf = Some res /\
    match first_error acc pls cls n m (seq 0 p) with
    | Some _ => exists e, res = GError e
    | None => exists d, res = GOut d /\ represents d (outputs acc pls cls n m p)
    end.
Proof.
  intros (Hbad & sim & fin & Hreset & Hadd & Hres & Hfin & Hdraw) He Hs Hsp Hmem.
  assert (Hv := rep_full_vals _ _ Hsp). unfold apply_splits.
  unfold da_size. rewrite Hv, zs_len. replace (length s) with (Datatypes.S p) by (symmetry; apply Hs).
  replace (Datatypes.S p =? p + 1) with true by lia. cbn [negb].
  destruct (rep_iterate_from_zero false p (a_popts acc) pargs pls p Hpl Hpr Hpn) as (calls & Ec & Fc); [discriminate|lia|].
  rewrite Ec. cbn [bind].
  assert (G : forall calls' k, k <= p -> Forall2 (row_call (a_popts acc) pls) calls' (seq (p - k) k) ->
    forall st b f, db_inv rows b f ->
    (ok acc st /\ first_error acc pls cls n m (seq 0 (p - k)) = None /\ (forall i, i < rows -> f i = if owned (p - k) i then want i else None)
     \/ ~ ok acc st /\ first_error acc pls cls n m (seq 0 (p - k)) <> None) ->
    exists st' b' f', fold_opt (fun (st : S * dbuilder R) (c : nat * bool * list (option P)) =>
      let '(parent, valid, args) := c in
      if (valid : bool) then process_group acc sp cargs (a_reset acc args (fst st), snd st) parent
      else Some st) calls' (st, b) = Some (st', b') /\ db_inv rows b' f' /\
      (ok acc st' /\ first_error acc pls cls n m (seq 0 p) = None /\ (forall i, i < rows -> f' i = if owned p i then want i else None)
       \/ ~ ok acc st' /\ first_error acc pls cls n m (seq 0 p) <> None)).
  { induction calls' as [|[[id v] r] t IH]; intros k Hk F st b f I Hst.
    - inversion F as [E|]. symmetry in E. destruct k; [|discriminate]. rewrite Nat.sub_0_r in Hst.
      exists st, b, f. split; [reflexivity|]. split; [exact I|exact Hst].
    - destruct k as [|k]; [inversion F|]. cbn [seq] in F. inversion F as [|? ? ? ? Hrc F']; subst.
      destruct Hrc as (E1 & E2 & E3). subst id v.
      replace (Datatypes.S (p - Datatypes.S k)) with (p - k) in F' by lia.
      set (q := p - Datatypes.S k) in *. assert (Hq : q < p) by lia. cbn [fold_opt fst snd].
      assert (Eseq : seq 0 (p - k) = seq 0 q ++ [q]) by (replace (p - k) with (q + 1) by lia; rewrite seq_app; reflexivity).
      change (row_defined (a_popts acc) (row pls q)) with (gv q) in *.
      destruct (gv q) eqn:Eg.
      + rewrite (E3 eq_refl). clear E3.
        destruct (process_group_ok s sp q (a_reset acc (row pls q) st) b f Hs Hv Hq I) as (b1 & E & I1).
        rewrite E. cbn [bind]. apply (IH k ltac:(lia) F' _ b1 _ I1). rewrite Eseq, first_error_snoc.
        destruct Hst as [(Hok & Hfe & Hf)|[Hnok Hfe]].
        * rewrite Hfe. unfold group_error. rewrite Eg.
          assert (Hal := group_alike acc cls Hbad sim fin Hadd Hres Hfin Hdraw q (mem_ q n) _ _ (Hreset (row pls q) st (a_empty acc) Hok He)).
          fold (start acc (row pls q)) in Hal. destruct Hal as [Hal1 Hal2].
          destruct (ok_dec acc (group_final acc cls (a_reset acc (row pls q) st) (mem_ q n))) as [Y|Y].
          -- left. split; [exact Y|]. split; [apply Hal1, Y|]. intros i Hi. rewrite (Hal2 Y).
             replace (p - k) with (Datatypes.S q) by lia. apply group_step_content; [exact Eg|exact Hi|apply Hf, Hi].
          -- right. split; [exact Y|]. unfold final_of. rewrite Hal1 in Y. exact Y.
        * right. split; [apply bad_final; [exact Hbad|]; apply (Hbad st Hnok)|].
          destruct (first_error acc pls cls n m (seq 0 q)); [discriminate|congruence].
      + cbn [bind]. apply (IH k ltac:(lia) F' _ b _ I). rewrite Eseq, first_error_snoc. unfold group_error. rewrite Eg.
        destruct Hst as [(Hok & Hfe & Hf)|[Hnok Hfe]].
        * left. split; [exact Hok|]. split; [rewrite Hfe; reflexivity|]. intros i Hi.
          replace (p - k) with (Datatypes.S q) by lia. apply skip_step_content; [exact Eg|exact Hi|apply Hf, Hi].
        * right. split; [exact Hnok|]. destruct (first_error acc pls cls n m (seq 0 q)); [discriminate|congruence]. }
  destruct (G calls p (Nat.le_refl p)) with (st := a_empty acc) (b := db_init mem_buf) (f := fun _ : nat => @None R)
    as (st' & b' & f' & E & I & H).
  { rewrite Nat.sub_diag. exact Fc. }
  { rewrite <- Hmem. apply db_init_inv. }
  { left. rewrite Nat.sub_diag. split; [exact He|]. split; [reflexivity|]. intros i _.
    replace (owned 0 i) with false; [reflexivity|]. unfold owned. destruct (a_kind acc); [reflexivity| |]; (destruct (nth i m None); reflexivity). }
  rewrite E. cbn [bind fst snd]. eexists. split; [reflexivity|]. unfold finish.
  destruct H as [(Hok & Hfe & Hf)|[Hnok Hfe]].
  - rewrite Hfe, Hok. eexists. split; [reflexivity|]. eapply eq_rect; [apply build_rep; exact I|].
    unfold outputs. transitivity (map want (seq 0 rows)).
    + apply map_ext_seq. intros i Hi. rewrite Hf by exact Hi. replace (owned p i) with true; [reflexivity|].
      assert (Hm : i < n -> match nth i m None with Some q => q <? p | None => false end = true).
      { intros Hi'. destruct (split_parent s p m i Hs Hi') as (q & Hq & _ & Em). rewrite Em. lia. }
      clear -Hi Hm. unfold owned. destruct (a_kind acc); [lia|rewrite Hm by exact Hi; reflexivity..].
    + unfold want. destruct (a_kind acc); reflexivity.
  - destruct (first_error acc pls cls n m (seq 0 p)); [|congruence]. destruct (a_status acc st') eqn:Est; [eauto|].
    exfalso. apply Hnok, Est.
Qed.

(** *** Mapping *)
Definition proc (i : nat) : bool :=
  match nth i m None with Some q => gv q && cv i | None => false end.
Hypothesis Hmp : forall c q, nth c m None = Some q -> q < p.
Definition stepf (s : S) (c : nat) : S := match a_kind acc with Partial => padd acc cls s c | _ => add acc cls s c end.
Definition st_at (q k : nat) : S := fold_left stepf (mem_ q k) (start acc (row pls q)).
Definition accs_at (k q : nat) : S := if gv q then st_at q k else a_empty acc.

Lemma members_S q k : mem_ q (Datatypes.S k) = mem_ q k ++
  (if match nth k m None with Some r => r =? q | None => false end && cv k then [k] else []).
Proof.
  unfold members. replace (Datatypes.S k) with (k + 1) by lia. rewrite seq_app, filter_app. reflexivity.
Qed.

Lemma reset_ok calls k : Forall2 (row_call (a_popts acc) pls) calls (seq k (p - k)) -> k <= p ->
  fold_opt (reset_step acc) calls
    (map (fun q => if (q <? k) && gv q then start acc (row pls q) else a_empty acc) (seq 0 p),
     map (fun q => (q <? k) && gv q) (seq 0 p))
  = Some (map (accs_at 0) (seq 0 p), map gv (seq 0 p)).
Proof.
  revert k. induction calls as [|[[id v] r] t IH]; intros k F Hk.
  - inversion F as [E|]. symmetry in E. destruct (p - k) eqn:Epk; [|discriminate]. cbn [fold_opt]. f_equal. f_equal; apply map_ext_seq; intros i Hi;
      (replace (i <? k) with true by lia); reflexivity.
  - destruct (p - k) as [|j] eqn:Ej; [inversion F|]. cbn [seq] in F. inversion F as [|? ? ? ? Hrc F']; subst.
    destruct Hrc as (E1 & E2 & E3). subst id. cbn [fold_opt reset_step].
    change (row_defined (a_popts acc) (row pls k)) with (gv k) in E2.
    assert (Hn : (let? accs' := if v then let? s := rd (map (fun q => if (q <? k) && gv q then start acc (row pls q) else a_empty acc) (seq 0 p)) k in
                upd (map (fun q => if (q <? k) && gv q then start acc (row pls q) else a_empty acc) (seq 0 p)) k (a_reset acc r s)
              else Some (map (fun q => if (q <? k) && gv q then start acc (row pls q) else a_empty acc) (seq 0 p)) in
       let? valids' := upd (map (fun q => (q <? k) && gv q) (seq 0 p)) k v in Some (accs', valids')) =
       Some (map (fun q => if (q <? Datatypes.S k) && gv q then start acc (row pls q) else a_empty acc) (seq 0 p),
             map (fun q => (q <? Datatypes.S k) && gv q) (seq 0 p))).
    { rewrite rd_map by lia. replace (k <? k) with false by lia. cbn [andb bind]. destruct v.
      - rewrite (E3 eq_refl). fold (start acc (row pls k)). rewrite !upd_map by lia. cbn [bind]. f_equal. f_equal; apply map_ext_seq; intros i Hi;
          (destruct (Nat.eqb_spec i k) as [->|Ne]; [rewrite <- E2; replace (k <? Datatypes.S k) with true by lia; reflexivity|
           replace (i <? Datatypes.S k) with (i <? k) by lia; reflexivity]).
      - rewrite !upd_map by lia. cbn [bind]. f_equal. f_equal; apply map_ext_seq; intros i Hi.
        + destruct (Nat.eqb_spec i k) as [->|Ne]; [rewrite <- E2, !andb_false_r; reflexivity|
           replace (i <? Datatypes.S k) with (i <? k) by lia; reflexivity].
        + destruct (Nat.eqb_spec i k) as [->|Ne]; [rewrite <- E2, !andb_false_r; reflexivity|
           replace (i <? Datatypes.S k) with (i <? k) by lia; reflexivity]. }
    rewrite Hn. cbn [bind]. apply IH; [|lia]. replace (p - Datatypes.S k) with j by lia. exact F'.
Qed.

Definition mrow (i : nat) : list (option (Z + C)) :=
  option_map inl (zopt (nth i m None)) :: map (option_map inr) (row cls i).
Lemma row_map (f : C -> Z + C) i : row (map (map (option_map f)) cls) i = map (option_map f) (row cls i).
Proof.
  unfold row. rewrite !map_map. apply map_ext. intros l. change (@None (Z + C)) with (option_map f (@None C)) at 1. apply map_nth.
Qed.
Lemma mrow_ok i : row (map (option_map inl) (map zopt m) :: map (map (option_map inr)) cls) i = mrow i.
Proof.
  unfold mrow. rewrite <- row_map. unfold row at 1. cbn [map]. f_equal.
  change (@None (Z + C)) with (option_map (@inl Z C) (zopt None)) at 1. rewrite map_nth. f_equal. apply map_nth.
Qed.
Lemma mrow_defined i : row_defined (false :: a_copts acc) (mrow i) = is_some (nth i m None) && cv i.
Proof.
  unfold child_valid, row_defined, mrow. cbn [combine forallb fst snd orb].
  replace (is_some (option_map inl (zopt (nth i m None)))) with (is_some (nth i m None)) by (destruct (nth i m None); reflexivity).
  f_equal. generalize (row cls i) as r. generalize (a_copts acc) as os0. induction os0 as [|o os IH]; intros [|x r]; try reflexivity.
  cbn [map combine forallb fst snd]. rewrite IH. destruct x; reflexivity.
Qed.
Lemma from_inr_row l : map from_inr (map (option_map (@inr Z C)) l) = l.
Proof. rewrite map_map. rewrite <- (map_id l) at 2. apply map_ext. intros [x|]; reflexivity. Qed.

Lemma accs_step k i q (s : S) : nth k m None = Some q -> gv q && cv k = true -> s = stepf (st_at q k) k ->
  (if i =? q then s else accs_at k i) = accs_at (Datatypes.S k) i.
Proof.
  intros Em Hv ->. apply andb_true_iff in Hv as [Hg Hc]. unfold accs_at, st_at. rewrite members_S, Em, Hc, andb_true_r.
  destruct (Nat.eqb_spec i q) as [->|Ne].
  - rewrite Hg, Nat.eqb_refl, fold_left_app. reflexivity.
  - replace (q =? i) with false by lia. rewrite app_nil_r. reflexivity.
Qed.
Lemma accs_skip k i : proc k = false -> accs_at k i = accs_at (Datatypes.S k) i.
Proof.
  intros H. unfold accs_at, st_at, proc in *. rewrite members_S. destruct (nth k m None) as [q|]; [|cbn [andb]; rewrite app_nil_r; reflexivity].
  destruct (Nat.eqb_spec q i) as [->|Ne]; [|cbn [andb]; rewrite app_nil_r; reflexivity].
  destruct (gv i); [|reflexivity]. cbn [andb] in *. rewrite H, app_nil_r. reflexivity.
Qed.
Definition pcontent (k i : nat) : option R :=
  match a_kind acc with Partial => if i <? k then child_out acc pls cls n m i else None | _ => None end.

Lemma child_out_skip k : proc k = false -> child_out acc pls cls n m k = None.
Proof. unfold proc, child_out. destruct (nth k m None); [|reflexivity]. intros ->. reflexivity. Qed.

Lemma mapped_ok calls k b : k <= n ->
  Forall2 (row_call (false :: a_copts acc) (map (option_map inl) (map zopt m) :: map (map (option_map inr)) cls)) calls (seq k (n - k)) ->
  db_inv rows b (pcontent k) ->
  exists b' done, fold_opt (mapped_step acc (map gv (seq 0 p))) calls
    (map (accs_at k) (seq 0 p), b, map (fun i => (i <? k) && (proc i && match a_kind acc with Full => true | _ => false end)) (seq 0 n))
  = Some (map (accs_at n) (seq 0 p), b', done) /\ db_inv rows b' (pcontent n) /\
    done = map (fun i => proc i && match a_kind acc with Full => true | _ => false end) (seq 0 n).
Proof.
  revert k b. induction calls as [|[[id v] r] t IH]; intros k b Hk F I.
  - inversion F as [E|]. symmetry in E. destruct (n - k) eqn:Enk; [|discriminate]. replace k with n in * by lia.
    eexists b, _. split; [reflexivity|]. split; [exact I|]. apply map_ext_seq. intros i Hi. replace (i <? n) with true by lia. reflexivity.
  - destruct (n - k) as [|j] eqn:Ej; [inversion F|]. cbn [seq] in F. inversion F as [|? ? ? ? Hrc F']; subst.
    destruct Hrc as (E1 & E2 & E3). subst id. rewrite mrow_ok in E2, E3. rewrite mrow_defined in E2.
    replace j with (n - Datatypes.S k) in F' by lia. cbn [fold_opt mapped_step].
    assert (Hskip : proc k = false -> exists b' done, fold_opt (mapped_step acc (map gv (seq 0 p))) t
      (map (accs_at k) (seq 0 p), b, map (fun i => (i <? k) && (proc i && match a_kind acc with Full => true | _ => false end)) (seq 0 n))
      = Some (map (accs_at n) (seq 0 p), b', done) /\ db_inv rows b' (pcontent n) /\
      done = map (fun i => proc i && match a_kind acc with Full => true | _ => false end) (seq 0 n)).
    { intros Hp. rewrite (map_ext_seq (accs_at k) (accs_at (Datatypes.S k)) p) by (intros; apply accs_skip, Hp).
      rewrite (map_ext_seq _ (fun i => (i <? Datatypes.S k) && (proc i && match a_kind acc with Full => true | _ => false end)) n).
      2:{ intros i Hi. destruct (Nat.eqb_spec i k) as [->|Ne]; [rewrite Hp; cbn [andb]; rewrite !andb_false_r; reflexivity|].
          replace (i <? Datatypes.S k) with (i <? k) by lia. reflexivity. }
      apply IH; [lia|exact F'|]. eapply db_inv_ext; [exact I|]. intros i Hi. unfold pcontent. destruct (a_kind acc); try reflexivity.
      destruct (Nat.eqb_spec i k) as [->|Ne]; [rewrite child_out_skip by exact Hp; destruct (k <? k), (k <? Datatypes.S k); reflexivity|].
      replace (i <? Datatypes.S k) with (i <? k) by lia. reflexivity. }
    destruct v.
    + rewrite (E3 eq_refl). unfold mrow. destruct (nth k m None) as [q|] eqn:Em; [|discriminate]. cbn [is_some andb] in E2. cbn [zopt option_map].
      assert (Hq := Hmp k q Em). unfold rdz. replace (Z.of_nat q <? 0)%Z with false by lia. rewrite Nat2Z.id.
      rewrite rd_map by exact Hq. cbn [bind].
      destruct (gv q) eqn:Eg; [|cbn [bind]; apply Hskip; unfold proc; rewrite Em, Eg; reflexivity].
      rewrite rd_map by exact Hq. cbn [bind]. rewrite from_inr_row.
      assert (Hp : proc k = true) by (unfold proc; rewrite Em, Eg, <- E2; reflexivity).
      assert (Ea : accs_at k q = st_at q k) by (unfold accs_at; rewrite Eg; reflexivity). rewrite Ea.
      change (g_add acc (st_at q k) k (row cls k)) with (add acc cls (st_at q k) k).
      assert (Hst : forall s, s = stepf (st_at q k) k -> upd (map (accs_at k) (seq 0 p)) q s = Some (map (accs_at (Datatypes.S k)) (seq 0 p))).
      { intros s Es. rewrite upd_map by exact Hq. f_equal. apply map_ext_seq. intros i Hi. apply accs_step; [exact Em| |exact Es].
        rewrite Eg, <- E2. reflexivity. }
      assert (Hdn : map (fun i => (i <? k) && (proc i && false)) (seq 0 n) = map (fun i => (i <? Datatypes.S k) && (proc i && false)) (seq 0 n)).
      { apply map_ext_seq. intros i Hi. rewrite !andb_false_r. reflexivity. }
      destruct (a_kind acc) eqn:K.
      * rewrite Hst by (unfold stepf; rewrite K; reflexivity). cbn [bind]. rewrite Hdn. apply IH; [lia|exact F'|].
        eapply db_inv_ext; [exact I|]. intros i Hi. unfold pcontent. rewrite K. reflexivity.
      * rewrite (surjective_pairing (a_result acc _)). rewrite Hst by (unfold stepf; rewrite K; reflexivity). cbn [bind].
        destruct (db_set_f n b (pcontent k) k (fst (a_result acc (add acc cls (st_at q k) k))) I) as (b1 & Eb & I1); [lia|].
        rewrite Eb. cbn [bind]. rewrite Hdn. apply IH; [lia|exact F'|].
        eapply db_inv_ext; [exact I1|]. intros i Hi. unfold setf, pcontent. rewrite K. cbn [fst snd].
        assert (Hco : fst (a_result acc (add acc cls (st_at q k) k)) = child_out acc pls cls n m k).
        { unfold child_out. rewrite Em, Eg, <- E2. cbn [andb]. unfold child_result. rewrite K. unfold st_at, result. f_equal. f_equal. f_equal.
          unfold stepf. rewrite K. reflexivity. }
        rewrite Hco. destruct (Nat.eqb_spec i k) as [->|Ne].
        -- replace (k <? k) with false by lia. replace (k <? Datatypes.S k) with true by lia. destruct (child_out acc pls cls n m k); reflexivity.
        -- replace (i <? Datatypes.S k) with (i <? k) by lia. destruct (child_out acc pls cls n m k); reflexivity.
      * rewrite Hst by (unfold stepf; rewrite K; reflexivity). cbn [bind]. rewrite upd_map by lia. cbn [bind].
        rewrite (map_ext_seq _ (fun i => (i <? Datatypes.S k) && (proc i && true)) n).
        2:{ intros i Hi. destruct (Nat.eqb_spec i k) as [->|Ne]; [rewrite Hp; replace (k <? Datatypes.S k) with true by lia; reflexivity|].
            replace (i <? Datatypes.S k) with (i <? k) by lia. reflexivity. }
        apply IH; [lia|exact F'|].
        eapply db_inv_ext; [exact I|]. intros i Hi. unfold pcontent. rewrite K. reflexivity.
    + cbn [bind]. apply Hskip. unfold proc. destruct (nth k m None) as [q|]; [|reflexivity]. cbn [is_some andb] in E2. rewrite <- E2. apply andb_false_r.
Qed.

Lemma finalize_all_ok : finalize_all acc (map gv (seq 0 p)) (map (accs_at n) (seq 0 p)) =
  map (fun q => if gv q then a_finalize acc (st_at q n) else a_empty acc) (seq 0 p).
Proof.
  induction (seq 0 p) as [|q t IH]; [reflexivity|]. cbn [map finalize_all]. rewrite IH. f_equal. unfold accs_at. destruct (gv q); reflexivity.
Qed.

Definition draws_at (q k : nat) : S := fold_left (fun s _ => next acc s) (mem_ q k) (a_finalize acc (st_at q n)).
Definition faccs_at (k q : nat) : S := if gv q then draws_at q k else a_empty acc.
Definition fcontent (k i : nat) : option R := if i <? k then child_out acc pls cls n m i else None.

Lemma full_ok mapping b k : a_kind acc = Full -> represents mapping (map zopt m) -> k <= n ->
  db_inv n b (fcontent (n - k)) ->
  exists b', fold_opt (full_step acc mapping (map (fun i => proc i && true) (seq 0 n))) (seq (n - k) k) (map (faccs_at (n - k)) (seq 0 p), b)
    = Some (map (faccs_at n) (seq 0 p), b') /\ db_inv n b' (fcontent n).
Proof.
  intros K Hm. revert b. induction k as [|k IH]; intros b Hk I.
  - rewrite Nat.sub_0_r in *. exists b. split; [reflexivity|exact I].
  - set (c := n - Datatypes.S k) in *. assert (Ec : n - k = Datatypes.S c) by lia. rewrite Ec in IH. cbn [seq fold_opt full_step].
    rewrite rd_map by lia. cbn [bind]. rewrite andb_true_r. destruct (proc c) eqn:Ep.
    + unfold proc in Ep. destruct (nth c m None) as [q|] eqn:Em; [|discriminate]. assert (Hq := Hmp c q Em).
      assert (Hep := Ep). apply andb_true_iff in Hep as [Eg Ev].
      assert (Hrd : rd (vals mapping) c = Some (Z.of_nat q)).
      { destruct Hm as (_ & _ & Hm). specialize (Hm c). rewrite map_length in Hm. specialize (Hm ltac:(lia)).
        change (@None Z) with (zopt None) in Hm at 1. rewrite map_nth, Em in Hm. cbn [zopt option_map] in Hm.
        unfold da_get in Hm. destruct (da_present mapping c) as [[|]|]; [|discriminate|discriminate]. cbn [bind] in Hm.
        destruct (rd (vals mapping) c); [|discriminate]. cbn [bind] in Hm. congruence. }
      rewrite Hrd. cbn [bind]. unfold rdz. replace (Z.of_nat q <? 0)%Z with false by lia. rewrite Nat2Z.id.
      rewrite rd_map by exact Hq. cbn [bind]. assert (Ef : faccs_at c q = draws_at q c) by (unfold faccs_at; rewrite Eg; reflexivity).
      rewrite Ef. rewrite (surjective_pairing (a_result acc _)). rewrite upd_map by exact Hq. cbn [bind].
      destruct (db_set_f n b (fcontent c) c (fst (a_result acc (draws_at q c))) I) as (b1 & Eb & I1); [lia|]. rewrite Eb. cbn [bind].
      rewrite (map_ext_seq _ (faccs_at (Datatypes.S c)) p).
      2:{ intros i Hi. unfold faccs_at, draws_at. rewrite members_S, Em, Ev, andb_true_r. rewrite (Nat.eqb_sym q i).
          destruct (Nat.eqb_spec i q) as [->|Ne]; [rewrite Eg, fold_left_app; reflexivity|rewrite app_nil_r; reflexivity]. }
      apply IH; [lia|]. eapply db_inv_ext; [exact I1|]. intros i Hi. unfold setf, fcontent. cbn [fst snd].
      assert (Hco : fst (a_result acc (draws_at q c)) = child_out acc pls cls n m c).
      { unfold child_out. rewrite Em, Ep. unfold child_result. rewrite K. unfold draws_at, st_at, result. f_equal. f_equal. f_equal. f_equal.
        unfold stepf. rewrite K. reflexivity. }
      rewrite Hco. destruct (Nat.eqb_spec i c) as [->|Ne].
      * replace (c <? c) with false by lia. replace (c <? Datatypes.S c) with true by lia. destruct (child_out acc pls cls n m c); reflexivity.
      * replace (i <? Datatypes.S c) with (i <? c) by lia. destruct (child_out acc pls cls n m c); reflexivity.
    + cbn [bind]. rewrite (map_ext_seq _ (faccs_at (Datatypes.S c)) p).
      2:{ intros i Hi. unfold faccs_at, draws_at. unfold proc in Ep. rewrite members_S. destruct (nth c m None) as [q|]; [|cbn [andb]; rewrite app_nil_r; reflexivity].
          destruct (Nat.eqb_spec q i) as [->|Ne]; [|cbn [andb]; rewrite app_nil_r; reflexivity].
          destruct (gv i); [|reflexivity]. cbn [andb] in *. rewrite Ep, app_nil_r. reflexivity. }
      apply IH; [lia|]. eapply db_inv_ext; [exact I|]. intros i Hi. unfold fcontent.
      destruct (Nat.eqb_spec i c) as [->|Ne]; [rewrite child_out_skip by exact Ep; destruct (c <? c), (c <? Datatypes.S c); reflexivity|].
      replace (i <? Datatypes.S c) with (i <? c) by lia. reflexivity.
Qed.

(** The accumulators before the last loop. *)
Definition pre_final (q : nat) : S :=
  if gv q then match a_kind acc with Full => draws_at q n | _ => st_at q n end else a_empty acc.
Definition ccontent (k i : nat) : option R :=
  match a_kind acc with Aggregator => if i <? k then parent_out acc pls cls n m i else None | _ => child_out acc pls cls n m i end.

Lemma collect_ok b k : k <= p -> db_inv rows b (ccontent (p - k)) ->
  first_error acc pls cls n m (seq 0 (p - k)) = None ->
  exists r, collect_groups acc (map gv (seq 0 p)) (map pre_final (seq 0 p)) b (p - k) k = Some r /\
  match first_error acc pls cls n m (seq 0 p) with
  | Some e => r = inl e
  | None => exists b', r = inr b' /\ db_inv rows b' (ccontent p)
  end.
Proof.
  revert b. induction k as [|k IH]; intros b Hk I Hfe.
  - rewrite Nat.sub_0_r in *. rewrite Hfe. cbn [collect_groups]. eexists. split; [reflexivity|]. eauto.
  - set (q := p - Datatypes.S k) in *. assert (Ec : p - k = Datatypes.S q) by lia. rewrite Ec in IH. cbn [collect_groups].
    assert (Eseq : seq 0 (Datatypes.S q) = seq 0 q ++ [q]) by (replace (Datatypes.S q) with (q + 1) by lia; rewrite seq_app; reflexivity).
    assert (Esuf : forall e, group_error acc pls cls n m q = Some e -> first_error acc pls cls n m (seq 0 p) = Some e).
    { intros e He. replace p with (Datatypes.S q + k) by lia. rewrite seq_app, Eseq.
      assert (Happ : forall l1 l2, first_error acc pls cls n m l1 = Some e -> first_error acc pls cls n m (l1 ++ l2) = Some e).
      { induction l1 as [|a l1 IHl]; intros l2 H; [discriminate|]. cbn [app first_error] in *.
        destruct (group_error acc pls cls n m a); [exact H|]. apply IHl, H. }
      apply Happ. rewrite first_error_snoc, Hfe. exact He. }
    rewrite rd_map by lia. cbn [bind]. destruct (gv q) eqn:Eg.
    + rewrite rd_map by lia. cbn [bind]. 
      assert (Hpre : pre_final q = match a_kind acc with Full => draws_at q n | _ => st_at q n end) by (unfold pre_final; rewrite Eg; reflexivity).
      rewrite Hpre.
      assert (Hge : group_error acc pls cls n m q = a_status acc (final_of acc pls cls n m q)) by (unfold group_error; rewrite Eg; reflexivity).
      assert (Hnext : exists x, (match a_kind acc with Aggregator => draw_step acc (match a_kind acc with Full => draws_at q n | _ => st_at q n end, b) q
                | _ => Some (match a_kind acc with Full => draws_at q n | _ => st_at q n end, b) end) = Some x /\
                fst x = final_of acc pls cls n m q /\ db_inv rows (snd x) (ccontent (Datatypes.S q))).
      { unfold final_of, group_final. destruct (a_kind acc) eqn:K.
        - cbn [draw_step]. rewrite (surjective_pairing (a_result acc _)).
          destruct (db_set_f p b (ccontent q) q (fst (a_result acc (st_at q n))) I) as (b1 & Eb & I1); [lia|]. rewrite Eb. cbn [bind].
          eexists. split; [reflexivity|]. cbn [fst snd]. split; [unfold st_at, next, stepf; rewrite K; reflexivity|].
          eapply db_inv_ext; [exact I1|]. intros i Hi. unfold setf, ccontent. rewrite K. cbn [fst snd].
          assert (Hco : fst (a_result acc (st_at q n)) = parent_out acc pls cls n m q).
          { unfold parent_out. rewrite Eg. unfold aggregate, result, st_at, stepf. rewrite K. reflexivity. }
          rewrite Hco. destruct (Nat.eqb_spec i q) as [->|Ne].
          + replace (q <? q) with false by lia. replace (q <? Datatypes.S q) with true by lia. destruct (parent_out acc pls cls n m q); reflexivity.
          + replace (i <? Datatypes.S q) with (i <? q) by lia. destruct (parent_out acc pls cls n m q); reflexivity.
        - eexists. split; [reflexivity|]. cbn [fst snd]. split; [unfold st_at, stepf; rewrite K; reflexivity|].
          eapply db_inv_ext; [exact I|]. intros i Hi. unfold ccontent. rewrite K. reflexivity.
        - eexists. split; [reflexivity|]. cbn [fst snd]. split; [unfold draws_at, st_at, stepf; rewrite K; reflexivity|].
          eapply db_inv_ext; [exact I|]. intros i Hi. unfold ccontent. rewrite K. reflexivity. }
      destruct Hnext as (x & Ex & Ef & Ix). rewrite Ex. cbn [bind]. rewrite Ef, <- Hge.
      destruct (group_error acc pls cls n m q) as [e|] eqn:Ege.
      * eexists. split; [reflexivity|]. rewrite (Esuf e eq_refl). reflexivity.
      * apply IH; [lia|exact Ix|]. rewrite Eseq, first_error_snoc, Hfe. exact Ege.
    + assert (Ege : group_error acc pls cls n m q = None) by (unfold group_error; rewrite Eg; reflexivity).
      apply IH; [lia| |rewrite Eseq, first_error_snoc, Hfe; exact Ege].
      eapply db_inv_ext; [exact I|]. intros i Hi. unfold ccontent. destruct (a_kind acc); try reflexivity.
      destruct (Nat.eqb_spec i q) as [->|Ne].
      * replace (q <? Datatypes.S q) with true by lia. unfold parent_out. rewrite Eg. destruct (q <? q); reflexivity.
      * replace (i <? Datatypes.S q) with (i <? q) by lia. reflexivity.
Qed.

Lemma da_map_rep {A B} (f : A -> B) a l : represents a l -> represents (da_map f a) (map (option_map f) l).
Proof.
  rewrite !represents_elem. intros ((V1 & V2 & V3) & Sz & H). rewrite map_length. split; [|split].
  - split; [exact V1|]. split; [exact V2|]. cbn [bmp da_map vals boff]. rewrite map_length. exact V3.
  - unfold da_size in *. cbn [da_map vals]. rewrite map_length. exact Sz.
  - intros i Hi. change (@None B) with (option_map f (@None A)) at 1. rewrite map_nth, <- H by exact Hi.
    unfold da_elem, da_pres. cbn [da_map vals bmp boff]. unfold rd. rewrite nth_error_map.
    destruct (nth_error (vals a) i); cbn [option_map]; [|reflexivity]. destruct (bmp a) as [|? ?]; [reflexivity|].
    match goal with |- context [if ?x then _ else _] => destruct x end; reflexivity.
Qed.

Lemma da_map_reps {A B} (f : A -> B) arrs ls : Forall2 represents arrs ls ->
  Forall2 represents (map (da_map f) arrs) (map (map (option_map f)) ls).
Proof. induction 1; [constructor|]. cbn [map]. constructor; [apply da_map_rep; assumption|assumption]. Qed.

Lemma mapping_ok mapping mem_buf : represents mapping (map zopt m) -> length mem_buf = rows ->
  exists res, apply_mapping acc p n mapping pargs cargs mem_buf = Some res /\
    match first_error acc pls cls n m (seq 0 p) with
    | Some e => res = GError e
    | None => exists d, res = GOut d /\ represents d (outputs acc pls cls n m p)
    end.
Proof.
  intros Hm Hmem. unfold apply_mapping.
  destruct (rep_iterate_from_zero false p (a_popts acc) pargs pls p Hpl Hpr Hpn) as (calls & Ec & Fc); [discriminate|lia|].
  rewrite Ec. cbn [bind].
  assert (Hr := reset_ok calls 0). rewrite Nat.sub_0_r in Hr. specialize (Hr Fc ltac:(lia)). cbn [Nat.ltb Nat.leb andb] in Hr.
  rewrite !repeat_map. rewrite Hr. cbn [bind]. clear Hr.
  destruct (rep_iterate false n (false :: a_copts acc) (da_map inl mapping :: map (da_map inr) cargs)
    (map (option_map inl) (map zopt m) :: map (map (option_map inr)) cls) 0 n) as (cc & Ecc & Fcc).
  { cbn [length]. rewrite map_length. lia. }
  { constructor; [apply da_map_rep, Hm|]. apply da_map_reps, Hcr. }
  { constructor; [rewrite !map_length; reflexivity|]. apply Forall_map. eapply Forall_impl; [|exact Hcn]. cbn. intros l Hl. rewrite map_length. exact Hl. }
  { discriminate. } { lia. }
  rewrite Ecc. cbn [bind].
  destruct (mapped_ok cc 0 (db_init mem_buf)) as (b1 & done & E1 & I1 & Ed); [lia|exact Fcc| |].
  { eapply db_inv_ext; [rewrite <- Hmem; apply db_init_inv|]. intros i _. unfold pcontent. destruct (a_kind acc); reflexivity. }
  cbn [Nat.ltb Nat.leb andb] in E1. rewrite E1. cbn [bind]. clear E1. rewrite Ed. clear Ed.
  assert (Hf : exists b2, match a_kind acc with
            | Full => fold_opt (full_step acc mapping (map (fun i => proc i && match a_kind acc with Full => true | _ => false end) (seq 0 n)))
                (seq 0 n) (finalize_all acc (map gv (seq 0 p)) (map (accs_at n) (seq 0 p)), b1)
            | _ => Some (map (accs_at n) (seq 0 p), b1)
            end = Some (map pre_final (seq 0 p), b2) /\ db_inv rows b2 (ccontent 0)).
  { destruct (a_kind acc) eqn:K.
    - exists b1. split; [f_equal; f_equal; apply map_ext_seq; intros i Hi; unfold accs_at, pre_final; rewrite K; reflexivity|].
      eapply db_inv_ext; [exact I1|]. intros i Hi. unfold pcontent, ccontent. rewrite K. reflexivity.
    - exists b1. split; [f_equal; f_equal; apply map_ext_seq; intros i Hi; unfold accs_at, pre_final; rewrite K; reflexivity|].
      eapply db_inv_ext; [exact I1|]. intros i Hi. unfold pcontent, ccontent. rewrite K. replace (i <? n) with true by lia. reflexivity.
    - rewrite finalize_all_ok. destruct (full_ok mapping b1 n K Hm (Nat.le_refl n)) as (b2 & E2 & I2).
      { eapply db_inv_ext; [exact I1|]. intros i Hi. unfold pcontent, fcontent. rewrite K, Nat.sub_diag. reflexivity. }
      rewrite Nat.sub_diag in E2. exists b2. split.
      + rewrite (map_ext_seq (fun q => if gv q then a_finalize acc (st_at q n) else a_empty acc) (faccs_at 0) p) by
          (intros i Hi; unfold faccs_at, draws_at; destruct (gv i); reflexivity).
        rewrite E2. f_equal. f_equal. apply map_ext_seq. intros i Hi. unfold faccs_at, pre_final. rewrite K. reflexivity.
      + eapply db_inv_ext; [exact I2|]. intros i Hi. unfold fcontent, ccontent. rewrite K. replace (i <? n) with true by lia. reflexivity. }
  destruct Hf as (b2 & E2 & I2). rewrite E2. cbn [bind fst snd].
  destruct (collect_ok b2 p (Nat.le_refl p)) as (r & Er & Hr); [rewrite Nat.sub_diag; exact I2|rewrite Nat.sub_diag; reflexivity|].
  rewrite Nat.sub_diag in Er. rewrite Er. cbn [bind].
  destruct (first_error acc pls cls n m (seq 0 p)) as [e|].
  - subst r. eexists. split; reflexivity.
  - destruct Hr as (b3 & -> & I3). eexists. split; [reflexivity|]. eexists. split; [reflexivity|].
    eapply eq_rect; [apply build_rep; exact I3|]. unfold outputs, ccontent. destruct (a_kind acc); [|reflexivity..].
    apply map_ext_seq. intros i Hi. replace (i <? p) with true by lia. reflexivity.
Qed.
End Shared.
End Ops.

Section Edge.
Context {S P C R Err : Type}.
Variable acc : accum S P C R Err.

Lemma edge_sizes e p m (pargs : list (darr P)) (cargs : list (darr C)) pls cls : edge_rep e p m ->
  args_rep (a_popts acc) pargs pls p -> args_rep (a_copts acc) cargs cls (length m) ->
  forall alloc, apply_edge acc alloc e pargs cargs =
    let mem := alloc (match a_kind acc with Aggregator => p | _ => length m end) in
    if e_split e then apply_splits acc p (e_vals e) pargs cargs mem
    else apply_mapping acc p (length m) (e_vals e) pargs cargs mem.
Proof.
  intros (E1 & E2 & _) (_ & HP & HPn) (_ & HC & HCn) alloc. unfold apply_edge.
  rewrite (sizes_ok pargs pls _ p HP HPn) by (intros a ->; rewrite E1, Z.eqb_refl; reflexivity).
  rewrite (sizes_ok cargs cls _ (length m) HC HCn) by (intros a ->; rewrite E2, Z.eqb_refl; reflexivity).
  rewrite E1, E2, !Nat2Z.id. reflexivity.
Qed.

Lemma edge_mapping_ok alloc e p m pargs cargs pls cls : edge_rep e p m -> e_split e = false ->
  args_rep (a_popts acc) pargs pls p -> args_rep (a_copts acc) cargs cls (length m) ->
  (forall k, length (alloc k) = k) ->
  exists res, apply_edge acc alloc e pargs cargs = Some res /\
    match first_error acc pls cls (length m) m (seq 0 p) with
    | Some e => res = GError e
    | None => exists d, res = GOut d /\ represents d (outputs acc pls cls (length m) m p)
    end.
Proof.
  intros He Hs HP HC Ha. rewrite (edge_sizes e p m _ _ _ _ He HP HC). cbv zeta. rewrite Hs.
  apply edge_rep_mapping in He as (_ & _ & Hmp & Hv); [|exact Hs].
  destruct HP as (HP1 & HP2 & HP3), HC as (HC1 & HC2 & HC3).
  apply (mapping_ok acc pls cls m p pargs cargs HP1 HP2 HP3 HC1 HC2 HC3 Hmp); [exact Hv|apply Ha].
Qed.
Lemma edge_split_ok alloc e p m pargs cargs pls cls : contract acc -> ok acc (a_empty acc) ->
  edge_rep e p m -> e_split e = true ->
  args_rep (a_popts acc) pargs pls p -> args_rep (a_copts acc) cargs cls (length m) ->
  (forall k, length (alloc k) = k) ->
  exists res, apply_edge acc alloc e pargs cargs = Some res /\
    match first_error acc pls cls (length m) m (seq 0 p) with
    | Some _ => exists e, res = GError e
    | None => exists d, res = GOut d /\ represents d (outputs acc pls cls (length m) m p)
    end.
Proof.
  intros Hc Hok He Hs HP HC Ha. rewrite (edge_sizes e p m _ _ _ _ He HP HC). cbv zeta. rewrite Hs.
  apply edge_rep_split in He as (_ & _ & s & Hsp & Hv); [|exact Hs].
  destruct HP as (HP1 & HP2 & HP3), HC as (HC1 & HC2 & HC3).
  apply (splits_ok acc pls cls m p pargs cargs HP1 HP2 HP3 HC1 HC2 HC3 _ _ s Hc Hok Hsp Hv). apply Ha.
Qed.

Lemma edge_any alloc e p m pargs cargs pls cls : contract acc -> ok acc (a_empty acc) -> edge_rep e p m ->
  args_rep (a_popts acc) pargs pls p -> args_rep (a_copts acc) cargs cls (length m) ->
  (forall k, length (alloc k) = k) ->
  exists res, apply_edge acc alloc e pargs cargs = Some res /\
    match first_error acc pls cls (length m) m (seq 0 p) with
    | Some _ => exists e, res = GError e
    | None => exists d, res = GOut d /\ represents d (outputs acc pls cls (length m) m p)
    end.
Proof.
  intros Hc Hok He HP HC Ha. destruct (e_split e) eqn:Es; [eapply edge_split_ok; eassumption|].
  destruct (edge_mapping_ok alloc e p m pargs cargs pls cls He Es HP HC Ha) as (res & E & H). exists res. split; [exact E|].
  destruct (first_error _ _ _ _ _ _); [eauto|exact H].
Qed.
Lemma edge_same alloc alloc' e e' p m pargs pargs' cargs cargs' pls cls : contract acc -> ok acc (a_empty acc) ->
  edge_rep e p m -> edge_rep e' p m ->
  args_rep (a_popts acc) pargs pls p -> args_rep (a_copts acc) cargs cls (length m) ->
  args_rep (a_popts acc) pargs' pls p -> args_rep (a_copts acc) cargs' cls (length m) ->
  (forall k, length (alloc k) = k) -> (forall k, length (alloc' k) = k) ->
  exists res res', apply_edge acc alloc e pargs cargs = Some res /\ apply_edge acc alloc' e' pargs' cargs' = Some res' /\
    same_outcome res res'.
Proof.
  intros Hc Hok He He' HP HC HP' HC' Ha Ha'.
  destruct (edge_any alloc e p m pargs cargs pls cls Hc Hok He HP HC Ha) as (r & E & H).
  destruct (edge_any alloc' e' p m pargs' cargs' pls cls Hc Hok He' HP' HC' Ha') as (r' & E' & H').
  exists r, r'. split; [exact E|]. split; [exact E'|]. destruct (first_error _ _ _ _ _ _).
  - destruct H as [? ->], H' as [? ->]. exact I.
  - destruct H as (d & -> & Hd), H' as (d' & -> & Hd'). cbn. eauto.
Qed.

Lemma edge_mismatch alloc e (pargs : list (darr P)) (cargs : list (darr C)) :
  (exists a, In a pargs /\ Z.of_nat (da_size a) <> e_parent e) \/ (exists a, In a cargs /\ Z.of_nat (da_size a) <> e_child e) ->
  apply_edge acc alloc e pargs cargs = Some GSizeMismatch.
Proof.
  unfold apply_edge. intros [(a & Ha & Hs)|(a & Ha & Hs)].
  - replace (existsb _ pargs) with true; [reflexivity|]. symmetry. apply existsb_exists. exists a. split; [exact Ha|lia].
  - destruct (existsb _ pargs); [reflexivity|]. replace (existsb _ cargs) with true; [reflexivity|].
    symmetry. apply existsb_exists. exists a. split; [exact Ha|lia].
Qed.
Lemma scalar_mismatch alloc n prow (cargs : list (darr C)) : (exists a, In a cargs /\ da_size a <> n) ->
  apply_scalar acc alloc n prow cargs = Some GSizeMismatch.
Proof.
  intros (a & Ha & Hs). unfold apply_scalar. replace (existsb _ cargs) with true; [reflexivity|].
  symmetry. apply existsb_exists. exists a. split; [exact Ha|lia].
Qed.
End Edge.

(** ** A reused accumulator satisfying the contract *)
Lemma inverse_mapping_contract : contract inverse_mapping_acc.
Proof.
  split.
  - intros s Hs. unfold ok in *. cbn in *. destruct s as [ret perm inv [e|]]; cbn in *; [|congruence].
    repeat split; try discriminate; intros; try discriminate.
    destruct (im_loop _ _ _ _) as [inv' [e'|]]; discriminate.
  - exists (fun s s' => im_perm s = im_perm s'), (fun s s' => im_ret s = im_ret s' /\ im_inv s = im_inv s').
    unfold alike, same_result, ok. cbn. repeat split.
    + intros _ s s' H1 H2. left. cbn. auto.
    + intros _ r s s' H1 H2 H3. left. cbn. rewrite H3. auto.
    + congruence.
    + congruence.
    + intros _ s s' H1 H2 H3. rewrite H3. destruct (im_loop _ _ _ _) as [inv' [e'|]]; cbn.
      * right. split; discriminate.
      * left. cbn. auto.
    + left. cbn. destruct H2 as [-> ->]. auto.
    + intros _. cbn. destruct H2 as [-> ->]. reflexivity.
Qed.
