(** Split points: proofs about [agg_splits], [dense_splits], [sparse_splits] and
    [very_sparse_splits] of [ArrGroup_Model]. *)
From Verif Require Import Base Bits_Model Bitmap_Model Dense_Model Dense_Spec Dense_Proofs
  DenseOps_Model DenseOps_Spec DenseOps_Proofs IdFilter_Model IdFilter_Spec IdFilter_Proofs
  Array_Model Array_Spec Array_Proofs ArrayIter_Proofs Edge_Model Edge_Spec Edge_Proofs
  GroupOps_Model GroupOps_Spec GroupOps_Proofs ArrOps_Model ArrOps_Spec ArrOps_Proofs
  Search_Model Search_Spec Search_Proofs ArrGroup_Model ArrGroup_Spec ArrGroup_Proofs.

(** A loop over the numbers below [n] that satisfy [Q]. *)
Lemma seq_loop {B X} (step : B -> X -> option B) (g : nat -> X) (Q : nat -> bool) (Inv : nat -> B -> Prop) n :
  (forall k b, k < n -> Q k = true -> Inv k b -> exists b', step b (g k) = Some b' /\ Inv (S k) b') ->
  (forall k b, k < n -> Q k = false -> Inv k b -> Inv (S k) b) ->
  forall b, Inv 0 b -> exists b', fold_opt step (map g (filter Q (seq 0 n))) b = Some b' /\ Inv n b'.
Proof.
  intros H1 H2 b I0. assert (G : forall k, k <= n -> exists b', fold_opt step (map g (filter Q (seq 0 k))) b = Some b' /\ Inv k b').
  { induction k as [|k IH]; intros Hk; [exists b; split; [reflexivity|exact I0]|]. destruct (IH ltac:(lia)) as (b1 & E1 & I1).
    replace (S k) with (k + 1) by lia. rewrite seq_app, filter_app, map_app, fold_opt_app, E1. cbn [bind Nat.add seq filter].
    destruct (Q k) eqn:Eq.
    - destruct (H1 k b1 ltac:(lia) Eq I1) as (b2 & E2 & I2). exists b2. cbn [map fold_opt]. rewrite E2. split; [reflexivity|].
      rewrite Nat.add_1_r. exact I2.
    - exists b1. split; [reflexivity|]. rewrite Nat.add_1_r. apply H2; [lia|exact Eq|exact I1]. }
  apply G. lia.
Qed.
Lemma setfs_ext {R} (l : list (nat * option R)) : forall f g, (forall k, f k = g k) -> forall k, setfs l f k = setfs l g k.
Proof.
  induction l as [|o l IH]; intros f g E k; [apply E|]. cbn [setfs fold_left]. apply IH. intros x. unfold setf. destruct (snd o); rewrite E; reflexivity.
Qed.
Lemma NoDup_filter_seq (Q : nat -> bool) a k : NoDup (filter Q (seq a k)).
Proof. apply NoDup_filter, seq_NoDup. Qed.

Section Split.
Context {S P C R Err : Type}.
Variable acc : accum S P C R Err.
Variable addn : nat -> list (option C) -> S -> S.
Variables (pls : list (list (option P))) (cls : list (list (option C))) (m : list (option nat)) (p : nat).
Notation n := (length m).
Notation gv := (group_valid acc pls).
Notation cv := (child_valid acc cls).
Notation mem_ q k := (members acc cls m q k).
Notation rows := (match a_kind acc with Aggregator => p | _ => n end).
Notation owned := (owned acc m).
Notation want := (want acc pls cls m).
Notation fe := (first_error acc pls cls n m).
Notation proc := (proc acc pls cls m).

Lemma group_loop {B} (Inv : nat -> B -> (nat -> option R) -> Prop) (step : S * B -> nat * list (option P) -> option (S * B)) :
  contract acc -> ok acc (a_empty acc) ->
  (forall q st b f, q < p -> gv q = true -> Inv q b f -> exists b',
     step (st, b) (q, row pls q) = Some (group_final acc cls (a_reset acc (row pls q) st) (mem_ q n), b') /\
     Inv (Datatypes.S q) b' (setfs (outs acc cls q (a_reset acc (row pls q) st) (mem_ q n)) f)) ->
  (forall q b f, q < p -> gv q = false -> Inv q b f -> Inv (Datatypes.S q) b f) ->
  forall b, Inv 0 b (fun _ => None) ->
  exists st' b' f', fold_opt step (map (fun q => (q, row pls q)) (filter gv (seq 0 p))) (a_empty acc, b) = Some (st', b') /\
    Inv p b' f' /\
    (ok acc st' /\ fe (seq 0 p) = None /\ (forall i, i < rows -> f' i = if owned p i then want i else None)
     \/ ~ ok acc st' /\ fe (seq 0 p) <> None).
Proof.
  intros (Hbad & sim & fin & Hreset & Hadd & Hres & Hfin & Hdraw) He Hstep Hskip b0 I0.
  destruct (seq_loop step (fun q => (q, row pls q)) gv (fun q x => exists f, Inv q (snd x) f /\
    (ok acc (fst x) /\ fe (seq 0 q) = None /\ (forall i, i < rows -> f i = if owned q i then want i else None)
     \/ ~ ok acc (fst x) /\ fe (seq 0 q) <> None)) p) with (b := (a_empty acc, b0)) as ([st' b'] & E & f' & I & H).
  - intros q [st b] Hq Eg (f & I & Hst). destruct (Hstep q st b f Hq Eg I) as (b1 & E & I1). rewrite E.
    eexists. split; [reflexivity|]. eexists. cbn [fst snd] in *. split; [exact I1|].
    replace (seq 0 (Datatypes.S q)) with (seq 0 q ++ [q]) by (rewrite <- Nat.add_1_r, seq_app; reflexivity). rewrite first_error_snoc.
    destruct Hst as [(Hok & Hfe & Hf)|[Hnok Hfe]].
    + rewrite Hfe. unfold group_error. rewrite Eg.
      assert (Hal := group_alike acc cls Hbad sim fin Hadd Hres Hfin Hdraw q (mem_ q n) _ _ (Hreset (row pls q) st (a_empty acc) Hok He)).
      fold (start acc (row pls q)) in Hal. destruct Hal as [Hal1 Hal2].
      destruct (ok_dec acc (group_final acc cls (a_reset acc (row pls q) st) (mem_ q n))) as [Y|Y].
      * left. split; [exact Y|]. split; [apply Hal1, Y|]. intros i Hi. rewrite (Hal2 Y).
        apply (group_step_content acc pls cls m p); [exact Eg|exact Hi|apply Hf, Hi].
      * right. split; [exact Y|]. unfold final_of. rewrite Hal1 in Y. exact Y.
    + right. split; [apply bad_final; [exact Hbad|]; apply (Hbad st Hnok)|].
      destruct (fe (seq 0 q)); [discriminate|congruence].
  - intros q [st b] Hq Eg (f & I & Hst). exists f. cbn [fst snd] in *. split; [apply Hskip; assumption|].
    replace (seq 0 (Datatypes.S q)) with (seq 0 q ++ [q]) by (rewrite <- Nat.add_1_r, seq_app; reflexivity). rewrite first_error_snoc.
    unfold group_error. rewrite Eg. destruct Hst as [(Hok & Hfe & Hf)|[Hnok Hfe]].
    + left. split; [exact Hok|]. split; [rewrite Hfe; reflexivity|]. intros i Hi. apply (skip_step_content acc pls cls m p q Eg i f Hi). apply Hf, Hi.
    + right. split; [exact Hnok|]. destruct (fe (seq 0 q)); [discriminate|congruence].
  - exists (fun _ => None). cbn [fst snd]. split; [exact I0|]. left. split; [exact He|]. split; [reflexivity|]. intros i _.
    replace (owned 0 i) with false; [reflexivity|]. unfold GroupOps_Proofs.owned. destruct (a_kind acc); [reflexivity| |]; (destruct (nth i m None); reflexivity).
  - exists st', b', f'. auto.
Qed.

Lemma split_content s f : split_of s p m -> (forall i, i < rows -> f i = if owned p i then want i else None) ->
  map f (seq 0 rows) = outputs acc pls cls n m p.
Proof.
  intros Hs Hf. unfold outputs. transitivity (map want (seq 0 rows)).
  - apply map_ext_seq. intros i Hi. rewrite Hf by exact Hi. replace (owned p i) with true; [reflexivity|].
    assert (Hm : i < n -> match nth i m None with Some q => q <? p | None => false end = true).
    { intros Hi'. destruct (split_parent s p m i Hs Hi') as (q & Hq & _ & Em). rewrite Em. lia. }
    clear -Hi Hm. unfold GroupOps_Proofs.owned. destruct (a_kind acc); [lia|rewrite Hm by exact Hi; reflexivity..].
  - unfold GroupOps_Proofs.want. destruct (a_kind acc); reflexivity.
Qed.
Lemma checked_ok st f (r : option (arr R)) s : split_of s p m ->
  (ok acc st /\ fe (seq 0 p) = None /\ (forall i, i < rows -> f i = if owned p i then want i else None)
   \/ ~ ok acc st /\ fe (seq 0 p) <> None) ->
  (exists a, r = Some a /\ ar_rep a (map f (seq 0 rows))) ->
  exists res, checked acc st r = Some res /\ array_outcome (fe (seq 0 p)) (outputs acc pls cls n m p) res.
Proof.
  intros Hs H (a & -> & Ra). unfold checked, array_outcome. destruct H as [(Hok & Hfe & Hf)|[Hnok Hfe]].
  - rewrite Hok, Hfe. cbn [bind]. eexists. split; [reflexivity|]. eexists. split; [reflexivity|].
    rewrite <- (split_content s f Hs Hf). exact Ra.
  - destruct (fe (seq 0 p)); [|congruence]. unfold ok in Hnok. destruct (a_status acc st) as [e0|]; [|congruence]. eauto.
Qed.

Lemma group_range_ok s q : split_of s p m -> q < p ->
  group_range (zs s) q = Some (nth q s 0, nth (Datatypes.S q) s 0) /\ nth q s 0 <= nth (Datatypes.S q) s 0 <= n.
Proof.
  intros Hs Hq. assert (Hlen : length s = Datatypes.S p) by apply Hs.
  assert (Hab : nth q s 0 <= nth (Datatypes.S q) s 0) by (apply Hs; lia).
  assert (Hbn : nth (Datatypes.S q) s 0 <= n) by (apply (split_le s p m); [exact Hs|lia]).
  unfold group_range. rewrite rd_zs by lia. cbn [bind]. rewrite rd_zs by lia. cbn [bind]. rewrite Nat.add_1_r.
  set (a := nth q s 0) in *. set (e := nth (Datatypes.S q) s 0) in *.
  replace ((0 <=? Z.of_nat a)%Z && (Z.of_nat a <=? Z.of_nat e)%Z) with true by lia.
  cbn [bind guard]. rewrite !Nat2Z.id. split; [reflexivity|lia].
Qed.
Lemma drows_range a k : defined_rows (a_copts acc) cls a k = map (fun i => (i, row cls i)) (filter cv (seq a (k - a))).
Proof. apply drows_eq. Qed.
Lemma prow_rows : defined_rows (a_popts acc) pls 0 p = map (fun q => (q, row pls q)) (filter gv (seq 0 p)).
Proof. rewrite drows_eq, Nat.sub_0_r. reflexivity. Qed.

Variables (pu : outil P) (cu : outil C).
Hypothesis Hpu : u_ok p (a_popts acc) pls pu.
Hypothesis Hcu : u_ok n (a_copts acc) cls cu.
Hypothesis Hp0 : a_popts acc = [] -> pls = [].
Hypothesis Hc0 : a_copts acc = [] -> cls = [].
Variables (allocr : nat -> list R) (addr : nat).
Hypothesis Har : alloc_sz allocr.

Lemma agg_splits_ok s : contract acc -> ok acc (a_empty acc) -> lawful acc addn -> a_kind acc = Aggregator -> split_of s p m ->
  exists res, agg_splits allocr acc addn pu cu (zs s) = Some res /\
    array_outcome (fe (seq 0 p)) (outputs acc pls cls n m p) res.
Proof.
  intros Hc He Hl K Hs. unfold agg_splits. rewrite (iterate_simple_ok p _ pls pu Hpu Hp0), prow_rows. cbn [bind].
  replace (ou_size pu) with p by (symmetry; apply Hpu).
  destruct (group_loop (fun _ b f => db_inv p b f) (agg_group acc addn cu (zs s)) Hc He) with (b := db_init (allocr p)) as (st & b & f & E & I & H).
  - intros q st b f Hq Eg I. unfold agg_group. destruct (group_range_ok s q Hs Hq) as [-> Hr]. cbn [bind fst snd].
    rewrite (aggregate_group_ok acc addn cls n cu _ _ _ Hl Hcu Hr Hc0). cbn [bind].
    rewrite <- (split_members acc cls m p s q Hs Hq).
    assert (Fq : Forall (fun i => i < p) [q]) by (constructor; [exact Hq|constructor]).
    destruct (draw_steps acc p [q] Fq (fold_left (add acc cls) (mem_ q n) (a_reset acc (row pls q) st)) b f I) as (b' & E & I').
    exists b'. cbn [fold_opt] in E. destruct (draw_step acc _ q) as [[s' b1]|]; [|discriminate]. cbn [bind] in E.
    unfold group_final, outs. rewrite K. split; [exact E|exact I'].
  - auto.
  - rewrite <- (Har p) at 1. apply db_init_inv.
  - rewrite E. cbn [bind fst snd]. apply (checked_ok st f _ s Hs H). rewrite K. eexists. split; [reflexivity|].
    apply ar_dense_rep, build_rep, I.
Qed.

Lemma dense_splits_ok s : contract acc -> ok acc (a_empty acc) -> a_kind acc <> Aggregator -> split_of s p m ->
  exists res, dense_splits allocr acc pu cu (zs s) = Some res /\
    array_outcome (fe (seq 0 p)) (outputs acc pls cls n m p) res.
Proof.
  intros Hc He K Hs. unfold dense_splits. rewrite (iterate_simple_ok p _ pls pu Hpu Hp0), prow_rows. cbn [bind].
  replace (ou_size cu) with n by (symmetry; apply Hcu).
  assert (Er : rows = n) by (destruct (a_kind acc); congruence).
  destruct (group_loop (fun _ b f => db_inv n b f) (dense_group acc cu (zs s)) Hc He) with (b := db_init (allocr n)) as (st & b & f & E & I & H).
  - intros q st b f Hq Eg I. unfold dense_group. destruct (group_range_ok s q Hs Hq) as [-> Hr]. cbn [bind fst snd].
    rewrite (iterate_fn_ok n _ cls cu _ _ Hcu Hr Hc0), drows_range. cbn [bind].
    rewrite (split_members acc cls m p s q Hs Hq).
    destruct (valid_calls acc cls _ (filter_valid acc cls (seq (nth q s 0) (nth (Datatypes.S q) s 0 - nth q s 0)))) as [F2 Ef].
    destruct (group_ok acc cls n q _ _ (a_reset acc (row pls q) st) b f F2 I) as (b' & E & I').
    + congruence.
    + intros _. apply Forall_forall. intros x Hx. apply filter_In in Hx as [Hx _]. apply in_seq in Hx. lia.
    + rewrite Ef in E, I'. exists b'. split; [|exact I']. rewrite <- E.
      destruct (fold_opt (child_step acc) _ _) as [[[s1 b1] l]|]; [|reflexivity]. cbn [bind]. destruct (a_kind acc); [congruence|reflexivity|reflexivity].
  - auto.
  - rewrite <- (Har n) at 1. apply db_init_inv.
  - rewrite E. cbn [bind fst snd]. apply (checked_ok st f _ s Hs H). rewrite Er. eexists. split; [reflexivity|].
    apply ar_dense_rep, build_rep, I.
Qed.

Lemma proc_range s q : split_of s p m -> q < p -> filter proc (seq (nth q s 0) (nth (Datatypes.S q) s 0 - nth q s 0)) =
  if gv q then mem_ q n else [].
Proof.
  intros Hs Hq. rewrite (split_members acc cls m p s q Hs Hq).
  destruct (gv q) eqn:Eg; [apply filter_ext_in|apply filter_false]; intros c Hc; apply in_seq in Hc;
    unfold GroupOps_Proofs.proc; rewrite (proj2 (proj2 (proj2 Hs)) q c Hq) by lia; rewrite Eg; reflexivity.
Qed.
Lemma proc_next s q : split_of s p m -> q < p -> filter proc (seq 0 (nth (Datatypes.S q) s 0)) =
  filter proc (seq 0 (nth q s 0)) ++ (if gv q then mem_ q n else []).
Proof.
  intros Hs Hq. rewrite <- (proc_range s q Hs Hq), <- filter_app. f_equal.
  destruct (group_range_ok s q Hs Hq) as [_ Hr].
  replace (nth (Datatypes.S q) s 0) with (nth q s 0 + (nth (Datatypes.S q) s 0 - nth q s 0)) at 1 by lia. apply seq_app.
Qed.
Lemma proc_estimate k : k <= n -> length (filter proc (seq 0 k)) <= ou_estimate cu.
Proof.
  intros Hk. destruct (estimate_ok n _ cls cu Hcu) as [Hl _]. rewrite drows_range, map_length, Nat.sub_0_r in Hl.
  eapply Nat.le_trans; [|exact Hl]. apply filter_seq_len; [exact Hk|]. intros i _. unfold GroupOps_Proofs.proc.
  destruct (nth i m None); [|discriminate]. intros H. apply andb_true_iff in H. apply H.
Qed.
Lemma outs_fst q s ids : a_kind acc <> Aggregator -> map fst (outs acc cls q s ids) = ids.
Proof. intros K. unfold outs. destruct (a_kind acc); [congruence|apply partial_outs_fst|apply draw_outs_fst]. Qed.

Lemma sparse_splits_ok s : contract acc -> ok acc (a_empty acc) -> a_kind acc <> Aggregator -> split_of s p m ->
  exists res, sparse_splits allocr addr acc pu cu (zs s) = Some res /\
    array_outcome (fe (seq 0 p)) (outputs acc pls cls n m p) res.
Proof.
  intros Hc He K Hs. unfold sparse_splits. rewrite (iterate_simple_ok p _ pls pu Hpu Hp0), prow_rows. cbn [bind].
  replace (ou_size cu) with n by (symmetry; apply Hcu). set (est := ou_estimate cu).
  assert (Er : rows = n) by (destruct (a_kind acc); congruence).
  destruct (group_loop (fun q b f => exists ops, sb_inv n est b ops /\ map fst ops = filter proc (seq 0 (nth q s 0)) /\ forall i, f i = op_fn ops i)
    (sparse_group acc cu (zs s)) Hc He) with (b := sb_init allocr n est) as (st & b & f & E & (ops & I & Ho & Hfo) & H).
  - intros q st b f Hq Eg (ops & I & Ho & Hfo). unfold sparse_group. destruct (group_range_ok s q Hs Hq) as [-> Hr]. cbn [bind fst snd].
    rewrite (iterate_fn_ok n _ cls cu _ _ Hcu Hr Hc0), drows_range. cbn [bind].
    rewrite <- (split_members acc cls m p s q Hs Hq).
    assert (Hn := proc_next s q Hs Hq). rewrite Eg, <- Ho in Hn.
    destruct (sparse_group_ok acc addn cls n est q (mem_ q n) (a_reset acc (row pls q) st) b ops K I) as (b' & E & I').
    { assert (L := proc_estimate (nth (Datatypes.S q) s 0) ltac:(lia)). rewrite Hn, app_length, map_length in L. exact L. }
    exists b'. split; [exact E|]. exists (ops ++ outs acc cls q (a_reset acc (row pls q) st) (mem_ q n)).
    split; [exact I'|]. split; [rewrite map_app, outs_fst by exact K; symmetry; exact Hn|].
    intros i. rewrite op_fn_app; [apply setfs_ext, Hfo|]. rewrite outs_fst by exact K. rewrite <- Hn. apply NoDup_filter_seq.
  - intros q b f Hq Eg (ops & I & Ho & Hfo). exists ops. split; [exact I|]. split; [|exact Hfo].
    rewrite (proc_next s q Hs Hq), Eg, app_nil_r. exact Ho.
  - exists []. split; [apply sb_init_inv, Har|]. replace (nth 0 s 0) with 0 by (symmetry; apply Hs). split; reflexivity.
  - rewrite E. cbn [bind fst snd]. apply (checked_ok st f _ s Hs H). rewrite Er.
    assert (Hpn : nth p s 0 = n) by apply Hs. rewrite Hpn in Ho.
    destruct (sb_build_ok addr n est b ops I) as (r & Eb & Rr).
    + rewrite Ho. apply filter_seq_asc.
    + rewrite Ho. apply filter_seq_lt. lia.
    + rewrite <- (map_length fst), Ho. apply proc_estimate. lia.
    + exists r. split; [exact Eb|]. eapply eq_rect; [exact Rr|]. apply map_ext_seq. intros i _. symmetry. apply Hfo.
Qed.
End Split.
