(** From one group to the operators: what an accumulator does on a list of rows
    determines what the group operators built from it compute. *)
From Coq Require Import Permutation.
From Verif Require Import Base Dense_Model Dense_Spec DenseOps_Spec Array_Model Array_Spec Edge_Model Edge_Spec
  ArrEdge_Model ArrEdge_Spec GroupOps_Model GroupOps_Spec GroupOps_Proofs ArrGroup_Model ArrGroup_Spec ArrGroup_Apply ArrGroup_Props Accum_Spec.

Section L.
Context {S C R Err X : Type}.
Variables (acc : accum S C C R Err) (addn : nat -> list (option C) -> S -> S).
Variables (dec : list (option C) -> option X) (G : list X -> option (list (option R))).

Definition addr_ (s : S) (r : list (option C)) : S := a_add acc None r s.
Fixpoint partial_run (s : S) (rs : list (list (option C))) : list (option R) * S :=
  match rs with
  | [] => ([], s)
  | r :: t => let '(x, s1) := a_result acc (addr_ s r) in let '(xs, s2) := partial_run s1 t in (x :: xs, s2)
  end.
Fixpoint draw_run (s : S) (n : nat) : list (option R) * S :=
  match n with
  | 0 => ([], s)
  | Datatypes.S n' => let '(x, s1) := a_result acc s in let '(xs, s2) := draw_run s1 n' in (x :: xs, s2)
  end.
(** One group, from Reset to the last GetResult. *)
Definition run_group (s : S) (rs : list (list (option C))) : list (option R) * S :=
  match a_kind acc with
  | Aggregator => let '(x, s1) := a_result acc (fold_left addr_ rs s) in ([x], s1)
  | Partial => partial_run s rs
  | Full => draw_run (a_finalize acc (fold_left addr_ rs s)) (length rs)
  end.
Definition runs : Prop := forall rs xs, map dec rs = map Some xs ->
  let '(out, s) := run_group (a_reset acc [] (a_empty acc)) rs in
  match G xs with None => a_status acc s <> None | Some want => a_status acc s = None /\ out = want end.

Hypothesis Hid : a_forward_id acc = false.
Hypothesis Hpo : a_popts acc = [].
Hypothesis Hdec : forall r : list (option C), length r = length (a_copts acc) -> row_defined (a_copts acc) r = is_some (dec r).
Hypothesis Hrun : runs.

Lemma partial_app s a b : partial_run s (a ++ b) =
  let '(x, s1) := partial_run s a in let '(y, s2) := partial_run s1 b in (x ++ y, s2).
Proof.
  revert s. induction a as [|r a IH]; intros s; cbn [partial_run app].
  - destruct (partial_run s b). reflexivity.
  - destruct (a_result acc (addr_ s r)) as [x s1]. rewrite IH. destruct (partial_run s1 a) as [xs s2].
    destruct (partial_run s2 b) as [ys s3]. reflexivity.
Qed.
Lemma partial_length rs : forall s, length (fst (partial_run s rs)) = length rs.
Proof.
  induction rs as [|r t IH]; intros s; [reflexivity|]. cbn [partial_run]. destruct (a_result acc (addr_ s r)) as [x s1].
  specialize (IH s1). destruct (partial_run s1 t). cbn in *. lia.
Qed.

Section Cols.
Variables (cls : list (list (option C))) (m : list (option nat)).
Let n := length m.
Hypothesis Hcols : length cls = length (a_copts acc).

Lemma row_len c : length (row cls c) = length (a_copts acc).
Proof. unfold row. rewrite map_length. exact Hcols. Qed.
Lemma valid_dec c : child_valid acc cls c = is_some (dec (row cls c)).
Proof. apply Hdec, row_len. Qed.
Lemma item_at c : c < n -> nth c (items dec cls n) None = dec (row cls c).
Proof.
  intros H. unfold items. rewrite nth_indep with (d' := (fun c => dec (row cls c)) 0) by (rewrite map_length, seq_length; exact H).
  rewrite (map_nth (fun c => dec (row cls c))), seq_nth by exact H. reflexivity.
Qed.

Lemma members_dec q k : k <= n ->
  map dec (map (row cls) (members acc cls m q k)) = map Some (group_upto (items dec cls n) m q k).
Proof.
  induction k as [|k IH]; intros Hk; [reflexivity|]. unfold members, group_upto in *.
  rewrite !seq_S, filter_app, !map_app, flat_map_app, map_app, IH by lia. f_equal. cbn [filter flat_map Nat.add app].
  rewrite item_at by lia. rewrite valid_dec. destruct (nth k m None) as [r|]; [|reflexivity].
  destruct (dec (row cls k)) eqn:E; destruct (r =? q); cbn; rewrite ?E; reflexivity.
Qed.

Lemma fold_add ids : forall s, fold_left (add acc cls) ids s = fold_left addr_ (map (row cls) ids) s.
Proof.
  induction ids as [|c t IH]; intros s; [reflexivity|]. cbn [fold_left map]. rewrite IH. unfold add. rewrite Hid. reflexivity.
Qed.
Lemma partial_eq ids : forall s, snd (partial_run s (map (row cls) ids)) = fold_left (fun s c => next acc (add acc cls s c)) ids s.
Proof.
  induction ids as [|c t IH]; intros s; [reflexivity|]. cbn [fold_left map partial_run]. rewrite <- IH.
  unfold next, add. rewrite Hid. fold (addr_ s (row cls c)). destruct (a_result acc (addr_ s (row cls c))) as [x s1]. cbn [snd].
  destruct (partial_run s1 (map (row cls) t)). reflexivity.
Qed.
Lemma draw_eq (ids : list nat) : forall s, snd (draw_run s (length ids)) = fold_left (fun s _ => next acc s) ids s.
Proof.
  induction ids as [|c t IH]; intros s; [reflexivity|]. cbn [fold_left length draw_run]. rewrite <- IH. unfold next.
  destruct (a_result acc s) as [x s1]. cbn [snd]. destruct (draw_run s1 (length t)). reflexivity.
Qed.
Lemma final_eq s ids : group_final acc cls s ids = snd (run_group s (map (row cls) ids)).
Proof.
  unfold group_final, run_group. destruct (a_kind acc).
  - rewrite fold_add. unfold next. destruct (a_result acc (fold_left addr_ (map (row cls) ids) s)). reflexivity.
  - symmetry. apply partial_eq.
  - rewrite fold_add, map_length. symmetry. apply draw_eq.
Qed.
Lemma aggregate_eq s ids : a_kind acc = Aggregator -> [aggregate acc cls s ids] = fst (run_group s (map (row cls) ids)).
Proof.
  intros K. unfold aggregate, run_group. rewrite K, fold_add. unfold result. destruct (a_result acc (fold_left addr_ (map (row cls) ids) s)). reflexivity.
Qed.
Lemma draw_nth ids : forall s k, length (A := nat) ids <= k ->
  nth (length ids) (fst (draw_run s (Datatypes.S k))) None = result acc (fold_left (fun s _ => next acc s) ids s).
Proof.
  induction ids as [|c t IH]; intros s k Hk; cbn [length fold_left] in *.
  - cbn [draw_run]. unfold result. destruct (a_result acc s) as [x s1]. destruct (draw_run s1 k). reflexivity.
  - destruct k as [|k]; [lia|]. rewrite <- (IH _ k) by lia. unfold next at 1. remember (Datatypes.S k) as k1. cbn [draw_run].
    destruct (a_result acc s) as [x s1]. cbn [snd]. destruct (draw_run s1 k1). reflexivity.
Qed.
Lemma child_eq s before c after : a_kind acc <> Aggregator ->
  child_result acc cls s before (before ++ c :: after) c = nth (length before) (fst (run_group s (map (row cls) (before ++ c :: after)))) None.
Proof.
  intros K. unfold child_result, run_group. destruct (a_kind acc) eqn:Ek; [congruence| |].
  - rewrite map_app. rewrite partial_app. pose proof (partial_length (map (row cls) before) s) as L. rewrite map_length in L.
    rewrite <- (partial_eq before s). destruct (partial_run s (map (row cls) before)) as [xs s1]. cbn [fst snd map partial_run] in *.
    unfold result, add. rewrite Hid. fold (addr_ s1 (row cls c)). destruct (a_result acc (addr_ s1 (row cls c))) as [y s2].
    destruct (partial_run s2 (map (row cls) after)) as [ys s3]. cbn [fst]. rewrite app_nth2 by lia. rewrite L, Nat.sub_diag. reflexivity.
  - rewrite fold_add. rewrite map_length, app_length. cbn [length]. rewrite Nat.add_succ_r. rewrite draw_nth by lia. reflexivity.
Qed.

Lemma members_split q c : c < n -> nth c m None = Some q -> child_valid acc cls c = true ->
  exists after, members acc cls m q n = members acc cls m q c ++ c :: after.
Proof.
  intros Hc Hm Hv. unfold members. replace n with (c + (1 + (n - c - 1))) by lia.
  rewrite seq_app, filter_app. eexists. f_equal. cbn [Nat.add seq filter]. rewrite Hm, Nat.eqb_refl, Hv. reflexivity.
Qed.

Lemma group_run q : let rs := map (row cls) (members acc cls m q n) in
  let '(out, s) := run_group (start acc []) rs in
  match G (group (items dec cls n) m q) with None => a_status acc s <> None | Some want => a_status acc s = None /\ out = want end.
Proof. apply Hrun, members_dec. lia. Qed.

Lemma no_prow q : row (@nil (list (option C))) q = []. Proof. reflexivity. Qed.
Lemma gvalid q : group_valid acc [] q = true.
Proof. unfold group_valid. rewrite Hpo. reflexivity. Qed.
Lemma group_error_iff q : group_error acc [] cls n m q = None <-> G (group (items dec cls n) m q) <> None.
Proof.
  unfold group_error. rewrite gvalid. unfold final_of. rewrite no_prow, final_eq. pose proof (group_run q) as H. cbv zeta in H. fold n.
  destruct (run_group (start acc []) (map (row cls) (members acc cls m q n))) as [out s]. cbn [snd].
  destruct (G (group (items dec cls n) m q)); [|tauto]. destruct H as [H _]. rewrite H. split; intros; congruence.
Qed.
Lemma first_error_iff qs : first_error acc [] cls n m qs = None <-> forall q, In q qs -> G (group (items dec cls n) m q) <> None.
Proof.
  induction qs as [|q t IH]; cbn [first_error]; [split; [intros _ q []|reflexivity]|].
  destruct (group_error acc [] cls n m q) eqn:E.
  - split; [discriminate|]. intros H. specialize (H q (or_introl eq_refl)). apply group_error_iff in H. congruence.
  - rewrite IH. split; [|intros H r Hr; apply H; right; exact Hr]. intros H r [<-|Hr]; [apply group_error_iff, E|apply H, Hr].
Qed.
Lemma fails_iff p : (first_error acc [] cls n m (seq 0 p) = None <-> ~ fails G (items dec cls n) m p).
Proof.
  rewrite first_error_iff. unfold fails. split.
  - intros H (q & Hq & E). apply (H q); [apply in_seq; lia|exact E].
  - intros H q Hq E. apply H. exists q. split; [apply in_seq in Hq; lia|exact E].
Qed.
Lemma fails_intro p : first_error acc [] cls n m (seq 0 p) <> None -> fails G (items dec cls n) m p.
Proof.
  intros H. assert (D : forall l, (forall q, In q l -> G (group (items dec cls n) m q) <> None) \/ exists q, In q l /\ G (group (items dec cls n) m q) = None).
  { induction l as [|q t [IH|(r & Hr & Er)]]; [left; intros q []| |].
    - destruct (G (group (items dec cls n) m q)) eqn:E; [left|right; exists q; cbn; auto]. intros r [<-|Hr]; [congruence|apply IH, Hr].
    - right. exists r. cbn. auto. }
  destruct (D (seq 0 p)) as [A|(q & Hq & E)]; [apply first_error_iff in A; congruence|].
  exists q. split; [apply in_seq in Hq; lia|exact E].
Qed.

Lemma child_want q c : c < n -> nth c m None = Some q -> G (group (items dec cls n) m q) <> None -> a_kind acc <> Aggregator ->
  (if child_valid acc cls c then child_result acc cls (start acc []) (members acc cls m q c) (members acc cls m q n) c else None) =
  match nth c (items dec cls n) None with
  | Some _ => match G (group (items dec cls n) m q) with
              | Some rs => nth (length (group_upto (items dec cls n) m q c)) rs None | None => None end
  | None => None end.
Proof.
  intros Hc Hm HG K. rewrite item_at by exact Hc. rewrite valid_dec. destruct (dec (row cls c)) as [x|] eqn:Ed; [|reflexivity]. cbn [is_some].
  destruct (members_split q c Hc Hm) as (after & Ea); [rewrite valid_dec, Ed; reflexivity|].
  rewrite Ea. rewrite child_eq by exact K. rewrite <- Ea. pose proof (group_run q) as H. cbv zeta in H.
  destruct (run_group (start acc []) (map (row cls) (members acc cls m q n))) as [out s]. cbn [fst].
  destruct (G (group (items dec cls n) m q)) as [rs|]; [|congruence]. destruct H as [_ ->]. f_equal.
  pose proof (members_dec q c ltac:(lia)) as M. apply (f_equal (@length _)) in M. rewrite !map_length in M. exact M.
Qed.

Lemma outputs_wanted p : (forall c q, nth c m None = Some q -> q < p) -> ~ fails G (items dec cls n) m p ->
  outputs acc [] cls n m p = wanted (a_kind acc) G (items dec cls n) m p.
Proof.
  intros Hp Hf. assert (HG : forall q, q < p -> G (group (items dec cls n) m q) <> None) by (intros q Hq E; apply Hf; exists q; auto).
  unfold outputs, wanted. destruct (a_kind acc) eqn:K.
  - apply map_ext_in. intros q Hq. apply in_seq in Hq. unfold parent_out. rewrite gvalid, no_prow.
    pose proof (group_run q) as H. cbv zeta in H. pose proof (aggregate_eq (start acc []) (members acc cls m q n) K) as A.
    destruct (run_group (start acc []) (map (row cls) (members acc cls m q n))) as [out s]. cbn [fst] in A.
    specialize (HG q ltac:(lia)). destruct (G (group (items dec cls n) m q)) as [rs|]; [|congruence]. destruct H as [_ <-]. rewrite <- A. reflexivity.
  - apply map_ext_in. intros c Hc. apply in_seq in Hc. unfold child_out. destruct (nth c m None) as [q|] eqn:Em; [|reflexivity].
    rewrite gvalid, no_prow. cbn [andb]. apply child_want; [lia|exact Em|apply HG, (Hp c), Em|congruence].
  - apply map_ext_in. intros c Hc. apply in_seq in Hc. unfold child_out. destruct (nth c m None) as [q|] eqn:Em; [|reflexivity].
    rewrite gvalid, no_prow. cbn [andb]. apply child_want; [lia|exact Em|apply HG, (Hp c), Em|congruence].
Qed.
End Cols.

Lemma nth_repeat_some n c : nth c (repeat (Some 0) n) None = if c <? n then Some 0 else None.
Proof.
  destruct (Nat.ltb_spec c n).
  - rewrite nth_indep with (d' := Some 0) by (rewrite repeat_length; exact H). apply nth_repeat.
  - apply nth_overflow. rewrite repeat_length. exact H.
Qed.
Lemma all_members_group cls n k : k <= n -> all_members acc cls k = members acc cls (repeat (Some 0) n) 0 k.
Proof.
  intros H. unfold all_members, members. apply filter_ext_in. intros c Hc. apply in_seq in Hc. rewrite nth_repeat_some.
  destruct (Nat.ltb_spec c n); [reflexivity|lia].
Qed.

Section Scalar.
Variables (cls : list (list (option C))) (n : nat).
Hypothesis Hcols : length cls = length (a_copts acc).
Let m := repeat (Some 0) n.
Lemma mlen : length m = n. Proof. apply repeat_length. Qed.

Lemma scalar_error : a_status acc (group_final acc cls (start acc []) (all_members acc cls n)) = None <->
  G (group (items dec cls n) m 0) <> None.
Proof.
  pose proof (group_error_iff cls m Hcols 0) as H. unfold group_error in H. rewrite gvalid in H. unfold final_of in H. rewrite no_prow, mlen in H.
  rewrite (all_members_group cls n n) by lia. exact H.
Qed.
Lemma scalar_agg : a_kind acc = Aggregator -> G (group (items dec cls n) m 0) <> None ->
  G (group (items dec cls n) m 0) = Some [aggregate acc cls (start acc []) (all_members acc cls n)].
Proof.
  intros K H0. rewrite (all_members_group cls n n) by lia. fold m. pose proof (group_run cls m Hcols 0) as H. cbv zeta in H. rewrite mlen in H.
  rewrite (aggregate_eq cls _ _ K). destruct (run_group (start acc []) (map (row cls) (members acc cls m 0 n))) as [out s]. cbn [fst].
  destruct (G (group (items dec cls n) m 0)); [|congruence]. destruct H as [_ ->]. reflexivity.
Qed.
Lemma scalar_outs : a_kind acc <> Aggregator -> G (group (items dec cls n) m 0) <> None ->
  map (scalar_out acc cls n []) (seq 0 n) = wanted (a_kind acc) G (items dec cls n) m 1.
Proof.
  intros K H0. unfold wanted. rewrite mlen.
  assert (E : map (scalar_out acc cls n []) (seq 0 n) = map (fun c => match nth c m None, nth c (items dec cls n) None with
    | Some q, Some _ => match G (group (items dec cls n) m q) with
       | Some rs => nth (length (group_upto (items dec cls n) m q c)) rs None | None => None end | _, _ => None end) (seq 0 n)).
  { apply map_ext_in. intros c Hc. apply in_seq in Hc. unfold scalar_out. unfold m at 1. rewrite nth_repeat_some.
    destruct (Nat.ltb_spec c n); [|lia].
    rewrite (all_members_group cls n c), (all_members_group cls n n) by lia. fold m.
    pose proof (child_want cls m Hcols 0 c) as W. rewrite mlen in W. apply W; [lia| |exact H0|exact K].
    unfold m. rewrite nth_repeat_some. destruct (Nat.ltb_spec c n); [reflexivity|lia]. }
  destruct (a_kind acc); [congruence|exact E|exact E].
Qed.
End Scalar.

Hypothesis Hc : contract acc.
Hypothesis Hk : ok acc (a_empty acc).
Hypothesis Hl : lawful acc addn.

Lemma cols_len {B} (opts : list bool) (cargs : list B) (rep : B -> list (option C) -> Prop) cls : length cargs = length opts ->
  Forall2 rep cargs cls -> length cls = length opts.
Proof. intros L F. rewrite <- L. clear - F. induction F; cbn; congruence. Qed.

Lemma lift : computes acc addn dec G.
Proof.
  split; [|split; [|split]].
  - intros alloc e p m cargs cls He Ha Hal. destruct Ha as (L & F & A).
    pose proof (cols_len _ _ _ _ L F) as Hcol.
    destruct (edge_any acc alloc e p m [] cargs [] cls Hc Hk He) as (res & Er & Hr);
      [rewrite Hpo; split; [reflexivity|split; constructor]|split; [exact L|split; assumption]|exact Hal|].
    exists res. split; [exact Er|]. destruct (first_error acc [] cls (length m) m (seq 0 p)) as [er|] eqn:E.
    + left. split; [apply fails_intro; [exact Hcol|congruence]|exact Hr].
    + right. pose proof (proj1 (fails_iff cls m Hcol p) E) as Nf. split; [exact Nf|].
      destruct Hr as (d & -> & Hd). exists d. split; [reflexivity|]. rewrite <- outputs_wanted; [exact Hd|exact Hcol| |exact Nf]. apply He.
  - intros alloc n cargs cls (L & F & A) Hal. pose proof (cols_len _ _ _ _ L F) as Hcol.
    destruct (scalar_ok acc alloc n [] cargs cls L F A Hal) as (res & Er & Hr). exists res. split; [exact Er|].
    pose proof (scalar_error cls n Hcol) as Se. destruct (a_status acc _) as [er|].
    + destruct (G _) eqn:EG; [exfalso; destruct Se as [_ Se]; specialize (Se ltac:(congruence)); discriminate|]. eauto.
    + destruct Se as [Se _]. specialize (Se eq_refl). pose proof (scalar_agg cls n Hcol) as Sa. pose proof (scalar_outs cls n Hcol) as So.
      destruct (a_kind acc) eqn:K.
      * specialize (Sa eq_refl Se). rewrite Sa. eexists. split; [reflexivity|exact Hr].
      * destruct (G _) eqn:EG; [|congruence]. rewrite <- So by congruence. exact Hr.
      * destruct (G _) eqn:EG; [|congruence]. rewrite <- So by congruence. exact Hr.
  - intros allocp allocc allocm allocr allocz allocw addr order ud e p m cargs cls B O He (L & F & A).
    pose proof (cols_len _ _ _ _ L F) as Hcol.
    destruct (any_edge acc addn allocp allocc allocm allocr allocz allocw addr order [] cls m p e [] cargs ud Hc Hk Hl B O He) as (res & Er & Hr);
      [rewrite Hpo; split; [reflexivity|split; constructor]|split; [exact L|split; assumption]|].
    exists res. split; [exact Er|]. unfold array_outcome in Hr. destruct (first_error acc [] cls (length m) m (seq 0 p)) as [er|] eqn:E.
    + left. split; [apply fails_intro; [exact Hcol|congruence]|exact Hr].
    + right. pose proof (proj1 (fails_iff cls m Hcol p) E) as Nf. split; [exact Nf|].
      destruct Hr as (d & -> & Hd). exists d. split; [reflexivity|]. rewrite <- outputs_wanted; [exact Hd|exact Hcol| |exact Nf]. apply He.
  - intros allocc allocr allocw addr ud n cargs cls A1 A2 A3 Ha. destruct (C16_scalar S C C R Err acc addn allocc allocr allocw addr ud n [] cargs cls Hl A1 A2 A3 Ha) as (res & Er & Hr).
    destruct Ha as (L & F & A). pose proof (cols_len _ _ _ _ L F) as Hcol. exists res. split; [exact Er|]. unfold array_scalar_outcome in Hr.
    pose proof (scalar_error cls n Hcol) as Se. destruct (a_status acc _) as [er|].
    + destruct (G _) eqn:EG; [exfalso; destruct Se as [_ Se]; specialize (Se ltac:(congruence)); discriminate|]. eauto.
    + destruct Se as [Se _]. specialize (Se eq_refl). pose proof (scalar_agg cls n Hcol) as Sa. pose proof (scalar_outs cls n Hcol) as So.
      destruct (a_kind acc) eqn:K.
      * specialize (Sa eq_refl Se). rewrite Sa. eexists. split; [reflexivity|exact Hr].
      * destruct (G _) eqn:EG; [|congruence]. rewrite <- So by congruence. exact Hr.
      * destruct (G _) eqn:EG; [|congruence]. rewrite <- So by congruence. exact Hr.
Qed.
End L.
