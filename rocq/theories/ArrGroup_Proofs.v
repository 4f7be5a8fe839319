(** Proofs about [ArrGroup_Model]. *)
From Coq Require Import Permutation.
From Verif Require Import Base Bits_Model Bitmap_Model Dense_Model Dense_Spec Dense_Proofs
  DenseOps_Model DenseOps_Spec DenseOps_Proofs IdFilter_Model IdFilter_Spec IdFilter_Proofs
  Array_Model Array_Spec Array_Proofs ArrayIter_Proofs Edge_Model Edge_Spec Edge_Proofs
  GroupOps_Model GroupOps_Spec GroupOps_Proofs ArrOps_Model ArrOps_Spec ArrOps_Proofs
  ArrEdge_Model ArrEdge_Spec ArrEdge_Proofs Search_Model Search_Spec Search_Proofs ArrGroup_Model ArrGroup_Spec.

(** ** Lists *)
Lemma drows_eq {A} opts (ls : list (list (option A))) from to : defined_rows opts ls from to =
  map (fun i => (i, row ls i)) (filter (fun i => row_defined opts (row ls i)) (seq from (to - from))).
Proof.
  unfold defined_rows, row_at. generalize (seq from (to - from)). intros l. induction l as [|i l IH]; [reflexivity|].
  cbn [flat_map filter]. destruct (row_defined opts (row ls i)); cbn [app map]; rewrite IH; reflexivity.
Qed.
Lemma asc_app l x : ascending l -> Forall (fun i => i < x) l -> ascending (l ++ [x]).
Proof.
  intros As F i j H. rewrite app_length in H. cbn [length] in H. rewrite (app_nth1 l [x]) by lia.
  destruct (Nat.eq_dec j (length l)) as [->|Ne].
  - rewrite app_nth2, Nat.sub_diag by lia. cbn [nth]. rewrite Forall_forall in F. apply F, nth_In. lia.
  - rewrite app_nth1 by lia. apply As. lia.
Qed.
Lemma filter_seq_asc (Q : nat -> bool) k : ascending (filter Q (seq 0 k)).
Proof.
  induction k as [|k IH]; [intros i j H; cbn in H; lia|]. replace (S k) with (k + 1) by lia. rewrite seq_app, filter_app. cbn [Nat.add seq filter].
  destruct (Q k); [|rewrite app_nil_r; exact IH]. apply asc_app; [exact IH|].
  apply Forall_forall. intros x Hx. apply filter_In in Hx as [Hx _]. apply in_seq in Hx. lia.
Qed.
Lemma filter_seq_lt (Q : nat -> bool) k n : k <= n -> Forall (fun i => i < n) (filter Q (seq 0 k)).
Proof. intros H. apply Forall_forall. intros x Hx. apply filter_In in Hx as [Hx _]. apply in_seq in Hx. lia. Qed.
Lemma filter_seq_len (Q Q' : nat -> bool) k n : k <= n -> (forall i, i < k -> Q i = true -> Q' i = true) ->
  length (filter Q (seq 0 k)) <= length (filter Q' (seq 0 n)).
Proof.
  intros H HQ. replace n with (k + (n - k)) by lia. rewrite (seq_app k), filter_app, app_length.
  assert (L : length (filter Q (seq 0 k)) <= length (filter Q' (seq 0 k))); [|lia].
  apply filter_le. intros x Hx. apply in_seq in Hx. apply HQ. lia.
Qed.
Lemma filter_filter {X} (f g : X -> bool) l : filter f (filter g l) = filter (fun x => g x && f x) l.
Proof.
  induction l as [|x l IH]; [reflexivity|]. cbn [filter]. destruct (g x); cbn [filter andb]; [destruct (f x)|]; rewrite IH; reflexivity.
Qed.
Lemma fold_opt_app {X Y} (f : Y -> X -> option Y) l1 l2 y :
  fold_opt f (l1 ++ l2) y = let? y' := fold_opt f l1 y in fold_opt f l2 y'.
Proof. revert y. induction l1 as [|x l IH]; intros y; [reflexivity|]. cbn [app fold_opt]. destruct (f y x); [apply IH|reflexivity]. Qed.

(** ** Contents of a sparse builder as a function *)
Section B.
Context {R : Type}.
Definition op_fn (ops : list (nat * option R)) (i : nat) : option R := by_id (map fst ops) (map snd ops) i.

Lemma op_fn_snoc ops j v i : ~ In j (map fst ops) -> op_fn (ops ++ [(j, v)]) i = setf (op_fn ops) (j, v) i.
Proof.
  intros N. unfold op_fn, by_id, setf. cbn [fst snd]. revert N. induction ops as [|[a x] t IH]; intros N.
  - cbn [app map index_of fst snd]. rewrite (Nat.eqb_sym j i). destruct (i =? j); cbn [nth option_map]; destruct v; reflexivity.
  - cbn [app map index_of fst snd] in *. assert (N' : ~ In j (map fst t)) by (intros H; apply N; right; exact H).
    specialize (IH N'). destruct (Nat.eqb_spec a i) as [->|Ne].
    + cbn [nth]. destruct v; [|reflexivity]. destruct (Nat.eqb_spec i j) as [E|]; [exfalso; apply N; left; exact E|reflexivity].
    + destruct (index_of i (map fst (t ++ [(j, v)]))), (index_of i (map fst t)); cbn [option_map nth] in *; exact IH.
Qed.
Lemma op_fn_app outs : forall ops, NoDup (map fst ops ++ map fst outs) -> forall i, op_fn (ops ++ outs) i = setfs outs (op_fn ops) i.
Proof.
  induction outs as [|[j v] t IH]; intros ops H i; [rewrite app_nil_r; reflexivity|].
  cbn [setfs fold_left]. replace (ops ++ (j, v) :: t) with ((ops ++ [(j, v)]) ++ t) by (rewrite <- app_assoc; reflexivity).
  cbn [map fst] in H. rewrite IH.
  - assert (N : ~ In j (map fst ops)) by (apply NoDup_remove_2 in H; intros C; apply H; apply in_or_app; left; exact C).
    assert (G : forall l f g, (forall k, f k = g k) -> forall k, setfs l f k = @setfs R l g k).
    { clear. induction l as [|o l IH]; intros f g E k; [apply E|]. cbn [setfs fold_left]. apply IH. intros x. unfold setf. destruct (snd o); rewrite E; reflexivity. }
    apply G. intros k. apply op_fn_snoc. exact N.
  - rewrite map_app. cbn [map fst]. rewrite <- app_assoc. exact H.
Qed.

(** AddId without a value and SetByOffset afterwards. *)
Lemma sb_set_last size max b ops id v : sb_inv size max b ops -> length ops < max ->
  exists b1 b2, sb_set b (length (sb_ids b)) v = Some b1 /\ sb_add_id b1 id = Some b2 /\ @sb_inv R size max b2 (ops ++ [(id, v)]).
Proof.
  intros I L. destruct (sb_adds_ok size max [(id, v)] b ops I) as (b' & E & I'); [cbn [length]; lia|].
  cbn [sb_adds] in E. unfold sb_add in E. destruct (sb_set b (length (sb_ids b)) v) as [b1|]; [|discriminate]. cbn [bind] in E.
  destruct (sb_add_id b1 id) as [b2|] eqn:E2; [|discriminate]. cbn [bind] in E. injection E as ->. eauto.
Qed.
Lemma sb_add_id_ok size max b ops id : sb_inv size max b ops -> length ops < max ->
  exists b', sb_add_id b id = Some b' /\ @sb_inv R size max b' (ops ++ [(id, None)]).
Proof.
  intros (I1 & I2 & I3 & I4) L. unfold sb_add_id. rewrite I2, I3, push_ok by (rewrite map_length; exact L). cbn [bind].
  eexists. split; [reflexivity|]. split; [exact I1|]. split; [reflexivity|].
  split; [cbn [sb_ids]; rewrite map_app; reflexivity|]. cbn [sb_dense]. eapply db_ext; [exact I4|]. intros j _. rewrite map_app. cbn [map snd].
  destruct (Nat.lt_ge_cases j (length (map snd ops))) as [H|H]; [rewrite app_nth1 by exact H; reflexivity|].
  rewrite nth_overflow, app_nth2 by exact H. destruct (j - length (map snd ops)) as [|[|k]]; reflexivity.
Qed.
Lemma sb_set_ok size max b ops i t v : sb_inv size max b (ops ++ (i, None) :: t) -> length ops < max ->
  exists b', sb_set b (length ops) v = Some b' /\ @sb_inv R size max b' (ops ++ (i, v) :: t).
Proof.
  intros (I1 & I2 & I3 & I4) L. unfold sb_set.
  destruct (set_put max (sb_dense b) _ (length ops) v I4 L) as (d & E & I').
  { rewrite map_app, app_nth2, map_length, Nat.sub_diag by (rewrite map_length; lia). reflexivity. }
  rewrite E. cbn [bind]. eexists. split; [reflexivity|]. split; [exact I1|]. split; [exact I2|].
  split; [cbn [sb_ids]; rewrite I3, !map_app; reflexivity|]. cbn [sb_dense]. eapply db_ext; [exact I'|]. intros j _. unfold put.
  rewrite !map_app. cbn [map snd]. destruct (Nat.eqb_spec j (length ops)) as [->|Ne].
  - rewrite app_nth2, map_length, Nat.sub_diag by (rewrite map_length; lia). reflexivity.
  - destruct (Nat.lt_ge_cases j (length ops)) as [H|H].
    + rewrite !app_nth1 by (rewrite map_length; exact H). reflexivity.
    + rewrite !app_nth2, !map_length by (rewrite map_length; lia). destruct (j - length ops) as [|k] eqn:Ej; [lia|reflexivity].
Qed.
Lemma sb_init_inv (alloc : nat -> list R) size max : alloc_sz alloc -> sb_inv size max (sb_init alloc size max) [].
Proof.
  intros HA. split; [reflexivity|]. split; [reflexivity|]. split; [reflexivity|]. cbn [sb_init sb_dense].
  pose proof (db_init_inv (alloc max)) as Q. rewrite HA in Q. eapply db_ext; [exact Q|]. intros [|i] _; reflexivity.
Qed.
Lemma sb_build_ok addr size max b ops : sb_inv size max b ops -> ascending (map fst ops) ->
  Forall (fun i => i < size) (map fst ops) -> length ops <= max ->
  exists r, sb_build addr b = Some r /\ ar_rep r (map (op_fn ops) (seq 0 size)).
Proof.
  intros (I1 & I2 & I3 & I4) As F L. unfold sb_build. rewrite I1, I3, map_length.
  destruct (db_build_size_ok max (sb_dense b) _ (length ops) I4 L) as (r & Er & V & Sz & G).
  rewrite Er. cbn [bind]. eexists; split; [reflexivity|]. unfold op_fn. apply sparse_make; [exact As|exact F| |].
  - rewrite !map_length. reflexivity.
  - apply represents_elem. rewrite map_length. split; [exact V|]. split; [exact Sz|]. exact G.
Qed.
(** A sparse array with a default. *)
Lemma sparse_make_miss addr size ids (vs : list (option R)) d miss : ascending ids -> Forall (fun i => i < size) ids ->
  length ids = length vs -> represents d vs ->
  ar_rep (ar_make size (mk_filter size addr ids 0) d miss)
    (map (fun i => if mem i ids then by_id ids vs i else miss) (seq 0 size)).
Proof.
  intros As F L Rd.
  assert (II : ids_in size 0 ids) by (apply ids_in_0; [exact As|]; rewrite Forall_forall in F; exact F).
  destruct (mk_filter_ok size addr ids 0 II) as [Wf Ff]. fold (zb 0 ids) in Ff. rewrite zb_0 in Ff.
  replace (map _ (seq 0 size)) with (select (by_id ids vs) (fids size (mk_filter size addr ids 0)) miss size) by (rewrite Ff; reflexivity).
  apply make_rep; [exact Wf|]. rewrite Ff.
  replace (map (by_id ids vs) ids) with vs; [exact Rd|].
  apply (nth_ext _ _ None None); [rewrite map_length; auto|]. intros o Ho. rewrite <- L in Ho.
  rewrite (nth_indep (map _ ids) None (by_id ids vs 0)) by (rewrite map_length; exact Ho).
  rewrite map_nth. symmetry. apply by_id_nth; assumption.
Qed.
End B.

(** ** The callbacks *)
Definition positive {A} (c : ocall A) : Prop := match c with CRepeat _ k _ => 0 < k | _ => True end.
Lemma ocall_positive {A} (u : outil A) from to cs : ou_opts u <> [] -> ou_iterate u from to = Some cs -> Forall positive cs.
Proof.
  intros Ne E. unfold ou_iterate in E. destruct (ou_opts u) as [|q os] eqn:Eo; [congruence|]. rewrite <- Eo in *. clear Ne Eo q os.
  assert (G : forall f, (let? cs := ops_iterate false (lower_bound (raw_ids f) (from + raw_off f)) (lower_bound (raw_ids f) (to + raw_off f)) (combine (ou_opts u) (ou_dense u)) in
      let? st := fold_opt (it_step u) cs ([], from) in let '(out, id) := st in
      Some (if id <? to then out ++ [default_call u id (to - id)] else out)) = Some cs -> Forall positive cs).
  { clear E. intros f E. destruct (ops_iterate _ _ _ _) as [l|]; [|discriminate]. cbn [bind] in E.
    assert (Gf : forall l out id out' id', Forall positive out ->
      fold_opt (it_step u) l (out, id) = Some (out', id') -> Forall positive out').
    { clear. induction l as [|[[o v] r] t IH]; intros out id out' id' F E; cbn [fold_opt] in E; [injection E as <- _; exact F|].
      cbn [it_step] in E. destruct (rd_id _ _ o) as [new|]; [|discriminate]. cbn [bind] in E. apply IH in E; [exact E|].
      apply Forall_app. split; [|repeat constructor; destruct v; exact I].
      destruct (Nat.ltb_spec id new); [|exact F]. apply Forall_app. split; [exact F|]. repeat constructor.
      unfold default_call. destruct (ou_default u); cbn [positive]; [lia|exact I]. }
    destruct (fold_opt (it_step u) l ([], from)) as [[out id]|] eqn:Ef; [|discriminate]. cbn [bind] in E. injection E as <-.
    apply Gf in Ef; [|constructor]. destruct (Nat.ltb_spec id to); [|exact Ef]. apply Forall_app. split; [exact Ef|]. repeat constructor.
    unfold default_call. destruct (ou_default u); cbn [positive]; [lia|exact I]. }
  destruct (ou_ids u) as [| |ad l off] eqn:Ei; [apply (G FEmpty E)| |apply (G (FPartial ad l off) E)].
  destruct (ops_iterate _ _ _ _) as [l|]; [|discriminate]. cbn [bind] in E. injection E as <-.
  apply Forall_map, Forall_forall. intros [[id v] r] _. destruct v; exact I.
Qed.

Section Calls.
Context {S P C R Err : Type}.
Variable acc : accum S P C R Err.
Variable addn : nat -> list (option C) -> S -> S.
Variable cls : list (list (option C)).
Notation add := (add acc cls).
Notation next := (next acc).
Notation result := (result acc).
Notation cv := (child_valid acc cls).

Lemma fold_iter (f : S -> S) {X} (l : list X) s : fold_left (fun s _ => f s) l s = Nat.iter (length l) f s.
Proof.
  revert s. induction l as [|x l IH]; intros s; [reflexivity|]. cbn [fold_left length]. rewrite IH. clear.
  induction (length l) as [|k IHk]; [reflexivity|]. cbn [Nat.iter nat_rect] in *. unfold Nat.iter in *. cbn [nat_rect]. rewrite IHk. reflexivity.
Qed.
Lemma fold_left_ext_in {X Y} (f g : X -> Y -> X) l : (forall x y, In y l -> f x y = g x y) -> forall x, fold_left f l x = fold_left g l x.
Proof.
  induction l as [|y l IH]; intros H x; [reflexivity|]. cbn [fold_left]. rewrite H by (left; reflexivity). apply IH. intros. apply H. right. assumption.
Qed.
Lemma fold_left_map {X Y Z} (f : X -> Z -> X) (g : Y -> Z) l : forall x, fold_left f (map g l) x = fold_left (fun x y => f x (g y)) l x.
Proof. induction l as [|y l IH]; intros x; [reflexivity|]. apply IH. Qed.

Lemma call_step_rows s c : lawful acc addn -> positive c \/ a_copts acc = [] ->
  (match c with CRepeat _ _ r => row_defined (a_copts acc) r = true | _ => True end) ->
  call_step acc addn s c = fold_left (fun s c => g_add acc s (fst c) (snd c)) (rows_of c) s.
Proof.
  intros Hlaw Hp Hd. destruct c as [id r|first k r|first k]; [reflexivity| |reflexivity]. cbn [call_step rows_of]. unfold g_addn.
  rewrite fold_left_map. cbn [fst snd]. destruct (a_forward_id acc) eqn:Ef; [reflexivity|].
  rewrite Hlaw by assumption. unfold g_add. rewrite Ef, fold_iter, seq_length. reflexivity.
Qed.
Lemma aggregate_group_ok n u from to s : lawful acc addn -> u_ok n (a_copts acc) cls u -> from <= to <= n ->
  (a_copts acc = [] -> cls = []) ->
  aggregate_group acc addn u from to s = Some (fold_left add (filter cv (seq from (to - from))) s).
Proof.
  intros Hlaw U Hft H0. destruct (iterate_ok n _ cls u from to U Hft H0) as (cs & E & F).
  unfold aggregate_group. rewrite E. cbn [bind]. f_equal.
  assert (Ef := iterate_fn_ok n _ cls u from to U Hft H0). unfold ou_iterate_fn in Ef. rewrite E in Ef. cbn [bind] in Ef. injection Ef as Ef.
  assert (Hc : Forall (fun c => (positive c \/ a_copts acc = []) /\ match c with CRepeat _ _ r => row_defined (a_copts acc) r = true | _ => True end) cs).
  { destruct (a_copts acc) as [|q os] eqn:Eo.
    - unfold ou_iterate in E. replace (ou_opts u) with (@nil bool) in E by (symmetry; apply U). injection E as <-.
      constructor; [|constructor]. split; [right; reflexivity|reflexivity].
    - rewrite <- Eo in *. assert (Pos : Forall positive cs).
      { apply (ocall_positive u from to cs); [|exact E]. replace (ou_opts u) with (a_copts acc) by (symmetry; apply U). congruence. }
      rewrite Forall_forall in Pos. apply Forall_forall. intros c Hin. split; [left; apply Pos, Hin|].
      destruct c as [|first k r|]; [exact I| |exact I]. specialize (Pos _ Hin). cbn [positive] in Pos.
      assert (Hr : In (first, Some r) (flat_map covers cs)).
      { apply in_flat_map. exists (CRepeat first k r). split; [exact Hin|]. cbn [covers]. apply in_map_iff. exists first.
        split; [reflexivity|]. apply in_seq. lia. }
      rewrite F in Hr. apply in_map_iff in Hr as (i & Ei & _). unfold cov, row_at in Ei. injection Ei as -> Er.
      destruct (row_defined (a_copts acc) (row cls first)) eqn:Ed; [|discriminate]. injection Er as <-. exact Ed. }
  assert (G : forall s, fold_left (call_step acc addn) cs s = fold_left (fun s c => g_add acc s (fst c) (snd c)) (flat_map rows_of cs) s).
  { clear E F Ef. induction Hc as [|c cs [H1 H2] _ IH]; intros s1; [reflexivity|]. cbn [fold_left flat_map]. rewrite fold_left_app.
    rewrite call_step_rows by assumption. apply IH. }
  rewrite G, Ef, drows_eq, fold_left_map. reflexivity.
Qed.

(** *** Dense builder *)
Lemma valid_calls ids : Forall (fun i => cv i = true) ids ->
  Forall2 (row_call (a_copts acc) cls) (map (fun c => (fst c, true, snd c)) (map (fun i => (i, row cls i)) ids)) ids /\ filter cv ids = ids.
Proof.
  induction 1 as [|i ids Hi _ [IH1 IH2]]; [split; [constructor|reflexivity]|]. cbn [map fst snd filter]. rewrite Hi, IH2. split; [|reflexivity].
  constructor; [|exact IH1]. split; [reflexivity|]. split; [symmetry; exact Hi|reflexivity].
Qed.
Lemma filter_valid l : Forall (fun i => cv i = true) (filter cv l).
Proof. apply Forall_forall. intros x Hx. apply filter_In in Hx. apply Hx. Qed.

(** *** Sparse builder *)
Definition sv_outs (s : S) (ids : list nat) : list (nat * option R) :=
  match a_kind acc with Partial => partial_outs acc cls s ids | _ => map (fun i => (i, None)) ids end.
Lemma schild_steps size max ids : forall s b ops, sb_inv size max b ops -> length ops + length ids <= max ->
  exists b', fold_opt (schild_step acc) (map (fun i => (i, row cls i)) ids) (s, b) =
    Some (fold_left (match a_kind acc with Partial => padd acc cls | _ => add end) ids s, b') /\
    sb_inv size max b' (ops ++ sv_outs s ids).
Proof.
  unfold sv_outs. induction ids as [|i ids IH]; intros s b ops I L.
  - exists b. split; [reflexivity|]. destruct (a_kind acc); cbn; rewrite app_nil_r; exact I.
  - cbn [length] in L. cbn [map fold_opt schild_step fold_left]. fold (add s i). change (g_add acc s i (row cls i)) with (add s i).
    destruct (a_kind acc) eqn:K.
    + cbn [bind snd fst]. destruct (sb_add_id_ok size max b ops i I ltac:(lia)) as (b1 & E1 & I1). rewrite E1. cbn [bind].
      destruct (IH (add s i) b1 _ I1) as (b2 & E2 & I2); [rewrite app_length; cbn [length]; lia|]. exists b2. split; [exact E2|].
      cbn [map]. rewrite <- app_assoc in I2. exact I2.
    + rewrite (surjective_pairing (a_result acc (add s i))).
      destruct (sb_set_last size max b ops i (fst (a_result acc (add s i))) I ltac:(lia)) as (b1 & b2 & E1 & E2 & I2).
      rewrite E1. cbn [bind snd fst]. rewrite E2. cbn [bind]. fold (next (add s i)).
      destruct (IH (next (add s i)) b2 _ I2) as (b3 & E3 & I3); [rewrite app_length; cbn [length]; lia|]. exists b3. split; [exact E3|].
      cbn [partial_outs]. rewrite <- app_assoc in I3. exact I3.
    + cbn [bind snd fst]. destruct (sb_add_id_ok size max b ops i I ltac:(lia)) as (b1 & E1 & I1). rewrite E1. cbn [bind].
      destruct (IH (add s i) b1 _ I1) as (b2 & E2 & I2); [rewrite app_length; cbn [length]; lia|]. exists b2. split; [exact E2|].
      cbn [map]. rewrite <- app_assoc in I2. exact I2.
Qed.
Lemma sdraw_steps size max ids : forall s b ops, sb_inv size max b (ops ++ map (fun i => (i, None)) ids) -> length ops + length ids <= max ->
  exists b', fold_opt (sdraw_step acc) (seq (length ops) (length ids)) (s, b) = Some (fold_left (fun s _ => next s) ids s, b') /\
    sb_inv size max b' (ops ++ draw_outs acc s ids).
Proof.
  induction ids as [|i ids IH]; intros s b ops I L; [exists b; split; [reflexivity|exact I]|].
  cbn [length] in *. cbn [seq fold_opt sdraw_step fold_left map draw_outs] in *. rewrite (surjective_pairing (a_result acc s)).
  destruct (sb_set_ok size max b ops i _ (fst (a_result acc s)) I ltac:(lia)) as (b1 & E1 & I1). rewrite E1. cbn [bind].
  destruct (IH (next s) b1 (ops ++ [(i, fst (a_result acc s))])) as (b2 & E2 & I2).
  - rewrite <- app_assoc. exact I1.
  - rewrite app_length. cbn [length]. lia.
  - exists b2. rewrite app_length, Nat.add_1_r in E2. cbn [length] in E2. split; [exact E2|].
    rewrite <- app_assoc in I2. exact I2.
Qed.
(** One group written to a sparse builder. *)
Lemma sparse_group_ok size max q ids s b ops : a_kind acc <> Aggregator -> sb_inv size max b ops -> length ops + length ids <= max ->
  exists b', (let? x := fold_opt (schild_step acc) (map (fun i => (i, row cls i)) ids) (s, b) in
    let '(s1, b1) := x in
    match a_kind acc with
    | Full => fold_opt (sdraw_step acc) (seq (length (sb_ids b)) (length (sb_ids b1) - length (sb_ids b))) (a_finalize acc s1, b1)
    | _ => Some (s1, b1)
    end) = Some (group_final acc cls s ids, b') /\ sb_inv size max b' (ops ++ outs acc cls q s ids).
Proof.
  intros K I L. destruct (schild_steps size max ids s b ops I L) as (b1 & E1 & I1). rewrite E1. cbn [bind].
  unfold group_final, outs, sv_outs in *. destruct (a_kind acc) eqn:Ek; [congruence| |].
  - exists b1. split; [reflexivity|exact I1].
  - destruct I as (_ & _ & Hi & _). destruct (I1) as (_ & _ & Hi1 & _). rewrite Hi, Hi1, !map_length, app_length, map_length.
    replace (length ops + length ids - length ops) with (length ids) by lia. apply sdraw_steps; [exact I1|exact L].
Qed.
End Calls.
