(** C59: conditionals with short circuit evaluation. *)
From Verif Require Import Base Cfg_Model Visit_Model Visit_Spec Visit_Proofs VisitOrder_Proofs.
From Verif Require Import Where_Model Where_Spec Where_Proofs Where_Dom Where_Main Where_Lazy Where_Once.

(** ** Compilation *)
(** The transformation never reads outside of its tables; it fails only on a conditional
    without three arguments. *)
Theorem C59_total scw where_op e : where_op <> scw -> exists r, where_transform scw where_op e = Some r /\
  match r with inr _ => ternary scw e | inl err => err = WArity /\ ~ ternary scw e end.
Proof.
  intros Hw. destruct (transform_ok scw where_op Hw e) as (r & E & H). exists r. split; [exact E|]. destruct r as [err|x]; [exact H|apply H].
Qed.
Print Assumptions C59_total.

(** The result stands for the same expression: putting the branches back in place gives [e],
    attributes included. *)
Theorem C59_same scw where_op e x : where_op <> scw -> no_op where_op e -> where_transform scw where_op e = Some (inr x) -> unpack scw where_op [] x = e.
Proof.
  intros Hw N E. destruct (transform_ok scw where_op Hw e) as (r & E' & H). rewrite E in E'. injection E' as <-.
  destruct H as (_ & [(_ & ->)|(rs & G & _ & T)]); [apply unpack_inj; exact N|]. apply (unpack_T scw where_op e rs G N e x T).
Qed.
Print Assumptions C59_same.

(** ** Values *)
(** Whatever the compiled expression returns is the value of the selected branches: also if
    an expression contains core.where itself. *)
Theorem C59_value {D : Type} scw where_op (lit : nat -> D) (env : list nat -> D) (sem : nat -> list D -> option D) (present : D -> bool) e x d : where_op <> scw ->
  (forall c t f, sem where_op [c; t; f] = Some (if present c then t else f)) ->
  where_transform scw where_op e = Some (inr x) -> run lit env sem present [] x = Some d -> lazy scw lit env sem present e = Some d.
Proof.
  intros Hw Hs E R. destruct (transform_ok scw where_op Hw e) as (r & E' & H). rewrite E in E'. injection E' as <-.
  destruct H as (_ & [(N & ->)|(rs & G & _ & T)]); [rewrite <- (run_inj scw lit env sem present e N); exact R|].
  apply (value_T scw where_op lit env sem present Hs e rs G e x d T R).
Qed.
Print Assumptions C59_value.
(** A node which is only used through a branch that is not selected cannot fail the
    evaluation: if all other nodes have values, so has the compiled expression. *)
Theorem C59_lazy {D : Type} scw where_op (lit : nat -> D) (env : list nat -> D) (sem : nat -> list D -> option D) (present : D -> bool) e x : where_op <> scw ->
  (forall c t f, sem where_op [c; t; f] = Some (if present c then t else f)) ->
  no_op where_op e -> where_transform scw where_op e = Some (inr x) ->
  (forall v, sub v e -> selected scw lit env sem present e v -> lazy scw lit env sem present v <> None) ->
  exists d, run lit env sem present [] x = Some d /\ lazy scw lit env sem present e = Some d.
Proof.
  intros Hw Hs N E A. destruct (transform_ok scw where_op Hw e) as (r & E' & H). rewrite E in E'. injection E' as <-.
  destruct H as (_ & [(Ns & ->)|(rs & G & _ & T)]).
  - rewrite (run_inj scw lit env sem present e Ns). destruct (lazy scw lit env sem present e) as [d|] eqn:L; [eauto|]. exfalso. apply (A e (sub_refl e)); [|exact L].
    intros c sel b B. destruct B as [a c t f S|a c t f S]; destruct (Ns _ _ S).
  - apply (lazy_T scw where_op Hw lit env sem present Hs e rs G N e (sub_refl e) x T). intros u S O. apply (A u S). apply opened_selected. exact O.
Qed.
Print Assumptions C59_lazy.
(** What is used elsewhere is not copied into a branch: an operator is applied inside of a
    branch only if its result is only used through that branch. *)
Theorem C59_once scw where_op e x p u b : where_op <> scw -> no_op where_op e -> where_transform scw where_op e = Some (inr x) ->
  computes scw where_op [] x p u -> In b p -> only_through e b u.
Proof.
  intros Hw N E C I. destruct (transform_ok scw where_op Hw e) as (r & E' & H). rewrite E in E'. injection E' as <-.
  destruct H as (_ & [(_ & ->)|(rs & G & _ & T)]); [rewrite (computes_inj scw where_op e p u C) in I; destruct I|].
  apply (computes_T scw where_op Hw e rs G N x p u T C b I).
Qed.
Print Assumptions C59_once.

(** ** A case *)
(** Numbers; 0 is missing.  Operators: 0 the conditional, 1 core.where, 2 a division (an error
    if the divisor is 0), 3 a pair. *)
Definition ex_lit (v : nat) : nat := v.
Definition ex_env (k : list nat) : nat := match k with [x] => x | _ => 0 end.
Definition ex_present (v : nat) : bool := negb (v =? 0).
Definition ex_sem (o : nat) (vs : list nat) : option nat :=
  match o, vs with
  | 1, [c; t; f] => Some (if ex_present c then t else f)
  | 2, [a; b] => if b =? 0 then None else Some (a / b)
  | 3, [a; b] => Some (10 * a + b)
  | _, _ => None
  end.
Definition scwh c t f : node := Op 0 ANone [c; t; f].
Definition divi a b : node := Op 2 ANone [a; b].
Definition pair2 a b : node := Op 3 ANone [a; b].
Definition lf x : node := Leaf [x].
(** (6/2, if 0 then pair(8/0, 6/2) else 4/2) *)
Definition ex_e : node := pair2 (divi (lf 6) (lf 2)) (scwh (lf 0) (pair2 (divi (lf 8) (lf 0)) (divi (lf 6) (lf 2))) (divi (lf 4) (lf 2))).
Lemma sub_nodes root v : sub v root -> In v (po root []).
Proof. intros S. destruct (pos_spec root v S) as [_ E]. apply (nth_error_In _ _ E). Qed.
Lemma parents_through root b v : v <> root -> (forall q, In q (po root []) -> In v (deps q) -> q = b) -> only_through root b v.
Proof.
  intros N H l W. destruct (walk_last _ _ _ W) as [E|(l' & q & W' & I & J)]; [contradiction|]. apply J. rewrite <- (H q (sub_nodes root q (walk_sub _ _ _ W')) I). apply (walk_end _ _ _ W').
Qed.
Ltac each H := vm_compute in H; repeat (destruct H as [<-|H]); [..|destruct H].
Ltac dep_cases J := cbn in J; repeat (destruct J as [J|J]); try discriminate; try (destruct J; fail).

Example C59_ex_transform : where_transform 0 1 ex_e = Some (inr
  (XOp 3 ANone [XOp 2 ANone [XLeaf [6]; XLeaf [2]];
     XPack ANone (XOp 3 ANone [XOp 2 ANone [XArg 0; XArg 1]; XArg 2]) (XOp 2 ANone [XArg 0; XArg 1]) 3
       [XLeaf [0]; XLeaf [8]; XLeaf [0]; XOp 2 ANone [XLeaf [6]; XLeaf [2]]; XLeaf [4]; XLeaf [2]]])).
Proof. vm_compute. reflexivity. Qed.
Example C59_ex_run : exists x, where_transform 0 1 ex_e = Some (inr x) /\ run ex_lit ex_env ex_sem ex_present [] x = Some 32.
Proof. eexists. split; [vm_compute; reflexivity|]. vm_compute. reflexivity. Qed.
Example C59_ex_hyp : no_op 1 ex_e /\ ternary 0 ex_e /\ (forall v, sub v ex_e -> selected 0 ex_lit ex_env ex_sem ex_present ex_e v -> lazy 0 ex_lit ex_env ex_sem ex_present v <> None).
Proof.
  split; [|split].
  - intros a ds S. apply sub_nodes in S. vm_compute in S. repeat (destruct S as [S|S]; [discriminate|]). destruct S.
  - intros a ds S. apply sub_nodes in S. vm_compute in S. repeat (destruct S as [S|S]; [first [discriminate|injection S as _ <-; reflexivity]|]). destruct S.
  - set (t := pair2 (divi (lf 8) (lf 0)) (divi (lf 6) (lf 2))).
    assert (Br : branch 0 ex_e (lf 0) true t).
    { apply (branch_true 0 ex_e ANone (lf 0) t (divi (lf 4) (lf 2))); [|split|reflexivity].
      - econstructor; [right; left; reflexivity|constructor].
      - vm_compute. reflexivity.
      - intros q S J. apply sub_nodes in S. vm_compute in S. repeat (destruct S as [<-|S]; [first [reflexivity|exfalso; vm_compute in J; repeat (destruct J as [J|J]; [discriminate|]); exact J]|]). destruct S. }
    assert (No : ~ selected 0 ex_lit ex_env ex_sem ex_present ex_e t /\ ~ selected 0 ex_lit ex_env ex_sem ex_present ex_e (divi (lf 8) (lf 0))).
    { split; intros H; destruct (H (lf 0) true t Br) as (y & E & P); try (injection E as <-; discriminate).
      - apply through_refl.
      - apply parents_through; [discriminate|]. intros q S J. vm_compute in S. repeat (destruct S as [<-|S]; [first [reflexivity|exfalso; vm_compute in J; repeat (destruct J as [J|J]; [discriminate|]); exact J]|]). destruct S. }
    intros v S Sel. apply sub_nodes in S. vm_compute in S.
    repeat (destruct S as [<-|S]; [first [vm_compute; discriminate|exfalso; apply (proj1 No), Sel|exfalso; apply (proj2 No), Sel]|]). destruct S.
Qed.
(** The shared division is computed outside, the two others inside of their branches. *)
Example C59_ex_once : exists x, where_transform 0 1 ex_e = Some (inr x) /\
  computes 0 1 [] x [pair2 (divi (lf 8) (lf 0)) (divi (lf 6) (lf 2))] (divi (lf 8) (lf 0)) /\ computes 0 1 [] x [] (divi (lf 6) (lf 2)).
Proof.
  eexists. split; [vm_compute; reflexivity|]. split.
  - eapply comp_dep; [right; left; reflexivity|].
    apply (comp_true 0 1 [] ANone (XOp 3 ANone [XOp 2 ANone [XArg 0; XArg 1]; XArg 2]) (XOp 2 ANone [XArg 0; XArg 1]) 3 (XLeaf [0]) [XLeaf [8]; XLeaf [0]; XOp 2 ANone [XLeaf [6]; XLeaf [2]]; XLeaf [4]; XLeaf [2]] []).
    eapply comp_dep; [left; reflexivity|]. apply (comp_op 0 1 [lf 8; lf 0; divi (lf 6) (lf 2)] 2 ANone [XArg 0; XArg 1]).
  - eapply comp_dep; [left; reflexivity|]. apply (comp_op 0 1 [] 2 ANone [XLeaf [6]; XLeaf [2]]).
Qed.
Example C59_ex_arity : where_transform 0 1 (Op 0 ANone [lf 1; lf 2]) = Some (inl WArity).
Proof. vm_compute. reflexivity. Qed.

(** ** core.where in the expression *)
(** A conditional with nothing to skip becomes core.where.  If the same core.where is in the
    expression already, the two are taken for one node, and a branch may be evaluated although
    it is not selected: both divisions by zero are only used in branches that are not taken. *)
Definition ex_n (o : nat) : node := Op o ANone [lf 0; lf 5; lf 0].
Definition ex_m : node := pair2 (scwh (lf 0) (divi (lf 7) (ex_n 0)) (lf 1)) (scwh (lf 0) (pair2 (divi (lf 7) (ex_n 1)) (divi (lf 7) (ex_n 1))) (lf 1)).
Theorem C59_merge_refuted : exists x, where_transform 0 1 ex_m = Some (inr x) /\ ternary 0 ex_m /\
  (forall v, sub v ex_m -> selected 0 ex_lit ex_env ex_sem ex_present ex_m v -> lazy 0 ex_lit ex_env ex_sem ex_present v <> None) /\
  run ex_lit ex_env ex_sem ex_present [] x = None.
Proof.
  eexists. split; [vm_compute; reflexivity|]. split; [|split; [|vm_compute; reflexivity]].
  - intros a ds S. apply sub_nodes in S. vm_compute in S. repeat (destruct S as [S|S]; [first [discriminate|injection S as _ <-; reflexivity]|]). destruct S.
  - set (t1 := divi (lf 7) (ex_n 0)). set (d2 := divi (lf 7) (ex_n 1)). set (t2 := pair2 d2 d2).
    assert (Br1 : branch 0 ex_m (lf 0) true t1).
    { apply (branch_true 0 ex_m ANone (lf 0) t1 (lf 1)); [|split|reflexivity].
      - econstructor; [left; reflexivity|constructor].
      - vm_compute. reflexivity.
      - intros q S J. apply sub_nodes in S. vm_compute in S. repeat (destruct S as [<-|S]; [first [reflexivity|exfalso; vm_compute in J; repeat (destruct J as [J|J]; [discriminate|]); exact J]|]). destruct S. }
    assert (Br2 : branch 0 ex_m (lf 0) true t2).
    { apply (branch_true 0 ex_m ANone (lf 0) t2 (lf 1)); [|split|reflexivity].
      - econstructor; [right; left; reflexivity|constructor].
      - vm_compute. reflexivity.
      - intros q S J. apply sub_nodes in S. vm_compute in S. repeat (destruct S as [<-|S]; [first [reflexivity|exfalso; vm_compute in J; repeat (destruct J as [J|J]; [discriminate|]); exact J]|]). destruct S. }
    assert (No : forall v t, branch 0 ex_m (lf 0) true t -> only_through ex_m t v -> ~ selected 0 ex_lit ex_env ex_sem ex_present ex_m v).
    { intros v t B Th H. destruct (H (lf 0) true t B Th) as (y & E & P). injection E as <-. discriminate. }
    pose proof (No t1 t1 Br1 (through_refl _ _)) as N1. pose proof (No t2 t2 Br2 (through_refl _ _)) as N2.
    assert (N3 : ~ selected 0 ex_lit ex_env ex_sem ex_present ex_m d2).
    { apply (No d2 t2 Br2). apply parents_through; [discriminate|]. intros q S J. vm_compute in S. repeat (destruct S as [<-|S]; [first [reflexivity|exfalso; vm_compute in J; repeat (destruct J as [J|J]; [discriminate|]); exact J]|]). destruct S. }
    intros v S Sel. apply sub_nodes in S. vm_compute in S.
    repeat (destruct S as [<-|S]; [first [vm_compute; discriminate|exfalso; apply N1, Sel|exfalso; apply N2, Sel|exfalso; apply N3, Sel]|]). destruct S.
Qed.
Print Assumptions C59_merge_refuted.
