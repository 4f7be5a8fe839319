(** C48: bitmask evaluation of decision trees. *)
From Coq Require Import Permutation.
From Verif Require Import Base Bits_Model Forest_Model Forest_Spec Forest_Proofs Forest_Props Accum_Sort FullAcc_Spec FullAcc_Props
  ForestBm_Model ForestBm_Spec ForestBm_Proofs ForestBm_Split ForestBm_Trees ForestBm_Build ForestBm_Eval.

(** Building an evaluator from any sequence of trees that the builder supports never
    fails, and evaluating a row adds to the output of each group the values of exactly the
    leaves that the row reaches in the trees of the group, each once. *)
Theorem C48_eval : forall V (vo : vops V) lib ceq ot (cs : list (bcall V)), lib_ok lib -> ceq_ok ceq -> cs <> [] ->
  (forall c, In c cs -> bc_ok vo ceq c) ->
  exists k, forall fuel n, k <= fuel -> exists bb d, run_calls vo fuel cs = Done bb /\ build V lib n bb = Some (Some d) /\
  forall fr out, length out = n -> exists out', incremental_eval V vo lib d fr out = Some out' /\ length out' = n /\
  forall g x, nth_error out g = Some x -> exists y vs, nth_error out' g = Some y /\
    Forall2 (fun c v => bc_value vo ot fr c = Some v) (filter (fun c => bc_group c =? g) cs) vs /\ sum_of vo (x :: vs) y.
Proof.
  intros V vo lib ceq ot cs L Q Ne Ok. exists (list_max (map (fun c => height (bc_dtree c)) cs)). intros fuel n Hf.
  assert (H : forall c, In c cs -> bc_ok vo ceq c /\ height (bc_dtree c) <= fuel).
  { intros c C. split; [auto|]. etransitivity; [|exact Hf]. pose proof (proj1 (list_max_le (map (fun c => height (bc_dtree c)) cs) _) (Nat.le_refl _)) as M. rewrite Forall_forall in M. apply M. apply in_map_iff. eauto. }
  destruct (calls_eval V vo ceq Q ot lib L cs n fuel no_inputs (repeat (vzero vo) n) Ne H (repeat_length _ _)) as (bb & d & _ & R & B & _).
  exists bb, d. split; [exact R|]. split; [exact B|]. intros fr out Lo.
  destruct (calls_eval V vo ceq Q ot lib L cs n fuel fr out Ne H Lo) as (bb' & d' & out' & R' & B' & E & Lo' & G). rewrite R in R'. injection R' as <-. rewrite B in B'. injection B' as <-.
  exists out'. split; [exact E|]. split; [exact Lo'|]. intros g x X. destruct (G g x X) as (y & Y & S). exists y. eexists. split; [exact Y|]. split; [|exact S]. unfold cgroup.
  assert (I : forall c, In c (filter (fun c => bc_group c =? g) cs) -> bc_ok vo ceq c) by (intros c C; apply filter_In in C; apply Ok, C).
  induction (filter (fun c => bc_group c =? g) cs) as [|c r IH]; cbn [map]; constructor.
  - pose proof (value_some V vo ceq ot c fr (I c (or_introl eq_refl))) as N. destruct (bc_value vo ot fr c); [reflexivity|contradiction].
  - apply IH. intros c' C. apply I. right. exact C.
Qed.
Print Assumptions C48_eval.

(** With exact arithmetic the output is the input plus the sum. *)
Theorem C48_exact : forall V (vo : vops V) lib ceq ot (cs : list (bcall V)), lib_ok lib -> ceq_ok ceq -> cs <> [] ->
  (forall c, In c cs -> bc_ok vo ceq c) -> exact vo ->
  exists k, forall fuel n, k <= fuel -> exists bb d, run_calls vo fuel cs = Done bb /\ build V lib n bb = Some (Some d) /\
  forall fr out, length out = n -> exists out', incremental_eval V vo lib d fr out = Some out' /\ length out' = n /\
  forall g x, nth_error out g = Some x -> exists vs, nth_error out' g = Some (fold_left (vadd vo) vs x) /\
    Forall2 (fun c v => bc_value vo ot fr c = Some v) (filter (fun c => bc_group c =? g) cs) vs.
Proof.
  intros V vo lib ceq ot cs L Q Ne Ok Ex. destruct (C48_eval V vo lib ceq ot cs L Q Ne Ok) as [k H]. exists k. intros fuel n K.
  destruct (H fuel n K) as (bb & d & R & B & G). exists bb, d. split; [exact R|]. split; [exact B|]. intros fr out Lo. destruct (G fr out Lo) as (out' & E & Lo' & P).
  exists out'. split; [exact E|]. split; [exact Lo'|]. intros g x X. destruct (P g x X) as (y & vs & Y & F & S). exists vs. split; [|exact F].
  apply (sum_of_exact vo _ _ Ex) in S. cbn [fold_left] in S. rewrite (ex_zero vo Ex) in S. congruence.
Qed.
Print Assumptions C48_exact.

(** Without trees there is no evaluator. *)
Theorem C48_no_trees : forall V (vo : vops V) lib n fuel, run_calls vo fuel [] = Done (new_bbuilder V) /\ build V lib n (new_bbuilder V) = Some None.
Proof. split; reflexivity. Qed.
Print Assumptions C48_no_trees.

(** The conversion to an oblivious tree ends, and never reads outside of a vector. *)
Theorem C48_oblivious_ends : forall V (vo : vops V) ceq (t : tree V) d, is_tree t d -> (forall i, In i (leaves d) -> i < length (t_adj t)) ->
  (N.of_nat (length (t_adj t)) < 2 ^ 32)%N -> exists k, forall fuel, k <= fuel -> exists r, to_oblivious V vo ceq fuel t = Done r.
Proof. intros V vo ceq t d It Lv Sm. exists (nodes d). intros fuel F. exact (to_oblivious_total V vo ceq fuel t d It Lv F Sm). Qed.
Print Assumptions C48_oblivious_ends.

(** A converted tree is oblivious, its layers describe it, its adjustments are the
    weighted ones in the order of the leaves, and evaluating the layers from the first to
    the last gives the binary number of the leaf that the row reaches. *)
Theorem C48_oblivious_sound : forall V (vo : vops V) ceq ot (t : tree V) d fuel o, ceq_ok ceq -> is_tree t d -> (forall i, In i (leaves d) -> i < length (t_adj t)) ->
  to_oblivious V vo ceq fuel t = Done (Some o) ->
  ot_sub V o = t_sub t /\ is_oblivious ceq (ot_layers V o) d /\ length (t_adj t) = 2 ^ length (ot_layers V o) /\ length (ot_adj V o) = 2 ^ length (ot_layers V o) /\
  ((forall n, In n (t_nodes t) -> supported (n_cond n) = true /\ cond_ok (n_cond n)) ->
   forall fr, nth_error (ot_adj V o) (binary (map (ceval ot fr) (ot_layers V o))) = tree_value vo ot fr t d).
Proof.
  intros V vo ceq ot t d fuel o Q It Lv E. destruct (to_oblivious_sound V vo ceq fuel t d o It Lv E) as (S & Ob & Vs & Ln & _ & Ic).
  destruct (oblivious_height ceq _ _ Ob) as (_ & _ & _ & Sz). split; [exact S|]. split; [exact Ob|]. split; [exact Ln|].
  split; [rewrite (leaf_vals_length V vo t _ _ Vs); exact Sz|]. intros Nd fr. pose proof (conds_ok V t d It Nd) as Co.
  symmetry. apply (leaf_vals_nth V vo t (leaves d) _ _ _ Vs). apply (oblivious_index ceq ot fr Q); [exact Ob|intros c C; apply Co, Ic, C|exact Co].
Qed.
Print Assumptions C48_oblivious_sound.

(** Every oblivious tree is converted, if its conditions are equal to themselves (as they
    are unless there is a NaN). *)
Theorem C48_oblivious_complete : forall V (vo : vops V) ceq (t : tree V) d, is_tree t d -> (forall i, In i (leaves d) -> i < length (t_adj t)) ->
  (forall c, In c (conds d) -> ceq c c = true) -> is_oblivious ceq (leftmost d) d ->
  length (t_adj t) = 2 ^ length (leftmost d) -> length (leftmost d) < 32 ->
  exists k, forall fuel, k <= fuel -> exists o, to_oblivious V vo ceq fuel t = Done (Some o) /\ ot_layers V o = leftmost d.
Proof. intros V vo ceq t d It Lv Re Ob Ln K. exists (nodes d). intros fuel F. exact (to_oblivious_complete V vo ceq fuel t d It Lv F Re Ob Ln K). Qed.
Print Assumptions C48_oblivious_complete.

(** A library as the theorems assume it. *)
Fixpoint prefix_len {E} (p : E -> bool) (l : list E) : nat := match l with [] => 0 | x :: r => if p x then S (prefix_len p r) else 0 end.
Definition ref_lib : library := {| l_sort := fun E => @isort E; l_iter := fun E l => rev l; l_upper := fun E => prefix_len |}.
Lemma ref_lib_ok : lib_ok ref_lib.
Proof.
  split; cbn.
  - intros E. apply isort_std.
  - intros E l. symmetry. apply Permutation_rev.
  - intros E p a b A B. induction a as [|x r IH]; cbn.
    + destruct b as [|y s]; [reflexivity|]. cbn. rewrite (B y) by (left; reflexivity). reflexivity.
    + rewrite (A x) by (left; reflexivity). f_equal. apply IH. intros y Y. apply A. right. exact Y.
Qed.

Ltac split_node k :=
  match goal with |- unfolds ?ns _ (DNode _ ?f ?t) =>
    let x := eval cbv in (nth_error ns k) in match x with Some ?n => refine (unf_split ns k n f t eq_refl _ _) end end.
(** A condition with a NaN bound is false for every row, but the bitmask evaluator takes
    it as true. *)
Definition nan_tree : tree Z :=
  {| t_nodes := [{| n_false := (-1)%Z; n_true := (-2)%Z; n_cond := Interval 0 fninf S754_nan |}];
     t_adj := [10; 20]%Z; t_weight := 1%Z; t_step := 0%Z; t_sub := 0%Z |}.
Theorem C48_nan_bound_refuted : exists (t : tree Z) d lib bb e req fr, lib_ok lib /\ from_trees no_others [t] = inr req /\ is_tree t d /\ NoDup (leaves d) /\
  (forall n, In n (t_nodes t) -> supported (n_cond n) = true) /\
  naive zops no_others fr 5 all_trees [t] = Done 10%Z /\
  add_small Z zops 5 (new_bbuilder Z) t 0 = Done bb /\ build Z lib 1 bb = Some (Some e) /\ incremental_eval Z zops lib e fr [0%Z] = Some [20%Z].
Proof.
  exists nan_tree, (DNode (Interval 0 fninf S754_nan) (DLeaf 0) (DLeaf 1)), ref_lib. do 3 eexists. exists row1. split; [apply ref_lib_ok|]. split; [reflexivity|].
  split; [unfold is_tree; split_node 0; [apply (unf_leaf _ (-1)); lia|apply (unf_leaf _ (-2)); lia]|].
  split; [repeat constructor; cbn; intuition lia|]. split; [intros n [<-|[]]; reflexivity|]. split; [reflexivity|]. split; [reflexivity|]. split; reflexivity.
Qed.
Print Assumptions C48_nan_bound_refuted.

(** A forest whose nodes share children is accepted, and may have more leaves to reach
    than the masks have bits: evaluation then searches a bit in a zero word. *)
Definition shared_tree : tree Z :=
  {| t_nodes := map (fun k => {| n_false := k; n_true := k; n_cond := Interval 0 half finf |}) [1; 2; 3; 4; 5]%Z ++ [{| n_false := (-1)%Z; n_true := (-2)%Z; n_cond := Interval 0 half finf |}];
     t_adj := [1; 2; 3; 4; 5; 6; 7]%Z; t_weight := 1%Z; t_step := 0%Z; t_sub := 0%Z |}.
Theorem C48_shared_refuted : exists (t : tree Z) d lib bb e req fr, lib_ok lib /\ from_trees no_others [t] = inr req /\ is_tree t d /\
  (forall n, In n (t_nodes t) -> supported (n_cond n) = true /\ cond_ok (n_cond n)) /\ length (t_adj t) <= 64 /\
  naive zops no_others fr 9 all_trees [t] = Done 2%Z /\
  add_small Z zops 9 (new_bbuilder Z) t 0 = Done bb /\ build Z lib 1 bb = Some (Some e) /\ incremental_eval Z zops lib e fr [0%Z] = None.
Proof.
  exists shared_tree. eexists. exists ref_lib.
  destruct (add_small Z zops 9 (new_bbuilder Z) shared_tree 0) as [bb| |] eqn:Eb; [|vm_compute in Eb; discriminate|vm_compute in Eb; discriminate].
  destruct (build Z ref_lib 1 bb) as [[e|]|] eqn:Ee; try (vm_compute in Eb; injection Eb as <-; vm_compute in Ee; discriminate).
  exists bb, e. eexists. exists row1. split; [apply ref_lib_ok|]. split; [reflexivity|].
  split; [|split; [|split; [|split; [|split; [reflexivity|split]]]]].
  - repeat (first [eapply (unf_leaf _ (-1)); lia|eapply (unf_leaf _ (-2)); lia|eapply (unf_split _ 0); [reflexivity| |]|eapply (unf_split _ 1); [reflexivity| |]|eapply (unf_split _ 2); [reflexivity| |]|eapply (unf_split _ 3); [reflexivity| |]|eapply (unf_split _ 4); [reflexivity| |]|eapply (unf_split _ 5); [reflexivity| |]]).
  - intros n I. cbn in I. repeat (destruct I as [<-|I]; [split; [reflexivity|split; discriminate]|]). destruct I.
  - cbn. lia.
  - reflexivity.
  - exact Ee.
  - vm_compute in Eb. injection Eb as <-. vm_compute in Ee. injection Ee as <-. vm_compute. reflexivity.
Qed.
Print Assumptions C48_shared_refuted.

(** A tree with three leaves and an oblivious tree with four, in two groups, together with
    a constant. *)
Definition obl_tree : tree Z :=
  {| t_nodes := [{| n_false := 1%Z; n_true := 2%Z; n_cond := Interval 0 half finf |};
                 {| n_false := (-1)%Z; n_true := (-4)%Z; n_cond := SetI64 1 [3; 5]%Z true |};
                 {| n_false := (-3)%Z; n_true := (-2)%Z; n_cond := SetI64 1 [5; 3]%Z true |}];
     t_adj := [100; 200; 300; 400]%Z; t_weight := 3%Z; t_step := 0%Z; t_sub := 0%Z |}.
Definition obl_dtree : dtree := DNode (Interval 0 half finf) (DNode (SetI64 1 [3; 5]%Z true) (DLeaf 0) (DLeaf 3)) (DNode (SetI64 1 [5; 3]%Z true) (DLeaf 2) (DLeaf 1)).
Definition tree1_d : dtree := DNode (Interval 0 half finf) (DLeaf 1) (DNode (SetI64 1 [3; 5]%Z true) (DLeaf 0) (DLeaf 2)).
Definition obl1 : otree Z := {| ot_sub := 0%Z; ot_layers := [Interval 0 half finf; SetI64 1 [3; 5]%Z true]; ot_adj := [300; 1200; 900; 600]%Z |}.
Definition calls48 : list (bcall Z) := [Small 1 tree1 tree1_d; Oblivious 1 obl_tree obl_dtree obl1; Small 0 tree1 tree1_d; Small 1 const1 (DLeaf 0)].
Example C48_ex : lib_ok ref_lib /\ ceq_ok cequals /\ (forall c, In c calls48 -> bc_ok zops cequals c) /\
  exists bb d, run_calls zops 9 calls48 = Done bb /\ build Z ref_lib 3 bb = Some (Some d) /\
  incremental_eval Z zops ref_lib d row1 [0; 0; 7]%Z = Some [60; 664; 7]%Z /\
  incremental_eval Z zops ref_lib d {| in_f32 := fun _ => Some S754_nan; in_i64 := fun _ => None |} [1; 0; 7]%Z = Some [41; 1244; 7]%Z.
Proof.
  split; [apply ref_lib_ok|]. split; [intros c d H; auto|]. split.
  - assert (T1 : is_tree tree1 tree1_d). { unfold is_tree, tree1_d. split_node 0; [apply (unf_leaf _ (-2)); lia|]. split_node 1; [apply (unf_leaf _ (-1)); lia|apply (unf_leaf _ (-3)); lia]. }
    assert (T2 : is_tree obl_tree obl_dtree).
    { unfold is_tree, obl_dtree. split_node 0; [split_node 1; [apply (unf_leaf _ (-1)); lia|apply (unf_leaf _ (-4)); lia]|split_node 2; [apply (unf_leaf _ (-3)); lia|apply (unf_leaf _ (-2)); lia]]. }
    assert (T3 : is_tree const1 (DLeaf 0)) by (apply (unf_leaf _ (-1)); lia).
    assert (C : forall g, bc_ok zops cequals (Small g tree1 tree1_d)).
    { intros g. split; [exact T1|]. split; [cbn; intuition lia|]. split; [|split; [repeat constructor; cbn; intuition lia|cbn; lia]].
      intros n [<-|[<-|[]]]; (split; [reflexivity|]); [split; discriminate|repeat constructor; cbn; intuition lia]. }
    intros c [<-|[<-|[<-|[<-|[]]]]]; [apply C| |apply C|].
    + split; [exact T2|]. split; [cbn; intuition lia|]. split; [|split; [cbn; lia|exists 9; reflexivity]].
      intros n [<-|[<-|[<-|[]]]]; (split; [reflexivity|]); [split; discriminate|repeat constructor; cbn; intuition lia|repeat constructor; cbn; intuition lia].
    + split; [exact T3|]. split; [cbn; intuition lia|]. split; [intros n []|split; [repeat constructor; cbn; intuition lia|cbn; lia]].
  - do 2 eexists. split; [reflexivity|]. split; [vm_compute; reflexivity|]. split; vm_compute; reflexivity.
Qed.
