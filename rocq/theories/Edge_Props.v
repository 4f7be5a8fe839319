(** C08, C09: DenseArrayEdge. *)
From Verif Require Import Base Bits_Model Bitmap_Model Dense_Model Dense_Spec Dense_Proofs
  Edge_Model Edge_Spec Edge_Proofs.

(** FromSplitPoints accepts exactly full, non-empty, non-decreasing lists
    starting with 0; the edge then has s(q+1)-s(q) consecutive children for every
    parent q. *)
Theorem C08_from_split_points : forall a l, represents a l ->
  (forall s, splits s -> l = map (fun x => Some (Z.of_nat x)) s ->
     exists e, from_split_points a = Some (inr e) /\ e_split e = true /\
       edge_rep e (length s - 1) (split_mapping s)) /\
  ((forall s, splits s -> l <> map (fun x => Some (Z.of_nat x)) s) ->
     exists err, from_split_points a = Some (inl err)).
Proof. exact from_split_points_ok. Qed.
Print Assumptions C08_from_split_points.

(** FromMapping accepts exactly non-negative sizes and in-range parents. *)
Theorem C08_from_mapping : forall a l P, represents a l ->
  ((0 <= P)%Z /\ in_range l P ->
     exists e m, from_mapping a P = Some (inr e) /\ l = map zopt m /\ e_split e = false /\
       edge_rep e (Z.to_nat P) m) /\
  (~ ((0 <= P)%Z /\ in_range l P) -> exists err, from_mapping a P = Some (inl err)).
Proof. exact from_mapping_ok. Qed.
Print Assumptions C08_from_mapping.

(** FromUniformGroups: child c belongs to parent c / g; negative sizes and an
    int64 overflow of the number of children are errors. *)
Theorem C08_from_uniform_groups : forall P g,
  ((P < 0)%Z \/ (g < 0)%Z -> from_uniform_groups P g = Some (inl NegArgs)) /\
  ((0 <= P)%Z -> (0 <= g)%Z -> (2 ^ 63 <= P * g)%Z -> from_uniform_groups P g = Some (inl MulOverflow)) /\
  ((0 <= P < 2 ^ 63 - 1)%Z -> (0 <= g)%Z -> (P * g < 2 ^ 63)%Z -> exists e,
     from_uniform_groups P g = Some (inr e) /\ e_split e = true /\
     edge_rep e (Z.to_nat P) (map (fun c => Some (c / Z.to_nat g)) (seq 0 (Z.to_nat P * Z.to_nat g)))).
Proof. exact from_uniform_ok. Qed.
Print Assumptions C08_from_uniform_groups.

(** The guard P < 2^63 - 1 is needed: parent_size + 1 overflows int64 although
    both arguments are accepted. *)
Theorem C08_uniform_overflow_refuted : exists P g, (0 <= P <= int64_max)%Z /\ (0 <= g)%Z /\
  (P * g < 2 ^ 63)%Z /\ from_uniform_groups P g = None.
Proof. exact uniform_overflow. Qed.
Print Assumptions C08_uniform_overflow_refuted.

(** ToMappingEdge keeps the child-to-parent relation. *)
Theorem C08_to_mapping : forall alloc e p m, alloc_ok alloc -> edge_rep e p m ->
  exists e', to_mapping alloc e = Some e' /\ e_split e' = false /\ edge_rep e' p m.
Proof. exact to_mapping_ok. Qed.
Print Assumptions C08_to_mapping.

(** ToSplitPointsEdge succeeds exactly on full sorted relations and keeps them. *)
Theorem C08_to_split_points : forall alloc e p m, alloc_ok alloc -> edge_rep e p m ->
  (full_sorted m -> exists e', to_split_points alloc e = Some (inr e') /\ e_split e' = true /\ edge_rep e' p m) /\
  (~ full_sorted m -> exists err, to_split_points alloc e = Some (inl err)).
Proof. exact to_split_ok. Qed.
Print Assumptions C08_to_split_points.

(** IsEquivalentTo compares what the edges denote. *)
Theorem C08_is_equivalent : forall alloc e e' p p' m m', alloc_ok alloc -> edge_rep e p m -> edge_rep e' p' m' ->
  exists r, is_equivalent alloc e e' = Some r /\ (r = true <-> p = p' /\ m = m').
Proof. exact is_equivalent_ok. Qed.
Print Assumptions C08_is_equivalent.

(** split_size(i) is the number of children of parent i. *)
Theorem C08_split_size : forall e p m i, edge_rep e p m -> e_split e = true -> i < p ->
  split_size e i = Some (Z.of_nat (children m i)).
Proof. exact split_size_ok. Qed.
Print Assumptions C08_split_size.

(** ComposeEdges follows all the edges of a chain, of any length and any mix of
    representations; the result has split points iff all the edges have. *)
Theorem C09_compose : forall alloc es p m, alloc_ok alloc -> chain_rep es p m ->
  exists r, compose_edges alloc es = Some (inr r) /\ edge_rep r p m /\ e_split r = forallb e_split es.
Proof. exact compose_edges_ok. Qed.
Print Assumptions C09_compose.

(** Errors: no edges, or consecutive edges that do not fit. *)
Theorem C09_incompatible : forall alloc pre e1 e2 post, e_child e1 <> e_parent e2 ->
  compose_edges alloc (pre ++ e1 :: e2 :: post) = Some (inl Incompatible).
Proof. exact compose_edges_incompatible. Qed.
Print Assumptions C09_incompatible.
Theorem C09_empty : forall alloc, compose_edges alloc [] = Some (inl NoEdges).
Proof. exact (fun _ => eq_refl). Qed.
Print Assumptions C09_empty.

(** Concrete edges: a split point edge 2 <- 3, a sparse mapping edge 3 <- 4. *)
Definition ex_alloc (n : nat) : list Z := repeat 77%Z n.
Definition ex_s : edge := mkE true 2 3 (mkD [0; 1; 3]%Z [] 0).
Definition ex_m : edge := mkE false 3 4 (mkD [2; 5; 0; 1]%Z [13]%N 0).
Definition ex_t : edge := mkE true 4 5 (mkD [0; 2; 2; 4; 5]%Z [] 0).
Example C08_ex_split : from_split_points (mkD [0; 1; 3]%Z [] 0) = Some (inr ex_s) /\
  split_mapping [0; 1; 3] = [Some 0; Some 1; Some 1].
Proof. split; reflexivity. Qed.
Example C08_ex_split_err : from_split_points (mkD [0; 3; 1]%Z [] 0) = Some (inl SplitUnsorted) /\
  from_split_points (mkD [1; 3]%Z [] 0) = Some (inl SplitFirst) /\
  from_split_points (mkD [0; 3]%Z [1]%N 0) = Some (inl SplitNotFull) /\
  from_split_points (mkD [] [] 0) = Some (inl SplitEmpty).
Proof. repeat split; reflexivity. Qed.
Example C08_ex_mapping : from_mapping (mkD [2; 5; 0; 1]%Z [13]%N 0) 3 = Some (inr ex_m) /\
  from_mapping (mkD [2; 5; 0; 1]%Z [13]%N 0) 2 = Some (inl ParentTooSmall) /\
  from_mapping (mkD [2; -5; 0; 1]%Z [15]%N 0) 3 = Some (inl NegValue).
Proof. repeat split; reflexivity. Qed.
Example C08_ex_conv : to_mapping ex_alloc ex_s = Some (mkE false 2 3 (mkD [0; 1; 1]%Z [] 0)) /\
  to_split_points ex_alloc (mkE false 3 3 (mkD [0; 1; 1]%Z [] 0)) = Some (inr (mkE true 3 3 (mkD [0; 1; 3; 3]%Z [] 0))) /\
  to_split_points ex_alloc (mkE false 3 3 (mkD [1; 0; 1]%Z [] 0)) = Some (inl MapUnsorted) /\
  is_equivalent ex_alloc (mkE false 2 3 (mkD [0; 1; 1]%Z [7]%N 0)) ex_s = Some true.
Proof. repeat split; reflexivity. Qed.
Example C08_ex_uniform : from_uniform_groups 2 3 = Some (inr (mkE true 2 6 (mkD [0; 3; 6]%Z [] 0))).
Proof. reflexivity. Qed.
Example C08_hyp : edge_rep ex_s 2 [Some 0; Some 1; Some 1] /\
  edge_rep ex_m 3 [Some 2; None; Some 0; Some 1] /\ alloc_ok ex_alloc.
Proof.
  split; [|split; [|intros n; apply repeat_length]].
  - apply edge_rep_split; [reflexivity|]. split; [reflexivity|]. split; [reflexivity|]. exists [0; 1; 3].
    split; [|apply (rep_plain [0; 1; 3]%Z)].
    pose proof (split_mapping_ok [0; 1; 3]) as H. apply H. split; [discriminate|]. split; [reflexivity|].
    intros i j Hij. cbn [length] in Hij. destruct i as [|[|[|i]]], j as [|[|[|j]]]; cbn; lia.
  - apply (unsafe_mapping_ok (mkD [2; 5; 0; 1]%Z [13]%N 0) 3 [Some 2; None; Some 0; Some 1]).
    + split; [|split; [reflexivity|]].
      * split; [cbn; lia|]. split; [repeat constructor|right; reflexivity].
      * intros i Hi. cbn in Hi. do 4 (destruct i as [|i]; [reflexivity|]). lia.
    + intros c q Hc. do 4 (destruct c as [|c]; [cbn in Hc; inversion Hc; lia|]). destruct c; discriminate.
Qed.
Example C09_ex : compose_edges ex_alloc [ex_s; ex_m; ex_t] =
  Some (inr (mkE false 2 5 (mkD [1; 1; 0; 0; 1]%Z [31]%N 0))) /\
  compose_edges ex_alloc [ex_s; ex_t] = Some (inl Incompatible) /\
  compose_edges ex_alloc [ex_s; mkE true 3 4 (mkD [0; 0; 1; 4]%Z [] 0)] =
    Some (inr (mkE true 2 4 (mkD [0; 0; 4]%Z [] 0))).
Proof. repeat split; reflexivity. Qed.
