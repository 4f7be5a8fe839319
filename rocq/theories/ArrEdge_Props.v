(** C42: edges whose values are Arrays. *)
From Verif Require Import Base Bits_Model Bitmap_Model Dense_Model Dense_Spec Dense_Proofs
  IdFilter_Model IdFilter_Spec Array_Model Array_Spec Array_Proofs
  Edge_Model Edge_Spec ArrEdge_Model ArrEdge_Spec ArrEdge_Proofs.

(** FromSplitPoints accepts exactly split points, in any form of array. *)
Theorem C42_from_split_points : forall alloc allocw a l, alloc_sz alloc -> allocw_ok allocw -> ar_rep a l ->
  (forall s, splits s -> l = map (fun x => Some (Z.of_nat x)) s ->
     exists e, ae_from_split_points alloc allocw a = Some (inr e) /\ ae_split e = true /\
       aedge_rep e (length s - 1) (split_mapping s)) /\
  ((forall s, splits s -> l <> map (fun x => Some (Z.of_nat x)) s) ->
     exists err, ae_from_split_points alloc allocw a = Some (inl err)).
Proof. intros alloc allocw a l HA HW. exact (ae_from_split_points_ok alloc allocw HA HW a l). Qed.
Print Assumptions C42_from_split_points.

(** FromMapping accepts exactly non-negative sizes and in-range parents. *)
Theorem C42_from_mapping : forall a l P, ar_rep a l ->
  ((0 <= P)%Z /\ in_range l P ->
     exists e m, ae_from_mapping a P = Some (inr e) /\ l = map zopt m /\ ae_split e = false /\
       aedge_rep e (Z.to_nat P) m) /\
  (~ ((0 <= P)%Z /\ in_range l P) -> exists err, ae_from_mapping a P = Some (inl err)).
Proof. exact ae_from_mapping_ok. Qed.
Print Assumptions C42_from_mapping.

(** FromUniformGroups, as C08_from_uniform_groups. *)
Theorem C42_from_uniform_groups : forall P g,
  ((P < 0)%Z \/ (g < 0)%Z -> ae_from_uniform_groups P g = Some (inl NegArgs)) /\
  ((0 <= P)%Z -> (0 <= g)%Z -> (2 ^ 63 <= P * g)%Z -> ae_from_uniform_groups P g = Some (inl MulOverflow)) /\
  ((0 <= P < 2 ^ 63 - 1)%Z -> (0 <= g)%Z -> (P * g < 2 ^ 63)%Z -> exists e,
     ae_from_uniform_groups P g = Some (inr e) /\ ae_split e = true /\
     aedge_rep e (Z.to_nat P) (map (fun c => Some (c / Z.to_nat g)) (seq 0 (Z.to_nat P * Z.to_nat g)))).
Proof. exact ae_uniform_ok. Qed.
Print Assumptions C42_from_uniform_groups.

(** Conversions to and from DenseArrayEdge keep the relation and its kind. *)
Theorem C42_to_dense : forall alloc allocw e p m, alloc_sz alloc -> allocw_ok allocw -> aedge_rep e p m ->
  exists d, ae_to_dense alloc allocw e = Some d /\ edge_rep d p m /\ e_split d = ae_split e.
Proof. intros alloc allocw e p m HA HW. exact (ae_to_dense_ok alloc allocw HA HW e p m). Qed.
Print Assumptions C42_to_dense.
Theorem C42_from_dense : forall e p m, edge_rep e p m ->
  aedge_rep (ae_from_dense e) p m /\ ae_split (ae_from_dense e) = e_split e.
Proof. intros e p m R. split; [exact (ae_from_dense_rep e p m R)|reflexivity]. Qed.
Print Assumptions C42_from_dense.

(** ToMappingEdge keeps the relation. *)
Theorem C42_to_mapping : forall alloc allocw e p m, alloc_sz alloc -> allocw_ok allocw -> aedge_rep e p m ->
  exists e', ae_to_mapping alloc allocw e = Some e' /\ ae_split e' = false /\ aedge_rep e' p m.
Proof. intros alloc allocw e p m HA HW. exact (ae_to_mapping_ok alloc allocw HA HW e p m). Qed.
Print Assumptions C42_to_mapping.

(** ToSplitPointsEdge succeeds exactly on full sorted relations and keeps them. *)
Theorem C42_to_split_points : forall alloc allocw e p m, alloc_sz alloc -> allocw_ok allocw -> aedge_rep e p m ->
  (full_sorted m -> exists e', ae_to_split_points alloc allocw e = Some (inr e') /\ ae_split e' = true /\ aedge_rep e' p m) /\
  (~ full_sorted m -> exists err, ae_to_split_points alloc allocw e = Some (inl err)).
Proof. intros alloc allocw e p m HA HW. exact (ae_to_split_ok alloc allocw HA HW e p m). Qed.
Print Assumptions C42_to_split_points.

(** ComposeEdges follows all the edges of a chain; sizes that do not fit are errors. *)
Theorem C42_compose : forall alloc allocw es p m, alloc_sz alloc -> allocw_ok allocw -> achain_rep es p m ->
  exists r, ae_compose alloc allocw es = Some (inr r) /\ aedge_rep r p m /\ ae_split r = forallb ae_split es.
Proof. intros alloc allocw es p m HA HW. exact (ae_compose_ok alloc allocw HA HW es p m). Qed.
Print Assumptions C42_compose.
Theorem C42_incompatible : forall alloc allocw pre e1 e2 post, alloc_sz alloc -> allocw_ok allocw ->
  Forall (fun e => exists p m, aedge_rep e p m) (pre ++ e1 :: e2 :: post) -> ae_child e1 <> ae_parent e2 ->
  ae_compose alloc allocw (pre ++ e1 :: e2 :: post) = Some (inl Incompatible).
Proof. intros alloc allocw pre e1 e2 post HA HW. exact (ae_incompatible_ok alloc allocw HA HW pre e1 e2 post). Qed.
Print Assumptions C42_incompatible.

(** IsEquivalentTo compares what the edges denote, unless both are mappings without
    children. *)
Theorem C42_is_equivalent : forall alloc allocw addr e e' p p' m m', alloc_sz alloc -> allocw_ok allocw ->
  aedge_rep e p m -> aedge_rep e' p' m' -> m <> [] \/ ae_split e = true \/ ae_split e' = true ->
  exists r, ae_equivalent alloc allocw addr e e' = Some r /\ (r = true <-> p = p' /\ m = m').
Proof.
  intros alloc allocw addr e e' p p' m m' HA HW R R' H.
  destruct (ae_equivalent_ok alloc allocw HA HW addr e e' p p' m m' R R') as (r & E & Y & _). exists r. split; [exact E|].
  apply Y. destruct H as [H|H]; [left; destruct m; [congruence|discriminate]|right; exact H].
Qed.
Print Assumptions C42_is_equivalent.

(** In the excluded case a hidden default of an empty array decides: both edges have
    no children and three parents, yet they are reported as different. *)
Theorem C42_is_equivalent_refuted : exists a b e e',
  ae_from_mapping a 3 = Some (inr e) /\ ae_from_mapping b 3 = Some (inr e') /\
  aedge_rep e 3 [] /\ aedge_rep e' 3 [] /\
  forall alloc allocw addr, alloc_sz alloc -> allocw_ok allocw -> ae_equivalent alloc allocw addr e e' = Some false.
Proof.
  exists (ar_const 0 (Some 1%Z)), (ar_const 0 None). eexists _, _. split; [reflexivity|]. split; [reflexivity|].
  assert (R : forall v, aedge_rep (ae_unsafe_from_mapping (ar_const 0 v) 3) 3 []).
  { intros v. split; [reflexivity|]. split; [reflexivity|]. split; [intros [|c] q H; discriminate|]. apply (ar_const_rep 0). }
  split; [apply R|]. split; [apply R|]. intros alloc allocw addr HA HW.
  destruct (ae_equivalent_ok alloc allocw HA HW addr _ _ 3 3 [] [] (R (Some 1%Z)) (R None)) as (r & E & _ & H).
  rewrite E. f_equal. destruct r; [|reflexivity]. destruct H as [H _]; try reflexivity.
  destruct (H eq_refl) as [[H1 _]|H1]; discriminate.
Qed.
Print Assumptions C42_is_equivalent_refuted.

(** split_size(i) is the number of children of parent i. *)
Theorem C42_split_size : forall e p m i, aedge_rep e p m -> ae_split e = true -> i < p ->
  ae_split_size e i = Some (Z.of_nat (children m i)).
Proof. exact ae_split_size_ok. Qed.
Print Assumptions C42_split_size.

(** Concrete edges: split points given as a sparse array with a default, a sparse
    mapping with a default. *)
Definition ex_alloc (n : nat) : list Z := repeat 77%Z n.
Definition ex_allocw (n : nat) : list N := repeat 5%N n.
Definition ex_split_arr : arr Z := mkArr 4 (FPartial 9 [0; 2; 3] 0) (mkD [0; 3; 4]%Z [] 0) (Some 1%Z).
Definition ex_map_arr : arr Z := mkArr 5 (FPartial 9 [2; 4] 1) (mkD [0; 8]%Z [1%N] 0) (Some 2%Z).
Example C42_ex_split : match ae_from_split_points ex_alloc ex_allocw ex_split_arr with
  | Some (inr e) => (ae_parent e, ae_child e, vals (ar_data (ae_vals e)), map (ae_split_size e) [0; 1; 2])
  | _ => (0, 0, [], [])%Z end = (3, 4, [0; 1; 3; 4], [Some 1; Some 2; Some 1])%Z.
Proof. vm_compute. reflexivity. Qed.
Example C42_ex_mapping : match ae_from_mapping ex_map_arr 3 with
  | Some (inr e) => (ae_parent e, ae_child e, map (ar_get (ae_vals e)) (seq 0 5)) | _ => (0, 0, [])%Z end
  = (3, 5, map Some [Some 2; Some 0; Some 2; None; Some 2])%Z /\ ae_from_mapping ex_map_arr 2 = Some (inl ParentTooSmall).
Proof. split; vm_compute; reflexivity. Qed.
Definition ex_s : aedge := mkAE true 3 4 (ar_dense (mkD [0; 1; 3; 4]%Z [] 0)).
Definition ex_m : aedge := mkAE false 4 5 (mkArr 5 (FPartial 9 [2; 4] 1) (mkD [0; 8]%Z [1%N] 0) (Some 2%Z)).
Example C42_ex_compose : match ae_compose ex_alloc ex_allocw [ex_s; ex_m] with
  | Some (inr e) => (ae_split e, ae_parent e, ae_child e, map (ar_get (ae_vals e)) (seq 0 5)) | _ => (true, 0, 0, [])%Z end
  = (false, 3, 5, map Some [Some 1; Some 0; Some 1; None; Some 1])%Z.
Proof. vm_compute. reflexivity. Qed.
Example C42_ex_equivalent : match ae_to_mapping ex_alloc ex_allocw ex_s with
  | Some m => (ae_equivalent ex_alloc ex_allocw 0 ex_s m, ae_equivalent ex_alloc ex_allocw 0 ex_m m)
  | None => (None, None) end = (Some true, Some false).
Proof. vm_compute. reflexivity. Qed.
Example C42_ex_rep : aedge_rep ex_m 4 [Some 2; Some 0; Some 2; None; Some 2].
Proof.
  split; [reflexivity|]. split; [reflexivity|]. split.
  - intros c q H. do 5 (destruct c as [|c]; [cbn in H; try discriminate; injection H as <-; lia|]). destruct c; discriminate.
  - cbn [ae_split ex_m ae_vals]. split; [split; [|split; [|split]]|split; [reflexivity|]].
    + cbn. split; [discriminate|]. split; [lia|]. split.
      * intros i j H. cbn [length] in H. destruct i as [|[|i]], j as [|[|j]]; cbn [nth]; lia.
      * repeat constructor; lia.
    + split; [cbn; lia|]. split; [repeat constructor|right; cbn; lia].
    + reflexivity.
    + discriminate.
    + intros i Hi. cbn [length map] in Hi. do 5 (destruct i as [|i]; [reflexivity|]). lia.
Qed.
