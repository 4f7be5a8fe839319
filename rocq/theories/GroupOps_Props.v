(** C10: group operators on dense arrays. *)
From Verif Require Import Base Bits_Model Bitmap_Model Dense_Model Dense_Spec Dense_Proofs
  DenseOps_Model DenseOps_Spec Edge_Model Edge_Spec GroupOps_Model GroupOps_Spec GroupOps_Proofs.

(** Mapping edge: any accumulator whatsoever; the result is the error of the
    first failing group or the outputs of the separate groups. *)
Theorem C10_mapping : forall S P C R Err (acc : accum S P C R Err) alloc e p m pargs cargs pls cls,
  edge_rep e p m -> e_split e = false ->
  args_rep (a_popts acc) pargs pls p -> args_rep (a_copts acc) cargs cls (length m) ->
  (forall k, length (alloc k) = k) ->
  exists res, apply_edge acc alloc e pargs cargs = Some res /\
    match first_error acc pls cls (length m) m (seq 0 p) with
    | Some e => res = GError e
    | None => exists d, res = GOut d /\ represents d (outputs acc pls cls (length m) m p)
    end.
Proof. exact (fun S P C R Err => @edge_mapping_ok S P C R Err). Qed.
Print Assumptions C10_mapping.

(** Split points: one accumulator is reused for all groups, so the accumulator has
    to follow the contract of its interface. *)
Theorem C10_split_points : forall S P C R Err (acc : accum S P C R Err) alloc e p m pargs cargs pls cls,
  contract acc -> ok acc (a_empty acc) -> edge_rep e p m -> e_split e = true ->
  args_rep (a_popts acc) pargs pls p -> args_rep (a_copts acc) cargs cls (length m) ->
  (forall k, length (alloc k) = k) ->
  exists res, apply_edge acc alloc e pargs cargs = Some res /\
    match first_error acc pls cls (length m) m (seq 0 p) with
    | Some _ => exists e, res = GError e
    | None => exists d, res = GOut d /\ represents d (outputs acc pls cls (length m) m p)
    end.
Proof. exact (fun S P C R Err => @edge_split_ok S P C R Err). Qed.
Print Assumptions C10_split_points.

(** Neither the representation of the edge nor that of the arguments matters. *)
Theorem C10_representation : forall S P C R Err (acc : accum S P C R Err) alloc alloc' e e' p m
  pargs pargs' cargs cargs' pls cls,
  contract acc -> ok acc (a_empty acc) -> edge_rep e p m -> edge_rep e' p m ->
  args_rep (a_popts acc) pargs pls p -> args_rep (a_copts acc) cargs cls (length m) ->
  args_rep (a_popts acc) pargs' pls p -> args_rep (a_copts acc) cargs' cls (length m) ->
  (forall k, length (alloc k) = k) -> (forall k, length (alloc' k) = k) ->
  exists res res', apply_edge acc alloc e pargs cargs = Some res /\
    apply_edge acc alloc' e' pargs' cargs' = Some res' /\ same_outcome res res'.
Proof. exact (fun S P C R Err => @edge_same S P C R Err). Qed.
Print Assumptions C10_representation.

(** The scalar edge: one group with all the children. *)
Theorem C10_scalar : forall S P C R Err (acc : accum S P C R Err) alloc n prow cargs cls,
  length cargs = length (a_copts acc) -> Forall2 represents cargs cls -> Forall (fun l => length l = n) cls ->
  (forall k, length (alloc k) = k) ->
  exists res, apply_scalar acc alloc n prow cargs = Some res /\
    match a_status acc (group_final acc cls (start acc prow) (all_members acc cls n)) with
    | Some e => res = GError e
    | None => match a_kind acc with
              | Aggregator => res = GScalar (aggregate acc cls (start acc prow) (all_members acc cls n))
              | _ => exists d, res = GOut d /\ represents d (map (scalar_out acc cls n prow) (seq 0 n))
              end
    end.
Proof. exact (fun S P C R Err => @scalar_ok S P C R Err). Qed.
Print Assumptions C10_scalar.

Theorem C10_size_mismatch : forall S P C R Err (acc : accum S P C R Err) alloc e pargs cargs,
  (exists a : darr P, In a pargs /\ Z.of_nat (da_size a) <> e_parent e) \/
  (exists a : darr C, In a cargs /\ Z.of_nat (da_size a) <> e_child e) ->
  apply_edge acc alloc e pargs cargs = Some GSizeMismatch.
Proof. exact (fun S P C R Err => @edge_mismatch S P C R Err). Qed.
Print Assumptions C10_size_mismatch.

Theorem C10_scalar_mismatch : forall S P C R Err (acc : accum S P C R Err) alloc n prow cargs,
  (exists a : darr C, In a cargs /\ da_size a <> n) ->
  apply_scalar acc alloc n prow cargs = Some GSizeMismatch.
Proof. exact (fun S P C R Err => @scalar_mismatch S P C R Err). Qed.
Print Assumptions C10_scalar_mismatch.

(** The contract is met by a real accumulator with errors and per-group state. *)
Theorem C10_inverse_mapping_contract : contract inverse_mapping_acc.
Proof. exact inverse_mapping_contract. Qed.
Print Assumptions C10_inverse_mapping_contract.

(** Two groups, given by split points and by a mapping. *)
Definition ex_splits : edge := mkE true 2 5 (mkD [0; 3; 5]%Z [] 0).
Definition ex_mapping : edge := mkE false 2 5 (mkD [0; 0; 0; 1; 1]%Z [] 0).
Definition ex_m := [Some 0; Some 0; Some 0; Some 1; Some 1].
Definition ex_alloc (k : nat) : list Z := repeat 7%Z k.
Definition ex_perm : darr Z := mkD [2; 0; 1; 9; 0]%Z [23]%N 0.
Definition ex_perm_l := [Some 2; Some 0; Some 1; None; Some 0]%Z.
Example C10_hyp : edge_rep ex_splits 2 ex_m /\ edge_rep ex_mapping 2 ex_m /\
  args_rep (A := unit) (a_popts inverse_mapping_acc) [] [] 2 /\
  args_rep (a_copts inverse_mapping_acc) [ex_perm] [ex_perm_l] (length ex_m) /\
  ok inverse_mapping_acc (a_empty inverse_mapping_acc) /\ (forall k, length (ex_alloc k) = k).
Proof.
  assert (Hm : forall c q, nth c ex_m None = Some q -> q < 2).
  { intros c q. do 5 (destruct c as [|c]; [cbn; intros E; injection E as <-; lia|]). destruct c; discriminate. }
  split; [|split; [|split; [|split; [|split]]]].
  - split; [reflexivity|]. split; [reflexivity|]. split; [exact Hm|]. exists [0; 3; 5]. split; [|split; [reflexivity|split; [reflexivity|split]]].
    + split; [discriminate|]. split; [reflexivity|]. intros i j H. cbn in H.
      destruct i as [|[|[|i]]], j as [|[|[|j]]]; cbn; lia.
    + split; [|split; [reflexivity|]]; [split; [cbn; lia|split; [constructor|left; reflexivity]]|].
      intros i Hi. cbn in Hi. do 3 (destruct i as [|i]; [reflexivity|]). lia.
    + intros q c Hq. destruct q as [|[|q]]; [| |lia]; cbn; intros H;
        do 5 (destruct c as [|c]; [first [reflexivity|lia]|]); lia.
  - split; [reflexivity|]. split; [reflexivity|]. split; [exact Hm|].
    split; [|split; [reflexivity|]]; [split; [cbn; lia|split; [constructor|left; reflexivity]]|].
    intros i Hi. cbn in Hi. do 5 (destruct i as [|i]; [reflexivity|]). lia.
  - split; [reflexivity|]. split; constructor.
  - split; [reflexivity|]. split; [constructor; [|constructor]|constructor; [reflexivity|constructor]].
    split; [|split; [reflexivity|]]; [split; [cbn; lia|split; [repeat constructor|right; reflexivity]]|].
    intros i Hi. cbn in Hi. do 5 (destruct i as [|i]; [reflexivity|]). lia.
  - reflexivity.
  - intros k. apply repeat_length.
Qed.
Example C10_ex_splits : apply_edge inverse_mapping_acc ex_alloc ex_splits [] [ex_perm] =
  Some (GOut (mkD [1; 2; 0; 1; 7]%Z [15]%N 0)).
Proof. reflexivity. Qed.
Example C10_ex_mapping : apply_edge inverse_mapping_acc ex_alloc ex_mapping [] [ex_perm] =
  Some (GOut (mkD [1; 2; 0; 1; 7]%Z [15]%N 0)).
Proof. reflexivity. Qed.
Example C10_ex_outputs : outputs inverse_mapping_acc [] [ex_perm_l] 5 ex_m 2 = [Some 1; Some 2; Some 0; Some 1; None]%Z.
Proof. reflexivity. Qed.
(** An error in the first group is reported although the second group is fine. *)
Example C10_ex_error : apply_edge inverse_mapping_acc ex_alloc ex_splits [] [mkD [5; 0; 1; 1; 0]%Z [] 0] = Some (GError 5%Z).
Proof. reflexivity. Qed.
Example C10_ex_mismatch : apply_edge inverse_mapping_acc ex_alloc ex_splits [] [mkD [5; 0]%Z [] 0] = Some GSizeMismatch.
Proof. reflexivity. Qed.
(** A sum aggregator with an optional initial value taken from the parent and a
    partial (cumulative) one, with a missing child and a missing parent. *)
Definition ex_sum (k : kind) : accum Z Z Z Z Z :=
  {| a_kind := k; a_forward_id := false; a_popts := [false]; a_copts := [false];
     a_empty := 0%Z; a_reset := fun r _ => match r with [Some x] => x | _ => 0%Z end;
     a_add := fun _ r s => match r with [Some x] => (s + x)%Z | _ => s end;
     a_finalize := fun s => s; a_result := fun s => (Some s, s); a_status := fun _ => None |}.
Example C10_ex_sum : apply_edge (ex_sum Aggregator) ex_alloc ex_mapping [mkD [100; 200]%Z [1]%N 0] [ex_perm] =
  Some (GOut (mkD [103; 7]%Z [1]%N 0)).
Proof. reflexivity. Qed.
Example C10_ex_cumsum : apply_edge (ex_sum Partial) ex_alloc ex_splits [mkD [100; 200]%Z [] 0] [ex_perm] =
  Some (GOut (mkD [102; 102; 103; 7; 200]%Z [23]%N 0)).
Proof. reflexivity. Qed.
Example C10_ex_scalar : apply_scalar (ex_sum Aggregator) ex_alloc 5 [Some 100%Z] [ex_perm] = Some (GScalar (Some 103%Z)).
Proof. reflexivity. Qed.

(** Without [ok acc (a_empty acc)] the representation of the edge does matter: an
    accumulator constructed with a bad parameter (such as math.inverse_cdf with
    cdf outside [0, 1]) is reported as an error for a split point edge without
    (valid) parents but not for the mapping edge that denotes the same relation. *)
Definition bad_acc : accum unit unit unit unit unit :=
  {| a_kind := Aggregator; a_forward_id := false; a_popts := []; a_copts := [false];
     a_empty := tt; a_reset := fun _ s => s; a_add := fun _ _ s => s; a_finalize := fun s => s;
     a_result := fun s => (None, s); a_status := fun _ => Some tt |}.
Theorem C10_representation_refuted : exists (acc : accum unit unit unit unit unit) e e' p m,
  contract acc /\ edge_rep e p m /\ edge_rep e' p m /\
  apply_edge acc (fun k => repeat tt k) e [] [mkD [] [] 0] = Some (GError tt) /\
  exists d, apply_edge acc (fun k => repeat tt k) e' [] [mkD [] [] 0] = Some (GOut d).
Proof.
  exists bad_acc, (mkE true 0 0 (mkD [0%Z] [] 0)), (mkE false 0 0 (mkD [] [] 0)), 0, [].
  split; [|split; [|split; [|split]]].
  - split.
    + intros s _. repeat split; intros; discriminate.
    + exists (fun _ _ => True), (fun _ _ => True). repeat split; try discriminate;
        unfold alike, same_result, ok; cbn; intros; try discriminate; try (right; split; discriminate).
  - split; [reflexivity|]. split; [reflexivity|]. split; [intros [|c] q; discriminate|]. exists [0].
    split; [|split; [reflexivity|split; [reflexivity|split]]].
    + split; [discriminate|]. split; [reflexivity|]. intros [|i] [|j] H; cbn in *; lia.
    + split; [|split; [reflexivity|]]; [split; [cbn; lia|split; [constructor|left; reflexivity]]|].
      intros [|i] Hi; [reflexivity|cbn in Hi; lia].
    + intros q c Hq. lia.
  - split; [reflexivity|]. split; [reflexivity|]. split; [intros [|c] q; discriminate|].
    split; [|split; [reflexivity|]]; [split; [cbn; lia|split; [constructor|left; reflexivity]]|]. intros i Hi. cbn in Hi. lia.
  - reflexivity.
  - eexists. reflexivity.
Qed.
Print Assumptions C10_representation_refuted.
