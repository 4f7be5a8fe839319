(** C16: group operators on Arrays. *)
From Coq Require Import Permutation.
From Verif Require Import Base Bits_Model Bitmap_Model Dense_Model Dense_Spec DenseOps_Model DenseOps_Spec
  IdFilter_Model IdFilter_Spec Array_Model Array_Spec Edge_Model Edge_Spec ArrOps_Model ArrEdge_Model ArrEdge_Spec ArrEdge_Proofs
  GroupOps_Model GroupOps_Spec GroupOps_Proofs ArrGroup_Model ArrGroup_Spec ArrGroup_Apply.

(** Mapping edge: any accumulator, any form of the edge and of every argument. *)
Theorem C16_mapping : forall S P C R Err (acc : accum S P C R Err) addn allocp allocc allocm allocr allocz allocw addr order
  pls cls m p e pargs cargs use_dense,
  new_buffers allocp allocc allocm allocr allocz allocw -> (forall l, Permutation (order l) l) ->
  aedge_rep e p m -> aargs_rep (a_popts acc) pargs pls p -> aargs_rep (a_copts acc) cargs cls (length m) ->
  ae_split e = false ->
  exists res, apply_array allocp allocc allocm allocr allocz allocw addr acc addn order use_dense e pargs cargs = Some res /\
    array_outcome (first_error acc pls cls (length m) m (seq 0 p)) (outputs acc pls cls (length m) m p) res.
Proof. intros. eapply array_mapping_ok; eassumption. Qed.
Print Assumptions C16_mapping.

(** Split points: the accumulator follows the contract of its interface, including
    AddN for aggregators. *)
Theorem C16_split_points : forall S P C R Err (acc : accum S P C R Err) addn allocp allocc allocm allocr allocz allocw addr order
  pls cls m p e pargs cargs use_dense,
  new_buffers allocp allocc allocm allocr allocz allocw ->
  aedge_rep e p m -> aargs_rep (a_popts acc) pargs pls p -> aargs_rep (a_copts acc) cargs cls (length m) ->
  contract acc -> ok acc (a_empty acc) -> lawful acc addn -> ae_split e = true ->
  exists res, apply_array allocp allocc allocm allocr allocz allocw addr acc addn order use_dense e pargs cargs = Some res /\
    array_outcome (first_error acc pls cls (length m) m (seq 0 p)) (outputs acc pls cls (length m) m p) res.
Proof. intros. eapply array_split_ok; eassumption. Qed.
Print Assumptions C16_split_points.

(** Scalar edge. *)
Theorem C16_scalar : forall S P C R Err (acc : accum S P C R Err) addn allocc allocr allocw addr use_dense n prow cargs cls,
  lawful acc addn -> alloc_sz allocc -> alloc_sz allocr -> allocw_ok allocw ->
  aargs_rep (a_copts acc) cargs cls n ->
  exists res, apply_array_scalar allocc allocr allocw addr acc addn use_dense n prow cargs = Some res /\
    array_scalar_outcome acc cls n prow res.
Proof. intros. apply (array_scalar_ok acc addn (fun _ => []) allocc (fun _ => []) allocr (fun _ => [])); assumption. Qed.
Print Assumptions C16_scalar.

Theorem C16_size_mismatch : forall S P C R Err (acc : accum S P C R Err) addn allocp allocc allocm allocr allocz allocw addr order
  use_dense e pargs cargs p m,
  aedge_rep e p m -> alloc_sz allocz -> allocw_ok allocw -> Forall ar_valid pargs -> Forall ar_valid cargs ->
  (exists a, In a pargs /\ ar_size a <> p) \/ (exists a, In a cargs /\ ar_size a <> length m) ->
  apply_array allocp allocc allocm allocr allocz allocw addr acc addn order use_dense e pargs cargs = Some AGMismatch.
Proof. intros. eapply array_mismatch; eassumption. Qed.
Print Assumptions C16_size_mismatch.

Theorem C16_scalar_mismatch : forall S P C R Err (acc : accum S P C R Err) addn allocc allocr allocw addr use_dense n prow cargs,
  Forall ar_valid cargs -> (exists a, In a cargs /\ ar_size a <> n) ->
  apply_array_scalar allocc allocr allocw addr acc addn use_dense n prow cargs = Some AGMismatch.
Proof. intros. apply array_scalar_mismatch; assumption. Qed.
Print Assumptions C16_scalar_mismatch.

Lemma any_edge {S P C R Err} (acc : accum S P C R Err) addn allocp allocc allocm allocr allocz allocw addr order pls cls m p e pargs cargs use_dense :
  contract acc -> ok acc (a_empty acc) -> lawful acc addn ->
  new_buffers allocp allocc allocm allocr allocz allocw -> (forall l, Permutation (order l) l) ->
  aedge_rep e p m -> aargs_rep (a_popts acc) pargs pls p -> aargs_rep (a_copts acc) cargs cls (length m) ->
  exists res, apply_array allocp allocc allocm allocr allocz allocw addr acc addn order use_dense e pargs cargs = Some res /\
    array_outcome (first_error acc pls cls (length m) m (seq 0 p)) (outputs acc pls cls (length m) m p) res.
Proof. intros. destruct (ae_split e) eqn:E; [eapply array_split_ok|eapply array_mapping_ok]; eassumption. Qed.

(** Neither the representation of the edge, nor the form of the arguments, nor the
    code path taken, nor the order of the hash map matters. *)
Theorem C16_representation : forall S P C R Err (acc : accum S P C R Err) addn pls cls m p
  allocp allocc allocm allocr allocz allocw addr order e pargs cargs use_dense
  allocp' allocc' allocm' allocr' allocz' allocw' addr' order' e' pargs' cargs' use_dense',
  contract acc -> ok acc (a_empty acc) -> lawful acc addn ->
  new_buffers allocp allocc allocm allocr allocz allocw -> (forall l, Permutation (order l) l) ->
  new_buffers allocp' allocc' allocm' allocr' allocz' allocw' -> (forall l, Permutation (order' l) l) ->
  aedge_rep e p m -> aargs_rep (a_popts acc) pargs pls p -> aargs_rep (a_copts acc) cargs cls (length m) ->
  aedge_rep e' p m -> aargs_rep (a_popts acc) pargs' pls p -> aargs_rep (a_copts acc) cargs' cls (length m) ->
  exists res res', apply_array allocp allocc allocm allocr allocz allocw addr acc addn order use_dense e pargs cargs = Some res /\
    apply_array allocp' allocc' allocm' allocr' allocz' allocw' addr' acc addn order' use_dense' e' pargs' cargs' = Some res' /\
    same_array_outcome res res'.
Proof.
  intros until use_dense'. intros Hc Hk Hl B1 O1 B2 O2 E1 P1 C1 E2 P2 C2.
  destruct (any_edge acc addn allocp allocc allocm allocr allocz allocw addr order pls cls m p e pargs cargs use_dense Hc Hk Hl B1 O1 E1 P1 C1) as (r & Er & Hr).
  destruct (any_edge acc addn allocp' allocc' allocm' allocr' allocz' allocw' addr' order' pls cls m p e' pargs' cargs' use_dense' Hc Hk Hl B2 O2 E2 P2 C2) as (r' & Er' & Hr').
  exists r, r'. split; [exact Er|]. split; [exact Er'|]. unfold array_outcome in *. destruct (first_error acc pls cls (length m) m (seq 0 p)).
  - destruct Hr as (x & ->), Hr' as (y & ->). exact I.
  - destruct Hr as (x & -> & Hx), Hr' as (y & -> & Hy). eexists. split; eassumption.
Qed.
Print Assumptions C16_representation.

(** Agreement with the operator on DenseArrays. *)
Theorem C16_dense : forall S P C R Err (acc : accum S P C R Err) addn pls cls m p
  allocp allocc allocm allocr allocz allocw addr order e pargs cargs use_dense alloc d dpargs dcargs,
  contract acc -> ok acc (a_empty acc) -> lawful acc addn ->
  new_buffers allocp allocc allocm allocr allocz allocw -> (forall l, Permutation (order l) l) -> alloc_sz alloc ->
  aedge_rep e p m -> aargs_rep (a_popts acc) pargs pls p -> aargs_rep (a_copts acc) cargs cls (length m) ->
  edge_rep d p m -> args_rep (a_popts acc) dpargs pls p -> args_rep (a_copts acc) dcargs cls (length m) ->
  exists res res', apply_array allocp allocc allocm allocr allocz allocw addr acc addn order use_dense e pargs cargs = Some res /\
    apply_edge acc alloc d dpargs dcargs = Some res' /\ agrees_with_dense res res'.
Proof.
  intros until dcargs. intros Hc Hk Hl B1 O1 B2 E1 P1 C1 E2 P2 C2.
  destruct (any_edge acc addn allocp allocc allocm allocr allocz allocw addr order pls cls m p e pargs cargs use_dense Hc Hk Hl B1 O1 E1 P1 C1) as (r & Er & Hr).
  destruct (edge_any acc alloc d p m dpargs dcargs pls cls Hc Hk E2 P2 C2 B2) as (r' & Er' & Hr').
  exists r, r'. split; [exact Er|]. split; [exact Er'|]. unfold array_outcome in *. destruct (first_error acc pls cls (length m) m (seq 0 p)).
  - destruct Hr as (x & ->), Hr' as (y & ->). exact I.
  - destruct Hr as (x & -> & Hx), Hr' as (y & -> & Hy). eexists. split; eassumption.
Qed.
Print Assumptions C16_dense.

(** A sum (missing for empty groups) as in group_op_accumulators.h:172-205 over
    unbounded integers, and a cumulative one; AddN multiplies. *)
Definition ex_sum (k : kind) : accum (option Z) Z Z Z Z :=
  {| a_kind := k; a_forward_id := false; a_popts := []; a_copts := [false]; a_empty := None; a_reset := fun _ _ => None;
     a_add := fun _ r s => match r with [Some x] => Some (match s with Some y => y + x | None => x end)%Z | _ => s end;
     a_finalize := fun s => s; a_result := fun s => (s, s); a_status := fun _ => None |}.
Definition ex_addn (n : nat) (r : list (option Z)) (s : option Z) : option Z :=
  match r with [Some x] => Some (match s with Some y => y + Z.of_nat n * x | None => Z.of_nat n * x end)%Z | _ => s end.
Theorem C16_sum_lawful : forall k, lawful (ex_sum k) ex_addn /\ contract (ex_sum k) /\ ok (ex_sum k) (a_empty (ex_sum k)).
Proof.
  intros k. split; [|split; [|reflexivity]].
  - intros _ n r s _ [Hn|Hn]; [|discriminate].
    assert (G : (forall s, a_add (ex_sum k) None r s = s) -> s = Nat.iter n (a_add (ex_sum k) None r) s).
    { intros E. clear Hn. induction n as [|n IH]; [reflexivity|]. cbn [Nat.iter nat_rect]. rewrite E. exact IH. }
    destruct r as [|[x|] [|y t]]; cbn [ex_addn]; try (apply G; reflexivity). clear G.
    destruct n; [lia|]. clear Hn. induction n as [|n IH].
    + cbn [Nat.iter nat_rect]. cbn [a_add ex_sum]. replace (Z.of_nat 1 * x)%Z with x by lia. reflexivity.
    + cbn [Nat.iter nat_rect] in *. rewrite <- IH. cbn [a_add ex_sum]. f_equal. destruct s; lia.
  - split; [intros s H; exfalso; apply H; reflexivity|]. exists eq, eq. unfold alike, same_result, ok, alike, ok. repeat split; intros; subst; cbn; auto.
Qed.
Print Assumptions C16_sum_lawful.

Definition ex_bufs (k : nat) : list Z := repeat 7%Z k.
Definition ex_bufm (k : nat) : list (Z + Z) := repeat (inl 7%Z) k.
Definition ex_bufw (k : nat) : list N := repeat 5%N k.
Definition ex_apply (acc : accum (option Z) Z Z Z Z) := apply_array ex_bufs ex_bufs ex_bufm ex_bufs ex_bufs ex_bufw 99 acc ex_addn (@rev _).
(** Nine parents, six children; values 5 and 3 at children 1 and 4, missing elsewhere. *)
Definition ex_child : arr Z := ar_make 6 (mk_filter 6 3 [1; 4] 0) (mkD [5; 3]%Z [] 0) None.
Definition ex_child_l := [None; Some 5; None; None; Some 3; None]%Z.
Definition ex_const : arr Z := ar_const 6 (Some 2%Z).
Definition ex_edge_s : aedge := ae_from_dense (mkE true 9 6 (mkD [0; 0; 2; 2; 2; 3; 3; 5; 6; 6]%Z [] 0)).
Definition ex_edge_m : aedge := ae_from_dense (mkE false 9 6 (mkD [1; 1; 4; 6; 6; 7]%Z [] 0)).
Definition ex_m := [Some 1; Some 1; Some 4; Some 6; Some 6; Some 7].
Definition get_all (r : option (ag_res Z Z)) : option (list (option (option Z))) :=
  match r with Some (AGOut a) => Some (map (ar_get a) (seq 0 (ar_size a))) | _ => None end.
(** Very sparse paths, both edges. *)
Example C16_ex_very_sparse : get_all (ex_apply (ex_sum Aggregator) true ex_edge_s [] [ex_child]) =
    Some (map Some [None; Some 5; None; None; None; None; Some 3; None; None]%Z) /\
  get_all (ex_apply (ex_sum Aggregator) true ex_edge_m [] [ex_child]) =
    Some (map Some [None; Some 5; None; None; None; None; Some 3; None; None]%Z) /\
  outputs (P := Z) (ex_sum Aggregator) [] [ex_child_l] 6 ex_m 9 = [None; Some 5; None; None; None; None; Some 3; None; None]%Z.
Proof. repeat split; reflexivity. Qed.
(** AddN for a constant argument. *)
Example C16_ex_const : get_all (ex_apply (ex_sum Aggregator) false ex_edge_s [] [ex_const]) =
    Some (map Some [None; Some 4; None; None; Some 2; None; Some 4; Some 2; None]%Z) /\
  get_all (ex_apply (ex_sum Partial) false ex_edge_m [] [ex_const]) = Some (map Some [Some 2; Some 4; Some 2; Some 2; Some 4; Some 2]%Z).
Proof. split; reflexivity. Qed.
(** Sparse results. *)
Example C16_ex_sparse : exists a, ex_apply (ex_sum Partial) true ex_edge_m [] [ar_make 6 (mk_filter 6 3 [4] 0) (mkD [3]%Z [] 0) None] = Some (AGOut a) /\
  is_dense_form a = false /\ map (ar_get a) (seq 0 6) = map Some [None; None; None; None; Some 3; None]%Z.
Proof. eexists. split; [reflexivity|]. split; reflexivity. Qed.
Example C16_ex_scalar : apply_array_scalar ex_bufs ex_bufs ex_bufw 99 (ex_sum Aggregator) ex_addn true 6 [] [ex_const] = Some (AGScalar (Some 12%Z)).
Proof. reflexivity. Qed.
Example C16_ex_mismatch : ex_apply (ex_sum Aggregator) true ex_edge_m [] [ar_const 5 (Some 2%Z)] = Some AGMismatch.
Proof. reflexivity. Qed.
Example C16_hyp : new_buffers ex_bufs ex_bufs ex_bufm ex_bufs ex_bufs ex_bufw /\ aedge_rep ex_edge_s 9 ex_m /\ aedge_rep ex_edge_m 9 ex_m /\
  aargs_rep (a_copts (ex_sum Aggregator)) [ex_child] [ex_child_l] (length ex_m) /\ aargs_rep (a_copts (ex_sum Aggregator)) [ex_const] [repeat (Some 2%Z) 6] (length ex_m).
Proof.
  assert (Hm : forall c q, nth c ex_m None = Some q -> q < 9).
  { intros c q. do 6 (destruct c as [|c]; [cbn; intros E; injection E as <-; lia|]). destruct c; discriminate. }
  assert (Hb : forall {A} (x : A), alloc_sz (fun k => repeat x k)) by (intros A x k; apply repeat_length).
  split; [|split; [|split; [|split]]].
  - do 5 (split; [apply Hb|]). intros k. split; [apply repeat_length|]. apply Forall_forall. intros x Hx. apply repeat_spec in Hx. subst x. reflexivity.
  - apply ae_from_dense_rep. split; [reflexivity|]. split; [reflexivity|]. split; [exact Hm|]. exists [0; 0; 2; 2; 2; 3; 3; 5; 6; 6].
    split; [|split; [reflexivity|split; [reflexivity|split]]].
    + split; [discriminate|]. split; [reflexivity|]. intros i j H. cbn [length] in H.
      do 10 (destruct i as [|i]; [do 10 (destruct j as [|j]; [cbn; lia|]); lia|]). lia.
    + split; [|split; [reflexivity|]]; [split; [cbn; lia|split; [constructor|left; reflexivity]]|].
      intros i Hi. cbn in Hi. do 10 (destruct i as [|i]; [reflexivity|]). lia.
    + intros q c Hq. do 9 (destruct q as [|q]; [cbn; intros H; do 6 (destruct c as [|c]; [first [reflexivity|lia]|]); lia|]). lia.
  - apply ae_from_dense_rep. split; [reflexivity|]. split; [reflexivity|]. split; [exact Hm|].
    split; [|split; [reflexivity|]]; [split; [cbn; lia|split; [constructor|left; reflexivity]]|].
    intros i Hi. cbn in Hi. do 6 (destruct i as [|i]; [reflexivity|]). lia.
  - split; [reflexivity|]. split; [constructor; [|constructor]|constructor; [reflexivity|constructor]].
    split; [|split; [reflexivity|]].
    + split; [|split; [split; [cbn; lia|split; [constructor|left; reflexivity]]|split; [reflexivity|discriminate]]].
      assert (W : forall ad l off, l <> [] -> length l < 6 -> ids_in 6 off l -> fwf 6 (FPartial ad l off)) by (intros; split; auto).
      apply W; [discriminate|cbn; lia|]. split; [|repeat constructor; lia].
      intros i j Hij. cbn [length] in Hij. do 2 (destruct i as [|i]; [do 2 (destruct j as [|j]; [cbn; lia|]); lia|]). lia.
    + intros i Hi. cbn in Hi. do 6 (destruct i as [|i]; [reflexivity|]). lia.
  - split; [reflexivity|]. split; [constructor; [|constructor]|constructor; [reflexivity|constructor]].
    split; [|split; [reflexivity|]].
    + split; [|split; [split; [cbn; lia|split; [constructor|left; reflexivity]]|split; [reflexivity|discriminate]]]. exact I.
    + intros i Hi. cbn in Hi. do 6 (destruct i as [|i]; [reflexivity|]). lia.
Qed.
