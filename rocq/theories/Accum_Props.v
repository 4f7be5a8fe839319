(** C43, C44: aggregations. *)
From Coq Require Import Permutation SpecFloat.
From Verif Require Import Base Bits_Model Bitmap_Model Dense_Model Dense_Spec DenseOps_Spec IdFilter_Model Array_Model Array_Spec Edge_Model Edge_Spec
  ArrEdge_Model ArrEdge_Spec GroupOps_Model GroupOps_Spec ArrGroup_Model ArrGroup_Spec ArrGroup_Props Accum_Model Accum_Spec Accum_Proofs Accum_Sort.

(** Every statement [computes acc addn row f] is about DenseArrays and Arrays, all
    edges, all representations.  [k] is Aggregator or Partial (one result per row,
    for the rows so far). *)
Theorem C43_count : forall k, k <> Full -> computes (count_acc k) count_addn required1 (by_kind k count_spec).
Proof. exact count_computes. Qed.
Print Assumptions C43_count.
Theorem C43_any : forall k init, k <> Full -> computes (any_acc k init) any_addn required1 (by_kind k any_spec).
Proof. exact any_computes. Qed.
Print Assumptions C43_any.
Theorem C43_all : forall k init, k <> Full -> computes (all_acc k init) all_addn optional1 (by_kind k all_spec).
Proof. exact all_computes. Qed.
Print Assumptions C43_all.
Theorem C43_logical_all : forall k init, k <> Full -> computes (logical_all_acc k init) logical_all_addn optional1 (by_kind k logical_all_spec).
Proof. exact logical_all_computes. Qed.
Print Assumptions C43_logical_all.
Theorem C43_logical_any : forall k init, k <> Full -> computes (logical_any_acc k init) logical_any_addn optional1 (by_kind k logical_any_spec).
Proof. exact logical_any_computes. Qed.
Print Assumptions C43_logical_any.

(** Integers of [w] bits. *)
Theorem C43_sum : forall w k initial init, (0 < w)%Z -> k <> Full ->
  exists f, (forall xs, is_sum w initial xs (f xs)) /\
    computes (sum_acc (int_arith w) k initial init) (sum_addn (int_arith w)) required1 (by_kind k f).
Proof. intros w k initial init Hw Hk. exists (sum_fn w initial). split; [intros xs; apply sum_fn_ok, Hw|apply sum_computes; assumption]. Qed.
Print Assumptions C43_sum.
Theorem C43_prod : forall w k init, (0 < w)%Z -> k <> Full ->
  exists f, (forall xs, is_prod w xs (f xs)) /\
    computes (prod_acc (int_arith w) k init) (prod_addn (int_arith w)) required1 (by_kind k f).
Proof. intros w k init Hw Hk. exists (prod_fn w). split; [intros xs; apply prod_fn_ok, Hw|apply prod_computes; assumption]. Qed.
Print Assumptions C43_prod.
(** Floating point, or any other arithmetic: products always, sums of DenseArrays. *)
Theorem C43_prod_any : forall V A (ar : arith V A) k init, k <> Full ->
  computes (prod_acc ar k init) (prod_addn ar) required1 (by_kind k (left_prod ar)).
Proof. intros. apply prod_any_computes. assumption. Qed.
Print Assumptions C43_prod_any.
Theorem C43_sum_any : forall V A (ar : arith V A) k initial init, k <> Full ->
  dense_ok (sum_acc ar k initial init) required1 (by_kind k (left_sum ar initial)) /\
  dense_scalar_ok (sum_acc ar k initial init) required1 (by_kind k (left_sum ar initial)).
Proof. intros V A ar k initial init Hk. destruct (sum_any_computes ar k initial init Hk) as (H1 & H2 & _). split; assumption. Qed.
Print Assumptions C43_sum_any.
Theorem C43_join : forall sep, computes (join_acc sep) (addn_default (join_add sep)) required1 (by_kind Aggregator (join_spec sep)).
Proof. exact join_computes. Qed.
Print Assumptions C43_join.

(** Double precision. *)
Definition double_arith : arith spec_float spec_float :=
  {| r_add := SFadd 53 1024; r_mul := SFmul 53 1024; r_wide := fun v => v; r_narrow := fun v => v;
     r_count := fun n => binary_normalize 53 1024 n 0 false; r_zero := S754_zero false |}.
Definition tenth : spec_float := S754_finite false 7205759403792794 (-56).
Definition fsum (a : arr spec_float) : option (ag_res spec_float unit) :=
  apply_array_scalar (fun n => repeat tenth n) (fun n => repeat tenth n) ex_bufw 99
    (sum_acc double_arith Aggregator None (false, S754_zero false)) (sum_addn double_arith) true 10 [] [a].
(** The sum of an Array of floating point numbers depends on its form: ten times 0.1,
    once as a constant, once as a dense array. *)
Theorem C43_float_sum_form_refuted : exists l a b x y,
  ar_rep a l /\ ar_rep b l /\ fsum a = Some (AGScalar (Some x)) /\ fsum b = Some (AGScalar (Some y)) /\ SFeqb x y = false.
Proof.
  exists (repeat (Some tenth) 10), (ar_const 10 (Some tenth)), (ar_make 10 FFull (mkD (repeat tenth 10) [] 0) None).
  exists (S754_finite false 4503599627370496 (-52)), (S754_finite false 9007199254740991 (-53)).
  split; [|split; [|split; [|split; [|reflexivity]]]].
  - split; [|split; [reflexivity|]].
    + split; [exact I|split; [split; [cbn; lia|split; [constructor|left; reflexivity]]|split; [reflexivity|discriminate]]].
    + intros i Hi. cbn in Hi. do 10 (destruct i as [|i]; [reflexivity|]). lia.
  - split; [|split; [reflexivity|]].
    + split; [exact I|split; [split; [cbn; lia|split; [constructor|left; reflexivity]]|split; [reflexivity|intros _; reflexivity]]].
    + intros i Hi. cbn in Hi. do 10 (destruct i as [|i]; [reflexivity|]). lia.
  - vm_compute. reflexivity.
  - vm_compute. reflexivity.
Qed.
Print Assumptions C43_float_sum_form_refuted.

(** ** Orders. *)
Theorem C44_orders : ord_ok int_ord /\ (forall w inf, ord_ok (fp_ord w inf)) /\ ord_ok bytes_ord.
Proof. exact (conj int_ord_ok (conj fp_ord_ok bytes_ord_ok)). Qed.
Print Assumptions C44_orders.
Theorem C44_min : forall T (o : ord T) k init, ord_ok o -> k <> Full ->
  exists f, (forall xs, is_best o (o_lt o) xs (f xs)) /\ computes (min_acc o k init) (min_addn o) required1 (by_kind k f).
Proof.
  intros T o k init Ho Hk. exists (best_fn (min_op o)).
  split; [intros xs; apply best_fn_ok; [apply direction_lt, Ho|apply min_op_ok, Ho]|].
  apply (best_computes o (o_lt o)); [apply direction_lt, Ho|apply min_op_ok, Ho|exact Hk].
Qed.
Print Assumptions C44_min.
Theorem C44_max : forall T (o : ord T) k init, ord_ok o -> k <> Full ->
  exists f, (forall xs, is_best o (fun a b => o_lt o b a) xs (f xs)) /\ computes (max_acc o k init) (max_addn o) required1 (by_kind k f).
Proof.
  intros T o k init Ho Hk. exists (best_fn (max_op o)).
  split; [intros xs; apply best_fn_ok; [apply direction_gt, Ho|apply max_op_ok, Ho]|].
  apply (best_computes o (fun a b => o_lt o b a)); [apply direction_gt, Ho|apply max_op_ok, Ho|exact Hk].
Qed.
Print Assumptions C44_max.
Theorem C44_argmin : forall T (o : ord T) x0, ord_ok o ->
  exists f, (forall xs, is_arg_best o (o_lt o) xs (f xs)) /\ computes (argmin_acc o x0) (arg_addn o (o_lt o)) optional1 (by_kind Aggregator f).
Proof.
  intros T o x0 Ho. exists (arg_fn o (o_lt o) x0). split; [intros xs; apply arg_fn_ok, direction_lt, Ho|].
  apply arg_computes; [apply direction_lt, Ho].
Qed.
Print Assumptions C44_argmin.
Theorem C44_argmax : forall T (o : ord T) x0, ord_ok o ->
  exists f, (forall xs, is_arg_best o (fun a b => o_lt o b a) xs (f xs)) /\
    computes (argmax_acc o x0) (arg_addn o (fun a b => o_lt o b a)) optional1 (by_kind Aggregator f).
Proof.
  intros T o x0 Ho. exists (arg_fn o (fun a b => o_lt o b a) x0). split; [intros xs; apply arg_fn_ok, direction_gt, Ho|].
  apply arg_computes; [apply direction_gt, Ho].
Qed.
Print Assumptions C44_argmax.
Theorem C44_collapse : forall T (o : ord T) x0, ord_ok o ->
  computes (collapse_acc o x0) (collapse_addn o) required1 (by_kind Aggregator (collapse_spec o)).
Proof. intros. apply collapse_computes. assumption. Qed.
Print Assumptions C44_collapse.
Theorem C44_median : forall T (o : ord T) nth_el oob init, ord_ok o -> nth_element o nth_el ->
  exists f, (forall xs, is_kth o ((length xs - 1) / 2) xs (f xs)) /\
    computes (median_acc o nth_el oob init) (addn_default push1) required1 (by_kind Aggregator f).
Proof.
  intros T o nth_el oob init Ho Hn. exists (median_fn o nth_el oob). split; [intros xs; apply median_fn_ok; assumption|].
  eapply median_computes; eassumption.
Qed.
Print Assumptions C44_median.
(** Whatever position is computed in floating point, the result is the value at the
    position clamped to the group. *)
Theorem C44_inverse_cdf : forall T (o : ord T) nth_el oob ceil_pos init, ord_ok o -> nth_element o nth_el ->
  exists f, (forall xs, is_kth o (Z.to_nat (Z.max 0 (Z.min (ceil_pos (length xs)) (Z.of_nat (length xs) - 1)))) xs (f xs)) /\
    computes (inverse_cdf_acc o nth_el oob ceil_pos init) (addn_default push1) required1 (by_kind Aggregator f).
Proof.
  intros T o nth_el oob ceil_pos init Ho Hn. exists (inverse_cdf_fn o nth_el oob ceil_pos). split; [intros xs; apply inverse_cdf_fn_ok; assumption|].
  eapply inverse_cdf_computes; eassumption.
Qed.
Print Assumptions C44_inverse_cdf.

(** ** Cases. *)
Definition ex_int (l : list (option Z)) : arr Z := ar_make (length l) FFull
  (mkD (map (fun x => match x with Some v => v | None => 0%Z end) l)
       [fold_right (fun b a => (2 * a + (if b : bool then 1 else 0))%N) 0%N (map is_some l)] 0) None.
Definition ex_vals := ex_int [Some 5; None; Some 2147483647; Some (-3); Some 1; Some 1]%Z.
Definition ex_run {R S} (acc : accum S Z Z R unit) addn (mem : nat -> list R) e a :=
  match apply_array ex_bufs ex_bufs ex_bufm mem ex_bufs ex_bufw 99 acc addn (@rev _) true e [] [a] with
  | Some (AGOut a) => Some (map (ar_get a) (seq 0 (ar_size a))) | _ => None end.
(** Edges of C16: nine parents, children of 1, 1, 4, 6, 6, 7. *)
Example C43_ex_sum : ex_run (sum_acc (int_arith 32) Aggregator None (false, 0%Z)) (sum_addn (int_arith 32)) ex_bufs ex_edge_s ex_vals =
    Some (map Some [None; Some 5; None; None; Some 2147483647; None; Some (-2); Some 1; None]%Z) /\
  ex_run (sum_acc (int_arith 32) Partial (Some 2147483647%Z) (false, 0%Z)) (sum_addn (int_arith 32)) ex_bufs ex_edge_m ex_vals =
    Some (map Some [Some (-2147483644); None; Some (-2); Some 2147483644; Some 2147483645; Some (-2147483648)]%Z) /\
  is_sum 32 None [-3; 1]%Z (Some (-2)%Z) /\ is_sum 32 (Some 2147483647%Z) [5]%Z (Some (-2147483644)%Z).
Proof.
  split; [vm_compute; reflexivity|]. split; [vm_compute; reflexivity|]. split.
  - exists (-2)%Z. split; [reflexivity|]. split; [cbn; lia|]. exists 0%Z. reflexivity.
  - exists (-2147483644)%Z. split; [reflexivity|]. split; [cbn; lia|]. exists 1%Z. reflexivity.
Qed.
Example C43_ex_join : join_spec [44%N] [[1%N]; []; [2%N; 3%N]] = Some [1; 44; 44; 2; 3]%N. Proof. reflexivity. Qed.
Example C43_ex_logical : logical_all_spec [Some true; None; Some false] = Some false /\ logical_all_spec [Some true; None] = None /\
  logical_any_spec [Some true; None] = Some true /\ logical_any_spec [None; Some false] = None. Proof. repeat split. Qed.
Example C44_ex_argmin : ex_run (argmin_acc int_ord 0%Z) (arg_addn int_ord (o_lt int_ord)) ex_bufs ex_edge_s ex_vals =
    Some (map Some [None; Some 0; None; None; Some 0; None; Some 0; Some 0; None]%Z) /\
  ex_run (argmax_acc int_ord 0%Z) (arg_addn int_ord (fun a b => o_lt int_ord b a)) ex_bufs ex_edge_m ex_vals =
    Some (map Some [None; Some 0; None; None; Some 0; None; Some 1; Some 0; None]%Z).
Proof. split; vm_compute; reflexivity. Qed.
(** Bits of 1.0, NaN, -2.0 and -0.0, 0.0. *)
Example C44_ex_floats : best_fn (min_op float32) [0x3f800000; 0xc0000000; 0x7fc00000]%N = Some 0x7fc00000%N /\
  best_fn (min_op float32) [0x3f800000; 0xc0000000]%N = Some 0xc0000000%N /\ best_fn (max_op float32) [0x80000000; 0]%N = Some 0x80000000%N /\
  collapse_spec float32 [0x80000000; 0]%N = Some 0x80000000%N /\ collapse_spec float32 [0x7fc00000; 0x7fc00001]%N = Some 0x7fc00000%N /\
  collapse_spec float32 [0x7fc00000; 0]%N = None.
Proof. repeat split; vm_compute; reflexivity. Qed.
Example C44_ex_median : nth_element int_ord (fun l _ => isort (o_lt int_ord) l) /\
  median_fn int_ord (fun l _ => isort (o_lt int_ord) l) 0%Z [5; 1; 4; 1]%Z = Some 1%Z.
Proof. split; [apply isort_nth_element, int_ord_ok|reflexivity]. Qed.
