(** C45: ranks, inverse mappings, array.take, weighted distributions and means. *)
From Coq Require Import Permutation.
From Verif Require Import Base Dense_Model Dense_Spec DenseOps_Spec Array_Model Array_Spec Edge_Model Edge_Spec
  ArrEdge_Model ArrEdge_Spec GroupOps_Model GroupOps_Spec ArrGroup_Model ArrGroup_Spec ArrGroup_Props Accum_Model Accum_Spec Accum_Proofs Accum_Sort Accum_Props
  FullAcc_Model FullAcc_Spec FullAcc_Proofs FullAcc_More FullAcc_Cdf.

Definition asc_or_desc {T} (o : ord T) (descending : bool) (a b : T) : bool := if descending then o_lt o b a else o_lt o a b.

(** For any element type, any type of pairs (value, tie breaker) and any std::sort. *)
Theorem C45_ordinal_rank : forall C T (o : ord T) (val : C -> T) (tie : C -> Z) sort descending oob ub, ord_ok o -> std_sort sort ->
  computes (ordinal_rank_acc o val tie sort descending oob ub) (addn_default (ordinal_add val tie)) required2
    (fun xs => Some (map Some (ordinal_rank o (asc_or_desc o descending) (map (fun x => (val (fst x), tie (snd x))) xs)))).
Proof.
  intros C T o val tie sort descending oob ub Ho Hs. pose proof (ordinal_computes o val tie sort descending oob ub Ho Hs) as H.
  destruct descending; exact H.
Qed.
Print Assumptions C45_ordinal_rank.
(** Ordinal ranks of a group are all the numbers below its size, each one once. *)
Theorem C45_ordinal_rank_permutation : forall T (o : ord T) descending xs, ord_ok o ->
  Permutation (ordinal_rank o (asc_or_desc o descending) xs) (map Z.of_nat (seq 0 (length xs))).
Proof. intros T o descending xs Ho. pose proof (ordinal_rank_perm o descending Ho xs) as H. destruct descending; exact H. Qed.
Print Assumptions C45_ordinal_rank_permutation.
Theorem C45_dense_rank : forall T (o : ord T) sort partition descending oob ub, ord_ok o -> std_sort sort -> std_partition partition ->
  exists f, (forall xs, is_dense_rank o (asc_or_desc o descending) xs (f xs)) /\
    computes (dense_rank_acc o sort partition descending oob ub) (addn_default dense_add) required1 (fun xs => Some (map Some (f xs))).
Proof.
  intros T o sort partition descending oob ub Ho Hs Hp. exists (dense_fn o sort partition descending). split.
  - intros xs. pose proof (dense_fn_ok o sort partition descending oob ub Ho Hs Hp xs) as H. destruct descending; exact H.
  - apply dense_computes; assumption.
Qed.
Print Assumptions C45_dense_rank.
(** An error unless the values are distinct indices into the group. *)
Theorem C45_inverse_mapping :
  exists f, (forall xs, match f xs with Some rs => permutation_ok xs /\ is_inverse xs rs | None => ~ permutation_ok xs end) /\
    computes inverse_mapping (addn_default (a_add inverse_mapping None)) optional1 f.
Proof. exists inverse_fn. split; [exact inverse_fn_ok|exact inverse_mapping_computes]. Qed.
Print Assumptions C45_inverse_mapping.
Theorem C45_take : forall C T (val : C -> T) (off : C -> Z) junk oob,
  computes (take_over_acc val off junk oob) (addn_default (take_add val off junk)) optional2
    (fun xs => take_spec (map (fun x => (option_map val (fst x), option_map off (snd x))) xs)).
Proof. intros. apply take_computes. Qed.
Print Assumptions C45_take.
(** In any arithmetic, for instance floating point. *)
Theorem C45_weighted_cdf : forall C T W A R (o : ord T) (val : C -> T) (weight : C -> W) (zero : A) add (to_ret : A -> R) div nan_ret sort oob zero_ret ub,
  ord_ok o -> std_sort sort ->
  exists f, (forall xs, is_cdf o zero add to_ret div nan_ret xs (f xs)) /\
    computes (weighted_cdf_acc o val weight zero add to_ret div nan_ret sort oob zero_ret ub) (addn_default (cdf_add val weight)) required2
      (fun xs => Some (map Some (f (map (fun x => (val (fst x), weight (snd x))) xs)))).
Proof.
  intros C T W A R o val weight zero add to_ret div nan_ret sort oob zero_ret ub Ho Hs.
  exists (cdf_fn o zero add to_ret div nan_ret sort). split; [intros xs; apply cdf_fn_ok; assumption|apply cdf_computes; assumption].
Qed.
Print Assumptions C45_weighted_cdf.
(** On DenseArrays; on Arrays the mean goes through multiplication by counts, as
    [C43_float_sum_form_refuted] shows for sums. *)
Theorem C45_mean : forall V A (ar : arith V A) count div k init, k <> Full ->
  dense_ok (mean_acc ar count div k init) required1 (by_kind k (left_mean ar count div)) /\
  dense_scalar_ok (mean_acc ar count div k init) required1 (by_kind k (left_mean ar count div)).
Proof. intros V A ar count div k init Hk. destruct (mean_computes ar count div k init Hk) as (H1 & H2 & _). split; assumption. Qed.
Print Assumptions C45_mean.
(** On Arrays too, if multiplying by a count is adding that often. *)
Theorem C45_mean_exact : forall V A (ar : arith V A) count div k init, k <> Full ->
  (forall a v n, r_add ar a (r_mul ar (r_wide ar v) (r_count ar (Z.of_nat n))) = Nat.iter n (fun x => r_add ar x (r_wide ar v)) a) ->
  computes (mean_acc ar count div k init) (mean_addn ar) required1 (by_kind k (left_mean ar count div)).
Proof. intros V A ar count div k init Hk Hm. exact (mean_exact ar count div k init Hk Hm). Qed.
Print Assumptions C45_mean_exact.
Definition ex_exact : arith Z Z := {| r_add := Z.add; r_mul := Z.mul; r_wide := fun v => v; r_narrow := fun v => v; r_count := fun z => z; r_zero := 0%Z |}.
Example C45_mean_exact_ex : forall a v n, r_add ex_exact a (r_mul ex_exact (r_wide ex_exact v) (r_count ex_exact (Z.of_nat n))) = Nat.iter n (fun x => r_add ex_exact x (r_wide ex_exact v)) a.
Proof. intros a v n. cbn [ex_exact r_add r_mul r_wide r_count]. induction n as [|n IH]; [cbn; lia|]. transitivity (Nat.iter n (fun x => x + v) a + v)%Z; [rewrite <- IH; lia|reflexivity]. Qed.
Theorem C45_weighted_average : forall V A (ar : arith V A) div init,
  dense_ok (wavg_acc ar div init) required2 (by_kind Aggregator (left_wavg ar div)) /\
  dense_scalar_ok (wavg_acc ar div init) required2 (by_kind Aggregator (left_wavg ar div)).
Proof. intros V A ar div init. destruct (wavg_computes ar div init) as (H1 & H2 & _). split; assumption. Qed.
Print Assumptions C45_weighted_average.

(** ** Cases. *)
Lemma isort_std E : std_sort (@isort E).
Proof.
  intros lt l A B. split; [apply isort_perm|].
  assert (S : srt lt (isort lt l)) by (apply (isort_srt lt (fun x => In x l)); auto).
  induction (isort lt l) as [|x t IH]; [exact I|]. destruct S as [S1 S2]. split; [exact S1|apply IH, S2].
Qed.
Example C45_ex_sort : std_sort (@isort (elem Z)) /\
  std_partition (fun (p : Z * nat -> bool) l => (filter p l, rev (filter (fun x => negb (p x)) l))).
Proof.
  split; [apply isort_std|]. intros p l. cbn [fst snd]. split; [|split].
  - transitivity (filter p l ++ filter (fun x => negb (p x)) l); [apply Permutation_app_head, Permutation_sym, Permutation_rev|].
    induction l as [|x t IH]; [constructor|]. cbn [filter]. destruct (p x); cbn [negb app]; [constructor; exact IH|].
    apply Permutation_sym, Permutation_cons_app, Permutation_sym, IH.
  - intros x Hx. apply filter_In in Hx. tauto.
  - intros x Hx. apply in_rev, filter_In in Hx. destruct (p x); [destruct Hx; discriminate|reflexivity].
Qed.
(** 2.0, NaN, 1.0, 2.0, -0.0, 0.0 with tie breakers. *)
Example C45_ex_ordinal :
  ordinal_rank float32 (asc_or_desc float32 false) (combine [0x40000000; 0x7fc00000; 0x3f800000; 0x40000000; 0x80000000; 0]%N [3; 0; 0; 2; 1; 1]%Z) = [4; 5; 2; 3; 0; 1]%Z /\
  ordinal_rank float32 (asc_or_desc float32 true) (combine [0x40000000; 0x7fc00000; 0x3f800000; 0x40000000; 0x80000000; 0]%N [3; 0; 0; 2; 1; 1]%Z) = [1; 5; 2; 0; 3; 4]%Z.
Proof. split; vm_compute; reflexivity. Qed.
Definition ex_rank_dense (descending : bool) := dense_rank_acc int_ord (@isort _)
  (fun p l => (filter p l, rev (filter (fun x => negb (p x)) l))) descending 77%Z (mkRank 0 [] []).
Example C45_ex_dense : ex_run (ex_rank_dense false) (addn_default dense_add) ex_bufs ex_edge_s (ex_int [Some 5; Some 4; None; Some 9; Some 7; Some 7]%Z) =
    Some (map Some [Some 1; Some 0; None; Some 1; Some 0; Some 0]%Z) /\
  ex_run (ex_rank_dense true) (addn_default dense_add) ex_bufs ex_edge_m (ex_int [Some 5; Some 4; None; Some 9; Some 7; Some 7]%Z) =
    Some (map Some [Some 0; Some 1; None; Some 0; Some 1; Some 0]%Z).
Proof. split; vm_compute; reflexivity. Qed.
Example C45_ex_take : take_spec [(Some 10, Some 2); (None, Some 0); (Some 30, Some 1); (Some 40, None)]%Z = Some [Some 30; Some 10; None; None]%Z /\
  take_spec [(Some 10, Some 1)]%Z = None. Proof. split; reflexivity. Qed.
Example C45_ex_inverse : inverse_fn [Some 2; None; Some 0]%Z = Some [Some 2; None; Some 0]%Z /\ inverse_fn [Some 1; None; Some 1]%Z = None.
Proof. split; reflexivity. Qed.
(** Weighted distribution in integers (a result is cumulated weight * 100 / total). *)
Example C45_ex_cdf : cdf_fn int_ord 0%Z Z.add (fun a => a) (fun a t => a * 100 / t)%Z (fun v => v) (@isort _) [(3, 1); (1, 2); (3, 4); (2, 3)]%Z = [100; 20; 100; 50]%Z.
Proof. vm_compute. reflexivity. Qed.
