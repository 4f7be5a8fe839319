(** C79: sequences of numbers. *)
From Coq Require Import ZArith.
From Verif Require Import Base SeqRange_Model SeqRange_Spec SeqRange_Proofs.
Local Open Scope Z_scope.

(** For every step but 0 there is exactly one range. *)
Theorem C79_defined start stop step : step <> 0 -> exists l, is_range start stop step l /\ forall l', is_range start stop step l' -> l' = l.
Proof.
  intros H. exists (prog (Z.to_nat (true_size start stop step)) start step). split; [apply true_size_range, H|]. intros l' R. apply (range_unique start stop step _ _ H R). apply true_size_range, H.
Qed.
Print Assumptions C79_defined.

(** If distance and step together are below 2^64: the range is returned, or an error if it
    cannot be allocated; the computation is defined exactly if the first value that is not
    in the range is an int64. *)
Theorem C79_range alloc start stop step l : int64 start = true -> int64 stop = true -> int64 step = true -> step <> 0 ->
  Z.abs (stop - start) + Z.abs step - 1 < two64 -> is_range start stop step l ->
  let n := Z.of_nat (length l) in
  make_range alloc start stop step =
    if n =? 0 then Some (inr []) else
    if two64 <=? 8 * n then Some (inl ETooLarge) else
    if negb (alloc (8 * n)) then Some (inl EAlloc) else
    if int64 (start + n * step) then Some (inr l) else None.
Proof.
  intros A B C N L R n. destruct (range_prog start stop step l N R) as [E S]. fold n in S. rewrite (make_built alloc start stop step n A N).
  - unfold built. replace (Z.to_nat n) with (length l) by lia. rewrite <- E. reflexivity.
  - lia.
  - rewrite S. apply size_eq; assumption.
Qed.
Print Assumptions C79_range.
Example C79_range_ex : make_range (fun _ => true) 3 10 3 = Some (inr [3; 6; 9]) /\ is_range 3 10 3 [3; 6; 9] /\
  make_range (fun _ => true) 5 (-2) (-3) = Some (inr [5; 2; -1]) /\ make_range (fun _ => true) 5 5 1 = Some (inr []) /\ make_range (fun b => b <? 24) 0 3 1 = Some (inl EAlloc).
Proof.
  repeat split; try reflexivity; cbn.
  - destruct i as [|[|[|i]]]; cbn in H; try (injection H as <-; reflexivity). destruct i; discriminate.
  - destruct i as [|[|[|i]]]; cbn in H; try (injection H as <-; reflexivity). destruct i; discriminate.
  - intros H. discriminate.
Qed.
(** It is the error about the step exactly if that is 0. *)
Theorem C79_zero alloc start stop step : make_range alloc start stop step = Some (inl EStep) <-> step = 0.
Proof.
  split; [|intros ->; reflexivity]. unfold make_range, make_seq. destruct (step =? 0) eqn:S; [lia|]. destruct (range_size start stop step =? 0); [discriminate|]. destruct (_ <=? 0); [destruct (fill _ _ _); discriminate|].
  destruct (two64 <=? _); [discriminate|]. destruct (alloc _); [destruct (fill _ _ _); discriminate|discriminate].
Qed.
Print Assumptions C79_zero.
(** In particular: values far from the ends of int64 are always right. *)
Theorem C79_small alloc start stop step l : - 2 ^ 61 <= start <= 2 ^ 61 -> - 2 ^ 61 <= stop <= 2 ^ 61 -> - 2 ^ 61 <= step <= 2 ^ 61 -> step <> 0 -> is_range start stop step l ->
  Z.of_nat (length l) < 2 ^ 61 -> (forall b, alloc b = true) -> make_range alloc start stop step = Some (inr l).
Proof.
  change (2 ^ 61) with 2305843009213693952. intros A B C N R L Al.
  assert (T : two63 = 9223372036854775808 /\ two64 = 18446744073709551616) by (split; reflexivity). destruct T as [T3 T4].
  rewrite (C79_range alloc start stop step l) by (try apply in64; try lia; assumption). cbv zeta. rewrite Al. cbn [negb].
  destruct (Z.of_nat (length l) =? 0) eqn:Z0; [destruct l; [reflexivity|cbn in Z0; lia]|]. replace (two64 <=? 8 * Z.of_nat (length l)) with false by lia.
  replace (int64 (start + Z.of_nat (length l) * step)) with true; [reflexivity|]. symmetry. apply in64.
  destruct R as [R _]. destruct (nth_error l (length l - 1)) as [x|] eqn:E; [|apply nth_error_None in E; lia]. destruct (R _ x E) as [-> F]. destruct (R 0%nat start) as [_ F0].
  { destruct l as [|y l]; [cbn in Z0; lia|]. cbn. destruct (R 0%nat y eq_refl) as [-> _]. f_equal. lia. }
  rewrite Nat2Z.inj_sub in F by lia. rewrite Z.mul_sub_distr_r in F. unfold before_stop in F, F0. rewrite Z.gtb_ltb in F, F0. destruct (0 <? step) eqn:S.
  - assert (0 <= Z.of_nat (length l) * step) by (apply Z.mul_nonneg_nonneg; lia). lia.
  - assert (Z.of_nat (length l) * step <= 0) by (apply Z.mul_nonneg_nonpos; lia). lia.
Qed.
Print Assumptions C79_small.

(** Otherwise the computed size wraps around, and what is returned is always too short. *)
Theorem C79_wrap alloc start stop step l l' : int64 start = true -> int64 stop = true -> int64 step = true -> step <> 0 -> before_stop step start stop ->
  two64 <= Z.abs (stop - start) + Z.abs step - 1 -> is_range start stop step l -> make_range alloc start stop step = Some (inr l') -> (length l' < length l)%nat.
Proof.
  intros A B C N F L R H. destruct (range_prog start stop step l N R) as [_ S]. pose proof (size_less alloc start stop step A B C N F L) as Q.
  rewrite (make_built alloc start stop step _ A N (proj1 Q) eq_refl) in H. unfold built in H. destruct (range_size start stop step =? 0) eqn:Z0; [injection H as <-; cbn; lia|].
  destruct (two64 <=? _); [discriminate|]. destruct (negb _); [discriminate|]. destruct (int64 (start + range_size start stop step * step)); [|discriminate]. injection H as <-. rewrite prog_len. lia.
Qed.
Print Assumptions C79_wrap.
(** So it is not true that the range is returned whenever it can be allocated ... *)
Theorem C79_range_refuted : ~ (forall alloc start stop step l, int64 start = true -> int64 stop = true -> int64 step = true -> step <> 0 -> is_range start stop step l ->
  (forall b, alloc b = true) -> Z.of_nat (length l) < 10 -> make_range alloc start stop step <> None -> make_range alloc start stop step = Some (inr l)).
Proof.
  intros H. assert (E : make_range (fun _ => true) (- two63) (two63 - 1) (two63 - 1) = Some (inr [])) by reflexivity.
  assert (R : is_range (- two63) (two63 - 1) (two63 - 1) [- two63; -1; two63 - 2]).
  { split; [|cbn; discriminate]. intros i x Hi. destruct i as [|[|[|i]]]; cbn in Hi; try (injection Hi as <-; split; [reflexivity|cbn; reflexivity]). destruct i; discriminate. }
  specialize (H (fun _ => true) (- two63) (two63 - 1) (two63 - 1) _ eq_refl eq_refl eq_refl ltac:(discriminate) R (fun _ => eq_refl) ltac:(reflexivity)). rewrite E in H. specialize (H ltac:(discriminate)). discriminate.
Qed.
Print Assumptions C79_range_refuted.
(** ... nor that the computation is always defined. *)
Theorem C79_overflow_refuted : ~ (forall start stop step, int64 start = true -> int64 stop = true -> int64 step = true -> make_range (fun _ => true) start stop step <> None).
Proof. intros H. apply (H 0 (two63 - 1) 4611686018427387904 eq_refl eq_refl eq_refl). reflexivity. Qed.
Print Assumptions C79_overflow_refuted.

(** With one bound the range starts at 0. *)
Theorem C79_operator alloc a b step l : - 2 ^ 61 <= a <= 2 ^ 61 -> (forall c, b = Some c -> - 2 ^ 61 <= c <= 2 ^ 61) -> - 2 ^ 61 <= step <= 2 ^ 61 -> step <> 0 ->
  (match b with Some c => is_range a c step l | None => is_range 0 a step l end) -> Z.of_nat (length l) < 2 ^ 61 -> (forall n, alloc n = true) -> range_op alloc a b step = Some (inr l).
Proof.
  intros A B C N R L Al. unfold range_op. destruct b as [c|]; apply C79_small; try assumption; [apply B; reflexivity|]. change (2 ^ 61) with 2305843009213693952. lia.
Qed.
Print Assumptions C79_operator.

(** seq.repeat: n copies, none for a negative number; or an error if that is too much. *)
Theorem C79_repeat alloc {A} esize (v : A) n : 0 < esize -> match repeat_op alloc esize v n with
  | inr l => Z.of_nat (length l) = Z.max n 0 /\ forall x, In x l -> x = v
  | inl ETooLarge => 0 < n /\ two64 <= esize * n
  | inl EAlloc => 0 < n /\ alloc (esize * n) = false
  | inl EStep => False
  end.
Proof.
  intros P. unfold repeat_op, make_seq. assert (K : Z.of_nat (length (repeat v (Z.to_nat (Z.max n 0)))) = Z.max n 0 /\ forall x, In x (repeat v (Z.to_nat (Z.max n 0))) -> x = v).
  { rewrite repeat_length. split; [lia|]. intros x I. apply repeat_spec in I. exact I. }
  destruct (Z.max n 0 <=? 0) eqn:Z0; [exact K|]. replace (Z.max n 0) with n in * by lia. destruct (two64 <=? esize * n) eqn:T; [split; lia|]. destruct (alloc (esize * n)) eqn:Al; [exact K|]. split; [lia|reflexivity].
Qed.
Print Assumptions C79_repeat.
Example C79_repeat_ex : repeat_op (fun _ => true) 4 7%nat 3 = inr [7; 7; 7]%nat /\ repeat_op (fun _ => true) 4 7%nat (-3) = inr [] /\ repeat_op (fun _ => true) 8 7%nat (two63 - 1) = inl ETooLarge.
Proof. repeat split; reflexivity. Qed.
