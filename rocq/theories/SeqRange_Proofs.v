(** Proofs about seq.range. *)
From Coq Require Import ZArith.
From Verif Require Import Base SeqRange_Model SeqRange_Spec.
Local Open Scope Z_scope.

Fixpoint prog (n : nat) (y step : Z) : list Z := match n with O => [] | S m => y :: prog m (y + step) step end.
Lemma prog_len n : forall y step, length (prog n y step) = n.
Proof. induction n as [|n IH]; intros; cbn [prog length]; [reflexivity|rewrite IH; reflexivity]. Qed.
Lemma prog_nth n : forall y step i x, nth_error (prog n y step) i = Some x <-> (i < n)%nat /\ x = y + Z.of_nat i * step.
Proof.
  induction n as [|n IH]; intros y step i x; cbn [prog].
  - split; [destruct i; discriminate|lia].
  - destruct i as [|i]; cbn [nth_error].
    + split; [intros H; injection H as <-; split; lia|]. intros [_ ->]. f_equal. lia.
    + rewrite IH. split; intros [H ->]; (split; [lia|]); lia.
Qed.
Definition true_size (start stop step : Z) : Z :=
  if 0 <? step then if start <? stop then (stop - start + step - 1) / step else 0
  else if stop <? start then (start - stop + - step - 1) / - step else 0.
(** the sizes of a positive step *)
Lemma ceil_ok d s : 0 < d -> 0 < s -> let n := (d + s - 1) / s in 0 < n /\ (n - 1) * s < d /\ d <= n * s.
Proof.
  intros Hd Hs n. pose proof (Z.div_mod (d + s - 1) s ltac:(lia)) as E. pose proof (Z.mod_pos_bound (d + s - 1) s Hs) as B. fold n in E.
  assert (0 < n) by (apply Z.div_str_pos; lia). rewrite Z.mul_comm in E. split; [assumption|]. rewrite Z.mul_sub_distr_r. lia.
Qed.
Lemma true_size_pos start stop step : step <> 0 -> 0 <= true_size start stop step.
Proof.
  intros H. unfold true_size. destruct (0 <? step) eqn:S, (start <? stop) eqn:A, (stop <? start) eqn:B; try lia; apply Z.div_pos; lia.
Qed.
Lemma true_size_range start stop step : step <> 0 -> is_range start stop step (prog (Z.to_nat (true_size start stop step)) start step).
Proof.
  intros H. pose proof (true_size_pos start stop step H) as P. split.
  - intros i x Hi. apply prog_nth in Hi as [Li ->]. split; [reflexivity|]. unfold before_stop, true_size in *. rewrite Z.gtb_ltb. assert (Li' : Z.of_nat i < true_size start stop step) by (unfold true_size; lia).
    unfold true_size in Li'. destruct (0 <? step) eqn:S.
    + destruct (start <? stop) eqn:A; [|lia]. pose proof (ceil_ok (stop - start) step ltac:(lia) ltac:(lia)) as (n0 & n1 & n2). cbv zeta in *. set (n := (stop - start + step - 1) / step) in *.
      assert (Z.of_nat i * step <= (n - 1) * step) by (apply Z.mul_le_mono_nonneg_r; lia). lia.
    + destruct (stop <? start) eqn:A; [|lia]. pose proof (ceil_ok (start - stop) (- step) ltac:(lia) ltac:(lia)) as (n0 & n1 & n2). cbv zeta in *. set (n := (start - stop + - step - 1) / - step) in *.
      assert (Z.of_nat i * - step <= (n - 1) * - step) by (apply Z.mul_le_mono_nonneg_r; lia). rewrite Z.mul_opp_r in *. lia.
  - rewrite prog_len, Z2Nat.id by exact P. unfold before_stop, true_size. rewrite Z.gtb_ltb. destruct (0 <? step) eqn:S.
    + destruct (start <? stop) eqn:A; [|lia]. pose proof (ceil_ok (stop - start) step ltac:(lia) ltac:(lia)) as (n0 & n1 & n2). cbv zeta in *. lia.
    + destruct (stop <? start) eqn:A; [|lia]. pose proof (ceil_ok (start - stop) (- step) ltac:(lia) ltac:(lia)) as (n0 & n1 & n2). cbv zeta in *. rewrite Z.mul_opp_r in n2. lia.
Qed.
Lemma range_len start stop step l l' : step <> 0 -> is_range start stop step l -> is_range start stop step l' -> (length l <= length l')%nat.
Proof.
  intros H [A _] [_ B]. destruct (le_lt_dec (length l) (length l')) as [L|L]; [exact L|]. exfalso. apply B.
  destruct (nth_error l (length l')) as [x|] eqn:E; [|apply nth_error_None in E; lia]. destruct (A _ x E) as [-> K]. exact K.
Qed.
Lemma nth_error_ext' {A} (l l' : list A) : (forall i, nth_error l i = nth_error l' i) -> l = l'.
Proof.
  revert l'. induction l as [|x l IH]; intros [|y l'] H; [reflexivity|specialize (H 0%nat); discriminate|specialize (H 0%nat); discriminate|].
  f_equal; [specialize (H 0%nat); injection H; auto|]. apply IH. intros i. apply (H (S i)).
Qed.
Lemma range_unique start stop step l l' : step <> 0 -> is_range start stop step l -> is_range start stop step l' -> l = l'.
Proof.
  intros H R R'. assert (L : length l = length l') by (pose proof (range_len _ _ _ _ _ H R R'); pose proof (range_len _ _ _ _ _ H R' R); lia).
  destruct R as [A _], R' as [B _]. apply nth_error_ext'. intros i. destruct (nth_error l i) as [x|] eqn:E, (nth_error l' i) as [y|] eqn:F; try reflexivity.
  - destruct (A i x E) as [-> _], (B i y F) as [-> _]. reflexivity.
  - apply nth_error_None in F. assert (i < length l)%nat by (apply nth_error_Some; congruence). lia.
  - apply nth_error_None in E. assert (i < length l')%nat by (apply nth_error_Some; congruence). lia.
Qed.
Lemma range_prog start stop step l : step <> 0 -> is_range start stop step l -> l = prog (length l) start step /\ Z.of_nat (length l) = true_size start stop step.
Proof.
  intros H R. rewrite (range_unique start stop step l _ H R (true_size_range start stop step H)). rewrite prog_len. split; [reflexivity|]. rewrite Z2Nat.id; [reflexivity|apply true_size_pos, H].
Qed.

(** ** Machine arithmetic *)
Definition span (start stop step : Z) : Z := Z.abs (stop - start) + Z.abs step - 1.
Lemma in64 x : int64 x = true <-> - two63 <= x < two63.
Proof. unfold int64. rewrite andb_true_iff, Z.leb_le, Z.ltb_lt. reflexivity. Qed.
Lemma u64_small x : 0 <= x < two64 -> u64 x = x.
Proof. intros H. apply Z.mod_small. exact H. Qed.
Lemma u64_add a b : u64 (u64 a + b) = u64 (a + b).
Proof. unfold u64. apply Zplus_mod_idemp_l. Qed.
Lemma u64_chain a b s : u64 (u64 (u64 (u64 a - u64 b) + u64 s) - 1) = u64 (a - b + s - 1).
Proof.
  unfold u64. rewrite <- (Zminus_mod a b). rewrite <- (Zplus_mod (a - b) s). change (?x mod two64 - 1) with (x mod two64 + -1). rewrite Zplus_mod_idemp_l. reflexivity.
Qed.
Lemma u64_opp x : u64 (- u64 x) = u64 (- x).
Proof. unfold u64. replace (- (x mod two64)) with (0 - x mod two64) by lia. rewrite Zminus_mod_idemp_r. reflexivity. Qed.
(** The computed size is that of the numerator taken modulo 2^64. *)
Lemma range_size_ok start stop step : int64 start = true -> int64 stop = true -> int64 step = true -> step <> 0 -> before_stop step start stop ->
  range_size start stop step = u64 (span start stop step) / Z.abs step /\ true_size start stop step = span start stop step / Z.abs step /\ 0 < span start stop step < 2 * two64.
Proof.
  rewrite !in64. intros A B C N F. assert (T : two64 = 2 * two63) by reflexivity. assert (P : 0 < two63) by reflexivity. unfold before_stop in F. rewrite Z.gtb_ltb in F. unfold range_size, true_size, span. destruct (0 <? step) eqn:S.
  - replace (start <? stop) with true by lia. rewrite u64_chain, (u64_small step) by lia. rewrite !Z.abs_eq by lia. repeat split; lia.
  - replace (stop <? start) with true by lia. rewrite !u64_opp. replace (u64 (- step)) with (u64 (- step)) by reflexivity.
    rewrite u64_chain, (u64_small (- step)) by lia. rewrite !Z.abs_neq by lia. replace (- stop - - start + - step - 1) with (- (stop - start) + - step - 1) by lia.
    replace (start - stop + - step - 1) with (- (stop - start) + - step - 1) by lia. repeat split; lia.
Qed.
Lemma fill_ok n : forall y step, int64 y = true -> fill n y step = if (n =? 0)%nat || int64 (y + Z.of_nat n * step) then Some (prog n y step) else None.
Proof.
  induction n as [|n IH]; intros y step H; [reflexivity|]. cbn [fill prog Nat.eqb orb]. unfold add64. destruct (int64 (y + step)) eqn:A; cbn [bind].
  - rewrite (IH _ _ A). replace (y + step + Z.of_nat n * step) with (y + Z.of_nat (S n) * step) by lia. destruct n as [|n].
    + cbn [Nat.eqb orb bind]. replace (y + Z.of_nat 1 * step) with (y + step) by lia. rewrite A. reflexivity.
    + cbn [Nat.eqb orb]. destruct (int64 (y + Z.of_nat (S (S n)) * step)); reflexivity.
  - replace (int64 (y + Z.of_nat (S n) * step)) with false; [reflexivity|]. symmetry. apply not_true_is_false. intros K. apply not_true_iff_false in A. apply A. rewrite in64 in *.
    rewrite Nat2Z.inj_succ, Z.mul_succ_l in K. destruct (Z_lt_le_dec step 0) as [S|S].
    + assert (Z.of_nat n * step <= 0) by (apply Z.mul_nonneg_nonpos; lia). lia.
    + assert (0 <= Z.of_nat n * step) by (apply Z.mul_nonneg_nonneg; lia). lia.
Qed.
Section Range.
Variable alloc : Z -> bool.
(** What happens for a sequence of the computed size *)
Definition built (start step n : Z) (l : list Z) : option (rerr + list Z) :=
  if n =? 0 then Some (inr []) else
  if two64 <=? 8 * n then Some (inl ETooLarge) else
  if negb (alloc (8 * n)) then Some (inl EAlloc) else
  if int64 (start + n * step) then Some (inr l) else None.
Lemma make_built start stop step n : int64 start = true -> step <> 0 -> 0 <= n -> range_size start stop step = n ->
  make_range alloc start stop step = built start step n (prog (Z.to_nat n) start step).
Proof.
  intros A N P E. unfold make_range, built. replace (step =? 0) with false by lia. rewrite E. destruct (n =? 0) eqn:Z0; [reflexivity|]. unfold make_seq. replace (n <=? 0) with false by lia.
  destruct (two64 <=? 8 * n); [reflexivity|]. destruct (alloc (8 * n)); cbn [negb]; [|reflexivity]. rewrite (fill_ok _ _ _ A). rewrite Z2Nat.id by exact P.
  replace (Z.to_nat n =? 0)%nat with false by (symmetry; apply Nat.eqb_neq; lia). cbn [orb]. destruct (int64 (start + n * step)); reflexivity.
Qed.
Lemma range_size_none start stop step : ~ before_stop step start stop -> range_size start stop step = 0.
Proof.
  unfold before_stop, range_size. rewrite Z.gtb_ltb. intros H. destruct (0 <? step); [replace (start <? stop) with false by lia|replace (stop <? start) with false by lia]; reflexivity.
Qed.
Lemma true_size_none start stop step : ~ before_stop step start stop -> true_size start stop step = 0.
Proof.
  unfold before_stop, true_size. rewrite Z.gtb_ltb. intros H. destruct (0 <? step); [replace (start <? stop) with false by lia|replace (stop <? start) with false by lia]; reflexivity.
Qed.
Lemma before_dec step x stop : before_stop step x stop \/ ~ before_stop step x stop.
Proof. unfold before_stop. destruct (step >? 0); lia. Qed.
Lemma size_eq start stop step : int64 start = true -> int64 stop = true -> int64 step = true -> step <> 0 -> span start stop step < two64 ->
  range_size start stop step = true_size start stop step.
Proof.
  intros A B C N L. destruct (before_dec step start stop) as [F|F]; [|rewrite range_size_none, true_size_none by exact F; reflexivity].
  destruct (range_size_ok start stop step A B C N F) as (-> & -> & P). rewrite u64_small by lia. reflexivity.
Qed.
Lemma size_less start stop step : int64 start = true -> int64 stop = true -> int64 step = true -> step <> 0 -> before_stop step start stop -> two64 <= span start stop step ->
  0 <= range_size start stop step < true_size start stop step.
Proof.
  intros A B C N F L. destruct (range_size_ok start stop step A B C N F) as (-> & -> & P). assert (E : u64 (span start stop step) = span start stop step - two64).
  { unfold u64. replace (span start stop step) with (span start stop step - two64 + 1 * two64) at 1 by lia. rewrite Z_mod_plus_full. apply Z.mod_small. lia. }
  rewrite E. assert (S : 0 < Z.abs step) by lia. split; [apply Z.div_pos; lia|]. apply Z.lt_le_trans with ((span start stop step - two64) / Z.abs step + 1); [lia|].
  rewrite <- Z.div_add by lia. apply Z.div_le_mono; [exact S|]. rewrite in64 in C. assert (two64 = 2 * two63) by reflexivity. lia.
Qed.
End Range.
