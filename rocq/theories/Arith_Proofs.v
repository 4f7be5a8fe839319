From Coq Require Import ZArith Lia List Bool.
From Verif Require Import Base Arith_Model Arith_Spec.
Local Open Scope Z_scope.

Section W.
Variable w : Z.
Hypothesis W1 : 1 < w.

Lemma pow_half : 2 ^ w = 2 * 2 ^ (w - 1).
Proof using W1. rewrite <- Z.pow_succ_r by lia. f_equal. lia. Qed.
Lemma half_pos : 2 <= 2 ^ (w - 1).
Proof using W1. replace (w - 1) with (Z.succ (w - 2)) by lia. rewrite Z.pow_succ_r by lia. pose proof (Z.pow_pos_nonneg 2 (w - 2)). lia. Qed.

Lemma wraps_unique x r s : wraps w x r -> wraps w x s -> r = s.
Proof using W1.
  unfold wraps, of_type. intros [Hr [k K]] [Hs [j J]]. pose proof pow_half. pose proof half_pos.
  assert ((k - j) * 2 ^ w = s - r) by lia.
  assert (k - j = 0) by nia. lia.
Qed.
Lemma wraps_fit x : of_type w x -> wraps w x x.
Proof using. intros H. split; [exact H | exists 0; lia]. Qed.
Lemma to_t_wraps u : 0 <= u < 2 ^ w -> wraps w u (to_t w u).
Proof using W1.
  intros H. unfold wraps, of_type, to_t, tmax. pose proof pow_half. destruct (Z.leb_spec u (2 ^ (w - 1) - 1)).
  - split; [lia | exists 0; lia].
  - split; [lia | exists 1; lia].
Qed.
Lemma mod_wraps x : wraps w x (to_t w (x mod 2 ^ w)).
Proof using W1.
  pose proof half_pos. pose proof pow_half.
  destruct (to_t_wraps (x mod 2 ^ w)) as [A [k K]]; [apply Z.mod_pos_bound; lia |].
  split; [exact A |]. exists (k + x / 2 ^ w). rewrite (Z.div_mod x (2 ^ w)) at 1 by lia. rewrite K at 1. ring.
Qed.
Lemma wraps_cong x y r : (exists k, y = x + k * 2 ^ w) -> wraps w x r -> wraps w y r.
Proof using. intros [k ->] [A [j ->]]. split; [exact A | exists (j + k); ring]. Qed.

Lemma add_ok a l : wraps w (fold_left Z.add l a) (add_op w a l).
Proof using W1.
  unfold add_op. pose proof half_pos. pose proof pow_half.
  assert (E : forall l s t, s mod 2 ^ w = t mod 2 ^ w -> t mod 2 ^ w = t ->
            fold_left (fun s x => uadd w s (to_ut w x)) l t = (fold_left Z.add l s) mod 2 ^ w).
  { induction l0 as [| x l0 IH]; intros s t E1 E2; cbn [fold_left]; [congruence |].
    apply IH; [| unfold uadd; rewrite Z.mod_mod; lia].
    unfold uadd, to_ut. rewrite Z.mod_mod, Z.add_mod, E1, <- Z.add_mod, Z.add_mod_idemp_r by lia. reflexivity. }
  rewrite (E l a (to_ut w a)); [apply mod_wraps | unfold to_ut; now rewrite Z.mod_mod by lia | unfold to_ut; now rewrite Z.mod_mod by lia].
Qed.
Lemma subtract_ok a b : wraps w (a - b) (subtract_op w a b).
Proof using W1. unfold subtract_op, usub, to_ut. pose proof half_pos. pose proof pow_half. rewrite <- Zminus_mod. apply mod_wraps. Qed.
Lemma multiply_ok a b : wraps w (a * b) (multiply_op w a b).
Proof using W1. unfold multiply_op, umul, to_ut. pose proof half_pos. pose proof pow_half. rewrite <- Z.mul_mod by lia. apply mod_wraps. Qed.
Lemma neg_ok a : wraps w (- a) (neg_op w a).
Proof using W1.
  unfold neg_op, uneg, to_ut. pose proof half_pos. pose proof pow_half.
  replace ((- (a mod 2 ^ w)) mod 2 ^ w) with ((- a) mod 2 ^ w); [apply mod_wraps |].
  rewrite <- (Z.sub_0_l a), <- (Z.sub_0_l (a mod 2 ^ w)). now rewrite Zminus_mod_idemp_r.
Qed.
Lemma abs_ok a : of_type w a -> exists r, abs_op w a = Some r /\ wraps w (Z.abs a) r.
Proof using W1.
  unfold of_type, abs_op, cabs, tmin. intros H. pose proof half_pos. pose proof pow_half.
  destruct (Z.eqb_spec a (- 2 ^ (w - 1))) as [-> | N].
  - eexists. split; [reflexivity |]. unfold wraps, of_type. split; [lia |]. exists 1. lia.
  - eexists. split; [reflexivity |]. apply wraps_fit. unfold of_type. lia.
Qed.

Lemma xor_sign a b : (0 <=? Z.lxor a b) = true <-> (0 <= a <-> 0 <= b).
Proof using. rewrite Z.leb_le, Z.lxor_nonneg. tauto. Qed.

Lemma sdiv_ok a b : b <> 0 -> ~ (a = tmin w /\ b = -1) -> sdiv w a b = Some (Z.quot a b) /\ srem w a b = Some (Z.rem a b).
Proof using.
  intros B N. unfold sdiv, srem. destruct (Z.eqb_spec b 0); [contradiction |].
  destruct (Z.eqb_spec a (tmin w)), (Z.eqb_spec b (-1)); cbn; auto. tauto.
Qed.

Lemma floor_unique a b q r q' r' : floor_quotient a b q r -> floor_quotient a b q' r' -> q = q' /\ r = r'.
Proof using. clear. unfold floor_quotient. intros [E H] [E' H']. subst. assert (q = q') by nia. subst. lia. Qed.
Lemma floor_exists a b : b <> 0 -> floor_quotient a b (a / b) (a mod b).
Proof using.
  clear. intros B. split; [rewrite (Z.div_mod a b) at 1 by lia; lia |].
  destruct (Z.lt_trichotomy b 0) as [H | [H | H]]; [right; pose proof (Z.mod_neg_bound a b H); lia | lia | left; apply Z.mod_pos_bound; lia].
Qed.

Lemma divmod_ok a b : of_type w a -> of_type w b -> b <> 0 ->
  exists q r d m, floordiv_op w a b = Some (inr d) /\ mod_op w a b = Some (inr m) /\
    floor_quotient a b q r /\ wraps w q d /\ m = r.
Proof using W1.
  intros A B NB. pose proof half_pos as HP. pose proof pow_half as PH. unfold of_type in A, B.
  unfold floordiv_op, mod_op. destruct (Z.eqb_spec b 0); [contradiction |].
  pose proof (Z.quot_rem a b NB) as QR.
  destruct (0 <=? Z.lxor a b) eqn:X.
  - apply xor_sign in X. destruct (Z.eqb_spec b (-1)) as [-> | N1]; cbn [negb].
    + exists (- a), 0, (neg_op w a), 0. split; [reflexivity | split; [reflexivity | split; [| split; [apply neg_ok | reflexivity]]]].
      split; lia.
    + destruct (sdiv_ok a b NB) as [E1 E2]; [tauto |]. rewrite E1, E2. cbn.
      exists (Z.quot a b), (Z.rem a b), (Z.quot a b), (Z.rem a b). split; [reflexivity | split; [reflexivity |]].
      assert (FQ : floor_quotient a b (Z.quot a b) (Z.rem a b)).
      { split; [lia |]. destruct (Z_lt_le_dec a 0).
        - right. pose proof (Z.rem_bound_neg_neg a b). lia.
        - left. pose proof (Z.rem_bound_pos_pos a b). lia. }
      split; [exact FQ | split; [| reflexivity]]. apply wraps_fit. unfold of_type.
      destruct (Z.eq_dec b 1) as [-> | N2]; [rewrite Z.quot_1_r; lia |].
      assert (2 <= Z.abs b) by lia. destruct FQ as [_ [FQ | FQ]]; nia.
  - assert (~ (0 <= a <-> 0 <= b)) as X' by (rewrite <- xor_sign; congruence). clear X.
    destruct (sdiv_ok a b NB) as [E1 E2]; [unfold tmin; intros [-> ->]; lia |]. rewrite E1, E2. cbn [bind].
    set (q := Z.quot a b) in *. set (r := Z.rem a b) in *.
    assert (R : (a < 0 /\ 0 < b /\ - b < r <= 0) \/ (0 <= a /\ b < 0 /\ 0 <= r < - b)).
    { destruct (Z_lt_le_dec a 0).
      - left. pose proof (Z.rem_bound_neg_pos a b). lia.
      - right. pose proof (Z.rem_bound_pos_neg a b). lia. }
    assert (T : to_t w (uadd w (to_ut w b) (to_ut w r)) = b + r).
    { eapply wraps_unique; [| apply wraps_fit; unfold of_type; lia].
      unfold uadd, to_ut. rewrite <- Z.add_mod by lia. apply mod_wraps. }
    rewrite T. destruct (sdiv_ok (b + r) b NB) as [_ E3]; [unfold tmin; lia |]. rewrite E3. cbn [bind].
    assert (D : wraps w (q - (if negb (r =? 0) then 1 else 0)) (to_t w (usub w (to_ut w q) (to_ut w (if negb (r =? 0) then 1 else 0))))).
    { unfold usub, to_ut. rewrite <- Zminus_mod. apply mod_wraps. }
    exists (q - (if negb (r =? 0) then 1 else 0)), (Z.rem (b + r) b). eexists. eexists.
    split; [reflexivity | split; [reflexivity |]]. split; [| split; [exact D | reflexivity]].
    destruct (Z.eqb_spec r 0) as [R0 | R0]; cbn [negb].
    + rewrite R0, Z.add_0_r, Z.rem_same by exact NB. split; lia.
    + assert (Z.rem (b + r) b = b + r).
      { destruct R as [R | R].
        - apply Z.rem_small. lia.
        - pose proof (Z.rem_opp_l' (b + r) b). pose proof (Z.rem_opp_r' (- (b + r)) b). rewrite (Z.rem_small (- (b + r)) (- b)) in * by lia. lia. }
      rewrite H. split; [lia |]. lia.
Qed.
End W.
