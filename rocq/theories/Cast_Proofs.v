From Coq Require Import ZArith Lia Bool Floats.SpecFloat.
From Verif Require Import Base Cast_Model Cast_Spec.
Local Open Scope Z_scope.

Lemma digits_bound m : 2 ^ (Zpos (digits2_pos m) - 1) <= Zpos m < 2 ^ Zpos (digits2_pos m).
Proof.
  induction m as [m IH | m IH |]; cbn [digits2_pos]; try (vm_compute; split; congruence).
  all: rewrite Pos2Z.inj_succ; replace (Z.succ (Zpos (digits2_pos m)) - 1) with (Z.succ (Zpos (digits2_pos m) - 1)) by lia;
    rewrite !Z.pow_succ_r by lia; lia.
Qed.
(** A normalised mantissa has exactly p digits unless the exponent is the least. *)
Lemma valid_bounds p emax s m e : valid_binary p emax (S754_finite s m e) = true -> 0 < p ->
  Zpos m < 2 ^ p /\ 3 - emax - p <= e /\ (3 - emax - p < e -> 2 ^ (p - 1) <= Zpos m).
Proof.
  intros V P. cbn in V. unfold bounded, canonical_mantissa in V. apply andb_prop in V. destruct V as [V _].
  apply Zeq_bool_eq in V. unfold fexp, emin in V. pose proof (digits_bound m) as D.
  assert (Zpos (digits2_pos m) <= p) by lia.
  split; [apply Z.lt_le_trans with (2 ^ Zpos (digits2_pos m)); [lia | apply Z.pow_le_mono_r; lia] |].
  split; [lia |]. intros. assert (E : Zpos (digits2_pos m) = p) by lia. rewrite E in D. lia.
Qed.

Lemma whole_unique m e a b : whole m e a -> whole m e b -> a = b.
Proof.
  intros [A1 A2] [B1 B2]. destruct (Z_le_gt_dec 0 e).
  - rewrite A1, B1 by lia. reflexivity.
  - specialize (A2 ltac:(lia)). specialize (B2 ltac:(lia)). pose proof (Z.pow_pos_nonneg 2 (- e)). nia.
Qed.
Lemma whole_exists m e : whole (Zpos m) e (if 0 <=? e then Zpos m * 2 ^ e else Zpos m / 2 ^ (- e)).
Proof.
  destruct (Z.leb_spec 0 e); split; intros; try lia.
Qed.
Lemma integral_exists x : finite x -> exists z, integral_part x z.
Proof.
  destruct x as [| | | s m e]; intros F; try contradiction; cbn.
  - now exists 0.
  - eexists. eexists. split; [apply whole_exists | reflexivity].
Qed.
Lemma integral_unique x a b : integral_part x a -> integral_part x b -> a = b.
Proof.
  destruct x as [| | | s m e]; cbn; intros A B; try contradiction; [congruence |].
  destruct A as (a' & A & ->), B as (b' & B & ->). now rewrite (whole_unique _ _ _ _ A B).
Qed.
Lemma whole_nonneg m e a : whole (Zpos m) e a -> 0 <= a.
Proof.
  intros [A B]. destruct (Z_le_gt_dec 0 e).
  - rewrite A by lia. pose proof (Z.pow_nonneg 2 e). nia.
  - specialize (B ltac:(lia)). pose proof (Z.pow_pos_nonneg 2 (- e)). nia.
Qed.

(** Whole numbers below 2^d are those with exponent at most d - p. *)
Section T.
Variables (p d m e a : Z).
Hypotheses (P : 0 < p) (D : 0 <= d) (M : m < 2 ^ p) (W : whole m e a) (A0 : 0 <= a).
Lemma small : e <= d - p -> a < 2 ^ d.
Proof using P D M W A0.
  intros E. destruct W as [W1 W2]. destruct (Z_le_gt_dec 0 e).
  - rewrite W1 by lia. replace d with (d - e + e) by lia. rewrite Z.pow_add_r by lia.
    pose proof (Z.pow_pos_nonneg 2 e). assert (2 ^ p <= 2 ^ (d - e)) by (apply Z.pow_le_mono_r; lia). nia.
  - specialize (W2 ltac:(lia)). pose proof (Z.pow_pos_nonneg 2 (- e)).
    assert (2 ^ p <= 2 ^ (d + - e)) by (apply Z.pow_le_mono_r; lia). rewrite Z.pow_add_r in * by lia. nia.
Qed.
Lemma large : 2 ^ (p - 1) <= m -> d - p < e -> 2 ^ d <= a.
Proof using P D M W A0.
  intros ML E. destruct W as [W1 W2]. destruct (Z_le_gt_dec 0 e).
  - rewrite W1 by lia. transitivity (2 ^ (p - 1) * 2 ^ e); [| pose proof (Z.pow_pos_nonneg 2 e); nia].
    rewrite <- Z.pow_add_r by lia. apply Z.pow_le_mono_r; lia.
  - specialize (W2 ltac:(lia)). pose proof (Z.pow_pos_nonneg 2 (- e)).
    assert (2 ^ (d + - e) <= 2 ^ (p - 1)) by (apply Z.pow_le_mono_r; lia). rewrite Z.pow_add_r in * by lia. nia.
Qed.
End T.

Lemma leb_pos m e m' e' : SFleb (S754_finite false m e) (S754_finite false m' e') = ((e <? e') || ((e =? e') && (Zpos m <=? Zpos m'))).
Proof.
  unfold SFleb, SFcompare.
  destruct (Z.compare_spec e e') as [-> | L | L]; destruct (Z.ltb_spec e e') || destruct (Z.ltb_spec e' e'); destruct (Z.eqb_spec e e') || destruct (Z.eqb_spec e' e'); try lia; try reflexivity.
Qed.
Lemma leb_neg m e m' e' : SFleb (S754_finite true m e) (S754_finite true m' e') = ((e' <? e) || ((e' =? e) && (Zpos m' <=? Zpos m))).
Proof.
  rewrite <- leb_pos. unfold SFleb, SFcompare. rewrite (Z.compare_antisym e e').
  destruct (e ?= e')%Z; cbn; try reflexivity.
  change (Pos.compare_cont Eq m m') with (Pos.compare m m'). change (Pos.compare_cont Eq m' m) with (Pos.compare m' m).
  rewrite (Pos.compare_antisym m m'). now destruct (m ?= m')%positive.
Qed.

Section C.
Variables (f : fty) (t : ity).
Hypotheses (FT : float_types f) (IT : int_types t).

Lemma max_eq : exists M E, max_safe f t = S754_finite false M E /\ E = i_digits t - f_prec f /\ Zpos M = 2 ^ f_prec f - 1.
Proof using FT IT. destruct FT as [-> | ->], IT as [-> | [-> | ->]]; eexists; eexists; split; vm_compute; auto. Qed.

Lemma min_eq : i_signed t = true -> exists M E, min_safe f t = S754_finite true M E /\ E = i_digits t - f_prec f + 1 /\
  forall m a, whole m E a -> (m <= Zpos M <-> a <= 2 ^ i_digits t).
Proof using FT IT.
  destruct FT as [-> | ->], IT as [-> | [-> | ->]]; intros S; try discriminate; eexists; eexists; (split; [vm_compute; reflexivity |]); (split; [reflexivity |]);
    intros m a [W1 W2].
  - rewrite W1 by lia. change (2 ^ 8) with 256. change (2 ^ i_digits int32) with 2147483648. lia.
  - rewrite W1 by lia. change (2 ^ 40) with 1099511627776. change (2 ^ i_digits int64) with 9223372036854775808. lia.
  - specialize (W2 ltac:(lia)). change (2 ^ (- (-21))) with 2097152 in W2. change (2 ^ i_digits int32) with 2147483648. lia.
  - rewrite W1 by lia. change (2 ^ 11) with 2048. change (2 ^ i_digits int64) with 9223372036854775808. lia.
Qed.

Lemma sides x z : valid_binary (f_prec f) (f_emax f) x = true -> integral_part x z ->
  (SFleb x (max_safe f t) = true <-> z <= i_max t) /\
  (SFleb (min_safe f t) x = true <-> i_min t <= z /\ (i_signed t = true \/ ~ below_zero x)).
Proof using FT IT.
  intros V I. destruct max_eq as (M & E & -> & HE & HM).
  assert (P0 : 1 < f_prec f) by (destruct FT as [-> | ->]; reflexivity).
  assert (D0 : 0 < i_digits t) by (destruct IT as [-> | [-> | ->]]; reflexivity).
  assert (EM : 3 - f_emax f - f_prec f < i_digits t - f_prec f) by (destruct FT as [-> | ->], IT as [-> | [-> | ->]]; reflexivity).
  assert (P2 : 2 <= 2 ^ i_digits t) by (change 2 with (2 ^ 1) at 1; apply Z.pow_le_mono_r; lia).
  destruct x as [s | s | | s m e]; cbn [integral_part] in I; try contradiction.
  - subst z. unfold i_max, i_min. split.
    + cbn. split; [intros _; lia | reflexivity].
    + cbn. split.
      * intros _. split; [destruct (i_signed t); lia | tauto].
      * intros _. destruct FT as [-> | ->], IT as [-> | [-> | ->]]; reflexivity.
  - destruct I as (a & W & ->). destruct (valid_bounds _ _ _ _ _ V ltac:(lia)) as (B1 & B2 & B3). pose proof (whole_nonneg _ _ _ W) as A0.
    pose proof (small (f_prec f) (i_digits t) (Zpos m) e a ltac:(lia) ltac:(lia) B1 W A0) as SM.
    pose proof (large (f_prec f) (i_digits t) (Zpos m) e a ltac:(lia) ltac:(lia) B1 W A0) as LG.
    destruct s; split.
    + cbn. unfold i_max. split; [intros _; lia | reflexivity].
    + assert (B3' := B3). destruct (i_signed t) eqn:SG.
      2: { unfold min_safe, i_min. rewrite SG. cbn. split; [discriminate | intros [_ [C | C]]; [discriminate | tauto]]. }
      enough (G : SFleb (min_safe f t) (S754_finite true m e) = true <-> a <= 2 ^ i_digits t).
      { rewrite G. unfold i_min. rewrite SG. split; [split; [lia | auto] | lia]. }
      destruct (min_eq SG) as (K & E' & -> & HE' & HK). rewrite leb_neg.
      destruct (Z_le_gt_dec e (i_digits t - f_prec f)) as [EL | EG].
      * specialize (SM EL). destruct (Z.ltb_spec e E'); [| lia]. cbn. split; [lia | reflexivity].
      * specialize (B3 ltac:(lia)). destruct (Z.ltb_spec e E'); [lia |].
        destruct (Z.eqb_spec e E') as [-> | NE]; cbn; [rewrite <- (HK _ _ W), Z.leb_le; reflexivity |].
        split; [discriminate |]. intros AL.
        assert (2 ^ (i_digits t + 1) <= a) by (apply (large (f_prec f) _ (Zpos m) e a); try assumption; lia).
        rewrite Z.pow_add_r in * by lia. lia.
    + rewrite leb_pos. subst E. unfold i_max. rewrite HM. destruct (Z.ltb_spec e (i_digits t - f_prec f)), (Z.eqb_spec e (i_digits t - f_prec f)), (Z.leb_spec (Zpos m) (2 ^ f_prec f - 1)); cbn;
        try (split; [intros _; apply Z.lt_le_pred; rewrite <- Z.sub_1_r; specialize (SM ltac:(lia)); lia | reflexivity]); try lia.
      all: split; [discriminate |]; specialize (LG (B3 ltac:(lia)) ltac:(lia)); lia.
    + split.
      * intros _. split; [unfold i_min; destruct (i_signed t); lia | right; cbn; auto].
      * intros _. destruct FT as [-> | ->], IT as [-> | [-> | ->]]; reflexivity.
Qed.
End C.
