(** C53: floor division and modulo of floats. *)
From Coq Require Import Reals ZArith Lia Lra Bool Floats.SpecFloat.
From Flocq Require Import Core BinarySingleNaN.
From Verif Require Import Base Cast_Model Cast_Spec Cast_Proofs SpecF_Real Cast_Real FloatDiv_Model FloatDiv_Proofs.
Local Open Scope R_scope.

(** The number a float stands for. *)
Definition value (x : spec_float) : R := SF2R radix2 x.
Definition float_of (f : fty) (x : spec_float) : Prop := valid_binary (f_prec f) (f_emax f) x = true /\ finite x.

Lemma to_B f x : float_of f x -> exists b : binary_float (f_prec f) (f_emax f), B2SF b = x /\ is_finite b = true /\ B2R b = value x.
Proof.
  intros [V Fx]. pose (b := SF2B x V). assert (E : B2SF b = x) by apply B2SF_SF2B. exists b. split; [exact E |].
  rewrite <- E in Fx. split; [now apply fin_iff |]. unfold value. rewrite <- E. symmetry. apply SF2R_B2SF.
Qed.
Lemma of_B f (b : binary_float (f_prec f) (f_emax f)) : is_finite b = true -> float_of f (B2SF b) /\ value (B2SF b) = B2R b.
Proof. intros Fb. split; [split; [apply valid_B2SF | now apply fin_iff] | apply SF2R_B2SF]. Qed.

(** The only error is division by zero, of either sign. *)
Theorem C53_error : forall f a b, (floordiv_f f a b = inl tt <-> exists s, b = S754_zero s) /\ (mod_f f a b = inl tt <-> exists s, b = S754_zero s).
Proof.
  intros f a b. unfold floordiv_f, mod_f.
  assert (Z : SFeqb b (S754_zero false) = true <-> exists s, b = S754_zero s).
  { destruct b as [s | [] | | [] m e]; cbn; split; intros H; try discriminate; try (destruct H; discriminate); eauto. }
  destruct (SFeqb b (S754_zero false)); [tauto |].
  assert (NZ : ~ exists s, b = S754_zero s) by (intros H; apply Z in H; discriminate).
  split; (split; [| intros H; now apply NZ in H]); cbv zeta.
  - destruct (negb _); [destruct (isfinite _) |]; intros; discriminate.
  - destruct (isfinite _); intros; discriminate.
Qed.
Print Assumptions C53_error.

(** On whole numbers A and B with |A| + |B| at most 2^24 (float) or 2^53 (double) both operators are exact:
    floor division and its rest, as for integers. *)
Theorem C53_integers : forall f a b A B, float_types f -> float_of f a -> float_of f b -> value a = IZR A -> value b = IZR B ->
  (B <> 0)%Z -> (Z.abs A + Z.abs B <= 2 ^ f_prec f)%Z ->
  exists q r, floordiv_f f a b = inr q /\ mod_f f a b = inr r /\ float_of f q /\ float_of f r /\
    exists Q R, value q = IZR Q /\ value r = IZR R /\ A = (Q * B + R)%Z /\ (0 <= R < B \/ B < R <= 0)%Z.
Proof.
  intros f a b A B FT Fa Fb Va Vb NB S. destruct (to_B f a Fa) as (a' & <- & Fa' & Ra). destruct (to_B f b Fb) as (b' & <- & Fb' & Rb).
  rewrite Va in Ra. rewrite Vb in Rb.
  destruct (floordiv_int f FT a' b' A B Fa' Fb' Ra Rb NB S) as (q & Eq & Fq & Vq).
  destruct (mod_int f FT a' b' A B Fa' Fb' Ra Rb NB S) as (r & Er & Fr & Vr).
  exists (B2SF q), (B2SF r). destruct (of_B f q Fq) as [Gq Hq], (of_B f r Fr) as [Gr Hr].
  repeat (split; [assumption |]). exists (A / B)%Z, (A mod B)%Z. rewrite Hq, Hr. split; [exact Vq | split; [exact Vr |]].
  pose proof (Z.div_mod A B NB). pose proof (Z.mod_bound_or A B NB). lia.
Qed.
Print Assumptions C53_integers.
Example C53_integers_ex : floordiv_f float32 (int_to_float float32 (-7)) (int_to_float float32 2) = inr (int_to_float float32 (-4)) /\
  mod_f float32 (int_to_float float32 (-7)) (int_to_float float32 2) = inr (int_to_float float32 1) /\
  mod_f float64 (int_to_float float64 (2 ^ 52)) (int_to_float float64 (-3)) = inr (int_to_float float64 (-2)) /\
  valid_binary 24 128 (int_to_float float32 (-7)) = true.
Proof. vm_compute. repeat split. Qed.

(** For any finite floats whose quotient is at most 2^24 (2^53) in absolute value: floor division returns the quotient rounded
    down, or rounded up if it is so close to the next whole number that the float division returns that number. *)
Theorem C53_near : forall f a b, float_types f -> float_of f a -> float_of f b -> value b <> 0 ->
  Rabs (value a / value b) <= bpow radix2 (f_prec f) ->
  exists q Q, floordiv_f f a b = inr q /\ float_of f q /\ value q = IZR Q /\
    ((IZR Q <= value a / value b < IZR Q + 1) \/
     (value a / value b < IZR Q < value a / value b + 1 /\ value (SFdiv (f_prec f) (f_emax f) a b) = IZR Q)).
Proof.
  intros f a b FT Fa Fb Nb Q. destruct (to_B f a Fa) as (a' & <- & Fa' & Ra). destruct (to_B f b Fb) as (b' & <- & Fb' & Rb).
  rewrite <- Ra, <- Rb in *. destruct (floordiv_near f FT a' b' Fa' Fb' Nb Q) as (c & E & Fc & V).
  destruct (of_B f c Fc) as [Gc Hc]. set (x := B2R a' / B2R b') in *.
  assert (LEFT : forall z, z = Zfloor x -> IZR z <= x < IZR z + 1) by (intros z ->; split; [apply Zfloor_lb | apply Zfloor_ub]).
  destruct V as [V | [V1 V2]].
  - exists (B2SF c), (Zfloor x). repeat (split; [assumption || congruence |]). left. now apply LEFT.
  - exists (B2SF c), (Zceil x). repeat (split; [assumption || congruence |]).
    destruct (Req_dec (IZR (Zfloor x)) x) as [EX | NX].
    + left. apply LEFT. rewrite <- EX at 1. apply Zceil_IZR.
    + right. split.
      * rewrite Zceil_floor_neq, plus_IZR by exact NX. pose proof (Zfloor_lb x). pose proof (Zfloor_ub x). lra.
      * destruct (div_ok f FT a' b' Fa' Fb' Nb Q) as (R & Fi & _). cbn zeta in R, Fi.
        rewrite (div_equiv _ _ (Hp f FT) (HM f FT)). destruct (of_B f _ Fi) as [_ ->]. rewrite R. exact V2.
Qed.
Print Assumptions C53_near.

(** The result of the modulo operator is NaN or has the sign of the divisor. *)
Theorem C53_sign : forall f a b r, mod_f f a b = inr r -> r = S754_nan \/ signbit r = signbit b.
Proof.
  intros f a b r. unfold mod_f. destruct (SFeqb b _); [discriminate |]. cbv zeta. destruct (isfinite _); intros E; injection E as <-; [| now left].
  match goal with |- copysign ?x _ = _ \/ _ => destruct x end; cbn; auto.
Qed.
Print Assumptions C53_sign.

Lemma value_fraction s m e : (e <= 0)%Z -> value (S754_finite s m e) = IZR (if s then - Z.pos m else Z.pos m) / IZR (2 ^ (- e)).
Proof.
  intros He. unfold value, SF2R, F2R. cbn [Fnum Fexp]. change (2 ^ (- e))%Z with (Zpower radix2 (- e)). rewrite IZR_Zpower by lia.
  rewrite bpow_opp. unfold Rdiv. rewrite Rinv_inv. now destruct s.
Qed.
(** "The integral part of the quotient rounded towards negative infinity" does not hold without the second case of C53_near:
    9 divided by 0.1f is less than 90, which is returned. *)
Theorem C53_floor_refuted : exists a b q, float_of float32 a /\ float_of float32 b /\ floordiv_f float32 a b = inr q /\ value a / value b < value q.
Proof.
  exists (S754_finite false 9437184 (-20)), (S754_finite false 13421773 (-27)), (S754_finite false 11796480 (-17)).
  split; [split; [reflexivity | exact I] |]. split; [split; [reflexivity | exact I] |]. split; [vm_compute; reflexivity |].
  rewrite !value_fraction by lia.
  change (2 ^ (- (-20)))%Z with 1048576%Z. change (2 ^ (- (-27)))%Z with 134217728%Z. change (2 ^ (- (-17)))%Z with 131072%Z. lra.
Qed.
Print Assumptions C53_floor_refuted.

(** Beyond the guard of C53_integers the documented identity and the range of the modulo operator fail, also for
    whole numbers that floats represent exactly: 66099652 modulo 3 is 4 (floor division: 22033218), and
    -16777211 modulo 8388605 is 8388605. *)
Theorem C53_mod_refuted :
  (exists a b q r A B Q R, float_of float32 a /\ float_of float32 b /\ value a = IZR A /\ value b = IZR B /\ (0 < B)%Z /\
     floordiv_f float32 a b = inr q /\ mod_f float32 a b = inr r /\ value q = IZR Q /\ value r = IZR R /\ (B < R)%Z /\ (Q * B + R <> A)%Z) /\
  (exists a b r A B, float_of float32 a /\ float_of float32 b /\ value a = IZR A /\ value b = IZR B /\ (0 < B)%Z /\ (Z.abs A < 2 ^ 24)%Z /\ (Z.abs B < 2 ^ 23)%Z /\
     mod_f float32 a b = inr r /\ value r = IZR B).
Proof.
  assert (FF : forall (s : bool) m e z, (0 <= e)%Z -> z = ((if s then - Z.pos m else Z.pos m) * 2 ^ e)%Z -> value (S754_finite s m e) = IZR z).
  { intros s m e z He ->. unfold value, SF2R, F2R. cbn [Fnum Fexp]. rewrite mult_IZR. change (2 ^ e)%Z with (Zpower radix2 e). rewrite IZR_Zpower by exact He. now destruct s. }
  assert (FN : forall (s : bool) m e z, (e <= 0)%Z -> (z * 2 ^ (- e))%Z = (if s then - Z.pos m else Z.pos m)%Z -> value (S754_finite s m e) = IZR z).
  { intros s m e z He E. unfold value, SF2R, F2R. cbn [Fnum Fexp]. replace (cond_Zopp s (Z.pos m)) with (z * 2 ^ (- e))%Z by (rewrite E; now destruct s).
    rewrite mult_IZR. change (2 ^ (- e))%Z with (Zpower radix2 (- e)). rewrite IZR_Zpower, Rmult_assoc, <- bpow_plus by lia.
    replace (- e + e)%Z with 0%Z by lia. cbn. ring. }
  split.
  - exists (S754_finite false 16524913 2), (S754_finite false 12582912 (-22)), (S754_finite false 11016609 1), (S754_finite false 8388608 (-21)), 66099652%Z, 3%Z, 22033218%Z, 4%Z.
    unfold float_of. repeat match goal with |- _ /\ _ => split end; try exact I; try (vm_compute; (reflexivity || discriminate)); first [apply FF; [vm_compute; discriminate | reflexivity] | apply FN; [vm_compute; discriminate | reflexivity]].
  - exists (S754_finite true 16777211 0), (S754_finite false 16777210 (-1)), (S754_finite false 16777210 (-1)), (-16777211)%Z, 8388605%Z.
    unfold float_of. repeat match goal with |- _ /\ _ => split end; try exact I; try (vm_compute; (reflexivity || discriminate)); first [apply FF; [vm_compute; discriminate | reflexivity] | apply FN; [vm_compute; discriminate | reflexivity]].
Qed.
Print Assumptions C53_mod_refuted.
