(** C52: casts between numeric types. *)
From Coq Require Import Reals ZArith Lia Bool Floats.SpecFloat.
From Flocq Require Import Core BinarySingleNaN.
From Verif Require Import Base Cast_Model Cast_Spec Cast_Proofs SpecF_Real Cast_Real.
Local Open Scope Z_scope.

(** Every float has at most one integral part, and exactly the finite ones have one. *)
Theorem C52_integral_part : forall x, (forall a b, integral_part x a -> integral_part x b -> a = b) /\ (finite x <-> exists z, integral_part x z).
Proof.
  intros x. split; [apply integral_unique |]. split; [apply integral_exists |]. intros [z H]. destruct x; cbn in *; auto.
Qed.
Print Assumptions C52_integral_part.

(** A float is cast to an integer type exactly if its integral part is representable (and, for the unsigned type, the
    float is not below zero); the result is the integral part.  Infinities and NaN are errors.  Nothing is undefined. *)
Theorem C52_float_to_int : forall f t x, float_types f -> int_types t -> valid_binary (f_prec f) (f_emax f) x = true ->
  (forall z, integral_part x z -> representable t z -> (i_signed t = true \/ ~ below_zero x) -> cast_float_to_int f t x = Some (inr z)) /\
  ((forall z, integral_part x z -> representable t z -> i_signed t = false /\ below_zero x) -> cast_float_to_int f t x = Some (inl tt)).
Proof.
  intros f t x FT IT V.
  assert (RP : forall z, representable t z <-> i_min t <= z /\ z <= i_max t).
  { intros z. unfold representable, i_min, i_max. destruct (i_signed t); lia. }
  assert (F : forall z, integral_part x z -> (i_min t <= z <= i_max t) -> float_to_int t x = Some z).
  { intros z I R. destruct x as [s | s | | s m e]; cbn in I; try contradiction; [now subst |]. destruct I as (a & W & ->). unfold float_to_int.
    cbv zeta. rewrite (whole_unique _ _ _ _ (whole_exists m e) W). destruct (Z.leb_spec (i_min t) (if s then - a else a)), (Z.leb_spec (if s then - a else a) (i_max t)); cbn; (reflexivity || lia). }
  unfold cast_float_to_int. split.
  - intros z I R B. destruct (sides f t FT IT x z V I) as [S1 S2]. apply RP in R.
    rewrite (proj2 S1), (proj2 S2) by tauto. cbn [andb]. rewrite (F z I) by lia. reflexivity.
  - intros H. destruct x as [s | s | | s m e] eqn:EX.
    + assert (I : integral_part (S754_zero s) 0) by reflexivity. destruct (H 0 I) as [_ []].
      apply RP. unfold i_min, i_max. destruct IT as [-> | [-> | ->]]; cbn; lia.
    + destruct s.
      * assert (SFleb (min_safe f t) (S754_infinity true) = false) as -> by (destruct FT as [-> | ->], IT as [-> | [-> | ->]]; reflexivity). reflexivity.
      * assert (SFleb (S754_infinity false) (max_safe f t) = false) as -> by (destruct FT as [-> | ->], IT as [-> | [-> | ->]]; reflexivity). now rewrite andb_false_r.
    + assert (SFleb S754_nan (max_safe f t) = false) as -> by reflexivity. now rewrite andb_false_r.
    + destruct (integral_exists (S754_finite s m e) I) as [z IP]. destruct (sides f t FT IT _ z V IP) as [S1 S2].
      destruct (SFleb (min_safe f t) (S754_finite s m e)) eqn:E1; [| reflexivity].
      destruct (SFleb (S754_finite s m e) (max_safe f t)) eqn:E2; [| reflexivity]. exfalso.
      apply proj1 in S1. specialize (S1 eq_refl). apply proj1 in S2. specialize (S2 eq_refl).
      destruct (H z IP) as [H1 H2]; [apply RP; lia |]. destruct S2 as [_ [S2 | S2]]; [congruence | now apply S2].
Qed.
Print Assumptions C52_float_to_int.
(** 2147483647.75 and -2147483648.75 as doubles, 2^31 as a float, -0.5 *)
Example C52_float_to_int_ex :
  cast_float_to_int float64 int32 (S754_finite false 9007199253692416 (-22)) = Some (inr (2 ^ 31 - 1)) /\
  cast_float_to_int float64 int32 (S754_finite true 4503599628943360 (-21)) = Some (inr (- 2 ^ 31)) /\
  cast_float_to_int float64 int32 (S754_finite true 4503599629467648 (-21)) = Some (inl tt) /\
  cast_float_to_int float32 int32 (S754_finite false 8388608 8) = Some (inl tt) /\
  cast_float_to_int float32 int32 (S754_finite true 8388608 (-24)) = Some (inr 0) /\
  cast_float_to_int float32 uint64 (S754_finite true 8388608 (-24)) = Some (inl tt) /\
  cast_float_to_int float32 uint64 (S754_zero true) = Some (inr 0) /\
  cast_float_to_int float64 int64 S754_nan = Some (inl tt) /\
  valid_binary 53 1024 (S754_finite true 4503599628943360 (-21)) = true /\ valid_binary 24 128 (S754_finite true 8388608 (-24)) = true.
Proof. vm_compute. repeat split. Qed.

(** Integers are cast exactly if they are representable, and keep their value. *)
Theorem C52_int_to_int : forall src dst x, int_types src -> int_types dst -> representable src x ->
  (representable dst x -> cast_int_to_int src dst x = inr x) /\ (~ representable dst x -> cast_int_to_int src dst x = inl tt).
Proof.
  intros src dst x S D R.
  assert (L : representable dst x -> int_to_int dst x = x).
  { intros Q. unfold int_to_int, i_min, i_max, representable in *. destruct D as [-> | [-> | ->]]; cbn [i_signed i_digits int32 int64 uint64] in *; rewrite Z.mod_small by lia; lia. }
  unfold cast_int_to_int. unfold representable, i_min, i_max in *.
  destruct S as [-> | [-> | ->]], D as [-> | [-> | ->]]; cbn -[Z.pow int_to_int Z.leb Z.max Z.min] in *;
    repeat match goal with |- context [2 ^ ?k] => let v := eval vm_compute in (2 ^ k) in change (2 ^ k) with v in * end;
    split; intros Q; try reflexivity; try tauto; try (exfalso; lia);
    repeat match goal with |- context [Z.leb ?a ?b] => destruct (Z.leb_spec a b) end; cbn [andb]; try reflexivity; try (now rewrite L by lia); try lia.
Qed.
Print Assumptions C52_int_to_int.
Example C52_int_to_int_ex : cast_int_to_int int64 int32 (2 ^ 31) = inl tt /\ cast_int_to_int int64 int32 (- 2 ^ 31) = inr (- 2 ^ 31) /\
  cast_int_to_int int64 uint64 (-1) = inl tt /\ cast_int_to_int uint64 int64 (2 ^ 63) = inl tt /\ cast_int_to_int int32 int64 (-5) = inr (-5).
Proof. vm_compute. repeat split. Qed.

(** An integer is cast to a nearest float, never to an infinity. *)
Theorem C52_int_to_float : forall f t z, float_types f -> int_types t -> representable t z ->
  valid_binary (f_prec f) (f_emax f) (cast_int_to_float f z) = true /\ nearest f z (cast_int_to_float f z).
Proof.
  intros f t z FT IT R. apply int_nearest; [exact FT |]. unfold representable in R.
  destruct IT as [-> | [-> | ->]]; cbn -[Z.pow] in R; change (2 ^ 31) with 2147483648 in R || change (2 ^ 63) with 9223372036854775808 in R || idtac;
    change (2 ^ 64) with 18446744073709551616 in *; lia.
Qed.
Print Assumptions C52_int_to_float.

(** Up to 2^24 (float) and 2^53 (double) the cast is exact and can be undone. *)
Theorem C52_round_trip : forall f t z, float_types f -> int_types t -> representable t z -> Z.abs z <= 2 ^ f_prec f ->
  SF2R radix2 (cast_int_to_float f z) = IZR z /\ cast_float_to_int f t (cast_int_to_float f z) = Some (inr z).
Proof.
  intros f t z FT IT R B. destruct (int_exact f z FT B) as [I E]. split; [exact E |].
  assert (V : valid_binary (f_prec f) (f_emax f) (int_to_float f z) = true).
  { apply int_nearest; [exact FT |]. etransitivity; [exact B |]. destruct FT as [-> | ->]; cbn; lia. }
  apply (C52_float_to_int f t _ FT IT V); [exact I | exact R |].
  destruct (i_signed t) eqn:S; [now left | right]. intros BZ. unfold representable in R. rewrite S in R.
  destruct (int_to_float f z) as [s | s | | s m e] eqn:EQ; try contradiction. destruct s; [| contradiction].
  cbn in E. unfold F2R in E. cbn [Fnum Fexp] in E.
  assert (IZR (Zneg m) * bpow radix2 e < 0)%R; [| assert (0 <= IZR z)%R by (apply IZR_le; lia); Lra.lra].
  rewrite <- (Rmult_0_l (bpow radix2 e)). apply Rmult_lt_compat_r; [apply bpow_gt_0 |]. apply IZR_lt. lia.
Qed.
Print Assumptions C52_round_trip.
Example C52_round_trip_ex : cast_int_to_float float32 (-16777216) = S754_finite true 8388608 1 /\ cast_float_to_int float32 int32 (S754_finite true 8388608 1) = Some (inr (-16777216)) /\
  (** beyond 2^24 it is not exact, and a large int64 does not come back *)
  cast_int_to_float float32 16777217 = S754_finite false 8388608 1 /\ cast_float_to_int float32 int64 (cast_int_to_float float32 (2 ^ 63 - 1)) = Some (inl tt).
Proof. vm_compute. repeat split. Qed.

(** float to double keeps the value, and casting back returns the same float. *)
Theorem C52_widen : forall x, valid_binary 24 128 x = true ->
  valid_binary 53 1024 (cast_float_to_float float64 x) = true /\ SF2R radix2 (cast_float_to_float float64 x) = SF2R radix2 x /\
  cast_float_to_float float32 (cast_float_to_float float64 x) = x.
Proof. exact widen. Qed.
Print Assumptions C52_widen.
(** the least positive (subnormal) float *)
Example C52_widen_ex : cast_float_to_float float64 (S754_finite true 1 (-149)) = S754_finite true 4503599627370496 (-201) /\
  cast_float_to_float float32 (S754_finite true 4503599627370496 (-201)) = S754_finite true 1 (-149).
Proof. vm_compute. auto. Qed.
