(** Casts to floats, through Flocq. *)
From Coq Require Import Reals ZArith Lia Lra Bool.
From Coq Require Import Floats.SpecFloat.
From Flocq Require Import Core BinarySingleNaN.
From Verif Require Import Base Cast_Model Cast_Spec Cast_Proofs SpecF_Real.
Local Open Scope R_scope.

Lemma pgt f : float_types f -> Prec_gt_0 (f_prec f).
Proof. intros [-> | ->]; reflexivity. Qed.
Lemma plt f : float_types f -> Prec_lt_emax (f_prec f) (f_emax f).
Proof. intros [-> | ->]; reflexivity. Qed.

Lemma whole_real p e (x : binary_float p e) z : is_finite x = true -> B2R x = IZR z -> integral_part (B2SF x) z.
Proof.
  destruct x as [s | s | | s m k B]; intros FX E; try discriminate; cbn in *.
  - apply eq_IZR. now rewrite <- E.
  - unfold F2R in E. cbn [Fnum Fexp] in E.
    assert (W : exists a, z = (if s then - a else a)%Z /\ IZR (Zpos m) * bpow radix2 k = IZR a).
    { destruct s.
      - exists (- z)%Z. split; [lia |]. rewrite opp_IZR, <- E. cbn [cond_Zopp]. rewrite <- Ropp_mult_distr_l_reverse, <- opp_IZR. reflexivity.
      - exists z. split; [reflexivity | exact E]. }
    destruct W as (a & -> & W). exists a. split; [| reflexivity]. clear E. split; intros K.
    + apply eq_IZR. rewrite mult_IZR, <- W. f_equal. change (2 ^ k)%Z with (Zpower radix2 k). symmetry. now apply IZR_Zpower.
    + assert (Zpos m = a * 2 ^ (- k))%Z; [| pose proof (Z.pow_pos_nonneg 2 (- k)); nia].
      apply eq_IZR. rewrite mult_IZR, <- W. change (2 ^ (- k))%Z with (Zpower radix2 (- k)). rewrite IZR_Zpower by lia.
      rewrite Rmult_assoc, <- bpow_plus. replace (k + - k)%Z with 0%Z by lia. cbn. ring.
Qed.

Lemma valid_B2SF p e (x : binary_float p e) : valid_binary p e (B2SF x) = true.
Proof. destruct x; try reflexivity. exact e1. Qed.

(** Nearest of all finite floats of the type. *)
Definition nearest (f : fty) (z : Z) (r : spec_float) : Prop :=
  finite r /\ forall y, valid_binary (f_prec f) (f_emax f) y = true -> finite y ->
    Rabs (SF2R radix2 r - IZR z) <= Rabs (SF2R radix2 y - IZR z).

Lemma int_nearest f z : float_types f -> (Z.abs z <= 2 ^ 64)%Z ->
  valid_binary (f_prec f) (f_emax f) (int_to_float f z) = true /\ nearest f z (int_to_float f z).
Proof.
  intros FT B. unfold int_to_float. rewrite (binary_normalize_equiv _ _ (pgt f FT) (plt f FT)).
  split; [apply valid_B2SF |].
  assert (EM : (64 < f_emax f)%Z) by (destruct FT as [-> | ->]; reflexivity).
  assert (G : Rabs (round radix2 (SpecFloat.fexp (f_prec f) (f_emax f)) ZnearestE (IZR z)) < bpow radix2 (f_emax f)).
  { apply Rle_lt_trans with (bpow radix2 64); [| now apply bpow_lt].
    pose proof (pgt f FT). pose proof (Vexp (f_prec f) (f_emax f) _).
    apply abs_round_le_generic; [apply _ | apply _ | |].
    - apply generic_format_bpow. unfold SpecFloat.fexp, emin. destruct FT as [-> | ->]; cbn; lia.
    - rewrite <- abs_IZR. change (bpow radix2 64) with (IZR (2 ^ 64)). now apply IZR_le. }
  destruct (normalize_int _ _ (pgt f FT) (plt f FT) z false G) as [R Fin]. cbn zeta in R, Fin.
  set (b := binary_normalize _ _ _ _ _ _ _ _) in *.
  split; [destruct b; try discriminate; exact I |]. intros y V FY.
  rewrite SF2R_B2SF, R.
  assert (Y : exists c : binary_float (f_prec f) (f_emax f), B2SF c = y) by (exists (SF2B y V); apply B2SF_SF2B).
  destruct Y as [c <-]. rewrite SF2R_B2SF.
  pose proof (Vexp (f_prec f) (f_emax f) (pgt f FT)).
  destruct (round_N_pt radix2 (SpecFloat.fexp (f_prec f) (f_emax f)) (fun x => negb (Z.even x)) (IZR z)) as [_ N]. apply N. apply generic_format_B2R.
Qed.
Lemma int_exact f z : float_types f -> (Z.abs z <= 2 ^ f_prec f)%Z -> integral_part (int_to_float f z) z /\ SF2R radix2 (int_to_float f z) = IZR z.
Proof.
  intros FT B. unfold int_to_float. rewrite (binary_normalize_equiv _ _ (pgt f FT) (plt f FT)).
  pose proof (int_round _ _ (pgt f FT) (plt f FT) z B) as E.
  assert (G : Rabs (round radix2 (SpecFloat.fexp (f_prec f) (f_emax f)) ZnearestE (IZR z)) < bpow radix2 (f_emax f)).
  { rewrite E. apply (pow_le_bpow _ _ (pgt f FT) (plt f FT)). exact B. }
  destruct (normalize_int _ _ (pgt f FT) (plt f FT) z false G) as [R Fin]. cbn zeta in R, Fin. rewrite E in R.
  split; [now apply whole_real | now rewrite SF2R_B2SF].
Qed.

(** A finite float is determined by its value, and for zero by its sign. *)
Lemma widen x : valid_binary 24 128 x = true ->
  valid_binary 53 1024 (float_to_float float64 x) = true /\ SF2R radix2 (float_to_float float64 x) = SF2R radix2 x /\
  float_to_float float32 (float_to_float float64 x) = x.
Proof.
  intros V. destruct x as [s | s | | s m e]; try (repeat split; reflexivity).
  pose (b := SF2B (S754_finite s m e) V : binary_float 24 128).
  assert (Hb : B2SF b = S754_finite s m e) by apply B2SF_SF2B.
  assert (Rb : B2R b = SF2R radix2 (S754_finite s m e)) by (rewrite <- Hb; symmetry; apply SF2R_B2SF). clearbody b.
  destruct (valid_bounds _ _ _ _ _ V ltac:(lia)) as (B1 & B2 & _).
  assert (EMX : (e <= 104)%Z).
  { pose proof V as V'. cbn in V'. unfold bounded in V'. apply andb_prop in V'. destruct V' as [_ V']. apply Z.leb_le in V'. exact V'. }
  assert (val : forall (s : bool) (m : positive) (e : Z), F2R (Float radix2 (if s then Z.neg m else Z.pos m) e) = SF2R radix2 (S754_finite s m e)) by (intros [] ? ?; reflexivity).
  assert (FMT : generic_format radix2 (SpecFloat.fexp 53 1024) (B2R b)).
  { apply (generic_format_FLT radix2 (-1074) 53). exists (Float radix2 (if s then Z.neg m else Z.pos m) e).
    - rewrite Rb. symmetry. apply val.
    - cbn [Fnum]. assert (2 ^ 24 < 2 ^ 53)%Z by reflexivity. change (radix2 ^ 53)%Z with (2 ^ 53)%Z. destruct s; cbn [Z.abs]; lia.
    - cbn [Fexp]. lia. }
  assert (BND : Rabs (B2R b) < bpow radix2 128) by apply abs_B2R_lt_emax.
  cbn [float_to_float f_prec f_emax float64]. rewrite (binary_normalize_equiv 53 1024 eq_refl eq_refl).
  pose proof (binary_normalize_correct 53 1024 eq_refl eq_refl mode_NE (if s then Z.neg m else Z.pos m) e s) as C. cbn zeta in C.
  rewrite val, <- Rb in C. cbn [round_mode] in C.
  rewrite round_generic in C by (first [apply _ | exact FMT]).
  rewrite Rlt_bool_true in C by (eapply Rlt_trans; [exact BND | now apply bpow_lt]).
  set (c := binary_normalize 53 1024 _ _ _ _ _ _) in *. destruct C as (RC & FC & SC).
  split; [apply valid_B2SF | split; [now rewrite SF2R_B2SF, RC, Rb |]].
  assert (NZ : B2R b <> 0).
  { rewrite Rb, <- val. intros Z. apply eq_0_F2R in Z. cbn in Z. destruct s; discriminate. }
  destruct c as [s' | s' | | s' m' e' B'] eqn:EC; try discriminate; [cbn in RC; congruence |].
  cbn [B2SF float_to_float f_prec f_emax float32]. rewrite (binary_normalize_equiv 24 128 eq_refl eq_refl).
  rewrite <- Hb. f_equal.
  pose proof (binary_normalize_correct 24 128 eq_refl eq_refl mode_NE (if s' then Z.neg m' else Z.pos m') e' s') as D. cbn zeta in D.
  replace (F2R (Float radix2 (if s' then Z.neg m' else Z.pos m') e')) with (B2R b) in D by (rewrite <- RC; now destruct s').
  cbn [round_mode] in D.
  rewrite round_generic in D by (first [apply _ | apply generic_format_B2R]).
  rewrite Rlt_bool_true in D by exact BND. destruct D as (RD & FD & SD).
  apply B2R_inj; [| | exact RD].
  - rewrite is_finite_strict_B2R by (rewrite RD; exact NZ). reflexivity.
  - rewrite is_finite_strict_B2R by exact NZ. reflexivity.
Qed.
