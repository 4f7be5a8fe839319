(** The arithmetic of Coq.Floats.SpecFloat in terms of the reals, for every format, through Flocq. *)
From Coq Require Import Reals ZArith Lia Lra Bool.
From Coq Require Import Floats.SpecFloat.
From Flocq Require Import Core BinarySingleNaN.
Local Open Scope R_scope.

Section S.
Variables prec emax : Z.
Context (Hprec : Prec_gt_0 prec) (Hmax : Prec_lt_emax prec emax).
Local Notation fexp := (SpecFloat.fexp prec emax).
Local Notation F := (generic_format radix2 fexp).
Local Notation rnd := (round radix2 fexp ZnearestE).
Local Instance Vexp : Valid_exp fexp. Proof using Hprec. apply (fexp_correct prec emax). exact Hprec. Qed.

(** ** The operations are those of Flocq. *)
Lemma round_nearest_even_equiv s m l : round_nearest_even m l = choice_mode mode_NE s m l.
Proof using.
  case l; [reflexivity | intro c]. case c; [| reflexivity ..].
  now simpl; unfold Round.cond_incr; case Z.even.
Qed.
Lemma binary_round_aux_equiv sx mx ex lx :
  SpecFloat.binary_round_aux prec emax sx mx ex lx = binary_round_aux prec emax mode_NE sx mx ex lx.
Proof using.
  unfold SpecFloat.binary_round_aux, binary_round_aux. set (mrse' := shr_fexp _ _ _ _ _).
  case mrse'; intros mrs' e'; simpl. now rewrite (round_nearest_even_equiv sx).
Qed.
Lemma binary_round_equiv s m e : SpecFloat.binary_round prec emax s m e = binary_round prec emax mode_NE s m e.
Proof using.
  unfold SpecFloat.binary_round, binary_round, shl_align_fexp.
  set (mez := shl_align _ _ _); case mez as [mz ez]. apply binary_round_aux_equiv.
Qed.
Lemma binary_normalize_equiv m e szero :
  SpecFloat.binary_normalize prec emax m e szero = B2SF (binary_normalize prec emax Hprec Hmax mode_NE m e szero).
Proof using. case m as [| p | p]; [now simpl | |]; simpl; rewrite B2SF_SF2B; apply binary_round_equiv. Qed.
Lemma add_equiv (x y : binary_float prec emax) : SFadd prec emax (B2SF x) (B2SF y) = B2SF (Bplus mode_NE x y).
Proof using.
  case x as [sx | sx | | sx mx ex Bx]; case y as [sy | sy | | sy my ey By];
    [now (trivial || simpl; case Bool.eqb) .. |].
  apply binary_normalize_equiv.
Qed.
Lemma sub_equiv (x y : binary_float prec emax) : SFsub prec emax (B2SF x) (B2SF y) = B2SF (Bminus mode_NE x y).
Proof using.
  case x as [sx | sx | | sx mx ex Bx]; case y as [sy | sy | | sy my ey By];
    [now (trivial || simpl; case Bool.eqb || case sx; case sy) .. |].
  cbn [SFsub B2SF Bminus]. cbv zeta. rewrite <- binary_normalize_equiv. f_equal. unfold Fplus_naive. now destruct sy.
Qed.
Lemma mul_equiv (x y : binary_float prec emax) : SFmul prec emax (B2SF x) (B2SF y) = B2SF (Bmult mode_NE x y).
Proof using.
  case x as [sx | sx | | sx mx ex Bx]; case y as [sy | sy | | sy my ey By];
    [now (trivial || simpl; case Bool.eqb) .. |].
  simpl. rewrite B2SF_SF2B. apply binary_round_aux_equiv.
Qed.
Lemma div_equiv (x y : binary_float prec emax) : SFdiv prec emax (B2SF x) (B2SF y) = B2SF (Bdiv mode_NE x y).
Proof using.
  case x as [sx | sx | | sx mx ex Bx]; case y as [sy | sy | | sy my ey By];
    [now (trivial || simpl; case Bool.eqb) .. |].
  simpl. rewrite B2SF_SF2B. set (melz := SFdiv_core_binary _ _ _ _ _ _).
  case melz as [[mz ez] lz]. apply binary_round_aux_equiv.
Qed.

(** ** Whole numbers. *)
Lemma int_format z : (Z.abs z <= 2 ^ prec)%Z -> F (IZR z).
Proof using Hprec Hmax.
  intros H. assert (E : (3 - emax - prec <= 0)%Z) by (red in Hprec, Hmax; lia).
  destruct (Z.eq_dec (Z.abs z) (2 ^ prec)) as [A | A].
  - assert (B : F (bpow radix2 prec)).
    { apply generic_format_bpow. unfold SpecFloat.fexp, emin. red in Hprec. lia. }
    rewrite <- (IZR_Zpower radix2) in B by (red in Hprec; lia). change (Zpower radix2 prec) with (2 ^ prec)%Z in B.
    destruct (Zabs_spec z) as [[_ Z] | [_ Z]].
    + now rewrite <- Z, A.
    + replace (IZR z) with (- IZR (Z.abs z))%R by (rewrite Z, opp_IZR; ring). rewrite A. now apply generic_format_opp.
  - apply (generic_format_FLT radix2 (3 - emax - prec) prec). exists (Float radix2 z 0).
    + unfold F2R. cbn. ring.
    + cbn. lia.
    + cbn. exact E.
Qed.
Lemma int_round z : (Z.abs z <= 2 ^ prec)%Z -> rnd (IZR z) = IZR z.
Proof using Hprec Hmax. intros H. apply round_generic; [apply _ | now apply int_format]. Qed.

Lemma normalize_int z s : Rabs (rnd (IZR z)) < bpow radix2 emax ->
  let B := binary_normalize prec emax Hprec Hmax mode_NE z 0 s in B2R B = rnd (IZR z) /\ is_finite B = true.
Proof using.
  intros H B. pose proof (binary_normalize_correct prec emax Hprec Hmax mode_NE z 0 s) as C. cbn zeta in C.
  assert (E : F2R (Float radix2 z 0) = IZR z) by (unfold F2R; cbn; ring). rewrite E in C. cbn [round_mode] in C.
  rewrite Rlt_bool_true in C by exact H. tauto.
Qed.
Lemma pow_le_bpow z : (Z.abs z <= 2 ^ prec)%Z -> Rabs (IZR z) < bpow radix2 emax.
Proof using Hprec Hmax.
  intros H. rewrite <- abs_IZR. apply Rle_lt_trans with (bpow radix2 prec).
  - rewrite <- (IZR_Zpower radix2) by (red in Hprec; lia). now apply IZR_le.
  - apply bpow_lt. exact Hmax.
Qed.

(** ** Order. *)
Lemma sf_leb (x y : binary_float prec emax) : is_finite x = true -> is_finite y = true ->
  (SFleb (B2SF x) (B2SF y) = true <-> B2R x <= B2R y).
Proof using.
  intros. change (SFleb (B2SF x) (B2SF y)) with (Bleb x y). rewrite Bleb_correct by assumption.
  destruct (Rle_bool_spec (B2R x) (B2R y)); split; intros; try easy; lra.
Qed.
Lemma sf_ltb (x y : binary_float prec emax) : is_finite x = true -> is_finite y = true ->
  (SFltb (B2SF x) (B2SF y) = true <-> B2R x < B2R y).
Proof using.
  intros. change (SFltb (B2SF x) (B2SF y)) with (Bltb x y). rewrite Bltb_correct by assumption.
  destruct (Rlt_bool_spec (B2R x) (B2R y)); split; intros; try easy; lra.
Qed.
Lemma sf_eqb (x y : binary_float prec emax) : is_finite x = true -> is_finite y = true ->
  (SFeqb (B2SF x) (B2SF y) = true <-> B2R x = B2R y).
Proof using.
  intros. change (SFeqb (B2SF x) (B2SF y)) with (Beqb x y). rewrite Beqb_correct by assumption.
  destruct (Req_bool_spec (B2R x) (B2R y)); split; intros; try easy.
Qed.
End S.
