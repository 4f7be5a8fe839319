(** Floor division and modulo of floats, through Flocq. *)
From Coq Require Import Reals ZArith Lia Lra Bool.
From Coq Require Import Floats.SpecFloat.
From Flocq Require Import Core Relative BinarySingleNaN.
From Verif Require Import Base Cast_Model Cast_Spec Cast_Proofs SpecF_Real Cast_Real FloatDiv_Model.
Local Open Scope R_scope.

Section F.
Variable f : fty.
Hypothesis FT : float_types f.
Local Notation p := (f_prec f).
Local Notation M := (f_emax f).
Local Notation fexp := (SpecFloat.fexp p M).
Local Notation rnd := (round radix2 fexp ZnearestE).
Local Notation fl := (binary_float p M).
Local Instance Hp : Prec_gt_0 p. Proof using FT. exact (pgt f FT). Qed.
Local Instance HM : Prec_lt_emax p M. Proof using FT. exact (plt f FT). Qed.
Local Instance Ve : Valid_exp fexp. Proof using FT. apply (Vexp p M). exact Hp. Qed.

Lemma P1 : (1 < p)%Z.
Proof using FT. destruct FT as [-> | ->]; reflexivity. Qed.

Lemma fin_iff (b : fl) : finite (B2SF b) <-> is_finite b = true.
Proof using. destruct b; cbn; split; intros; try easy; contradiction. Qed.
Lemma isfinite_B (b : fl) : isfinite (B2SF b) = is_finite b.
Proof using. now destruct b. Qed.
Lemma is_zero (b : fl) : is_finite b = true -> (SFeqb (B2SF b) (S754_zero false) = true <-> B2R b = 0).
Proof using.
  intros Fb. pose proof (sf_eqb p M b (B754_zero false) Fb eq_refl) as E. exact E.
Qed.
Lemma signbit_B (b : fl) : is_nan b = false -> signbit (B2SF b) = Bsign b.
Proof using. now destruct b. Qed.

(** std::floor *)
Lemma floor_ok (b : fl) : is_finite b = true -> exists c : fl, ffloor f (B2SF b) = B2SF c /\ is_finite c = true /\ B2R c = IZR (Zfloor (B2R b)).
Proof using FT.
  intros Fb. destruct b as [s | s | | s m e B] eqn:EB; try discriminate.
  - exists (B754_zero s). cbn. repeat split. now rewrite Zfloor_IZR.
  - destruct (Z.leb_spec 0 e) as [E | E].
    + exists (B754_finite s m e B). cbn. destruct (Z.leb_spec 0 e); [| lia]. split; [reflexivity | split; [reflexivity |]].
      unfold F2R. cbn [Fnum Fexp]. rewrite <- IZR_Zpower by exact E. rewrite <- mult_IZR, Zfloor_IZR. reflexivity.
    + set (z := ((if s then Z.neg m else Z.pos m) / 2 ^ (- e))%Z).
      assert (ZF : Zfloor (B2R (B754_finite s m e B : fl)) = z).
      { cbn. unfold F2R. cbn [Fnum Fexp]. replace (bpow radix2 e) with (/ IZR (2 ^ (- e))).
        - change (IZR (cond_Zopp s (Z.pos m)) * / IZR (2 ^ (- e))) with (IZR (cond_Zopp s (Z.pos m)) / IZR (2 ^ (- e))).
          rewrite Zfloor_div by (pose proof (Z.pow_pos_nonneg 2 (- e)); lia). unfold z. now destruct s.
        - change (2 ^ (- e))%Z with (Zpower radix2 (- e)). rewrite IZR_Zpower, <- bpow_opp by lia. f_equal. lia. }
      assert (ZB : (Z.abs z <= 2 ^ p)%Z).
      { destruct (valid_bounds p M s m e B) as (B1 & _); [pose proof P1; lia |].
        pose proof (Z.pow_pos_nonneg 2 (- e)) as PP. unfold z.
        pose proof (Z.div_mod (if s then Z.neg m else Z.pos m) (2 ^ (- e)) ltac:(lia)) as DM. pose proof (Z.mod_pos_bound (if s then Z.neg m else Z.pos m) (2 ^ (- e)) ltac:(lia)) as MB.
        set (q := ((if s then Z.neg m else Z.pos m) / 2 ^ (- e))%Z) in *. destruct s; nia. }
      exists (binary_normalize p M Hp HM mode_NE z 0 s).
      pose proof (int_round p M Hp HM z ZB) as IR.
      destruct (normalize_int p M Hp HM z s) as [R Fi]; [rewrite IR; apply (pow_le_bpow p M Hp HM z ZB) |].
      cbn zeta in R, Fi. split; [| split; [exact Fi | rewrite R, IR, <- ZF; reflexivity]].
      cbn [ffloor B2SF]. destruct (Z.leb_spec 0 e); [lia |]. apply binary_normalize_equiv.
Qed.

Lemma div_ok (a b : fl) : is_finite a = true -> is_finite b = true -> B2R b <> 0 -> Rabs (B2R a / B2R b) <= bpow radix2 p ->
  let d := Bdiv mode_NE a b in B2R d = rnd (B2R a / B2R b) /\ is_finite d = true /\ Bsign d = xorb (Bsign a) (Bsign b).
Proof using FT.
  intros Fa Fb Nb Q d. pose proof (Bdiv_correct p M Hp HM mode_NE a b Nb) as C. cbn [round_mode] in C.
  rewrite Rlt_bool_true in C.
  - destruct C as (R & Fi & S). fold d in R, Fi, S. rewrite Fa in Fi. split; [exact R | split; [exact Fi |]].
    apply S. destruct d; try reflexivity. discriminate.
  - apply Rle_lt_trans with (bpow radix2 p); [| apply bpow_lt, (plt f FT)].
    apply abs_round_le_generic; [apply _ | apply _ | | exact Q].
    rewrite <- (IZR_Zpower radix2) by (pose proof P1; lia). apply (int_format p M Hp HM).
    change (Zpower radix2 p) with (2 ^ p)%Z. rewrite Z.abs_eq; [lia | apply Z.pow_nonneg; lia].
Qed.

Lemma int_between x : Rabs x <= bpow radix2 p -> IZR (Zfloor x) <= rnd x <= IZR (Zceil x).
Proof using FT.
  intros Q.
  assert (PZ : bpow radix2 p = IZR (2 ^ p)).
  { rewrite <- (IZR_Zpower radix2) by (pose proof P1; lia). reflexivity. }
  rewrite PZ in Q. apply Rabs_le_inv in Q.
  assert (P0 : (0 <= 2 ^ p)%Z) by (apply Z.pow_nonneg; lia).
  assert (L : (- 2 ^ p <= Zfloor x)%Z) by (apply Zfloor_lub; rewrite opp_IZR; lra).
  assert (U : (Zceil x <= 2 ^ p)%Z) by (apply Zceil_glb; lra).
  assert (LU : (Zfloor x <= Zceil x)%Z) by (apply le_IZR; apply Rle_trans with x; [apply Zfloor_lb | apply Zceil_ub]).
  split.
  - apply round_ge_generic; [apply _ | apply _ | apply (int_format p M Hp HM); lia | apply Zfloor_lb].
  - apply round_le_generic; [apply _ | apply _ | apply (int_format p M Hp HM); lia | apply Zceil_ub].
Qed.

(** Floor division of any finite floats whose quotient is not beyond the precision. *)
Lemma floordiv_near (a b : fl) : is_finite a = true -> is_finite b = true -> B2R b <> 0 -> Rabs (B2R a / B2R b) <= bpow radix2 p ->
  exists c : fl, floordiv_f f (B2SF a) (B2SF b) = inr (B2SF c) /\ is_finite c = true /\
    (B2R c = IZR (Zfloor (B2R a / B2R b)) \/
     (B2R c = IZR (Zceil (B2R a / B2R b)) /\ rnd (B2R a / B2R b) = IZR (Zceil (B2R a / B2R b)))).
Proof using FT.
  intros Fa Fb Nb Q. destruct (div_ok a b Fa Fb Nb Q) as (R & Fi & Sg). set (x := B2R a / B2R b) in *.
  pose proof (int_between x Q) as IB.
  unfold floordiv_f. rewrite (div_equiv p M Hp HM). set (d := Bdiv mode_NE a b) in *. cbn zeta in *.
  destruct (SFeqb (B2SF b) (S754_zero false)) eqn:ZB; [exfalso; apply Nb; now apply is_zero |].
  destruct (SFeqb (B2SF d) (S754_zero false)) eqn:ZD; cbn [negb].
  - apply is_zero in ZD; [| exact Fi]. rewrite R in ZD.
    assert (X1 : -1 < x < 1).
    { split.
      - apply Rnot_le_lt. intros C. assert (rnd x <= rnd (IZR (-1))) by (apply round_le; [apply _ | apply _ | exact C]).
        rewrite (int_round p M Hp HM) in H; [lra |]. change (Z.abs (-1)) with (2 ^ 0)%Z. apply Z.pow_le_mono_r; [lia |]. pose proof P1; lia.
      - apply Rnot_le_lt. intros C. assert (rnd (IZR 1) <= rnd x) by (apply round_le; [apply _ | apply _ | exact C]).
        rewrite (int_round p M Hp HM) in H; [lra |]. change (Z.abs 1) with (2 ^ 0)%Z. apply Z.pow_le_mono_r; [lia |]. pose proof P1; lia. }
    destruct (SFeqb (B2SF a) (S754_zero false)) eqn:ZA; cbn [negb andb].
    + apply is_zero in ZA; [| exact Fa]. exists d. split; [reflexivity | split; [exact Fi |]]. left. rewrite R, ZD. unfold x. rewrite ZA.
      replace (0 / B2R b) with 0 by (unfold Rdiv; ring). now rewrite Zfloor_IZR.
    + assert (NA : B2R a <> 0) by (intros E; apply is_zero in E; [congruence | exact Fa]).
      rewrite signbit_B by (destruct d; (reflexivity || discriminate)). rewrite Sg.
      assert (SGN : forall c : fl, is_finite c = true -> B2R c <> 0 -> if Bsign c then B2R c < 0 else 0 < B2R c).
      { intros [s | s | | s m e B]; intros F1 F2; try discriminate; cbn in F2; try lra. cbn.
        destruct s; unfold F2R; cbn [Fnum Fexp cond_Zopp]; pose proof (bpow_gt_0 radix2 e).
        - assert (IZR (- Z.pos m) < 0) by (apply IZR_lt; lia). nra.
        - assert (0 < IZR (Z.pos m)) by (apply IZR_lt; lia). nra. }
      pose proof (SGN a Fa NA) as SA. pose proof (SGN b Fb Nb) as SB.
      assert (XS : x * B2R b = B2R a) by (unfold x; field; exact Nb).
      destruct (xorb (Bsign a) (Bsign b)) eqn:XO.
      * assert (x < 0) by (destruct (Bsign a), (Bsign b); try discriminate; nra).
        unfold int_to_float. rewrite (binary_normalize_equiv p M Hp HM). eexists. split; [reflexivity |].
        assert (B1 : (Z.abs (-1) <= 2 ^ p)%Z) by (change (Z.abs (-1)) with (2 ^ 0)%Z; apply Z.pow_le_mono_r; [lia |]; pose proof P1; lia).
        pose proof (int_round p M Hp HM (-1) B1) as IR.
        destruct (normalize_int p M Hp HM (-1) false) as [R1 F1]; [rewrite IR; apply (pow_le_bpow p M Hp HM (-1) B1) |].
        split; [exact F1 | left]. cbn zeta in R1. rewrite R1, IR. f_equal. symmetry. apply Zfloor_imp. cbn. lra.
      * assert (0 < x) by (destruct (Bsign a), (Bsign b); try discriminate; nra).
        exists d. split; [reflexivity | split; [exact Fi | left]]. rewrite R, ZD. f_equal. symmetry. apply Zfloor_imp. cbn. lra.
  - rewrite isfinite_B, Fi. destruct (floor_ok d Fi) as (c & -> & Fc & Rc). exists c. split; [reflexivity | split; [exact Fc |]]. rewrite Rc, R.
    destruct (Rle_lt_or_eq_dec _ _ (proj2 IB)) as [LT | EQ].
    + left. f_equal. apply Zfloor_imp. split; [apply IB |]. eapply Rlt_le_trans; [exact LT |].
      apply IZR_le. destruct (Req_dec (IZR (Zfloor x)) x) as [E | E]; [rewrite <- E at 1; rewrite Zceil_IZR; lia | rewrite Zceil_floor_neq by exact E; lia].
    + right. split; [rewrite EQ, Zfloor_IZR; reflexivity | exact EQ].
Qed.

(** ** Whole numbers. *)
Lemma quot_bound (A B : Z) : B <> 0%Z -> (Z.abs A <= 2 ^ p)%Z -> Rabs (IZR A / IZR B) <= bpow radix2 p.
Proof using FT.
  intros NB HA. pose proof P1. unfold Rdiv. rewrite Rabs_mult, Rabs_inv, <- !abs_IZR.
  assert (1 <= IZR (Z.abs B)) by (apply IZR_le; lia).
  assert (/ IZR (Z.abs B) <= 1) by (rewrite <- Rinv_1; apply Rinv_le; lra).
  assert (0 < / IZR (Z.abs B)) by (apply Rinv_0_lt_compat; lra).
  assert (IZR (Z.abs A) <= bpow radix2 p) by (rewrite <- (IZR_Zpower radix2) by lia; now apply IZR_le).
  assert (0 <= IZR (Z.abs A)) by (apply IZR_le; lia). nra.
Qed.
Lemma quot_small (A B : Z) : A <> 0%Z -> B <> 0%Z -> (Z.abs B <= 2 ^ p)%Z -> bpow radix2 (- p) <= Rabs (IZR A / IZR B).
Proof using FT.
  intros NA NB HB. pose proof P1. unfold Rdiv. rewrite Rabs_mult, Rabs_inv, <- !abs_IZR.
  assert (1 <= IZR (Z.abs A)) by (apply IZR_le; lia).
  assert (1 <= IZR (Z.abs B)) by (apply IZR_le; lia).
  assert (HB' : IZR (Z.abs B) <= bpow radix2 p) by (rewrite <- (IZR_Zpower radix2) by lia; now apply IZR_le).
  rewrite bpow_opp. assert (/ bpow radix2 p <= / IZR (Z.abs B)) by (apply Rinv_le; lra).
  assert (0 < / bpow radix2 p) by (apply Rinv_0_lt_compat, bpow_gt_0). nra.
Qed.
Lemma strict (A B : Z) : B <> 0%Z -> (Z.abs A < 2 ^ p)%Z -> (Z.abs B <= 2 ^ p)%Z -> Zfloor (rnd (IZR A / IZR B)) = (A / B)%Z.
Proof using FT.
  intros NB HA HB. pose proof P1. set (x := IZR A / IZR B).
  assert (FX : Zfloor x = (A / B)%Z) by (apply Zfloor_div; exact NB).
  pose proof (int_between x ltac:(apply quot_bound; lia)) as IB. rewrite <- FX.
  destruct (Req_dec (IZR (Zfloor x)) x) as [E | E].
  - rewrite <- E at 1. rewrite (int_round p M Hp HM), Zfloor_IZR; [reflexivity |]. rewrite FX.
    pose proof (Z.div_mod A B NB). pose proof (Z.mod_bound_or A B NB). nia.
  - rewrite Zceil_floor_neq in IB by exact E. destruct (Rle_lt_or_eq_dec _ _ (proj2 IB)) as [LT | EQ]; [apply Zfloor_imp; split; [apply IB | exact LT] |].
    exfalso.
    assert (NA : A <> 0%Z) by (intros ->; apply E; unfold x, Rdiv; rewrite Rmult_0_l, Zfloor_IZR; reflexivity).
    pose proof (quot_small A B NA NB HB) as QS. fold x in QS.
    assert (REL : Rabs (rnd x - x) <= / 2 * bpow radix2 (- p + 1) * Rabs x).
    { apply (relative_error_N_FLT radix2 (3 - M - p) p Hp (fun z => negb (Z.even z)) x). eapply Rle_trans; [| exact QS]. apply bpow_le.
      destruct FT as [-> | ->]; cbn; lia. }
    assert (EQ2 : / 2 * bpow radix2 (- p + 1) = bpow radix2 (- p)) by (rewrite bpow_plus; change (bpow radix2 1) with 2; field).
    rewrite EQ2 in REL.
    (* the distance of x to the next whole number is at least 1 / |B| *)
    assert (B0 : 0 < IZR (Z.abs B)) by (apply IZR_lt; lia).
    assert (XB : x * IZR B = IZR A) by (unfold x; field; apply not_0_IZR; exact NB).
    assert (D : / IZR (Z.abs B) <= Rabs (rnd x - x)).
    { rewrite EQ. apply Rmult_le_reg_r with (IZR (Z.abs B)); [exact B0 |]. rewrite Rinv_l by lra.
      rewrite abs_IZR, <- Rabs_mult, Rmult_minus_distr_r, XB, <- mult_IZR, <- minus_IZR, <- abs_IZR. apply IZR_le.
      assert ((Zfloor x + 1) * B - A <> 0)%Z; [| lia]. intros C. apply E.
      apply Rmult_eq_reg_r with (IZR B); [| apply not_0_IZR; exact NB]. rewrite XB, <- mult_IZR. f_equal.
      pose proof (Zfloor_ub x). exfalso. apply (Rlt_irrefl (IZR A)).
      assert (x = IZR (Zfloor x + 1)).
      { apply Rmult_eq_reg_r with (IZR B); [| apply not_0_IZR; exact NB]. rewrite XB, <- mult_IZR. f_equal. lia. }
      rewrite plus_IZR in H1. lra. }
    assert (AB : Rabs x * IZR (Z.abs B) = IZR (Z.abs A)) by (rewrite !abs_IZR, <- Rabs_mult, XB; reflexivity).
    assert (ZA : IZR (Z.abs A) < bpow radix2 p) by (rewrite <- (IZR_Zpower radix2) by lia; now apply IZR_lt).
    assert (PP : bpow radix2 (- p) * bpow radix2 p = 1) by (rewrite <- bpow_plus; replace (- p + p)%Z with 0%Z by lia; reflexivity).
    pose proof (bpow_gt_0 radix2 (- p)).
    assert (1 <= bpow radix2 (- p) * IZR (Z.abs A)).
    { rewrite <- AB. rewrite <- (Rinv_l (IZR (Z.abs B))) by lra. rewrite <- Rmult_assoc. apply Rmult_le_compat_r; [lra |]. lra. }
    nra.
Qed.

Section I.
Variables (a b : fl) (A B : Z).
Hypotheses (Fa : is_finite a = true) (Fb : is_finite b = true) (Ra : B2R a = IZR A) (Rb : B2R b = IZR B) (NB : B <> 0%Z)
           (S : (Z.abs A + Z.abs B <= 2 ^ p)%Z).

Lemma floordiv_int : exists c : fl, floordiv_f f (B2SF a) (B2SF b) = inr (B2SF c) /\ is_finite c = true /\ B2R c = IZR (A / B).
Proof using FT Fa Fb Ra Rb NB S.
  assert (NRb : B2R b <> 0) by (rewrite Rb; now apply not_0_IZR).
  assert (Q : Rabs (B2R a / B2R b) <= bpow radix2 p) by (rewrite Ra, Rb; apply quot_bound; lia).
  destruct (floordiv_near a b Fa Fb NRb Q) as (c & E & Fc & V). exists c. split; [exact E | split; [exact Fc |]].
  rewrite Ra, Rb in V. rewrite Zfloor_div in V by exact NB. destruct V as [V | [V1 V2]]; [exact V |].
  rewrite V1, <- V2. pose proof (strict A B NB ltac:(lia) ltac:(lia)) as ST. rewrite V2, Zfloor_IZR in ST. rewrite V2. now rewrite ST.
Qed.

Lemma mod_int : exists c : fl, mod_f f (B2SF a) (B2SF b) = inr (B2SF c) /\ is_finite c = true /\ B2R c = IZR (A mod B).
Proof using FT Fa Fb Ra Rb NB S.
  assert (NRb : B2R b <> 0) by (rewrite Rb; now apply not_0_IZR).
  assert (Q : Rabs (B2R a / B2R b) <= bpow radix2 p) by (rewrite Ra, Rb; apply quot_bound; lia).
  destruct (div_ok a b Fa Fb NRb Q) as (R & Fi & Sg). cbn zeta in R, Fi, Sg.
  unfold mod_f. rewrite (div_equiv p M Hp HM). set (d := Bdiv mode_NE a b) in *.
  destruct (SFeqb (B2SF b) (S754_zero false)) eqn:ZB; [exfalso; apply NRb; now apply is_zero |].
  rewrite isfinite_B, Fi. rewrite Ra, Rb in R.
  assert (CP : forall c : fl, is_finite c = true -> B2R c = IZR (A mod B) ->
             exists c' : fl, copysign (B2SF c) (B2SF b) = B2SF c' /\ is_finite c' = true /\ B2R c' = IZR (A mod B)).
  { intros c Fc Rc. destruct (Z.eq_dec (A mod B) 0) as [Z0 | Z0].
    - rewrite Z0 in *. destruct c as [s | s | | s m e BB]; try discriminate.
      + exists (B754_zero (signbit (B2SF b))). repeat split.
      + exfalso. cbn in Rc. apply eq_0_F2R in Rc. destruct s; discriminate.
    - exists c. split; [| split; assumption].
      pose proof (Z.mod_bound_or A B NB) as MB.
      destruct c as [s | s | | s m e BB]; try discriminate; [cbn in Rc; apply eq_IZR in Rc; lia |].
      unfold copysign. cbn [B2SF]. f_equal.
      cbn in Rc. unfold F2R in Rc. cbn [Fnum Fexp] in Rc. pose proof (bpow_gt_0 radix2 e).
      destruct b as [s' | s' | | s' m' e' BB']; try discriminate. cbn in Rb |- *.
      unfold F2R in Rb. cbn [Fnum Fexp] in Rb. pose proof (bpow_gt_0 radix2 e').
      assert (X1 : if s then IZR (A mod B) < 0 else 0 < IZR (A mod B)).
      { rewrite <- Rc. destruct s; cbn [cond_Zopp]; [assert (IZR (- Z.pos m) < 0) by (apply IZR_lt; lia) | assert (0 < IZR (Z.pos m)) by (apply IZR_lt; lia)]; nra. }
      assert (X2 : if s' then IZR B < 0 else 0 < IZR B).
      { rewrite <- Rb. destruct s'; cbn [cond_Zopp]; [assert (IZR (- Z.pos m') < 0) by (apply IZR_lt; lia) | assert (0 < IZR (Z.pos m')) by (apply IZR_lt; lia)]; nra. }
      destruct s, s'; try reflexivity; apply lt_IZR in X1; apply lt_IZR in X2; lia. }
  enough (C : exists c : fl, (if negb (SFeqb (B2SF d) (S754_zero false)) then SFsub p M (B2SF a) (SFmul p M (ffloor f (B2SF d)) (B2SF b))
               else if SFeqb (B2SF a) (S754_zero false) || eqb (SFltb (S754_zero false) (B2SF a)) (SFltb (S754_zero false) (B2SF b)) then B2SF a else S754_infinity false) = B2SF c
            /\ is_finite c = true /\ B2R c = IZR (A mod B)).
  { destruct C as (c & E & Fc & Rc). cbv zeta. rewrite E. destruct (CP c Fc Rc) as (c' & -> & F' & R'). exists c'. auto. }
  destruct (Z.eq_dec A 0) as [A0 | A0].
  - assert (DZ : B2R d = 0).
    { rewrite R, A0. replace (0 / IZR B) with 0 by (unfold Rdiv; ring). apply round_0. apply _. }
    rewrite (proj2 (is_zero d Fi) DZ). cbn [negb].
    assert (AZ : B2R a = 0) by (now rewrite Ra, A0). rewrite (proj2 (is_zero a Fa) AZ). cbn [orb].
    exists a. split; [reflexivity | split; [exact Fa |]]. now rewrite AZ, A0, Z.mod_0_l by exact NB.
  - assert (DZ : SFeqb (B2SF d) (S754_zero false) = false).
    { apply not_true_is_false. intros C. apply is_zero in C; [| exact Fi]. rewrite R in C.
      pose proof (quot_small A B A0 NB ltac:(lia)) as QS.
      assert (bpow radix2 (- p) <= Rabs (rnd (IZR A / IZR B))).
      { apply abs_round_ge_generic; [apply _ | apply _ | | exact QS]. apply generic_format_bpow. unfold SpecFloat.fexp, emin.
        pose proof P1. assert (3 - M - p <= - p)%Z by (clear - FT; destruct FT as [-> | ->]; cbn; lia). lia. }
      rewrite C, Rabs_R0 in H. pose proof (bpow_gt_0 radix2 (- p)). lra. }
    rewrite DZ. cbn [negb]. destruct (floor_ok d Fi) as (c & -> & Fc & Rc).
    rewrite R, (strict A B NB) in Rc by lia.
    pose proof (Z.div_mod A B NB) as DM. pose proof (Z.mod_bound_or A B NB) as MB.
    assert (QB : (Z.abs (A / B * B) <= 2 ^ p)%Z) by lia.
    assert (MR : B2R c * B2R b = IZR (A / B * B)) by (now rewrite Rc, Rb, <- mult_IZR).
    rewrite (mul_equiv p M Hp HM).
    pose proof (Bmult_correct p M Hp HM mode_NE c b) as BM. cbn [round_mode] in BM. rewrite MR, (int_round p M Hp HM _ QB) in BM.
    rewrite Rlt_bool_true in BM by (apply (pow_le_bpow p M Hp HM); exact QB). destruct BM as (MV & MF & _). rewrite Fc, Fb in MF.
    rewrite (sub_equiv p M Hp HM). eexists. split; [reflexivity |].
    pose proof (Bminus_correct p M Hp HM mode_NE a (Bmult mode_NE c b) Fa MF) as BS. cbn [round_mode] in BS.
    rewrite MV, Ra, <- minus_IZR in BS. replace (A - A / B * B)%Z with (A mod B)%Z in BS by lia.
    assert (RB : (Z.abs (A mod B) <= 2 ^ p)%Z) by lia.
    rewrite (int_round p M Hp HM _ RB) in BS. rewrite Rlt_bool_true in BS by (apply (pow_le_bpow p M Hp HM); exact RB).
    destruct BS as (SV & SF & _). split; [exact SF | exact SV].
Qed.
End I.
End F.
