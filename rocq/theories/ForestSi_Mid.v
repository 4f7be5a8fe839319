(** The midpoint of two floats that have a float between them is strictly between them.
    This is the only file that uses Flocq and the real numbers. *)
From Coq Require Import Reals ZArith Lia Lra Bool.
From Coq Require Import Floats.SpecFloat.
From Flocq Require Import Core Plus_error BinarySingleNaN.
Local Open Scope R_scope.

Local Notation prec := 24%Z.
Local Notation emax := 128%Z.
Local Notation emin := (-149)%Z.
Local Notation fexp := (SpecFloat.fexp prec emax).
Local Notation F := (generic_format radix2 fexp).
Local Notation rnd := (round radix2 fexp ZnearestE).
Local Instance Hprec : Prec_gt_0 prec. Proof. now unfold Prec_gt_0. Qed.
Local Instance Hmax : Prec_lt_emax prec emax. Proof. now unfold Prec_lt_emax. Qed.
Local Instance Hexp : Valid_exp fexp. Proof. apply (fexp_correct prec emax). exact Hprec. Qed.
Local Instance Hmono : Monotone_exp fexp. Proof. apply (fexp_monotone prec emax). Qed.

Lemma fexp_FLT e : fexp e = FLT_exp emin prec e.
Proof. reflexivity. Qed.

(** ** The real number fact. *)
Lemma nearest x t : F t -> Rabs (rnd x - x) <= Rabs (t - x).
Proof.
  intros Ht. destruct (round_N_pt radix2 fexp (fun x => negb (Z.even x)) x) as [_ H]. now apply H.
Qed.
Lemma half_format x : F x -> bpow radix2 (emin + prec) <= Rabs x -> F (x / 2).
Proof.
  intros Hx Hb. apply (FLT_format_generic radix2 emin prec) in Hx. destruct Hx as [[m e] -> Hm He].
  cbn in Hm, He. apply (generic_format_FLT radix2 emin prec).
  exists (Float radix2 m (e - 1)).
  - unfold F2R; cbn -[bpow]. unfold Rdiv. rewrite Rmult_assoc. f_equal.
    replace (/ 2) with (bpow radix2 (-1)) by reflexivity. rewrite <- bpow_plus. f_equal.
  - exact Hm.
  - cbn. destruct (Z.eq_dec e emin) as [-> | Hne]; [| lia]. exfalso.
    revert Hb. unfold F2R; cbn -[bpow]. rewrite Rabs_mult, (Rabs_pos_eq (bpow _ _)) by apply bpow_ge_0.
    rewrite <- abs_IZR. change (-125)%Z with (prec + emin)%Z. rewrite bpow_plus. intros Hb.
    apply Rmult_le_reg_r in Hb; [| apply bpow_gt_0].
    replace (bpow radix2 prec) with (IZR (2 ^ prec)) in Hb by reflexivity.
    apply le_IZR in Hb. change (radix2 ^ prec)%Z with (2 ^ 24)%Z in Hm. lia.
Qed.
Lemma rnd_big x : bpow radix2 (emin + prec) <= Rabs x -> bpow radix2 (emin + prec) <= Rabs (rnd x).
Proof.
  intros H. apply abs_round_ge_generic; [apply _ | apply _ | apply generic_format_bpow; unfold SpecFloat.fexp; cbn; lia | exact H].
Qed.
Lemma middle_real l v r : F l -> F v -> F r -> l < v -> v < r -> l < rnd (rnd (l + r) / 2) < r.
Proof.
  intros Hl Hv Hr H1 H2.
  set (x := rnd (l + r)). set (y := rnd (x / 2)).
  assert (Hx : F x) by (apply generic_format_round; apply _).
  destruct (Rle_lt_dec (bpow radix2 (emin + prec)) (Rabs (l + r))) as [Hb | Hb].
  - assert (Hy : y = x / 2).
    { apply round_generic; [apply _ |]. apply half_format; [exact Hx | apply rnd_big, Hb]. }
    assert (F2v : F (2 * v)).
    { apply (FLT_format_generic radix2 emin prec) in Hv. destruct Hv as [[m e] -> Hm He].
      cbn in Hm, He. apply (generic_format_FLT radix2 emin prec).
      exists (Float radix2 m (e + 1)).
      - unfold F2R; cbn -[bpow]. rewrite bpow_plus. replace (bpow radix2 1) with 2 by reflexivity. ring.
      - exact Hm.
      - cbn. lia. }
    pose proof (nearest (l + r) (2 * v) F2v) as N. fold x in N. rewrite Hy.
    split; apply Rnot_le_lt; intros Hc; revert N; unfold Rabs; destruct (Rcase_abs _), (Rcase_abs _); lra.
  - assert (Hs : x = l + r).
    { apply round_generic; [apply _ |]. apply (FLT_format_plus_small radix2 emin prec); auto.
      rewrite Z.add_comm. now apply Rlt_le. }
    pose proof (nearest (x / 2) v Hv) as N. fold y in N. rewrite Hs in N.
    split; apply Rnot_le_lt; intros Hc; revert N; unfold Rabs; destruct (Rcase_abs _), (Rcase_abs _); lra.
Qed.

(** ** The operations of SpecFloat are those of Flocq. *)
Lemma round_nearest_even_equiv s m l : round_nearest_even m l = choice_mode mode_NE s m l.
Proof.
  case l; [reflexivity | intro c]. case c; [| reflexivity ..].
  now simpl; unfold Round.cond_incr; case Z.even.
Qed.
Lemma binary_round_aux_equiv sx mx ex lx :
  SpecFloat.binary_round_aux prec emax sx mx ex lx = binary_round_aux prec emax mode_NE sx mx ex lx.
Proof.
  unfold SpecFloat.binary_round_aux, binary_round_aux. set (mrse' := shr_fexp _ _ _ _ _).
  case mrse'; intros mrs' e'; simpl. now rewrite (round_nearest_even_equiv sx).
Qed.
Lemma binary_round_equiv s m e : SpecFloat.binary_round prec emax s m e = binary_round prec emax mode_NE s m e.
Proof.
  unfold SpecFloat.binary_round, binary_round, shl_align_fexp.
  set (mez := shl_align _ _ _); case mez as [mz ez]. apply binary_round_aux_equiv.
Qed.
Lemma binary_normalize_equiv m e szero :
  SpecFloat.binary_normalize prec emax m e szero = B2SF (binary_normalize prec emax Hprec Hmax mode_NE m e szero).
Proof.
  case m as [| p | p]; [now simpl | |]; simpl; rewrite B2SF_SF2B; apply binary_round_equiv.
Qed.
Lemma add_equiv (x y : binary_float prec emax) :
  SFadd prec emax (B2SF x) (B2SF y) = B2SF (Bplus mode_NE x y).
Proof.
  case x as [sx | sx | | sx mx ex Bx]; case y as [sy | sy | | sy my ey By];
    [now (trivial || simpl; case Bool.eqb) .. |].
  apply binary_normalize_equiv.
Qed.
Lemma div_equiv (x y : binary_float prec emax) :
  SFdiv prec emax (B2SF x) (B2SF y) = B2SF (Bdiv mode_NE x y).
Proof.
  case x as [sx | sx | | sx mx ex Bx]; case y as [sy | sy | | sy my ey By];
    [now (trivial || simpl; case Bool.eqb) .. |].
  simpl. rewrite B2SF_SF2B. set (melz := SFdiv_core_binary _ _ _ _ _ _).
  case melz as [[mz ez] lz]. apply binary_round_aux_equiv.
Qed.

(** ** The statement about data. *)
(** 2, the quotient (l + r) / 2, and 2^127. *)
Definition two : spec_float := S754_finite false 8388608 (-22).
Definition half_sum (l r : spec_float) : spec_float := SFdiv prec emax (SFadd prec emax l r) two.
Definition big : spec_float := S754_finite false 8388608 104.

Lemma middle_float l v r :
  valid_binary prec emax l = true -> valid_binary prec emax v = true -> valid_binary prec emax r = true ->
  SFltb (SFabs l) big = true -> SFltb (SFabs r) big = true ->
  SFltb l v = true -> SFltb v r = true ->
  SFltb l (half_sum l r) = true /\ SFltb (half_sum l r) r = true.
Proof.
  intros Vl Vv Vr Bl Br Hlv Hvr.
  rewrite <- (B2SF_SF2B _ _ l Vl), <- (B2SF_SF2B _ _ r Vr), <- (B2SF_SF2B _ _ v Vv) in *.
  set (L := SF2B l Vl) in *. set (W := SF2B v Vv) in *. set (R := SF2B r Vr) in *.
  clearbody L W R. clear l v r Vl Vv Vr.
  assert (fin : forall X : binary_float prec emax, SFltb (SFabs (B2SF X)) big = true -> is_finite X = true /\ Rabs (B2R X) < bpow radix2 127).
  { intros X HX.
    assert (Hb : exists B : binary_float prec emax, B2SF B = big /\ B2R B = bpow radix2 127 /\ is_finite B = true).
    { exists (B754_finite false 8388608 104 (eq_refl : bounded prec emax 8388608 104 = true)).
      split; [reflexivity | split; [| reflexivity]]. cbn -[bpow]. unfold F2R; cbn -[bpow].
      replace 8388608 with (bpow radix2 23) by (cbn; lra). rewrite <- bpow_plus. reflexivity. }
    destruct Hb as (B & Eb & Rb & Fb).
    assert (FX : is_finite X = true).
    { destruct X as [s | s | | s m e HX']; try reflexivity; cbn in HX; discriminate. }
    split; [exact FX |].
    rewrite <- B2R_Babs, <- Rb.
    assert (E : SFltb (B2SF (Babs X)) (B2SF B) = true) by (rewrite Eb; destruct X; exact HX).
    change (Bltb (Babs X) B = true) in E. rewrite Bltb_correct in E; [| now rewrite is_finite_Babs | exact Fb].
    destruct (Rlt_bool_spec (B2R (Babs X)) (B2R B)); [assumption | discriminate]. }
  destruct (fin L Bl) as [FL AL]. destruct (fin R Br) as [FR AR].
  assert (FW : is_finite W = true).
  { destruct W as [s | s | | s m e HW]; try reflexivity; exfalso.
    - destruct s; [destruct L as [s' | s' | | s' m' e' H']; try discriminate; cbn in Hlv; now destruct s' |
                   destruct R as [s' | s' | | s' m' e' H']; try discriminate; cbn in Hvr; now destruct s'].
    - now destruct (B2SF L). }
  assert (ltR : forall X Y : binary_float prec emax, is_finite X = true -> is_finite Y = true ->
            (SFltb (B2SF X) (B2SF Y) = true <-> B2R X < B2R Y)).
  { intros X Y FX FY. change (SFltb (B2SF X) (B2SF Y)) with (Bltb X Y). rewrite Bltb_correct by assumption.
    destruct (Rlt_bool_spec (B2R X) (B2R Y)); split; intros; try easy; lra. }
  apply ltR in Hlv; [| assumption ..]. apply ltR in Hvr; [| assumption ..].
  pose proof (middle_real (B2R L) (B2R W) (B2R R) (generic_format_B2R _ _ _) (generic_format_B2R _ _ _) (generic_format_B2R _ _ _) Hlv Hvr) as Hm.
  assert (B128 : bpow radix2 128 = 2 * bpow radix2 127).
  { change 128%Z with (1 + 127)%Z. rewrite bpow_plus. reflexivity. }
  assert (Gap : forall X : binary_float prec emax, is_finite X = true -> Rabs (B2R X) < bpow radix2 127 -> Rabs (B2R X) <= bpow radix2 127 - bpow radix2 103).
  { intros X FX HX. rewrite <- B2R_Babs in HX |- *.
    assert (Hp : bpow radix2 127 - bpow radix2 103 = pred radix2 fexp (bpow radix2 127)).
    { rewrite pred_bpow. reflexivity. }
    rewrite Hp. apply pred_ge_gt; [apply _ | apply generic_format_B2R | apply generic_format_bpow; unfold SpecFloat.fexp; cbn; lia | exact HX]. }
  apply (Gap L FL) in AL. apply (Gap R FR) in AR.
  assert (Small : Rabs (rnd (B2R L + B2R R)) < bpow radix2 emax).
  { apply Rle_lt_trans with (2 * (bpow radix2 127 - bpow radix2 103)).
    - apply abs_round_le_generic; [apply _ | apply _ | |].
      + replace (2 * (bpow radix2 127 - bpow radix2 103)) with (bpow radix2 128 - bpow radix2 104).
        * replace (bpow radix2 128 - bpow radix2 104) with (F2R (Float radix2 (2 ^ 24 - 1) 104)).
          { apply generic_format_FLT with (emin := emin) (prec := prec).
            exists (Float radix2 (2 ^ 24 - 1) 104); [reflexivity | cbn; lia | cbn; lia]. }
          unfold F2R; cbn [Fnum Fexp]. rewrite minus_IZR. change (IZR (2 ^ 24)) with (bpow radix2 24).
          rewrite Rmult_minus_distr_r, <- bpow_plus, Rmult_1_l. reflexivity.
        * rewrite B128. change 104%Z with (1 + 103)%Z. rewrite bpow_plus. change (bpow radix2 1) with 2. ring.
      + eapply Rle_trans; [apply Rabs_triang |]. lra.
    - change emax with 128%Z. rewrite B128. pose proof (bpow_gt_0 radix2 103). lra. }
  pose proof (Bplus_correct prec emax Hprec Hmax mode_NE L R FL FR) as P. cbn [round_mode] in P.
  rewrite (Rlt_bool_true _ _ Small) in P. destruct P as (PR & PF & _).
  pose (T := B754_finite false 8388608 (-22) (eq_refl : bounded prec emax 8388608 (-22) = true) : binary_float prec emax).
  assert (TR : B2R T = 2).
  { unfold T. cbn -[bpow]. unfold F2R; cbn -[bpow]. replace 8388608 with (bpow radix2 23) by (cbn; lra). rewrite <- bpow_plus. reflexivity. }
  assert (TN : B2R T <> 0) by (rewrite TR; lra).
  pose proof (Bdiv_correct prec emax Hprec Hmax mode_NE (Bplus mode_NE L R) T TN) as D. cbn [round_mode] in D.
  rewrite PR, TR in D.
  rewrite Rlt_bool_true in D.
  2:{ apply Rle_lt_trans with (Rmax (Rabs (B2R L)) (Rabs (B2R R))).
      - destruct Hm as [Hm1 Hm2]. unfold Rmax. destruct (Rle_dec _ _); unfold Rabs in *; repeat destruct (Rcase_abs _); lra.
      - rewrite B128. pose proof (bpow_gt_0 radix2 103). pose proof (bpow_gt_0 radix2 127). apply Rmax_lub_lt; lra. }
  destruct D as (DR & DF & _). rewrite PF in DF.
  unfold half_sum. change two with (B2SF T). rewrite add_equiv, div_equiv.
  split; apply ltR; try assumption; rewrite DR; apply Hm.
Qed.
