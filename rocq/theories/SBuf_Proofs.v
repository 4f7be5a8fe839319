From Verif Require Import Base GroupOps_Model Arena_Model SBuf_Model SBuf_Spec.
From Verif Require Arena_Proofs.
Local Open Scope Z_scope.

(** ** Rows *)
Definition row (chars : list Z) (base : Z) (o : Z * Z) (v : list Z) : Prop :=
  exists a c, chars = a ++ v ++ c /\ fst o = base + zlen a /\ snd o = fst o + zlen v.
Definition rows (b : sbuf) (l : list (list Z)) : Prop := Forall2 (row (s_chars b) (s_base b)) (s_offs b) l.

Lemma zlen_nonneg {A} (l : list A) : 0 <= zlen l.
Proof. unfold zlen. lia. Qed.
Lemma zlen_app {A} (a b : list A) : zlen (a ++ b) = zlen a + zlen b.
Proof. unfold zlen. rewrite app_length. lia. Qed.
Lemma zslice_mid {A} (a v c : list A) : zslice (a ++ v ++ c) (zlen a) (zlen v) = Some v.
Proof.
  unfold zslice. destruct (Z.eqb_spec (zlen v) 0) as [E|E].
  - destruct v; [reflexivity|]. unfold zlen in E. cbn in E. lia.
  - rewrite !zlen_app. pose proof (zlen_nonneg a). pose proof (zlen_nonneg c). pose proof (zlen_nonneg v).
    replace ((0 <=? zlen a) && (0 <=? zlen v) && (zlen a + zlen v <=? zlen a + (zlen v + zlen c))) with true by lia.
    unfold zlen. rewrite !Nat2Z.id. rewrite skipn_app, Nat.sub_diag, skipn_all. cbn [app skipn].
    rewrite firstn_app, Nat.sub_diag, firstn_all. cbn [firstn]. rewrite app_nil_r. reflexivity.
Qed.
Lemma zslice_inv {A} (l : list A) off n v : zslice l off n = Some v -> n <> 0 ->
  exists a c, l = a ++ v ++ c /\ zlen a = off /\ zlen v = n.
Proof.
  unfold zslice. destruct (Z.eqb_spec n 0) as [E|E]; [contradiction|]. intros H _. destruct (_ && _) eqn:B; [|discriminate].
  inversion H; subst. clear H. assert (0 <= off /\ 0 <= n /\ off + n <= zlen l) as (H1 & H2 & H3) by lia. unfold zlen in *.
  exists (firstn (Z.to_nat off) l), (skipn (Z.to_nat n) (skipn (Z.to_nat off) l)).
  rewrite firstn_skipn, firstn_skipn. split; [reflexivity|]. rewrite !firstn_length, skipn_length. lia.
Qed.
Lemma zslice_ok {A} (l : list A) off n : 0 <= off -> 0 <= n -> off + n <= zlen l ->
  exists a v c, l = a ++ v ++ c /\ zlen a = off /\ zlen v = n /\ zslice l off n = Some v.
Proof.
  intros H1 H2 H3. unfold zlen in *.
  set (a := firstn (Z.to_nat off) l). set (v := firstn (Z.to_nat n) (skipn (Z.to_nat off) l)). set (c := skipn (Z.to_nat n) (skipn (Z.to_nat off) l)).
  assert (E : l = a ++ v ++ c) by (unfold a, v, c; rewrite !firstn_skipn; reflexivity).
  assert (La : Z.of_nat (length a) = off) by (unfold a; rewrite firstn_length; lia).
  assert (Lv : Z.of_nat (length v) = n) by (unfold v; rewrite firstn_length, skipn_length; lia).
  exists a, v, c. split; [exact E|]. split; [exact La|]. split; [exact Lv|]. rewrite E, <- La, <- Lv. apply zslice_mid.
Qed.

Lemma rd_Forall2 {A B} (R : A -> B -> Prop) l m i y : Forall2 R l m -> rd m i = Some y -> exists x, rd l i = Some x /\ R x y.
Proof.
  intros H. revert i. induction H as [|a b l m Hab H IH]; intros [|i] E; try discriminate; cbn in *.
  - inversion E; subst. eauto.
  - apply IH, E.
Qed.
Lemma Forall2_len {A B} (R : A -> B -> Prop) l m : Forall2 R l m -> length l = length m.
Proof. induction 1; cbn; congruence. Qed.
Lemma Forall2_rd {A B} (R : A -> B -> Prop) : forall l m, length l = length m ->
  (forall i x y, rd l i = Some x -> rd m i = Some y -> R x y) -> Forall2 R l m.
Proof.
  induction l as [|a l IH]; intros [|b m] H1 H2; try discriminate; constructor.
  - apply (H2 0%nat); reflexivity.
  - apply IH; [cbn in H1; lia|]. intros i x y. apply (H2 (S i)).
Qed.

Lemma rows_holds b l : rows b l -> holds b l /\ valid b.
Proof.
  intros H. split.
  - split; [eapply Forall2_len, H|]. intros i v E. destruct (rd_Forall2 _ _ _ _ _ H E) as ([s e] & E1 & (a & c & E2 & E3 & E4)).
    unfold s_get. rewrite E1. cbn [bind]. cbn [fst snd] in *. rewrite E2. replace (s - s_base b) with (zlen a) by lia. replace (e - s) with (zlen v) by lia. apply zslice_mid.
  - unfold valid. clear -H. unfold rows in H. induction H as [|o v l m (a & c & E2 & E3 & E4) H IH]; constructor; [|exact IH].
    rewrite E2, !zlen_app. pose proof (zlen_nonneg a). pose proof (zlen_nonneg v). pose proof (zlen_nonneg c). lia.
Qed.
Lemma holds_rows b l : holds b l -> valid b -> rows b l.
Proof.
  intros [H1 H2] V. apply Forall2_rd; [exact H1|]. intros i [s e] v E1 E2. specialize (H2 i v E2). unfold s_get in H2. rewrite E1 in H2. cbn [bind] in H2.
  unfold valid in V. rewrite Forall_forall in V. specialize (V (s, e) ltac:(eapply nth_error_In, E1)). cbn [fst snd] in V.
  destruct (Z.eq_dec (e - s) 0) as [Z|Z].
  - unfold zslice in H2. rewrite Z in H2. cbn in H2. inversion H2; subst.
    destruct (zslice_ok (s_chars b) (s - s_base b) 0) as (a & v & c & K1 & K2 & K3 & K4); [lia|lia|lia|].
    destruct v; [|unfold zlen in K3; cbn in K3; lia]. exists a, c. cbn [fst snd]. unfold zlen at 2. cbn. split; [exact K1|lia].
  - destruct (zslice_inv _ _ _ _ H2 Z) as (a & c & K1 & K2 & K3). exists a, c. cbn [fst snd]. split; [exact K1|lia].
Qed.
Lemma valid_rows b : valid b -> exists l, rows b l.
Proof.
  destruct b as [os cs base]. unfold valid, rows. cbn [s_offs s_chars s_base]. induction 1 as [|[s e] os H V [l IH]]; [exists []; constructor|].
  cbn [fst snd] in H. destruct (zslice_ok cs (s - base) (e - s)) as (a & v & c & K1 & K2 & K3 & _); [lia|lia|lia|].
  exists (v :: l). constructor; [|exact IH]. exists a, c. cbn [fst snd]. split; [exact K1|lia].
Qed.
Lemma s_ok_valid b : valid b -> s_ok b = true.
Proof.
  intros V. unfold s_ok. apply forallb_forall. unfold valid in V. rewrite Forall_forall in V. intros o Ho. specialize (V o Ho). lia.
Qed.
Lemma holds_fun b l l' : holds b l -> holds b l' -> l = l'.
Proof.
  intros [H1 H2] [H3 H4]. apply list_eq_rd. intros i. destruct (Nat.lt_ge_cases i (length l)).
  - destruct (rd_lt l i) as [x Ex]; [lia|]. destruct (rd_lt l' i) as [y Ey]; [lia|]. specialize (H2 _ _ Ex). specialize (H4 _ _ Ey). congruence.
  - rewrite !(proj2 (rd_None_ge _ _)); [reflexivity|lia|lia].
Qed.

(** ** Slices, copies, comparison *)
Lemma Forall2_app_mid {A B} (R : A -> B -> Prop) a v c m : Forall2 R (a ++ v ++ c) m ->
  exists a' v' c', m = a' ++ v' ++ c' /\ length a' = length a /\ length v' = length v /\ Forall2 R v v'.
Proof.
  intros H. apply Forall2_app_inv_l in H as (a' & m1 & Ha & H & ->). apply Forall2_app_inv_l in H as (v' & c' & Hv & Hc & ->).
  exists a', v', c'. split; [reflexivity|]. apply Forall2_len in Ha. split; [auto|]. split; [symmetry; eapply Forall2_len, Hv|exact Hv].
Qed.
Lemma slice_rows b l off n : rows b l -> 0 <= off -> 0 <= n -> off + n <= zlen l ->
  exists b' v, s_slice b off n = Some b' /\ zslice l off n = Some v /\ rows b' v.
Proof.
  intros H H1 H2 H3. unfold s_slice. destruct (Z.eqb_spec n 0) as [->|N].
  - exists s_empty, []. split; [reflexivity|]. split; [reflexivity|constructor].
  - assert (L : zlen (s_offs b) = zlen l) by (unfold zlen; rewrite (Forall2_len _ _ _ H); reflexivity).
    destruct (zslice_ok (s_offs b) off n) as (a & v & c & K1 & K2 & K3 & K4); [lia|lia|lia|]. rewrite K4. cbn [bind].
    unfold rows in H. rewrite K1 in H. apply Forall2_app_mid in H as (a' & v' & c' & E & La & Lv & Hv).
    eexists _, v'. split; [reflexivity|]. split; [|exact Hv]. rewrite E. unfold zlen in K2, K3.
    replace off with (zlen a') by (unfold zlen; lia). replace n with (zlen v') by (unfold zlen; lia). apply zslice_mid.
Qed.

Definition mm (a o : Z * Z) : Z * Z := (Z.min (fst a) (fst o), Z.max (snd a) (snd o)).
Lemma mm_bounds t : forall p, let r := fold_left mm t p in
  (forall o, In o (p :: t) -> fst r <= fst o /\ snd o <= snd r) /\
  (exists o, In o (p :: t) /\ fst o = fst r) /\ (exists o, In o (p :: t) /\ snd o = snd r).
Proof.
  induction t as [|x t IH]; intros p; cbn [fold_left].
  - split; [intros o [<-|[]]; lia|]. split; exists p; split; cbn; auto.
  - destruct (IH (mm p x)) as (H1 & (o1 & I1 & E1) & (o2 & I2 & E2)). set (r := fold_left mm t (mm p x)) in *.
    pose proof (H1 (mm p x) (or_introl eq_refl)) as H0. unfold mm in H0 at 1 2. cbn [fst snd] in H0.
    split; [|split].
    + intros o [<-|[<-|Ho]]; [lia|lia|]. apply H1. right. exact Ho.
    + destruct I1 as [<-|I1]; [|exists o1; split; [right; right; exact I1|exact E1]]. unfold mm in E1. cbn [fst] in E1.
      destruct (Z.min_spec (fst p) (fst x)) as [[_ M]|[_ M]]; rewrite M in E1; [exists p|exists x]; (split; [cbn; auto|exact E1]).
    + destruct I2 as [<-|I2]; [|exists o2; split; [right; right; exact I2|exact E2]]. unfold mm in E2. cbn [snd] in E2.
      destruct (Z.max_spec (snd p) (snd x)) as [[_ M]|[_ M]]; rewrite M in E2; [exists x|exists p]; (split; [cbn; auto|exact E2]).
Qed.
Lemma row_sub A V C chars base o v : chars = A ++ V ++ C -> row chars base o v -> base + zlen A <= fst o -> snd o <= base + zlen A + zlen V ->
  row V (base + zlen A) o v.
Proof.
  intros E (a & c & E1 & E2 & E3) H1 H2. rewrite E in E1. clear E chars.
  assert (La : (length A <= length a)%nat) by (unfold zlen in *; lia).
  (* a = A ++ a' *)
  assert (Ea : a = A ++ skipn (length A) a).
  { rewrite <- (firstn_skipn (length A) a) at 1. f_equal.
    transitivity (firstn (length A) (a ++ v ++ c)); [rewrite firstn_app; replace (length A - length a)%nat with 0%nat by lia; cbn; rewrite app_nil_r; reflexivity|].
    rewrite <- E1, firstn_app, firstn_all, Nat.sub_diag. cbn. apply app_nil_r. }
  set (a' := skipn (length A) a) in *. rewrite Ea, <- app_assoc in E1. apply app_inv_head in E1.
  assert (Lc : (length C <= length c)%nat).
  { pose proof (f_equal (@length Z) E1) as L. rewrite !app_length in L. unfold zlen in *. rewrite Ea, app_length in E2. lia. }
  exists a', (firstn (length c - length C) c). rewrite Ea, zlen_app in E2. split; [|lia].
  transitivity (firstn (length V) (V ++ C)); [rewrite firstn_app, firstn_all, Nat.sub_diag; cbn; rewrite app_nil_r; reflexivity|].
  rewrite E1. pose proof (f_equal (@length Z) E1) as L. rewrite !app_length in L.
  rewrite !firstn_app. rewrite (firstn_all2 a'), (firstn_all2 v) by (unfold zlen in *; lia). do 3 f_equal. unfold zlen in *. lia.
Qed.
Lemma deep_copy_rows b l : rows b l -> exists b', s_deep_copy b = Some b' /\ rows b' l /\
  (s_offs b <> [] -> (exists o, In o (s_offs b') /\ fst o = s_base b') /\ (exists o, In o (s_offs b') /\ snd o = s_base b' + zlen (s_chars b'))).
Proof.
  intros H. unfold s_deep_copy. destruct (s_offs b) as [|[s e] t] eqn:Eo.
  - exists s_empty. split; [reflexivity|]. split; [|contradiction]. unfold rows in *. rewrite Eo in H. inversion H. constructor.
  - change (fun a o : Z * Z => (Z.min (fst a) (fst o), Z.max (snd a) (snd o))) with mm.
    destruct (mm_bounds t (s, e)) as (B1 & (o1 & I1 & E1) & (o2 & I2 & E2)). destruct (fold_left mm t (s, e)) as [mn mx]. cbn [fst snd] in *.
    destruct (rows_holds b l H) as [_ V]. unfold valid in V. rewrite Forall_forall, Eo in V.
    pose proof (V o1 I1) as V1. pose proof (V o2 I2) as V2. pose proof (B1 o1 I1) as B11.
    destruct (zslice_ok (s_chars b) (mn - s_base b) (mx - mn)) as (A & Vc & C & K1 & K2 & K3 & K4); [lia|lia|lia|].
    rewrite K4. cbn [bind]. eexists. split; [reflexivity|]. cbn [s_offs s_base s_chars]. split.
    + unfold rows in *. cbn [s_offs s_base s_chars]. rewrite Eo in H.
      assert (G : forall os m, (forall o, In o os -> mn <= fst o /\ snd o <= mx) -> Forall2 (row (s_chars b) (s_base b)) os m -> Forall2 (row Vc mn) os m).
      { intros os m Hb Hr. induction Hr as [|o v os m Hov Hr IH]; constructor.
        - replace mn with (s_base b + zlen A) by lia. specialize (Hb o (or_introl eq_refl)). eapply row_sub; [exact K1|exact Hov|lia|lia].
        - apply IH. intros o' Ho'. apply Hb. right. exact Ho'. }
      apply G; assumption.
    + intros _. split; [exists o1; auto|exists o2; split; [exact I2|lia]].
Qed.

Lemma zeqb_eq a : forall b, zeqb a b = true <-> a = b.
Proof.
  induction a as [|x a IH]; intros [|y b]; cbn; split; try discriminate; try reflexivity.
  - intros H. apply andb_true_iff in H as [H1 H2]. apply IH in H2. apply Z.eqb_eq in H1. congruence.
  - intros H. inversion H; subst. rewrite Z.eqb_refl. cbn. apply IH. reflexivity.
Qed.
Lemma eq_from_ok a b la lb : holds a la -> holds b lb -> length la = length lb -> forall n i, (i + n = length la)%nat ->
  exists r, eq_from a b i n = Some r /\ (r = true <-> skipn i la = skipn i lb).
Proof.
  intros [A1 A2] [B1 B2] L. induction n as [|n IH]; intros i Hi; cbn [eq_from].
  - exists true. split; [reflexivity|]. rewrite !skipn_all2 by lia. tauto.
  - destruct (rd_lt la i) as [x Ex]; [lia|]. destruct (rd_lt lb i) as [y Ey]; [lia|]. rewrite (A2 _ _ Ex), (B2 _ _ Ey). cbn [bind].
    assert (S : forall (l : list (list Z)) i x, rd l i = Some x -> skipn i l = x :: skipn (S i) l).
    { clear. induction l as [|z l IH]; intros [|i] x H; try discriminate; cbn in H; [inversion H; reflexivity|]. cbn [skipn]. rewrite (IH i x H). reflexivity. }
    rewrite (S _ _ _ Ex), (S _ _ _ Ey). destruct (zeqb x y) eqn:E.
    + apply zeqb_eq in E. subst y. destruct (IH (Datatypes.S i)) as (r & -> & Hr); [lia|]. exists r. split; [reflexivity|]. rewrite Hr. split; [congruence|]. intros K. apply (f_equal (@tl (list Z))) in K. exact K.
    + exists false. split; [reflexivity|]. split; [discriminate|]. intros K. inversion K; subst. rewrite (proj2 (zeqb_eq y y) eq_refl) in E. discriminate.
Qed.

(** ** Builder *)
Lemma write_at_ok v : forall l i, (i + length v <= length l)%nat -> exists l', write_at l i v = Some l' /\ length l' = length l /\
  firstn i l' = firstn i l /\ firstn (i + length v) l' = firstn i l ++ v.
Proof.
  induction v as [|c v IH]; intros l i H; cbn [write_at length] in *.
  - exists l. rewrite Nat.add_0_r, app_nil_r. auto.
  - destruct (upd_lt l i c) as [l1 E1]; [lia|]. rewrite E1. cbn [bind]. destruct (upd_spec _ _ _ _ E1) as (_ & U1 & U2).
    destruct (IH l1 (S i)) as (l' & E & L & F1 & F2); [lia|]. exists l'. split; [exact E|]. split; [lia|].
    assert (F : firstn i l1 = firstn i l /\ firstn (S i) l1 = firstn i l ++ [c]).
    { clear -E1. revert i l1 E1. induction l as [|x l IH]; intros [|i] l1 E; cbn in E; try discriminate.
      - inversion E; subst. split; reflexivity.
      - destruct (upd l i c) as [t|] eqn:Et; [|discriminate]. cbn in E. inversion E; subst. destruct (IH i t Et) as [K1 K2].
        split; [cbn; congruence|]. change (firstn (S (S i)) (x :: t)) with (x :: firstn (S i) t). rewrite K2. reflexivity. }
    destruct F as [G1 G2]. split.
    + transitivity (firstn i (firstn (S i) l')); [rewrite firstn_firstn; f_equal; lia|]. rewrite F1, firstn_firstn. replace (Nat.min i (S i)) with i by lia. exact G1.
    + replace (i + S (length v))%nat with (S i + length v)%nat by lia. rewrite F2, G2, <- app_assoc. reflexivity.
Qed.
Lemma fill_ok {A} n : forall (l : list A) i x, (i + n <= length l)%nat -> fill l i n x = Some (set_range l i n x).
Proof.
  induction n as [|n IH]; intros l i x H; cbn [fill].
  - unfold set_range. cbn. rewrite Nat.add_0_r, firstn_skipn. reflexivity.
  - destruct (upd_lt l i x) as [l1 E1]; [lia|]. rewrite E1. cbn [bind]. destruct (upd_spec _ _ _ _ E1) as (_ & U1 & U2). rewrite IH by lia. f_equal.
    unfold set_range. clear -E1 H. revert i l1 E1 H. induction l as [|y l IHl]; intros [|i] l1 E H; cbn in E; try discriminate.
    + inversion E; subst. reflexivity.
    + destruct (upd l i x) as [t|] eqn:Et; [|discriminate]. cbn in E. inversion E; subst. cbn [firstn app Nat.add skipn].
      f_equal. exact (IHl i t Et ltac:(cbn in H; lia)).
Qed.
Lemma Forall2_upd {A B} (R : A -> B -> Prop) l m i x y l' m' : Forall2 R l m -> R x y -> upd l i x = Some l' -> upd m i y = Some m' -> Forall2 R l' m'.
Proof.
  intros H HR. revert i l' m'. induction H as [|a b l m Hab H IH]; intros [|i] l' m' E1 E2; cbn in *; try discriminate.
  - inversion E1; inversion E2; subst. constructor; assumption.
  - destruct (upd l i x) as [lt|] eqn:F1; [|discriminate]. destruct (upd m i y) as [mt|] eqn:F2; [|discriminate]. cbn in *. inversion E1; inversion E2; subst.
    constructor; [exact Hab|]. eapply IH; eassumption.
Qed.
Lemma Forall2_upd_ex {A B} (R : A -> B -> Prop) l m i x y m' : Forall2 R l m -> R x y -> upd m i y = Some m' -> exists l', upd l i x = Some l' /\ Forall2 R l' m'.
Proof.
  intros H HR E. destruct (upd_spec _ _ _ _ E) as (L & _ & _). destruct (upd_lt l i x) as [l' E']; [rewrite (Forall2_len _ _ _ H); exact L|].
  exists l'. split; [exact E'|]. eapply Forall2_upd; eassumption.
Qed.
Lemma Forall2_firstn {A B} (R : A -> B -> Prop) l m n : Forall2 R l m -> Forall2 R (firstn n l) (firstn n m).
Proof. intros H. revert n. induction H; intros [|n]; cbn; constructor; auto. Qed.
Lemma Forall2_skipn {A B} (R : A -> B -> Prop) l m n : Forall2 R l m -> Forall2 R (skipn n l) (skipn n m).
Proof. intros H. revert n. induction H; intros [|n]; cbn; try constructor; auto. Qed.
Lemma Forall2_repeat {A B} (R : A -> B -> Prop) x y n : R x y -> Forall2 R (repeat x n) (repeat y n).
Proof. intros H. induction n; constructor; auto. Qed.
Lemma Forall2_set_range {A B} (R : A -> B -> Prop) l m i n x y : Forall2 R l m -> R x y -> Forall2 R (set_range l i n x) (set_range m i n y).
Proof. intros H HR. unfold set_range. repeat apply Forall2_app; [apply Forall2_firstn, H|apply Forall2_repeat, HR|apply Forall2_skipn, H]. Qed.

Lemma double_ok need : need <= 2 ^ 61 -> forall f n, 0 < n <= 2 ^ 62 -> need <= n * 2 ^ Z.of_nat f ->
  exists r, double f need n = Some r /\ need <= r /\ n <= r <= Z.max n (2 * need).
Proof.
  intros Hn. induction f as [|f IH]; intros n H1 H2; cbn [double].
  - change (2 ^ Z.of_nat 0) with 1 in H2. replace (n <? need) with false by lia. exists n. split; [reflexivity|lia].
  - destruct (Z.ltb_spec n need) as [H|H]; [|exists n; split; [reflexivity|lia]].
    change (2 ^ 61) with 2305843009213693952 in *. change (2 ^ 62) with 4611686018427387904 in *.
    rewrite Arena_Proofs.p64_id by lia. destruct (IH (n * 2)) as (r & E & R1 & R2); [lia| |exists r; split; [exact E|lia]].
    rewrite Nat2Z.inj_succ, Z.pow_succ_r in H2 by lia. lia.
Qed.

Section B.
Variable junk : nat -> Z.
Definition b_used (b : bld) : list Z := firstn (Z.to_nat (b_num b)) (b_chars b).
Definition binv (b : bld) (l : list (list Z)) : Prop :=
  0 <= b_num b <= zlen (b_chars b) /\ zlen (b_chars b) <= 2 ^ 61 /\ zlen (b_offs b) * 16 <= 2 ^ 60 /\
  Forall2 (row (b_used b) 0) (b_offs b) l.
Lemma used_len b l : binv b l -> zlen (b_used b) = b_num b.
Proof. intros (H & _). unfold b_used, zlen in *. rewrite firstn_length. lia. Qed.

Lemma estimate_ok b add : zlen (b_chars b) < add + b_num b -> 0 <= b_num b -> 0 <= add -> add + b_num b <= 2 ^ 60 -> 0 < zlen (b_offs b) -> zlen (b_offs b) * 16 <= 2 ^ 60 ->
  exists n, estimate b add = Some n /\ add + b_num b <= n <= 2 ^ 61.
Proof.
  intros H1 H2 H3 H4 H5 H6. unfold estimate. pose proof (zlen_nonneg (b_chars b)).
  change (2 ^ 60) with 1152921504606846976 in *. change (2 ^ 61) with 2305843009213693952.
  rewrite !(Arena_Proofs.p64_id) by lia.
  destruct (double_ok (add + b_num b) ltac:(change (2 ^ 61) with 2305843009213693952; lia) 64 (Z.max (zlen (b_chars b) * 2) (zlen (b_offs b) * 16))) as (r & E & R1 & R2).
  { change (2 ^ 62) with 4611686018427387904. lia. }
  { change (2 ^ Z.of_nat 64) with 18446744073709551616. lia. }
  rewrite E. cbn [bind]. destruct (Z.ltb_spec r 4194304).
  - set (v := p64 (add * zlen (b_offs b))). destruct (Z.ltb_spec v r); [eexists; split; [reflexivity|lia]|].
    destruct (Z.ltb_spec 4194304 v); (eexists; split; [reflexivity|lia]).
  - exists r. split; [reflexivity|lia].
Qed.
Lemma resize_len b n : 0 <= n -> zlen (b_chars (resize junk b n)) = n.
Proof. intros H. unfold resize, zlen. cbn [b_chars]. rewrite app_length, firstn_length, map_length, seq_length. lia. Qed.
Lemma resize_used b n : 0 <= b_num b <= zlen (b_chars b) -> b_num b <= n -> b_used (resize junk b n) = b_used b.
Proof.
  intros H1 H2. unfold b_used, resize, zlen in *. cbn [b_chars b_num]. rewrite firstn_app, firstn_firstn, firstn_length.
  replace (Nat.min (Z.to_nat (b_num b)) (Z.to_nat n)) with (Z.to_nat (b_num b)) by lia.
  replace (Z.to_nat (b_num b) - Nat.min (Z.to_nat n) (length (b_chars b)))%nat with 0%nat by lia. cbn [firstn]. apply app_nil_r.
Qed.
Lemma row_grow P w base o v : row P base o v -> row (P ++ w) base o v.
Proof. intros (a & c & E1 & E2). exists a, (c ++ w). split; [|exact E2]. rewrite E1, <- !app_assoc. reflexivity. Qed.

Lemma set_ok b l i v l' : binv b l -> b_num b + zlen v <= 2 ^ 60 -> upd l i v = Some l' ->
  exists b', b_set junk b i v = Some b' /\ binv b' l' /\ b_num b' = b_num b + zlen v /\ rd (b_offs b') i = Some (b_num b, b_num b + zlen v) /\
    row (b_used b') 0 (b_num b, b_num b + zlen v) v.
Proof.
  intros I Hv U. pose proof I as (H1 & H2 & H3 & H4). unfold b_set. pose proof (zlen_nonneg v).
  rewrite (Arena_Proofs.p64_id (zlen v + b_num b)) by (change (2 ^ 60) with 1152921504606846976 in Hv; lia).
  destruct (upd_spec _ _ _ _ U) as (Ui & _ & _). pose proof (Forall2_len _ _ _ H4) as L4.
  assert (X : exists b1, (if zlen (b_chars b) <? zlen v + b_num b then let? n := estimate b (zlen v) in Some (resize junk b n) else Some b) = Some b1 /\
     b_offs b1 = b_offs b /\ b_num b1 = b_num b /\ b_used b1 = b_used b /\ zlen v + b_num b <= zlen (b_chars b1) <= 2 ^ 61).
  { destruct (Z.ltb_spec (zlen (b_chars b)) (zlen v + b_num b)) as [G|G].
    - destruct (estimate_ok b (zlen v)) as (n & E & En); try lia; [unfold zlen; lia|]. rewrite E. cbn [bind]. eexists. split; [reflexivity|].
      split; [reflexivity|]. split; [reflexivity|]. split; [apply resize_used; lia|]. rewrite resize_len by lia. lia.
    - exists b. repeat split; try reflexivity; lia. }
  destruct X as (b1 & -> & X1 & X2 & X3 & X4). cbn [bind]. rewrite X1, X2.
  destruct (write_at_ok v (b_chars b1) (Z.to_nat (b_num b))) as (cs & -> & W1 & W2 & W3); [unfold zlen in *; lia|]. cbn [bind].
  set (o := (b_num b, b_num b + zlen v)).
  assert (P' : firstn (Z.to_nat (b_num b + zlen v)) cs = b_used b ++ v).
  { replace (Z.to_nat (b_num b + zlen v)) with (Z.to_nat (b_num b) + length v)%nat by (unfold zlen in *; lia). rewrite W3. f_equal.
    rewrite <- X3. unfold b_used. rewrite X2. reflexivity. }
  assert (Rn : row (b_used b ++ v) 0 o v).
  { exists (b_used b), []. rewrite app_nil_r. split; [reflexivity|]. rewrite (used_len b l I). cbn [o fst snd]. lia. }
  assert (H4' : Forall2 (row (b_used b ++ v) 0) (b_offs b) l).
  { clear -H4. induction H4; constructor; [apply row_grow; assumption|assumption]. }
  destruct (Forall2_upd_ex _ _ _ i o v l' H4' Rn U) as (os & E & F). rewrite E. cbn [bind]. eexists. split; [reflexivity|].
  unfold binv, b_used. cbn [b_offs b_chars b_num]. rewrite P'. destruct (upd_spec _ _ _ _ E) as (_ & E1 & E2).
  split; [|split; [reflexivity|split; [rewrite E2, Nat.eqb_refl; reflexivity|exact Rn]]].
  split; [unfold zlen in *; lia|]. split; [unfold zlen in *; lia|]. split; [unfold zlen in *; lia|exact F].
Qed.

Lemma step_ok b l o l' : binv b l -> b_num b + cost o <= 2 ^ 60 -> spec_op l o = Some l' ->
  exists b', b_step junk b o = Some b' /\ binv b' l' /\ b_num b' <= b_num b + cost o.
Proof.
  intros I Hc E. destruct o as [i v|f t|i n v]; cbn [spec_op b_step cost] in *.
  - destruct (set_ok b l i v l' I Hc E) as (b' & E' & I' & N & _). exists b'. split; [exact E'|]. split; [exact I'|lia].
  - destruct (rd l f) as [v|] eqn:Ef; [|discriminate]. cbn [bind] in E. pose proof I as (H1 & H2 & H3 & H4).
    destruct (rd_Forall2 _ _ _ _ _ H4 Ef) as (o & Eo & Ro). unfold b_copy. rewrite Eo. cbn [bind].
    destruct (Forall2_upd_ex _ _ _ t o v l' H4 Ro E) as (os & Eos & F). rewrite Eos. cbn [bind]. eexists. split; [reflexivity|].
    destruct (upd_spec _ _ _ _ Eos) as (_ & E1 & _). unfold binv. cbn [b_offs b_chars b_num].
    split; [|lia]. split; [exact H1|]. split; [exact H2|]. split; [unfold zlen in *; lia|exact F].
  - unfold b_set_n_const. destruct (Z.leb_spec n 0) as [Hn|Hn].
    + inversion E; subst. exists b. split; [reflexivity|]. split; [exact I|]. pose proof (zlen_nonneg v). lia.
    + destruct (Nat.leb_spec (i + Z.to_nat n) (length l)) as [L|L]; [|discriminate]. inversion E; subst. clear E.
      destruct (upd_lt l i v) as [l1 U]; [lia|]. destruct (set_ok b l i v l1 I Hc U) as (b1 & E1 & I1 & N1 & R1 & Rr). rewrite E1. cbn [bind]. rewrite R1. cbn [bind].
      pose proof I1 as (H1 & H2 & H3 & H4). pose proof (Forall2_len _ _ _ H4) as L4. destruct (upd_spec _ _ _ _ U) as (_ & U1 & _).
      rewrite fill_ok by lia. cbn [bind]. eexists. split; [reflexivity|]. cbn [b_num]. split; [|lia].
      unfold binv. cbn [b_offs b_chars b_num]. split; [exact H1|]. split; [exact H2|]. split.
      { unfold set_range, zlen in *. rewrite !app_length, firstn_length, skipn_length, repeat_length. lia. }
      assert (S : set_range l i (Z.to_nat n) v = set_range l1 (i + 1) (Z.to_nat n - 1) v).
      { assert (Fl : fill l i (Z.to_nat n) v = Some (set_range l i (Z.to_nat n) v)) by (apply fill_ok; lia).
        destruct (Z.to_nat n) as [|k] eqn:Ek; [lia|]. cbn [fill] in Fl. rewrite U in Fl. cbn [bind] in Fl. rewrite fill_ok in Fl by lia. inversion Fl as [Fl'].
        replace (i + 1)%nat with (S i) by lia. replace (S k - 1)%nat with k by lia. reflexivity. }
      rewrite S. apply Forall2_set_range; [exact H4|exact Rr].
Qed.
Lemma steps_ok ops : forall b l l', binv b l -> b_num b + fold_right Z.add 0 (map cost ops) <= 2 ^ 60 -> fold_opt spec_op ops l = Some l' ->
  exists b', fold_opt (b_step junk) ops b = Some b' /\ binv b' l' /\ b_num b' <= b_num b + fold_right Z.add 0 (map cost ops).
Proof.
  induction ops as [|o ops IH]; intros b l l' I Hc E; cbn [fold_opt] in *.
  - inversion E; subst. exists b. split; [reflexivity|]. split; [exact I|]. cbn. lia.
  - destruct (spec_op l o) as [l1|] eqn:E1; [|discriminate]. cbn [bind] in E. cbn [map fold_right] in *.
    assert (0 <= fold_right Z.add 0 (map cost ops)).
    { clear. induction ops as [|[i v|f t|i n v] ops IH]; cbn [map fold_right cost]; [lia| | |]; try pose proof (zlen_nonneg v); lia. }
    destruct (step_ok b l o l1 I ltac:(lia) E1) as (b1 & Eb & I1 & N1). rewrite Eb. cbn [bind].
    destruct (IH b1 l1 l' I1 ltac:(lia) E) as (b2 & E2 & I2 & N2). exists b2. split; [exact E2|]. split; [exact I2|lia].
Qed.
Lemma new_inv max init : Z.of_nat max * 16 <= 2 ^ 60 -> Z.of_nat init <= 2 ^ 60 -> binv (b_new junk max init) (repeat [] max).
Proof.
  intros H1 H2. unfold binv, b_new, b_used, zlen. cbn [b_num b_chars b_offs]. rewrite map_length, seq_length, repeat_length.
  change (2 ^ 60) with 1152921504606846976 in *. change (2 ^ 61) with 2305843009213693952.
  split; [lia|]. split; [lia|]. split; [lia|]. apply Forall2_repeat. exists [], []. split; [reflexivity|]. split; reflexivity.
Qed.
Lemma build_ok b l n : binv b l -> (n <= length l)%nat -> exists r, b_build junk b n = Some r /\ rows r (firstn n l) /\ s_base r = 0 /\ zlen (s_chars r) = b_num b.
Proof.
  intros I Hn. pose proof I as (H1 & H2 & H3 & H4). pose proof (Forall2_len _ _ _ H4) as L4. unfold b_build.
  set (b1 := if negb (b_num b =? zlen (b_chars b)) then resize junk b (b_num b) else b).
  assert (X : b_offs b1 = b_offs b /\ b_num b1 = b_num b /\ b_used b1 = b_used b /\ zlen (b_chars b1) = b_num b).
  { unfold b1. destruct (Z.eqb_spec (b_num b) (zlen (b_chars b))); cbn [negb]; [auto|].
    split; [reflexivity|]. split; [reflexivity|]. split; [apply resize_used; lia|apply resize_len; lia]. }
  destruct X as (X1 & X2 & X3 & X4). rewrite X1, X2.
  destruct (zslice_ok (b_offs b) 0 (Z.of_nat n)) as (a & os & c & K1 & K2 & K3 & K4); [lia|lia|unfold zlen; lia|]. rewrite K4. cbn [bind].
  assert (Eo : os = firstn n (b_offs b)).
  { destruct a; [|unfold zlen in K2; cbn in K2; lia]. cbn in K1. rewrite K1. unfold zlen in K3. replace n with (length os) by lia.
    rewrite firstn_app, firstn_all, Nat.sub_diag. cbn. rewrite app_nil_r. reflexivity. }
  assert (Ec : zslice (b_chars b1) 0 (b_num b) = Some (b_used b)).
  { rewrite <- X3. unfold b_used. rewrite X2. destruct (zslice_ok (b_chars b1) 0 (b_num b)) as (a' & cs & c' & J1 & J2 & J3 & J4); [lia|lia|lia|]. rewrite J4. f_equal.
    destruct a'; [|unfold zlen in J2; cbn in J2; lia]. cbn in J1. rewrite J1. unfold zlen in J3. replace (Z.to_nat (b_num b)) with (length cs) by lia.
    rewrite firstn_app, firstn_all, Nat.sub_diag. cbn. rewrite app_nil_r. reflexivity. }
  rewrite Ec. cbn [bind]. eexists. split; [reflexivity|]. split; [|split; [reflexivity|apply (used_len b l I)]].
  unfold rows. cbn [s_offs s_chars s_base]. rewrite Eo. apply Forall2_firstn, H4.
Qed.
End B.

(** ** ReshuffleBuilder *)
(** A row of the result: reads as [v]. *)
Definition reads (chars : list Z) (base : Z) (o : Z * Z) (v : list Z) : Prop := zslice chars (fst o - base) (snd o - fst o) = Some v.
Lemma row_reads chars base o v : row chars base o v -> reads chars base o v.
Proof.
  intros (a & c & E1 & E2 & E3). unfold reads. rewrite E1. replace (fst o - base) with (zlen a) by lia. replace (snd o - fst o) with (zlen v) by lia. apply zslice_mid.
Qed.
Lemma reads_holds b l : Forall2 (reads (s_chars b) (s_base b)) (s_offs b) l -> holds b l.
Proof.
  intros H. split; [eapply Forall2_len, H|]. intros i v E. destruct (rd_Forall2 _ _ _ _ _ H E) as ([s e] & E1 & R).
  unfold s_get. rewrite E1. cbn [bind]. exact R.
Qed.
Section R.
Variable R : Z * Z -> list Z -> Prop.
Variables (old : list (list Z)) (oo : list (Z * Z)).
Hypothesis Hold : Forall2 R oo old.
Lemma rstep_ok os cs base l o l' : Forall2 R os l -> spec_rop old l o = Some l' ->
  exists os', r_step (mkR os oo cs base) o = Some (mkR os' oo cs base) /\ Forall2 R os' l'.
Proof.
  intros H E. pose proof (Forall2_len _ _ _ H) as L. destruct o as [n i|f t i]; cbn [spec_rop r_step] in *.
  - destruct (rd old i) as [v|] eqn:Ei; [|discriminate]. cbn [bind] in E. destruct (rd_Forall2 _ _ _ _ _ Hold Ei) as (x & Ex & Rx).
    unfold r_copy. cbn [r_old r_offs r_chars r_base]. rewrite Ex. cbn [bind]. destruct (Forall2_upd_ex _ _ _ n x v l' H Rx E) as (os' & E' & F). rewrite E'. cbn [bind]. eauto.
  - destruct (rd old i) as [v|] eqn:Ei; [|discriminate]. cbn [bind] in E. destruct (rd_Forall2 _ _ _ _ _ Hold Ei) as (x & Ex & Rx).
    destruct (Nat.leb_spec (f + (t - f)) (length l)) as [Hl|Hl]; [|discriminate]. inversion E; subst.
    unfold r_copy_range. cbn [r_old r_offs r_chars r_base]. rewrite Ex. cbn [bind]. rewrite fill_ok by lia. cbn [bind]. eexists. split; [reflexivity|].
    apply Forall2_set_range; assumption.
Qed.
Lemma rsteps_ok cs base ops : forall os l l', Forall2 R os l -> fold_opt (spec_rop old) ops l = Some l' ->
  exists os', fold_opt r_step ops (mkR os oo cs base) = Some (mkR os' oo cs base) /\ Forall2 R os' l'.
Proof.
  induction ops as [|o ops IH]; intros os l l' H E; cbn [fold_opt] in *; [inversion E; subst; eauto|].
  destruct (spec_rop old l o) as [l1|] eqn:E1; [|discriminate]. cbn [bind] in E.
  destruct (rstep_ok os cs base l o l1 H E1) as (os1 & -> & H1). cbn [bind]. eapply IH; eassumption.
Qed.
Lemma rbuild_ok cs base os l n : Forall2 R os l -> (n <= length l)%nat ->
  exists b, r_build (mkR os oo cs base) n = Some b /\ s_chars b = cs /\ s_base b = base /\ Forall2 R (s_offs b) (firstn n l).
Proof.
  intros H Hn. pose proof (Forall2_len _ _ _ H) as L. unfold r_build. cbn [r_offs r_chars r_base].
  destruct (zslice_ok os 0 (Z.of_nat n)) as (a & v & c & K1 & K2 & K3 & K4); [lia|lia|unfold zlen; lia|]. rewrite K4. cbn [bind].
  eexists. split; [reflexivity|]. cbn [s_chars s_base s_offs]. split; [reflexivity|]. split; [reflexivity|].
  assert (Eo : v = firstn n os).
  { destruct a; [|unfold zlen in K2; cbn in K2; lia]. cbn in K1. rewrite K1. unfold zlen in K3. replace n with (length v) by lia.
    rewrite firstn_app, firstn_all, Nat.sub_diag. cbn. rewrite app_nil_r. reflexivity. }
  rewrite Eo. apply Forall2_firstn, H.
Qed.
End R.
