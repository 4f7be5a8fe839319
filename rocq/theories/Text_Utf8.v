(** UTF-8: decoding inverts encoding, and encoded texts occur only at the
    boundaries of code points. *)
From Verif Require Import Base Text_Model Text_Spec.
Local Open Scope Z_scope.

Lemma utf8_app a b : utf8 (a ++ b) = utf8 a ++ utf8 b.
Proof. apply flat_map_app. Qed.
Ltac divs := Z.to_euclidean_division_equations; lia.
(** Lead byte, trail bytes, length. *)
Lemma encode_shape c : scalar c -> exists b t, encode c = b :: t /\ 0 <= b < 256 /\ ~ (128 <= b < 192) /\ Forall (fun x => 128 <= x < 192) t /\ charlen b = Z.of_nat (S (length t)).
Proof.
  intros H. unfold scalar in H. unfold encode.
  assert (T : forall x, 128 <= 128 + x mod 64 < 192) by (intros x; divs).
  destruct (c <? 128) eqn:E1; [exists c, []|destruct (c <? 2048) eqn:E2; [exists (192 + c / 64), [128 + c mod 64]|
    destruct (c <? 65536) eqn:E3; [exists (224 + c / 4096), [128 + c / 64 mod 64; 128 + c mod 64]|exists (240 + c / 262144), [128 + c / 4096 mod 64; 128 + c / 64 mod 64; 128 + c mod 64]]]].
  - split; [reflexivity|]. split; [lia|]. split; [lia|]. split; [constructor|]. unfold charlen.
    assert (Hc : 0 <= c / 16 < 8) by divs. remember (c / 16) as k. assert (k = 0 \/ k = 1 \/ k = 2 \/ k = 3 \/ k = 4 \/ k = 5 \/ k = 6 \/ k = 7) as [->|[->|[->|[->|[->|[->|[->| ->]]]]]]] by lia; reflexivity.
  - split; [reflexivity|]. split; [divs|]. split; [divs|]. split; [repeat constructor; apply T|]. unfold charlen.
    assert (Hc : 12 <= (192 + c / 64) / 16 < 14) by divs. remember ((192 + c / 64) / 16) as k. assert (k = 12 \/ k = 13) as [->| ->] by lia; reflexivity.
  - split; [reflexivity|]. split; [divs|]. split; [divs|]. split; [repeat constructor; apply T|]. unfold charlen.
    replace ((224 + c / 4096) / 16) with 14 by divs. reflexivity.
  - split; [reflexivity|]. split; [divs|]. split; [divs|]. split; [repeat constructor; apply T|]. unfold charlen.
    replace ((240 + c / 262144) / 16) with 15 by divs. reflexivity.
Qed.
Lemma encode_nonempty c : scalar c -> (0 < length (encode c))%nat.
Proof. intros H. destruct (encode_shape c H) as (b & t & -> & _). cbn. lia. Qed.
Lemma trail_true x : trail (128 + x mod 64) = true.
Proof. unfold trail. apply andb_true_iff. divs. Qed.
Lemma decode1_encode c t : scalar c -> decode1 (encode c ++ t) = Some (c, t).
Proof.
  intros H. unfold scalar in H. unfold encode. destruct (c <? 128) eqn:E1; [|destruct (c <? 2048) eqn:E2; [|destruct (c <? 65536) eqn:E3]]; cbn [app decode1].
  - rewrite E1. reflexivity.
  - replace (192 + c / 64 <? 128) with false by divs. replace (192 + c / 64 <? 192) with false by divs. replace (192 + c / 64 <? 224) with true by divs.
    rewrite trail_true. replace ((192 + c / 64 - 192) * 64 + (128 + c mod 64 - 128)) with c by divs. replace (128 <=? c) with true by lia. reflexivity.
  - replace (224 + c / 4096 <? 128) with false by divs. replace (224 + c / 4096 <? 192) with false by divs. replace (224 + c / 4096 <? 224) with false by divs. replace (224 + c / 4096 <? 240) with true by divs.
    rewrite !trail_true. replace ((224 + c / 4096 - 224) * 4096 + (128 + c / 64 mod 64 - 128) * 64 + (128 + c mod 64 - 128)) with c by divs. replace (2048 <=? c) with true by lia.
    replace (negb ((55296 <=? c) && (c <? 57344))) with true by lia. reflexivity.
  - replace (240 + c / 262144 <? 128) with false by divs. replace (240 + c / 262144 <? 192) with false by divs. replace (240 + c / 262144 <? 224) with false by divs. replace (240 + c / 262144 <? 240) with false by divs. replace (240 + c / 262144 <? 248) with true by divs.
    rewrite !trail_true. replace ((240 + c / 262144 - 240) * 262144 + (128 + c / 4096 mod 64 - 128) * 4096 + (128 + c / 64 mod 64 - 128) * 64 + (128 + c mod 64 - 128)) with c by divs.
    replace (65536 <=? c) with true by lia. replace (c <? 1114112) with true by lia. reflexivity.
Qed.
Lemma decode1_sound s c t : Forall (fun b => 0 <= b) s -> decode1 s = Some (c, t) -> scalar c /\ s = encode c ++ t.
Proof.
  intros Hn. destruct s as [|b s]; [discriminate|]. cbn [decode1]. unfold trail, scalar, encode. inversion Hn as [|? ? Hb _]; subst.
  destruct (b <? 128) eqn:E1. { intros H. injection H as <- <-. rewrite E1. split; [lia|reflexivity]. }
  destruct (b <? 192) eqn:E2; [discriminate|].
  destruct (b <? 224) eqn:E3.
  { destruct s as [|b1 s]; [discriminate|]. destruct ((128 <=? b1) && (b1 <? 192) && (128 <=? (b - 192) * 64 + (b1 - 128))) eqn:E; [|discriminate]. intros H. injection H as <- <-.
    apply andb_true_iff in E. destruct E as [E E4]. apply andb_true_iff in E. destruct E as [E5 E6]. split; [lia|].
    set (c := (b - 192) * 64 + (b1 - 128)) in *. replace (c <? 128) with false by lia. replace (c <? 2048) with true by (subst c; lia). cbn [app]. repeat f_equal; subst c; divs. }
  destruct (b <? 240) eqn:E4.
  { destruct s as [|b1 [|b2 s]]; try discriminate. set (e := (b - 224) * 4096 + (b1 - 128) * 64 + (b2 - 128)) in *.
    destruct ((128 <=? b1) && (b1 <? 192) && ((128 <=? b2) && (b2 <? 192)) && (2048 <=? e) && negb ((55296 <=? e) && (e <? 57344))) eqn:E; [|discriminate]. intros H. injection H as <- <-.
    assert (R : 128 <= b1 < 192 /\ 128 <= b2 < 192 /\ 2048 <= e /\ ~ (55296 <= e < 57344)) by lia. destruct R as (R1 & R2 & R3 & R4).
    split; [subst e; lia|]. replace (e <? 128) with false by lia. replace (e <? 2048) with false by lia. replace (e <? 65536) with true by (subst e; lia). cbn [app]. repeat f_equal; subst e; divs. }
  destruct (b <? 248) eqn:E5; [|discriminate].
  destruct s as [|b1 [|b2 [|b3 s]]]; try discriminate. set (e := (b - 240) * 262144 + (b1 - 128) * 4096 + (b2 - 128) * 64 + (b3 - 128)) in *.
  destruct ((128 <=? b1) && (b1 <? 192) && ((128 <=? b2) && (b2 <? 192)) && ((128 <=? b3) && (b3 <? 192)) && (65536 <=? e) && (e <? 1114112)) eqn:E; [|discriminate]. intros H. injection H as <- <-.
  assert (R : 128 <= b1 < 192 /\ 128 <= b2 < 192 /\ 128 <= b3 < 192 /\ 65536 <= e < 1114112) by lia. destruct R as (R1 & R2 & R3 & R4).
  split; [lia|]. replace (e <? 128) with false by lia. replace (e <? 2048) with false by lia. replace (e <? 65536) with false by lia. cbn [app]. repeat f_equal; subst e; divs.
Qed.
Lemma decode_utf8 cs : forall fuel, Forall scalar cs -> (length (utf8 cs) < fuel)%nat -> decode fuel (utf8 cs) = Some cs.
Proof.
  induction cs as [|c cs IH]; intros [|fuel] F L; try lia; [reflexivity|]. inversion F; subst. cbn [utf8 flat_map] in *. fold (utf8 cs) in *. rewrite app_length in L. pose proof (encode_nonempty c H1).
  cbn [decode]. destruct (encode c ++ utf8 cs) as [|b t] eqn:E. { destruct (encode c); [cbn in *; lia|discriminate]. }
  rewrite <- E, decode1_encode by assumption. cbn [bind]. rewrite IH by (auto; lia). reflexivity.
Qed.
Lemma encode_prefix c d s t : scalar c -> scalar d -> encode c ++ s = encode d ++ t -> c = d /\ s = t.
Proof. intros Hc Hd E. pose proof (decode1_encode c s Hc) as H. rewrite E, decode1_encode in H by assumption. injection H as <- <-. auto. Qed.
Lemma utf8_prefix cs ds s : Forall scalar cs -> Forall scalar ds -> utf8 ds = utf8 cs ++ s -> exists r, ds = cs ++ r /\ s = utf8 r.
Proof.
  revert ds. induction cs as [|c cs IH]; intros ds Fc Fd E; [exists ds; auto|]. inversion Fc; subst. cbn [utf8 flat_map] in E. fold (utf8 cs) in E. pose proof (encode_nonempty c H1).
  destruct ds as [|d ds]; [destruct (encode c); [cbn in *; lia|discriminate]|]. inversion Fd; subst. cbn [utf8 flat_map] in E. fold (utf8 ds) in E. rewrite <- app_assoc in E.
  apply encode_prefix in E; auto. destruct E as [-> E]. destruct (IH ds) as (r & -> & Er); auto. exists r. auto.
Qed.
Lemma utf8_inj cs ds : Forall scalar cs -> Forall scalar ds -> utf8 cs = utf8 ds -> cs = ds.
Proof.
  intros Fc Fd E. destruct (utf8_prefix cs ds [] Fc Fd) as (r & -> & Er); [rewrite app_nil_r; auto|]. destruct r as [|c r]; [rewrite app_nil_r; reflexivity|].
  apply Forall_app in Fd. destruct Fd as [_ Fr]. inversion Fr; subst. pose proof (encode_nonempty c H1). cbn [utf8 flat_map] in Er. destruct (encode c); [cbn in *; lia|discriminate].
Qed.
(** Self-synchronisation. *)
Lemma utf8_sync sub : forall cs a b, sub <> [] -> Forall scalar sub -> Forall scalar cs -> utf8 cs = a ++ utf8 sub ++ b ->
  exists ca cb, cs = ca ++ sub ++ cb /\ a = utf8 ca /\ b = utf8 cb.
Proof.
  induction cs as [|c cs IH]; intros a b Nn Fs Fc E.
  - destruct sub as [|d sub]; [congruence|]. inversion Fs; subst. pose proof (encode_nonempty d H1). apply (f_equal (@length Z)) in E. cbn [utf8 flat_map] in E. rewrite !app_length in E. cbn in E. lia.
  - inversion Fc; subst. cbn [utf8 flat_map] in E. fold (utf8 cs) in E. destruct (Nat.le_gt_cases (length (encode c)) (length a)) as [L|L].
    + assert (Ea : a = encode c ++ skipn (length (encode c)) a).
      { apply (f_equal (firstn (length (encode c)))) in E. rewrite firstn_app, Nat.sub_diag, firstn_O, app_nil_r, firstn_all in E. rewrite firstn_app in E. replace (length (encode c) - length a)%nat with O in E by lia. rewrite firstn_O, app_nil_r in E. rewrite E at 1. symmetry. apply firstn_skipn. }
      set (a' := skipn (length (encode c)) a) in *. clearbody a'. subst a. rewrite <- app_assoc in E. apply app_inv_head in E.
      destruct (IH a' b Nn Fs H2 E) as (ca & cb & -> & -> & ->). exists (c :: ca), cb. auto.
    + destruct a as [|x a].
      * cbn [app] in E. destruct (utf8_prefix sub (c :: cs) b Fs Fc) as (r & Er & ->); [exact E|]. exists [], r. split; [exact Er|]. auto.
      * exfalso. destruct (encode_shape c H1) as (l & t & Ec & _ & _ & Ft & _). rewrite Ec in E, L. cbn [app] in E. injection E as <- E. cbn [length] in L.
        assert (Hx : exists y, nth_error (t ++ utf8 cs) (length a) = Some y /\ 128 <= y < 192).
        { rewrite nth_error_app1 by lia. destruct (nth_error t (length a)) as [y|] eqn:Ey; [|apply nth_error_None in Ey; lia]. exists y. split; [reflexivity|]. rewrite Forall_forall in Ft. apply Ft. eapply nth_error_In; eassumption. }
        destruct Hx as (y & Hy & Ry). rewrite E, nth_error_app2, Nat.sub_diag in Hy by lia. destruct sub as [|d sub]; [congruence|]. inversion Fs; subst. destruct (encode_shape d H3) as (l' & t' & Ed & _ & Nl & _). cbn [utf8 flat_map] in Hy. rewrite Ed in Hy. cbn in Hy. injection Hy as ->. lia.
Qed.
Lemma utf8_cancel cs ca cb b : Forall scalar cs -> Forall scalar (ca ++ cb) -> utf8 cs = utf8 ca ++ b -> exists cr, cs = ca ++ cr /\ b = utf8 cr.
Proof. intros F1 F2 E. apply Forall_app in F2. apply (utf8_prefix ca cs b); tauto. Qed.

(** ** Offsets of code points *)
Definition off (cs : list Z) (k : nat) : Z := Z.of_nat (length (utf8 (firstn k cs))).
Lemma off_0 cs : off cs 0 = 0.
Proof. reflexivity. Qed.
Lemma off_all cs : off cs (length cs) = size (utf8 cs).
Proof. unfold off. rewrite firstn_all. reflexivity. Qed.
Lemma off_app ca cb : off (ca ++ cb) (length ca) = size (utf8 ca).
Proof. unfold off, size. rewrite firstn_app, Nat.sub_diag, firstn_O, app_nil_r, firstn_all. reflexivity. Qed.
Lemma off_S cs k c : rd cs k = Some c -> off cs (S k) = off cs k + Z.of_nat (length (encode c)).
Proof.
  intros H. unfold off. assert (E : firstn (S k) cs = firstn k cs ++ [c]).
  { revert k H. induction cs as [|x cs IH]; intros [|k] H; try discriminate; cbn in *; [congruence|]. rewrite (IH k H). reflexivity. }
  rewrite E, utf8_app, app_length. cbn [utf8 flat_map]. rewrite app_nil_r. lia.
Qed.
Lemma off_lt cs : Forall scalar cs -> forall i j, (i < j)%nat -> (j <= length cs)%nat -> off cs i < off cs j.
Proof.
  intros F i j H. induction H as [|j H IH]; intros L.
  - destruct (rd_lt cs i ltac:(lia)) as [c Hc]. rewrite (off_S cs i c Hc). rewrite Forall_forall in F. pose proof (encode_nonempty c (F c (nth_error_In _ _ Hc))). lia.
  - destruct (rd_lt cs j ltac:(lia)) as [c Hc]. rewrite (off_S cs j c Hc). specialize (IH ltac:(lia)). lia.
Qed.
Lemma off_le_iff cs : Forall scalar cs -> forall i j, (i <= length cs)%nat -> (j <= length cs)%nat -> (off cs i <= off cs j <-> (i <= j)%nat).
Proof.
  intros F i j Li Lj. split; intros H.
  - destruct (Nat.le_gt_cases i j); [assumption|]. pose proof (off_lt cs F j i H0 Li). lia.
  - destruct (Nat.eq_dec i j) as [->|]; [lia|]. pose proof (off_lt cs F i j ltac:(lia) Lj). lia.
Qed.

(** The loop of UTF8StringIndex visits exactly the offsets. *)
Lemma index_loop_ok cs : Forall scalar cs -> forall fuel k acc, (k <= length cs)%nat -> (length cs - k < fuel)%nat ->
  index_loop fuel (utf8 cs) (off cs k) acc = Some (acc ++ map (off cs) (seq k (length cs - k)), size (utf8 cs)).
Proof.
  intros F. induction fuel as [|fuel IH]; intros k acc L1 L2; [lia|]. cbn [index_loop]. destruct (Nat.eq_dec k (length cs)) as [->|Ne].
  - rewrite off_all, Z.ltb_irrefl, Nat.sub_diag. cbn [seq map]. rewrite app_nil_r. reflexivity.
  - pose proof (off_lt cs F k (length cs) ltac:(lia) ltac:(lia)) as Lt. rewrite off_all in Lt. replace (off cs k <? size (utf8 cs)) with true by lia.
    destruct (rd_lt cs k ltac:(lia)) as [c Hc]. assert (Sc : scalar c) by (rewrite Forall_forall in F; eapply F, nth_error_In, Hc). destruct (encode_shape c Sc) as (b & t & Ec & _ & _ & _ & Cl).
    assert (Hb : rd (utf8 cs) (Z.to_nat (off cs k)) = Some b).
    { apply nth_error_split in Hc. destruct Hc as (l1 & l2 & -> & <-). rewrite off_app. unfold size. rewrite Nat2Z.id. unfold rd. rewrite utf8_app, nth_error_app2, Nat.sub_diag by lia. cbn [utf8 flat_map]. rewrite Ec. reflexivity. }
    rewrite Hb. cbn [bind]. replace (off cs k + charlen b) with (off cs (S k)).
    + rewrite IH by lia. replace (length cs - k)%nat with (S (length cs - S k)) by lia. cbn [seq map]. rewrite <- app_assoc. reflexivity.
    + rewrite (off_S cs k c Hc), Cl, Ec. reflexivity.
Qed.
Lemma utf8_length_le cs : Forall scalar cs -> (length cs <= length (utf8 cs))%nat.
Proof. induction 1 as [|c cs Hc _ IH]; [cbn; lia|]. cbn [utf8 flat_map length]. rewrite app_length. fold (utf8 cs). pose proof (encode_nonempty c Hc). lia. Qed.
Lemma utf8_index_ok cs : Forall scalar cs -> utf8_index (utf8 cs) = Some (map (off cs) (seq 0 (S (length cs)))).
Proof.
  intros F. unfold utf8_index. pose proof (utf8_length_le cs F). rewrite <- (off_0 cs). rewrite index_loop_ok by (auto; lia). cbn [bind app]. rewrite Z.ltb_irrefl.
  rewrite Nat.sub_0_r. replace (S (length cs)) with (length cs + 1)%nat by lia. rewrite seq_app, map_app. cbn [seq map]. rewrite Nat.add_0_l, off_all. reflexivity.
Qed.
Lemma lower_bound_off cs : Forall scalar cs -> forall i, (i <= length cs)%nat -> lower_bound (map (off cs) (seq 0 (S (length cs)))) (off cs i) = i.
Proof.
  intros F i L. assert (G : forall n k, (k <= i)%nat -> (i < k + n)%nat -> (k + n <= S (length cs))%nat -> lower_bound (map (off cs) (seq k n)) (off cs i) = (i - k)%nat).
  { induction n as [|n IH]; intros k L1 L2 L3; [lia|]. cbn [seq map lower_bound]. destruct (Nat.eq_dec k i) as [->|Ne].
    - rewrite Z.ltb_irrefl. lia.
    - pose proof (off_lt cs F k i ltac:(lia) L). replace (off cs k <? off cs i) with true by lia. rewrite IH by lia. lia. }
  rewrite G by lia. lia.
Qed.

(** ** The well-formed prefix *)
Lemma span_ok : forall fuel s, Forall (fun b => 0 <= b) s -> (length s <= fuel)%nat ->
  exists cs r, Forall scalar cs /\ s = utf8 cs ++ r /\ span fuel s = length (utf8 cs) /\ decode1 r = None.
Proof.
  induction fuel as [|fuel IH]; intros s F L.
  - destruct s; [|cbn in L; lia]. exists [], []. auto.
  - cbn [span]. destruct (decode1 s) as [[c t]|] eqn:E; [|exists [], s; auto].
    destruct (decode1_sound s c t F E) as [Sc ->]. apply Forall_app in F. destruct F as [_ F]. pose proof (encode_nonempty c Sc). rewrite app_length in L.
    destruct (IH t F ltac:(lia)) as (cs & r & Fs & -> & Es & D). exists (c :: cs), r. split; [constructor; auto|]. cbn [utf8 flat_map]. fold (utf8 cs). rewrite <- app_assoc. split; [reflexivity|]. split; [|exact D].
    rewrite Es, !app_length. lia.
Qed.
Lemma valid_span_ok s : Forall (fun b => 0 <= b) s -> exists cs r, Forall scalar cs /\ s = utf8 cs ++ r /\ valid_span s = length (utf8 cs) /\ decode1 r = None.
Proof. intros F. apply span_ok; [exact F|lia]. Qed.
Lemma valid_span_all cs : Forall scalar cs -> valid_span (utf8 cs) = length (utf8 cs).
Proof.
  unfold valid_span. assert (G : forall fuel, (length (utf8 cs) <= fuel)%nat -> Forall scalar cs -> span fuel (utf8 cs) = length (utf8 cs)).
  { induction cs as [|c cs IH]; intros fuel L F; [destruct fuel; reflexivity|]. inversion F; subst. pose proof (encode_nonempty c H1). cbn [utf8 flat_map] in *. fold (utf8 cs) in *. rewrite app_length in *. destruct fuel as [|fuel]; [lia|].
    cbn [span]. rewrite decode1_encode by assumption. rewrite app_length, IH by (auto; lia). lia. }
  apply G. lia.
Qed.
