From Verif Require Import Base Dense_Model Dense_Proofs IdFilter_Model IdFilter_Spec.

Lemma rd_nth (l : list nat) i : i < length l -> rd l i = Some (nth i l 0).
Proof. intros H. unfold rd. apply nth_error_nth'. exact H. Qed.

Lemma asc_tail x t : ascending (x :: t) -> ascending t /\ Forall (fun y => x < y) t.
Proof.
  intros H. split.
  - intros i j L. apply (H (S i) (S j)). simpl. lia.
  - apply Forall_forall. intros y Hy. destruct (In_nth _ _ 0 Hy) as (k & Hk & <-).
    apply (H 0 (S k)). simpl. lia.
Qed.
Lemma asc_cons x t : ascending t -> Forall (fun y => x < y) t -> ascending (x :: t).
Proof.
  intros H F i j L. simpl in L. destruct j as [|j]; [lia|]. destruct i as [|i]; simpl.
  - rewrite Forall_forall in F. apply F. apply nth_In. lia.
  - apply H. lia.
Qed.
Lemma asc_nil : ascending [].
Proof. intros i j L. simpl in L. lia. Qed.
Lemma asc_le l i j : ascending l -> i <= j < length l -> nth i l 0 <= nth j l 0.
Proof.
  intros H L. destruct (Nat.eq_dec i j) as [->|]; [lia|].
  assert (nth i l 0 < nth j l 0) by (apply H; lia). lia.
Qed.
Lemma asc_inj l i j : ascending l -> i < length l -> j < length l ->
  nth i l 0 = nth j l 0 -> i = j.
Proof.
  intros H Li Lj E. destruct (Nat.lt_trichotomy i j) as [L|[L|L]]; [|exact L|].
  - assert (nth i l 0 < nth j l 0) by (apply H; lia). lia.
  - assert (nth j l 0 < nth i l 0) by (apply H; lia). lia.
Qed.
Lemma asc_lt_inv l i j : ascending l -> i < length l -> j < length l ->
  nth i l 0 < nth j l 0 -> i < j.
Proof.
  intros H Li Lj E. destruct (Nat.lt_ge_cases i j) as [L|L]; [exact L|].
  assert (nth j l 0 <= nth i l 0) by (apply asc_le; auto; lia). lia.
Qed.

(** zero-based lists *)
Definition zb (off : nat) (ids : list nat) := map (fun x => x - off) ids.
Lemma zb_len off ids : length (zb off ids) = length ids.
Proof. apply map_length. Qed.
Lemma zb_nth off ids i : nth i (zb off ids) 0 = nth i ids 0 - off.
Proof. unfold zb. change 0 with ((fun x => x - off) 0) at 1. rewrite map_nth. reflexivity. Qed.
Lemma zb_asc n off ids : ids_in n off ids -> ascending (zb off ids).
Proof.
  intros [A F] i j L. rewrite zb_len in L. rewrite !zb_nth.
  rewrite Forall_forall in F.
  assert (nth i ids 0 < nth j ids 0) by (apply A; lia).
  assert (In (nth i ids 0) ids) by (apply nth_In; lia). apply F in H0. lia.
Qed.
Lemma zb_bound n off ids : ids_in n off ids -> Forall (fun x => x < n) (zb off ids).
Proof.
  intros [A F]. unfold zb. apply Forall_forall. intros y Hy. apply in_map_iff in Hy.
  destruct Hy as (x & <- & Hx). rewrite Forall_forall in F. apply F in Hx. lia.
Qed.
Lemma rd_id_ok n off ids i : ids_in n off ids -> rd_id ids off i = rd (zb off ids) i.
Proof.
  intros [A F]. unfold rd_id, zb, rd. rewrite nth_error_map.
  destruct (nth_error ids i) as [x|] eqn:E; [|reflexivity]. cbn [bind option_map].
  rewrite Forall_forall in F. apply nth_error_In in E. apply F in E.
  replace (off <=? x) with true by lia. reflexivity.
Qed.

(** A full ascending list below [n] is 0..n-1. *)
Lemma asc_ge_index l i : ascending l -> i < length l -> i <= nth i l 0.
Proof.
  intros H. induction i as [|i IH]; intros L; [lia|].
  assert (nth i l 0 < nth (S i) l 0) by (apply H; lia). lia.
Qed.
Lemma asc_bound_index n l i : ascending l -> Forall (fun x => x < n) l -> i < length l ->
  nth i l 0 + (length l - i) <= n.
Proof.
  intros H F. remember (length l - 1 - i) as k eqn:K. revert i K.
  induction k as [|k IH]; intros i K L.
  - rewrite Forall_forall in F. assert (nth i l 0 < n) by (apply F; apply nth_In; exact L). lia.
  - specialize (IH (S i) ltac:(lia) ltac:(lia)).
    assert (nth i l 0 < nth (S i) l 0) by (apply H; lia). lia.
Qed.
Lemma asc_len n l : ascending l -> Forall (fun x => x < n) l -> length l <= n.
Proof.
  intros H F. destruct l as [|x t]; [simpl; lia|].
  pose proof (asc_bound_index n (x :: t) 0 H F ltac:(simpl; lia)) as B. lia.
Qed.
Lemma asc_full n l : ascending l -> Forall (fun x => x < n) l -> length l = n -> l = seq 0 n.
Proof.
  intros H F L. apply (nth_ext _ _ 0 0); [rewrite seq_length; exact L|].
  intros i Hi. rewrite seq_nth by lia.
  pose proof (asc_ge_index l i H Hi). pose proof (asc_bound_index n l i H F Hi). lia.
Qed.

Lemma seq_asc a n : ascending (seq a n).
Proof. intros i j L. rewrite seq_length in L. rewrite !seq_nth by lia. lia. Qed.

Lemma fids_asc n f : fwf n f -> ascending (fids n f) /\ Forall (fun x => x < n) (fids n f).
Proof.
  destruct f as [| |a ids off]; intros H; cbn [fids fwf] in *.
  - split; [apply asc_nil|constructor].
  - split; [apply seq_asc|]. apply Forall_forall. intros x Hx. apply in_seq in Hx. lia.
  - destruct H as (_ & _ & H). split; [apply (zb_asc n off ids H)|apply (zb_bound n off ids H)].
Qed.

(** ** index_of *)
Lemma index_of_some x l o : index_of x l = Some o -> o < length l /\ nth o l 0 = x.
Proof.
  revert o; induction l as [|y t IH]; intros o H; [discriminate|]. simpl in H.
  destruct (y =? x) eqn:E; [injection H as <-; simpl; split; lia|].
  destruct (index_of x t) as [k|]; [|discriminate]. injection H as <-.
  destruct (IH k eq_refl). simpl. split; [lia|assumption].
Qed.
Lemma index_of_none x l : index_of x l = None <-> ~ In x l.
Proof.
  induction l as [|y t IH]; simpl; [split; auto|].
  destruct (y =? x) eqn:E.
  - split; [discriminate|]. intros H. exfalso. apply H. left. lia.
  - destruct (index_of x t) as [k|]; simpl; split; try discriminate; try reflexivity.
    + intros H. exfalso. apply H. right. destruct (in_dec Nat.eq_dec x t) as [I|I]; [exact I|].
      apply IH in I. discriminate.
    + intros _ [C|C]; [lia|]. apply (proj1 IH eq_refl). exact C.
Qed.
Lemma index_of_nth l i : ascending l -> i < length l -> index_of (nth i l 0) l = Some i.
Proof.
  intros H L. destruct (index_of (nth i l 0) l) as [o|] eqn:E.
  - apply index_of_some in E. f_equal. apply (asc_inj l); tauto.
  - apply index_of_none in E. exfalso. apply E. apply nth_In. exact L.
Qed.

(** ** lower_bound *)
Lemma lower_bound_ok l v : ascending l ->
  lower_bound l v <= length l /\
  (forall i, i < lower_bound l v -> nth i l 0 < v) /\
  (forall i, lower_bound l v <= i < length l -> v <= nth i l 0).
Proof.
  induction l as [|x t IH]; intros H; simpl.
  - split; [lia|]. split; intros; lia.
  - destruct (asc_tail _ _ H) as [Ht Fx]. destruct (IH Ht) as (B & Lo & Hi).
    destruct (x <? v) eqn:E.
    + split; [lia|]. split.
      * intros [|i] Hi'; [lia|]. apply Lo. lia.
      * intros [|i] Hi'; [lia|]. apply Hi. lia.
    + split; [lia|]. split; [intros; lia|].
      intros [|i] Hi'; [lia|]. rewrite Forall_forall in Fx.
      assert (x < nth i t 0) by (apply Fx; apply nth_In; lia). lia.
Qed.

Lemma id_to_offset_ok n f id : fwf n f -> id < n -> id_to_offset f id = index_of id (fids n f).
Proof.
  destruct f as [| |a ids off]; intros H L; cbn [id_to_offset fids].
  - reflexivity.
  - symmetry. rewrite <- (index_of_nth (seq 0 n) id (seq_asc 0 n) ltac:(rewrite seq_length; exact L)).
    rewrite seq_nth by exact L. reflexivity.
  - destruct H as (_ & _ & I). pose proof (zb_asc n off ids I) as Az. destruct I as [A F].
    change (map (fun x => x - off) ids) with (zb off ids).
    destruct (lower_bound_ok ids (id + off) A) as (B & Lo & Hi).
    set (o := lower_bound ids (id + off)) in *.
    destruct (index_of id (zb off ids)) as [k|] eqn:E.
    + apply index_of_some in E. rewrite zb_len, zb_nth in E. destruct E as [Lk Ek].
      rewrite Forall_forall in F.
      assert (In (nth k ids 0) ids) as Ik by (apply nth_In; exact Lk). apply F in Ik.
      assert (k = o) as ->.
      { destruct (Nat.lt_trichotomy k o) as [C|[C|C]]; [|exact C|].
        - specialize (Lo k C). lia.
        - specialize (Hi o ltac:(lia)). assert (nth o ids 0 < nth k ids 0) by (apply A; lia). lia. }
      rewrite rd_nth by lia. replace (nth o ids 0 =? id + off) with true by lia. reflexivity.
    + destruct (rd ids o) as [x|] eqn:R; [|reflexivity].
      destruct (x =? id + off) eqn:X; [|reflexivity]. exfalso.
      apply index_of_none in E. apply E. pose proof (rd_Some_lt _ _ _ R) as Lx.
      rewrite rd_nth in R by lia. assert (nth o ids 0 = x) by congruence.
      replace id with (nth o (zb off ids) 0) by (rewrite zb_nth; lia).
      apply nth_In. rewrite zb_len. exact Lx.
Qed.

Lemma ids_offset_to_id_ok n f o x : fwf n f -> (exists a i p, f = FPartial a i p) ->
  nth_error (fids n f) o = Some x -> ids_offset_to_id f o = Some x /\ id_to_offset f x = Some o.
Proof.
  intros H (a & ids & off & ->) E. pose proof (fids_asc n _ H) as [A F]. pose proof H as H'.
  cbn [fwf] in H. destruct H as (_ & _ & I). split.
  - cbn [ids_offset_to_id]. rewrite (rd_id_ok n) by exact I. exact E.
  - assert (o < length (fids n (FPartial a ids off))) as L by (apply nth_error_Some; congruence).
    assert (nth o (fids n (FPartial a ids off)) 0 = x) as <-.
    { apply nth_error_nth with (d := 0) in E. exact E. }
    rewrite (id_to_offset_ok n); [apply index_of_nth; assumption|exact H'|].
    rewrite Forall_forall in F. apply F. apply nth_In. exact L.
Qed.

(** ** Constructor *)
Lemma mk_filter_ok size addr ids off : ids_in size off ids ->
  fwf size (mk_filter size addr ids off) /\
  fids size (mk_filter size addr ids off) = map (fun x => x - off) ids.
Proof.
  intros I. unfold mk_filter. destruct ids as [|x t]; [split; [exact Logic.I|reflexivity]|].
  pose proof (zb_asc _ _ _ I) as A. pose proof (zb_bound _ _ _ I) as B.
  destruct (length (x :: t) =? size) eqn:E; cbn [fwf fids].
  - split; [exact Logic.I|]. symmetry. apply asc_full; [exact A|exact B|].
    rewrite map_length. lia.
  - split; [|reflexivity]. split; [discriminate|]. split; [|exact I].
    pose proof (asc_len _ _ A B) as L. rewrite zb_len in L. lia.
Qed.
Lemma mk_filter_type size addr ids off : ids_in size off ids ->
  (mk_filter size addr ids off = FEmpty <-> ids = []) /\
  (mk_filter size addr ids off = FFull <-> ids <> [] /\ length ids = size).
Proof.
  intros _. unfold mk_filter. destruct ids as [|x t].
  - split; split; intros H; try reflexivity; try discriminate. destruct H; congruence.
  - destruct (length (x :: t) =? size) eqn:E; split; split; intros H;
      try discriminate; try reflexivity.
    + split; [discriminate|lia].
    + destruct H. lia.
Qed.

(** ** ForEachCommonId *)
Section Common.
Variables (n1 n2 : nat) (f1 f2 : list nat) (off1 off2 : nat).
Hypothesis (I1 : ids_in n1 off1 f1) (I2 : ids_in n2 off2 f2).
Let l1 := zb off1 f1.
Let l2 := zb off2 f2.
Hypothesis (NE1 : f1 <> []) (NE2 : f2 <> []).
Let A1 : ascending l1 := zb_asc _ _ _ I1.
Let A2 : ascending l2 := zb_asc _ _ _ I2.

Definition from (i : nat) : list (nat * nat * nat) :=
  flat_map (fun c => match index_of (snd c) l2 with Some o => [(snd c, fst c, o)] | None => [] end)
    (combine (seq i (length l1 - i)) (skipn i l1)).

Lemma from_step i : i < length l1 ->
  from i = (match index_of (nth i l1 0) l2 with Some o => [(nth i l1 0, i, o)] | None => [] end)
           ++ from (S i).
Proof.
  intros L. unfold from at 1. replace (length l1 - i) with (S (length l1 - S i)) by lia.
  assert (skipn i l1 = nth i l1 0 :: skipn (S i) l1) as ->.
  { clear -L. generalize l1 L. clear. intros l. revert i. induction l as [|x t IH]; intros i L; [simpl in L; lia|].
    destruct i as [|i]; [reflexivity|]. simpl in L. cbn [skipn nth]. rewrite IH by lia. reflexivity. }
  reflexivity.
Qed.
Lemma from_end i : length l1 <= i -> from i = [].
Proof. intros L. unfold from. replace (length l1 - i) with 0 by lia. reflexivity. Qed.
Lemma from_nil i : (forall j, i <= j < length l1 -> ~ In (nth j l1 0) l2) -> from i = [].
Proof.
  remember (length l1 - i) as k eqn:K. revert i K. induction k as [|k IH]; intros i K H.
  - apply from_end. lia.
  - rewrite from_step by lia. rewrite (proj2 (index_of_none _ _)) by (apply H; lia).
    apply IH; [lia|]. intros j Hj. apply H. lia.
Qed.

(** matches of the elements of [l1] from [i] are in [l2] from [j] *)
Definition ahead (i j : nat) : Prop :=
  forall o1 o2, i <= o1 < length l1 -> o2 < length l2 -> nth o1 l1 0 = nth o2 l2 0 -> j <= o2.

Definition mx := Nat.min (nth (length l1 - 1) l1 0) (nth (length l2 - 1) l2 0).

Record inv (i1 id1 i2 id2 : nat) (acc : list (nat * nat * nat)) : Prop := {
  v1 : i1 < length l1; v2 : i2 < length l2;
  e1 : id1 = nth i1 l1 0; e2 : id2 = nth i2 l2 0;
  va : ahead i1 i2; vr : acc ++ from i1 = from 0 }.

Lemma below_max1 i : i < length l1 -> nth i l1 0 < mx -> S i < length l1.
Proof.
  intros L M. destruct (Nat.lt_ge_cases (S i) (length l1)) as [C|C]; [exact C|].
  unfold mx in M. replace i with (length l1 - 1) in M by lia. lia.
Qed.
Lemma below_max2 i : i < length l2 -> nth i l2 0 < mx -> S i < length l2.
Proof.
  intros L M. destruct (Nat.lt_ge_cases (S i) (length l2)) as [C|C]; [exact C|].
  unfold mx in M. replace i with (length l2 - 1) in M by lia. lia.
Qed.
Lemma rd1 i : i < length l1 -> rd_id f1 off1 i = Some (nth i l1 0).
Proof. intros L. rewrite (rd_id_ok n1) by exact I1. apply rd_nth. exact L. Qed.
Lemma rd2 i : i < length l2 -> rd_id f2 off2 i = Some (nth i l2 0).
Proof. intros L. rewrite (rd_id_ok n2) by exact I2. apply rd_nth. exact L. Qed.

(** dropping an element of l1 below l2's current one *)
Lemma drop1 i1 id1 i2 id2 acc : inv i1 id1 i2 id2 acc -> id1 < mx -> id1 < id2 ->
  inv (S i1) (nth (S i1) l1 0) i2 id2 acc.
Proof.
  intros [V1 V2 E1 E2 VA VR] M L. subst id1 id2.
  assert (S i1 < length l1) by (apply below_max1; assumption).
  constructor; auto.
  - intros o1 o2 H1 H2. apply VA; [lia|exact H2].
  - rewrite <- VR. f_equal. rewrite (from_step i1) by exact V1.
    destruct (index_of (nth i1 l1 0) l2) as [o|] eqn:E; [exfalso|reflexivity].
    apply index_of_some in E. destruct E as [Lo Eo].
    assert (i2 <= o) by (apply (VA i1 o); auto; lia).
    assert (nth i2 l2 0 <= nth o l2 0) by (apply asc_le; auto; lia). lia.
Qed.
Lemma drop2 i1 id1 i2 id2 acc : inv i1 id1 i2 id2 acc -> id2 < mx -> id2 < id1 ->
  inv i1 id1 (S i2) (nth (S i2) l2 0) acc.
Proof.
  intros [V1 V2 E1 E2 VA VR] M L. subst id1 id2.
  assert (S i2 < length l2) by (apply below_max2; assumption).
  constructor; auto.
  intros o1 o2 H1 H2 E. pose proof (VA o1 o2 H1 H2 E).
  destruct (Nat.eq_dec o2 i2) as [->|]; [|lia].
  assert (nth i1 l1 0 <= nth o1 l1 0) by (apply asc_le; auto; lia). lia.
Qed.
Lemma emit i1 id1 i2 id2 acc : inv i1 id1 i2 id2 acc -> id1 < mx -> id1 = id2 ->
  inv (S i1) (nth (S i1) l1 0) (S i2) (nth (S i2) l2 0) (acc ++ [(id1, i1, i2)]).
Proof.
  intros [V1 V2 E1 E2 VA VR] M L. subst id1 id2.
  assert (S i1 < length l1) by (apply below_max1; assumption).
  assert (S i2 < length l2) by (apply below_max2; [assumption|lia]).
  constructor; auto.
  - intros o1 o2 H1 H2 E.
    assert (nth i1 l1 0 < nth o1 l1 0) by (apply A1; lia).
    assert (i2 < o2) by (apply (asc_lt_inv l2); auto; lia). lia.
  - rewrite <- VR, (from_step i1) by exact V1. rewrite L.
    rewrite index_of_nth by assumption. rewrite <- app_assoc. reflexivity.
Qed.

(** Advancing by two different bounds; [acc] and l2's iterator do not move. *)
Lemma advance1 fuel bound : forall i1 id1 i2 id2 acc, inv i1 id1 i2 id2 acc ->
  bound <= mx -> (bound <= id2 \/ mx <= id2) -> length l1 - i1 < fuel ->
  exists i1' id1', advance fuel f1 off1 bound i1 id1 = Some (i1', id1') /\
    inv i1' id1' i2 id2 acc /\ bound <= id1' /\ i1 <= i1' /\ (id1 < bound -> i1 < i1').
Proof.
  induction fuel as [|k IH]; intros i1 id1 i2 id2 acc V B C F; [lia|]. cbn [advance].
  destruct (id1 <? bound) eqn:E.
  - pose proof V as V'. destruct V' as [V1 V2 E1 E2 VA VR].
    assert (S i1 < length l1) as L by (apply below_max1; [assumption|lia]).
    rewrite rd1 by exact L. cbn [bind].
    assert (inv (S i1) (nth (S i1) l1 0) i2 id2 acc) as V'.
    { apply (drop1 i1 id1); [exact V|lia|lia]. }
    destruct (IH _ _ _ _ _ V' B C ltac:(lia)) as (a & b & R & V'' & Q & P & _).
    exists a, b. repeat split; auto; try apply V''; lia.
  - exists i1, id1. repeat split; auto; try apply V; lia.
Qed.
Lemma advance2 fuel bound : forall i1 id1 i2 id2 acc, inv i1 id1 i2 id2 acc ->
  bound <= mx -> mx <= id1 -> length l2 - i2 < fuel ->
  exists i2' id2', advance fuel f2 off2 bound i2 id2 = Some (i2', id2') /\
    inv i1 id1 i2' id2' acc /\ bound <= id2'.
Proof.
  induction fuel as [|k IH]; intros i1 id1 i2 id2 acc V B C F; [lia|]. cbn [advance].
  destruct (id2 <? bound) eqn:E.
  - pose proof V as V'. destruct V' as [V1 V2 E1 E2 VA VR].
    assert (S i2 < length l2) as L by (apply below_max2; [assumption|lia]).
    rewrite rd2 by exact L. cbn [bind].
    assert (inv i1 id1 (S i2) (nth (S i2) l2 0) acc) as V'.
    { apply (drop2 i1 id1 i2 id2); [exact V|lia|lia]. }
    destruct (IH _ _ _ _ _ V' B C ltac:(lia)) as (a & b & R & V'' & Q).
    exists a, b. repeat split; auto; apply V''.
  - exists i2, id2. repeat split; auto; try apply V; lia.
Qed.

(** When only one side is below the maximum, the other equals or exceeds it. *)
Lemma common_loop_ok fuel : forall i1 id1 i2 id2 acc, inv i1 id1 i2 id2 acc ->
  (length l1 - i1) + (length l2 - i2) < fuel ->
  exists i1' id1' i2' id2' acc',
    common_loop fuel f1 off1 f2 off2 mx i1 id1 i2 id2 acc = Some (i1', id1', i2', id2', acc') /\
    inv i1' id1' i2' id2' acc' /\ (mx <= id1' \/ mx <= id2').
Proof.
  induction fuel as [|k IH]; intros i1 id1 i2 id2 acc V F; [lia|]. cbn [common_loop].
  destruct ((id1 <? mx) && (id2 <? mx)) eqn:E.
  2:{ exists i1, id1, i2, id2, acc. split; [reflexivity|]. split; [exact V|]. lia. }
  assert (exists j1 jd1 j2 jd2 acc0,
    (if id1 =? id2 then
       let? x := rd_id f1 off1 (S i1) in
       let? y := rd_id f2 off2 (S i2) in
       Some (S i1, x, S i2, y, acc ++ [(id1, i1, i2)])
     else Some (i1, id1, i2, id2, acc)) = Some (j1, jd1, j2, jd2, acc0) /\
    inv j1 jd1 j2 jd2 acc0 /\ i1 <= j1 /\ i2 <= j2 /\
    (i1 < j1 /\ i2 < j2 \/ jd1 <> jd2 /\ jd1 < mx /\ jd2 < mx /\ i1 = j1 /\ i2 = j2)) as (j1 & jd1 & j2 & jd2 & acc0 & R & V0 & G1 & G2 & G).
  { pose proof V as V'. destruct V' as [V1 V2 E1 E2 VA VR].
    destruct (id1 =? id2) eqn:Q.
    - rewrite rd1 by (apply below_max1; [assumption|lia]).
      rewrite rd2 by (apply below_max2; [assumption|lia]). cbn [bind].
      do 5 eexists. split; [reflexivity|]. split; [apply (emit i1 id1 i2 id2); auto; lia|]. lia.
    - do 5 eexists. split; [reflexivity|]. split; [exact V|]. lia. }
  rewrite R. cbn [bind].
  assert (length l1 = length f1) as LL by apply zb_len.
  destruct (advance1 (S (length f1)) (Nat.min mx jd2) j1 jd1 j2 jd2 acc0 V0 ltac:(lia) ltac:(lia)
              ltac:(lia)) as (k1 & kd1 & R1 & V1 & B1 & M1 & P1).
  rewrite R1. cbn [bind].
  assert (exists k2 kd2,
    (if jd2 <? Nat.min mx kd1 then
       let? y := rd_id f2 off2 (S j2) in Some (S j2, y)
     else Some (j2, jd2)) = Some (k2, kd2) /\ inv k1 kd1 k2 kd2 acc0 /\ j2 <= k2 /\
     (jd2 < Nat.min mx kd1 -> j2 < k2))
    as (k2 & kd2 & R2 & V2 & M2 & P2).
  { pose proof V1 as V'. destruct V' as [W1 W2 E1 E2 VA VR].
    destruct (jd2 <? Nat.min mx kd1) eqn:Q.
    - rewrite rd2 by (apply below_max2; [assumption|lia]). cbn [bind].
      do 2 eexists. split; [reflexivity|]. split; [apply (drop2 k1 kd1 j2 jd2); auto; lia|]. lia.
    - do 2 eexists. split; [reflexivity|]. split; [exact V1|]. lia. }
  rewrite R2. cbn [bind].
  assert (i1 < k1 \/ i2 < k2).
  { destruct G as [G|G]; [lia|]. destruct G as (N & Ma & Mb & -> & ->).
    destruct (Nat.lt_ge_cases jd1 jd2) as [C|C]; [left; apply P1; lia|].
    right. apply P2.
    assert (kd1 = jd1 \/ jd1 < Nat.min mx jd2) as [->|]; [|lia|lia].
    left. destruct (Nat.lt_ge_cases jd1 (Nat.min mx jd2)) as [D|D]; [lia|].
    cbn [advance] in R1. replace (jd1 <? Nat.min mx jd2) with false in R1 by lia.
    congruence. }
  pose proof (v1 _ _ _ _ _ V). pose proof (v2 _ _ _ _ _ V).
  pose proof (v1 _ _ _ _ _ V2). pose proof (v2 _ _ _ _ _ V2).
  destruct (IH k1 kd1 k2 kd2 acc0 V2 ltac:(lia)) as (a & b & c & d & e & Q).
  exists a, b, c, d, e. exact Q.
Qed.

Lemma max_le1 i : i < length l1 -> nth i l1 0 <= nth (length l1 - 1) l1 0.
Proof. intros L. apply asc_le; auto. lia. Qed.
Lemma max_le2 i : i < length l2 -> nth i l2 0 <= nth (length l2 - 1) l2 0.
Proof. intros L. apply asc_le; auto. lia. Qed.

(** advance on one side while the other is at the maximum or beyond *)
Lemma for_each_common_ok : for_each_common f1 off1 f2 off2 = Some (common l1 l2).
Proof.
  assert (length l1 = length f1) as LL1 by apply zb_len.
  assert (length l2 = length f2) as LL2 by apply zb_len.
  assert (0 < length l1) as P1 by (rewrite LL1; destruct f1; [congruence|simpl; lia]).
  assert (0 < length l2) as P2 by (rewrite LL2; destruct f2; [congruence|simpl; lia]).
  unfold for_each_common. rewrite (rd1 0), (rd2 0) by lia. cbn [bind].
  rewrite <- LL1, <- LL2. rewrite rd1, rd2 by lia. cbn [bind]. fold mx.
  assert (inv 0 (nth 0 l1 0) 0 (nth 0 l2 0) []) as V.
  { constructor; auto; try lia. intros o1 o2 _ _ _. lia. }
  destruct (common_loop_ok (S (length l1 + length l2)) _ _ _ _ _ V ltac:(lia))
    as (i1 & id1 & i2 & id2 & acc & R & V' & M). rewrite R. cbn [bind].
  assert (exists i1' id1', advance (S (length l1)) f1 off1 mx i1 id1 = Some (i1', id1') /\
            inv i1' id1' i2 id2 acc /\ mx <= id1') as (j1 & jd1 & R1 & V1 & M1).
  { destruct (Nat.lt_ge_cases id1 mx) as [C|C].
    - destruct (advance1 (S (length l1)) mx _ _ _ _ _ V' ltac:(lia) ltac:(lia) ltac:(lia))
        as (a & b & Q & V1 & Q2 & _). exists a, b. auto.
    - exists i1, id1. cbn [advance]. replace (id1 <? mx) with false by lia. auto. }
  rewrite R1. cbn [bind].
  destruct (advance2 (S (length l2)) mx _ _ _ _ _ V1 ltac:(lia) M1 ltac:(lia))
    as (j2 & jd2 & R2 & V2 & M2). rewrite R2. cbn [bind].
  destruct V2 as [W1 W2 E1 E2 VA VR].
  assert (common l1 l2 = from 0) as ->.
  { unfold common, from. rewrite Nat.sub_0_r. reflexivity. }
  rewrite <- VR. f_equal.
  assert (forall i, i < length l1 -> j1 <= i -> In (nth i l1 0) l2 -> nth i l1 0 <= mx) as MM.
  { intros i L G I. destruct (In_nth _ _ 0 I) as (o & Lo & Eo). unfold mx.
    pose proof (max_le1 i L). pose proof (max_le2 o Lo). lia. }
  destruct (jd1 =? jd2) eqn:Q.
  - rewrite (from_step j1) by exact W1.
    assert (nth j1 l1 0 = nth j2 l2 0) as E by lia.
    rewrite E. rewrite index_of_nth by assumption. rewrite <- E, <- E1.
    rewrite (from_nil (S j1)); [reflexivity|]. intros j Hj I.
    apply MM in I; [|lia|lia]. assert (nth j1 l1 0 < nth j l1 0) by (apply A1; lia). lia.
  - rewrite (from_nil j1); [rewrite app_nil_r; reflexivity|]. intros j Hj I.
    pose proof I as I'. apply MM in I'; [|lia|lia].
    assert (nth j1 l1 0 <= nth j l1 0) by (apply asc_le; auto; lia).
    destruct (In_nth _ _ 0 I) as (o & Lo & Eo).
    assert (j2 <= o) by (apply (VA j o); auto; lia).
    assert (nth j2 l2 0 <= nth o l2 0) by (apply asc_le; auto; lia). lia.
Qed.
End Common.

Lemma common_in l m x o1 o2 : ascending l -> ascending m ->
  (In (x, o1, o2) (common l m) <->
   o1 < length l /\ nth o1 l 0 = x /\ o2 < length m /\ nth o2 m 0 = x).
Proof.
  intros Al Am. unfold common. rewrite in_flat_map. split.
  - intros ((k & y) & Hc & Hin). cbn [fst snd] in Hin.
    destruct (index_of y m) as [o|] eqn:E; [|destruct Hin].
    destruct Hin as [Q|[]]. assert (y = x /\ k = o1 /\ o = o2) as (-> & -> & ->) by (repeat split; congruence).
    apply index_of_some in E.
    apply (In_nth _ _ (0, 0)) in Hc. destruct Hc as (j & Lj & Ej).
    rewrite combine_length, seq_length, Nat.min_id in Lj.
    rewrite combine_nth in Ej by apply seq_length. rewrite seq_nth in Ej by lia.
    assert (j = o1 /\ nth j l 0 = x) as [-> Ex] by (split; cbn [plus] in Ej; congruence).
    tauto.
  - intros (L1 & E1 & L2 & E2). exists (o1, x). split.
    + assert (nth o1 (combine (seq 0 (length l)) l) (0, 0) = (o1, x)) as Q.
      { rewrite combine_nth by apply seq_length. rewrite seq_nth by exact L1. cbn [plus]. congruence. }
      rewrite <- Q. apply nth_In. rewrite combine_length, seq_length. lia.
    + cbn [fst snd]. rewrite <- E2. rewrite index_of_nth by assumption. left. reflexivity.
Qed.

(** ** UpperBoundMerge *)
Lemma tail_ids_ok n l off : ids_in n off l -> tail_ids l off = Some (zb off l).
Proof.
  intros [A F]. clear A. induction l as [|x t IH]; [reflexivity|].
  inversion F; subst. cbn [tail_ids]. rewrite IH by assumption. cbn [bind].
  replace (off <=? x) with true by lia. reflexivity.
Qed.
Lemma ids_in_tail n off x t : ids_in n off (x :: t) -> ids_in n off t.
Proof. intros [A F]. inversion F; subst. split; [apply (asc_tail x t A)|assumption]. Qed.

Lemma merge_loop_ok n fuel : forall a oa b ob, ids_in n oa a -> ids_in n ob b ->
  length a + length b < fuel ->
  exists r, merge_loop fuel a oa b ob = Some r /\ ascending r /\
    (forall x, In x r <-> In x (zb oa a) \/ In x (zb ob b)).
Proof.
  induction fuel as [|k IH]; intros a oa b ob Ia Ib F; [lia|]. cbn [merge_loop].
  destruct a as [|x ta].
  { destruct b as [|y tb].
    - exists []. cbn [tail_ids]. split; [reflexivity|]. split; [apply asc_nil|]. simpl. tauto.
    - rewrite (tail_ids_ok n) by exact Ib. eexists; split; [reflexivity|].
      split; [apply (zb_asc n); exact Ib|]. intros z. simpl. tauto. }
  destruct b as [|y tb].
  { rewrite (tail_ids_ok n) by exact Ia. eexists; split; [reflexivity|].
    split; [apply (zb_asc n); exact Ia|]. intros z. simpl. tauto. }
  pose proof (zb_asc n _ _ Ia) as Za. pose proof (zb_asc n _ _ Ib) as Zb.
  apply asc_tail in Za as [Za Fa]. apply asc_tail in Zb as [Zb Fb].
  assert (oa <= x) as Lx by (destruct Ia as [_ Q]; inversion Q; subst; lia).
  assert (ob <= y) as Ly by (destruct Ib as [_ Q]; inversion Q; subst; lia).
  replace ((oa <=? x) && (ob <=? y)) with true by lia.
  pose proof (ids_in_tail _ _ _ _ Ia) as Ia'. pose proof (ids_in_tail _ _ _ _ Ib) as Ib'.
  simpl in F.
  fold (zb oa ta) in Fa. fold (zb ob tb) in Fb. rewrite Forall_forall in Fa, Fb.
  set (va := x - oa) in *. set (vb := y - ob) in *.
  assert (ids_in n oa (if va =? Nat.min va vb then ta else x :: ta)) as Ia2
    by (destruct (va =? Nat.min va vb); assumption).
  assert (ids_in n ob (if vb =? Nat.min va vb then tb else y :: tb)) as Ib2
    by (destruct (vb =? Nat.min va vb); assumption).
  assert (length (if va =? Nat.min va vb then ta else x :: ta) +
          length (if vb =? Nat.min va vb then tb else y :: tb) < k) as LL.
  { destruct (va =? Nat.min va vb) eqn:E1; destruct (vb =? Nat.min va vb) eqn:E2; simpl; lia. }
  destruct (IH _ _ _ _ Ia2 Ib2 LL) as (r & R & Ar & In_r). rewrite R. cbn [bind].
  exists (Nat.min va vb :: r). split; [reflexivity|]. split.
  - apply asc_cons; [exact Ar|]. apply Forall_forall. intros z Hz. apply In_r in Hz.
    destruct Hz as [Hz|Hz].
    + destruct (va =? Nat.min va vb) eqn:E1; [apply Fa in Hz; lia|].
      cbn [zb map In] in Hz. fold va in Hz. destruct Hz as [<-|Hz]; [lia|].
      apply Fa in Hz. lia.
    + destruct (vb =? Nat.min va vb) eqn:E1; [apply Fb in Hz; lia|].
      cbn [zb map In] in Hz. fold vb in Hz. destruct Hz as [<-|Hz]; [lia|].
      apply Fb in Hz. lia.
  - intros z. cbn [In]. rewrite In_r. cbn [zb map In]. fold va vb. fold (zb oa ta) (zb ob tb).
    destruct (va =? Nat.min va vb) eqn:E1; destruct (vb =? Nat.min va vb) eqn:E2;
      cbn [zb map In]; fold va vb; fold (zb oa ta) (zb ob tb); try lia.
    + replace (Nat.min va vb) with va by lia. replace vb with va by lia. tauto.
    + replace (Nat.min va vb) with va by lia. tauto.
    + replace (Nat.min va vb) with vb by lia. tauto.
Qed.

Lemma ids_in_0 n r : ascending r -> (forall x, In x r -> x < n) -> ids_in n 0 r.
Proof. intros A H. split; [exact A|]. apply Forall_forall. intros x Hx. apply H in Hx. lia. Qed.
Lemma zb_0 r : zb 0 r = r.
Proof. unfold zb. rewrite <- (map_id r) at 2. apply map_ext. intros x. lia. Qed.

(** [r] is the union of [f] and [g], or everything. *)
Definition union_of n (f g r : idf) : Prop :=
  r = FFull \/ forall x, In x (fids n r) <-> In x (fids n f) \/ In x (fids n g).

Lemma list_eqb_nat l m : list_eqb Nat.eqb l m = true -> l = m.
Proof. intros H. apply (list_eqb_ok Nat.eqb l m); [|exact H]. intros x y. apply Nat.eqb_eq. Qed.
Lemma is_same_eq f g : is_same f g = true -> f = g.
Proof.
  destruct f as [| |a i o], g as [| |b j p]; cbn [is_same]; intros H; try discriminate; try reflexivity.
  apply andb_prop in H as [H H3]. apply andb_prop in H as [H1 H2].
  apply list_eqb_nat in H3. f_equal; [lia|exact H3|lia].
Qed.

Lemma merge_impl_ok addr n f g : fwf n f -> fwf n g ->
  exists r, merge_impl addr n f g = Some r /\ fwf n r /\ union_of n f g r.
Proof.
  intros Hf Hg. unfold merge_impl.
  destruct f as [| |a ia oa]; [| |].
  - exists g. split; [reflexivity|]. split; [exact Hg|]. right. intros x. cbn [fids In]. tauto.
  - destruct g as [| |b ib ob]; eexists; (split; [reflexivity|]); (split; [exact I|]); left; reflexivity.
  - destruct g as [| |b ib ob].
    + eexists; split; [reflexivity|]. split; [exact Hf|]. right. intros x. cbn [fids In]. tauto.
    + eexists; split; [reflexivity|]. split; [exact I|]. left. reflexivity.
    + destruct (is_same (FPartial a ia oa) (FPartial b ib ob)) eqn:Q.
      { apply is_same_eq in Q. rewrite <- Q. eexists; split; [reflexivity|].
        split; [exact Hf|]. right. tauto. }
      destruct (n <=? 4 * Nat.max (length ia) (length ib)) eqn:E.
      { eexists; split; [reflexivity|]. split; [exact I|]. left. reflexivity. }
      destruct Hf as (_ & _ & Ia). destruct Hg as (_ & _ & Ib).
      destruct (merge_loop_ok n (S (length ia + length ib)) ia oa ib ob Ia Ib ltac:(lia))
        as (r & R & Ar & Hr). rewrite R. cbn [bind].
      assert (ids_in n 0 r) as Ir.
      { apply ids_in_0; [exact Ar|]. intros x Hx. apply Hr in Hx.
        pose proof (zb_bound n oa ia Ia) as Ba. pose proof (zb_bound n ob ib Ib) as Bb.
        rewrite Forall_forall in Ba, Bb. destruct Hx; auto. }
      destruct (mk_filter_ok n addr r 0 Ir) as [Wm Fm].
      eexists; split; [reflexivity|]. split; [exact Wm|]. right. intros x. rewrite Fm.
      fold (zb 0 r). rewrite zb_0. apply Hr.
Qed.

Lemma merge_all_ok addr n : forall fs f, Forall (fwf n) (f :: fs) ->
  exists r, merge_all addr n f fs = Some r /\ fwf n r /\
    (r = FFull \/ forall x, In x (fids n r) <-> exists g, In g (f :: fs) /\ In x (fids n g)).
Proof.
  induction fs as [|g t IH]; intros f H; cbn [merge_all].
  - inversion H; subst. exists f. split; [reflexivity|]. split; [assumption|]. right.
    intros x. split; [intros Hx; exists f; simpl; auto|]. intros (g & [<-|[]] & Hg). exact Hg.
  - inversion H as [|? ? Hf Ht]; subst. destruct (IH g Ht) as (r & R & Wr & Ur).
    rewrite R. cbn [bind].
    destruct (merge_impl_ok (addr (length t)) n f r Hf Wr) as (q & Q & Wq & Uq).
    exists q. split; [exact Q|]. split; [exact Wq|].
    destruct Uq as [Uq|Uq]; [left; exact Uq|].
    destruct Ur as [Ur|Ur].
    + left. subst r. destruct f as [| |a i o]; cbn [merge_impl] in Q; congruence.
    + right. intros x. rewrite Uq, Ur. split.
      * intros [Hx|(h & Hh & Hx)]; [exists f; simpl; auto|]. exists h. simpl in *. tauto.
      * intros (h & [<-|Hh] & Hx); [left; exact Hx|]. right. exists h. auto.
Qed.
Lemma fids_full n r x : r = FFull -> In x (fids n r) <-> x < n.
Proof. intros ->. cbn [fids]. rewrite in_seq. lia. Qed.

Lemma merge_contains addr n f fs r g x : Forall (fwf n) (f :: fs) ->
  merge_all addr n f fs = Some r -> In g (f :: fs) -> In x (fids n g) -> In x (fids n r).
Proof.
  intros H R Hg Hx. destruct (merge_all_ok addr n fs f H) as (r' & R' & Wr & U).
  assert (r' = r) by congruence. subst r'. destruct U as [U|U].
  - apply fids_full; [exact U|]. rewrite Forall_forall in H. apply H in Hg.
    apply fids_asc in Hg. destruct Hg as [_ B]. rewrite Forall_forall in B. auto.
  - apply U. exists g. auto.
Qed.

(** ** UpperBoundIntersect *)
Lemma intersect_impl_one f g : intersect_impl f g = f \/ intersect_impl f g = g.
Proof.
  destruct f as [| |a i o], g as [| |b j p]; cbn [intersect_impl]; auto.
  destruct (length i <? length j); auto.
Qed.
Lemma intersect_impl_small n f g : fwf n f -> fwf n g ->
  length (fids n (intersect_impl f g)) = Nat.min (length (fids n f)) (length (fids n g)).
Proof.
  intros Hf Hg.
  assert (length (fids n f) <= n) by (apply fids_asc in Hf; apply asc_len; apply Hf).
  assert (length (fids n g) <= n) by (apply fids_asc in Hg; apply asc_len; apply Hg).
  assert (length (fids n FFull) = n) as Lf by (cbn [fids]; apply seq_length).
  destruct f as [| |a i o]; destruct g as [| |b j p]; unfold intersect_impl;
    try (cbn [fids length] in *; rewrite ?seq_length in *; lia).
  destruct (length i <? length j) eqn:E; cbn [fids] in *; rewrite !map_length in *; lia.
Qed.
Lemma intersect_all_ok n : forall fs f, Forall (fwf n) (f :: fs) ->
  In (intersect_all f fs) (f :: fs) /\
  (forall g, In g (f :: fs) -> length (fids n (intersect_all f fs)) <= length (fids n g)) /\
  forall x, (forall g, In g (f :: fs) -> In x (fids n g)) -> In x (fids n (intersect_all f fs)).
Proof.
  intros fs f H.
  assert (In (intersect_all f fs) (f :: fs) /\
    forall g, In g (f :: fs) -> length (fids n (intersect_all f fs)) <= length (fids n g)) as [A B].
  2:{ split; [exact A|]. split; [exact B|]. intros x Hx. apply Hx. exact A. }
  revert f H. induction fs as [|g t IH]; intros f H; cbn [intersect_all].
  - split; [left; reflexivity|]. intros g [<-|[]]. lia.
  - inversion H as [|? ? Hf Ht]; subst. destruct (IH g Ht) as [I1 I2].
    assert (fwf n (intersect_all g t)) as Wt.
    { rewrite Forall_forall in Ht. apply Ht. exact I1. }
    split.
    + destruct (intersect_impl_one f (intersect_all g t)) as [->| ->]; [left; reflexivity|].
      right. exact I1.
    + intros h [<-|Hh]; rewrite intersect_impl_small by assumption; [lia|].
      specialize (I2 h Hh). lia.
Qed.

Lemma asc_filter p l : ascending l -> ascending (filter p l).
Proof.
  induction l as [|x t IH]; intros H; [exact H|]. apply asc_tail in H as [H F]. simpl.
  destruct (p x); [|apply IH; exact H]. apply asc_cons; [apply IH; exact H|].
  apply Forall_forall. intros y Hy. apply filter_In in Hy. rewrite Forall_forall in F. apply F. tauto.
Qed.
Lemma common_asc l m : ascending l -> ascending (map (fun c => fst (fst c)) (common l m)).
Proof.
  intros H.
  assert (map (fun c => fst (fst c)) (common l m) =
          filter (fun x => match index_of x m with Some _ => true | None => false end) l) as ->;
    [|apply asc_filter; exact H].
  clear H. unfold common. generalize 0 as k. induction l as [|x t IH]; intros k; [reflexivity|].
  cbn [length seq combine flat_map filter fst snd]. rewrite map_app, IH.
  destruct (index_of x m); reflexivity.
Qed.
Lemma partial_common n m f g l k : fwf n f -> fwf m g -> l = fids n f -> k = fids m g ->
  (exists a i o, f = FPartial a i o) -> (exists a i o, g = FPartial a i o) ->
  intersect_partial f g = Some (common l k).
Proof.
  intros Hf Hg -> -> (a & i & o & ->) (b & j & p & ->). cbn [intersect_partial].
  destruct Hf as (N1 & _ & I1). destruct Hg as (N2 & _ & I2).
  rewrite (for_each_common_ok n m i j o p I1 I2 N1 N2). reflexivity.
Qed.
