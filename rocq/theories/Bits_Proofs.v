(** Proofs about [Bits_Model]. *)
From Verif Require Import Base Bits_Model.

(** The bit vector as a total predicate (false outside). *)
Definition bit (w : nat) (ws : list N) (i : nat) : bool :=
  match get_bit w ws i with Some b => b | None => false end.

(** Counting. *)
Definition cnt (f : nat -> bool) (from n : nat) : nat := length (filter f (seq from n)).

Lemma cnt_split f from a b : cnt f from (a + b) = cnt f from a + cnt f (from + a) b.
Proof. unfold cnt. rewrite seq_app, filter_app, app_length. reflexivity. Qed.

Lemma cnt_ext f g from n :
  (forall i, from <= i < from + n -> f i = g i) -> cnt f from n = cnt g from n.
Proof.
  intros H. unfold cnt. f_equal. apply filter_ext_in. intros i Hi.
  apply in_seq in Hi. apply H. lia.
Qed.

Lemma cnt_shift f g from from' n :
  (forall i, i < n -> f (from + i) = g (from' + i)) -> cnt f from n = cnt g from' n.
Proof.
  revert from from'; induction n as [|n IH]; intros from from' H; [reflexivity|].
  change (S n) with (1 + n). rewrite !cnt_split. f_equal.
  - unfold cnt. simpl. specialize (H 0 ltac:(lia)). rewrite !Nat.add_0_r in H. rewrite H.
    destruct (g from'); reflexivity.
  - apply IH. intros i Hi. specialize (H (S i) ltac:(lia)).
    rewrite <- !Nat.add_assoc. exact H.
Qed.

Lemma cnt_false f from n : (forall i, from <= i < from + n -> f i = false) -> cnt f from n = 0.
Proof.
  revert from; induction n as [|n IH]; intros from H; [reflexivity|].
  unfold cnt in *. simpl. rewrite H by lia. apply IH. intros i Hi. apply H. lia.
Qed.

Lemma cnt_S f from n : cnt f from (S n) = (if f from then 1 else 0) + cnt f (S from) n.
Proof. unfold cnt. simpl. destruct (f from); reflexivity. Qed.

Section W.
Variable w : nat.
Hypothesis Hw : 0 < w.

Lemma lex_le a b c d : b < w -> d < w ->
  (w * a + b <= w * c + d <-> a < c \/ (a = c /\ b <= d)).
Proof. intros Hb Hd. split; intros H; nia. Qed.

Lemma lex_lt a b c d : b < w -> d < w ->
  (w * a + b < w * c + d <-> a < c \/ (a = c /\ b < d)).
Proof. intros Hb Hd. split; intros H; nia. Qed.

Lemma idx_divmod q r : r < w -> (w * q + r) / w = q /\ (w * q + r) mod w = r.
Proof.
  intros Hr. split.
  - apply div_eq_iff; lia.
  - pose proof (divmod w (w * q + r) Hw) as [E _].
    assert ((w * q + r) / w = q) as Hq by (apply div_eq_iff; lia).
    rewrite Hq in E. lia.
Qed.

Lemma get_bit_at ws q r : r < w ->
  get_bit w ws (w * q + r) = let? x := rd ws q in Some (tb x r).
Proof.
  intros Hr. unfold get_bit. destruct (idx_divmod q r Hr) as [-> ->]. reflexivity.
Qed.

Lemma get_bit_Some ws i : i < w * length ws -> exists b, get_bit w ws i = Some b.
Proof.
  intros H. unfold get_bit. destruct (rd_lt ws (i / w)) as [x E].
  { apply div_lt_iff; assumption. }
  rewrite E. simpl. eauto.
Qed.

Lemma get_bit_None ws i : w * length ws <= i <-> get_bit w ws i = None.
Proof.
  unfold get_bit. split; intros H.
  - assert (rd ws (i / w) = None) as ->; [|reflexivity].
    apply rd_None_ge. pose proof (div_lt_iff w i (length ws) Hw). lia.
  - destruct (rd ws (i / w)) eqn:E; [discriminate|].
    apply rd_None_ge in E. pose proof (div_lt_iff w i (length ws) Hw). lia.
Qed.

Lemma get_bit_upd ws ws' k x i :
  upd ws k x = Some ws' ->
  get_bit w ws' i = if i / w =? k then Some (tb x (i mod w)) else get_bit w ws i.
Proof.
  intros H. apply upd_spec in H as (_ & _ & H). unfold get_bit.
  rewrite H. destruct (i / w =? k); reflexivity.
Qed.

Lemma set_bit_ok ws i : i < w * length ws ->
  exists ws', set_bit w ws i = Some ws' /\ length ws' = length ws /\
    forall j, get_bit w ws' j = if j =? i then Some true else get_bit w ws j.
Proof.
  intros H. unfold set_bit.
  assert (i / w < length ws) as Hl by (apply div_lt_iff; assumption).
  destruct (rd_lt ws (i / w) Hl) as [x Ex]. rewrite Ex. cbn [bind].
  destruct (divmod w i Hw) as [Ei Hi].
  destruct (wshl_def w 1 (i mod w) Hi) as [m Em]. rewrite Em. cbn [bind].
  destruct (upd_lt ws (i / w) (N.lor x m) Hl) as [ws' E].
  exists ws'. split; [exact E|]. split; [apply upd_spec in E; tauto|].
  intros j. rewrite (get_bit_upd _ _ _ _ _ E).
  destruct (divmod w j Hw) as [Ej Hj].
  rewrite tb_lor, (tb_wshl _ _ _ _ _ Em).
  replace (j mod w <? w) with true by lia.
  destruct (Nat.eqb_spec (j / w) (i / w)) as [Eq|Ne].
  - destruct (Nat.eqb_spec j i) as [->|Nj].
    + replace (i mod w <=? i mod w) with true by lia.
      replace (i mod w - i mod w) with 0 by lia. simpl.
      rewrite orb_true_r. reflexivity.
    + unfold get_bit. rewrite Eq, Ex. simpl. f_equal.
      assert (j mod w <> i mod w) as Hne by (intros E2; rewrite Eq, E2 in Ej; lia).
      destruct (Nat.leb_spec (i mod w) (j mod w)); simpl; [|apply orb_false_r].
      unfold tb at 2. destruct (N.of_nat (j mod w - i mod w)) as [|p] eqn:En; [lia|].
      replace (N.testbit 1 (N.pos p)) with false by (symmetry; apply N.bits_above_log2; simpl; lia).
      apply orb_false_r.
  - destruct (Nat.eqb_spec j i) as [->|Nj]; [congruence|reflexivity].
Qed.

Lemma fill_words_ok n : forall ws p v, p + n <= length ws ->
  exists ws', fill_words ws p n v = Some ws' /\ length ws' = length ws /\
    forall j, rd ws' j = if (p <=? j) && (j <? p + n) then Some v else rd ws j.
Proof.
  induction n as [|n IH]; intros ws p v H.
  - exists ws. split; [reflexivity|]. split; [reflexivity|].
    intros j. replace ((p <=? j) && (j <? p + 0)) with false by lia. reflexivity.
  - cbn [fill_words]. destruct (upd_lt ws p v) as [ws1 E1]; [lia|].
    rewrite E1. cbn [bind]. apply upd_spec in E1 as (_ & L1 & R1).
    destruct (IH ws1 (S p) v) as (ws' & E & L & R); [lia|].
    exists ws'. split; [exact E|]. split; [lia|].
    intros j. rewrite R, R1.
    destruct (Nat.eqb_spec j p) as [->|Nj].
    + replace ((S p <=? p) && _) with false by lia.
      replace ((p <=? p) && (p <? p + S n)) with true by lia. reflexivity.
    + replace ((p <=? j) && (j <? p + S n)) with ((S p <=? j) && (j <? S p + n)) by lia.
      reflexivity.
Qed.

Lemma end_mask_amount e : 0 < e ->
  ((e - 1) / w + 1) * w - e = w - 1 - (e - 1) mod w /\ w - 1 - (e - 1) mod w < w.
Proof.
  intros He. destruct (divmod w (e - 1) Hw) as [E L]. nia.
Qed.

Lemma set_bits_in_range_ok ws s e : s <= e -> e <= w * length ws ->
  exists ws', set_bits_in_range w ws s e = Some ws' /\ length ws' = length ws /\
    forall i, get_bit w ws' i =
      if (s <=? i) && (i <? e) then Some true else get_bit w ws i.
Proof.
  intros Hse He. unfold set_bits_in_range.
  destruct (Nat.eqb_spec s e) as [->|Ne].
  { exists ws. split; [reflexivity|]. split; [reflexivity|].
    intros i. replace ((e <=? i) && (i <? e)) with false by lia. reflexivity. }
  destruct (divmod w s Hw) as [Es Ls]. destruct (divmod w (e - 1) Hw) as [Ee Le].
  destruct (end_mask_amount e ltac:(lia)) as [Ea La]. rewrite Ea.
  set (sw := s / w) in *. set (sr := s mod w) in *.
  set (ew := (e - 1) / w) in *. set (er := (e - 1) mod w) in *.
  assert (Hew : ew < length ws) by (apply div_lt_iff; lia).
  assert (Hlex : sw < ew \/ (sw = ew /\ sr <= er)) by (apply lex_le; lia).
  destruct (wshl_def w (wones w) sr Ls) as [sm Esm].
  destruct (wshr_def w (wones w) (w - 1 - er) La) as [em Eem].
  rewrite Esm, Eem. cbn [bind].
  destruct (rd_lt ws sw) as [x Ex]; [lia|]. rewrite Ex. cbn [bind].
  assert (Hsm : forall r, r < w -> tb sm r = (sr <=? r)).
  { intros r Hr. rewrite (tb_wshl _ _ _ _ _ Esm), tb_ones. lia. }
  assert (Hem : forall r, r < w -> tb em r = (r <=? er)).
  { intros r Hr. rewrite (tb_wshr _ _ _ _ _ Eem), tb_ones. lia. }
  assert (Hrange : forall q r, r < w ->
    ((s <=? w * q + r) && (w * q + r <? e)) =
    (((sw <? q) || ((sw =? q) && (sr <=? r))) && ((q <? ew) || ((q =? ew) && (r <=? er))))).
  { intros q r Hr. pose proof (lex_le sw sr q r Ls Hr). pose proof (lex_le q r ew er Hr Le). lia. }
  destruct (Nat.eqb_spec ew sw) as [Eq|Nq].
  - destruct (upd_lt ws sw (N.lor x (N.land sm em))) as [ws' E]; [lia|].
    exists ws'. split; [exact E|]. split; [apply upd_spec in E; tauto|].
    intros i. rewrite (get_bit_upd _ _ _ _ _ E).
    destruct (divmod w i Hw) as [Ei Li].
    set (q := i / w) in *. set (r := i mod w) in *.
    rewrite Ei, Hrange, get_bit_at by exact Li.
    rewrite tb_lor, tb_land, Hsm, Hem by exact Li.
    destruct (Nat.eqb_spec q sw) as [->|Nqs].
    + rewrite Ex. simpl. rewrite Eq.
      replace (sw <? sw) with false by lia. replace (sw =? sw) with true by lia. simpl.
      destruct ((sr <=? r) && (r <=? er)); [rewrite orb_true_r|rewrite orb_false_r]; reflexivity.
    + rewrite Eq. replace (_ && _) with false by lia. reflexivity.
  - assert (sw < ew) as Hlt by lia.
    destruct (upd_lt ws sw (N.lor x sm)) as [ws1 E1]; [lia|]. rewrite E1. cbn [bind].
    apply upd_spec in E1 as (_ & L1 & R1).
    destruct (fill_words_ok (ew - S sw) ws1 (S sw) (wones w)) as (ws2 & E2 & L2 & R2); [lia|].
    rewrite E2. cbn [bind].
    destruct (rd_lt ws2 ew) as [y Ey]; [lia|]. rewrite Ey. cbn [bind].
    destruct (upd_lt ws2 ew (N.lor y em)) as [ws' E]; [lia|].
    exists ws'. split; [exact E|]. apply upd_spec in E as (_ & L & R).
    split; [lia|].
    assert (Hy : rd ws ew = Some y).
    { rewrite R2, R1 in Ey.
      replace ((S sw <=? ew) && _) with false in Ey by lia.
      replace (ew =? sw) with false in Ey by lia. exact Ey. }
    intros i. destruct (divmod w i Hw) as [Ei Li].
    set (q := i / w) in *. set (r := i mod w) in *.
    rewrite Ei, Hrange, !get_bit_at by exact Li.
    rewrite R, R2, R1.
    destruct (Nat.eqb_spec q ew) as [->|Nqe].
    + rewrite Hy. cbn [bind]. rewrite tb_lor, Hem by exact Li.
      replace (ew <? ew) with false by lia. replace (sw <? ew) with true by lia.
      simpl. destruct (r <=? er); [rewrite orb_true_r|rewrite orb_false_r]; reflexivity.
    + destruct (Nat.eqb_spec q sw) as [->|Nqs].
      * replace ((S sw <=? sw) && _) with false by lia.
        rewrite Ex. cbn [bind]. rewrite tb_lor, Hsm by exact Li.
        replace (sw <? sw) with false by lia. replace (sw =? sw) with true by lia.
        replace (sw <? ew) with true by lia. simpl.
        destruct (sr <=? r); [rewrite orb_true_r|rewrite orb_false_r]; reflexivity.
      * destruct (Nat.lt_ge_cases sw q) as [Hq|Hq].
        -- destruct (Nat.lt_ge_cases q ew) as [Hq'|Hq'].
           ++ replace ((S sw <=? q) && _) with true by lia. cbn [bind].
              rewrite tb_ones. replace (r <? w) with true by lia.
              replace (_ && _) with true by lia. reflexivity.
           ++ replace ((S sw <=? q) && _) with false by lia.
              replace ((_ || _) && _) with false by lia. reflexivity.
        -- replace ((S sw <=? q) && _) with false by lia.
           replace ((_ || _) && _) with false by lia. reflexivity.
Qed.

Lemma count_ones_cnt x : count_ones w x = cnt (tb x) 0 w.
Proof. reflexivity. Qed.

Lemma count_word ws q x : rd ws q = Some x -> count_ones w x = cnt (bit w ws) (w * q) w.
Proof.
  intros E. rewrite count_ones_cnt. apply cnt_shift. intros i Hi. simpl.
  unfold bit. rewrite get_bit_at by exact Hi. rewrite E. reflexivity.
Qed.

Lemma sum_ones_ok ws n : forall p acc, p + n <= length ws ->
  sum_ones w ws p n acc = Some (acc + cnt (bit w ws) (w * p) (w * n)).
Proof.
  induction n as [|n IH]; intros p acc H.
  - rewrite Nat.mul_0_r. unfold cnt. simpl. f_equal. lia.
  - cbn [sum_ones]. destruct (rd_lt ws p) as [x E]; [lia|]. rewrite E. cbn [bind].
    rewrite IH by lia. f_equal. rewrite (count_word _ _ _ E).
    replace (w * S n) with (w + w * n) by lia. rewrite cnt_split.
    replace (w * S p) with (w * p + w) by lia. lia.
Qed.

(** Bits [r1 <= r < r2] of one word counted through masks. *)
Lemma count_masked (x m : N) lo n : lo + n <= w ->
  (forall r, r < w -> tb m r = (lo <=? r) && (r <? lo + n)) ->
  count_ones w (N.land x m) = cnt (tb x) lo n.
Proof.
  intros Hb Hm. rewrite count_ones_cnt.
  replace w with (lo + (n + (w - lo - n))) at 1 by lia.
  rewrite cnt_split, cnt_split. simpl.
  rewrite (cnt_false _ 0 lo).
  2:{ intros i Hi. rewrite tb_land, Hm by lia. replace (lo <=? i) with false by lia. apply andb_false_r. }
  rewrite (cnt_false _ (lo + n) _).
  2:{ intros i Hi. rewrite tb_land, Hm by lia. replace (i <? lo + n) with false by lia. rewrite andb_false_r. apply andb_false_r. }
  rewrite Nat.add_0_r. simpl. apply cnt_ext. intros i Hi. rewrite tb_land, Hm by lia.
  replace (_ && (i <? _)) with true by lia. apply andb_true_r.
Qed.

Lemma get_ones_count_ok ws s e : s <= e -> e <= w * length ws ->
  get_ones_count_in_range w ws s e = Some (cnt (bit w ws) s (e - s)).
Proof.
  intros Hse He. unfold get_ones_count_in_range.
  destruct (Nat.eqb_spec s e) as [->|Ne].
  { replace (e - e) with 0 by lia. reflexivity. }
  destruct (divmod w s Hw) as [Es Ls]. destruct (divmod w (e - 1) Hw) as [Ee Le].
  destruct (end_mask_amount e ltac:(lia)) as [Ea La]. rewrite Ea.
  set (sw := s / w) in *. set (sr := s mod w) in *.
  set (ew := (e - 1) / w) in *. set (er := (e - 1) mod w) in *.
  assert (Hew : ew < length ws) by (apply div_lt_iff; lia).
  assert (Hlex : sw < ew \/ (sw = ew /\ sr <= er)) by (apply lex_le; lia).
  destruct (wshl_def w (wones w) sr Ls) as [sm Esm].
  destruct (wshr_def w (wones w) (w - 1 - er) La) as [em Eem].
  rewrite Esm, Eem. cbn [bind].
  destruct (rd_lt ws sw) as [x Ex]; [lia|]. rewrite Ex. cbn [bind].
  assert (Hsm : forall r, r < w -> tb sm r = (sr <=? r)).
  { intros r Hr. rewrite (tb_wshl _ _ _ _ _ Esm), tb_ones. lia. }
  assert (Hem : forall r, r < w -> tb em r = (r <=? er)).
  { intros r Hr. rewrite (tb_wshr _ _ _ _ _ Eem), tb_ones. lia. }
  assert (Hb : forall q z r, rd ws q = Some z -> r < w -> bit w ws (w * q + r) = tb z r).
  { intros q z r Hz Hr. unfold bit. rewrite get_bit_at, Hz by exact Hr. reflexivity. }
  destruct (Nat.eqb_spec ew sw) as [Eq|Nq].
  - f_equal. rewrite <- N.land_assoc.
    rewrite (count_masked x _ sr (S er - sr)); [|lia|].
    2:{ intros r Hr. rewrite tb_land, Hsm, Hem by exact Hr. lia. }
    replace (e - s) with (S er - sr) by nia.
    apply cnt_shift. intros i Hi. rewrite Es, <- Nat.add_assoc. rewrite (Hb sw x) by (assumption || lia). reflexivity.
  - assert (sw < ew) as Hlt by lia.
    rewrite sum_ones_ok by lia. cbn [bind].
    destruct (rd_lt ws ew) as [y Ey]; [lia|]. rewrite Ey. cbn [bind]. f_equal.
    rewrite (count_masked x _ sr (w - sr)); [|lia|].
    2:{ intros r Hr. rewrite Hsm by exact Hr. lia. }
    rewrite (count_masked y _ 0 (S er)); [|lia|].
    2:{ intros r Hr. rewrite Hem by exact Hr. lia. }
    replace (e - s) with ((w - sr) + (w * (ew - S sw) + S er)) by nia.
    rewrite !cnt_split, Nat.add_assoc. f_equal; [f_equal|].
    + apply cnt_shift. intros i Hi. rewrite Es, <- Nat.add_assoc. rewrite (Hb sw x) by (assumption || lia). reflexivity.
    + f_equal. nia.
    + apply cnt_shift. intros i Hi. simpl. rewrite <- (Hb ew y i) by (assumption || lia). f_equal. nia.
Qed.

(** Searching. *)
Lemma find_lsb_ok x : x <> 0%N -> wok w x ->
  exists b, find_lsb w x = Some b /\ b < w /\ tb x b = true /\
            forall i, i < b -> tb x i = false.
Proof.
  intros Hx Ho. unfold find_lsb.
  assert (Hgen : forall n from, (exists i, from <= i < from + n /\ tb x i = true) ->
    exists b, find (tb x) (seq from n) = Some b /\ from <= b < from + n /\ tb x b = true /\
      forall i, from <= i < b -> tb x i = false).
  { induction n as [|n IH]; intros from (i & Hi & Ht); [lia|].
    simpl. destruct (tb x from) eqn:E.
    - exists from. split; [reflexivity|]. split; [lia|]. split; [exact E|]. intros; lia.
    - destruct (IH (S from)) as (b & E1 & E2 & E3 & E4).
      { exists i. split; [|exact Ht]. assert (i <> from) by congruence. lia. }
      exists b. repeat split; try lia; try assumption.
      intros j Hj. destruct (Nat.eq_dec j from) as [->|]; [exact E|]. apply E4. lia. }
  destruct (Hgen w 0) as (b & E1 & E2 & E3 & E4).
  - destruct (existsb (tb x) (seq 0 w)) eqn:E.
    + apply existsb_exists in E as (i & Hi & Ht). apply in_seq in Hi. exists i. split; [lia|exact Ht].
    + exfalso. apply Hx. apply tb_inj. intros i. rewrite tb_0.
      destruct (Nat.lt_ge_cases i w) as [L|L]; [|apply Ho; exact L].
      destruct (tb x i) eqn:Et; [|reflexivity].
      assert (existsb (tb x) (seq 0 w) = true); [|congruence].
      apply existsb_exists. exists i. split; [apply in_seq; lia|exact Et].
  - exists b. split; [exact E1|]. split; [lia|]. split; [exact E3|]. intros; apply E4; lia.
Qed.

Lemma neqb0_tb x : negb (x =? 0)%N = true -> x <> 0%N.
Proof. intros H. destruct (N.eqb_spec x 0); [discriminate|assumption]. Qed.

(** Invariant of the loop: [one] agrees with word [idx] from bit offset [lo] on
    and is zero below. *)
Definition one_inv (ws : list N) (idx : nat) (one : N) (lo : nat) : Prop :=
  exists x, rd ws idx = Some x /\ wok w one /\
    forall r, r < w -> tb one r = (lo <=? r) && tb x r.

Lemma one_inv_fresh ws idx x : Forall (wok w) ws -> rd ws idx = Some x -> one_inv ws idx x 0.
Proof.
  intros Ho E. exists x. split; [exact E|]. split.
  - rewrite Forall_forall in Ho. apply Ho. eapply nth_error_In; exact E.
  - intros r _. reflexivity.
Qed.

(** [find_spec lo hi r]: [r] is the first set bit of [lo,hi), or [hi]. *)
Definition find_spec (ws : list N) (lo hi r : nat) : Prop :=
  (r < hi /\ lo <= r /\ get_bit w ws r = Some true /\
   forall i, lo <= i < r -> get_bit w ws i = Some false)
  \/ (r = hi /\ forall i, lo <= i < hi -> get_bit w ws i = Some false).

Lemma one_inv_found ws idx one lo : one_inv ws idx one lo -> one <> 0%N ->
  exists b, find_lsb w one = Some b /\ b < w /\ lo <= b /\
    get_bit w ws (idx * w + b) = Some true /\
    forall i, idx * w + lo <= i < idx * w + b -> get_bit w ws i = Some false.
Proof.
  intros (x & Ex & Hok & Hb) Hne.
  destruct (find_lsb_ok one Hne Hok) as (b & E & Lb & Tb & Fb).
  exists b. split; [exact E|]. split; [exact Lb|].
  rewrite Hb in Tb by exact Lb. apply andb_true_iff in Tb as [T1 T2].
  split; [lia|]. split.
  - rewrite (Nat.mul_comm idx w), get_bit_at, Ex by exact Lb. cbn [bind]. f_equal. exact T2.
  - intros i Hi. replace i with (w * idx + (i - w * idx)) by lia.
    rewrite get_bit_at, Ex by lia. cbn [bind]. f_equal.
    specialize (Fb (i - w * idx) ltac:(lia)). rewrite Hb in Fb by lia.
    replace (lo <=? i - w * idx) with true in Fb by lia. exact Fb.
Qed.

Lemma one_inv_zero ws idx one lo : one_inv ws idx one lo -> one = 0%N ->
  forall i, idx * w + lo <= i < S idx * w -> get_bit w ws i = Some false.
Proof.
  intros (x & Ex & Hok & Hb) -> i Hi.
  replace i with (w * idx + (i - w * idx)) by lia.
  rewrite get_bit_at, Ex by lia. cbn [bind]. f_equal.
  specialize (Hb (i - w * idx) ltac:(lia)). rewrite tb_0 in Hb.
  replace (lo <=? i - w * idx) with true in Hb by lia. symmetry. exact Hb.
Qed.

Lemma find_loop_ok ws : Forall (wok w) ws -> forall n idx one lo,
  idx + n < length ws -> lo <= w -> one_inv ws idx one lo ->
  exists r, find_loop w ws idx one n = Some r /\
  match r with
  | inl res => res < (idx + n) * w /\ idx * w + lo <= res /\ get_bit w ws res = Some true /\
               forall i, idx * w + lo <= i < res -> get_bit w ws i = Some false
  | inr (idx', one') => idx' = idx + n /\
      exists lo', lo' <= w /\ one_inv ws idx' one' lo' /\ idx * w + lo <= idx' * w + lo' /\
      (forall i, idx * w + lo <= i < idx' * w + lo' -> get_bit w ws i = Some false)
  end.
Proof.
  intros Hall n. induction n as [|n IH]; intros idx one lo Hl Hlo Hinv.
  - exists (inr (idx, one)). split; [reflexivity|]. split; [lia|].
    exists lo. split; [exact Hlo|]. split; [exact Hinv|]. split; [lia|]. intros; lia.
  - cbn [find_loop]. destruct (negb (one =? 0)%N) eqn:En.
    + apply neqb0_tb in En.
      destruct (one_inv_found _ _ _ _ Hinv En) as (b & E & Lb & Lo & T & F).
      rewrite E. cbn [bind]. exists (inl (idx * w + b)). split; [reflexivity|].
      split; [nia|]. split; [lia|]. split; [exact T|exact F].
    + assert (one = 0%N) as E0 by (destruct (N.eqb_spec one 0); [assumption|discriminate]).
      destruct (rd_lt ws (S idx)) as [x Ex]; [lia|]. rewrite Ex. cbn [bind].
      destruct (IH (S idx) x 0) as (r & E & Hr); [lia|lia|apply one_inv_fresh; assumption|].
      exists r. split; [exact E|].
      pose proof (one_inv_zero _ _ _ _ Hinv E0) as HZ.
      destruct r as [res|[idx' one']].
      * destruct Hr as (H1 & H2 & H3 & H4). split; [lia|]. split; [lia|]. split; [exact H3|].
        intros i Hi. destruct (Nat.lt_ge_cases i (S idx * w)); [apply HZ; lia|apply H4; lia].
      * destruct Hr as (H1 & lo' & H2 & H3 & H4 & H5).
        split; [lia|]. exists lo'. split; [exact H2|]. split; [exact H3|]. split; [lia|].
        intros i Hi. destruct (Nat.lt_ge_cases i (S idx * w)); [apply HZ; lia|apply H5; lia].
Qed.

Lemma tb_ones_minus1 i : tb (wones w - 1)%N i = (1 <=? i) && (i <? w).
Proof.
  assert (E : (wones w - 1)%N = N.ldiff (wones w) 1).
  { apply N.sub_nocarry_ldiff. apply tb_inj. intros j. rewrite tb_0.
    unfold tb. rewrite N.ldiff_spec. fold (tb 1 j) (tb (wones w) j). rewrite tb_ones.
    destruct j as [|j]; [simpl; replace (0 <? w) with true by lia; reflexivity|].
    replace (tb 1 (S j)) with false; [reflexivity|].
    symmetry. apply N.bits_above_log2. simpl. lia. }
  rewrite E. unfold tb. rewrite N.ldiff_spec. fold (tb 1 i) (tb (wones w) i). rewrite tb_ones.
  destruct i as [|i]; [simpl; rewrite andb_false_r; reflexivity|].
  replace (tb 1 (S i)) with false.
  - simpl. rewrite andb_true_r. reflexivity.
  - symmetry. apply N.bits_above_log2. simpl. lia.
Qed.

Lemma find_next_set_bit_ok ws b limit : Forall (wok w) ws -> limit <= w * length ws ->
  exists r, find_next_set_bit w ws b limit = Some r /\
    (if limit <=? b then r = limit else find_spec ws b limit r).
Proof.
  intros Hall Hlim. unfold find_next_set_bit.
  destruct (Nat.leb_spec limit b) as [L|L].
  { exists limit. split; reflexivity. }
  destruct (divmod w b Hw) as [Eb Lb]. destruct (divmod w (limit - 1) Hw) as [Ee Le].
  set (q := b / w) in *. set (f := b mod w) in *.
  set (lq := (limit - 1) / w) in *. set (lr := (limit - 1) mod w) in *.
  assert (Hlq : lq < length ws) by (apply div_lt_iff; lia).
  assert (Hlex : q < lq \/ (q = lq /\ f <= lr)) by (apply lex_le; lia).
  destruct (rd_lt ws q) as [x Ex]; [lia|]. rewrite Ex. cbn [bind].
  destruct (wshl_def w 1 f Lb) as [m1 Em1]. rewrite Em1. cbn [bind].
  assert (Hm1 : forall r, tb m1 r = (r =? f)).
  { intros r. rewrite (tb_wshl _ _ _ _ _ Em1), tb_1. lia. }
  destruct (negb (N.land x m1 =? 0)%N) eqn:E1.
  - exists b. split; [reflexivity|]. left. split; [lia|]. split; [lia|]. split; [|intros; lia].
    rewrite Eb, get_bit_at, Ex by exact Lb. cbn [bind]. f_equal.
    apply neqb0_tb in E1. destruct (tb x f) eqn:Et; [reflexivity|].
    exfalso. apply E1. apply tb_inj. intros i. rewrite tb_land, Hm1, tb_0.
    destruct (Nat.eqb_spec i f) as [->|]; [rewrite Et; reflexivity|apply andb_false_r].
  - clear E1. destruct (wshl_def w (wones w) f Lb) as [m2 Em2]. rewrite Em2. cbn [bind].
    assert (Hm2 : forall r, r < w -> tb m2 r = (f <=? r)).
    { intros r Hr. rewrite (tb_wshl _ _ _ _ _ Em2), tb_ones. lia. }
    assert (Hinv : one_inv ws q (N.land x m2) f).
    { exists x. split; [exact Ex|]. split.
      - intros i Hi. rewrite tb_land. rewrite Forall_forall in Hall.
        rewrite (Hall x); [reflexivity| |exact Hi]. eapply nth_error_In; exact Ex.
      - intros r Hr. rewrite tb_land, Hm2 by exact Hr. apply andb_comm. }
    destruct (find_loop_ok ws Hall (lq - q) q _ f ltac:(lia) ltac:(lia) Hinv) as (r & E & Hr).
    rewrite E. cbn [bind]. destruct r as [res|[idx one]].
    + exists res. split; [reflexivity|]. destruct Hr as (H1 & H2 & H3 & H4). left.
      split; [nia|]. split; [lia|]. split; [exact H3|]. intros i Hi. apply H4. nia.
    + destruct Hr as (-> & lo & H2 & H3 & H4 & H5).
      replace (q + (lq - q)) with lq in * by lia.
      destruct (wshl_def w (wones w - 1) lr Le) as [m3 Em3]. rewrite Em3. cbn [bind].
      assert (Hm3 : forall r, r < w -> tb (wnot w m3) r = (r <=? lr)).
      { intros r Hr. rewrite tb_wnot, (tb_wshl _ _ _ _ _ Em3), tb_ones_minus1. lia. }
      set (one' := N.land one (wnot w m3)).
      destruct H3 as (x' & Ex' & Hok & Hone).
      assert (Hok' : wok w one').
      { intros i Hi. unfold one'. rewrite tb_land, (Hok i Hi). reflexivity. }
      assert (Hone' : forall r, r < w -> tb one' r = (lo <=? r) && tb x' r && (r <=? lr)).
      { intros r Hr. unfold one'. rewrite tb_land, Hone, Hm3 by exact Hr. reflexivity. }
      destruct (negb (one' =? 0)%N) eqn:E2.
      * apply neqb0_tb in E2. destruct (find_lsb_ok one' E2 Hok') as (bb & Ebb & Lbb & Tbb & Fbb).
        rewrite Ebb. cbn [bind]. exists (lq * w + bb). split; [reflexivity|].
        rewrite Hone' in Tbb by exact Lbb.
        apply andb_true_iff in Tbb as [Tbb T3]. apply andb_true_iff in Tbb as [T1 T2].
        left. split; [nia|]. split; [nia|]. split.
        -- rewrite (Nat.mul_comm lq w), get_bit_at, Ex' by exact Lbb. cbn [bind]. f_equal. exact T2.
        -- intros i Hi. destruct (Nat.lt_ge_cases i (lq * w + lo)); [apply H5; nia|].
           replace i with (w * lq + (i - w * lq)) by lia.
           rewrite get_bit_at, Ex' by lia. cbn [bind]. f_equal.
           specialize (Fbb (i - w * lq) ltac:(lia)). rewrite Hone' in Fbb by lia.
           replace (lo <=? i - w * lq) with true in Fbb by lia.
           replace (i - w * lq <=? lr) with true in Fbb by lia.
           simpl in Fbb. rewrite andb_true_r in Fbb. exact Fbb.
      * assert (one' = 0%N) as E0 by (destruct (N.eqb_spec one' 0); [assumption|discriminate]).
        exists limit. split; [reflexivity|]. right. split; [reflexivity|].
        intros i Hi. destruct (Nat.lt_ge_cases i (lq * w + lo)); [apply H5; nia|].
        replace i with (w * lq + (i - w * lq)) by lia.
        rewrite get_bit_at, Ex' by lia. cbn [bind]. f_equal.
        specialize (Hone' (i - w * lq) ltac:(lia)). rewrite E0, tb_0 in Hone'.
        replace (lo <=? i - w * lq) with true in Hone' by lia.
        replace (i - w * lq <=? lr) with true in Hone' by lia.
        simpl in Hone'. rewrite andb_true_r in Hone'. symmetry. exact Hone'.
Qed.
End W.
