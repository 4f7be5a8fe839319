(** Proofs about [Bitmap_Model]. *)
From Verif Require Import Base Bits_Model Bits_Proofs Bitmap_Model.

Lemma H32 : 0 < W. Proof. lia. Qed.
Notation bt := (bit W).
Notation gb := (get_bit W).

Lemma gb_bt bm i : i < W * length bm -> gb bm i = Some (bt bm i).
Proof.
  intros H. destruct (get_bit_Some W H32 bm i H) as [b E]. unfold bit. rewrite E. reflexivity.
Qed.
Lemma gb_out bm i : W * length bm <= i -> gb bm i = None.
Proof. intros H. apply get_bit_None; [apply H32|exact H]. Qed.
Lemma bt_out bm i : W * length bm <= i -> bt bm i = false.
Proof. intros H. unfold bit. rewrite gb_out by exact H. reflexivity. Qed.
Lemma bt_at bm q r x : rd bm q = Some x -> r < W -> bt bm (W * q + r) = tb x r.
Proof. intros E H. unfold bit. rewrite get_bit_at by (exact H32 || exact H). rewrite E. reflexivity. Qed.
Lemma wok_rd (bm : list N) i x : Forall (wok W) bm -> rd bm i = Some x -> wok W x.
Proof. intros H E. rewrite Forall_forall in H. apply H. eapply nth_error_In; exact E. Qed.
Lemma wok_wshl w x k y : wshl w x k = Some y -> wok w y.
Proof.
  intros H i Hi. rewrite (tb_wshl _ _ _ _ _ H). replace (i <? w) with false by lia. reflexivity.
Qed.
Lemma wok_wshr w x k y : wok w x -> wshr w x k = Some y -> wok w y.
Proof. intros Hx H i Hi. rewrite (tb_wshr _ _ _ _ _ H). apply Hx. lia. Qed.
Lemma wok_land w x y : wok w x -> wok w (N.land x y).
Proof. intros Hx i Hi. rewrite tb_land, Hx by exact Hi. reflexivity. Qed.
Lemma wok_lor w x y : wok w x -> wok w y -> wok w (N.lor x y).
Proof. intros Hx Hy i Hi. rewrite tb_lor, Hx, Hy by exact Hi. reflexivity. Qed.
Lemma wok_ones w : wok w (wones w).
Proof. intros i Hi. rewrite tb_ones. lia. Qed.
Lemma Forall_upd {A} (P : A -> Prop) l l' i x :
  Forall P l -> P x -> upd l i x = Some l' -> Forall P l'.
Proof.
  intros Hl Hx E. apply upd_spec in E as (_ & _ & R).
  apply Forall_forall. intros y Hy. apply In_nth_error in Hy as [j Hj].
  fold (rd l' j) in Hj. rewrite R in Hj. destruct (j =? i); [congruence|].
  rewrite Forall_forall in Hl. apply Hl. eapply nth_error_In; exact Hj.
Qed.

(** A word obtained from two neighbouring words. *)
Lemma shifted_pair x y off a b r : wok W x -> 0 < off < W ->
  wshr W x off = Some a -> wshl W y (W - off) = Some b -> r < W ->
  tb (N.lor a b) r = if r + off <? W then tb x (r + off) else tb y (r + off - W).
Proof.
  intros Hx Ho Ha Hb Hr. rewrite tb_lor, (tb_wshr _ _ _ _ _ Ha), (tb_wshl _ _ _ _ _ Hb).
  destruct (Nat.ltb_spec (r + off) W).
  - replace (W - off <=? r) with false by lia. rewrite andb_false_r, orb_false_r. reflexivity.
  - rewrite (Hx (r + off)) by lia. replace (r <? W) with true by lia.
    replace (W - off <=? r) with true by lia. cbn [orb andb]. f_equal. lia.
Qed.

Lemma pair_bt bm q off x y a b r : Forall (wok W) bm -> 0 < off < W ->
  rd bm q = Some x -> rd bm (q + 1) = Some y ->
  wshr W x off = Some a -> wshl W y (W - off) = Some b -> r < W ->
  tb (N.lor a b) r = bt bm (W * q + r + off).
Proof.
  intros Hok Ho Ex Ey Ha Hb Hr.
  rewrite (shifted_pair x y off a b r) by (assumption || eapply wok_rd; eassumption).
  destruct (Nat.ltb_spec (r + off) W).
  - rewrite <- (bt_at bm q _ x) by assumption. f_equal. lia.
  - rewrite <- (bt_at bm (q + 1) _ y) by (assumption || lia). f_equal. lia.
Qed.

Lemma last_bt bm q off x a r : Forall (wok W) bm -> off < W ->
  rd bm q = Some x -> (off = 0 \/ q + 1 = length bm) -> wshr W x off = Some a -> r < W ->
  tb a r = bt bm (W * q + r + off).
Proof.
  intros Hok Ho Ex Hl Ha Hr. rewrite (tb_wshr _ _ _ _ _ Ha).
  destruct (Nat.lt_ge_cases (r + off) W).
  - rewrite <- (bt_at bm q _ x) by assumption. f_equal. lia.
  - rewrite (wok_rd _ _ _ Hok Ex) by lia. rewrite bt_out; [reflexivity|]. nia.
Qed.

Lemma get_word_with_offset_ok bm index offset :
  Forall (wok W) bm -> offset < W ->
  exists x, get_word_with_offset bm index offset = Some x /\
    forall r, r < W -> tb x r =
      if index <? length bm then bt bm (offset + W * index + r) else true.
Proof.
  intros Hok Ho. unfold get_word_with_offset.
  destruct (Nat.leb_spec (length bm) index) as [L|L].
  - exists full_word. split; [reflexivity|]. intros r Hr. unfold full_word. rewrite tb_ones.
    replace (index <? length bm) with false by lia. lia.
  - replace (index <? length bm) with true by lia.
    destruct (rd_lt bm index L) as [x Ex]. rewrite Ex. cbn [bind].
    destruct (wshr_def W x offset Ho) as [a Ea]. rewrite Ea. cbn [bind].
    destruct ((offset =? 0) || (index + 1 =? length bm)) eqn:Ec.
    + exists a. split; [reflexivity|]. intros r Hr.
      rewrite (last_bt bm index offset x a r) by (assumption || lia). f_equal. lia.
    + destruct (rd_lt bm (index + 1)) as [y Ey]; [lia|]. rewrite Ey. cbn [bind].
      destruct (wshl_def W y (W - offset)) as [b Eb]; [lia|]. rewrite Eb. cbn [bind].
      exists (N.lor a b). split; [reflexivity|]. intros r Hr.
      rewrite (pair_bt bm index offset x y a b r) by (assumption || lia). f_equal. lia.
Qed.

(** ** Intersect *)
Lemma intersect_loop_ok a b n : forall i res,
  i + n <= length a -> i + n <= length b -> i + n <= length res ->
  exists res', intersect_loop a b res i n = Some res' /\ length res' = length res /\
  forall k, gb res' k = if (W * i <=? k) && (k <? W * (i + n))
                        then Some (bt a k && bt b k) else gb res k.
Proof.
  induction n as [|n IH]; intros i res Ha Hb Hr.
  - exists res. split; [reflexivity|]. split; [reflexivity|]. intros k.
    replace ((W * i <=? k) && (k <? W * (i + 0))) with false by lia. reflexivity.
  - cbn [intersect_loop]. destruct (rd_lt a i) as [x Ex]; [lia|].
    destruct (rd_lt b i) as [y Ey]; [lia|]. rewrite Ex, Ey. cbn [bind].
    destruct (upd_lt res i (N.land x y)) as [res1 E1]; [lia|]. rewrite E1. cbn [bind].
    assert (L1 : length res1 = length res) by (apply upd_spec in E1; tauto).
    destruct (IH (S i) res1) as (res' & E & L & R); [lia..|].
    exists res'. split; [exact E|]. split; [lia|]. intros k. rewrite R.
    rewrite (get_bit_upd W res res1 i (N.land x y) k E1).
    destruct (divmod W k H32) as [Ek Lk].
    destruct ((W * S i <=? k) && (k <? W * (S i + n))) eqn:Ec.
    + replace ((W * i <=? k) && (k <? W * (i + S n))) with true by lia. reflexivity.
    + destruct (Nat.eqb_spec (k / W) i) as [Eq|Ne].
      * replace ((W * i <=? k) && (k <? W * (i + S n))) with true by lia.
        rewrite Ek, Eq. rewrite (bt_at a i _ x), (bt_at b i _ y) by assumption.
        rewrite tb_land. f_equal. f_equal; f_equal; lia.
      * replace ((W * i <=? k) && (k <? W * (i + S n))) with false by lia. reflexivity.
Qed.

Lemma intersect_shift_loop_ok f s off n : Forall (wok W) s -> 0 < off < W -> forall i res,
  i + n <= length f -> (n = 0 \/ i + n < length s) -> i + n <= length res ->
  exists res', intersect_shift_loop f s res off i n = Some res' /\ length res' = length res /\
  forall k, gb res' k = if (W * i <=? k) && (k <? W * (i + n))
                        then Some (bt f k && bt s (k + off)) else gb res k.
Proof.
  intros Hok Ho. induction n as [|n IH]; intros i res Ha Hb Hr.
  - exists res. split; [reflexivity|]. split; [reflexivity|]. intros k.
    replace ((W * i <=? k) && (k <? W * (i + 0))) with false by lia. reflexivity.
  - cbn [intersect_shift_loop]. destruct (rd_lt s i) as [x Ex]; [lia|].
    destruct (rd_lt s (i + 1)) as [y Ey]; [lia|]. rewrite Ex, Ey. cbn [bind].
    destruct (wshr_def W x off) as [a Ea]; [lia|]. rewrite Ea. cbn [bind].
    destruct (wshl_def W y (W - off)) as [b Eb]; [lia|]. rewrite Eb. cbn [bind].
    destruct (rd_lt f i) as [z Ez]; [lia|]. rewrite Ez. cbn [bind].
    destruct (upd_lt res i (N.land z (N.lor a b))) as [res1 E1]; [lia|]. rewrite E1. cbn [bind].
    assert (L1 : length res1 = length res) by (apply upd_spec in E1; tauto).
    destruct (IH (S i) res1) as (res' & E & L & R); [lia..|].
    exists res'. split; [exact E|]. split; [lia|]. intros k. rewrite R.
    rewrite (get_bit_upd W res res1 i _ k E1).
    destruct (divmod W k H32) as [Ek Lk].
    destruct ((W * S i <=? k) && (k <? W * (S i + n))) eqn:Ec.
    + replace ((W * i <=? k) && (k <? W * (i + S n))) with true by lia. reflexivity.
    + destruct (Nat.eqb_spec (k / W) i) as [Eq|Ne].
      * replace ((W * i <=? k) && (k <? W * (i + S n))) with true by lia.
        rewrite tb_land. rewrite (pair_bt s i off x y a b) by assumption.
        rewrite <- (bt_at f i _ z) by assumption. rewrite <- Eq, <- Ek. reflexivity.
      * replace ((W * i <=? k) && (k <? W * (i + S n))) with false by lia. reflexivity.
Qed.

Lemma bitmap_size_ge n : n <= W * bitmap_size n.
Proof. unfold bitmap_size. pose proof (divmod W (n + W - 1) H32). lia. Qed.
Lemma bitmap_size_lt n : W * bitmap_size n < n + W.
Proof. unfold bitmap_size. pose proof (divmod W (n + W - 1) H32). lia. Qed.
Lemma bitmap_size_le a b : a <= b -> bitmap_size a <= bitmap_size b.
Proof. intros H. apply Nat.div_le_mono; lia. Qed.

Lemma intersect_shifted f s off n res : Forall (wok W) s -> 0 < off < W ->
  n <= W * length f -> off + n <= W * length s -> length f <= length s ->
  length res = length f ->
  exists r,
   (let? res1 := intersect_shift_loop f s res off 0 (Nat.min (length f) (length s - 1)) in
    if (0 <? length s) && (length s - 1 <? length f) then
      let? f0 := rd f (length s - 1) in
      let? x := rd s (length s - 1) in
      let? a := wshr W x off in
      upd res1 (length s - 1) (N.land f0 a)
    else Some res1) = Some r /\ length r = length res /\
   forall k, k < n -> gb r k = Some (bt f k && bt s (off + k)).
Proof.
  intros Hok Ho Hf Hs Hfs Hr.
  set (m := Nat.min (length f) (length s - 1)).
  destruct (intersect_shift_loop_ok f s off m Hok Ho 0 res) as (res1 & E1 & L1 & R1); [lia..|].
  rewrite E1. cbn [bind].
  destruct ((0 <? length s) && (length s - 1 <? length f)) eqn:Ec.
  - destruct (rd_lt f (length s - 1)) as [z Ez]; [lia|]. rewrite Ez. cbn [bind].
    destruct (rd_lt s (length s - 1)) as [x Ex]; [lia|]. rewrite Ex. cbn [bind].
    destruct (wshr_def W x off) as [a Ea]; [lia|]. rewrite Ea. cbn [bind].
    destruct (upd_lt res1 (length s - 1) (N.land z a)) as [r E]; [lia|].
    exists r. split; [exact E|]. split; [apply upd_spec in E; lia|].
    intros k Hk. rewrite (get_bit_upd W _ _ _ _ k E).
    destruct (divmod W k H32) as [Ek Lk].
    destruct (Nat.eqb_spec (k / W) (length s - 1)) as [Eq|Ne].
    + rewrite tb_land. rewrite (last_bt s (length s - 1) off x a) by (assumption || lia).
      rewrite <- (bt_at f (length s - 1) _ z) by assumption. rewrite <- Eq, <- Ek.
      f_equal. f_equal. f_equal. lia.
    + rewrite R1. replace ((W * 0 <=? k) && (k <? W * (0 + m))) with true by lia.
      rewrite (Nat.add_comm off k). reflexivity.
  - exists res1. split; [reflexivity|]. split; [exact L1|]. intros k Hk. rewrite R1.
    replace ((W * 0 <=? k) && (k <? W * (0 + m))) with true by lia.
    rewrite (Nat.add_comm off k). reflexivity.
Qed.

Lemma intersect_ok a b oa ob n res :
  Forall (wok W) a -> Forall (wok W) b -> oa < W -> ob < W ->
  length a = bitmap_size (oa + n) -> length b = bitmap_size (ob + n) ->
  length res = Nat.min (length a) (length b) ->
  exists r, intersect a b oa ob res = Some r /\ length r = length res /\
    Nat.min oa ob + n <= W * length r /\
    forall i, i < n -> gb r (Nat.min oa ob + i) = Some (bt a (oa + i) && bt b (ob + i)).
Proof.
  intros Ha Hb Hoa Hob La Lb Lr. unfold intersect.
  pose proof (bitmap_size_ge (oa + n)) as Ga. pose proof (bitmap_size_ge (ob + n)) as Gb.
  destruct (Nat.eqb_spec oa ob) as [Eo|No].
  - subst ob. destruct (intersect_loop_ok a b (length a) 0 res) as (r & E & L & R); [lia..|].
    exists r. split; [exact E|]. split; [exact L|]. split; [lia|].
    intros i Hi. rewrite Nat.min_id, R.
    replace ((W * 0 <=? oa + i) && (oa + i <? W * (0 + length a))) with true by lia.
    reflexivity.
  - destruct (Nat.ltb_spec ob oa) as [Lt|Ge].
    + pose proof (bitmap_size_le (ob + n) (oa + n) ltac:(lia)).
      destruct (intersect_shifted b a ((oa - ob) + (ob - oa)) (ob + n) res) as (r & E & L & R);
        try assumption; try lia.
      exists r. split; [exact E|]. split; [exact L|]. split; [lia|].
      intros i Hi. rewrite Nat.min_r by lia. rewrite R by lia.
      rewrite andb_comm. f_equal. f_equal. f_equal. lia.
    + pose proof (bitmap_size_le (oa + n) (ob + n) ltac:(lia)).
      destruct (intersect_shifted a b ((oa - ob) + (ob - oa)) (oa + n) res) as (r & E & L & R);
        try assumption; try lia.
      exists r. split; [exact E|]. split; [exact L|]. split; [lia|].
      intros i Hi. rewrite Nat.min_l by lia. rewrite R by lia.
      f_equal. f_equal. f_equal. lia.
Qed.

(** ** Predicates *)
Lemma word_eq_full x : wok W x -> (x = full_word <-> forall r, r < W -> tb x r = true).
Proof.
  intros Hx. split.
  - intros -> r Hr. unfold full_word. rewrite tb_ones. lia.
  - intros H. apply tb_inj. intros i. unfold full_word. rewrite tb_ones.
    destruct (Nat.ltb_spec i W); [apply H; assumption|apply Hx; assumption].
Qed.

Lemma all_set_loop_ok ws r n : Forall (wok W) ws -> r < W -> forall p,
  W * (p + n) + r <= W * length ws ->
  exists b, all_set_loop ws p n r = Some b /\
    (b = true <-> forall i, W * p <= i < W * (p + n) + r -> bt ws i = true).
Proof.
  intros Hok Hr. induction n as [|n IH]; intros p Hl; cbn [all_set_loop].
  - destruct (Nat.ltb_spec 0 r) as [H0|H0].
    + destruct (wshr_def W full_word (W - r)) as [m Em]; [lia|]. rewrite Em. cbn [bind].
      destruct (rd_lt ws p) as [x Ex]; [lia|]. rewrite Ex. cbn [bind].
      exists (N.land x m =? m)%N. split; [reflexivity|].
      assert (Hm : forall i, tb m i = (i <? r)).
      { intros i. rewrite (tb_wshr _ _ _ _ _ Em). unfold full_word. rewrite tb_ones. lia. }
      split.
      * intros E i Hi. apply N.eqb_eq in E.
        replace i with (W * p + (i - W * p)) by lia. rewrite (bt_at ws p _ x) by (assumption || lia).
        assert (T : tb (N.land x m) (i - W * p) = tb m (i - W * p)) by (rewrite E; reflexivity).
        rewrite tb_land, Hm in T. replace (i - W * p <? r) with true in T by lia.
        rewrite andb_true_r in T. exact T.
      * intros H. apply N.eqb_eq. apply tb_inj. intros i. rewrite tb_land, Hm.
        destruct (Nat.ltb_spec i r); [|apply andb_false_r].
        rewrite <- (bt_at ws p i x) by (assumption || lia). rewrite H by lia. reflexivity.
    + exists true. split; [reflexivity|]. split; [intros _ i Hi; lia|reflexivity].
  - destruct (rd_lt ws p) as [x Ex]; [lia|]. rewrite Ex. cbn [bind].
    destruct (N.eqb_spec x full_word) as [Ef|Nf]; cbn [negb].
    + destruct (IH (S p)) as (b & E & Hb); [lia|]. exists b. split; [exact E|].
      rewrite Hb. split; intros H i Hi; [|apply H; lia].
      destruct (Nat.lt_ge_cases i (W * S p)); [|apply H; lia].
      replace i with (W * p + (i - W * p)) by lia. rewrite (bt_at ws p _ x) by (assumption || lia).
      subst x. unfold full_word. rewrite tb_ones. lia.
    + exists false. split; [reflexivity|]. split; [discriminate|]. intros H. exfalso. apply Nf.
      apply word_eq_full; [eapply wok_rd; eassumption|]. intros q Hq.
      rewrite <- (bt_at ws p q x) by assumption. apply H. lia.
Qed.

Lemma are_all_bits_set_ok ws n : Forall (wok W) ws -> n <= W * length ws ->
  exists b, are_all_bits_set ws n = Some b /\ (b = true <-> forall i, i < n -> bt ws i = true).
Proof.
  intros Hok Hn. unfold are_all_bits_set. destruct (divmod W n H32) as [E L].
  destruct (all_set_loop_ok ws (n mod W) (n / W) Hok L 0) as (b & Eb & Hb); [lia|].
  exists b. split; [exact Eb|]. rewrite Hb. split; intros H i Hi; apply H; lia.
Qed.

Lemma all_unset_loop_ok ws r n : Forall (wok W) ws -> r < W -> forall p,
  W * (p + n) + r <= W * length ws ->
  exists b, all_unset_loop ws p n r = Some b /\
    (b = true <-> forall i, W * p <= i < W * (p + n) + r -> bt ws i = false).
Proof.
  intros Hok Hr. induction n as [|n IH]; intros p Hl; cbn [all_unset_loop].
  - destruct (Nat.eqb_spec r 0) as [H0|H0].
    + exists true. split; [reflexivity|]. split; [intros _ i Hi; lia|reflexivity].
    + destruct (rd_lt ws p) as [x Ex]; [lia|]. rewrite Ex. cbn [bind].
      destruct (wshr_def W x r) as [a Ea]; [lia|]. rewrite Ea. cbn [bind].
      destruct (wshl_def W a r) as [c Ec]; [lia|]. rewrite Ec. cbn [bind].
      exists (c =? x)%N. split; [reflexivity|].
      assert (Hc : forall i, tb c i = (i <? W) && (r <=? i) && tb x i).
      { intros i. rewrite (tb_wshl _ _ _ _ _ Ec), (tb_wshr _ _ _ _ _ Ea).
        destruct (Nat.leb_spec r i); [|rewrite andb_false_r; reflexivity].
        f_equal. f_equal. lia. }
      split.
      * intros E i Hi. apply N.eqb_eq in E.
        replace i with (W * p + (i - W * p)) by lia. rewrite (bt_at ws p _ x) by (assumption || lia).
        rewrite <- E, Hc. replace (r <=? i - W * p) with false by lia.
        rewrite andb_false_r. reflexivity.
      * intros H. apply N.eqb_eq. apply tb_inj. intros i. rewrite Hc.
        destruct (Nat.ltb_spec i W) as [Li|Li].
        -- destruct (Nat.leb_spec r i); [reflexivity|]. simpl.
           rewrite <- (bt_at ws p i x) by (assumption || lia). rewrite H by lia. reflexivity.
        -- rewrite (wok_rd _ _ _ Hok Ex) by lia. apply andb_false_r.
  - destruct (rd_lt ws p) as [x Ex]; [lia|]. rewrite Ex. cbn [bind].
    destruct (N.eqb_spec x 0) as [Ef|Nf]; cbn [negb].
    + destruct (IH (S p)) as (b & E & Hb); [lia|]. exists b. split; [exact E|].
      rewrite Hb. split; intros H i Hi; [|apply H; lia].
      destruct (Nat.lt_ge_cases i (W * S p)); [|apply H; lia].
      replace i with (W * p + (i - W * p)) by lia. rewrite (bt_at ws p _ x) by (assumption || lia).
      subst x. apply tb_0.
    + exists false. split; [reflexivity|]. split; [discriminate|]. intros H. exfalso. apply Nf.
      apply tb_inj. intros i. rewrite tb_0. destruct (Nat.lt_ge_cases i W).
      * rewrite <- (bt_at ws p i x) by assumption. apply H. lia.
      * eapply wok_rd; eassumption.
Qed.

Lemma are_all_bits_unset_ok ws n : Forall (wok W) ws -> n <= W * length ws ->
  exists b, are_all_bits_unset ws n = Some b /\ (b = true <-> forall i, i < n -> bt ws i = false).
Proof.
  intros Hok Hn. unfold are_all_bits_unset. destruct (divmod W n H32) as [E L].
  destruct (all_unset_loop_ok ws (n mod W) (n / W) Hok L 0) as (b & Eb & Hb); [lia|].
  exists b. split; [exact Eb|]. rewrite Hb. split; intros H i Hi; apply H; lia.
Qed.

Lemma cnt_true f from n : (forall i, from <= i < from + n -> f i = true) -> cnt f from n = n.
Proof.
  revert from; induction n as [|n IH]; intros from H; [reflexivity|].
  rewrite cnt_S, H, IH by (lia || intros; apply H; lia). lia.
Qed.

(** Elements beyond the stored words count as present. *)
Definition present_or_out (bm : list N) (i : nat) : bool :=
  match gb bm i with Some b => b | None => true end.

Lemma count_bits_ok bm offset size :
  count_bits bm offset size = Some (cnt (present_or_out bm) offset size).
Proof.
  unfold count_bits. set (cap := length bm * W).
  set (b := Nat.min cap offset). set (e := Nat.max b (Nat.min cap (offset + size))).
  rewrite (get_ones_count_ok W H32) by lia. cbn [bind]. f_equal.
  destruct (Nat.le_gt_cases cap offset) as [L|L].
  - replace (e - b) with 0 by lia. unfold cnt at 1. simpl. rewrite Nat.sub_0_r, Nat.add_0_r.
    symmetry. apply cnt_true. intros i Hi. unfold present_or_out.
    rewrite gb_out by lia. reflexivity.
  - replace b with offset by lia. set (k := e - offset).
    replace size with (k + (size - k)) at 2 by lia. rewrite cnt_split.
    rewrite (cnt_true _ (offset + k) (size - k)).
    + rewrite (cnt_ext (bt bm) (present_or_out bm)); [lia|].
      intros i Hi. unfold present_or_out. rewrite gb_bt by lia. reflexivity.
    + intros i Hi. unfold present_or_out. rewrite gb_out by lia. reflexivity.
Qed.

(** ** Iteration *)
Definition flat_calls (gs : list (nat * list (nat * bool))) : list (nat * bool) :=
  flat_map (fun g => map (fun c => (fst g + fst c, snd c)) (snd g)) gs.

Lemma flat_calls_app a b : flat_calls (a ++ b) = flat_calls a ++ flat_calls b.
Proof. unfold flat_calls. apply flat_map_app. Qed.

Lemma iterate_word_calls ws q x off go n : rd ws q = Some x -> off + n <= W ->
  forall y, (forall r, r < n -> tb y r = tb x (off + r)) ->
  map (fun c => (go + fst c, snd c)) (iterate_word y n) =
  map (fun i => (go + i, bt ws (W * q + off + i))) (seq 0 n).
Proof.
  intros E Hn y Hy. unfold iterate_word. rewrite map_map. apply map_ext_in.
  intros i Hi. apply in_seq in Hi. simpl. f_equal. rewrite Hy by lia.
  rewrite <- Nat.add_assoc. symmetry. apply bt_at; [exact E|lia].
Qed.

Definition calls_upto (ws : list N) (fb n : nat) : list (nat * bool) :=
  map (fun i => (i, bt ws (fb + i))) (seq 0 n).

Lemma calls_upto_app ws fb n m :
  calls_upto ws fb (n + m) =
  calls_upto ws fb n ++ map (fun i => (n + i, bt ws (fb + n + i))) (seq 0 m).
Proof.
  unfold calls_upto. rewrite seq_app, map_app. f_equal. simpl.
  replace n with (n + 0) at 1 by lia.
  assert (G : forall m s, seq (n + s) m = map (fun i => n + i) (seq s m)).
  { induction m0 as [|m0 IH]; intros s; [reflexivity|]. simpl. f_equal.
    rewrite <- IH. f_equal. lia. }
  rewrite G, map_map. apply map_ext. intros i. f_equal. f_equal. lia.
Qed.

Lemma iterate_word_len y n : length (iterate_word y n) = n.
Proof. unfold iterate_word. rewrite map_length, seq_length. reflexivity. Qed.

Definition groups_ok (gs : list (nat * list (nat * bool))) : Prop :=
  Forall (fun g => length (snd g) <= W) gs.

Lemma groups_loop_ok ws fb count : fb + count <= W * length ws -> forall fuel p go acc,
  count - go < W * S fuel -> go <= count -> (fb + go = W * p) ->
  flat_calls acc = calls_upto ws fb go -> groups_ok acc ->
  exists p' go' acc', groups_loop fuel ws p go count acc = Some (p', go', acc') /\
    fb + go' = W * p' /\ go' <= count /\ count < go' + W /\
    flat_calls acc' = calls_upto ws fb go' /\ groups_ok acc'.
Proof.
  intros Hb fuel. induction fuel as [|fuel IH]; intros p go acc Hf Hg Hp Ha Hok;
    cbn [groups_loop]; destruct (Nat.leb_spec (go + W) count) as [L|L].
  - lia.
  - exists p, go, acc. repeat split; try assumption; lia.
  - destruct (rd_lt ws p) as [x Ex]; [lia|]. rewrite Ex. cbn [bind].
    apply IH; try lia.
    + rewrite flat_calls_app, Ha, calls_upto_app. f_equal.
      unfold flat_calls. cbn [flat_map fst snd]. rewrite app_nil_r.
      rewrite (iterate_word_calls ws p x 0 go W Ex) by (lia || reflexivity).
      apply map_ext. intros i. f_equal. f_equal. lia.
    + apply Forall_app. split; [exact Hok|]. constructor; [|constructor].
      cbn [snd]. rewrite iterate_word_len. lia.
  - exists p, go, acc. repeat split; try assumption; lia.
Qed.

Lemma iterate_by_groups_ok ws fb count : fb + count <= W * length ws ->
  exists gs, iterate_by_groups ws fb count = Some gs /\
    flat_calls gs = calls_upto ws fb count /\ groups_ok gs.
Proof.
  intros Hb. unfold iterate_by_groups. destruct (divmod W fb H32) as [E L].
  assert (Hfst : exists p1 go1 acc1,
    (if (0 <? fb mod W) && (0 <? count) then
      let? x := rd ws (fb / W) in
      let? y := wshr W x (fb mod W) in
      Some (S (fb / W), Nat.min count (W - fb mod W), [(0, iterate_word y (Nat.min count (W - fb mod W)))])
    else Some (fb / W, 0, [])) = Some (p1, go1, acc1) /\
    go1 <= count /\ (go1 = count \/ fb + go1 = W * p1) /\
    flat_calls acc1 = calls_upto ws fb go1 /\ groups_ok acc1).
  { destruct ((0 <? fb mod W) && (0 <? count)) eqn:Ec.
    - destruct (rd_lt ws (fb / W)) as [x Ex]; [lia|]. rewrite Ex. cbn [bind].
      destruct (wshr_def W x (fb mod W) L) as [y Ey]. rewrite Ey. cbn [bind].
      set (n := Nat.min count (W - fb mod W)).
      eexists _, _, _. split; [reflexivity|]. split; [lia|]. split; [lia|]. split.
      + unfold flat_calls. cbn [flat_map fst snd]. rewrite app_nil_r.
        rewrite (iterate_word_calls ws (fb / W) x (fb mod W) 0 n Ex).
        * unfold calls_upto. apply map_ext. intros i. f_equal. f_equal. lia.
        * lia.
        * intros r Hr. rewrite (tb_wshr _ _ _ _ _ Ey). f_equal. lia.
      + constructor; [|constructor]. cbn [snd]. rewrite iterate_word_len. lia.
    - eexists _, _, _. split; [reflexivity|]. split; [lia|]. split; [lia|].
      split; [reflexivity|constructor]. }
  destruct Hfst as (p1 & go1 & acc1 & E1 & H1 & H2 & H3 & H4).
  cbv zeta. rewrite E1. cbn [bind]. clear E1.
  assert (Hloop : exists p' go' acc', groups_loop count ws p1 go1 count acc1 = Some (p', go', acc') /\
    (go' = count \/ fb + go' = W * p') /\ go' <= count /\ count < go' + W /\
    flat_calls acc' = calls_upto ws fb go' /\ groups_ok acc').
  { destruct H2 as [->|H2].
    - exists p1, count, acc1. split; [|repeat split; try assumption; try lia].
      destruct count; cbn [groups_loop].
      + replace (0 + W <=? 0) with false by lia. reflexivity.
      + replace (S count + W <=? S count) with false by lia. reflexivity.
    - destruct (groups_loop_ok ws fb count Hb count p1 go1 acc1) as (p' & go' & acc' & A & B & C & D & F & G);
        try assumption; try lia.
      exists p', go', acc'. split; [exact A|]. split; [right; exact B|]. repeat split; assumption. }
  destruct Hloop as (p' & go' & acc' & -> & K1 & K2 & K3 & K4 & K5). cbn [bind].
  destruct (Nat.eqb_spec go' count) as [->|Ng]; cbn [negb].
  - exists acc'. split; [reflexivity|]. split; assumption.
  - destruct (rd_lt ws p') as [x Ex]; [lia|]. rewrite Ex. cbn [bind].
    eexists. split; [reflexivity|]. split.
    + rewrite flat_calls_app, K4. replace count with (go' + (count - go')) at 2 by lia.
      rewrite calls_upto_app. f_equal.
      unfold flat_calls. cbn [flat_map fst snd]. rewrite app_nil_r.
      rewrite (iterate_word_calls ws p' x 0 go' (count - go') Ex) by (lia || reflexivity).
      apply map_ext. intros i. f_equal. f_equal. lia.
    + apply Forall_app. split; [exact K5|]. constructor; [|constructor].
      cbn [snd]. rewrite iterate_word_len. lia.
Qed.

Lemma flat_calls_snd gs : map snd (flat_map snd gs) = map snd (flat_calls gs).
Proof.
  unfold flat_calls. induction gs as [|g gs IH]; [reflexivity|]. cbn [flat_map].
  rewrite !map_app, IH. f_equal. rewrite map_map. reflexivity.
Qed.

Lemma iterate_ok bm fb count : (bm = [] \/ fb + count <= W * length bm) ->
  iterate bm fb count =
  Some (map (fun i => match bm with [] => true | _ => bt bm (fb + i) end) (seq 0 count)).
Proof.
  intros H. unfold iterate. destruct bm as [|x bm].
  - f_equal. clear H. rewrite <- (seq_length count 0) at 1.
    induction (seq 0 count) as [|a l IH]; [reflexivity|]. simpl. f_equal. exact IH.
  - destruct H as [H|H]; [discriminate|].
    destruct (iterate_by_groups_ok (x :: bm) fb count H) as (gs & E & F & _).
    rewrite E. cbn [bind]. rewrite flat_calls_snd, F. unfold calls_upto.
    rewrite map_map. reflexivity.
Qed.

(** ** Builder *)
Lemma group_word_ok bits : forall i res all x all',
  i + length bits <= W -> wok i res -> group_word bits i res all = (x, all') ->
  wok (i + length bits) x /\
  (forall r, tb x r = if r <? i then tb res r else nth (r - i) bits false) /\
  all' = all && forallb id bits.
Proof.
  induction bits as [|b bits IH]; intros i res all x all' Hl Hr H; cbn [group_word length] in *.
  - injection H as <- <-. rewrite Nat.add_0_r. split; [exact Hr|]. split.
    + intros r. destruct (Nat.ltb_spec r i); [reflexivity|]. rewrite Hr by lia.
      destruct (r - i); reflexivity.
    + cbn [forallb]. rewrite andb_true_r. reflexivity.
  - destruct b.
    + apply IH in H; [|lia|].
      * destruct H as (H1 & H2 & H3). split; [intros r Hr'; apply H1; lia|]. split.
        -- intros r. rewrite H2. destruct (Nat.ltb_spec r (S i)) as [L|L].
           ++ rewrite tb_lor. unfold tb at 2. destruct (Nat.ltb_spec r i).
              ** rewrite N.shiftl_spec_low by lia. apply orb_false_r.
              ** replace r with i by lia. rewrite N.shiftl_spec_high' by lia.
                 rewrite Nat.sub_diag, N.sub_diag. cbn [nth]. apply orb_true_r.
           ++ replace (r <? i) with false by lia.
              replace (r - i) with (S (r - S i)) by lia. reflexivity.
        -- rewrite H3. cbn [forallb id]. reflexivity.
      * intros r Hr'. rewrite tb_lor, Hr by lia. unfold tb.
        rewrite N.shiftl_spec_high' by lia. fold (tb 1 0).
        replace (N.of_nat r - N.of_nat i)%N with (N.of_nat (r - i)) by lia.
        fold (tb 1 (r - i)). rewrite tb_1. lia.
    + apply IH in H; [|lia|intros r Hr'; apply Hr; lia].
      destruct H as (H1 & H2 & H3). split; [intros r Hr'; apply H1; lia|]. split.
      * intros r. rewrite H2. destruct (Nat.ltb_spec r (S i)) as [L|L].
        -- destruct (Nat.ltb_spec r i); [reflexivity|]. replace r with i by lia.
           rewrite Nat.sub_diag. cbn [nth]. apply Hr. lia.
        -- replace (r <? i) with false by lia.
           replace (r - i) with (S (r - S i)) by lia. reflexivity.
      * rewrite H3. cbn [forallb id]. rewrite !andb_false_r. reflexivity.
Qed.

Lemma group_word_spec bits all : length bits <= W ->
  exists x, group_word bits 0 0%N all = (x, all && forallb id bits) /\
    wok (length bits) x /\ forall r, tb x r = nth r bits false.
Proof.
  intros H. destruct (group_word bits 0 0%N all) as [x all'] eqn:E.
  apply group_word_ok in E as (H1 & H2 & H3); [|exact H|intros r _; apply tb_0].
  exists x. split; [rewrite H3; reflexivity|]. split; [exact H1|].
  intros r. rewrite H2. cbn [Nat.ltb Nat.leb]. rewrite Nat.sub_0_r. reflexivity.
Qed.

(** Invariant: the first [pos] bits of [data] are [done], and the rest of a
    partially filled word is zero. *)
Definition data_inv (data : list N) (done : list bool) : Prop :=
  (forall i, i < length done -> gb data i = Some (nth i done false)) /\
  (length done mod W <> 0 ->
   forall i, length done <= i < W * (length done / W) + W -> gb data i = Some false).

Lemma nth_app_firstn {A} (l : list A) n i d : i < n -> nth i (firstn n l) d = nth i l d.
Proof.
  revert l i; induction n as [|n IH]; intros l i H; [lia|].
  destruct l as [|a l]; [reflexivity|]. destruct i as [|i]; [reflexivity|].
  cbn [firstn nth]. apply IH. lia.
Qed.

Lemma forallb_split n bits all :
  (all && forallb id (firstn n bits)) && forallb id (skipn n bits) = all && forallb id bits.
Proof.
  rewrite <- (firstn_skipn n bits) at 3. rewrite forallb_app, andb_assoc. reflexivity.
Qed.

Lemma write_aligned data done bits x data' : data_inv data done ->
  length done mod W = 0 -> 0 < length bits <= W -> (forall r, tb x r = nth r bits false) ->
  upd data (length done / W) x = Some data' -> data_inv data' (done ++ bits).
Proof.
  intros [I1 I2] Hm Hb Hx E.
  destruct (divmod W (length done) H32) as [Ed _].
  set (q := length done / W) in *. rewrite Hm in Ed.
  assert (Hgb : forall i, gb data' i = if i / W =? q then Some (nth (i mod W) bits false) else gb data i).
  { intros i. rewrite (get_bit_upd W _ _ _ _ i E), Hx. reflexivity. }
  split.
  - rewrite app_length. intros i Hi. rewrite Hgb. destruct (divmod W i H32) as [Ei Li].
    destruct (Nat.eqb_spec (i / W) q) as [Eq|Ne].
    + rewrite app_nth2 by lia. f_equal. f_equal. lia.
    + rewrite app_nth1 by lia. apply I1. lia.
  - rewrite app_length. intros Hm' i Hi. rewrite Hgb.
    destruct (divmod W i H32) as [Ei Li]. destruct (divmod W (length done + length bits) H32) as [Ef Lf].
    replace (i / W =? q) with true by lia. rewrite nth_overflow by lia. reflexivity.
Qed.

Lemma data_inv_app data done bits1 bits2 :
  data_inv data ((done ++ bits1) ++ bits2) -> data_inv data (done ++ (bits1 ++ bits2)).
Proof. rewrite app_assoc. exact (fun H => H). Qed.

Lemma add_aligned_ok fuel : forall data done bits all,
  length bits < W * S fuel -> data_inv data done -> length done mod W = 0 ->
  length done + length bits <= W * length data ->
  exists data', add_aligned fuel data (length done / W) bits all
                = Some (data', all && forallb id bits) /\
    length data' = length data /\ data_inv data' (done ++ bits).
Proof.
  induction fuel as [|fuel IH]; intros data done bits all Hf Hi Hm Hl; cbn [add_aligned].
  all: destruct (divmod W (length done) H32) as [Ed _]; rewrite Hm in Ed.
  all: destruct (Nat.leb_spec W (length bits)) as [L|L]; try lia.
  1: assert (Hshort : length bits < W) by lia.
  3: assert (Hshort : length bits < W) by lia.
  2: {
    destruct (group_word_spec (firstn W bits) all) as (x & -> & Hx1 & Hx2).
    { rewrite firstn_length. lia. }
    destruct (upd_lt data (length done / W) x) as [data1 E1]; [lia|]. rewrite E1. cbn [bind].
    assert (L1 : length data1 = length data) by (apply upd_spec in E1; tauto).
    assert (Lf : length (firstn W bits) = W) by (rewrite firstn_length; lia).
    assert (I1 : data_inv data1 (done ++ firstn W bits)).
    { eapply write_aligned; try eassumption. lia. }
    assert (Ld : length (done ++ firstn W bits) = length done + W) by (rewrite app_length; lia).
    destruct (IH data1 (done ++ firstn W bits) (skipn W bits) (all && forallb id (firstn W bits)))
      as (data' & E & L' & I'); try assumption.
    - rewrite skipn_length. lia.
    - rewrite Ld. replace (length done + W) with (length done + 1 * W) by lia.
      rewrite Nat.mod_add by lia. exact Hm.
    - rewrite Ld, skipn_length. lia.
    - exists data'. replace (length (done ++ firstn W bits) / W) with (S (length done / W)) in E.
      + rewrite forallb_split in E. split; [exact E|]. split; [lia|].
        rewrite <- (firstn_skipn W bits). apply data_inv_app. exact I'.
      + rewrite Ld. replace (length done + W) with (length done + 1 * W) by lia.
        rewrite Nat.div_add by lia. lia. }
  all: destruct (Nat.ltb_spec 0 (length bits)) as [L0|L0].
  1,3: destruct (group_word_spec bits all) as (x & -> & Hx1 & Hx2); [lia|];
    destruct (upd_lt data (length done / W) x) as [data1 E1]; [lia|]; rewrite E1; cbn [bind];
    exists data1; split; [reflexivity|]; split; [apply upd_spec in E1; tauto|];
    eapply write_aligned; try eassumption; lia.
  all: destruct bits; [|simpl in L0; lia]; exists data; cbn [forallb];
    rewrite andb_true_r, app_nil_r; split; [reflexivity|]; split; [reflexivity|assumption].
Qed.

Lemma write_unaligned data done bits x : data_inv data done ->
  length done mod W <> 0 -> 0 < length bits <= W -> wok (length bits) x ->
  (forall r, tb x r = nth r bits false) ->
  length done + length bits <= W * length data ->
  exists data', add_word data (length done / W) (length done mod W) x = Some data' /\
    length data' = length data /\ data_inv data' (done ++ bits).
Proof.
  intros [I1 I2] Hm Hb Hwx Hx Hl. specialize (I2 Hm).
  destruct (divmod W (length done) H32) as [Ed Lo].
  unfold add_word. set (q := length done / W) in *. set (o := length done mod W) in *.
  destruct (rd_lt data q) as [d Erd]; [lia|]. rewrite Erd. cbn [bind].
  destruct (wshl_def W x o Lo) as [s Es]. rewrite Es. cbn [bind].
  destruct (upd_lt data q (N.lor d s)) as [data1 E1]; [lia|]. rewrite E1. cbn [bind].
  assert (L1 : length data1 = length data) by (apply upd_spec in E1; tauto).
  assert (Hd : forall r, r < W -> tb d r = if r <? o then nth (W * q + r) done false else false).
  { intros r Hr. rewrite <- (bt_at data q r d Erd Hr). unfold bit.
    destruct (Nat.ltb_spec r o); [rewrite I1 by lia|rewrite I2 by lia]; reflexivity. }
  assert (Hds : forall r, r < W -> tb (N.lor d s) r = nth (W * q + r) (done ++ bits) false).
  { intros r Hr. rewrite tb_lor, Hd, (tb_wshl _ _ _ _ _ Es) by exact Hr.
    replace (r <? W) with true by lia. destruct (Nat.ltb_spec r o).
    - replace (o <=? r) with false by lia. cbn [andb]. rewrite orb_false_r.
      rewrite app_nth1 by lia. reflexivity.
    - replace (o <=? r) with true by lia. rewrite app_nth2 by lia. cbn [orb andb].
      rewrite Hx. f_equal. lia. }
  assert (Hg1 : forall i, gb data1 i = if i / W =? q then Some (nth i (done ++ bits) false) else gb data i).
  { intros i. rewrite (get_bit_upd W _ _ _ _ i E1). destruct (divmod W i H32) as [Ei Li].
    destruct (Nat.eqb_spec (i / W) q); [|reflexivity]. rewrite Hds by exact Li.
    f_equal. f_equal. lia. }
  destruct (Nat.ltb_spec (q + 1) (length data1)) as [Lt|Ge].
  - destruct (wshr_def W x (W - o)) as [t Et]; [lia|]. rewrite Et. cbn [bind].
    destruct (upd_lt data1 (q + 1) t) as [data' E2]; [lia|]. exists data'. split; [exact E2|].
    split; [apply upd_spec in E2; lia|].
    assert (Hg : forall i, gb data' i = if (i / W =? q) || (i / W =? q + 1)
                 then Some (nth i (done ++ bits) false) else gb data i).
    { intros i. rewrite (get_bit_upd W _ _ _ _ i E2), Hg1. destruct (divmod W i H32) as [Ei Li].
      destruct (Nat.eqb_spec (i / W) (q + 1)) as [Eq|Ne].
      - replace (i / W =? q) with false by lia. cbn [orb].
        rewrite (tb_wshr _ _ _ _ _ Et), Hx. rewrite app_nth2 by lia. f_equal. f_equal. lia.
      - rewrite orb_false_r. reflexivity. }
    split; rewrite app_length.
    + intros i Hi. rewrite Hg. destruct (divmod W i H32) as [Ei Li].
      destruct ((i / W =? q) || (i / W =? q + 1)) eqn:Ec; [reflexivity|].
      rewrite app_nth1 by lia. apply I1. lia.
    + intros Hm' i Hi. rewrite Hg. destruct (divmod W i H32) as [Ei Li].
      destruct (divmod W (length done + length bits) H32) as [Ef Lf].
      replace ((i / W =? q) || (i / W =? q + 1)) with true by lia.
      rewrite nth_overflow by (rewrite app_length; lia). reflexivity.
  - exists data1. split; [reflexivity|]. split; [exact L1|]. split; rewrite app_length.
    + intros i Hi. rewrite Hg1. destruct (divmod W i H32) as [Ei Li].
      destruct (Nat.eqb_spec (i / W) q); [reflexivity|].
      rewrite app_nth1 by lia. apply I1. lia.
    + intros Hm' i Hi. rewrite Hg1. destruct (divmod W i H32) as [Ei Li].
      destruct (divmod W (length done + length bits) H32) as [Ef Lf].
      replace (i / W =? q) with true by lia.
      rewrite nth_overflow by (rewrite app_length; lia). reflexivity.
Qed.

Lemma add_unaligned_ok fuel : forall data done bits all,
  length bits < W * S fuel -> data_inv data done -> length done mod W <> 0 ->
  length done + length bits <= W * length data ->
  exists data', add_unaligned fuel data (length done) (length done mod W) bits all
                = Some (data', all && forallb id bits) /\
    length data' = length data /\ data_inv data' (done ++ bits).
Proof.
  induction fuel as [|fuel IH]; intros data done bits all Hf Hi Hm Hl; cbn [add_unaligned].
  all: destruct (Nat.leb_spec W (length bits)) as [L|L]; try lia.
  2: {
    assert (Lf : length (firstn W bits) = W) by (rewrite firstn_length; lia).
    destruct (group_word_spec (firstn W bits) all) as (x & -> & Hx1 & Hx2); [lia|].
    destruct (write_unaligned data done (firstn W bits) x) as (data1 & E1 & L1 & I1);
      try assumption; try lia.
    rewrite E1. cbn [bind].
    assert (Ld : length (done ++ firstn W bits) = length done + W) by (rewrite app_length; lia).
    assert (Hm2 : (length done + W) mod W = length done mod W).
    { replace (length done + W) with (length done + 1 * W) by lia. apply Nat.mod_add. lia. }
    destruct (IH data1 (done ++ firstn W bits) (skipn W bits) (all && forallb id (firstn W bits)))
      as (data' & E & L' & I'); try assumption.
    - rewrite skipn_length. lia.
    - rewrite Ld, Hm2. exact Hm.
    - rewrite Ld, skipn_length. lia.
    - exists data'. rewrite Ld, Hm2 in E. rewrite forallb_split in E. split; [exact E|].
      split; [lia|]. rewrite <- (firstn_skipn W bits). apply data_inv_app. exact I'. }
  all: destruct (Nat.ltb_spec 0 (length bits)) as [L0|L0].
  1,3: destruct (group_word_spec bits all) as (x & -> & Hx1 & Hx2); [lia|];
    destruct (write_unaligned data done bits x) as (data1 & E1 & L1 & I1);
      try assumption; try lia; rewrite E1; cbn [bind];
    exists data1; split; [reflexivity|]; split; [exact L1|exact I1].
  all: destruct bits; [|simpl in L0; lia]; exists data; cbn [forallb];
    rewrite andb_true_r, app_nil_r; split; [reflexivity|]; split; [reflexivity|assumption].
Qed.

Definition builder_inv (b : builder) (done : list bool) : Prop :=
  data_inv (b_data b) done /\ b_cur b = length done /\ b_all b = forallb id done.

Lemma builder_add_ok b done bits : builder_inv b done ->
  length done + length bits <= W * length (b_data b) ->
  exists b', builder_add b bits = Some b' /\ length (b_data b') = length (b_data b) /\
    builder_inv b' (done ++ bits).
Proof.
  intros (Hi & Hc & Ha) Hl. unfold builder_add. rewrite Hc.
  destruct (Nat.eqb_spec (length done mod W) 0) as [E0|N0].
  - destruct (add_aligned_ok (length bits) (b_data b) done bits (b_all b)) as (d & E & L & I);
      try assumption; try lia.
    rewrite E. cbn [bind]. eexists. split; [reflexivity|]. cbn. split; [exact L|].
    split; [exact I|]. rewrite app_length, forallb_app, Ha. split; reflexivity.
  - destruct (add_unaligned_ok (length bits) (b_data b) done bits (b_all b)) as (d & E & L & I);
      try assumption; try lia.
    rewrite E. cbn [bind]. eexists. split; [reflexivity|]. cbn. split; [exact L|].
    split; [exact I|]. rewrite app_length, forallb_app, Ha. split; reflexivity.
Qed.

Fixpoint add_all (b : builder) (chunks : list (list bool)) : option builder :=
  match chunks with
  | [] => Some b
  | c :: cs => let? b' := builder_add b c in add_all b' cs
  end.

Lemma add_all_ok chunks : forall b done, builder_inv b done ->
  length done + length (concat chunks) <= W * length (b_data b) ->
  exists b', add_all b chunks = Some b' /\ length (b_data b') = length (b_data b) /\
    builder_inv b' (done ++ concat chunks).
Proof.
  induction chunks as [|c cs IH]; intros b done Hi Hl; cbn [add_all concat].
  - exists b. rewrite app_nil_r. split; [reflexivity|]. split; [reflexivity|exact Hi].
  - cbn [concat] in Hl. rewrite app_length in Hl.
    destruct (builder_add_ok b done c Hi) as (b1 & E1 & L1 & I1); [lia|]. rewrite E1. cbn [bind].
    destruct (IH b1 (done ++ c) I1) as (b' & E & L & I).
    { rewrite app_length. lia. }
    exists b'. split; [exact E|]. split; [lia|]. rewrite app_assoc. exact I.
Qed.

Lemma builder_ok n mem chunks :
  length mem = bitmap_size n -> length (concat chunks) = n ->
  exists b, add_all (builder_init mem) chunks = Some b /\
    (if forallb id (concat chunks) then builder_build b = []
     else length (builder_build b) = bitmap_size n /\
          forall i, i < n -> gb (builder_build b) i = Some (nth i (concat chunks) false)).
Proof.
  intros Hm Hn. pose proof (bitmap_size_ge n).
  destruct (add_all_ok chunks (builder_init mem) []) as (b & E & L & I).
  - split; [|split; reflexivity]. split; cbn [length].
    + intros i Hi. lia.
    + intros Hz. exfalso. apply Hz. reflexivity.
  - cbn [length b_data builder_init]. lia.
  - exists b. split; [exact E|]. cbn [app] in I. destruct I as ((I1 & I2) & Ic & Ia).
    unfold builder_build. rewrite Ia. destruct (forallb id (concat chunks)); [reflexivity|].
    split; [rewrite L; exact Hm|]. intros i Hi. apply I1. lia.
Qed.

(** ** AlmostFullBuilder *)
Lemma bm_unset_bit_ok ws i : i < W * length ws ->
  exists ws', bm_unset_bit ws i = Some ws' /\ length ws' = length ws /\
    forall j, gb ws' j = if j =? i then Some false else gb ws j.
Proof.
  intros H. unfold bm_unset_bit. destruct (divmod W i H32) as [Ei Li].
  destruct (rd_lt ws (i / W)) as [x Ex]; [lia|]. rewrite Ex. cbn [bind].
  destruct (wshl_def W 1 (i mod W) Li) as [m Em]. rewrite Em. cbn [bind].
  destruct (upd_lt ws (i / W) (N.land x (wnot W m))) as [ws' E]; [lia|].
  exists ws'. split; [exact E|]. split; [apply upd_spec in E; tauto|].
  intros j. rewrite (get_bit_upd W _ _ _ _ j E). destruct (divmod W j H32) as [Ej Lj].
  rewrite tb_land, tb_wnot, (tb_wshl _ _ _ _ _ Em), tb_1.
  replace (j mod W <? W) with true by lia.
  destruct (Nat.eqb_spec (j / W) (i / W)) as [Eq|Ne].
  - destruct (Nat.eqb_spec j i) as [->|Nj].
    + replace ((i mod W <=? i mod W)) with true by lia.
      replace (i mod W - i mod W =? 0) with true by lia. simpl. rewrite andb_false_r. reflexivity.
    + unfold get_bit. rewrite Eq, Ex. cbn [bind]. f_equal.
      destruct (Nat.leb_spec (i mod W) (j mod W)); cbn [andb].
      * replace (j mod W - i mod W =? 0) with false by lia. apply andb_true_r.
      * apply andb_true_r.
  - destruct (Nat.eqb_spec j i) as [->|Nj]; [congruence|reflexivity].
Qed.

Lemma create_full_bitmap_ok n : exists ws, create_full_bitmap n = Some ws /\
  length ws = bitmap_size n /\ forall i, i < n -> gb ws i = Some true.
Proof.
  unfold create_full_bitmap. set (ws0 := repeat full_word (bitmap_size n)).
  assert (L0 : length ws0 = bitmap_size n) by apply repeat_length.
  pose proof (bitmap_size_ge n) as Hge. pose proof (bitmap_size_lt n) as Hlt.
  assert (R0 : forall i, i < bitmap_size n -> rd ws0 i = Some full_word).
  { intros i Hi. destruct (rd_lt ws0 i) as [x Ex]; [lia|]. rewrite Ex. f_equal.
    apply nth_error_In in Ex. apply repeat_spec in Ex. exact Ex. }
  destruct (divmod W n H32) as [En Ln].
  destruct (Nat.eqb_spec (n mod W) 0) as [E0|N0]; cbn [negb].
  - exists ws0. split; [reflexivity|]. split; [exact L0|]. intros i Hi.
    unfold get_bit. destruct (divmod W i H32) as [Ei Li]. rewrite R0 by lia. cbn [bind]. unfold full_word.
    rewrite tb_ones. f_equal. lia.
  - rewrite L0, R0 by lia. cbn [bind].
    destruct (wshl_def W 1 (n mod W) Ln) as [m Em]. rewrite Em. cbn [bind].
    destruct (upd_lt ws0 (bitmap_size n - 1) (N.land full_word (m - 1))) as [ws E]; [lia|].
    exists ws. split; [exact E|]. split; [apply upd_spec in E; lia|].
    intros i Hi. rewrite (get_bit_upd W _ _ _ _ i E). destruct (divmod W i H32) as [Ei Li].
    destruct (Nat.eqb_spec (i / W) (bitmap_size n - 1)) as [Eq|Ne].
    + rewrite tb_land. unfold full_word. rewrite tb_ones. replace (i mod W <? W) with true by lia.
      assert (Em' : (m - 1)%N = N.ones (N.of_nat (n mod W))).
      { unfold wshl in Em. replace (n mod W <? W) with true in Em by lia.
        assert (E2 : m = N.land (N.shiftl 1 (N.of_nat (n mod W))) (wones W)) by congruence.
        rewrite E2, N.ones_equiv, <- N.sub_1_r. unfold wones. rewrite N.land_ones, N.shiftl_1_l. rewrite N.mod_small; [reflexivity|].
        apply N.pow_lt_mono_r; lia. }
      rewrite Em'. fold (wones (n mod W)). rewrite tb_ones. f_equal. cbn [andb]. lia.
    + unfold get_bit. rewrite R0 by lia. cbn [bind]. unfold full_word. rewrite tb_ones. f_equal. lia.
Qed.

Fixpoint af_add_all (b : almost_full) (ids : list nat) : option almost_full :=
  match ids with
  | [] => Some b
  | i :: t => let? b' := af_add_missed b i in af_add_all b' t
  end.

Definition af_inv (n : nat) (b : almost_full) (ids : list nat) : Prop :=
  af_bits b = n /\
  match af_buf b with
  | None => ids = []
  | Some ws => length ws = bitmap_size n /\ ids <> [] /\
      forall i, i < n -> gb ws i = Some (negb (existsb (Nat.eqb i) ids))
  end.

Lemma af_add_ok n b ids id : af_inv n b ids -> id < n ->
  exists b', af_add_missed b id = Some b' /\ af_inv n b' (ids ++ [id]).
Proof.
  intros [Hn Hb] Hid. unfold af_add_missed. rewrite Hn.
  assert (Hws : exists ws, match af_buf b with Some ws => Some ws | None => create_full_bitmap n end = Some ws /\
    length ws = bitmap_size n /\ forall i, i < n -> gb ws i = Some (negb (existsb (Nat.eqb i) ids))).
  { destruct (af_buf b) as [ws|].
    - exists ws. split; [reflexivity|]. split; tauto.
    - subst ids. destruct (create_full_bitmap_ok n) as (ws & E & L & G).
      exists ws. split; [exact E|]. split; [exact L|]. exact G. }
  destruct Hws as (ws & -> & L & G). cbn [bind].
  pose proof (bitmap_size_ge n).
  destruct (bm_unset_bit_ok ws id) as (ws' & E & L' & G'); [lia|]. rewrite E. cbn [bind].
  eexists. split; [reflexivity|]. split; [reflexivity|]. cbn [af_buf].
  split; [lia|]. split; [destruct ids; discriminate|].
  intros i Hi. rewrite G', existsb_app. cbn [existsb]. rewrite orb_false_r.
  destruct (Nat.eqb_spec i id).
  - rewrite orb_true_r. reflexivity.
  - rewrite orb_false_r. apply G. exact Hi.
Qed.

Lemma af_add_all_ok n ids : forall b done, af_inv n b done -> Forall (fun i => i < n) ids ->
  exists b', af_add_all b ids = Some b' /\ af_inv n b' (done ++ ids).
Proof.
  induction ids as [|i t IH]; intros b done Hi Hf; cbn [af_add_all].
  - exists b. rewrite app_nil_r. split; [reflexivity|exact Hi].
  - inversion Hf as [|? ? H1 H2]; subst.
    destruct (af_add_ok n b done i Hi H1) as (b1 & E1 & I1). rewrite E1. cbn [bind].
    destruct (IH b1 (done ++ [i]) I1 H2) as (b' & E & I). exists b'. split; [exact E|].
    rewrite <- app_assoc in I. exact I.
Qed.

Lemma af_ok n ids : Forall (fun i => i < n) ids ->
  exists b, af_add_all (af_init n) ids = Some b /\ af_inv n b ids.
Proof.
  intros H. apply (af_add_all_ok n ids (af_init n) []); [|exact H].
  split; reflexivity.
Qed.

(** What a reader of the bitmap [s] sees at element [i] (bitmap.h:136-143):
    an empty bitmap is all present; [None] is a read outside of the memory. *)
Definition span_bit (s : span) (i : nat) : option bool :=
  if sp_len s =? 0 then Some true else gb (sp_mem s) i.

Lemma af_build_ok n ids : Forall (fun i => i < n) ids ->
  exists b, af_add_all (af_init n) ids = Some b /\
    span_readable (af_build b) /\
    forall i, i < n -> span_bit (af_build b) i = Some (negb (existsb (Nat.eqb i) ids)).
Proof.
  intros H. destruct (af_ok n ids H) as (b & E & Hn & Hi). exists b. split; [exact E|].
  unfold af_build, af_span. destruct (af_buf b) as [ws|].
  - destruct Hi as (L & Hne & G). split; [unfold span_readable; cbn; lia|].
    intros i Hi. unfold span_bit. cbn. pose proof (bitmap_size_ge n).
    replace (length ws =? 0) with false by lia. apply G. exact Hi.
  - subst ids. split; [unfold span_readable; cbn; lia|]. intros i Hi. reflexivity.
Qed.

Lemma af_build_size_ok n ids size : Forall (fun i => i < n) ids -> size <= n ->
  ids <> [] ->
  exists b, af_add_all (af_init n) ids = Some b /\
    span_readable (af_build_size b size) /\ sp_len (af_build_size b size) = bitmap_size size /\
    forall i, i < size -> span_bit (af_build_size b size) i = Some (negb (existsb (Nat.eqb i) ids)).
Proof.
  intros H Hs Hne. destruct (af_ok n ids H) as (b & E & Hn & Hi). exists b. split; [exact E|].
  unfold af_build_size, af_span, span_slice. destruct (af_buf b) as [ws|]; [|contradiction].
  destruct Hi as (L & _ & G). pose proof (bitmap_size_le _ _ Hs).
  destruct (Nat.ltb_spec 0 (bitmap_size size)) as [L0|L0].
  - split; [unfold span_readable; cbn [subspan sp_len sp_mem skipn]; lia|]. split; [reflexivity|].
    intros i Hi. unfold span_bit. cbn [subspan sp_len sp_mem skipn].
    replace (bitmap_size size =? 0) with false by lia. apply G. lia.
  - split; [unfold span_readable; cbn [null_span sp_len sp_mem length]; lia|].
    split; [cbn [null_span sp_len]; lia|].
    intros i Hi. pose proof (bitmap_size_ge size). lia.
Qed.

(** Without any AddMissed, Build(size) for a non-zero size is unreadable. *)
Lemma af_build_size_none n size : 0 < size ->
  exists b, af_add_all (af_init n) [] = Some b /\ ~ span_readable (af_build_size b size).
Proof.
  intros H. exists (af_init n). split; [reflexivity|].
  unfold af_build_size, af_span, span_slice. pose proof (bitmap_size_ge size).
  replace (0 <? bitmap_size size) with true by lia.
  unfold span_readable. cbn [subspan af_init af_buf null_span sp_len sp_mem skipn length]. lia.
Qed.
