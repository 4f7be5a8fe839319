(** Proofs about [Algo_Model]. *)
From Verif Require Import Base Bits_Model Bits_Proofs Algo_Model.

Section W.
Variable w : nat.
Hypothesis Hw : 0 < w.
Notation bt := (bit w).
Notation gb := (get_bit w).

Lemma bt_at' bm q r x : rd bm q = Some x -> r < w -> bt bm (w * q + r) = tb x r.
Proof. intros E H. unfold bit. rewrite get_bit_at by assumption. rewrite E. reflexivity. Qed.
Lemma wok_rd' (bm : list N) i x : Forall (wok w) bm -> rd bm i = Some x -> wok w x.
Proof. intros H E. rewrite Forall_forall in H. apply H. eapply nth_error_In; exact E. Qed.

Lemma pair_bt' bm q off x y a b r : Forall (wok w) bm -> 0 < off < w ->
  rd bm q = Some x -> rd bm (q + 1) = Some y ->
  wshr w x off = Some a -> wshl w y (w - off) = Some b -> r < w ->
  tb (N.lor a b) r = bt bm (w * q + r + off).
Proof.
  intros Hok Ho Ex Ey Ha Hb Hr.
  rewrite tb_lor, (tb_wshr _ _ _ _ _ Ha), (tb_wshl _ _ _ _ _ Hb).
  destruct (Nat.lt_ge_cases (r + off) w).
  - replace (w - off <=? r) with false by lia. rewrite andb_false_r, orb_false_r.
    rewrite <- (bt_at' bm q _ x) by assumption. f_equal. lia.
  - rewrite (wok_rd' _ _ _ Hok Ex (r + off)) by lia. replace (r <? w) with true by lia.
    replace (w - off <=? r) with true by lia. cbn [orb andb].
    rewrite <- (bt_at' bm (q + 1) _ y) by (assumption || lia). f_equal. lia.
Qed.

Lemma one_bt' bm q off x a r : rd bm q = Some x -> wshr w x off = Some a -> r + off < w ->
  tb a r = bt bm (w * q + r + off).
Proof.
  intros Ex Ha Hr. rewrite (tb_wshr _ _ _ _ _ Ha).
  rewrite <- (bt_at' bm q _ x) by assumption. f_equal. lia.
Qed.

(** [ws'] is [ws] with the bits of [lo,hi) replaced by [f]. *)
Definition patched (ws ws' : list N) (lo hi : nat) (f : nat -> bool) : Prop :=
  length ws' = length ws /\
  forall k, gb ws' k = if (lo <=? k) && (k <? hi) then Some (f k) else gb ws k.

Lemma patched_refl ws lo f : patched ws ws lo lo f.
Proof.
  split; [reflexivity|]. intros k. replace ((lo <=? k) && (k <? lo)) with false by lia. reflexivity.
Qed.
Lemma patched_trans a b c lo mid hi f : lo <= mid <= hi ->
  patched a b lo mid f -> patched b c mid hi f -> patched a c lo hi f.
Proof.
  intros Hm [L1 H1] [L2 H2]. split; [lia|]. intros k. rewrite H2, H1.
  destruct ((mid <=? k) && (k <? hi)) eqn:E1.
  - replace ((lo <=? k) && (k <? hi)) with true by lia. reflexivity.
  - destruct ((lo <=? k) && (k <? mid)) eqn:E2.
    + replace ((lo <=? k) && (k <? hi)) with true by lia. reflexivity.
    + replace ((lo <=? k) && (k <? hi)) with false by lia. reflexivity.
Qed.

Lemma upd_patched ws ws' q x y f lo hi :
  rd ws q = Some x -> upd ws q y = Some ws' -> w * q <= lo -> hi <= w * q + w ->
  (forall r, r < w -> tb y r =
     if (lo <=? w * q + r) && (w * q + r <? hi) then f (w * q + r) else tb x r) ->
  patched ws ws' lo hi f.
Proof.
  intros Ex E Hlo Hhi Hy. split; [apply upd_spec in E; tauto|]. intros k.
  rewrite (get_bit_upd w ws ws' q y k E). destruct (divmod w k Hw) as [Ek Lk].
  destruct (Nat.eqb_spec (k / w) q) as [Eq|Ne].
  - rewrite Hy by exact Lk. rewrite Eq in Ek. rewrite <- Ek.
    destruct ((lo <=? k) && (k <? hi)); [reflexivity|].
    unfold get_bit. rewrite Eq, Ex. reflexivity.
  - destruct ((lo <=? k) && (k <? hi)) eqn:Ec; [|reflexivity]. exfalso. apply Ne.
    apply div_eq_iff; [exact Hw|lia].
Qed.

Lemma merge_word_ok lhs p v mask f lo hi : p < length lhs -> w * p <= lo -> hi <= w * p + w ->
  (forall r, r < w -> tb mask r = (lo <=? w * p + r) && (w * p + r <? hi)) ->
  (forall r, r < w -> lo <= w * p + r < hi -> tb v r = f (w * p + r)) ->
  exists lhs', merge_word w lhs p v mask = Some lhs' /\ patched lhs lhs' lo hi f.
Proof.
  intros Hp Hlo Hhi Hm Hv. unfold merge_word. destruct (rd_lt lhs p Hp) as [l El].
  rewrite El. cbn [bind].
  destruct (upd_lt lhs p (N.lor (N.land l (wnot w mask)) (N.land v mask)) Hp) as [lhs' E].
  exists lhs'. split; [exact E|]. eapply upd_patched; try eassumption.
  intros r Hr. rewrite tb_lor, !tb_land, tb_wnot, Hm by exact Hr.
  replace (r <? w) with true by lia.
  destruct ((lo <=? w * p + r) && (w * p + r <? hi)) eqn:Ec; cbn [negb andb].
  - rewrite andb_false_r, andb_true_r. cbn [orb]. apply Hv; lia.
  - rewrite andb_false_r, andb_true_r, orb_false_r. reflexivity.
Qed.

Lemma copy_words_ok rhs n : forall lhs rp lp,
  rp + n <= length rhs -> lp + n <= length lhs ->
  exists lhs', copy_words rhs lhs rp lp n = Some lhs' /\
    patched lhs lhs' (w * lp) (w * (lp + n)) (fun k => bt rhs (w * rp + (k - w * lp))).
Proof.
  induction n as [|n IH]; intros lhs rp lp Hr Hl; cbn [copy_words].
  - exists lhs. split; [reflexivity|]. rewrite Nat.add_0_r. apply patched_refl.
  - destruct (rd_lt rhs rp) as [x Ex]; [lia|]. rewrite Ex. cbn [bind].
    destruct (rd_lt lhs lp) as [l El]; [lia|].
    destruct (upd_lt lhs lp x) as [lhs1 E1]; [lia|]. rewrite E1. cbn [bind].
    assert (L1 : length lhs1 = length lhs) by (apply upd_spec in E1; tauto).
    destruct (IH lhs1 (S rp) (S lp)) as (lhs' & E & P); [lia..|].
    exists lhs'. split; [exact E|].
    apply patched_trans with lhs1 (w * S lp); [nia| |].
    + eapply upd_patched; try eassumption; [lia..|]. intros r Hr'.
      replace (_ && _) with true by nia. rewrite <- (bt_at' rhs rp r x) by assumption.
      f_equal. lia.
    + destruct P as [LP P]. split; [exact LP|]. intros k. rewrite P.
      replace (S lp + n) with (lp + S n) by lia.
      destruct ((w * S lp <=? k) && (k <? w * (lp + S n))) eqn:Ec; [|reflexivity].
      f_equal. f_equal. nia.
Qed.

Lemma copy_shift_loop_ok rhs s n : Forall (wok w) rhs -> 0 < s < w -> forall lhs rp lp,
  (n = 0 \/ rp + n < length rhs) -> lp + n <= length lhs ->
  exists lhs', copy_shift_loop w rhs lhs s rp lp n = Some lhs' /\
    patched lhs lhs' (w * lp) (w * (lp + n)) (fun k => bt rhs (w * rp + s + (k - w * lp))).
Proof.
  intros Hok Hs. induction n as [|n IH]; intros lhs rp lp Hr Hl; cbn [copy_shift_loop].
  - exists lhs. split; [reflexivity|]. rewrite Nat.add_0_r. apply patched_refl.
  - destruct (rd_lt rhs rp) as [x Ex]; [lia|]. rewrite Ex. cbn [bind].
    destruct (wshr_def w x s) as [x' Ex']; [lia|]. rewrite Ex'. cbn [bind].
    destruct (rd_lt rhs (rp + 1)) as [y Ey]; [lia|]. rewrite Ey. cbn [bind].
    destruct (wshl_def w y (w - s)) as [y' Ey']; [lia|]. rewrite Ey'. cbn [bind].
    destruct (rd_lt lhs lp) as [l El]; [lia|].
    destruct (upd_lt lhs lp (N.lor x' y')) as [lhs1 E1]; [lia|]. rewrite E1. cbn [bind].
    assert (L1 : length lhs1 = length lhs) by (apply upd_spec in E1; tauto).
    destruct (IH lhs1 (S rp) (S lp)) as (lhs' & E & P); [lia..|].
    exists lhs'. split; [exact E|].
    apply patched_trans with lhs1 (w * S lp); [nia| |].
    + eapply upd_patched; try eassumption; [lia..|]. intros r Hr'.
      replace (_ && _) with true by nia.
      rewrite (pair_bt' rhs rp s x y x' y' r) by assumption. f_equal. lia.
    + destruct P as [LP P]. split; [exact LP|]. intros k. rewrite P.
      replace (S lp + n) with (lp + S n) by lia.
      destruct ((w * S lp <=? k) && (k <? w * (lp + S n))) eqn:Ec; [|reflexivity].
      f_equal. f_equal. nia.
Qed.

Lemma ceil_spec n : n <= w * ((n + w - 1) / w) < n + w.
Proof. pose proof (divmod w (n + w - 1) Hw). lia. Qed.

(** [m] bits are copied from bit [w*rp+s] of [rhs] to bit [w*lp] of [lhs]. *)
Lemma copy_aligned_ok rhs lhs lp lw rp rw s tail m : Forall (wok w) rhs -> s < w -> 0 < m ->
  w * lw = m + tail -> tail < w -> m + s <= w * rw < m + s + w ->
  rp + rw <= length rhs -> lp + lw <= length lhs ->
  exists lhs', copy_aligned w rhs lhs lp lw rp rw s tail = Some lhs' /\
    patched lhs lhs' (w * lp) (w * lp + m) (fun k => bt rhs (w * rp + s + (k - w * lp))).
Proof.
  intros Hok Hs Hm Hlw Ht Hrw Hr Hl. unfold copy_aligned.
  set (full := if tail =? 0 then lw else lw - 1).
  assert (Hfull : full <= lw /\ w * full <= m /\ (tail = 0 -> w * full = m /\ full = lw) /\
                  (tail <> 0 -> full + 1 = lw /\ m < w * full + w)).
  { subst full. destruct (Nat.eqb_spec tail 0); nia. }
  clearbody full. destruct Hfull as (F1 & F2 & F3 & F4).
  assert (Hfr : full <= rw) by nia.
  assert (HF : exists lhs1,
    (if 0 <? full then
      if s =? 0 then copy_words rhs lhs rp lp full
      else
        let? l1 := copy_shift_loop w rhs lhs s rp lp (Nat.min (rw - 1) full) in
        if Nat.min (rw - 1) full <? full then
          let? x := rd rhs (rp + Nat.min (rw - 1) full) in
          let? x' := wshr w x s in
          upd l1 (lp + Nat.min (rw - 1) full) x'
        else Some l1
    else Some lhs) = Some lhs1 /\
    patched lhs lhs1 (w * lp) (w * (lp + full)) (fun k => bt rhs (w * rp + s + (k - w * lp)))).
  { destruct (Nat.ltb_spec 0 full) as [L0|L0].
    - destruct (Nat.eqb_spec s 0) as [->|Ns].
      + destruct (copy_words_ok rhs full lhs rp lp) as (l1 & E & P); [lia..|].
        exists l1. split; [exact E|]. rewrite Nat.add_0_r. exact P.
      + set (k := Nat.min (rw - 1) full).
        destruct (copy_shift_loop_ok rhs s k Hok ltac:(lia) lhs rp lp) as (l1 & E & P); [lia..|].
        rewrite E. cbn [bind]. destruct (Nat.ltb_spec k full) as [Lk|Lk].
        * exfalso. assert (rw = full) by lia. subst rw. lia.
        * replace k with full in P by lia. exists l1. split; [reflexivity|exact P].
    - exists lhs. split; [reflexivity|]. replace (lp + full) with lp by lia. apply patched_refl. }
  destruct HF as (lhs1 & E1 & P1). cbv zeta. rewrite E1. cbn [bind].
  assert (L1 : length lhs1 = length lhs) by apply P1.
  destruct (Nat.eqb_spec tail 0) as [T0|T0]; cbn [negb].
  - exists lhs1. split; [reflexivity|]. destruct (F3 T0) as [F5 F6].
    replace (w * lp + m) with (w * (lp + full)) by nia. exact P1.
  - destruct (F4 T0) as [F5 F6].
    destruct (rd_lt rhs (rp + full)) as [x Ex]; [nia|]. rewrite Ex. cbn [bind].
    destruct (wshr_def w x s Hs) as [x' Ex']. rewrite Ex'. cbn [bind].
    set (rest := m - w * full).
    assert (HV : exists v,
      (if rw - full =? 2 then
        let? y := rd rhs (rp + full + 1) in
        let? y' := wshl w y (w - s) in
        Some (N.lor x' y')
       else Some x') = Some v /\
      forall r, r < rest -> tb v r = bt rhs (w * (rp + full) + r + s)).
    { destruct (Nat.eqb_spec (rw - full) 2) as [E2|N2].
      - destruct (rd_lt rhs (rp + full + 1)) as [y Ey]; [lia|]. rewrite Ey. cbn [bind].
        destruct (Nat.eq_dec s 0) as [->|Ns].
        + exfalso. assert (rw = full + 2) by lia. subst rw. nia.
        + destruct (wshl_def w y (w - s)) as [y' Ey']; [lia|]. rewrite Ey'. cbn [bind].
          eexists. split; [reflexivity|]. intros r Hr'.
          apply (pair_bt' rhs (rp + full) s x y x' y' r); try assumption; lia.
      - exists x'. split; [reflexivity|]. intros r Hr'.
        apply (one_bt' rhs (rp + full) s x x' r); try assumption.
        assert (rw = full + 1) by nia. subst rw. nia. }
    destruct HV as (v & EV & HV). rewrite EV. cbn [bind].
    destruct (wshr_def w (wones w) tail Ht) as [mask Em]. rewrite Em. cbn [bind].
    destruct (merge_word_ok lhs1 (lp + full) v mask (fun k => bt rhs (w * rp + s + (k - w * lp)))
                (w * (lp + full)) (w * lp + m)) as (lhs' & E & P); [nia|nia|nia| | |].
    + intros r Hr'. rewrite (tb_wshr _ _ _ _ _ Em), tb_ones. nia.
    + intros r Hr' Hr2. rewrite HV by nia. f_equal. nia.
    + exists lhs'. split; [exact E|].
      apply patched_trans with lhs1 (w * (lp + full)); [nia|exact P1|exact P].
Qed.

Lemma copy_bits_ok n rhs rs lhs ls : Forall (wok w) rhs -> rs < w -> ls < w ->
  rs + n <= w * length rhs -> ls + n <= w * length lhs ->
  exists lhs', copy_bits w n rhs rs lhs ls = Some lhs' /\
    patched lhs lhs' ls (ls + n) (fun k => bt rhs (rs + (k - ls))).
Proof.
  intros Hok Hrs Hls Hr Hl. unfold copy_bits.
  destruct (Nat.eqb_spec n 0) as [->|N0].
  { exists lhs. split; [reflexivity|]. rewrite Nat.add_0_r. apply patched_refl. }
  pose proof (ceil_spec (n + rs)) as Cr. pose proof (ceil_spec (n + ls)) as Cl.
  set (rw := (n + rs + w - 1) / w) in *. set (lw := (n + ls + w - 1) / w) in *.
  clearbody rw lw. set (tail := lw * w - (n + ls)).
  assert (Htail : w * lw = n + ls + tail /\ tail < w) by lia. clearbody tail.
  destruct Htail as [Htl Ht].
  assert (Hrw1 : 1 <= rw) by nia. assert (Hlw1 : 1 <= lw) by nia.
  assert (Hrwl : rw <= length rhs).
  { destruct (Nat.le_gt_cases rw (length rhs)); [assumption|]. nia. }
  assert (Hlwl : lw <= length lhs).
  { destruct (Nat.le_gt_cases lw (length lhs)); [assumption|]. nia. }
  destruct (Nat.eqb_spec ls 0) as [->|Nl]; cbn [negb].
  - destruct (copy_aligned_ok rhs lhs 0 lw 0 rw rs tail n) as (lhs' & E & P);
      try assumption; try lia.
    exists lhs'. split; [exact E|]. rewrite Nat.mul_0_r in P.
    destruct P as [LP P]. split; [exact LP|]. intros k. rewrite P.
    destruct ((0 <=? k) && (k <? 0 + n)); reflexivity.
  - assert (HV : exists v, copy_first_val w rhs rw rs ls = Some v /\
      forall r, ls <= r < w -> r < ls + n -> tb v r = bt rhs (rs + (r - ls))).
    { unfold copy_first_val. destruct (rd_lt rhs 0) as [x Ex]; [lia|]. rewrite Ex. cbn [bind].
      destruct (Nat.eqb_spec ls rs) as [Eq|Ne].
      - exists x. split; [reflexivity|]. intros r Hr1 Hr2.
        rewrite <- (bt_at' rhs 0 r x) by (assumption || lia). f_equal. lia.
      - destruct (Nat.ltb_spec ls rs) as [L|L].
        + destruct (wshr_def w x (rs - ls)) as [x' Ex']; [lia|]. rewrite Ex'. cbn [bind].
          destruct (Nat.ltb_spec 1 rw) as [L1|L1].
          * destruct (rd_lt rhs 1) as [y Ey]; [lia|]. rewrite Ey. cbn [bind].
            destruct (wshl_def w y (w - (rs - ls))) as [y' Ey']; [lia|]. rewrite Ey'. cbn [bind].
            eexists. split; [reflexivity|]. intros r Hr1 Hr2.
            rewrite (pair_bt' rhs 0 (rs - ls) x y x' y' r) by (assumption || lia). f_equal. lia.
          * exists x'. split; [reflexivity|]. intros r Hr1 Hr2.
            assert (rw = 1) by lia. subst rw.
            rewrite (one_bt' rhs 0 (rs - ls) x x' r) by (assumption || lia). f_equal. lia.
        + destruct (wshl_def w x (ls - rs)) as [x' Ex']; [lia|].
          exists x'. split; [exact Ex'|]. intros r Hr1 Hr2.
          rewrite (tb_wshl _ _ _ _ _ Ex'). replace (r <? w) with true by lia.
          replace (ls - rs <=? r) with true by lia. cbn [andb].
          rewrite <- (bt_at' rhs 0 _ x) by (assumption || lia). f_equal. lia. }
    destruct HV as (v & EV & HV). rewrite EV. cbn [bind].
    destruct (wshl_def w (wones w) ls Hls) as [m Em]. rewrite Em. cbn [bind].
    destruct (Nat.eqb_spec lw 1) as [E1|N1].
    + subst lw. destruct (wshr_def w (wones w) tail Ht) as [m2 Em2]. rewrite Em2. cbn [bind].
      apply merge_word_ok; [lia..| |].
      * intros r Hr1. rewrite tb_land, (tb_wshl _ _ _ _ _ Em), (tb_wshr _ _ _ _ _ Em2), !tb_ones. lia.
      * intros r Hr1 Hr2. rewrite HV by lia. f_equal. lia.
    + assert (Hlw2 : 2 <= lw) by lia. assert (Hn2 : w < n + ls) by nia.
      destruct (merge_word_ok lhs 0 v m (fun k => bt rhs (rs + (k - ls))) ls w) as (lhs1 & E1 & P1);
        [lia..| | |].
      * intros r Hr1. rewrite (tb_wshl _ _ _ _ _ Em), tb_ones. lia.
      * intros r Hr1 Hr2. rewrite HV by lia. f_equal. lia.
      * rewrite E1. cbn [bind]. assert (L1 : length lhs1 = length lhs) by apply P1.
        destruct (Nat.ltb_spec rs ls) as [L|L].
        -- destruct (copy_aligned_ok rhs lhs1 1 (lw - 1) 0 rw (rs + (w - ls)) tail (n - (w - ls)))
             as (lhs' & E & P); try assumption; try nia.
           exists lhs'. split; [exact E|].
           apply patched_trans with lhs1 w; [lia|exact P1|].
           destruct P as [LP P]. split; [exact LP|]. intros k. rewrite P.
           replace (w * 1 + (n - (w - ls))) with (ls + n) by lia.
           rewrite Nat.mul_1_r. destruct ((w <=? k) && (k <? ls + n)) eqn:Ec; [|reflexivity].
           f_equal. f_equal. lia.
        -- destruct (copy_aligned_ok rhs lhs1 1 (lw - 1) 1 (rw - 1) (rs - ls) tail (n - (w - ls)))
             as (lhs' & E & P); try assumption; try nia.
           exists lhs'. split; [exact E|].
           apply patched_trans with lhs1 w; [lia|exact P1|].
           destruct P as [LP P]. split; [exact LP|]. intros k. rewrite P.
           replace (w * 1 + (n - (w - ls))) with (ls + n) by lia.
           rewrite Nat.mul_1_r. destruct ((w <=? k) && (k <? ls + n)) eqn:Ec; [|reflexivity].
           f_equal. f_equal. lia.
Qed.

(** ** In-place and *)
(** [ws'] is [ws] with the bits of [lo,hi) and-ed with [f]. *)
Definition anded (ws ws' : list N) (lo hi : nat) (f : nat -> bool) : Prop :=
  patched ws ws' lo hi (fun k => bt ws k && f k).

Lemma anded_trans a b c lo mid hi f : lo <= mid <= hi ->
  anded a b lo mid f -> anded b c mid hi f -> anded a c lo hi f.
Proof.
  intros Hm H1 H2. unfold anded in *. eapply patched_trans; [exact Hm|exact H1|].
  destruct H1 as [L1 H1]. destruct H2 as [L2 H2]. split; [exact L2|]. intros k. rewrite H2.
  destruct ((mid <=? k) && (k <? hi)) eqn:Ec; [|reflexivity].
  f_equal. f_equal. unfold bit at 1. rewrite H1.
  replace ((lo <=? k) && (k <? mid)) with false by lia. reflexivity.
Qed.

Lemma upd_anded ws ws' q x v f :
  rd ws q = Some x -> upd ws q (N.land x v) = Some ws' ->
  (forall r, r < w -> tb v r = f (w * q + r)) ->
  anded ws ws' (w * q) (w * S q) f.
Proof.
  intros Ex E Hv. unfold anded. eapply upd_patched; try eassumption; [lia..|].
  intros r Hr. rewrite tb_land, Hv by exact Hr.
  replace ((w * q <=? w * q + r) && (w * q + r <? w * S q)) with true by nia.
  rewrite <- (bt_at' ws q r x) by assumption. reflexivity.
Qed.

Lemma anded_refl ws lo f : anded ws ws lo lo f.
Proof. apply patched_refl. Qed.

Lemma and_words_ok src n : forall dest i,
  i + n <= length src -> i + n <= length dest ->
  exists dest', and_words src dest i n = Some dest' /\
    anded dest dest' (w * i) (w * (i + n)) (bt src).
Proof.
  induction n as [|n IH]; intros dest i Hs Hd; cbn [and_words].
  - exists dest. split; [reflexivity|]. rewrite Nat.add_0_r. apply anded_refl.
  - destruct (rd_lt src i) as [s Es]; [lia|]. rewrite Es. cbn [bind].
    destruct (rd_lt dest i) as [d Ed]; [lia|]. rewrite Ed. cbn [bind].
    destruct (upd_lt dest i (N.land d s)) as [d1 E1]; [lia|]. rewrite E1. cbn [bind].
    assert (L1 : length d1 = length dest) by (apply upd_spec in E1; tauto).
    destruct (IH d1 (S i)) as (d' & E & P); [lia..|]. exists d'. split; [exact E|].
    replace (i + S n) with (S i + n) by lia.
    apply anded_trans with d1 (w * S i); [nia| |exact P].
    eapply upd_anded; try eassumption. intros r Hr. symmetry. apply bt_at'; assumption.
Qed.

Lemma and_right_loop_ok rhs a n : Forall (wok w) rhs -> 0 < a < w -> forall lhs i,
  (n = 0 \/ i + n < length rhs) -> i + n <= length lhs ->
  exists lhs', and_right_loop w rhs lhs a i n = Some lhs' /\
    anded lhs lhs' (w * i) (w * (i + n)) (fun k => bt rhs (k + a)).
Proof.
  intros Hok Ha. induction n as [|n IH]; intros lhs i Hs Hd; cbn [and_right_loop].
  - exists lhs. split; [reflexivity|]. rewrite Nat.add_0_r. apply anded_refl.
  - destruct (rd_lt rhs i) as [x Ex]; [lia|]. rewrite Ex. cbn [bind].
    destruct (wshr_def w x a) as [x' Ex']; [lia|]. rewrite Ex'. cbn [bind].
    destruct (rd_lt rhs (i + 1)) as [y Ey]; [lia|]. rewrite Ey. cbn [bind].
    destruct (wshl_def w y (w - a)) as [y' Ey']; [lia|]. rewrite Ey'. cbn [bind].
    destruct (rd_lt lhs i) as [d Ed]; [lia|]. rewrite Ed. cbn [bind].
    destruct (upd_lt lhs i (N.land d (N.lor x' y'))) as [d1 E1]; [lia|]. rewrite E1. cbn [bind].
    assert (L1 : length d1 = length lhs) by (apply upd_spec in E1; tauto).
    destruct (IH d1 (S i)) as (d' & E & P); [lia..|]. exists d'. split; [exact E|].
    replace (i + S n) with (S i + n) by lia.
    apply anded_trans with d1 (w * S i); [nia| |exact P].
    eapply upd_anded; try eassumption. intros r Hr.
    apply (pair_bt' rhs i a x y x' y' r); assumption.
Qed.

Lemma left_val rhs i a x y x' y' r : Forall (wok w) rhs -> 0 < a < w -> 0 < i ->
  rd rhs (i - 1) = Some x -> rd rhs i = Some y ->
  wshr w x (w - a) = Some x' -> wshl w y a = Some y' -> r < w ->
  tb (N.lor x' y') r = bt rhs (w * i + r - a).
Proof.
  intros Hok Ha Hi Ex Ey Ex' Ey' Hr.
  replace a with (w - (w - a)) in Ey' by lia.
  rewrite (pair_bt' rhs (i - 1) (w - a) x y x' y' r); try assumption; try lia.
  - f_equal. nia.
  - replace (i - 1 + 1) with i by lia. exact Ey.
Qed.

Lemma and_left_loop_ok rhs a n : Forall (wok w) rhs -> 0 < a < w -> forall lhs i,
  0 < i -> (n = 0 \/ i + n <= length rhs) -> i + n <= length lhs ->
  exists lhs', and_left_loop w rhs lhs a i n = Some lhs' /\
    anded lhs lhs' (w * i) (w * (i + n)) (fun k => bt rhs (k - a)).
Proof.
  intros Hok Ha. induction n as [|n IH]; intros lhs i Hi Hs Hd; cbn [and_left_loop].
  - exists lhs. split; [reflexivity|]. rewrite Nat.add_0_r. apply anded_refl.
  - destruct (rd_lt rhs (i - 1)) as [x Ex]; [lia|]. rewrite Ex. cbn [bind].
    destruct (wshr_def w x (w - a)) as [x' Ex']; [lia|]. rewrite Ex'. cbn [bind].
    destruct (rd_lt rhs i) as [y Ey]; [lia|]. rewrite Ey. cbn [bind].
    destruct (wshl_def w y a) as [y' Ey']; [lia|]. rewrite Ey'. cbn [bind].
    destruct (rd_lt lhs i) as [d Ed]; [lia|]. rewrite Ed. cbn [bind].
    destruct (upd_lt lhs i (N.land d (N.lor x' y'))) as [d1 E1]; [lia|]. rewrite E1. cbn [bind].
    assert (L1 : length d1 = length lhs) by (apply upd_spec in E1; tauto).
    destruct (IH d1 (S i)) as (d' & E & P); [lia..|]. exists d'. split; [exact E|].
    replace (i + S n) with (S i + n) by lia.
    apply anded_trans with d1 (w * S i); [nia| |exact P].
    eapply upd_anded; try eassumption. intros r Hr.
    apply (left_val rhs i a x y x' y' r); assumption.
Qed.

(** The bits of interest are and-ed, words from [lhs_words] on are untouched. *)
Definition and_spec (n : nat) (rhs : list N) (rs : nat) (lhs : list N) (ls : nat) (lhs' : list N) : Prop :=
  length lhs' = length lhs /\
  (forall k, ls <= k < ls + n -> gb lhs' k = Some (bt lhs k && bt rhs (rs + (k - ls)))) /\
  (forall k, w * ((ls + n + w - 1) / w) <= k -> gb lhs' k = gb lhs k).

Lemma inplace_and_ok n rhs rs lhs ls : Forall (wok w) rhs -> rs < w -> ls < w ->
  rs + n <= w * length rhs -> ls + n <= w * length lhs -> (0 < n \/ ls <= rs) ->
  exists lhs', inplace_and_with_offsets w n rhs rs lhs ls = Some lhs' /\
    and_spec n rhs rs lhs ls lhs'.
Proof.
  intros Hok Hrs Hls Hr Hl Hg. unfold inplace_and_with_offsets, and_spec.
  pose proof (ceil_spec (n + rs)) as Cr. pose proof (ceil_spec (n + ls)) as Cl.
  replace (ls + n + w - 1) with (n + ls + w - 1) by lia.
  set (rw := (n + rs + w - 1) / w) in *. set (lw := (n + ls + w - 1) / w) in *.
  assert (Hrwl : rw <= length rhs).
  { destruct (Nat.le_gt_cases rw (length rhs)); [assumption|]. nia. }
  assert (Hlwl : lw <= length lhs).
  { destruct (Nat.le_gt_cases lw (length lhs)); [assumption|]. nia. }
  destruct (Nat.eqb_spec ls rs) as [Eq|Ne].
  - assert (rw = lw) as Erl by (unfold rw, lw; rewrite Eq; reflexivity).
    clearbody rw lw.
    destruct (and_words_ok rhs rw lhs 0) as (lhs' & E & L & P); [lia..|].
    exists lhs'. split; [exact E|]. split; [exact L|]. rewrite Nat.mul_0_r in P. split.
    + intros k Hk. rewrite P. replace ((0 <=? k) && (k <? w * (0 + rw))) with true by lia.
      f_equal. f_equal. f_equal. lia.
    + intros k Hk. rewrite P. replace ((0 <=? k) && (k <? w * (0 + rw))) with false by lia. reflexivity.
  - clearbody rw lw. destruct (Nat.ltb_spec ls rs) as [L|L].
    + assert (Hrw1 : 1 <= rw) by nia.
      assert (Emul : w * rw = w * (rw - 1) + w) by (destruct rw; [lia|]; rewrite Nat.sub_succ, Nat.sub_0_r; lia).
      assert (Hrl : rw <= lw + 1) by nia. assert (Hlr : lw <= rw) by nia.
      destruct (and_right_loop_ok rhs (rs - ls) (rw - 1) Hok ltac:(lia) lhs 0) as (l1 & E1 & P1);
        [lia..|].
      rewrite E1. cbn [bind]. assert (L1 : length l1 = length lhs) by apply P1.
      destruct (Nat.ltb_spec (rw - 1) lw) as [Lw|Lw].
      * assert (lw = rw) by lia. subst lw.
        destruct (rd_lt rhs (rw - 1)) as [x Ex]; [lia|]. rewrite Ex. cbn [bind].
        destruct (wshr_def w x (rs - ls)) as [x' Ex']; [lia|]. rewrite Ex'. cbn [bind].
        destruct (rd_lt l1 (rw - 1)) as [d Ed]; [lia|]. rewrite Ed. cbn [bind].
        destruct (upd_lt l1 (rw - 1) (N.land d x')) as [l2 E2]; [lia|].
        exists l2. split; [exact E2|].
        assert (P2 : anded lhs l2 0 (w * rw) (fun k => if k <? w * (rw - 1) then bt rhs (k + (rs - ls)) else tb x' (k - w * (rw - 1)))).
        { apply anded_trans with l1 (w * (rw - 1)); [nia| |].
          - destruct P1 as [La P1]. split; [exact La|]. intros k. rewrite P1, Nat.mul_0_r.
            cbn [Nat.add].
            destruct ((0 <=? k) && (k <? w * (rw - 1))) eqn:Ec; [|reflexivity].
            replace (k <? w * (rw - 1)) with true by lia. reflexivity.
          - replace (w * rw) with (w * S (rw - 1)) by nia.
            eapply upd_anded; try eassumption. intros r Hr'.
            replace (w * (rw - 1) + r <? w * (rw - 1)) with false by lia. f_equal. lia. }
        destruct P2 as [L2 P2]. split; [exact L2|]. split.
        -- intros k Hk. rewrite P2. replace ((0 <=? k) && (k <? w * rw)) with true by lia.
           f_equal. f_equal. destruct (Nat.ltb_spec k (w * (rw - 1))).
           ++ f_equal. lia.
           ++ rewrite (one_bt' rhs (rw - 1) (rs - ls) x x') by (assumption || lia). f_equal. lia.
        -- intros k Hk. rewrite P2. replace ((0 <=? k) && (k <? w * rw)) with false by lia. reflexivity.
      * exists l1. split; [reflexivity|]. destruct P1 as [La P1]. split; [exact La|].
        rewrite Nat.mul_0_r in P1. cbn [Nat.add] in P1. replace (rw - 1) with lw in P1 by lia. split.
        -- intros k Hk. rewrite P1. replace ((0 <=? k) && (k <? w * lw)) with true by lia.
           f_equal. f_equal. f_equal. lia.
        -- intros k Hk. rewrite P1. replace ((0 <=? k) && (k <? w * lw)) with false by lia. reflexivity.
    + assert (Hn : 0 < n) by lia. assert (Hrw1 : 1 <= rw) by nia. assert (Hlw1 : 1 <= lw) by nia.
      assert (Emul : w * rw = w * (rw - 1) + w) by (destruct rw; [lia|]; rewrite Nat.sub_succ, Nat.sub_0_r; lia).
      assert (Hrl : rw <= lw) by nia. assert (Hlr : lw <= rw + 1) by nia.
      destruct (rd_lt rhs 0) as [x Ex]; [lia|]. rewrite Ex. cbn [bind].
      destruct (wshl_def w x (ls - rs)) as [x' Ex']; [lia|]. rewrite Ex'. cbn [bind].
      destruct (rd_lt lhs 0) as [d Ed]; [lia|]. rewrite Ed. cbn [bind].
      destruct (upd_lt lhs 0 (N.land d x')) as [l0 E0]; [lia|]. rewrite E0. cbn [bind].
      assert (L0 : length l0 = length lhs) by (apply upd_spec in E0; tauto).
      destruct (and_left_loop_ok rhs (ls - rs) (rw - 1) Hok ltac:(lia) l0 1) as (l1 & E1 & P1); [lia..|].
      rewrite E1. cbn [bind]. assert (L1 : length l1 = length l0) by apply P1.
      replace (Nat.max 1 rw) with rw by lia.
      set (f := fun k => if k <? w then tb x' k else bt rhs (k - (ls - rs))).
      assert (P01 : anded lhs l1 0 (w * rw) f).
      { apply anded_trans with l0 w; [nia| |].
        - assert (A : anded lhs l0 (w * 0) (w * 1) f).
          { eapply upd_anded; try eassumption. intros r Hr'. unfold f. rewrite Nat.mul_0_r.
            cbn [Nat.add]. replace (r <? w) with true by lia. reflexivity. }
          rewrite Nat.mul_0_r, Nat.mul_1_r in A. exact A.
        - destruct P1 as [La P1]. split; [exact La|]. intros k. rewrite P1.
          replace (w * 1) with w by lia. replace (1 + (rw - 1)) with rw by lia.
          destruct ((w <=? k) && (k <? w * rw)) eqn:Ec; [|reflexivity]. unfold f.
          replace (k <? w) with false by lia. reflexivity. }
      assert (Hf : forall k, ls <= k -> k < w * rw -> f k = bt rhs (rs + (k - ls))).
      { intros k Hk Hk2. unfold f. destruct (Nat.ltb_spec k w).
        - rewrite (tb_wshl _ _ _ _ _ Ex'). replace (k <? w) with true by lia.
          replace (ls - rs <=? k) with true by lia. cbn [andb].
          rewrite <- (bt_at' rhs 0 _ x) by (assumption || lia). f_equal. lia.
        - f_equal. lia. }
      destruct (Nat.ltb_spec rw lw) as [Lw|Lw].
      * assert (lw = S rw) by lia.
        destruct (rd_lt rhs (rw - 1)) as [y Ey]; [lia|]. rewrite Ey. cbn [bind].
        destruct (wshr_def w y (w - (ls - rs))) as [y' Ey']; [lia|]. rewrite Ey'. cbn [bind].
        destruct (rd_lt l1 rw) as [d1 Ed1]; [lia|]. rewrite Ed1. cbn [bind].
        destruct (upd_lt l1 rw (N.land d1 y')) as [l2 E2]; [lia|].
        exists l2. split; [exact E2|].
        assert (P2 : anded lhs l2 0 (w * S rw) (fun k => if k <? w * rw then f k else tb y' (k - w * rw))).
        { apply anded_trans with l1 (w * rw); [nia| |].
          - destruct P01 as [La P01]. split; [exact La|]. intros k. rewrite P01.
            destruct ((0 <=? k) && (k <? w * rw)) eqn:Ec; [|reflexivity].
            replace (k <? w * rw) with true by lia. reflexivity.
          - eapply upd_anded; try eassumption. intros r Hr'.
            replace (w * rw + r <? w * rw) with false by lia. f_equal. lia. }
        destruct P2 as [L2 P2]. split; [exact L2|]. split.
        -- intros k Hk. rewrite P2. replace ((0 <=? k) && (k <? w * S rw)) with true by nia.
           f_equal. f_equal. destruct (Nat.ltb_spec k (w * rw)); [apply Hf; lia|].
           rewrite (one_bt' rhs (rw - 1) (w - (ls - rs)) y y') by (assumption || lia). f_equal. lia.
        -- intros k Hk. rewrite P2. replace ((0 <=? k) && (k <? w * S rw)) with false by nia. reflexivity.
      * assert (lw = rw) by lia. subst lw. exists l1. split; [reflexivity|].
        destruct P01 as [La P01]. split; [exact La|]. split.
        -- intros k Hk. rewrite P01. replace ((0 <=? k) && (k <? w * rw)) with true by nia.
           f_equal. f_equal. apply Hf; nia.
        -- intros k Hk. rewrite P01. replace ((0 <=? k) && (k <? w * rw)) with false by lia. reflexivity.
Qed.
End W.
