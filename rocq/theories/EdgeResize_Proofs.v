From Verif Require Import Base Bits_Model Bits_Proofs Bitmap_Model Bitmap_Proofs Dense_Model Dense_Spec Dense_Proofs
  Edge_Model Edge_Spec Edge_Proofs Array_Model Array_Proofs GroupOps_Model Overflow_Model Overflow_Proofs EdgeOps_Model EdgeOps_Spec EdgeOps_Proofs.

(** ** edge.sizes *)
Lemma split_children s p m q : split_of s p m -> q < p -> children m q = nth (S q) s 0 - nth q s 0.
Proof.
  intros Hs Hq. assert (Hs' := Hs). destruct Hs' as (Sp & Hl & _ & _). pose proof (split_mapping_ok s Sp) as H.
  replace (length s - 1) with p in H by lia. rewrite (split_unique_m s p m (split_mapping s) Hs H). unfold split_mapping.
  assert (Hm : mono s) by exact (proj2 (proj2 Sp)). rewrite children_prefix by (exact Hm || lia).
  replace (q <? length s - 1) with true by lia. reflexivity.
Qed.
Lemma diff_loop_ok s (Hm : mono s) n : forall i buf done, i + n = length s -> 0 < i -> done = map (fun q => nth (S q) s 0 - nth q s 0) (seq 0 (i - 1)) ->
  firstn (i - 1) buf = zs done -> i - 1 + n <= length buf ->
  exists buf', diff_loop (zs s) i n (buf, i - 1) = Some (buf', i - 1 + n) /\ length buf' = length buf /\
    firstn (i - 1 + n) buf' = zs (map (fun q => nth (S q) s 0 - nth q s 0) (seq 0 (i - 1 + n))).
Proof.
  induction n as [|n IH]; intros i buf done Hi Hi0 Hd Hf Hl; cbn [diff_loop].
  - exists buf. rewrite Nat.add_0_r. split; [reflexivity|]. split; [reflexivity|]. congruence.
  - rewrite !rd_zs by lia. cbn [bind].
    destruct (ins_ok buf (i - 1) (Z.of_nat (nth i s 0%nat) - Z.of_nat (nth (i - 1) s 0%nat))%Z) as (b1 & E1 & L1 & F1); [lia|].
    rewrite E1. cbn [bind].
    destruct (IH (S i) b1 (done ++ [nth i s 0 - nth (i - 1) s 0])) as (b' & E & L & F); try lia.
    + replace (S i - 1) with (S (i - 1)) by lia. rewrite seq_S, map_app, Hd. cbn [map Nat.add].
      replace (S (i - 1)) with i by lia. reflexivity.
    + replace (S i - 1) with (S (i - 1)) by lia. rewrite F1, Hf. unfold zs. rewrite map_app. cbn [map].
      pose proof (Hm (i - 1) i ltac:(lia)). do 2 f_equal. lia.
    + replace (S (i - 1)) with (S i - 1) by lia. exists b'. rewrite E.
      replace (i - 1 + S n) with (S i - 1 + n) by lia. split; [reflexivity|]. split; [lia|exact F].
Qed.
Lemma children_app a b q : children (a ++ b) q = children a q + children b q.
Proof. unfold children. rewrite filter_app, app_length. reflexivity. Qed.
Lemma size_fold_ok p : forall ms r k done, 
  map (fun c : nat * bool * Z => (fst (fst c), if snd (fst c) then Some (snd c) else None)) r = combine (seq k (length ms)) (map zopt ms) ->
  (forall q, In (Some q) ms -> q < p) ->
  fold_opt size_step r (map (fun q => Z.of_nat (children done q)) (seq 0 p)) =
  Some (map (fun q => Z.of_nat (children (done ++ ms) q)) (seq 0 p)).
Proof.
  induction ms as [|o ms IH]; intros r k done Hr Hin.
  - destruct r; [|discriminate]. rewrite app_nil_r. reflexivity.
  - destruct r as [|[[c pr] z] r]; [discriminate|]. cbn [length seq combine map fst snd] in Hr.
    assert (Ho : (if pr then Some z else None) = zopt o) by congruence.
    assert (Hr' : map (fun c : nat * bool * Z => (fst (fst c), if snd (fst c) then Some (snd c) else None)) r = combine (seq (S k) (length ms)) (map zopt ms)) by congruence.
    cbn [fold_opt]. unfold size_step at 1.
    assert (E : (if pr then let? x := rdz (map (fun q => Z.of_nat (children done q)) (seq 0 p)) z in
                   upd (map (fun q => Z.of_nat (children done q)) (seq 0 p)) (Z.to_nat z) (x + 1)%Z
                 else Some (map (fun q => Z.of_nat (children done q)) (seq 0 p))) =
                Some (map (fun q => Z.of_nat (children (done ++ [o]) q)) (seq 0 p))).
    { destruct pr.
      - destruct o as [q|]; [|discriminate]. unfold zopt, option_map in Ho. assert (z = Z.of_nat q) by congruence. subst z.
        specialize (Hin q (or_introl eq_refl)). unfold rdz. replace (Z.of_nat q <? 0)%Z with false by lia. rewrite Nat2Z.id.
        set (l := map (fun q => Z.of_nat (children done q)) (seq 0 p)).
        assert (Hl : length l = p) by (unfold l; rewrite map_length, seq_length; reflexivity).
        assert (Hrd : forall (f : nat -> Z) i, rd (map f (seq 0 p)) i = if i <? p then Some (f i) else None).
        { intros f i. destruct (Nat.ltb_spec i p) as [L|L].
          - unfold rd. rewrite (map_nth_error f i (seq 0 p) (d := i)); [reflexivity|].
            rewrite nth_error_nth' with (d := 0) by (rewrite seq_length; exact L). rewrite seq_nth by exact L. reflexivity.
          - apply rd_None_ge. rewrite map_length, seq_length. exact L. }
        unfold l at 1. rewrite Hrd. replace (q <? p) with true by lia. cbn [bind].
        destruct (upd_lt l q (Z.of_nat (children done q) + 1)%Z) as [l' E]; [lia|]. rewrite E. f_equal.
        apply upd_spec in E as (_ & L & R). apply list_eq_rd. intros i. rewrite R, Hrd. unfold l. rewrite Hrd, children_app.
        unfold children at 4. cbn [filter]. destruct (Nat.eqb_spec i q) as [->|N].
        + rewrite Nat.eqb_refl. replace (q <? p) with true by lia. cbn [length]. f_equal. lia.
        + replace (q =? i) with false by lia. cbn [length]. rewrite Nat.add_0_r. reflexivity.
      - destruct o; [discriminate|]. f_equal. apply map_ext. intros q. rewrite children_app. cbn. f_equal. lia. }
    rewrite E. cbn [bind]. rewrite (IH r (S k) (done ++ [o]) Hr') by (intros q Hq; apply Hin; right; exact Hq).
    rewrite <- app_assoc. reflexivity.
Qed.
Lemma op_sizes_ok alloc e p m : alloc_ok alloc -> edge_rep e p m ->
  exists r, op_sizes alloc e = Some r /\ represents r (nums (map (children m) (seq 0 p))).
Proof.
  intros Ha Hr. unfold op_sizes, allocz. assert (Hep : e_parent e = Z.of_nat p) by apply Hr. rewrite Hep, Nat2Z.id.
  replace (Z.of_nat p <? 0)%Z with false by lia. cbn [bind]. unfold nums.
  destruct (e_split e) eqn:Es.
  - apply edge_rep_split in Hr as (_ & _ & s & Hs & Rs); [|exact Es]. rewrite (rep_full_vals _ _ Rs), zs_len.
    assert (Hls : length s = S p) by apply Hs. rewrite Hls. replace (S p - 1) with p by lia.
    destruct (diff_loop_ok s (proj2 (proj2 (proj1 Hs))) p 1 (alloc p) []) as (b & E & L & F); try (cbn; lia || reflexivity).
    { rewrite Ha. cbn. lia. }
    cbn [Nat.sub Nat.add] in E, F. rewrite E. cbn [bind fst]. eexists. split; [reflexivity|].
    replace (map (children m) (seq 0 p)) with (map (fun q => nth (S q) s 0 - nth q s 0) (seq 0 p)).
    + rewrite firstn_all2 in F by (rewrite L, Ha; lia). rewrite F, zs_some. apply rep_plain.
    + apply map_ext_in. intros q Hq. apply in_seq in Hq. symmetry. apply split_children with (p := p); [exact Hs|lia].
  - apply edge_rep_mapping in Hr as (_ & Hec & Hrng & Rm); [|exact Es].
    destruct (rep_for_each _ _ Rm) as (r & Er & Mr). rewrite Er. cbn [bind]. rewrite map_length in Mr.
    assert (Hz : repeat 0%Z (length (alloc p)) = map (fun q => Z.of_nat (children [] q)) (seq 0 p)).
    { rewrite Ha. rewrite (map_const_repeat _ 0%Z) by reflexivity. rewrite seq_length. reflexivity. }
    rewrite Hz, (size_fold_ok p m r 0 [] Mr).
    2:{ intros q Hq. apply (In_nth _ _ None) in Hq as (c & _ & E). apply (Hrng c q E). }
    cbn [bind app]. eexists. split; [reflexivity|]. rewrite zs_some. unfold zs. rewrite (map_map (children m) Z.of_nat). apply rep_plain.
Qed.

(** ** edge.resize_groups_child_side *)
Lemma advance_ok s p m ns getter : split_of s p m -> length ns = p -> (Z.of_nat (list_sum ns) <= max64)%Z ->
  (forall q, q < p -> getter q = Some (Z.of_nat (nth q ns 0))) ->
  forall fuel q c, q < p -> c < length m -> nth q s 0 <= c -> p <= q + fuel ->
  exists q', q <= q' < p /\ nth q' s 0 <= c < nth (S q') s 0 /\
    advance fuel (zs s) getter (Z.of_nat c) (S q) (Z.of_nat (base ns q)) (Z.of_nat (nth q ns 0)) =
    Some (S q', Z.of_nat (base ns q'), Z.of_nat (nth q' ns 0)).
Proof.
  intros Hs Hn Hf Hg. assert (Hs' := Hs). destruct Hs' as ((_ & H0 & Hm) & Hl & Hlast & _).
  induction fuel as [|fuel IH]; intros q c Hq Hc Hqc Hfu; [lia|].
  cbn [advance]. rewrite rd_zs by lia. cbn [bind]. destruct (Nat.le_gt_cases (nth (S q) s 0) c) as [L|L].
  - replace (Z.of_nat (nth (S q) s 0%nat) <=? Z.of_nat c)%Z with true
      by (symmetry; apply Z.leb_le; lia).
    assert (HSq : S q < p). { destruct (Nat.eq_dec (S q) p) as [E|]; [|lia]. rewrite E, Hlast in L. lia. }
    pose proof (base_S ns q ltac:(lia)) as Hb. pose proof (base_le ns (S q)). pose proof min64_neg.
    rewrite iadd_ok by lia. cbn [bind]. rewrite Hg by exact HSq. cbn [bind].
    replace (Z.of_nat (base ns q) + Z.of_nat (nth q ns 0%nat))%Z with (Z.of_nat (base ns (S q))) by (rewrite Hb; apply Nat2Z.inj_add).
    destruct (IH (S q) c HSq Hc L) as (q' & Hq' & Hr & E); [lia|]. exists q'. split; [lia|]. split; [exact Hr|exact E].
  - replace (Z.of_nat (nth (S q) s 0%nat) <=? Z.of_nat c)%Z with false
      by (symmetry; apply Z.leb_gt; lia).
    exists q. split; [lia|]. split; [lia|reflexivity].
Qed.

Section Resize.
Variables (s : list nat) (p : nat) (m : list (option nat)) (ns : list nat) (getter : nat -> option Z) (offs : list (option Z)).
Hypotheses (Hs : split_of s p m) (Hn : length ns = p) (Hf : (Z.of_nat (list_sum ns) <= max64)%Z)
  (Hg : forall q, q < p -> getter q = Some (Z.of_nat (nth q ns 0))) (Ho : length offs = length m).

Let pl := placed m offs ns.
(** State when the children below [k] are done. *)
Definition rinv (k : nat) (st : rstate) : Prop :=
  (exists q, q < p /\ nth q s 0 <= k /\ r_idx st = S q /\ r_base st = Z.of_nat (base ns q) /\ r_size st = Z.of_nat (nth q ns 0)) /\
  (exists f, db_inv (list_sum ns) (r_b st) f /\
     (forall n z, f n = Some z -> exists c, c < k /\ z = Z.of_nat c /\ pl c n) /\
     (forall n, f n = None -> forall c, c < k -> ~ pl c n)) /\
  length (r_set st) = list_sum ns /\
  (forall n b, rd (r_set st) n = Some b -> (b = true <-> exists c, c < k /\ pl c n)) /\
  (r_neg st = true <-> exists c z, c < k /\ nth c offs None = Some z /\ (z < 0)%Z) /\
  (r_dup st = true <-> exists c d n, c < d < k /\ pl c n /\ pl d n).

Lemma placed_child c n : pl c n -> forall q, nth c m None = Some q ->
  exists o, nth c offs None = Some (Z.of_nat o) /\ o < nth q ns 0 /\ n = base ns q + o.
Proof. intros (q & o & H1 & H2 & H3 & H4) q' Hq. assert (q' = q) by congruence. subst q'. exists o. auto. Qed.

Lemma rinv_skip k st : rinv k st -> nth k offs None = None -> rinv (S k) st.
Proof.
  intros ((q & Q1 & Q2 & Q3) & (f & F1 & F2 & F3) & S1 & S2 & N & D) Hk.
  assert (Hnp : forall n, ~ pl k n) by (intros n (q' & o & _ & K & _); congruence).
  split; [exists q; split; [exact Q1|]; split; [lia|exact Q3]|]. split.
  { exists f. split; [exact F1|]. split.
    - intros n z Hz. destruct (F2 n z Hz) as (c & Hc & K). exists c. split; [lia|exact K].
    - intros n Hz c Hc. destruct (Nat.eq_dec c k) as [->|]; [apply Hnp|apply F3; [exact Hz|lia]]. }
  split; [exact S1|]. split.
  { intros n b Hb. rewrite (S2 n b Hb). split; intros (c & Hc & K); exists c; (split; [|exact K]); [lia|].
    destruct (Nat.eq_dec c k) as [->|]; [elim (Hnp n K)|lia]. }
  split.
  - rewrite N. split; intros (c & z & Hc & K); exists c, z; (split; [|exact K]); [lia|].
    destruct (Nat.eq_dec c k) as [->|]; [destruct K; congruence|lia].
  - rewrite D. split; intros (c & d & n & Hc & K1 & K2); exists c, d, n; (split; [|auto]); [lia|].
    destruct (Nat.eq_dec d k) as [->|]; [elim (Hnp n K2)|lia].
Qed.

Lemma rinv_step k z st : rinv k st -> k < length m -> nth k offs None = Some z ->
  exists st', resize_step (zs s) getter st (k, z) = Some st' /\ rinv (S k) st'.
Proof.
  intros ((q & Q1 & Q2 & Q3 & Q4 & Q5) & (f & F1 & F2 & F3) & S1 & S2 & N & D) Hk Hz.
  unfold resize_step. rewrite Q3, Q4, Q5. assert (Hls : length s = S p) by apply Hs.
  destruct (advance_ok s p m ns getter Hs Hn Hf Hg (length (zs s)) q k Q1 Hk Q2) as (q' & Hq' & Hr & E); [rewrite zs_len; lia|].
  rewrite E. cbn [bind]. assert (Hmk : nth k m None = Some q') by (apply Hs; lia).
  assert (Hqq : exists q0, q0 < p /\ nth q0 s 0 <= S k /\ S q' = S q0 /\ Z.of_nat (base ns q') = Z.of_nat (base ns q0) /\
     Z.of_nat (nth q' ns 0) = Z.of_nat (nth q0 ns 0)) by (exists q'; repeat split; lia).
  assert (Hpl : forall n, pl k n <-> exists o, z = Z.of_nat o /\ o < nth q' ns 0 /\ n = base ns q' + o).
  { intros n. split.
    - intros K. destruct (placed_child k n K q' Hmk) as (o & K1 & K2 & K3). exists o. split; [congruence|auto].
    - intros (o & -> & K2 & K3). exists q', o. auto. }
  destruct (Z.ltb_spec z 0) as [Lz|Lz].
  - (* negative offset *)
    assert (Hnp : forall n, ~ pl k n) by (intros n K; apply Hpl in K as (o & -> & _); lia).
    eexists. split; [reflexivity|]. unfold rinv. cbn [r_idx r_base r_size r_b r_set r_neg r_dup].
    split; [exact Hqq|]. split.
    { exists f. split; [exact F1|]. split.
      - intros n v Hv. destruct (F2 n v Hv) as (c & Hc & K). exists c. split; [lia|exact K].
      - intros n Hv c Hc. destruct (Nat.eq_dec c k) as [->|]; [apply Hnp|apply F3; [exact Hv|lia]]. }
    split; [exact S1|]. split.
    { intros n b Hb. rewrite (S2 n b Hb). split; intros (c & Hc & K); exists c; (split; [|exact K]); [lia|].
      destruct (Nat.eq_dec c k) as [->|]; [elim (Hnp n K)|lia]. }
    split.
    + split; [intros _|reflexivity]. exists k, z. split; [lia|auto].
    + rewrite D. split; intros (c & d & n & Hc & K1 & K2); exists c, d, n; (split; [|auto]); [lia|].
      destruct (Nat.eq_dec d k) as [->|]; [elim (Hnp n K2)|lia].
  - assert (Hneg : (exists c v, c < k /\ nth c offs None = Some v /\ (v < 0)%Z) <-> (exists c v, c < S k /\ nth c offs None = Some v /\ (v < 0)%Z)).
    { split; intros (c & v & Hc & K1 & K2); exists c, v; (split; [|auto]); [lia|].
      destruct (Nat.eq_dec c k) as [->|]; [|lia]. assert (v = z) by congruence. lia. }
    destruct (Z.ltb_spec z (Z.of_nat (nth q' ns 0))) as [Ls|Ls].
    + (* placed *)
      set (id := base ns q' + Z.to_nat z). pose proof (base_S ns q' ltac:(lia)) as Hb. pose proof (base_le ns (S q')) as Hle. pose proof min64_neg.
      rewrite iadd_ok by lia. cbn [bind]. unfold guard.
      replace (0 <=? Z.of_nat (base ns q') + z)%Z with true by lia. cbn [bind].
      replace (Z.to_nat (Z.of_nat (base ns q') + z)) with id by lia.
      assert (Hid : id < list_sum ns) by lia.
      assert (Hplk : forall n, pl k n <-> n = id).
      { intros n. rewrite Hpl. split; [intros (o & -> & K2 & ->); lia|]. intros ->. exists (Z.to_nat z). repeat split; lia. }
      destruct (db_set_ok (list_sum ns) (r_b st) f id (Some (Z.of_nat k)) F1 Hid) as (b' & Eb & Ib). rewrite Eb. cbn [bind].
      destruct (rd_lt (r_set st) id) as [seen Eseen]; [lia|]. rewrite Eseen. cbn [bind].
      assert (Eset : exists set', (if seen then Some (r_set st) else upd (r_set st) id true) = Some set' /\ length set' = list_sum ns /\
        forall n, rd set' n = if n =? id then Some true else rd (r_set st) n).
      { destruct seen.
        - exists (r_set st). split; [reflexivity|]. split; [exact S1|]. intros n. destruct (Nat.eqb_spec n id) as [->|]; [exact Eseen|reflexivity].
        - destruct (upd_lt (r_set st) id true) as [set' E']; [lia|]. exists set'. rewrite E'. apply upd_spec in E' as (_ & L & R).
          split; [reflexivity|]. split; [lia|exact R]. }
      destruct Eset as (set' & -> & Lset & Rset). cbn [bind]. eexists. split; [reflexivity|].
      unfold rinv. cbn [r_idx r_base r_size r_b r_set r_neg r_dup].
      split; [exact Hqq|]. split.
      { eexists. split; [exact Ib|]. cbn [write]. split.
        - intros n v Hv. destruct ((id <=? n) && (n <? id + 1)) eqn:Ei.
          + exists k. split; [lia|]. split; [congruence|]. apply Hplk. lia.
          + destruct (F2 n v Hv) as (c & Hc & K). exists c. split; [lia|exact K].
        - intros n Hv c Hc K. destruct ((id <=? n) && (n <? id + 1)) eqn:Ei; [discriminate|].
          destruct (Nat.eq_dec c k) as [->|]; [apply Hplk in K; lia|]. apply (F3 n Hv c ltac:(lia) K). }
      split; [exact Lset|]. split.
      { intros n b Hb'. rewrite Rset in Hb'. destruct (Nat.eqb_spec n id) as [->|Nid].
        - assert (b = true) by congruence. split; [|tauto]. intros _. exists k. split; [lia|]. apply Hplk. reflexivity.
        - rewrite (S2 n b Hb'). split; intros (c & Hc & K); exists c; (split; [|exact K]); [lia|].
          destruct (Nat.eq_dec c k) as [->|]; [apply Hplk in K; congruence|lia]. }
      split; [rewrite N; exact Hneg|].
      rewrite orb_true_iff, D, (S2 id seen Eseen). split.
      * intros [(c & d & n & Hc & K)|(c & Hc & K)].
        -- exists c, d, n. split; [lia|exact K].
        -- exists c, k, id. split; [lia|]. split; [exact K|]. apply Hplk. reflexivity.
      * intros (c & d & n & Hc & K1 & K2). destruct (Nat.eq_dec d k) as [->|]; [|left; exists c, d, n; split; [lia|auto]].
        right. apply Hplk in K2. subst n. exists c. split; [lia|exact K1].
    + (* beyond the new size *)
      assert (Hnp : forall n, ~ pl k n) by (intros n K; apply Hpl in K as (o & -> & K & _); lia).
      eexists. split; [reflexivity|]. unfold rinv. cbn [r_idx r_base r_size r_b r_set r_neg r_dup].
      split; [exact Hqq|]. split.
      { exists f. split; [exact F1|]. split.
        - intros n v Hv. destruct (F2 n v Hv) as (c & Hc & K). exists c. split; [lia|exact K].
        - intros n Hv c Hc. destruct (Nat.eq_dec c k) as [->|]; [apply Hnp|apply F3; [exact Hv|lia]]. }
      split; [exact S1|]. split.
      { intros n b Hb. rewrite (S2 n b Hb). split; intros (c & Hc & K); exists c; (split; [|exact K]); [lia|].
        destruct (Nat.eq_dec c k) as [->|]; [elim (Hnp n K)|lia]. }
      split; [rewrite N; exact Hneg|].
      rewrite D. split; intros (c & d & n & Hc & K1 & K2); exists c, d, n; (split; [|auto]); [lia|].
      destruct (Nat.eq_dec d k) as [->|]; [elim (Hnp n K2)|lia].
Qed.

Lemma rinv_fold : forall rest k st, skipn k offs = rest -> k + length rest = length offs -> rinv k st ->
  exists st', fold_opt (resize_step (zs s) getter)
    (flat_map (fun c => match snd c with Some v => [(fst c, v)] | None => [] end) (combine (seq k (length rest)) rest)) st = Some st' /\
    rinv (length offs) st'.
Proof.
  induction rest as [|o rest IH]; intros k st Hsk Hl I.
  - cbn [length] in Hl. replace k with (length offs) in I by lia. exists st. split; [reflexivity|exact I].
  - cbn [length] in Hl.
    assert (Hnk : nth k offs None = o).
    { replace o with (nth 0 (o :: rest) None) by reflexivity. rewrite <- Hsk, skipn_nth, Nat.add_0_r. reflexivity. }
    assert (Hsk' : skipn (S k) offs = rest) by (eapply skipn_cons_S, Hsk).
    cbn [length seq combine flat_map snd fst]. destruct o as [z|].
    + destruct (rinv_step k z st I ltac:(lia) Hnk) as (st1 & E1 & I1). cbn [app fold_opt]. rewrite E1. cbn [bind].
      apply IH; [exact Hsk'|lia|exact I1].
    + cbn [app]. apply IH; [exact Hsk'|lia|]. apply rinv_skip; assumption.
Qed.

Lemma resize_child_ok alloc offsets : alloc_ok alloc -> represents offsets offs -> exists r,
  resize_child alloc (zs s) getter (Z.of_nat (list_sum ns)) offsets = Some r /\
  (has_negative offs -> r = inl NegOffset) /\
  (~ has_negative offs -> has_duplicate m offs ns -> r = inl DupOffset) /\
  (~ has_negative offs -> ~ has_duplicate m offs ns -> exists e M, r = inr e /\ e_split e = false /\
     edge_rep e (length m) M /\ length M = list_sum ns /\ forall c n, nth n M None = Some c <-> placed m offs ns c n).
Proof.
  intros Ha R. unfold resize_child. assert (Hsn : s <> []) by apply Hs. rewrite back_zs by exact Hsn. cbn [bind].
  assert (Hls : length s = S p) by apply Hs. assert (Hlast : nth p s 0 = length m) by apply Hs.
  replace (length s - 1) with p by lia. rewrite Hlast. replace (Z.of_nat (list_sum ns) <? 0)%Z with false by lia.
  rewrite zs_len, Hls, Nat2Z.id. assert (Hkm : forall c z, nth c offs None = Some z -> c < length offs).
  { intros c z Hc. destruct (Nat.lt_ge_cases c (length offs)) as [L|L]; [exact L|]. rewrite nth_overflow in Hc by exact L. discriminate. }
  destruct (Nat.ltb_spec (S p) 2) as [Lp|Lp].
  - assert (p = 0) by lia. subst p. rewrite H in *. assert (length m = 0) by (rewrite <- Hlast; apply Hs).
    destruct m as [|x m']; [|discriminate]. destruct ns as [|x ns']; [|discriminate]. cbn [length] in Ho.
    eexists. split; [reflexivity|].
    assert (Hno : forall c (z : Z), nth c offs None <> Some z) by (intros c z Hc; apply Hkm in Hc; lia).
    split; [intros (c & z & K & _); elim (Hno c z K)|]. split.
    + intros _ (c & d & n & _ & (q & o & _ & K & _) & _). elim (Hno _ _ K).
    + intros _ _. exists empty_edge, []. split; [reflexivity|]. split; [reflexivity|]. split; [|split; [reflexivity|]].
      * apply edge_rep_mapping; [reflexivity|]. split; [reflexivity|]. split; [reflexivity|].
        split; [intros c q K; destruct c; discriminate|]. apply (rep_plain []).
      * intros c n. split; [intros K; destruct n; discriminate|]. intros (q & o & _ & K & _). elim (Hno _ _ K).
  - rewrite Hg by lia. cbn [bind]. rewrite (rep_for_each_present _ _ R). cbn [bind]. unfold present_pairs.
    destruct (rinv_fold offs 0 {| r_idx := 1; r_base := 0; r_size := Z.of_nat (nth 0 ns 0); r_b := db_init (alloc (list_sum ns));
        r_set := repeat false (list_sum ns); r_neg := false; r_dup := false |}) as (st & E & I); [reflexivity|reflexivity| |].
    + unfold rinv. cbn [r_idx r_base r_size r_b r_set r_neg r_dup]. split.
      { exists 0. split; [lia|]. split; [assert (Z0 : nth 0 s 0 = 0) by apply Hs; lia|]. repeat split. }
      split. { exists (fun _ => None). split; [rewrite <- (Ha (list_sum ns)) at 1; apply db_init_inv|]. split; [discriminate|]. intros n _ c Hc. lia. }
      split; [apply repeat_length|]. split.
      { intros n b Hb. apply nth_error_In, repeat_spec in Hb. subst b. split; [discriminate|]. intros (c & Hc & _). lia. }
      split; split; try discriminate; [intros (c & z & Hc & _); lia|intros (c & d & n & Hc & _); lia].
    + rewrite E. cbn [bind]. destruct I as (_ & (f & F1 & F2 & F3) & S1 & S2 & N & D).
      assert (N' : r_neg st = true <-> has_negative offs).
      { rewrite N. split; [intros (c & z & _ & K); exists c, z; exact K|]. intros (c & z & K & Kz). exists c, z. split; [apply (Hkm c z K)|auto]. }
      assert (Hpc : forall c n, pl c n -> c < length offs) by (intros c n (q & o & _ & K & _); apply (Hkm _ _ K)).
      assert (D' : r_dup st = true <-> has_duplicate m offs ns).
      { rewrite D. split.
        - intros (c & d & n & Hc & K). exists c, d, n. split; [lia|exact K].
        - intros (c & d & n & Hc & K1 & K2). pose proof (Hpc c n K1). pose proof (Hpc d n K2).
          destruct (Nat.lt_ge_cases c d) as [L|L]; [exists c, d, n|exists d, c, n]; (split; [lia|auto]). }
      destruct (r_neg st).
      { eexists. split; [reflexivity|]. split; [reflexivity|]. assert (H : has_negative offs) by (apply N'; reflexivity). tauto. }
      destruct (r_dup st).
      { eexists. split; [reflexivity|]. assert (H : has_duplicate m offs ns) by (apply D'; reflexivity).
        split; [intros K; apply N' in K; discriminate|]. split; [reflexivity|tauto]. }
      destruct (db_build_size_ok (list_sum ns) (r_b st) f (list_sum ns) F1 ltac:(lia)) as (a & Ea & Va & Sa & Ga).
      rewrite (db_build_full _ _ _ F1) in Ea. assert (db_build (r_b st) = a) as -> by congruence.
      pose proof (represents_fn a (list_sum ns) f Va Sa Ga) as Ra.
      destruct (from_mapping_ok a _ (Z.of_nat (length m)) Ra) as [H _].
      destruct H as (e & M & Ee & EM & Es & Re).
      * split; [lia|]. intros v Hv. apply in_map_iff in Hv as (n & En & _). destruct (F2 n v En) as (c & Hc & -> & _). lia.
      * rewrite Ee. cbn [wrap_err bind]. eexists. split; [reflexivity|].
        split; [intros K; apply N' in K; discriminate|]. split; [intros _ K; apply D' in K; discriminate|].
        intros _ Hnd. exists e, M. split; [reflexivity|]. split; [exact Es|]. rewrite Nat2Z.id in Re. split; [exact Re|].
        assert (LM : length M = list_sum ns) by (apply (f_equal (@length _)) in EM; rewrite !map_length, seq_length in EM; lia).
        split; [exact LM|].
        assert (HM : forall n, n < list_sum ns -> f n = zopt (nth n M None)).
        { intros n Hln. rewrite <- zopt_nth, <- EM. symmetry. apply nth_seq_map, Hln. }
        intros c n. split.
        -- intros K. assert (Hln : n < list_sum ns).
           { destruct (Nat.lt_ge_cases n (length M)) as [L|L]; [lia|]. rewrite nth_overflow in K by exact L. discriminate. }
           specialize (HM n Hln). rewrite K in HM. cbn [zopt option_map] in HM. destruct (F2 n _ HM) as (c' & Hc' & Ez & Hpl).
           assert (c' = c) by lia. subst c'. exact Hpl.
        -- intros K. assert (Hln : n < list_sum ns).
           { destruct K as (q & o & K1 & _ & K3 & ->). assert (q < p).
             { assert (Hcm : c < length m) by (destruct (Nat.lt_ge_cases c (length m)) as [L|L]; [exact L|rewrite nth_overflow in K1 by exact L; discriminate]).
               destruct (split_parent s p m c Hs Hcm) as (q' & Hq' & _ & E'). congruence. }
             pose proof (base_S ns q ltac:(lia)). pose proof (base_le ns (S q)). lia. }
           specialize (HM n Hln). destruct (f n) as [z|] eqn:Ef.
           ++ destruct (F2 n z Ef) as (c' & Hc' & -> & Hpl). destruct (Nat.eq_dec c' c) as [->|Nc].
              ** destruct (nth n M None) as [y|]; [|discriminate]. cbn [zopt option_map] in HM. f_equal.
                 assert (Z.of_nat c = Z.of_nat y) by congruence. lia.
              ** elim Hnd. exists c', c, n. split; [exact Nc|split; assumption].
           ++ elim (F3 n Ef c (Hpc c n K) K).
Qed.
End Resize.

Lemma is_full_some {A} (a : darr A) l : represents a l -> In None l -> da_is_full a = Some false.
Proof.
  intros R Hin. destruct (is_full_ok a l R) as (f & E & Hf). rewrite E. destruct f; [|reflexivity]. exfalso.
  rewrite Hf in Hin. apply in_map_iff in Hin as (x & K & _). discriminate.
Qed.
Lemma total_ok ns : forall t, (0 <= t)%Z -> (t + Z.of_nat (list_sum ns) <= max64)%Z ->
  fold_opt (fun t s => iadd t s) (zs ns) t = Some (t + Z.of_nat (list_sum ns))%Z.
Proof.
  induction ns as [|s ns IH]; intros t Ht Hm; [cbn; f_equal; lia|]. rewrite zs_cons. cbn [fold_opt]. rewrite list_sum_cons in *.
  pose proof min64_neg. rewrite iadd_ok by lia. cbn [bind]. rewrite IH by lia. f_equal. lia.
Qed.
(** What a resize must return. *)
Definition resized (m : list (option nat)) (offs : list (option Z)) (ns : list nat) (r : op_err + edge) : Prop :=
  (has_negative offs -> r = inl NegOffset) /\
  (~ has_negative offs -> has_duplicate m offs ns -> r = inl DupOffset) /\
  (~ has_negative offs -> ~ has_duplicate m offs ns -> exists e M, r = inr e /\ e_split e = false /\
     edge_rep e (length m) M /\ length M = list_sum ns /\ forall c n, nth n M None = Some c <-> placed m offs ns c n).
Lemma op_resize_child_ok alloc e p m sizes ns offsets offs : alloc_ok alloc -> edge_rep e p m -> e_split e = true ->
  represents sizes (nums ns) -> represents offsets offs -> length ns = p -> length offs = length m ->
  (Z.of_nat (list_sum ns) <= max64)%Z ->
  exists r, op_resize_child alloc e sizes offsets = Some r /\ resized m offs ns r.
Proof.
  intros Ha Re Es Rs Ro Hn Ho Hf. unfold op_resize_child. rewrite Es. cbn [negb]. rewrite (nums_full _ _ Rs). cbn [bind negb].
  assert (Hec : e_child e = Z.of_nat (length m)) by apply Re.
  apply edge_rep_split in Re as (_ & _ & s & Hs & Rv); [|exact Es].
  assert (Hls : length s = S p) by apply Hs.
  assert (S1 : da_size sizes = length ns) by (destruct Rs as (_ & K & _); rewrite K; apply map_length).
  assert (S2 : da_size (e_vals e) = length s) by (destruct Rv as (_ & K & _); rewrite K, map_length, zs_len; reflexivity).
  assert (S3 : da_size offsets = length offs) by apply Ro.
  rewrite S1, S2, S3, Hec. replace (length ns + 1 =? length s) with true by lia. cbn [negb].
  replace (Z.of_nat (length offs) =? Z.of_nat (length m))%Z with true by lia. cbn [negb].
  rewrite (nums_vals _ _ Rs), total_ok by lia. cbn [bind]. rewrite (rep_full_vals _ _ Rv). cbn [Z.add].
  apply resize_child_ok with (p := p); auto. intros q Hq. apply rd_zs. lia.
Qed.
Lemma op_resize_child_one_ok alloc e p m k offsets offs : alloc_ok alloc -> edge_rep e p m -> e_split e = true ->
  represents offsets offs -> length offs = length m -> (Z.of_nat (k * p) <= max64)%Z ->
  exists r, op_resize_child_one alloc e (Z.of_nat k) offsets = Some r /\ resized m offs (repeat k p) r.
Proof.
  intros Ha Re Es Ro Ho Hf. unfold op_resize_child_one. rewrite Es. cbn [negb].
  assert (Hec : e_child e = Z.of_nat (length m)) by apply Re. assert (Hep : e_parent e = Z.of_nat p) by apply Re.
  apply edge_rep_split in Re as (_ & _ & s & Hs & Rv); [|exact Es].
  assert (S3 : da_size offsets = length offs) by apply Ro. rewrite S3, Hec, Hep.
  replace (Z.of_nat (length offs) =? Z.of_nat (length m))%Z with true by lia. cbn [negb].
  unfold imul. pose proof min64_neg. replace (fits int64 (Z.of_nat k * Z.of_nat p)) with true by (symmetry; apply fits64; lia).
  cbn [bind]. rewrite (rep_full_vals _ _ Rv).
  replace (Z.of_nat k * Z.of_nat p)%Z with (Z.of_nat (list_sum (repeat k p))) by (rewrite list_sum_repeat; lia).
  apply resize_child_ok with (p := p); auto; [apply repeat_length|rewrite list_sum_repeat; lia|].
  intros q Hq. rewrite repeat_nth by exact Hq. reflexivity.
Qed.
Lemma scalar_split n : split_of [0; n] 1 (repeat (Some 0) n).
Proof.
  split; [split; [discriminate|]; split; [reflexivity|]|].
  - intros [|[|i]] [|[|j]] H; cbn in *; lia.
  - split; [reflexivity|]. split; [cbn; symmetry; apply repeat_length|]. intros q c Hq Hc. replace q with 0 in * by lia.
    cbn in Hc. apply repeat_nth. lia.
Qed.
Lemma op_resize_child_scalar_ok alloc n k offsets offs : alloc_ok alloc -> represents offsets offs -> length offs = n ->
  (Z.of_nat k <= max64)%Z ->
  exists r, op_resize_child_scalar alloc (Z.of_nat n) (Z.of_nat k) offsets = Some r /\ resized (repeat (Some 0) n) offs [k] r.
Proof.
  intros Ha Ro Ho Hf. unfold op_resize_child_scalar. assert (S3 : da_size offsets = length offs) by apply Ro. rewrite S3.
  replace (Z.of_nat (length offs) =? Z.of_nat n)%Z with true by lia. cbn [negb].
  change [0%Z; Z.of_nat n] with (zs [0; n]).
  assert (Ek : list_sum [k] = k) by (cbn; lia).
  destruct (resize_child_ok [0; n] 1 (repeat (Some 0) n) [k] (fun _ => Some (Z.of_nat k)) offs) with (alloc := alloc) (offsets := offsets) as (r & E & K); auto.
  - apply scalar_split.
  - rewrite Ek. exact Hf.
  - intros q Hq. replace q with 0 by lia. reflexivity.
  - rewrite repeat_length. exact Ho.
  - rewrite Ek in E. exists r. split; [exact E|exact K].
Qed.

(** ** edge.resize_groups_parent_side *)
Lemma uniform_loop_ok k p : (Z.of_nat (p * k) <= max64)%Z -> forall n i sp, 0 < i -> i + n = S p -> length sp = S p ->
  (forall j, j < i -> rd sp j = Some (Z.of_nat (j * k))) ->
  exists sp', uniform_loop sp i n (Z.of_nat k) = Some sp' /\ length sp' = S p /\ forall j, j <= p -> rd sp' j = Some (Z.of_nat (j * k)).
Proof.
  intros Hf. induction n as [|n IH]; intros i sp Hi0 Hi Hl Hj; cbn [uniform_loop].
  - exists sp. split; [reflexivity|]. split; [exact Hl|]. intros j Hj'. apply Hj. lia.
  - rewrite Hj by lia. cbn [bind]. pose proof min64_neg. assert (i * k <= p * k) by (apply Nat.mul_le_mono_r; lia).
    assert (E : (Z.of_nat ((i - 1) * k) + Z.of_nat k)%Z = Z.of_nat (i * k)) by nia.
    rewrite iadd_ok by lia. cbn [bind]. rewrite E.
    destruct (upd_lt sp i (Z.of_nat (i * k))) as [sp1 E1]; [lia|]. rewrite E1. cbn [bind]. apply upd_spec in E1 as (_ & L1 & R1).
    apply IH; [lia|lia|lia|]. intros j Hj'. rewrite R1. destruct (Nat.eqb_spec j i) as [->|]; [reflexivity|apply Hj; lia].
Qed.
Lemma base_repeat k p q : q <= p -> base (repeat k p) q = q * k.
Proof.
  intros H. induction q as [|q IH]; [reflexivity|]. rewrite base_S by (rewrite repeat_length; lia).
  rewrite IH, repeat_nth by lia. lia.
Qed.
Lemma op_resize_parent_one_ok alloc e p m k : alloc_ok alloc -> edge_rep e p m -> e_split e = true ->
  (Z.of_nat (p * k) <= max64)%Z -> (Z.of_nat p < max64)%Z ->
  exists r, op_resize_parent_one alloc e (Z.of_nat k) = Some (inr r) /\ e_split r = true /\ edge_rep r p (size_mapping (repeat k p)).
Proof.
  intros Ha Re Es Hf Hp. unfold op_resize_parent_one. rewrite Es. cbn [negb]. replace (Z.of_nat k <? 0)%Z with false by lia.
  assert (Hep : e_parent e = Z.of_nat p) by apply Re. rewrite Hep. pose proof min64_neg. rewrite iadd_ok by lia. cbn [bind].
  unfold allocz. replace (Z.of_nat p + 1 <? 0)%Z with false by lia. cbn [bind]. replace (Z.to_nat (Z.of_nat p + 1)) with (S p) by lia.
  destruct (upd_lt (alloc (S p)) 0 0%Z) as [sp E0]; [rewrite Ha; lia|]. rewrite E0. cbn [bind].
  apply upd_spec in E0 as (_ & L0 & R0). rewrite Ha in L0. replace (S p - 1) with p by lia.
  destruct (uniform_loop_ok k p Hf p 1 sp) as (sp' & E & L & K); [lia|lia|exact L0| |].
  { intros j Hj. replace j with 0 by lia. rewrite R0. reflexivity. }
  rewrite E. cbn [bind]. destruct (from_points (repeat k p) sp') as (r & Er & Es' & Rr).
  - apply list_eq_rd. intros i. destruct (Nat.le_gt_cases i p) as [Li|Li].
    + rewrite K by exact Li. rewrite rd_zs by (rewrite points_len, repeat_length; lia). rewrite points_nth by (rewrite repeat_length; exact Li).
      rewrite base_repeat by exact Li. reflexivity.
    + rewrite (proj2 (rd_None_ge _ _)) by lia. symmetry. apply rd_None_ge. rewrite zs_len, points_len, repeat_length. lia.
  - exists r. split; [exact Er|]. split; [exact Es'|]. rewrite repeat_length in Rr. exact Rr.
Qed.
