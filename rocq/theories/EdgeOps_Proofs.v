From Verif Require Import Base Bits_Model Bits_Proofs Bitmap_Model Bitmap_Proofs Dense_Model Dense_Spec Dense_Proofs
  Edge_Model Edge_Spec Edge_Proofs Array_Model Array_Proofs GroupOps_Model Overflow_Model Overflow_Proofs EdgeOps_Model EdgeOps_Spec.

Definition max64 : Z := (2 ^ 63 - 1)%Z.
Lemma fits64 z : fits int64 z = true <-> (- 2 ^ 63 <= z <= max64)%Z.
Proof. apply fits_iff. Qed.
Lemma iadd_ok x y : (- 2 ^ 63 <= x + y <= max64)%Z -> iadd x y = Some (x + y)%Z.
Proof. intros H. unfold iadd. apply fits64 in H. rewrite H. reflexivity. Qed.
Lemma max64_pos : (0 < max64)%Z. Proof. reflexivity. Qed.
Lemma min64_neg : (- 2 ^ 63 <= 0)%Z. Proof. discriminate. Qed.

(** ** Sums *)
Lemma base_S ns q : q < length ns -> base ns (S q) = base ns q + nth q ns 0.
Proof.
  unfold base. revert q. induction ns as [|x t IH]; intros q H; [cbn in H; lia|].
  destruct q as [|q]; [cbn; lia|]. rewrite !firstn_cons. change (nth (S q) (x :: t) 0) with (nth q t 0).
  cbn [length] in H. specialize (IH q ltac:(lia)).
  change (list_sum (x :: firstn (S q) t)) with (x + list_sum (firstn (S q) t)).
  change (list_sum (x :: firstn q t)) with (x + list_sum (firstn q t)). lia.
Qed.
Lemma base_all ns q : length ns <= q -> base ns q = list_sum ns.
Proof. intros H. unfold base. rewrite firstn_all2 by exact H. reflexivity. Qed.
Lemma base_mono ns i j : i <= j -> base ns i <= base ns j.
Proof.
  intros H. induction H as [|j H IH]; [lia|].
  destruct (Nat.lt_ge_cases j (length ns)) as [L|L]; [rewrite base_S by exact L; lia|].
  rewrite (base_all ns (S j)), <- (base_all ns j) by lia. exact IH.
Qed.
Lemma base_le ns q : base ns q <= list_sum ns.
Proof.
  destruct (Nat.le_gt_cases (length ns) q) as [L|L]; [rewrite base_all by exact L; lia|].
  rewrite <- (base_all ns (length ns)) by lia. apply base_mono. lia.
Qed.
(** Split points of the sizes [ns]. *)
Definition points (ns : list nat) : list nat := map (base ns) (seq 0 (S (length ns))).
Lemma points_len ns : length (points ns) = S (length ns).
Proof. unfold points. rewrite map_length, seq_length. reflexivity. Qed.
Lemma points_nth ns i : i <= length ns -> nth i (points ns) 0 = base ns i.
Proof. intros H. unfold points. apply nth_seq_map. lia. Qed.
Lemma points_splits ns : splits (points ns).
Proof.
  split; [discriminate|]. split; [reflexivity|]. intros i j H. rewrite points_len in H.
  rewrite !points_nth by lia. apply base_mono. lia.
Qed.
Lemma points_mapping ns : split_mapping (points ns) = size_mapping ns.
Proof.
  unfold split_mapping, size_mapping. rewrite points_len. cbn [Nat.sub]. rewrite Nat.sub_0_r.
  rewrite !flat_map_concat_map. f_equal. apply map_ext_in. intros q Hq. apply in_seq in Hq. rewrite !points_nth by lia. rewrite base_S by lia. f_equal. lia.
Qed.

Lemma wrap_err_ok r : (forall e, r = Some (inr e) -> wrap_err r = Some (inr e)) /\
  ((exists err, r = Some (inl err)) -> exists err, wrap_err r = Some (inl err)).
Proof.
  split; [intros e ->; reflexivity|]. intros [err ->]. eexists. reflexivity.
Qed.
(** FromSplitPoints on a fresh full buffer. *)
Lemma from_points ns sp : sp = zs (points ns) ->
  exists e, wrap_err (from_split_points (mkD sp [] 0)) = Some (inr e) /\ e_split e = true /\
    edge_rep e (length ns) (size_mapping ns).
Proof.
  intros ->. destruct (from_split_points_ok (mkD (zs (points ns)) [] 0) _ (rep_plain _)) as [H _].
  destruct (H (points ns) (points_splits ns)) as (e & E & Es & R); [rewrite zs_some; reflexivity|].
  exists e. rewrite E. split; [reflexivity|]. split; [exact Es|].
  rewrite points_len, points_mapping in R. replace (S (length ns) - 1) with (length ns) in R by lia. exact R.
Qed.

(** ** edge.from_sizes *)
Lemma sum_loop_exact ns : (Z.of_nat (list_sum ns) <= max64)%Z -> forall n i sp, i + n = length ns ->
  length sp = S (length ns) -> (forall j, j <= i -> rd sp j = Some (Z.of_nat (base ns j))) ->
  exists sp', sum_loop (zs ns) sp i n false = Some (sp', false) /\ length sp' = S (length ns) /\
    forall j, j <= length ns -> rd sp' j = Some (Z.of_nat (base ns j)).
Proof.
  intros Hf. induction n as [|n IH]; intros i sp Hi Hl Hj; cbn [sum_loop].
  - exists sp. split; [reflexivity|]. split; [exact Hl|]. intros j Hj'. apply Hj. lia.
  - rewrite Hj by lia. cbn [bind]. rewrite rd_zs by lia. cbn [bind].
    pose proof (base_S ns i ltac:(lia)) as Hb. pose proof (base_le ns (S i)) as Hle.
    assert (E : safe_add int64 (Z.of_nat (base ns i)) (Z.of_nat (nth i ns 0)) false = (Z.of_nat (base ns (S i)), false)).
    { pose proof (safe_add_ok int64 (Z.of_nat (base ns i)) (Z.of_nat (nth i ns 0)) false) as H.
      destruct (safe_add _ _ _ _) as [r o]. destruct H as [H1 H2].
      assert (o = false) as ->; [|rewrite H2 by reflexivity; f_equal; lia].
      apply H1. split; [reflexivity|]. change (ilo int64) with (- 2 ^ 63)%Z. change (ihi int64) with max64.
      pose proof min64_neg. lia. }
    rewrite E. destruct (upd_lt sp (i + 1) (Z.of_nat (base ns (S i)))) as [sp1 E1]; [lia|]. rewrite E1. cbn [bind].
    apply upd_spec in E1 as (_ & L1 & R1). apply IH; [lia|lia|].
    intros j Hj'. rewrite R1. destruct (Nat.eqb_spec j (i + 1)) as [->|N]; [repeat f_equal; lia|apply Hj; lia].
Qed.
Lemma sum_loop_any sizes : forall n i sp ov, i + n = length sizes -> length sp = S (length sizes) ->
  exists sp' ov', sum_loop sizes sp i n ov = Some (sp', ov') /\ length sp' = length sp /\
    (forall j, j <= i -> rd sp' j = rd sp j) /\
    (ov' = false -> ov = false /\ forall j, i <= j < length sizes -> exists a s, rd sp' j = Some a /\ rd sizes j = Some s /\
        rd sp' (S j) = Some (a + s)%Z /\ (a + s <= max64)%Z).
Proof.
  induction n as [|n IH]; intros i sp ov Hi Hl; cbn [sum_loop].
  - exists sp, ov. split; [reflexivity|]. split; [reflexivity|]. split; [reflexivity|]. intros ->. split; [reflexivity|]. intros j Hj. lia.
  - destruct (rd_lt sp i) as [a Ea]; [lia|]. destruct (rd_lt sizes i) as [s Es]; [lia|]. rewrite Ea, Es. cbn [bind].
    pose proof (safe_add_ok int64 a s ov) as H. destruct (safe_add int64 a s ov) as [r o]. destruct H as [H1 H2].
    destruct (upd_lt sp (i + 1) r) as [sp1 E1]; [lia|]. rewrite E1. cbn [bind].
    apply upd_spec in E1 as (_ & L1 & R1).
    destruct (IH (S i) sp1 o) as (sp' & ov' & E & L & K & F); [lia|lia|]. exists sp', ov'.
    split; [exact E|]. split; [lia|]. split.
    + intros j Hj. rewrite K by lia. rewrite R1. replace (j =? i + 1) with false by lia. reflexivity.
    + intros Ho. destruct (F Ho) as [Fo Fj]. assert (Fo' := Fo). apply H1 in Fo' as [Hov Hr]. split; [exact Hov|].
      intros j Hj. destruct (Nat.eq_dec j i) as [->|N]; [|apply Fj; lia].
      exists a, s. rewrite !K by lia. rewrite !R1. replace (i =? i + 1) with false by lia.
      replace (S i =? i + 1) with true by lia. split; [exact Ea|]. split; [exact Es|]. rewrite H2 by exact Fo.
      split; [reflexivity|]. change (ihi int64) with max64 in Hr. lia.
Qed.

Lemma from_sizes_ok alloc sizes l : alloc_ok alloc -> represents sizes l ->
  (forall ns, l = nums ns -> (Z.of_nat (list_sum ns) <= max64)%Z ->
     exists e, op_from_sizes alloc sizes = Some (inr e) /\ e_split e = true /\ edge_rep e (length ns) (size_mapping ns)) /\
  ((forall ns, l = nums ns -> (max64 < Z.of_nat (list_sum ns))%Z) ->
     exists err, op_from_sizes alloc sizes = Some (inl err)).
Proof.
  intros Ha R. unfold op_from_sizes. destruct (is_full_ok sizes l R) as (f & -> & Hf). cbn [bind].
  assert (Hal := Ha (da_size sizes + 1)). destruct (upd_lt (alloc (da_size sizes + 1)) 0 0%Z) as [sp E0]; [lia|].
  assert (E0' := E0). apply upd_spec in E0' as (_ & L0 & R0). split.
  - intros ns El Hs. unfold nums in El. rewrite zs_some in El. subst l. destruct f; cbn [negb].
    2:{ elim Hf. apply Forall_forall. intros o Ho. apply in_map_iff in Ho as (x & <- & _). congruence. }
    rewrite E0. cbn [bind]. assert (Hv := rep_full_vals _ _ R). unfold da_size in *. rewrite Hv, zs_len in *.
    destruct (sum_loop_exact ns Hs (length ns) 0 sp) as (sp' & E & L & K); [lia|lia| |].
    { intros j Hj. replace j with 0 by lia. rewrite R0. reflexivity. }
    rewrite E. cbn [bind]. apply from_points. apply list_eq_rd.
    intros i. destruct (Nat.le_gt_cases i (length ns)) as [Li|Li].
    + rewrite K by exact Li. rewrite rd_zs by (rewrite points_len; lia). rewrite points_nth by exact Li. reflexivity.
    + rewrite (proj2 (rd_None_ge _ _)) by lia. symmetry. apply rd_None_ge. rewrite zs_len, points_len. lia.
  - intros Hno. destruct f; cbn [negb]; [|eexists; reflexivity]. rewrite E0. cbn [bind]. unfold da_size in *. subst l.
    destruct (sum_loop_any (vals sizes) (length (vals sizes)) 0 sp false) as (sp' & ov & E & L & K & F); [lia|lia|].
    rewrite E. cbn [bind]. destruct ov; [eexists; reflexivity|]. destruct (F eq_refl) as [_ Fj].
    apply wrap_err_ok. destruct (from_split_points_ok (mkD sp' [] 0) _ (rep_plain sp')) as [_ H]. apply H.
    intros s Hs Es. rewrite zs_some in Es. apply map_Some_inj in Es. subst sp'. rewrite zs_len in *.
    destruct Hs as (_ & H0 & Hm). rewrite L0 in L. rewrite Hal in L.
    (* the sizes are the differences *)
    set (N := length (vals sizes)) in *.
    set (ns := map (fun q => nth (S q) s 0 - nth q s 0) (seq 0 N)).
    assert (Hns : length ns = N) by (unfold ns; rewrite map_length, seq_length; reflexivity).
    assert (Hq : forall q, q < N -> nth q ns 0 = nth (S q) s 0 - nth q s 0) by (intros q Hq; exact (nth_seq_map (fun q => nth (S q) s 0 - nth q s 0) N q 0 Hq)).
    assert (Hb : forall q, q <= N -> base ns q = nth q s 0).
    { induction q as [|q IH]; intros Hq'; [rewrite H0; reflexivity|]. rewrite base_S by lia. rewrite IH by lia.
      rewrite Hq by lia. specialize (Hm q (S q)). lia. }
    assert (El : vals sizes = zs ns).
    { apply list_eq_rd. intros i.
      destruct (Nat.lt_ge_cases i N) as [Li|Li].
      - destruct (Fj i) as (a & x & A1 & A2 & A3 & _); [lia|]. rewrite A2. rewrite rd_zs in A1, A3 |- * by lia.
        rewrite Hq by exact Li. specialize (Hm i (S i)). f_equal.
        assert (a = Z.of_nat (nth i s 0)) by congruence. assert ((a + x)%Z = Z.of_nat (nth (S i) s 0)) by congruence. lia.
      - rewrite (proj2 (rd_None_ge _ _)) by exact Li. symmetry. apply rd_None_ge. rewrite zs_len. lia. }
    specialize (Hno ns). unfold nums in Hno. rewrite zs_some, El in Hno. specialize (Hno eq_refl).
    rewrite <- (base_all ns N) in Hno by lia. rewrite Hb in Hno by lia.
    destruct N as [|N'] eqn:EN.
    + rewrite H0 in Hno. pose proof max64_pos. lia.
    + destruct (Fj N') as (a & x & A1 & A2 & A3 & A4); [lia|]. rewrite rd_zs in A3 by lia.
      assert ((a + x)%Z = Z.of_nat (nth (S N') s 0)) by congruence. lia.
Qed.

(** ** Inserting into a buffer *)
Lemma rd_firstn {A} (l : list A) n i : rd (firstn n l) i = if i <? n then rd l i else None.
Proof. exact (firstn_skipn_rd l 0 n i). Qed.
Lemma ins_ok buf pos v : pos < length buf -> exists buf', ins (buf, pos) v = Some (buf', S pos) /\
  length buf' = length buf /\ firstn (S pos) buf' = firstn pos buf ++ [v].
Proof.
  intros H. unfold ins. destruct (upd_lt buf pos v H) as [b E]. rewrite E. cbn [bind].
  apply upd_spec in E as (_ & L & R). exists b. split; [reflexivity|]. split; [exact L|].
  apply list_eq_rd. intros i. rewrite rd_app, firstn_length, Nat.min_l by lia. rewrite !rd_firstn, R.
  destruct (Nat.ltb_spec i pos) as [Li|Li].
  - replace (i <? S pos) with true by lia. replace (i =? pos) with false by lia. reflexivity.
  - destruct (Nat.eq_dec i pos) as [->|N].
    + replace (pos <? S pos) with true by lia. rewrite Nat.eqb_refl, Nat.sub_diag. reflexivity.
    + replace (i <? S pos) with false by lia. symmetry. apply rd_None_ge. cbn [length]. lia.
Qed.

(** Running sums from [o]. *)
Fixpoint run (o : nat) (cs : list nat) : list nat :=
  match cs with [] => [] | s :: t => o :: run (o + s) t end.
Lemma run_len cs : forall o, length (run o cs) = length cs.
Proof. induction cs as [|s t IH]; intros o; [reflexivity|]. cbn. rewrite IH. reflexivity. Qed.
Lemma run_app a : forall b o, run o (a ++ b) = run o a ++ run (o + list_sum a) b.
Proof.
  induction a as [|s t IH]; intros b o; [cbn; rewrite Nat.add_0_r; reflexivity|].
  cbn [app run]. rewrite IH. change (list_sum (s :: t)) with (s + list_sum t). rewrite Nat.add_assoc. reflexivity.
Qed.
Lemma run_nth cs : forall o i, i < length cs -> nth i (run o cs) 0 = o + base cs i.
Proof.
  induction cs as [|s t IH]; intros o i H; [cbn in H; lia|]. destruct i as [|i]; [cbn; lia|].
  cbn [run nth]. cbn [length] in H. rewrite IH by lia. unfold base. rewrite firstn_cons.
  change (list_sum (s :: firstn i t)) with (s + list_sum (firstn i t)). lia.
Qed.
Lemma run_points cs : run 0 cs ++ [list_sum cs] = points cs.
Proof.
  apply nat_list_eq.
  - rewrite app_length, run_len, points_len. cbn [length]. lia.
  - intros i Hi. rewrite app_length, run_len in Hi. cbn [length] in Hi. rewrite points_nth by lia.
    destruct (Nat.eq_dec i (length cs)) as [->|N].
    + rewrite app_nth2 by (rewrite run_len; lia). rewrite run_len, Nat.sub_diag. cbn [nth]. rewrite base_all by lia. reflexivity.
    + rewrite app_nth1 by (rewrite run_len; lia). rewrite run_nth by lia. reflexivity.
Qed.
Lemma list_sum_repeat s n : list_sum (repeat s n) = n * s.
Proof. induction n as [|n IH]; [reflexivity|]. cbn [repeat]. change (list_sum (s :: repeat s n)) with (s + list_sum (repeat s n)). lia. Qed.
Lemma list_sum_cons s t : list_sum (s :: t) = s + list_sum t. Proof. reflexivity. Qed.

(** Number of pairs of every child. *)
Definition counts (ns : list nat) : list nat := flat_map (fun s => repeat s s) ns.
Lemma counts_cons s t : counts (s :: t) = repeat s s ++ counts t. Proof. reflexivity. Qed.
Lemma counts_sum ns : list_sum (counts ns) = sum_sq ns.
Proof.
  induction ns as [|s t IH]; [reflexivity|]. rewrite counts_cons, list_sum_app, list_sum_repeat, IH. reflexivity.
Qed.
Lemma counts_len ns : length (counts ns) = list_sum ns.
Proof. induction ns as [|s t IH]; [reflexivity|]. rewrite counts_cons, app_length, repeat_length, IH. reflexivity. Qed.
Lemma sum_sq_cons s t : sum_sq (s :: t) = s * s + sum_sq t. Proof. reflexivity. Qed.
Lemma sum_le_sq ns : list_sum ns <= sum_sq ns.
Proof. induction ns as [|s t IH]; [cbn; lia|]. rewrite sum_sq_cons, list_sum_cons. assert (s <= s * s) by (destruct s; nia). lia. Qed.

(** Mapping of consecutive groups, first parent [b]. *)
Fixpoint smap (b : nat) (ns : list nat) : list (option nat) :=
  match ns with [] => [] | s :: t => repeat (Some b) s ++ smap (S b) t end.
Lemma size_mapping_smap ns : size_mapping ns = smap 0 ns.
Proof.
  unfold size_mapping. assert (G : forall ns b, flat_map (fun q => repeat (Some (b + q)) (nth q ns 0)) (seq 0 (length ns)) = smap b ns).
  { clear ns. induction ns as [|s t IH]; intros b; [reflexivity|]. cbn [length seq flat_map nth smap].
    rewrite Nat.add_0_r. f_equal. rewrite <- IH, <- seq_shift, !flat_map_concat_map, map_map. f_equal.
    apply map_ext. intros q. cbn [nth]. rewrite Nat.add_succ_r. reflexivity. }
  apply (G ns 0).
Qed.
Lemma smap_repeat s t : forall n b, smap b (repeat s n ++ t) = flat_map (fun q => repeat (Some q) s) (seq b n) ++ smap (b + n) t.
Proof.
  induction n as [|n IH]; intros b; [cbn; rewrite Nat.add_0_r; reflexivity|].
  cbn [repeat app smap seq flat_map]. rewrite IH, app_assoc. do 2 f_equal. lia.
Qed.
Lemma map_const_repeat {X Y} (f : X -> Y) y l : (forall x, f x = y) -> map f l = repeat y (length l).
Proof. intros H. induction l as [|x l IH]; [reflexivity|]. cbn. rewrite H, IH. reflexivity. Qed.
Lemma prod_fst (l m : list nat) : map (fun p => Some (fst p)) (list_prod l m) = flat_map (fun q => repeat (Some q) (length m)) l.
Proof.
  induction l as [|x l IH]; [reflexivity|]. cbn [list_prod flat_map]. rewrite map_app, IH. f_equal.
  rewrite map_map. cbn [fst]. apply map_const_repeat. reflexivity.
Qed.
Lemma left_smap ns : forall b, map (fun p => Some (fst p)) (pairs b ns) = smap b (counts ns).
Proof.
  induction ns as [|s t IH]; intros b; [reflexivity|]. cbn [pairs]. rewrite map_app, prod_fst, seq_length, IH.
  rewrite counts_cons, smap_repeat. reflexivity.
Qed.
Lemma left_mapping_ok ns : size_mapping (counts ns) = left_mapping ns.
Proof. rewrite size_mapping_smap. symmetry. apply left_smap. Qed.

(** ** Counting pairs *)
Lemma mul64 x ov : let '(r, o) := safe_mul int64 x x ov in (o = false <-> ov = false /\ (- 2 ^ 63 <= x * x <= max64)%Z) /\ (o = false -> r = (x * x)%Z).
Proof. exact (safe_mul_ok int64 x x ov). Qed.
Lemma add64 x y ov : let '(r, o) := safe_add int64 x y ov in (o = false <-> ov = false /\ (- 2 ^ 63 <= x + y <= max64)%Z) /\ (o = false -> r = (x + y)%Z).
Proof. exact (safe_add_ok int64 x y ov). Qed.
Lemma zs_cons s t : zs (s :: t) = Z.of_nat s :: zs t. Proof. reflexivity. Qed.

Lemma counts_any ns : forall ps cc pc ov, map snd ps = zs ns -> (0 <= cc)%Z ->
  (cc + Z.of_nat (list_sum ns) <= max64)%Z ->
  exists pc' o, fold_opt count_step ps (cc, pc, ov) = Some ((cc + Z.of_nat (list_sum ns))%Z, pc', o) /\
    (o = false -> ov = false /\ pc' = (pc + Z.of_nat (sum_sq ns))%Z /\ (ns <> [] -> (pc' <= max64)%Z)) /\
    (ov = false -> (0 <= pc)%Z -> (pc + Z.of_nat (sum_sq ns) <= max64)%Z -> o = false).
Proof.
  induction ns as [|s t IH]; intros ps cc pc ov Hp Hc Hm.
  - destruct ps; [|discriminate]. exists pc, ov. cbn [fold_opt list_sum fold_right]. rewrite Z.add_0_r. split; [reflexivity|].
    split; [|tauto]. intros ->. split; [reflexivity|]. split; [cbn; lia|congruence].
  - destruct ps as [|[i x] ps]; [discriminate|]. rewrite zs_cons in Hp. cbn [map snd] in Hp.
    assert (Hx : x = Z.of_nat s) by congruence. assert (Hp' : map snd ps = zs t) by congruence. subst x. clear Hp.
    rewrite list_sum_cons in Hm. pose proof min64_neg.
    cbn [fold_opt]. unfold count_step at 1. cbn [snd]. rewrite iadd_ok by lia. cbn [bind].
    pose proof (mul64 (Z.of_nat s) ov) as M. destruct (safe_mul int64 (Z.of_nat s) (Z.of_nat s) ov) as [sq o1].
    pose proof (add64 pc sq o1) as D. destruct (safe_add int64 pc sq o1) as [pc1 o2]. cbn [bind].
    destruct M as [M1 M2], D as [D1 D2].
    destruct (IH ps (cc + Z.of_nat s)%Z pc1 o2 Hp') as (pc' & o & E & F & G); [lia|lia|].
    exists pc', o. rewrite list_sum_cons, sum_sq_cons. split.
    { rewrite E. do 2 f_equal. f_equal. lia. }
    split.
    + intros Ho. destruct (F Ho) as (F1 & F2 & F3). destruct (proj1 D1 F1) as [K1 K2]. destruct (proj1 M1 K1) as [K3 K4].
      specialize (D2 F1). specialize (M2 K1). split; [exact K3|]. split; [lia|]. intros _. destruct t as [|s' t']; [cbn in F2; lia|apply F3; congruence].
    + intros Hov Hpc Hle. assert (o1 = false) by (apply M1; split; [exact Hov|lia]). specialize (M2 H0).
      assert (o2 = false) by (apply D1; split; [exact H0|lia]). specialize (D2 H1). apply G; [exact H1|lia|lia].
Qed.

Lemma present_nums ns : map snd (present_pairs (nums ns)) = zs ns.
Proof.
  unfold present_pairs, nums, zs. rewrite map_length. generalize 0.
  induction ns as [|s t IH]; intros b; [reflexivity|]. cbn [map length seq combine flat_map snd fst app]. rewrite IH. reflexivity.
Qed.
Lemma nums_full sizes ns : represents sizes (nums ns) -> da_is_full sizes = Some true.
Proof.
  intros R. destruct (is_full_ok sizes _ R) as (f & E & Hf). rewrite E. destruct f; [reflexivity|].
  elim Hf. apply Forall_forall. intros o Ho. apply in_map_iff in Ho as (x & <- & _). congruence.
Qed.
Lemma nums_vals sizes ns : represents sizes (nums ns) -> vals sizes = zs ns.
Proof. intros R. apply rep_full_vals. unfold nums in R. rewrite zs_some in R. exact R. Qed.

(** ** edge.pair_left *)
Lemma left_loop_ok s n : forall buf pos done o, firstn pos buf = zs done -> pos = length done ->
  pos + n <= length buf -> (Z.of_nat (o + n * s) <= max64)%Z ->
  exists buf', left_loop n (Z.of_nat s) (buf, pos, Z.of_nat o) = Some (buf', pos + n, Z.of_nat (o + n * s)) /\
    length buf' = length buf /\ firstn (pos + n) buf' = zs (done ++ run o (repeat s n)).
Proof.
  induction n as [|n IH]; intros buf pos done o Hf Hp Hl Hm; cbn [left_loop].
  - exists buf. rewrite !Nat.add_0_r, app_nil_r. repeat split; auto.
  - destruct (ins_ok buf pos (Z.of_nat o)) as (b1 & E1 & L1 & F1); [lia|]. rewrite E1. cbn [bind].
    pose proof min64_neg. rewrite iadd_ok by lia. cbn [bind]. replace (Z.of_nat o + Z.of_nat s)%Z with (Z.of_nat (o + s)) by lia.
    destruct (IH b1 (S pos) (done ++ [o]) (o + s)) as (b' & E & L & F).
    + rewrite F1, Hf. unfold zs. rewrite map_app. reflexivity.
    + rewrite app_length. cbn [length]. lia.
    + lia.
    + lia.
    + exists b'. rewrite E. split; [do 2 f_equal; [f_equal; lia|lia]|]. split; [lia|].
      replace (pos + S n) with (S pos + n) by lia. rewrite F. cbn [repeat run]. rewrite <- app_assoc. reflexivity.
Qed.
Lemma left_fold_ok ns : forall ps buf pos done o, map snd ps = zs ns -> firstn pos buf = zs done -> pos = length done ->
  pos + list_sum ns <= length buf -> (Z.of_nat (o + sum_sq ns) <= max64)%Z ->
  exists buf', fold_opt left_step ps (buf, pos, Z.of_nat o) = Some (buf', pos + list_sum ns, Z.of_nat (o + sum_sq ns)) /\
    length buf' = length buf /\ firstn (pos + list_sum ns) buf' = zs (done ++ run o (counts ns)).
Proof.
  induction ns as [|s t IH]; intros ps buf pos done o Hp Hf Hd Hl Hm.
  - destruct ps; [|discriminate]. exists buf. cbn. rewrite !Nat.add_0_r, app_nil_r. repeat split; auto.
  - destruct ps as [|[i x] ps]; [discriminate|]. rewrite zs_cons in Hp. cbn [map snd] in Hp.
    assert (Hx : x = Z.of_nat s) by congruence. assert (Hp' : map snd ps = zs t) by congruence. subst x. clear Hp.
    rewrite list_sum_cons in Hl. rewrite sum_sq_cons in Hm.
    cbn [fold_opt]. unfold left_step at 1. cbn [snd]. rewrite Nat2Z.id.
    destruct (left_loop_ok s s buf pos done o Hf Hd) as (b1 & E1 & L1 & F1); [lia|lia|]. rewrite E1. cbn [bind].
    destruct (IH ps b1 (pos + s) (done ++ run o (repeat s s)) (o + s * s) Hp' F1) as (b' & E & L & F).
    + rewrite app_length, run_len, repeat_length. lia.
    + lia.
    + lia.
    + exists b'. rewrite E, list_sum_cons, sum_sq_cons. split; [do 2 f_equal; [f_equal; lia|lia]|]. split; [lia|].
      replace (pos + (s + list_sum t)) with (pos + s + list_sum t) by lia. rewrite F, counts_cons, run_app, list_sum_repeat, app_assoc. reflexivity.
Qed.
Lemma pair_left_ok alloc sizes ns : alloc_ok alloc -> represents sizes (nums ns) ->
  (Z.of_nat (sum_sq ns) <= max64)%Z -> (Z.of_nat (list_sum ns) < max64)%Z ->
  exists e, op_pair_left alloc sizes = Some (inr e) /\ e_split e = true /\ edge_rep e (list_sum ns) (left_mapping ns).
Proof.
  intros Ha R Hsq Hs. unfold op_pair_left. rewrite (nums_full _ _ R). cbn [bind negb].
  rewrite (rep_for_each_present _ _ R). cbn [bind].
  destruct (counts_any ns (present_pairs (nums ns)) 0 0 false (present_nums ns)) as (pc & o & E & _ & G); [lia|lia|].
  rewrite E. cbn [bind]. rewrite G by (reflexivity || lia). pose proof min64_neg. rewrite iadd_ok by lia. cbn [bind].
  unfold allocz. replace (0 + Z.of_nat (list_sum ns) + 1 <? 0)%Z with false by lia. cbn [bind].
  set (n := Z.to_nat _). assert (Hn : n = S (list_sum ns)) by lia.
  destruct (left_fold_ok ns (present_pairs (nums ns)) (alloc n) 0 [] 0 (present_nums ns)) as (b & Eb & Lb & Fb);
    [reflexivity|reflexivity|rewrite Ha; lia|lia|].
  cbn [Nat.add] in Eb, Fb. change (Z.of_nat 0) with 0%Z in Eb. rewrite Eb. cbn [bind].
  destruct (ins_ok b (list_sum ns) (Z.of_nat (sum_sq ns))) as (b' & E' & L' & F'); [rewrite Lb, Ha; lia|].
  rewrite E'. cbn [bind fst].
  destruct (from_points (counts ns) b') as (e & Ee & Es & Re).
  - rewrite <- run_points, counts_sum. rewrite Fb in F'. unfold zs in *. rewrite map_app. cbn [app map] in F' |- *.
    rewrite <- F'. symmetry. apply firstn_all2. rewrite L', Lb, Ha. lia.
  - exists e. split; [exact Ee|]. split; [exact Es|]. rewrite counts_len, left_mapping_ok in Re. exact Re.
Qed.
Lemma pair_overflow alloc sizes ns : represents sizes (nums ns) ->
  (max64 < Z.of_nat (sum_sq ns))%Z -> (Z.of_nat (list_sum ns) <= max64)%Z ->
  op_pair_left alloc sizes = Some (inl SizeOverflow) /\ op_pair_right alloc sizes = Some (inl SizeOverflow).
Proof.
  intros R Hsq Hs. unfold op_pair_left, op_pair_right. rewrite (nums_full _ _ R). cbn [bind negb].
  rewrite (rep_for_each_present _ _ R). cbn [bind].
  destruct (counts_any ns (present_pairs (nums ns)) 0 0 false (present_nums ns)) as (pc & o & E & F & _); [lia|lia|].
  rewrite E. cbn [bind]. destruct o; [split; reflexivity|]. exfalso. destruct (F eq_refl) as (_ & F2 & F3).
  destruct ns as [|s t]; [cbn in Hsq; pose proof max64_pos; lia|]. specialize (F3 ltac:(congruence)). lia.
Qed.
Lemma pair_missing alloc sizes l : represents sizes l -> In None l ->
  op_pair_left alloc sizes = Some (inl SizesNotFull) /\ op_pair_right alloc sizes = Some (inl SizesNotFull).
Proof.
  intros R Hin. unfold op_pair_left, op_pair_right. destruct (is_full_ok sizes l R) as (f & E & Hf). rewrite E. cbn [bind].
  destruct f; [|split; reflexivity]. exfalso. rewrite Hf in Hin. apply in_map_iff in Hin as (x & K & _). discriminate.
Qed.

(** ** edge.pair_right *)
Lemma right_row_ok o n : forall j buf pos done, firstn pos buf = zs done -> pos = length done -> pos + n <= length buf ->
  (Z.of_nat (o + j + n) <= max64)%Z ->
  exists buf', right_row n j (Z.of_nat o) (buf, pos) = Some (buf', pos + n) /\ length buf' = length buf /\
    firstn (pos + n) buf' = zs (done ++ seq (o + j) n).
Proof.
  induction n as [|n IH]; intros j buf pos done Hf Hd Hl Hm; cbn [right_row].
  - exists buf. rewrite Nat.add_0_r, app_nil_r. repeat split; auto.
  - pose proof min64_neg. rewrite iadd_ok by lia. cbn [bind].
    destruct (ins_ok buf pos (Z.of_nat o + Z.of_nat j)%Z) as (b1 & E1 & L1 & F1); [lia|]. rewrite E1. cbn [bind].
    destruct (IH (S j) b1 (S pos) (done ++ [o + j])) as (b' & E & L & F).
    + rewrite F1, Hf. unfold zs. rewrite map_app. cbn [map]. do 2 f_equal. lia.
    + rewrite app_length. cbn [length]. lia.
    + lia.
    + lia.
    + exists b'. rewrite E. replace (pos + S n) with (S pos + n) by lia. split; [reflexivity|]. split; [lia|].
      rewrite F, <- app_assoc. cbn [app seq]. do 4 f_equal. lia.
Qed.
Lemma prod_snd (l m : list nat) : map snd (list_prod l m) = concat (repeat m (length l)).
Proof.
  induction l as [|x l IH]; [reflexivity|]. cbn [list_prod length repeat concat]. rewrite map_app, IH, map_map. f_equal.
  cbn [snd]. apply map_id.
Qed.
Lemma concat_repeat_len {X} (l : list X) n : length (concat (repeat l n)) = n * length l.
Proof. induction n as [|n IH]; [reflexivity|]. cbn [repeat concat]. rewrite app_length, IH. reflexivity. Qed.
Lemma right_loop_ok o n i : forall buf pos done, firstn pos buf = zs done -> pos = length done -> pos + i * n <= length buf ->
  (Z.of_nat (o + n) <= max64)%Z ->
  exists buf', right_loop i n (Z.of_nat o) (buf, pos) = Some (buf', pos + i * n) /\ length buf' = length buf /\
    firstn (pos + i * n) buf' = zs (done ++ concat (repeat (seq o n) i)).
Proof.
  induction i as [|i IH]; intros buf pos done Hf Hd Hl Hm; cbn [right_loop].
  - exists buf. rewrite Nat.add_0_r, app_nil_r. repeat split; auto.
  - destruct (right_row_ok o n 0 buf pos done Hf Hd) as (b1 & E1 & L1 & F1); [lia|lia|].
    rewrite E1. cbn [bind]. rewrite Nat.add_0_r in F1.
    destruct (IH b1 (pos + n) (done ++ seq o n) F1) as (b' & E & L & F).
    + rewrite app_length, seq_length. lia.
    + lia.
    + exact Hm.
    + exists b'. rewrite E. replace (pos + S i * n) with (pos + n + i * n) by lia. split; [reflexivity|]. split; [lia|].
      rewrite F, <- app_assoc. reflexivity.
Qed.
Lemma right_fold_ok ns : forall ps buf pos done o, map snd ps = zs ns -> firstn pos buf = zs done -> pos = length done ->
  pos + sum_sq ns <= length buf -> (Z.of_nat (o + list_sum ns) <= max64)%Z ->
  exists buf', fold_opt right_step ps (buf, pos, Z.of_nat o) = Some (buf', pos + sum_sq ns, Z.of_nat (o + list_sum ns)) /\
    length buf' = length buf /\ firstn (pos + sum_sq ns) buf' = zs (done ++ map snd (pairs o ns)).
Proof.
  induction ns as [|s t IH]; intros ps buf pos done o Hp Hf Hd Hl Hm.
  - destruct ps; [|discriminate]. exists buf. cbn. rewrite !Nat.add_0_r, app_nil_r. repeat split; auto.
  - destruct ps as [|[i x] ps]; [discriminate|]. rewrite zs_cons in Hp. cbn [map snd] in Hp.
    assert (Hx : x = Z.of_nat s) by congruence. assert (Hp' : map snd ps = zs t) by congruence. subst x. clear Hp.
    rewrite list_sum_cons in Hm. rewrite sum_sq_cons in Hl.
    cbn [fold_opt]. unfold right_step at 1. cbn [snd]. rewrite Nat2Z.id.
    destruct (right_loop_ok o s s buf pos done Hf Hd) as (b1 & E1 & L1 & F1); [lia|lia|]. cbv zeta. rewrite E1. cbn [bind].
    pose proof min64_neg. rewrite iadd_ok by lia. cbn [bind]. replace (Z.of_nat o + Z.of_nat s)%Z with (Z.of_nat (o + s)) by lia.
    destruct (IH ps b1 (pos + s * s) (done ++ concat (repeat (seq o s) s)) (o + s) Hp' F1) as (b' & E & L & F).
    + rewrite app_length, Hd. f_equal. rewrite concat_repeat_len, seq_length. reflexivity.
    + lia.
    + lia.
    + exists b'. rewrite E, list_sum_cons, sum_sq_cons. split; [do 2 f_equal; [f_equal; lia|lia]|]. split; [lia|].
      replace (pos + (s * s + sum_sq t)) with (pos + s * s + sum_sq t) by lia. rewrite F. cbn [pairs].
      rewrite map_app, prod_snd, seq_length, app_assoc. reflexivity.
Qed.
Lemma pairs_range ns : forall b p, In p (pairs b ns) -> b <= fst p < b + list_sum ns /\ b <= snd p < b + list_sum ns.
Proof.
  induction ns as [|s t IH]; intros b [x y] H; [destruct H|]. cbn [pairs] in H. rewrite list_sum_cons. cbn [fst snd].
  apply in_app_or in H as [H|H].
  - apply in_prod_iff in H as [H1 H2]. apply in_seq in H1, H2. lia.
  - apply IH in H. cbn [fst snd] in H. lia.
Qed.
Lemma pairs_len ns : forall b, length (pairs b ns) = sum_sq ns.
Proof.
  induction ns as [|s t IH]; intros b; [reflexivity|]. cbn [pairs]. rewrite app_length, prod_length, seq_length, IH. reflexivity.
Qed.
Lemma pair_right_ok alloc sizes ns : alloc_ok alloc -> represents sizes (nums ns) -> (Z.of_nat (sum_sq ns) <= max64)%Z ->
  exists e, op_pair_right alloc sizes = Some (inr e) /\ e_split e = false /\ edge_rep e (list_sum ns) (right_mapping ns).
Proof.
  intros Ha R Hsq. pose proof (sum_le_sq ns) as Hle. unfold op_pair_right. rewrite (nums_full _ _ R). cbn [bind negb].
  rewrite (rep_for_each_present _ _ R). cbn [bind].
  destruct (counts_any ns (present_pairs (nums ns)) 0 0 false (present_nums ns)) as (pc & o & E & F & G); [lia|lia|].
  rewrite E. cbn [bind]. assert (o = false) as -> by (apply G; [reflexivity|lia|lia]). destruct (F eq_refl) as (_ & Hpc & _). subst pc.
  unfold allocz. replace (0 + Z.of_nat (sum_sq ns) <? 0)%Z with false by lia. cbn [bind].
  set (n := Z.to_nat _). assert (Hn : n = sum_sq ns) by lia.
  destruct (right_fold_ok ns (present_pairs (nums ns)) (alloc n) 0 [] 0 (present_nums ns)) as (b & Eb & Lb & Fb);
    [reflexivity|reflexivity|rewrite Ha; lia|lia|].
  cbn [Nat.add app] in Eb, Fb. change (Z.of_nat 0) with 0%Z in Eb. rewrite Eb. cbn [bind fst].
  assert (Hb : b = zs (map snd (pairs 0 ns))).
  { rewrite <- Fb. symmetry. apply firstn_all2. rewrite Lb, Ha. lia. }
  destruct (from_mapping_ok (mkD b [] 0) _ (0 + Z.of_nat (list_sum ns)) (rep_plain b)) as [H _].
  destruct H as (e & m & Ee & Em & Es & Re).
  - split; [lia|]. intros v Hv. apply in_map_iff in Hv as (x & Ex & Hx). assert (x = v) by congruence. subst x.
    rewrite Hb in Hx. apply in_map_iff in Hx as (y & <- & Hy). apply in_map_iff in Hy as (p & <- & Hp).
    apply pairs_range in Hp. lia.
  - exists e. rewrite Ee. split; [reflexivity|]. split; [exact Es|].
    replace (Z.to_nat (0 + Z.of_nat (list_sum ns))) with (list_sum ns) in Re by lia.
    replace (right_mapping ns) with m; [exact Re|]. apply zopt_inj. rewrite <- Em, Hb. unfold right_mapping, zs.
    rewrite !map_map. reflexivity.
Qed.

(** ** array.expand *)
Lemma expand_len {A} (l : list (option A)) m : length (expand l m) = length m.
Proof. apply map_length. Qed.
Lemma expand_nth {A} (l : list (option A)) m c : nth c (expand l m) None = match nth c m None with Some q => nth q l None | None => None end.
Proof. exact (map_nth (fun o => match o with Some q => nth q l None | None => None end) m None c). Qed.

Lemma skipn_cons_S {X} k : forall (l : list X) x t, skipn k l = x :: t -> skipn (S k) l = t.
Proof.
  induction k as [|k IH]; intros l x t H; [cbn in H; rewrite H; reflexivity|].
  destruct l as [|y l]; [discriminate|]. cbn [skipn] in H. apply IH in H. exact H.
Qed.

Section X.
Context {A : Type}.

Lemma expand_loop_ok (par : darr A) l s p m : represents par l -> split_of s p m -> p = length l ->
  forall n i vs bits, i + n = p -> length vs = length m -> (bmp par = [] -> bits = []) ->
  (bmp par <> [] -> length bits = bitmap_size (length m) /\ Forall (wok W) bits) ->
  (forall c x, c < nth i s 0 -> nth c (expand l m) None = Some x -> rd vs c = Some x) ->
  (bmp par <> [] -> forall c, c < length m -> bt bits c = (c <? nth i s 0) && is_some (nth c (expand l m) None)) ->
  exists vs' bits', expand_loop par (zs s) i n vs bits = Some (vs', bits') /\ length vs' = length m /\
    (bmp par = [] -> bits' = []) /\
    (bmp par <> [] -> length bits' = bitmap_size (length m) /\ Forall (wok W) bits') /\
    (forall c x, c < nth p s 0 -> nth c (expand l m) None = Some x -> rd vs' c = Some x) /\
    (bmp par <> [] -> forall c, c < length m -> bt bits' c = (c <? nth p s 0) && is_some (nth c (expand l m) None)).
Proof.
  intros R Hs Hp. destruct (proj1 (represents_elem par l) R) as (Hv & Hsz & He).
  assert (Hs' := Hs). destruct Hs' as ((_ & H0 & Hm) & Hl & Hlast & Hq).
  induction n as [|n IH]; intros i vs bits Hi Hlv Hnb Hb Hvs Hbt; cbn [expand_loop].
  - exists vs, bits. replace i with p in * by lia. repeat split; auto; apply Hb; assumption.
  - assert (Hip : i < length l) by lia.
    assert (Epr : match bmp par with [] => Some true | _ => da_present par i end = Some (da_pres par i)).
    { destruct (bmp par) eqn:Eb; [unfold da_pres; rewrite Eb; reflexivity|]. apply da_present_ok; [exact Hv|lia]. }
    rewrite Epr. cbn [bind]. pose proof (Hm i (S i) ltac:(lia)) as Hii. pose proof (split_le s p m (S i) Hs ltac:(lia)) as Hle.
    assert (Hrow : forall c, nth i s 0 <= c < nth (S i) s 0 -> nth c (expand l m) None = da_elem par i).
    { intros c Hc. rewrite expand_nth, (Hq i c) by lia. symmetry. apply He. exact Hip. }
    destruct (rd_lt (vals par) i) as [x Ex]; [unfold da_size in Hsz; lia|].
    assert (Hel : da_elem par i = if da_pres par i then Some x else None) by (unfold da_elem; rewrite Ex; reflexivity).
    destruct (da_pres par i) eqn:Epres.
    + rewrite !rd_zs by lia. cbn [bind]. rewrite Ex. cbn [bind]. unfold fillz.
      replace (i + 1) with (S i) by lia.
      match goal with |- context [if ?b then fill _ _ _ _ else None] => replace b with true by lia end. rewrite !Nat2Z.id.
      replace (Z.to_nat (Z.of_nat (nth (S i) s 0) - Z.of_nat (nth i s 0))) with (nth (S i) s 0 - nth i s 0) by lia.
      destruct (fill_ok (nth (S i) s 0 - nth i s 0) vs (nth i s 0) x) as (vs' & E1 & L1 & R1); [lia|].
      rewrite E1. cbn [bind].
      assert (Hvs' : forall c y, c < nth (S i) s 0 -> nth c (expand l m) None = Some y -> rd vs' c = Some y).
      { intros c y Hc Hy. rewrite R1. destruct (Nat.le_gt_cases (nth i s 0) c) as [L|L].
        - replace ((nth i s 0 <=? c) && (c <? nth i s 0 + (nth (S i) s 0 - nth i s 0))) with true by lia.
          rewrite Hrow, Hel in Hy by lia. exact Hy.
        - replace (nth i s 0 <=? c) with false by lia. cbn [andb]. apply Hvs; [lia|exact Hy]. }
      destruct (bmp par) as [|w0 wt] eqn:Eb.
      * cbn [bind]. apply IH; try lia; auto; intros K; congruence.
      * destruct Hb as [Lb Fb]; [congruence|]. specialize (Hbt ltac:(congruence)). pose proof (bitmap_size_ge (length m)).
        destruct (set_bits_in_range_ok W H32 bits (nth i s 0) (nth (S i) s 0)) as (bits' & E2 & L2 & R2); [lia|lia|].
        rewrite E2. cbn [bind]. apply IH; [lia|lia|congruence| |exact Hvs'|].
        -- intros _. split; [lia|]. eapply set_bits_wok; eassumption.
        -- intros _ c Hc. unfold bit. rewrite R2. specialize (Hbt c Hc). unfold bit in Hbt.
           destruct (Nat.le_gt_cases (nth i s 0) c) as [L|L].
           ++ replace (nth i s 0 <=? c) with true by lia. cbn [andb]. destruct (Nat.ltb_spec c (nth (S i) s 0)).
              ** rewrite Hrow, Hel by lia. reflexivity.
              ** rewrite Hbt. replace (c <? nth i s 0) with false by lia. reflexivity.
           ++ replace (nth i s 0 <=? c) with false by lia. cbn [andb]. rewrite Hbt.
              replace (c <? nth i s 0) with true by lia. replace (c <? nth (S i) s 0) with true by lia. reflexivity.
    + assert (Enb : bmp par <> []) by (intros K; unfold da_pres in Epres; rewrite K in Epres; discriminate).
      apply IH; [lia|exact Hlv|exact Hnb|exact Hb| |].
      * intros c y Hc Hy. destruct (Nat.le_gt_cases (nth i s 0) c) as [L|L]; [|apply Hvs; [lia|exact Hy]].
        rewrite Hrow, Hel in Hy by lia. discriminate.
      * intros _ c Hc. rewrite Hbt by assumption. destruct (Nat.le_gt_cases (nth i s 0) c) as [L|L].
        -- replace (c <? nth i s 0) with false by lia. destruct (Nat.ltb_spec c (nth (S i) s 0)); [|reflexivity].
           rewrite Hrow, Hel by lia. reflexivity.
        -- replace (c <? nth i s 0) with true by lia. replace (c <? nth (S i) s 0) with true by lia. reflexivity.
Qed.

Lemma expand_fold_ok (par : darr A) l m : represents par l -> (forall c q, nth c m None = Some q -> q < length l) ->
  forall ms r k vs af missed,
  map (fun c : nat * bool * Z => (fst (fst c), if snd (fst c) then Some (snd c) else None)) r = combine (seq k (length ms)) (map zopt ms) ->
  skipn k m = ms -> k + length ms = length m -> length vs = length m -> af_inv (length m) af missed -> af_wok af ->
  (forall c x, c < k -> nth c (expand l m) None = Some x -> rd vs c = Some x) ->
  (forall c, existsb (Nat.eqb c) missed = (c <? k) && negb (is_some (nth c (expand l m) None))) ->
  exists vs' af' missed', fold_opt (expand_step par) r (vs, af) = Some (vs', af') /\ length vs' = length m /\
    af_inv (length m) af' missed' /\ af_wok af' /\
    (forall c x, c < length m -> nth c (expand l m) None = Some x -> rd vs' c = Some x) /\
    (forall c, existsb (Nat.eqb c) missed' = (c <? length m) && negb (is_some (nth c (expand l m) None))).
Proof.
  intros R Hrng. destruct (proj1 (represents_elem par l) R) as (Hv & Hsz & He).
  induction ms as [|o ms IH]; intros r k vs af missed Hr Hsk Hk Hlv Haf Hw Hvs Hmi.
  - destruct r; [|discriminate]. cbn [length] in Hk. replace k with (length m) in * by lia.
    exists vs, af, missed. cbn [fold_opt]. repeat split; auto; apply Haf.
  - destruct r as [|[[c pr] z] r]; [discriminate|]. cbn [length seq combine map fst snd] in Hr. cbn [length] in Hk.
    assert (Hc : c = k) by congruence. assert (Ho : (if pr then Some z else None) = zopt o) by congruence.
    assert (Hr' : map (fun c : nat * bool * Z => (fst (fst c), if snd (fst c) then Some (snd c) else None)) r = combine (seq (S k) (length ms)) (map zopt ms)) by congruence.
    clear Hr. subst c.
    assert (Hnk : nth k m None = o).
    { replace o with (nth 0 (o :: ms) None) by reflexivity. rewrite <- Hsk, skipn_nth, Nat.add_0_r. reflexivity. }
    assert (Hsk' : skipn (S k) m = ms).
    { eapply skipn_cons_S, Hsk. }
    assert (Hek : nth k (expand l m) None = match o with Some q => nth q l None | None => None end) by (rewrite expand_nth, Hnk; reflexivity).
    cbn [fold_opt]. unfold expand_step at 1.
    assert (Eok : exists ok, (if pr then if (z <? 0)%Z then None else da_present par (Z.to_nat z) else Some false) = Some ok /\
      ok = is_some (nth k (expand l m) None) /\ (ok = true -> exists q, o = Some q /\ z = Z.of_nat q /\ q < length l)).
    { rewrite Hek. destruct pr.
      - destruct o as [q|]; [|discriminate]. unfold zopt, option_map in Ho. assert (z = Z.of_nat q) by congruence. subst z.
        replace (Z.of_nat q <? 0)%Z with false by lia. rewrite Nat2Z.id. specialize (Hrng k q Hnk).
        rewrite da_present_ok by (assumption || lia). exists (da_pres par q). split; [reflexivity|]. split; [|intros _; exists q; auto].
        rewrite <- He by exact Hrng. unfold da_elem. destruct (rd_lt (vals par) q) as [x ->]; [unfold da_size in Hsz; lia|].
        destruct (da_pres par q); reflexivity.
      - exists false. destruct o; [discriminate|]. repeat split; auto. discriminate. }
    destruct Eok as (ok & -> & Hok & Hq). cbn [bind]. destruct ok.
    + destruct (Hq eq_refl) as (q & -> & -> & Hql). unfold rdz. replace (Z.of_nat q <? 0)%Z with false by lia. rewrite Nat2Z.id.
      destruct (rd_lt (vals par) q) as [x Ex]; [unfold da_size in Hsz; lia|]. rewrite Ex. cbn [bind].
      destruct (upd_lt vs k x) as [vs1 E1]; [lia|]. rewrite E1. cbn [bind]. apply upd_spec in E1 as (_ & L1 & R1).
      apply (IH r (S k) vs1 af missed Hr' Hsk'); [lia|lia|exact Haf|exact Hw| |].
      * intros c y Hc Hy. rewrite R1. destruct (Nat.eqb_spec c k) as [->|N]; [|apply Hvs; [lia|exact Hy]].
        rewrite Hek in Hy. rewrite <- He in Hy by exact Hql. unfold da_elem in Hy. rewrite Ex in Hy.
        destruct (da_pres par q); congruence.
      * intros c. rewrite Hmi. destruct (Nat.eq_dec c k) as [->|N].
        -- replace (k <? k) with false by lia. replace (k <? S k) with true by lia. rewrite <- Hok. reflexivity.
        -- replace (c <? S k) with (c <? k) by lia. reflexivity.
    + destruct (af_add_ok (length m) af missed k Haf ltac:(lia)) as (af1 & E1 & I1). rewrite E1. cbn [bind].
      apply (IH r (S k) vs af1 (missed ++ [k]) Hr' Hsk'); [lia|exact Hlv|exact I1|eapply af_add_wok; eassumption| |].
      * intros c y Hc Hy. destruct (Nat.eq_dec c k) as [->|N]; [|apply Hvs; [lia|exact Hy]].
        rewrite Hy in Hok. discriminate.
      * intros c. rewrite existsb_app, Hmi. cbn [existsb]. rewrite orb_false_r. destruct (Nat.eqb_spec c k) as [->|N].
        -- replace (k <? k) with false by lia. replace (k <? S k) with true by lia. rewrite <- Hok. reflexivity.
        -- replace (c <? S k) with (c <? k) by lia. rewrite orb_false_r. reflexivity.
Qed.

Lemma expand_rep (vs : list A) bits (x : list (option A)) : length vs = length x -> Forall (wok W) bits ->
  (bits = [] \/ length bits = bitmap_size (length x)) ->
  (forall c y, c < length x -> nth c x None = Some y -> rd vs c = Some y) ->
  (forall c, c < length x -> match bits with [] => true | _ => bt bits c end = is_some (nth c x None)) ->
  represents (mkD vs bits 0) x.
Proof.
  intros Hl Hw Hb Hv Hbt. apply represents_elem. split; [|split; [exact Hl|]].
  - split; [cbn; lia|]. split; [apply wok_words, Hw|]. cbn [bmp vals boff]. rewrite Hl, Nat.add_0_r. exact Hb.
  - intros c Hc. unfold da_elem, da_pres. cbn [vals bmp boff]. rewrite Nat.add_0_r, Hbt by exact Hc.
    destruct (nth c x None) as [y|] eqn:E; cbn [is_some].
    + rewrite (Hv c y Hc E). reflexivity.
    + destruct (rd vs c); reflexivity.
Qed.

Lemma op_expand_ok mem (par : darr A) l e p m : (forall n, length (mem n) = n) -> represents par l -> edge_rep e p m ->
  (p = length l -> exists r, op_expand mem par e = Some (inr r) /\ represents r (expand l m)) /\
  (p <> length l -> op_expand mem par e = Some (inl ParentMismatch)).
Proof.
  intros Hmem R Hr. assert (Hsz : da_size par = length l) by apply R. unfold op_expand. split.
  2:{ intros Hp. assert (Hep : e_parent e = Z.of_nat p) by apply Hr. rewrite Hep, Hsz.
      replace (Z.of_nat p =? Z.of_nat (length l))%Z with false by lia. reflexivity. }
  intros Hp. assert (Hep : e_parent e = Z.of_nat p) by apply Hr. rewrite Hep, Hsz.
  replace (Z.of_nat p =? Z.of_nat (length l))%Z with true by lia. cbn [negb].
  destruct (e_split e) eqn:Es.
  - apply edge_rep_split in Hr as (_ & _ & s & Hs & Rs); [|exact Es]. rewrite (rep_full_vals _ _ Rs).
    assert (Hn : s <> []) by apply Hs. rewrite back_zs by exact Hn. cbn [bind].
    assert (Hls : length s = S p) by apply Hs. assert (Hlast : nth p s 0 = length m) by apply Hs.
    replace (length s - 1) with p by lia. rewrite Hlast, Nat2Z.id.
    unfold guard. replace (0 <=? Z.of_nat (length m))%Z with true by lia. cbn [bind].
    set (bits := match bmp par with [] => [] | _ => _ end).
    destruct (expand_loop_ok par l s p m R Hs Hp (length l) 0 (mem (length m)) bits) as (vs' & bits' & E & L & B1 & B2 & V & T);
      [lia|apply Hmem|intros Hb; unfold bits; rewrite Hb; reflexivity| | | |].
    + intros Hb. unfold bits. destruct (bmp par); [congruence|]. split; [apply repeat_length|apply wok_zeros].
    + intros c x Hc. assert (Z0 : nth 0 s 0 = 0) by apply Hs. lia.
    + intros Hb c Hc. assert (Z0 : nth 0 s 0 = 0) by apply Hs. rewrite Z0. replace (c <? 0) with false by lia. cbn [andb].
      unfold bits. destruct (bmp par); [congruence|]. apply bt_zeros.
    + rewrite E. cbn [bind fst snd]. eexists. split; [reflexivity|]. rewrite Hlast in V, T.
      apply expand_rep; rewrite ?expand_len; auto.
      * destruct (bmp par) as [|w0 wt] eqn:Eb; [rewrite B1 by reflexivity; constructor|apply B2; congruence].
      * destruct (bmp par) as [|w0 wt] eqn:Eb; [left; rewrite B1 by reflexivity; reflexivity|right; apply B2; congruence].
      * intros c Hc. destruct (bmp par) as [|w0 wt] eqn:Eb.
        -- rewrite B1 by reflexivity. rewrite expand_nth.
           destruct (split_parent s p m c Hs Hc) as (q & Hq & _ & ->).
           destruct (proj1 (represents_elem par l) R) as (Hv & _ & He). rewrite <- He by lia.
           unfold da_elem, da_pres. rewrite Eb. destruct (rd_lt (vals par) q) as [x ->]; [unfold da_size in Hsz; lia|reflexivity].
        -- destruct B2 as [B2 _]; [congruence|]. rewrite T by (congruence || exact Hc). replace (c <? length m) with true by lia. cbn [andb].
           pose proof (bitmap_size_ge (length m)). destruct bits'; [cbn [length] in B2; lia|]. reflexivity.
  - apply edge_rep_mapping in Hr as (_ & Hec & Hrng & Rm); [|exact Es]. rewrite Hec, Nat2Z.id.
    unfold guard. replace (0 <=? Z.of_nat (length m))%Z with true by lia. cbn [bind].
    destruct (rep_for_each _ _ Rm) as (r & Er & Mr). rewrite Er. cbn [bind]. rewrite map_length in Mr. subst p.
    destruct (expand_fold_ok par l m R Hrng m r 0 (mem (length m)) (af_init (length m)) [] Mr)
      as (vs' & af & missed & E & L & I & Wk & V & T); try reflexivity; [apply Hmem|apply af_fresh|intros; lia|].
    rewrite E. cbn [bind fst snd]. destruct I as [An Ab]. unfold af_build, af_span, span_list, span_words.
    unfold af_wok in Wk. destruct (af_buf af) as [ws|] eqn:Eaf.
    + destruct Ab as (Lw & Hne & G). cbn [sp_len sp_mem]. replace (length ws <=? length ws) with true by lia. cbn [bind].
      rewrite firstn_all. eexists. split; [reflexivity|]. apply expand_rep; rewrite ?expand_len; auto.
      intros c Hc. pose proof (bitmap_size_ge (length m)). destruct ws as [|w0 wt] eqn:Ew; [cbn [length] in Lw; lia|]. rewrite <- Ew in *.
      specialize (G c Hc). rewrite T in G. replace (c <? length m) with true in G by lia. cbn [andb] in G. rewrite negb_involutive in G.
      unfold bit, get_bit in *. unfold gb in G. rewrite G. reflexivity.
    + cbn [null_span sp_len sp_mem]. change (0 <=? length (@nil N)) with true. cbn [bind firstn]. eexists. split; [reflexivity|].
      apply expand_rep; rewrite ?expand_len; auto. intros c Hc. specialize (T c). subst missed. cbn [existsb] in T.
      replace (c <? length m) with true in T by lia. cbn [andb] in T. destruct (is_some _); [reflexivity|discriminate].
Qed.
Lemma op_expand_scalar_ok mem (x : option A) n : (forall k, length (mem k) = k) ->
  represents (op_expand_scalar mem x n) (repeat x n).
Proof.
  intros Hm. unfold op_expand_scalar. destruct x as [v|]; [apply rep_const|]. rewrite <- (Hm n) at 2. apply rep_empty.
Qed.
End X.
