(** Proofs about jagged shapes. *)
From Verif Require Import Base Bits_Model Bitmap_Model Dense_Model Dense_Spec Dense_Proofs Edge_Model Edge_Spec Edge_Proofs
  Jag_Model Jag_Spec.

(** ** Row sizes and split points *)
Lemma rows_app q s t : rows_of q (s ++ t) = rows_of q s ++ rows_of (q + length s) t.
Proof.
  revert q; induction s as [|n s IH]; intros q; cbn [rows_of app length]; [f_equal; lia|].
  rewrite IH, <- app_assoc. do 2 f_equal. f_equal. lia.
Qed.
Lemma sum_app s t : list_sum (s ++ t) = list_sum s + list_sum t.
Proof. apply list_sum_app. Qed.
Lemma sum_cons n s : list_sum (n :: s) = n + list_sum s. Proof. reflexivity. Qed.
Lemma rows_len q s : length (rows_of q s) = list_sum s.
Proof.
  revert q; induction s as [|n s IH]; intros q; [reflexivity|]. cbn [rows_of]. rewrite app_length, repeat_length, IH, sum_cons. reflexivity.
Qed.
Lemma rows_range q s c p : nth c (rows_of q s) None = Some p -> q <= p < q + length s.
Proof.
  revert q c; induction s as [|n s IH]; intros q c H; cbn [rows_of] in H; [destruct c; discriminate|].
  cbn [length]. destruct (Nat.lt_ge_cases c n) as [L|L].
  - rewrite app_nth1 in H by (rewrite repeat_length; exact L). rewrite repeat_nth in H by exact L. assert (q = p) by congruence. lia.
  - rewrite app_nth2 in H by (rewrite repeat_length; exact L). apply IH in H. lia.
Qed.
Lemma rows_nth q s i c : i < length s -> list_sum (firstn i s) <= c < list_sum (firstn (S i) s) -> nth c (rows_of q s) None = Some (q + i).
Proof.
  revert q i c; induction s as [|n s IH]; intros q i c Hi Hc; [cbn in Hi; lia|]. cbn [rows_of].
  destruct i as [|i].
  - cbn [firstn] in Hc. rewrite sum_cons in Hc. change (list_sum (firstn 0 s)) with 0 in Hc. change (list_sum []) with 0 in Hc.
    rewrite app_nth1 by (rewrite repeat_length; lia). rewrite repeat_nth by lia. f_equal. lia.
  - cbn [firstn] in Hc. rewrite sum_cons in Hc. change (match s with [] => [] | x :: l => x :: firstn i l end) with (firstn (S i) s) in Hc.
    rewrite sum_cons in Hc. rewrite app_nth2, repeat_length by (rewrite repeat_length; lia).
    rewrite (IH (S q) i); [f_equal; lia|cbn [length] in Hi; lia|lia].
Qed.

Definition psums (s : list nat) : list nat := map (fun t => list_sum (firstn t s)) (seq 0 (S (length s))).
Lemma psums_len s : length (psums s) = S (length s).
Proof. unfold psums. rewrite map_length, seq_length. reflexivity. Qed.
Lemma psums_nth s i : i <= length s -> nth i (psums s) 0 = list_sum (firstn i s).
Proof. intros H. unfold psums. rewrite (nth_seq_map (fun t => list_sum (firstn t s))) by lia. reflexivity. Qed.
Lemma firstn_sum_mono s i j : i <= j -> list_sum (firstn i s) <= list_sum (firstn j s).
Proof.
  intros H. replace (firstn i s) with (firstn i (firstn j s)) by (rewrite firstn_firstn; f_equal; lia).
  rewrite <- (firstn_skipn i (firstn j s)) at 2. rewrite sum_app. lia.
Qed.
Lemma psums_split s : split_of (psums s) (length s) (rows_of 0 s).
Proof.
  unfold split_of, splits. rewrite psums_len. split; [split; [|split]|split; [|split]].
  - intros E. apply (f_equal (@length nat)) in E. rewrite psums_len in E. discriminate.
  - rewrite psums_nth by lia. reflexivity.
  - intros i j H. rewrite !psums_nth by lia. apply firstn_sum_mono. lia.
  - reflexivity.
  - rewrite psums_nth, rows_len by lia. rewrite firstn_all. reflexivity.
  - intros q c Hq Hc. rewrite !psums_nth in Hc by lia. apply (rows_nth 0 s q c Hq Hc).
Qed.
Lemma firstn_S_sum s i : i < length s -> list_sum (firstn (S i) s) = list_sum (firstn i s) + nth i s 0.
Proof.
  revert i; induction s as [|n s IH]; intros i H; [cbn in H; lia|]. destruct i as [|i]; [cbn; lia|].
  cbn [length] in H. cbn [nth]. change (firstn (S (S i)) (n :: s)) with (n :: firstn (S i) s). change (firstn (S i) (n :: s)) with (n :: firstn i s).
  rewrite !sum_cons, IH by lia. lia.
Qed.
Lemma dim_facts e s : dim_rep e s -> e_split e = true /\ e_parent e = Z.of_nat (length s) /\ e_child e = Z.of_nat (list_sum s) /\
  vals (e_vals e) = zs (psums s).
Proof.
  intros [Es R]. split; [exact Es|]. split; [apply R|]. split; [rewrite <- (rows_len 0 s); apply R|].
  apply edge_rep_split in R as (_ & _ & t & Ht & Rv); [|exact Es]. rewrite (rep_full_vals _ _ Rv). f_equal.
  exact (split_unique_s _ _ _ _ Ht (psums_split s)).
Qed.
Lemma dim_split_size e s i : dim_rep e s -> i < length s -> split_size e i = Some (Z.of_nat (nth i s 0)).
Proof.
  intros R Hi. destruct (dim_facts e s R) as (_ & _ & _ & V). unfold split_size. rewrite V, !rd_zs by (rewrite psums_len; lia).
  cbn [bind]. rewrite !psums_nth by lia. rewrite ?Nat.add_1_r. rewrite firstn_S_sum by exact Hi. f_equal. lia.
Qed.
Lemma rows_children q s i : children (rows_of q s) (q + i) = nth i s 0.
Proof.
  revert q i; induction s as [|n s IH]; intros q i; [destruct i; reflexivity|]. unfold children in *. cbn [rows_of].
  rewrite filter_app, app_length.
  assert (F : forall p k, length (filter (fun o => match o with Some r => r =? p | None => false end) (repeat (Some q) k)) = if q =? p then k else 0).
  { clear. intros p k. induction k as [|k IH]; cbn [repeat filter]; [destruct (q =? p); reflexivity|].
    destruct (q =? p) eqn:E; cbn [length]; lia. }
  rewrite F. destruct i as [|i].
  - replace (q =? q + 0) with true by lia. cbn [nth].
    enough (H : filter (fun o => match o with Some r => r =? q + 0 | None => false end) (rows_of (S q) s) = []) by (rewrite H; cbn [length]; apply Nat.add_0_r).
    destruct (filter _ (rows_of (S q) s)) as [|o l] eqn:E; [reflexivity|].
    assert (Hin : In o (o :: l)) by (left; reflexivity). rewrite <- E in Hin. apply filter_In in Hin as [Hin Ho].
    destruct o as [r|]; [|discriminate]. apply (In_nth _ _ None) in Hin as (c & _ & Hc). apply rows_range in Hc. lia.
  - replace (q =? q + S i) with false by lia. cbn [nth]. rewrite <- (IH (S q) i), Nat.add_succ_comm. reflexivity.
Qed.
Lemma rows_inj s t : length s = length t -> rows_of 0 s = rows_of 0 t -> s = t.
Proof.
  intros L E. apply nat_list_eq; [exact L|]. intros i _. rewrite <- (rows_children 0 s i), <- (rows_children 0 t i), E. reflexivity.
Qed.
Lemma rows_flat_map q s : rows_of q s = flat_map (fun i => repeat (Some (q + i)) (nth i s 0)) (seq 0 (length s)).
Proof.
  revert q; induction s as [|n s IH]; intros q; [reflexivity|]. cbn [rows_of length seq flat_map nth]. f_equal; [repeat f_equal; lia|].
  rewrite IH, <- seq_shift, flat_map_concat_map, flat_map_concat_map, map_map. f_equal. apply map_ext. intros i. cbn [nth]. f_equal. f_equal. lia.
Qed.
Lemma split_rows s p m : split_of s p m -> exists sz, length sz = p /\ m = rows_of 0 sz.
Proof.
  intros H. assert (L : length s = S p) by apply H.
  exists (map (fun q => nth (S q) s 0 - nth q s 0) (seq 0 p)). split; [rewrite map_length, seq_length; reflexivity|].
  assert (H' : split_of s p (split_mapping s)). { replace p with (length s - 1) by lia. apply split_mapping_ok, H. }
  rewrite (split_unique_m _ _ _ _ H H'). rewrite rows_flat_map, map_length, seq_length. unfold split_mapping.
  replace (length s - 1) with p by lia. rewrite !flat_map_concat_map. f_equal. apply map_ext_in. intros q Hq. apply in_seq in Hq.
  rewrite (nth_seq_map (fun q => nth (S q) s 0 - nth q s 0)) by lia. reflexivity.
Qed.
Lemma sizes_rows s : sizes_of (length s, rows_of 0 s) = s.
Proof.
  unfold sizes_of. cbn [fst snd]. apply nat_list_eq; [rewrite map_length, seq_length; reflexivity|].
  intros i Hi. rewrite map_length, seq_length in Hi. rewrite (nth_seq_map (children (rows_of 0 s))) by exact Hi. apply (rows_children 0 s i).
Qed.
(** A split edge with any mapping is described by its sizes. *)
Lemma split_dim e p m : e_split e = true -> edge_rep e p m -> dim_rep e (sizes_of (p, m)) /\ list_sum (sizes_of (p, m)) = length m /\ length (sizes_of (p, m)) = p.
Proof.
  intros Es R. assert (R' := R). apply edge_rep_split in R' as (_ & _ & s & Hs & _); [|exact Es].
  destruct (split_rows s p m Hs) as (sz & L & ->). subst p. rewrite sizes_rows. split; [split; assumption|]. rewrite rows_len. tauto.
Qed.

(** ** C35 *)
Lemma from_loop_ok alloc : alloc_ok alloc -> forall es pms c, Forall2 (fun e pm => edge_rep e (fst pm) (snd pm)) es pms ->
  (chain_ok c pms -> exists s, from_loop alloc (Z.of_nat c) es = Some (inr s) /\
     Forall2 dim_rep s (map sizes_of pms) /\ sizes_ok c (map sizes_of pms)) /\
  (~ chain_ok c pms -> exists err, from_loop alloc (Z.of_nat c) es = Some (inl err)).
Proof.
  intros Ha. induction es as [|e es IH]; intros pms c F; inversion F as [|? [p m] ? pms' R F']; subst; cbn [from_loop map chain_ok].
  - split; [intros _; exists []; cbn; auto|intros H; exfalso; apply H; exact I].
  - cbn [fst snd] in R. assert (Hp : e_parent e = Z.of_nat p) by apply R. rewrite Hp.
    destruct (Z.eqb_spec (Z.of_nat p) (Z.of_nat c)) as [E|E]; cbn [negb].
    2: { split; [intros (-> & _); congruence|]. intros _. eexists. reflexivity. }
    assert (p = c) by lia. subst p.
    destruct (full_sorted_dec m) as [Fs|Fs].
    + assert (exists e', (if e_split e then Some (inr e) else to_split_points alloc e) = Some (inr e') /\ e_split e' = true /\ edge_rep e' c m) as (e' & E' & S' & R').
      { destruct (e_split e) eqn:Es; [exists e; auto|]. apply (to_split_ok alloc e c m Ha R); exact Fs. }
      rewrite E'. cbn [bind]. destruct (split_dim e' c m S' R') as (D & Sm & L).
      assert (Hc : e_child e' = Z.of_nat (length m)) by apply R'. rewrite Hc.
      destruct (IH pms' (length m) F') as [I1 I2]. split.
      * intros (_ & _ & H). destruct (I1 H) as (s & Es & Fr & So). exists (e' :: s). rewrite Es. split; [reflexivity|].
        split; [constructor; assumption|]. cbn [sizes_ok]. rewrite Sm. auto.
      * intros H. destruct I2 as (err & Ee); [intros H'; apply H; auto|]. rewrite Ee. eexists. reflexivity.
    + split; [intros (_ & H & _); contradiction|]. intros _.
      destruct (e_split e) eqn:Es.
      * exfalso. apply Fs. apply edge_rep_split in R as (_ & _ & t & Ht & _); [|exact Es]. exact (split_full_sorted _ _ _ Ht).
      * destruct (proj2 (to_split_ok alloc e c m Ha R) Fs) as (err & Ee). rewrite Ee. eexists. reflexivity.
Qed.
Lemma from_edges_ok alloc es pms : alloc_ok alloc -> Forall2 (fun e pm => edge_rep e (fst pm) (snd pm)) es pms ->
  (chain_ok 1 pms -> exists s, from_edges alloc es = Some (inr s) /\ shape_rep s (map sizes_of pms)) /\
  (~ chain_ok 1 pms -> exists err, from_edges alloc es = Some (inl err)).
Proof. intros Ha F. exact (from_loop_ok alloc Ha es pms 1 F). Qed.

(** Split edges with chained sizes are returned unchanged. *)
Lemma from_loop_split alloc es szs c : Forall2 dim_rep es szs -> sizes_ok c szs -> from_loop alloc (Z.of_nat c) es = Some (inr es).
Proof.
  intros F. revert c. induction F as [|e s es szs D F IH]; intros c S; [reflexivity|]. destruct S as [L S]. cbn [from_loop].
  destruct (dim_facts e s D) as (Es & Hp & Hc & _). rewrite Hp, L, Z.eqb_refl. cbn [negb]. rewrite Es. cbn [bind].
  rewrite Hc, (IH _ S). reflexivity.
Qed.

Lemma total_app p a b : total p (a ++ b) = total (total p a) b.
Proof. revert p; induction a as [|s a IH]; intros p; [reflexivity|]. apply IH. Qed.
Lemma sizes_ok_app p a b : sizes_ok p (a ++ b) <-> sizes_ok p a /\ sizes_ok (total p a) b.
Proof. revert p; induction a as [|s a IH]; intros p; cbn [app sizes_ok total]; [tauto|]. rewrite IH. tauto. Qed.
Lemma F2_len {X Y} (R : X -> Y -> Prop) a b : Forall2 R a b -> length a = length b.
Proof. induction 1; cbn; congruence. Qed.
Lemma F2_firstn {X Y} (R : X -> Y -> Prop) n a b : Forall2 R a b -> Forall2 R (firstn n a) (firstn n b).
Proof. intros F. revert n. induction F; intros [|n]; cbn [firstn]; constructor; auto. Qed.
Lemma F2_skipn {X Y} (R : X -> Y -> Prop) n a b : Forall2 R a b -> Forall2 R (skipn n a) (skipn n b).
Proof. intros F. revert n. induction F; intros [|n]; cbn [skipn]; try constructor; auto. Qed.
Lemma F2_rev {X Y} (R : X -> Y -> Prop) a b : Forall2 R a b -> Forall2 R (rev a) (rev b).
Proof. induction 1; cbn [rev]; [constructor|]. apply Forall2_app; [assumption|]. constructor; auto. Qed.

Lemma back_child_ok es szs : Forall2 dim_rep es szs -> back_child es = Z.of_nat (total 1 szs).
Proof.
  intros F. unfold back_child. destruct es as [|e es] using rev_ind; [inversion F; reflexivity|]. clear IHes.
  rewrite rev_app_distr. cbn [rev app]. apply Forall2_app_inv_l in F as (a & b & Fa & Fb & ->).
  inversion Fb as [|? s ? ? D N]; subst. inversion N; subst. rewrite total_app. cbn [total]. apply (dim_facts e s D).
Qed.
Lemma sh_size_ok s szs : shape_rep s szs -> sh_size s = Z.of_nat (total 1 szs).
Proof. intros [F _]. apply (back_child_ok s szs F). Qed.

Lemma group_sums_len s l : length (group_sums s l) = length s.
Proof. revert l; induction s as [|n s IH]; intros l; cbn [group_sums length]; [reflexivity|]. rewrite IH. reflexivity. Qed.
Lemma group_sums_sum s l : list_sum s = length l -> list_sum (group_sums s l) = list_sum l.
Proof.
  revert l; induction s as [|n s IH]; intros l H; cbn [group_sums].
  - destruct l; [reflexivity|discriminate].
  - rewrite sum_cons in *. rewrite IH by (rewrite skipn_length; lia). rewrite <- sum_app, firstn_skipn. reflexivity.
Qed.
Lemma flat_len p szs : sizes_ok p szs -> length (flat p szs) = p.
Proof. destruct szs as [|s t]; cbn [flat sizes_ok]; intros H; [apply repeat_length|]. rewrite group_sums_len. apply H. Qed.
Lemma sum_repeat1 p : list_sum (repeat 1 p) = p.
Proof. induction p as [|p IH]; [reflexivity|]. cbn [repeat]. rewrite sum_cons, IH. reflexivity. Qed.
Lemma flat_sum p szs : sizes_ok p szs -> list_sum (flat p szs) = total p szs.
Proof.
  revert p; induction szs as [|s t IH]; intros p; cbn [flat sizes_ok total]; intros H; [apply sum_repeat1|].
  rewrite group_sums_sum; [apply IH, H|]. rewrite flat_len by apply H. reflexivity.
Qed.
Lemma nth_map_some (f : option nat -> option nat) l c : f None = None -> nth c (map f l) None = f (nth c l None).
Proof. intros H. rewrite <- H at 1. apply map_nth. Qed.
Lemma compose_rows m1 s : forall t a b, (forall i, i < list_sum s -> nth (a + i) m1 None = nth i (rows_of b s) None) -> length t = list_sum s ->
  compose2 m1 (rows_of a t) = rows_of b (group_sums s t).
Proof.
  induction s as [|n s IH]; intros t a b H L.
  - destruct t; [reflexivity|discriminate].
  - cbn [group_sums rows_of]. rewrite sum_cons in *.
    rewrite <- (firstn_skipn n t) at 1. rewrite rows_app. unfold compose2. rewrite map_app.
    assert (L1 : length (firstn n t) = n) by (rewrite firstn_length; lia). rewrite L1. f_equal.
    + apply (nth_ext _ _ None None); [rewrite map_length, rows_len, repeat_length; reflexivity|]. intros c Hc. rewrite map_length, rows_len in Hc.
      rewrite nth_map_some by reflexivity. rewrite repeat_nth by exact Hc.
      destruct (split_parent _ _ _ c (psums_split (firstn n t))) as (q & Hq & Hr & _).
      { rewrite rows_len. exact Hc. }
      rewrite !psums_nth in Hr by lia. rewrite (rows_nth a (firstn n t) q c Hq Hr). rewrite H by lia. cbn [rows_of].
      rewrite app_nth1 by (rewrite repeat_length; lia). apply repeat_nth. lia.
    + apply (IH (skipn n t) (a + n) (S b)); [|rewrite skipn_length; lia].
      intros i Hi. rewrite <- Nat.add_assoc, H by lia. cbn [rows_of]. rewrite app_nth2, repeat_length by (rewrite repeat_length; lia).
      f_equal. lia.
Qed.
Lemma group_sums_one s : group_sums s (repeat 1 (list_sum s)) = s.
Proof.
  induction s as [|n s IH]; [reflexivity|]. cbn [group_sums]. rewrite sum_cons.
  rewrite repeat_app, firstn_app, skipn_app, repeat_length, Nat.sub_diag. cbn [firstn skipn].
  rewrite firstn_all2, skipn_all2 by (rewrite repeat_length; lia). rewrite app_nil_r. cbn [app]. rewrite sum_repeat1, IH. reflexivity.
Qed.
Lemma flat_one p s : sizes_ok p [s] -> flat p [s] = s.
Proof. intros _. cbn [flat]. apply group_sums_one. Qed.
Lemma chain_of es szs p : es <> [] -> Forall2 dim_rep es szs -> sizes_ok p szs -> chain_rep es p (rows_of 0 (flat p szs)).
Proof.
  intros Hn F. revert p Hn. induction F as [|e s es szs D F IH]; intros p Hn So; [congruence|]. destruct So as [L So]. subst p.
  destruct F as [|e2 s2 es' szs' D2 F'].
  - rewrite flat_one by (cbn; auto). constructor. apply D.
  - set (rest := e2 :: es') in *. set (srest := s2 :: szs') in *.
    change (flat (length s) (s :: srest)) with (group_sums s (flat (list_sum s) srest)).
    rewrite <- (compose_rows (rows_of 0 s) s _ 0 0); [|reflexivity|apply flat_len, So].
    constructor; [apply D|]. rewrite rows_len. apply IH; [discriminate|exact So].
Qed.
Lemma compose_dim alloc es szs p : alloc_ok alloc -> es <> [] -> Forall2 dim_rep es szs -> sizes_ok p szs ->
  exists e, compose_edges alloc es = Some (inr e) /\ dim_rep e (flat p szs).
Proof.
  intros Ha Hn F So. destruct (compose_edges_ok alloc es p _ Ha (chain_of es szs p Hn F So)) as (e & E & R & S).
  exists e. split; [exact E|]. split.
  - rewrite S. apply forallb_forall. clear - F. induction F as [|x s es szs D F IH]; intros y [].
    + subst y. apply D. + apply IH. assumption.
  - rewrite flat_len by exact So. exact R.
Qed.
Lemma uniform_rows p g : rows_of 0 (repeat g p) = map (fun c => Some (c / g)) (seq 0 (p * g)).
Proof.
  assert (H := uniform_splits p g). assert (H' := psums_split (repeat g p)). rewrite repeat_length in H'.
  refine (split_unique_m _ _ _ _ H' _). replace (psums (repeat g p)) with (map (fun i => i * g) (seq 0 (S p))); [exact H|].
  unfold psums. rewrite repeat_length. apply map_ext_in. intros t Ht. apply in_seq in Ht.
  assert (G : forall n k, list_sum (firstn k (repeat g n)) = Nat.min k n * g).
  { clear. induction n as [|n IH]; intros [|k]; try reflexivity. cbn [repeat firstn]. rewrite sum_cons, IH. cbn [Nat.min]. lia. }
  rewrite G. f_equal. lia.
Qed.
Lemma uniform_dim p g : (Z.of_nat p < 2 ^ 63 - 1)%Z -> (Z.of_nat p * Z.of_nat g < 2 ^ 63)%Z ->
  exists e, from_uniform_groups (Z.of_nat p) (Z.of_nat g) = Some (inr e) /\ dim_rep e (repeat g p).
Proof.
  intros H1 H2. destruct (proj2 (proj2 (from_uniform_ok (Z.of_nat p) (Z.of_nat g)))) as (e & E & S & R); [lia..|].
  exists e. split; [exact E|]. split; [exact S|]. rewrite !Nat2Z.id in R. rewrite repeat_length, uniform_rows. exact R.
Qed.

Lemma add_dims_ok alloc s szs es pms : alloc_ok alloc -> shape_rep s szs -> Forall2 (fun e pm => edge_rep e (fst pm) (snd pm)) es pms ->
  (chain_ok (total 1 szs) pms -> exists r, add_dims alloc s es = Some (inr r) /\ shape_rep r (szs ++ map sizes_of pms)) /\
  (~ chain_ok (total 1 szs) pms -> exists err, add_dims alloc s es = Some (inl err)).
Proof.
  intros Ha [F So] Fe. unfold add_dims.
  set (pm0 := map (fun s => (length s, rows_of 0 s)) szs).
  assert (F0 : Forall2 (fun e pm => edge_rep e (fst pm) (snd pm)) (s ++ es) (pm0 ++ pms)).
  { apply Forall2_app; [|exact Fe]. unfold pm0. clear - F. induction F as [|e x s szs D F IH]; constructor; [apply D|exact IH]. }
  assert (C : chain_ok 1 (pm0 ++ pms) <-> chain_ok (total 1 szs) pms).
  { unfold pm0. clear - So. revert So. generalize 1. induction szs as [|x szs IH]; intros c So; [reflexivity|].
    destruct So as [L So]. cbn [map app chain_ok total]. rewrite rows_len, IH by exact So. split; [tauto|].
    intros H. split; [exact L|]. split; [|exact H]. exact (split_full_sorted _ _ _ (psums_split x)). }
  assert (M : map sizes_of (pm0 ++ pms) = szs ++ map sizes_of pms).
  { rewrite map_app. f_equal. unfold pm0. rewrite map_map. rewrite <- (map_id szs) at 2. apply map_ext. intros x. apply sizes_rows. }
  destruct (from_edges_ok alloc (s ++ es) (pm0 ++ pms) Ha F0) as [H1 H2]. rewrite M in H1. rewrite C in H1, H2. split; assumption.
Qed.
Lemma flat_from_size_ok n : (Z.of_nat n < 2 ^ 63)%Z -> exists s, flat_from_size (Z.of_nat n) = Some s /\ shape_rep s [[n]].
Proof.
  intros H. unfold flat_from_size. destruct (uniform_dim 1 n) as (e & E & D); [lia..|].
  change (Z.of_nat 1) with 1%Z in E. rewrite E. cbn [get bind]. exists [e]. split; [reflexivity|].
  split; [constructor; [exact D|constructor]|]. cbn. auto.
Qed.
Lemma remove_dims_ok s szs from : shape_rep s szs -> from <= length szs ->
  exists r, remove_dims s from = Some r /\ shape_rep r (firstn from szs).
Proof.
  intros [F So] H. unfold remove_dims. rewrite (F2_len _ _ _ F). replace (from <=? length szs) with true by lia.
  eexists. split; [reflexivity|]. split; [apply F2_firstn, F|].
  rewrite <- (firstn_skipn from szs) in So. apply sizes_ok_app in So. apply So.
Qed.
Lemma flat_all p szs : sizes_ok p szs -> p = 1 -> flat p szs = [total p szs].
Proof.
  intros So ->. assert (L := flat_len 1 szs So). assert (S := flat_sum 1 szs So).
  destruct (flat 1 szs) as [|x [|y l]]; cbn in L; try lia. cbn in S. f_equal. lia.
Qed.
Lemma flatten_spec_ok szs from to : sizes_ok 1 szs -> from <= to <= length szs ->
  sizes_ok 1 (flatten_spec szs from to) /\ total 1 (flatten_spec szs from to) = total 1 szs /\ length (flatten_spec szs from to) + (to - from) = S (length szs).
Proof.
  intros So H. unfold flatten_spec.
  assert (E : szs = firstn from szs ++ firstn (to - from) (skipn from szs) ++ skipn to szs).
  { rewrite <- (firstn_skipn from szs) at 1. f_equal. rewrite <- (firstn_skipn (to - from) (skipn from szs)) at 1. f_equal.
    clear - H. revert to szs H. induction from as [|f IH]; intros to szs H; cbn [skipn]; [f_equal; lia|].
    destruct szs as [|x szs]; [destruct to; [reflexivity|cbn [length] in H; lia]|]. destruct to as [|to]; [lia|]. cbn [length] in H.
    cbn [skipn Nat.sub]. apply IH. lia. }
  set (a := firstn from szs) in *. set (b := firstn (to - from) (skipn from szs)) in *. set (c := skipn to szs) in *.
  assert (Lb : length b = to - from) by (unfold b; rewrite firstn_length, skipn_length; lia).
  rewrite E in So. apply sizes_ok_app in So as [Sa So]. apply sizes_ok_app in So as [Sb Sc].
  split; [|split].
  - apply sizes_ok_app. split; [exact Sa|]. cbn [app sizes_ok]. rewrite flat_len, flat_sum by exact Sb. auto.
  - rewrite E, !total_app. cbn [app total]. rewrite flat_sum by exact Sb. reflexivity.
  - assert (Ls : length szs = length a + (length b + length c)) by (rewrite E at 1; rewrite !app_length; reflexivity).
    rewrite !app_length. cbn [length]. lia.
Qed.

Definition fits (szs : list (list nat)) : Prop := Forall (fun s => (Z.of_nat (list_sum s) < 2 ^ 63 - 1)%Z) szs.
Lemma total_fits p szs : fits szs -> (Z.of_nat p < 2 ^ 63 - 1)%Z -> (Z.of_nat (total p szs) < 2 ^ 63 - 1)%Z.
Proof. intros F. revert p. induction F as [|s szs H F IH]; intros p Hp; [exact Hp|]. apply IH, H. Qed.
Lemma fits_firstn n szs : fits szs -> fits (firstn n szs).
Proof.
  intros F. unfold fits in *. rewrite Forall_forall in *. intros s Hs. apply F. rewrite <- (firstn_skipn n szs). apply in_or_app. auto.
Qed.
Lemma flatten_dims_ok alloc s szs from to : alloc_ok alloc -> shape_rep s szs -> fits szs -> from <= to <= length szs ->
  exists r, flatten_dims alloc s from to = Some r /\ shape_rep r (flatten_spec szs from to).
Proof.
  intros Ha [F So] Hf H. unfold flatten_dims. assert (L := F2_len _ _ _ F). rewrite L.
  replace (negb ((from <=? to) && (to <=? length szs))) with false by lia.
  destruct (flatten_spec_ok szs from to So H) as (S1 & T1 & L1).
  assert (So' := So). rewrite <- (firstn_skipn from szs) in So'. apply sizes_ok_app in So' as [Sa Sr].
  assert (Sr' := Sr). rewrite <- (firstn_skipn (to - from) (skipn from szs)) in Sr'. apply sizes_ok_app in Sr' as [Sb _].
  destruct (Nat.eqb_spec (to - from) 1) as [E1|E1].
  { exists s. split; [reflexivity|]. assert (flatten_spec szs from to = szs) as ->; [|split; assumption].
    unfold flatten_spec. rewrite E1. assert (Hl : from < length szs) by lia. clear - E1 Hl Sr. 
    destruct (skipn from szs) as [|x t] eqn:E; [apply (f_equal (@length _)) in E; rewrite skipn_length in E; cbn in E; lia|].
    cbn [firstn]. rewrite <- (firstn_skipn from szs) at 4. f_equal. rewrite E. destruct Sr as [Lx _]. rewrite flat_one by (cbn; auto).
    cbn [app]. f_equal. replace to with (S from) by lia. clear - E. revert szs E. induction from as [|f IH]; intros szs E; [cbn in E; subst; reflexivity|].
    destruct szs as [|y szs]; [discriminate|]. apply (IH szs E). }
  destruct (Nat.eqb_spec (to - from) (length szs)) as [E2|E2].
  { assert (from = 0) by lia. subst from. assert (to = length szs) by lia. subst to.
    rewrite (sh_size_ok s szs (conj F So)). destruct (flat_from_size_ok (total 1 szs)) as (r & E & R).
    { assert (G := total_fits 1 szs Hf). lia. }
    exists r. split; [exact E|]. unfold flatten_spec. cbn [firstn skipn app total]. rewrite Nat.sub_0_r, firstn_all, skipn_all, flat_all by auto. exact R. }
  destruct (Nat.eqb_spec from to) as [E3|E3].
  - subst to. rewrite Nat.sub_diag in *.
    assert (P : (if from =? 0 then Some 1%Z else let? e := rd s (from - 1) in Some (e_child e)) = Some (Z.of_nat (total 1 (firstn from szs)))).
    { destruct (Nat.eqb_spec from 0) as [->|Nz]; [reflexivity|].
      destruct (rd_lt s (from - 1)) as [e Ee]; [lia|]. rewrite Ee. cbn [bind]. f_equal.
      rewrite <- (back_child_ok (firstn from s) _ (F2_firstn _ _ _ _ F)). unfold back_child.
      assert (Fe : firstn from s = firstn (from - 1) s ++ [e]).
      { unfold rd in Ee. destruct (nth_error_split s _ Ee) as (l1 & l2 & El & Ll). rewrite El, <- Ll.
        rewrite firstn_app, (firstn_app (length l1)), Nat.sub_diag, firstn_all. cbn [firstn]. rewrite app_nil_r.
        replace from with (S (length l1)) by lia. rewrite firstn_all2 by lia. f_equal. replace (S (length l1) - length l1) with 1 by lia. reflexivity. }
      rewrite Fe, rev_app_distr. reflexivity. }
    rewrite P. cbn [bind].
    assert (G := total_fits 1 (firstn from szs) (fits_firstn from szs Hf)).
    destruct (uniform_dim (total 1 (firstn from szs)) 1) as (u & Eu & Du); [lia..|]. change (Z.of_nat 1) with 1%Z in Eu. rewrite Eu.
    cbn [get bind]. eexists. split; [reflexivity|]. split; [|exact S1]. unfold flatten_spec. rewrite Nat.sub_diag. cbn [firstn flat].
    apply Forall2_app; [apply F2_firstn, F|]. apply Forall2_app; [constructor; [exact Du|constructor]|]. apply F2_skipn, F.
  - destruct (compose_dim alloc (firstn (to - from) (skipn from s)) (firstn (to - from) (skipn from szs)) (total 1 (firstn from szs)) Ha) as (c & Ec & Dc).
    { intros E. apply (f_equal (@length _)) in E. rewrite firstn_length, skipn_length in E. cbn in E. lia. }
    { apply F2_firstn, F2_skipn, F. } { exact Sb. }
    rewrite Ec. cbn [get bind]. eexists. split; [reflexivity|]. split; [|exact S1]. unfold flatten_spec.
    apply Forall2_app; [apply F2_firstn, F|]. apply Forall2_app; [constructor; [exact Dc|constructor]|]. apply F2_skipn, F.
Qed.

Lemma same_sizes_ok a sa b sb : Forall2 dim_rep a sa -> Forall2 dim_rep b sb -> length a = length b ->
  (same_sizes a b = true <-> map list_sum sa = map list_sum sb).
Proof.
  intros F. revert b sb. induction F as [|x s a sa D F IH]; intros b sb Fb L; destruct Fb as [|y t b sb D' Fb]; try discriminate; cbn [same_sizes map]; [tauto|].
  destruct (dim_facts x s D) as (_ & _ & C & _), (dim_facts y t D') as (_ & _ & C' & _). rewrite C, C'.
  destruct (Z.eqb_spec (Z.of_nat (list_sum s)) (Z.of_nat (list_sum t))) as [E|E]; cbn [negb].
  - rewrite (IH b sb Fb) by (cbn [length] in L; lia). split; [intros ->; f_equal; lia|congruence].
  - split; [discriminate|]. intros H. assert (list_sum s = list_sum t) by congruence. lia.
Qed.
Lemma all_equiv_ok alloc a sa b sb : alloc_ok alloc -> Forall2 dim_rep a sa -> Forall2 dim_rep b sb -> length a <= length b ->
  exists r, all_equiv alloc a b = Some r /\ (r = true <-> firstn (length sa) sb = sa).
Proof.
  intros Ha F. revert b sb. induction F as [|x s a sa D F IH]; intros b sb Fb L; cbn [all_equiv].
  - exists true. split; [reflexivity|]. split; reflexivity.
  - destruct Fb as [|y t b sb D' Fb]; [cbn in L; lia|].
    destruct (is_equivalent_ok alloc x y _ _ _ _ Ha (proj2 D) (proj2 D')) as (r & E & Hr). rewrite E. cbn [bind length firstn].
    assert (Hr' : r = true <-> s = t). { rewrite Hr. split; [intros [E1 E2]; exact (rows_inj s t E1 E2)|intros ->; auto]. }
    destruct r; cbn [negb].
    + destruct (IH b sb Fb) as (r & E' & H'); [cbn in L; lia|]. exists r. split; [exact E'|]. rewrite H'.
      assert (s = t) by tauto. subst t. split; congruence.
    + exists false. split; [reflexivity|]. split; [discriminate|]. intros H. assert (s = t) by congruence. tauto.
Qed.
Lemma one_row s : length s = 1 -> s = [list_sum s].
Proof. destruct s as [|x [|y s]]; cbn; try discriminate. intros _. f_equal. lia. Qed.
Lemma F2_snoc_l {X Y} (R : X -> Y -> Prop) a x l : Forall2 R (a ++ [x]) l -> exists l0 y, l = l0 ++ [y] /\ Forall2 R a l0 /\ R x y.
Proof.
  intros F. apply Forall2_app_inv_l in F as (l0 & l1 & F0 & F1 & ->). inversion F1 as [|? y ? ? D N]; subst. inversion N; subst. eauto.
Qed.
Lemma fast_equiv_ok same a sa b sb : (same = true -> a = b) -> shape_rep a sa -> shape_rep b sb ->
  match fast_equiv same a b with
  | NotEq => sa <> sb
  | Eq => sa = sb
  | SizesEq => length sa = length sb /\ map list_sum sa = map list_sum sb
  end.
Proof.
  intros Hs [F S] [F' S']. unfold fast_equiv. destruct same.
  { specialize (Hs eq_refl). subst b. clear S S'. revert sb F'. induction F as [|x s a sa D F IH]; intros sb F'; inversion F' as [|? t ? sb' D' F'']; subst; [reflexivity|].
    f_equal; [|apply IH; assumption]. destruct D as [Es R], D' as [_ R'].
    assert (Lp : length s = length t). { destruct R as (P & _), R' as (P' & _). lia. }
    apply rows_inj; [exact Lp|].
    rewrite Lp in R. apply edge_rep_split in R as (_ & _ & u & Hu & Ru), R' as (_ & _ & v & Hv & Rv); [|exact Es..].
    assert (u = v). { apply zs_map_inj. exact (represents_unique _ _ _ Ru Rv). } subst v. exact (split_unique_m _ _ _ _ Hu Hv). }
  assert (L := F2_len _ _ _ F). assert (L' := F2_len _ _ _ F').
  destruct (Nat.eqb_spec (length a) (length b)) as [E|E]; cbn [negb]; [|intros ->; congruence].
  destruct a as [|x a _] using rev_ind.
  { destruct b as [|y b]; [|discriminate]. inversion F; inversion F'; subst. reflexivity. }
  rewrite app_length in E. cbn [length] in E.
  destruct b as [|y b _] using rev_ind; [cbn in E; lia|].
  rewrite app_length in E. cbn [length] in E.
  apply F2_snoc_l in F as (sa0 & s & -> & F & D). apply F2_snoc_l in F' as (sb0 & t & -> & F' & D').
  rewrite !rev_app_distr. cbn [rev app]. destruct (dim_facts x s D) as (_ & _ & C & _), (dim_facts y t D') as (_ & _ & C' & _). rewrite C, C'.
  destruct (Z.eqb_spec (Z.of_nat (list_sum s)) (Z.of_nat (list_sum t))) as [Ec|Ec]; cbn [negb].
  2: { intros H. apply app_inj_tail in H as [_ ->]. congruence. }
  assert (Ec' : list_sum s = list_sum t) by lia.
  rewrite app_length. cbn [length]. destruct (Nat.eqb_spec (length a + 1) 1) as [E1|E1].
  - destruct a as [|? ?]; [|cbn in E1; lia]. destruct b as [|? ?]; [|cbn in E; lia]. inversion F; inversion F'; subst. cbn in S, S'.
    cbn [app]. f_equal. rewrite (one_row s), (one_row t) by tauto. congruence.
  - assert (Lab : length a = length b) by lia.
    assert (Q := same_sizes_ok (rev a) (rev sa0) (rev b) (rev sb0) (F2_rev _ _ _ F) (F2_rev _ _ _ F')). rewrite !rev_length in Q. specialize (Q Lab).
    rewrite !map_rev in Q. destruct (same_sizes (rev a) (rev b)).
    + rewrite !app_length in *. cbn [length] in *. split; [lia|]. rewrite !map_app. cbn [map]. rewrite Ec'. f_equal.
      rewrite <- (rev_involutive (map list_sum sa0)), (proj1 Q eq_refl), rev_involutive. reflexivity.
    + intros H. apply app_inj_tail in H as [H _]. subst sb0. destruct Q as [_ Q]. specialize (Q eq_refl). discriminate.
Qed.
Lemma is_equiv_ok alloc same a sa b sb : alloc_ok alloc -> (same = true -> a = b) -> shape_rep a sa -> shape_rep b sb ->
  exists r, is_equiv alloc same a b = Some r /\ (r = true <-> sa = sb).
Proof.
  intros Ha Hs R R'. assert (Q := fast_equiv_ok same a sa b sb Hs R R'). unfold is_equiv.
  destruct (fast_equiv same a b).
  - exists false. split; [reflexivity|]. split; [discriminate|contradiction].
  - exists true. tauto.
  - destruct Q as [Ql Qs]. destruct R as [F S], R' as [F' S'].
    assert (L := F2_len _ _ _ F). assert (L' := F2_len _ _ _ F').
    destruct (all_equiv_ok alloc (skipn 1 a) (skipn 1 sa) (skipn 1 b) (skipn 1 sb) Ha (F2_skipn _ _ _ _ F) (F2_skipn _ _ _ _ F')) as (r & E & H).
    { rewrite !skipn_length. lia. }
    exists r. split; [exact E|]. rewrite H. rewrite firstn_all2 by (rewrite !skipn_length; lia).
    destruct sa as [|s sa], sb as [|t sb]; try discriminate; cbn [skipn]; [tauto|]. destruct S as [Ls _], S' as [Lt _].
    assert (s = t). { rewrite (one_row s), (one_row t) by assumption. cbn [map] in Qs. congruence. }
    split; congruence.
Qed.
Lemma is_broadcastable_ok alloc same a sa b sb : alloc_ok alloc -> (same = true -> a = b) -> shape_rep a sa -> shape_rep b sb ->
  exists r, is_broadcastable alloc same a b = Some r /\ (r = true <-> exists rest, sb = sa ++ rest).
Proof.
  intros Ha Hs R R'. unfold is_broadcastable. destruct same eqn:Es.
  { exists true. split; [reflexivity|]. split; [intros _|reflexivity]. exists []. rewrite app_nil_r.
    assert (Q := fast_equiv_ok true a sa b sb Hs R R'). cbn in Q. symmetry. exact Q. }
  destruct R as [F S], R' as [F' S'].
  assert (L := F2_len _ _ _ F). assert (L' := F2_len _ _ _ F').
  destruct (Nat.ltb_spec (length b) (length a)) as [Hl|Hl].
  - exists false. split; [reflexivity|]. split; [discriminate|]. intros [rest ->]. rewrite app_length in L'. lia.
  - destruct (all_equiv_ok alloc a sa b sb Ha F F' Hl) as (r & E & H). exists r. split; [exact E|]. rewrite H. split.
    + intros Hp. exists (skipn (length sa) sb). rewrite <- Hp at 1. symmetry. apply firstn_skipn.
    + intros [rest ->]. rewrite firstn_app, Nat.sub_diag, firstn_all. cbn [firstn]. apply app_nil_r.
Qed.
Lemma broadcast_edge_ok alloc a sa b rest : alloc_ok alloc -> shape_rep a sa -> shape_rep b (sa ++ rest) -> fits sa ->
  exists e, broadcast_edge alloc a b = Some e /\ dim_rep e (flat (total 1 sa) rest).
Proof.
  intros Ha R R' Hf. unfold broadcast_edge. rewrite (sh_size_ok a sa R). destruct R as [F S], R' as [F' S'].
  assert (L := F2_len _ _ _ F). assert (L' := F2_len _ _ _ F'). rewrite app_length in L'.
  destruct (Nat.eqb_spec (length a) (length b)) as [E|E].
  - destruct rest as [|? ?]; [|cbn in L'; lia]. assert (G := total_fits 1 sa Hf).
    destruct (uniform_dim (total 1 sa) 1) as (u & Eu & Du); [lia..|]. change (Z.of_nat 1) with 1%Z in Eu. rewrite Eu. exists u. auto.
  - destruct (compose_dim alloc (skipn (length a) b) rest (total 1 sa) Ha) as (c & Ec & Dc).
    { intros Z. apply (f_equal (@length _)) in Z. rewrite skipn_length in Z. cbn in Z. lia. }
    { assert (F2 := F2_skipn _ (length a) _ _ F'). rewrite L, skipn_app, Nat.sub_diag, skipn_all in F2. rewrite L. exact F2. }
    { apply sizes_ok_app in S'. apply S'. }
    rewrite Ec. exists c. auto.
Qed.

(** ** Operators *)
Lemma pos_index_ok i n : Z.to_nat (get_pos_index i (Z.of_nat n)) = py_bound i n.
Proof.
  unfold get_pos_index, py_bound. destruct (Z.ltb_spec i 0).
  - destruct (Z.ltb_spec (i + Z.of_nat n) 0); [lia|]. destruct (Z.ltb_spec (Z.of_nat n) (i + Z.of_nat n)); lia.
  - destruct (Z.ltb_spec i 0); [lia|]. destruct (Z.ltb_spec (Z.of_nat n) i); lia.
Qed.
Lemma py_bound_le i n : py_bound i n <= n.
Proof. unfold py_bound. destruct (i <? 0)%Z; lia. Qed.
Lemma op_remove_dims_ok s szs from : shape_rep s szs ->
  exists r, op_remove_dims s from = Some r /\ shape_rep r (firstn (py_bound from (length szs)) szs).
Proof.
  intros R. unfold op_remove_dims. rewrite pos_index_ok, (F2_len _ _ _ (proj1 R)). apply remove_dims_ok; [exact R|apply py_bound_le].
Qed.
Lemma op_flatten_ok alloc s szs from to : alloc_ok alloc -> shape_rep s szs -> fits szs ->
  let f := py_bound from (length szs) in let t := py_bound to (length szs) in
  exists r, op_flatten alloc s from to = Some r /\ shape_rep r (flatten_spec szs f (Nat.max f t)).
Proof.
  intros Ha R Hf f t. unfold op_flatten. rewrite Z2Nat.inj_max, !pos_index_ok, (F2_len _ _ _ (proj1 R)). fold f t. rewrite Nat.max_comm.
  apply flatten_dims_ok; [exact Ha|exact R|exact Hf|]. assert (H1 := py_bound_le from (length szs)). assert (H2 := py_bound_le to (length szs)).
  fold f in H1. fold t in H2. lia.
Qed.
Lemma op_edge_at_ok s szs dim : shape_rep s szs -> (- 2 ^ 63 < dim < 2 ^ 63)%Z ->
  let n := Z.of_nat (length szs) in
  ((- n <= dim < n)%Z -> exists e, op_edge_at s dim = Some (inr e) /\
     dim_rep e (nth (Z.to_nat (if (dim <? 0)%Z then dim + n else dim)) szs [])) /\
  (~ (- n <= dim < n)%Z -> exists err, op_edge_at s dim = Some (inl err)).
Proof.
  intros [F So] Hd n. unfold op_edge_at. assert (L := F2_len _ _ _ F). rewrite L. fold n.
  set (pos := if (dim <? 0)%Z then (dim + n)%Z else dim). split; intros H.
  - assert (Hp : (0 <= pos < n)%Z) by (unfold pos; destruct (Z.ltb_spec dim 0); lia).
    replace ((pos <? 0)%Z || (n <=? pos)%Z) with false by lia. destruct (rd_lt s (Z.to_nat pos)) as [e Ee]; [lia|]. rewrite Ee. cbn [bind].
    exists e. split; [reflexivity|]. clear - F Ee. revert Ee. generalize (Z.to_nat pos). induction F as [|x y s szs D F IH]; intros [|i] E; try discriminate.
    + cbn in E. assert (x = e) by congruence. subst. exact D. + apply IH, E.
  - assert (Hp : ~ (0 <= pos < n)%Z) by (unfold pos; destruct (Z.ltb_spec dim 0); lia).
    replace ((pos <? 0)%Z || (n <=? pos)%Z) with true by lia. destruct (Z.leb_spec 0 dim); cbn [bind]; [eexists; reflexivity|].
    assert (fits_int64 (- dim) = true) as -> by (unfold fits_int64; change (2 ^ 63)%Z with 9223372036854775808%Z in *; unfold int64_min, int64_max in *; lia).
    eexists. reflexivity.
Qed.
