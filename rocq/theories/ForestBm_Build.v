(** Proofs about building and running the bitmask evaluator. *)
From Coq Require Import Permutation Sorting.Sorted.
From Verif Require Import Base Bits_Model Bits_Proofs Forest_Model Forest_Spec Forest_Proofs FullAcc_Spec ForestBm_Model ForestBm_Spec ForestBm_Proofs ForestBm_Split ForestBm_Trees.

Section build.
Variable V : Type.
Variable vo : vops V.
Variable lib : library.
Hypothesis L : lib_ok lib.
Variable ot : others.
Variable w : nat.

(** A tree as the builder sees it: its splits and its adjustments. *)
Definition item : Type := (list (N * cond) * list V)%type.
Definition item_ok (x : item) : Prop := forall m c, In (m, c) (fst x) -> supported c = true /\ cond_ok c.
Definition mitem (m : masked V) : item := (m_splits V m, m_adj V m).
Definition oitem (o : otree V) : item := (layer_masks (N.land (N.of_nat (length (ot_adj V o))) (wones w)) (ot_layers V o), ot_adj V o).
Definition splits_of (its : list item) (t : nat) : list (N * cond) := match nth_error its t with Some x => fst x | None => [] end.
Definition binv (its : list item) (b : bstate V) : Prop :=
  length (b_offsets V b) = length its /\
  (forall k x, nth_error its k = Some x -> exists off, nth_error (b_offsets V b) k = Some off /\ forall j v, nth_error (snd x) j = Some v -> nth_error (b_adjs V b) (off + j) = Some v) /\
  sd_ok (b_data V b) /\ tids (length its) (b_data V b) /\
  (forall fr t k, contrib fr (b_data V b) t k <-> tb (mask_of ot fr w (splits_of its t)) k = true).
Lemma add_splits_ok tid sp : forall sd, sd_ok sd -> (forall m c, In (m, c) sp -> supported c = true /\ cond_ok c) ->
  exists sd', add_splits w sp tid sd = Some sd' /\ sd_ok sd' /\ (forall n, tid < n -> tids n sd -> tids n sd') /\
    forall fr t k, contrib fr sd' t k <-> contrib fr sd t k \/ (tid = t /\ tb (mask_of ot fr w sp) k = true).
Proof.
  induction sp as [|[m c] r IH]; intros sd Ok Co; cbn [add_splits].
  - exists sd. split; [reflexivity|]. split; [exact Ok|]. split; [auto|]. intros fr t k. cbn [mask_of fold_right]. rewrite tb_0. intuition discriminate.
  - destruct (Co m c) as [C1 C2]; [left; reflexivity|]. destruct (add_split_ok ot w m c tid sd Ok C1 C2) as (sd1 & E1 & O1 & T1 & H1). rewrite E1. cbn [bind].
    destruct (IH sd1 O1) as (sd' & E & O & T & H); [intros m' c' I; apply (Co m' c'); right; exact I|]. exists sd'. split; [exact E|]. split; [exact O|]. split; [auto|].
    intros fr t k. rewrite H, H1. cbn [mask_of fold_right fst snd]. change (fold_right _ 0%N r) with (mask_of ot fr w r). destruct (ceval ot fr c).
    + rewrite tb_lor, orb_true_iff. tauto.
    + intuition discriminate.
Qed.
Lemma tids_mono n n' sd : n <= n' -> tids n sd -> tids n' sd.
Proof.
  intros Le [T1 T2]. split; intros i s I.
  - destruct (T1 i s I) as [A B]. split; intros x X; [specialize (A x X)|specialize (B x X)]; lia.
  - destruct (T2 i s I) as [A B]. split; intros x X; [specialize (A x X)|specialize (B x X)]; lia.
Qed.
Definition add_item (x : item) (b : bstate V) : option (bstate V) :=
  let? d := add_splits w (fst x) (length (b_offsets V b)) (b_data V b) in
  Some {| b_offsets := b_offsets V b ++ [length (b_adjs V b)]; b_adjs := b_adjs V b ++ snd x; b_data := d |}.
Lemma add_item_ok its b x : binv its b -> item_ok x -> exists b', add_item x b = Some b' /\ binv (its ++ [x]) b'.
Proof.
  intros (B1 & B2 & B3 & B4 & B5) Ok. unfold add_item. destruct (add_splits_ok (length (b_offsets V b)) (fst x) (b_data V b) B3 Ok) as (d & E & D1 & D2 & D3).
  rewrite E. cbn [bind]. eexists. split; [reflexivity|]. split; [|split; [|split; [|split]]]; cbn [b_offsets b_adjs b_data].
  - rewrite !app_length, B1. reflexivity.
  - intros k y K. destruct (Nat.lt_ge_cases k (length its)) as [H|H].
    + rewrite nth_error_app1 in K by exact H. destruct (B2 k y K) as (off & O & A). exists off. split; [rewrite nth_error_app1 by lia; exact O|]. intros j v J. apply A in J. rewrite nth_error_app1; [exact J|apply nth_error_Some; congruence].
    + rewrite nth_error_app2 in K by exact H. destruct (k - length its) as [|z] eqn:Z; [|destruct z; discriminate]. cbn in K. injection K as <-. exists (length (b_adjs V b)).
      split; [rewrite nth_error_app2 by lia; rewrite B1, Z; reflexivity|]. intros j v J. rewrite nth_error_app2 by lia. rewrite Nat.add_comm, Nat.add_sub. exact J.
  - exact D1.
  - rewrite app_length. apply D2; [cbn; lia|]. apply (tids_mono (length its)); [cbn; lia|exact B4].
  - intros fr t k. rewrite D3, B5, B1. unfold splits_of. destruct (Nat.lt_trichotomy t (length its)) as [H|[->|H]].
    + rewrite nth_error_app1 by exact H. assert (length its <> t) by lia. tauto.
    + rewrite nth_error_app2, Nat.sub_diag by lia. cbn [nth_error]. rewrite (proj2 (nth_error_None its (length its))) by lia. cbn [mask_of fold_right]. rewrite tb_0. intuition discriminate.
    + rewrite (proj2 (nth_error_None (its ++ [x]) t)) by (rewrite app_length; cbn; lia). rewrite (proj2 (nth_error_None its t)) by lia. cbn [mask_of fold_right]. rewrite tb_0. assert (length its <> t) by lia. intuition discriminate.
Qed.

(** The trees of a group. *)
Lemma filter_true {T} (l : list T) : filter (fun _ => true) l = l.
Proof. induction l; cbn; congruence. Qed.
Lemma filter_false {T} (l : list T) : filter (fun _ => false) l = [].
Proof. induction l; cbn; congruence. Qed.
Definition grp {T} (g : nat) (l : list (nat * T)) : list (nat * T) := filter (fun x => fst x =? g) l.
Fixpoint grouped {T} (l : list (nat * T)) : Prop := match l with [] => True | x :: r => (forall y, In y r -> fst x <= fst y) /\ grouped r end.
Lemma grouped_filter {T} (p : nat * T -> bool) l : grouped l -> grouped (filter p l).
Proof. induction l as [|x r IH]; cbn; [auto|]. intros [H G]. destruct (p x); cbn; [|auto]. split; [|auto]. intros y Y. apply filter_In in Y. apply H. tauto. Qed.
Lemma take_group_ok {T} (to : T -> item) g : forall (l : list (nat * T)) its b, binv its b -> grouped l -> (forall x, In x l -> g <= fst x /\ item_ok (to (snd x))) ->
  exists b', take_group V (fun x b => add_item (to x) b) g l b = Some (filter (fun x => negb (fst x =? g)) l, b') /\ binv (its ++ map (fun x => to (snd x)) (grp g l)) b'.
Proof.
  induction l as [|[h x] r IH]; intros its b B G H; unfold grp in *; cbn [take_group filter fst].
  - exists b. split; [reflexivity|]. cbn. rewrite app_nil_r. exact B.
  - destruct G as [G1 G2]. cbn [fst] in *. destruct (Nat.eqb_spec h g) as [->|Ne]; cbn [negb].
    + destruct (add_item_ok its b (to x) B) as (b1 & E1 & B1); [apply (H (g, x)); left; reflexivity|]. rewrite E1. cbn [bind].
      destruct (IH _ _ B1 G2) as (b' & E' & B'); [intros y Y; apply H; right; exact Y|]. exists b'. split; [exact E'|]. cbn [map snd]. rewrite <- app_assoc in B'. exact B'.
    + assert (Hh : g < h) by (specialize (H (h, x) (or_introl eq_refl)); cbn in H; lia).
      assert (K : forall y, In y r -> fst y =? g = false) by (intros y Y; apply Nat.eqb_neq; specialize (G1 y Y); lia).
      exists b. rewrite (filter_ext_in _ (fun _ => true)) by (intros y Y; rewrite (K y Y); reflexivity). rewrite filter_true.
      split; [reflexivity|]. rewrite (filter_ext_in _ (fun _ => false)) by exact K. rewrite filter_false. cbn. rewrite app_nil_r. exact B.
Qed.
Definition seg (its : list item) (lo hi : nat) (l : list item) : Prop := exists pre post, its = pre ++ l ++ post /\ length pre = lo /\ hi = lo + length l.
Lemma seg_app its lo hi l more : seg its lo hi l -> seg (its ++ more) lo hi l.
Proof. intros (pre & post & -> & A & B). exists pre, (post ++ more). rewrite <- !app_assoc. auto. Qed.
Lemma seg_end its l : seg (its ++ l) (length its) (length (its ++ l)) l.
Proof. exists its, []. rewrite app_nil_r, app_length. auto. Qed.
Lemma grp_other {T} k g (l : list (nat * T)) : k <> g -> grp g (filter (fun x => negb (fst x =? k)) l) = grp g l.
Proof.
  intros Ne. induction l as [|[h x] r IH]; [reflexivity|]. cbn [filter grp fst]. unfold grp in *. destruct (Nat.eqb_spec h k) as [->|H]; cbn [negb filter fst].
  - destruct (Nat.eqb_spec k g); [contradiction|exact IH].
  - destruct (h =? g); [f_equal|]; exact IH.
Qed.
Lemma build_groups_ok n : forall k ms os its b acc, binv its b -> grouped ms -> grouped os ->
  (forall x, In x ms -> k <= fst x /\ item_ok (mitem (snd x))) -> (forall x, In x os -> k <= fst x /\ item_ok (oitem (snd x))) ->
  exists gl more b', build_groups V w (seq k n) ms os b acc = Some (acc ++ gl, b') /\ binv (its ++ more) b' /\ length gl = n /\
    forall j, j < n -> exists lo mid hi, nth_error gl j = Some ((lo, mid), (mid, hi)) /\
      seg (its ++ more) lo mid (map (fun x => mitem (snd x)) (grp (k + j) ms)) /\ seg (its ++ more) mid hi (map (fun x => oitem (snd x)) (grp (k + j) os)).
Proof.
  induction n as [|n IH]; intros k ms os its b acc B G1 G2 H1 H2.
  - exists [], [], b. cbn. rewrite !app_nil_r. split; [reflexivity|]. split; [exact B|]. split; [reflexivity|]. intros j J. lia.
  - cbn [seq build_groups]. destruct (take_group_ok mitem k ms its b B G1 H1) as (b1 & E1 & B1).
    change (take_group V (build_masked V w) k ms b) with (take_group V (fun x b => add_item (mitem x) b) k ms b). rewrite E1. cbn [bind fst snd].
    destruct (take_group_ok oitem k os _ b1 B1 G2 H2) as (b2 & E2 & B2).
    change (take_group V (build_oblivious V w) k os b1) with (take_group V (fun x b => add_item (oitem x) b) k os b1). rewrite E2. cbn [bind fst snd].
    assert (N : forall T (l : list (nat * T)) (P : T -> Prop), (forall x, In x l -> k <= fst x /\ P (snd x)) -> forall x, In x (filter (fun x => negb (fst x =? k)) l) -> S k <= fst x /\ P (snd x)).
    { intros T l P H x X. apply filter_In in X. destruct X as [X Y]. apply negb_true_iff, Nat.eqb_neq in Y. specialize (H x X). split; [lia|tauto]. }
    destruct (IH (S k) _ _ _ b2 (acc ++ [(length (b_offsets V b), length (b_offsets V b1), (length (b_offsets V b1), length (b_offsets V b2)))]) B2 (grouped_filter _ _ G1) (grouped_filter _ _ G2) (N _ _ (fun m => item_ok (mitem m)) H1) (N _ _ (fun o => item_ok (oitem o)) H2)) as (gl & more & b' & E & B' & Lg & S').
    rewrite E. rewrite <- app_assoc in E |- *. eexists (_ :: gl), (_ ++ _ ++ more), b'. split; [reflexivity|]. rewrite <- !app_assoc in B'. split; [exact B'|]. split; [cbn; lia|].
    intros [|j] J.
    + rewrite Nat.add_0_r. do 3 eexists. split; [reflexivity|]. destruct B as (B & _), B1 as (B1 & _), B2 as (B2 & _). rewrite B, B1, B2. split.
      * rewrite app_assoc. apply seg_app. apply seg_end.
      * rewrite !app_assoc. apply seg_app. apply seg_end.
    + destruct (S' j ltac:(lia)) as (lo & mid & hi & Ng & S1 & S2). exists lo, mid, hi. split; [exact Ng|]. rewrite <- !app_assoc in S1, S2. cbn [Nat.add] in S1, S2. rewrite Nat.add_succ_r. rewrite grp_other in S1 by lia. rewrite grp_other in S2 by lia. auto.
Qed.

(** ** Evaluation. *)
(** The value of a tree of the evaluator. *)
Definition item_value (leaf : N -> option nat) (fr : frame) (x : item) : option V := let? k := leaf (mask_of ot fr w (fst x)) in nth_error (snd x) k.
Lemma masks_ok its b : binv its b -> forall fr d, d_splits V d = finish lib (b_data V b) -> d_offsets V d = b_offsets V b ->
  exists masks, find_tree_masks V lib fr d = Some masks /\ forall t x, nth_error its t = Some x -> nth_error masks t = Some (mask_of ot fr w (fst x)).
Proof.
  intros (B1 & B2 & B3 & B4 & B5) fr d E1 E2. unfold find_tree_masks. rewrite E1, E2.
  destruct (apply_masks_ok (active_metas lib fr (finish lib (b_data V b))) (repeat 0%N (length (b_offsets V b)))) as (masks & A & Ln & M).
  { intros m t I. rewrite repeat_length, B1. eapply (finish_tids lib L); eassumption. }
  exists masks. split; [exact A|]. intros t x X. assert (T : t < length its) by (apply nth_error_Some; congruence).
  destruct (M t 0%N) as (y & Y & Bt); [rewrite nth_error_repeat by lia; reflexivity|]. rewrite Y. f_equal. apply tb_inj. intros k. apply eq_true_iff_eq. rewrite Bt, tb_0, (finish_ok lib L _ B3), B5.
  unfold splits_of. rewrite X. intuition discriminate.
Qed.
Lemma leaf_value_ok its b : binv its b -> forall d fr masks leaf, d_offsets V d = b_offsets V b -> d_adj V d = b_adjs V b ->
  (forall t x, nth_error its t = Some x -> nth_error masks t = Some (mask_of ot fr w (fst x))) ->
  forall t x v, nth_error its t = Some x -> item_value leaf fr x = Some v -> leaf_value V d masks leaf t = Some v.
Proof.
  intros (B1 & B2 & _) d fr masks leaf E1 E2 M t x v X H. unfold leaf_value, rd. rewrite E1, E2. destruct (B2 t x X) as (off & O & A). rewrite O. cbn [bind]. rewrite (M t x X). cbn [bind].
  unfold item_value in H. destruct (leaf (mask_of ot fr w (fst x))) as [k|]; [|discriminate]. cbn [bind] in *. apply A. exact H.
Qed.
Lemma unrolled_ok (val : nat -> option V) n : forall lo r0 r1 l0 l1 vs, length vs = 2 * n -> (forall j v, nth_error vs j = Some v -> val (lo + j) = Some v) ->
  sum_of vo l0 r0 -> sum_of vo l1 r1 -> exists a b la lb, unrolled V vo val n lo r0 r1 = Some (a, b) /\ sum_of vo la a /\ sum_of vo lb b /\ Permutation (la ++ lb) (l0 ++ l1 ++ vs).
Proof.
  induction n as [|n IH]; intros lo r0 r1 l0 l1 vs Ln H S0 S1; cbn [unrolled].
  - destruct vs; [|discriminate]. exists r0, r1, l0, l1. rewrite app_nil_r. auto.
  - destruct vs as [|x [|y r]]; [discriminate|cbn in Ln; lia|]. assert (Hx : val lo = Some x) by (rewrite <- (Nat.add_0_r lo); apply H; reflexivity). assert (Hy : val (S lo) = Some y) by (rewrite <- Nat.add_1_r; apply H; reflexivity).
    rewrite Hx. cbn [bind]. rewrite Hy. cbn [bind].
    destruct (IH (S (S lo)) (vadd vo r0 x) (vadd vo r1 y) (l0 ++ [x]) (l1 ++ [y]) r) as (a & b & la & lb & E & A & B & P).
    + cbn in Ln. lia.
    + intros j v J. replace (S (S lo) + j) with (lo + S (S j)) by lia. apply H. exact J.
    + apply sum_add; [exact S0|apply sum_one].
    + apply sum_add; [exact S1|apply sum_one].
    + exists a, b, la, lb. split; [exact E|]. split; [exact A|]. split; [exact B|]. rewrite P. rewrite <- !app_assoc. apply Permutation_app_head. cbn [app].
      transitivity (l1 ++ x :: y :: r); [|reflexivity]. change (l1 ++ x :: y :: r) with (l1 ++ x :: (y :: r)). symmetry. rewrite <- Permutation_middle. reflexivity.
Qed.
Lemma sum_range_ok (val : nat -> option V) lo hi vs : hi = lo + length vs -> (forall j v, nth_error vs j = Some v -> val (lo + j) = Some v) ->
  exists s, sum_range V vo val (lo, hi) = Some s /\ sum_of vo vs s.
Proof.
  intros -> H. unfold sum_range. replace (lo + length vs - lo) with (length vs) by lia. pose proof (Nat.div_mod (length vs) 2 ltac:(lia)) as Dm. pose proof (Nat.mod_upper_bound (length vs) 2 ltac:(lia)) as Mb.
  destruct (Nat.eqb_spec (length vs mod 2) 1) as [E|E].
  - destruct vs as [|x r]; [discriminate|]. assert (Hx : val lo = Some x) by (rewrite <- (Nat.add_0_r lo); apply H; reflexivity). rewrite Hx. cbn [bind].
    rewrite E in Dm. set (n := length (x :: r) / 2) in *. clearbody n. cbn [length] in Dm.
    destruct (unrolled_ok val n (S lo) (vzero vo) (vadd vo (vzero vo) x) [] [x] r) as (a & b & la & lb & U & A & B & P).
    + lia.
    + intros j v J. replace (S lo + j) with (lo + S j) by lia. apply H. exact J.
    + apply sum_zero.
    + apply (sum_add vo [] [x]); [apply sum_zero|apply sum_one].
    + rewrite U. cbn [bind fst snd]. eexists. split; [reflexivity|]. apply (sum_perm vo (la ++ lb)); [exact P|]. apply sum_add; assumption.
  - assert (E0 : length vs mod 2 = 0) by lia. rewrite E0 in Dm. destruct (unrolled_ok val (length vs / 2) lo (vzero vo) (vzero vo) [] [] vs) as (a & b & la & lb & U & A & B & P); [lia|exact H|apply sum_zero|apply sum_zero|].
    rewrite U. cbn [bind fst snd]. eexists. split; [reflexivity|]. apply (sum_perm vo (la ++ lb)); [exact P|]. apply sum_add; assumption.
Qed.
Definition or0 (x : option V) : V := match x with Some v => v | None => vzero vo end.
Lemma seg_sum its b d fr masks leaf lo hi l : binv its b -> d_offsets V d = b_offsets V b -> d_adj V d = b_adjs V b ->
  (forall t x, nth_error its t = Some x -> nth_error masks t = Some (mask_of ot fr w (fst x))) ->
  seg its lo hi l -> (forall x, In x l -> item_value leaf fr x <> None) ->
  exists s, sum_range V vo (leaf_value V d masks leaf) (lo, hi) = Some s /\ sum_of vo (map (fun x => or0 (item_value leaf fr x)) l) s.
Proof.
  intros B E1 E2 M (pre & post & Ei & El & Eh) Nn. apply sum_range_ok; [rewrite map_length; exact Eh|]. intros j v J. rewrite nth_error_map in J. destruct (nth_error l j) as [x|] eqn:X; [|discriminate]. cbn in J. injection J as <-.
  assert (Xi : nth_error its (lo + j) = Some x). { rewrite Ei, <- El, nth_error_app2 by lia. rewrite Nat.add_comm, Nat.add_sub. rewrite nth_error_app1; [exact X|]. apply nth_error_Some. congruence. }
  apply (leaf_value_ok its b B d fr masks leaf E1 E2 M _ x); [exact Xi|]. destruct (item_value leaf fr x) eqn:I; [reflexivity|]. exfalso. apply (Nn x); [apply nth_error_In in X; exact X|exact I].
Qed.
End build.
