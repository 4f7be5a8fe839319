From Verif Require Import Base Bits_Model Bits_Proofs Bitmap_Model Bitmap_Proofs Dense_Model Dense_Spec
  Dense_Proofs Edge_Model Edge_Spec.

(** ** Full arrays *)
Lemma rep_plain {A} (xs : list A) : represents (mkD xs [] 0) (map Some xs).
Proof.
  apply represents_elem. rewrite map_length. split; [|split; [reflexivity|]].
  - split; [cbn [boff]; lia|]. split; [constructor|left; reflexivity].
  - intros i Hi. unfold da_elem, da_pres. cbn [bmp vals]. destruct (rd_lt xs i Hi) as [x Ex]. rewrite Ex.
    unfold rd in Ex. apply (map_nth_error Some) in Ex. symmetry. apply nth_error_nth, Ex.
Qed.
Lemma rep_full_vals {A} (a : darr A) xs : represents a (map Some xs) -> vals a = xs.
Proof.
  rewrite represents_elem, map_length. intros (V & S & H). apply list_eq_rd. intros i.
  destruct (Nat.lt_ge_cases i (length xs)) as [L|L].
  - specialize (H i L). destruct (rd_lt xs i L) as [x Ex]. rewrite Ex.
    assert (E : nth i (map Some xs) None = Some x).
    { unfold rd in Ex. apply (map_nth_error Some) in Ex. apply nth_error_nth, Ex. }
    rewrite E in H. unfold da_elem in H. destruct (da_pres a i), (rd (vals a) i); congruence.
  - unfold da_size in S. transitivity (@None A); [|symmetry]; apply rd_None_ge; lia.
Qed.
Lemma full_list {A} (l : list (option A)) : Forall (fun o => o <> None) l -> exists xs, l = map Some xs.
Proof.
  induction 1 as [|[x|] l H _ [xs ->]]; [exists []; reflexivity|exists (x :: xs); reflexivity|congruence].
Qed.
Lemma map_Some_inj {A} (xs ys : list A) : map Some xs = map Some ys -> xs = ys.
Proof.
  revert ys; induction xs as [|x xs IH]; intros [|y ys] H; try discriminate; [reflexivity|].
  cbn in H. injection H as -> H. f_equal. apply IH, H.
Qed.
Lemma is_full_ok {A} (a : darr A) l : represents a l -> exists f, da_is_full a = Some f /\
  if f then l = map Some (vals a) else ~ Forall (fun o => o <> None) l.
Proof.
  intros H. destruct (rep_flags a l H) as (_ & f & _ & _ & E & _ & _ & Hf & _). exists f. split; [exact E|].
  destruct f.
  - destruct (full_list l (proj1 Hf eq_refl)) as [xs ->]. f_equal. symmetry. apply rep_full_vals, H.
  - intros HF. apply Hf in HF. discriminate.
Qed.

(** ** Split points *)
Definition zs (s : list nat) : list Z := map Z.of_nat s.
Lemma zs_some s : map (fun x => Some (Z.of_nat x)) s = map Some (zs s).
Proof. unfold zs. rewrite map_map. reflexivity. Qed.
Lemma zs_inj s t : zs s = zs t -> s = t.
Proof.
  revert t; induction s as [|x s IH]; intros [|y t] H; try discriminate; [reflexivity|].
  cbn in H. injection H as H1 H2. f_equal; [lia|apply IH, H2].
Qed.
Lemma rd_zs s i : i < length s -> rd (zs s) i = Some (Z.of_nat (nth i s 0)).
Proof.
  intros H. unfold rd, zs. rewrite (map_nth_error Z.of_nat i s (d := nth i s 0)); [reflexivity|].
  apply nth_error_nth', H.
Qed.
Lemma zs_len s : length (zs s) = length s. Proof. apply map_length. Qed.
Lemma nat_list_eq (s t : list nat) : length s = length t -> (forall i, i < length s -> nth i s 0 = nth i t 0) -> s = t.
Proof. intros H1 H2. apply (nth_ext s t 0 0 H1 H2). Qed.

Definition mono (s : list nat) : Prop := forall i j, i <= j < length s -> nth i s 0 <= nth j s 0.

Lemma split_find s n c : nth 0 s 0 = 0 -> n < length s -> c < nth n s 0 ->
  exists q, q < n /\ nth q s 0 <= c < nth (S q) s 0.
Proof.
  intros H0. induction n as [|n IH]; intros Hn Hc; [lia|].
  destruct (Nat.lt_ge_cases c (nth n s 0)) as [L|L].
  - destruct IH as (q & Hq & H); [lia|exact L|]. exists q. split; [lia|exact H].
  - exists n. split; [lia|]. split; assumption.
Qed.

Definition split_of (s : list nat) (p : nat) (m : list (option nat)) : Prop :=
  splits s /\ length s = S p /\ nth p s 0 = length m /\
  forall q c, q < p -> nth q s 0 <= c < nth (S q) s 0 -> nth c m None = Some q.

Lemma split_parent s p m c : split_of s p m -> c < length m ->
  exists q, q < p /\ nth q s 0 <= c < nth (S q) s 0 /\ nth c m None = Some q.
Proof.
  intros ((Hn & H0 & Hm) & Hl & He & H) Hc. destruct (split_find s p c H0) as (q & Hq & Hr); [lia..|].
  exists q. split; [exact Hq|]. split; [exact Hr|]. apply H; assumption.
Qed.
(** The defining property in the other direction. *)
Lemma split_char s p m c q k : split_of s p m -> k <= p -> nth c m None = Some q -> (q < k <-> c < nth k s 0).
Proof.
  intros Hs Hk Hq. assert (Hc : c < length m).
  { destruct (Nat.lt_ge_cases c (length m)) as [L|L]; [exact L|]. rewrite nth_overflow in Hq by exact L. discriminate. }
  destruct (split_parent s p m c Hs Hc) as (q' & Hq' & Hr & E). assert (q' = q) by congruence. subst q'.
  destruct Hs as ((Hn & H0 & Hm) & Hl & He & H). split; intros L.
  - specialize (Hm (S q) k). lia.
  - destruct (Nat.lt_ge_cases q k) as [|L']; [assumption|]. specialize (Hm k q). lia.
Qed.
Lemma split_unique_m s p m m' : split_of s p m -> split_of s p m' -> m = m'.
Proof.
  intros H H'. assert (El : length m = length m') by (destruct H as (_ & _ & E & _), H' as (_ & _ & E' & _); lia).
  apply (nth_ext m m' None None El). intros c Hc.
  destruct (split_parent s p m c H Hc) as (q & Hq & Hr & E). rewrite E. symmetry.
  destruct H' as (_ & _ & _ & H'). apply H'; assumption.
Qed.
Lemma split_le s p m k : split_of s p m -> k <= p -> nth k s 0 <= length m.
Proof. intros ((Hn & H0 & Hm) & Hl & He & H) Hk. specialize (Hm k p). lia. Qed.
Lemma split_unique_s s s' p m : split_of s p m -> split_of s' p m -> s = s'.
Proof.
  intros H H'. assert (Hl : length s = S p) by apply H. assert (Hl' : length s' = S p) by apply H'.
  apply nat_list_eq; [lia|]. intros k Hk.
  assert (G : forall t t', split_of t p m -> split_of t' p m -> ~ nth k t 0 < nth k t' 0).
  { intros t t' Ht Ht' L. pose proof (split_le t' p m k Ht'). 
    destruct (split_parent t p m (nth k t 0) Ht) as (q & _ & _ & E); [lia|].
    pose proof (split_char t p m _ q k Ht ltac:(lia) E). pose proof (split_char t' p m _ q k Ht' ltac:(lia) E). lia. }
  pose proof (G s s' H H'). pose proof (G s' s H' H). lia.
Qed.
Lemma split_full_sorted s p m : split_of s p m -> full_sorted m.
Proof.
  intros H. split.
  - intros c Hc. destruct (split_parent s p m c H Hc) as (q & _ & _ & E). congruence.
  - intros c d q r Hcd Eq Er.
    assert (Hr : r < p).
    { assert (Hd : d < length m).
      { destruct (Nat.lt_ge_cases d (length m)) as [L|L]; [exact L|]. rewrite nth_overflow in Er by exact L. discriminate. }
      destruct (split_parent s p m d H Hd) as (r' & Hr' & _ & E). congruence. }
    destruct (Nat.le_gt_cases q r) as [|L]; [assumption|].
    pose proof (split_char s p m d r (S r) H ltac:(lia) Er). pose proof (split_char s p m c q (S r) H ltac:(lia) Eq). lia.
Qed.

Lemma sm_prefix s : mono s -> nth 0 s 0 = 0 -> forall n, n < length s ->
  let m := flat_map (fun q => repeat (Some q) (nth (S q) s 0 - nth q s 0)) (seq 0 n) in
  length m = nth n s 0 /\ forall q c, q < n -> nth q s 0 <= c < nth (S q) s 0 -> nth c m None = Some q.
Proof.
  intros Hm H0. induction n as [|n IH]; intros Hn; cbn zeta.
  - split; [cbn; lia|]. intros q c Hq. lia.
  - destruct IH as [L N]; [lia|]. rewrite seq_S, flat_map_app. cbn [Nat.add flat_map].
    set (m := flat_map _ (seq 0 n)) in *. rewrite app_nil_r. pose proof (Hm n (S n)). split.
    + rewrite app_length, repeat_length. lia.
    + intros q c Hq Hc. destruct (Nat.eq_dec q n) as [->|Nq].
      * rewrite app_nth2 by lia. apply repeat_nth. lia.
      * assert (nth (S q) s 0 <= nth n s 0) by (apply Hm; lia). rewrite app_nth1 by lia. apply N; lia.
Qed.

Lemma split_mapping_ok s : splits s -> split_of s (length s - 1) (split_mapping s).
Proof.
  intros Hs. assert (Hs' := Hs). destruct Hs' as (Hn & H0 & Hm).
  assert (0 < length s) by (destruct s; [congruence|cbn; lia]).
  destruct (sm_prefix s Hm H0 (length s - 1)) as [L N]; [lia|].
  split; [exact Hs|]. split; [lia|]. split; [symmetry; exact L|exact N].
Qed.

Lemma edge_rep_split e p m : e_split e = true -> edge_rep e p m <->
  e_parent e = Z.of_nat p /\ e_child e = Z.of_nat (length m) /\
  exists s, split_of s p m /\ represents (e_vals e) (map Some (zs s)).
Proof.
  intros E. unfold edge_rep, split_of. rewrite E. split.
  - intros (H1 & H2 & _ & s & H3 & H4 & H5 & H6 & H7). rewrite zs_some in H6.
    split; [exact H1|]. split; [exact H2|]. exists s. tauto.
  - intros (H1 & H2 & s & H & H6). split; [exact H1|]. split; [exact H2|]. split.
    + intros c q Hc. assert (Hl : c < length m).
      { destruct (Nat.lt_ge_cases c (length m)) as [L|L]; [exact L|]. rewrite nth_overflow in Hc by exact L. discriminate. }
      destruct (split_parent s p m c H Hl) as (q' & Hq & _ & E'). congruence.
    + exists s. rewrite zs_some. tauto.
Qed.
Lemma edge_rep_mapping e p m : e_split e = false -> edge_rep e p m <->
  e_parent e = Z.of_nat p /\ e_child e = Z.of_nat (length m) /\
  (forall c q, nth c m None = Some q -> q < p) /\ represents (e_vals e) (map zopt m).
Proof. intros E. unfold edge_rep. rewrite E. tauto. Qed.

Lemma back_zs s : s <> [] -> back (zs s) = Some (Z.of_nat (nth (length s - 1) s 0)).
Proof.
  intros H. unfold back. rewrite zs_len. rewrite rd_zs by (destruct s; [congruence|cbn; lia]).
  destruct s; [congruence|]. reflexivity.
Qed.
Lemma unsafe_split_ok a s p m : represents a (map Some (zs s)) -> split_of s p m ->
  exists e, unsafe_from_split_points a = Some e /\ e_split e = true /\ e_vals e = a /\ edge_rep e p m.
Proof.
  intros R H. assert (Hv := rep_full_vals _ _ R). unfold unsafe_from_split_points, da_size. rewrite Hv, zs_len.
  assert (Hs : s <> []) by apply H. rewrite back_zs by exact Hs. cbn [bind]. eexists. split; [reflexivity|].
  split; [reflexivity|]. split; [reflexivity|]. apply edge_rep_split; [reflexivity|]. cbn [e_parent e_child e_vals].
  assert (Hl : length s = S p) by apply H. assert (He : nth p s 0 = length m) by apply H.
  rewrite Hl. replace (S p - 1) with p by lia. split; [lia|]. split; [lia|]. exists s. split; [exact H|exact R].
Qed.
Lemma unsafe_mapping_ok a p m : represents a (map zopt m) -> (forall c q, nth c m None = Some q -> q < p) ->
  edge_rep (unsafe_from_mapping a (Z.of_nat p)) p m.
Proof.
  intros R H. apply edge_rep_mapping; [reflexivity|]. unfold unsafe_from_mapping. cbn [e_parent e_child e_vals].
  split; [reflexivity|]. split; [|tauto]. destruct R as (_ & S & _). rewrite S, map_length. reflexivity.
Qed.

Lemma is_sorted_ok (l : list Z) : is_sorted l = true <-> forall i j x y, i <= j -> rd l i = Some x -> rd l j = Some y -> (x <= y)%Z.
Proof.
  induction l as [|a l IH]; cbn [is_sorted].
  - split; [|reflexivity]. intros _ [|i] j x y _ H; discriminate.
  - destruct l as [|b t].
    + split; [|reflexivity]. intros _ i j x y Hij Hi Hj. destruct i, j; cbn in Hi, Hj; try (destruct i; discriminate); try (destruct j; discriminate). assert (x = y) by congruence. lia.
    + destruct (Z.ltb_spec b a) as [L|L].
      * split; [discriminate|]. intros H. specialize (H 0 1 a b ltac:(lia) eq_refl eq_refl). lia.
      * rewrite IH. split; intros H.
        -- intros i j x y Hij Hi Hj. destruct i as [|i].
           ++ cbn in Hi. assert (x = a) by congruence. subst x. destruct j as [|j]; [cbn in Hj; assert (y = a) by congruence; lia|].
              change (rd (a :: b :: t) (S j)) with (rd (b :: t) j) in Hj. specialize (H 0 j b y ltac:(lia) eq_refl Hj). lia.
           ++ destruct j as [|j]; [lia|]. apply (H i j); [lia|exact Hi|exact Hj].
        -- intros i j x y Hij Hi Hj. apply (H (S i) (S j)); [lia|exact Hi|exact Hj].
Qed.

Lemma zs_nonneg (l : list Z) : (forall i x, rd l i = Some x -> (0 <= x)%Z) -> l = zs (map Z.to_nat l).
Proof.
  intros H. apply list_eq_rd. intros i. unfold zs. rewrite map_map. unfold rd. rewrite nth_error_map.
  destruct (nth_error l i) as [x|] eqn:E; [|reflexivity]. cbn [option_map]. f_equal.
  specialize (H i x E). lia.
Qed.

Lemma from_split_points_ok a l : represents a l ->
  (forall s, splits s -> l = map (fun x => Some (Z.of_nat x)) s ->
     exists e, from_split_points a = Some (inr e) /\ e_split e = true /\ edge_rep e (length s - 1) (split_mapping s)) /\
  ((forall s, splits s -> l <> map (fun x => Some (Z.of_nat x)) s) ->
     exists err, from_split_points a = Some (inl err)).
Proof.
  intros R. unfold from_split_points. destruct (is_full_ok a l R) as (f & -> & Hf). cbn [bind]. split.
  - intros s Hs El. rewrite zs_some in El. subst l. destruct f; cbn [negb].
    2:{ elim Hf. apply Forall_forall. intros o Ho. apply in_map_iff in Ho as (x & <- & _). congruence. }
    assert (Hv := rep_full_vals _ _ R). unfold da_size. rewrite Hv, zs_len. assert (Hs' := Hs). destruct Hs' as (Hn & H0 & Hm).
    assert (Hl : 0 < length s) by (destruct s; [congruence|cbn; lia]).
    replace (length s =? 0) with false by lia. rewrite rd_zs by exact Hl. cbn [bind]. rewrite H0. cbn [Z.of_nat Z.eqb negb].
    rewrite back_zs by exact Hn. cbn [bind].
    replace (is_sorted (zs s)) with true.
    2:{ symmetry. apply is_sorted_ok. intros i j x y Hij Hi Hj. pose proof (rd_Some_lt _ _ _ Hj) as Lj. rewrite zs_len in Lj.
        rewrite rd_zs in Hi, Hj by lia. specialize (Hm i j). assert (x = Z.of_nat (nth i s 0)) by congruence.
        assert (y = Z.of_nat (nth j s 0)) by congruence. lia. }
    cbn [negb]. eexists. split; [reflexivity|]. split; [reflexivity|].
    apply edge_rep_split; [reflexivity|]. cbn [e_parent e_child e_vals]. pose proof (split_mapping_ok s Hs) as Hsm.
    assert (He : nth (length s - 1) s 0 = length (split_mapping s)) by apply Hsm.
    split; [lia|]. split; [lia|]. exists s. split; [exact Hsm|exact R].
  - intros Hno. destruct f; cbn [negb]; [|eexists; reflexivity]. subst l. unfold da_size.
    destruct (Nat.eqb_spec (length (vals a)) 0) as [E0|N0]; [eexists; reflexivity|].
    destruct (rd_lt (vals a) 0) as [x0 Ex]; [lia|]. rewrite Ex. cbn [bind].
    destruct (Z.eqb_spec x0 0) as [->|Nx]; cbn [negb]; [|eexists; reflexivity].
    assert (Hb : exists c, back (vals a) = Some c).
    { unfold back. destruct (rd_lt (vals a) (length (vals a) - 1)) as [c Ec]; [lia|]. exists c. destruct (vals a); [cbn in N0; lia|exact Ec]. }
    destruct Hb as [c ->]. cbn [bind]. destruct (is_sorted (vals a)) eqn:Es; cbn [negb]; [|eexists; reflexivity].
    exfalso. rewrite is_sorted_ok in Es.
    assert (Ez : vals a = zs (map Z.to_nat (vals a))).
    { apply zs_nonneg. intros i x Hi. exact (Es 0 i _ _ (Nat.le_0_l i) Ex Hi). }
    assert (Hl : length (map Z.to_nat (vals a)) = length (vals a)) by apply map_length.
    set (s := map Z.to_nat (vals a)) in *. clearbody s. rewrite Ez in *. rewrite zs_len in *.
    apply (Hno s).
    + split; [intros Z; rewrite Z in N0; cbn in N0; lia|]. split.
      * rewrite rd_zs in Ex by lia. assert (Z.of_nat (nth 0 s 0) = 0%Z) by congruence. lia.
      * intros i j Hij.
        specialize (Es i j _ _ (proj1 Hij) (rd_zs s i ltac:(lia)) (rd_zs s j ltac:(lia))). lia.
    + rewrite zs_some. reflexivity.
Qed.

(** ** FromMapping *)
Lemma scan_ok calls : forall mx ng, let r := fold_left (fun (s : Z * bool) (c : nat * bool * Z) => let '(_, p, v) := c in
    if p then (Z.max (fst s) v, if (v <? 0)%Z then true else snd s) else s) calls (mx, ng) in
  (snd r = true <-> ng = true \/ exists i v, In (i, true, v) calls /\ (v < 0)%Z) /\
  forall P, (fst r < P)%Z <-> (mx < P)%Z /\ forall i v, In (i, true, v) calls -> (v < P)%Z.
Proof.
  induction calls as [|[[i p] v] t IH]; intros mx ng; cbn [fold_left].
  - cbn [fst snd]. split.
    + split; [tauto|]. intros [H|(i & v & [] & _)]; exact H.
    + intros P. split; [intros H; split; [exact H|intros i v []]|tauto].
  - destruct p; cbn [fst snd].
    + destruct (IH (Z.max mx v) (if (v <? 0)%Z then true else ng)) as [H1 H2]. split.
      * rewrite H1. destruct (Z.ltb_spec v 0) as [L|L]; split; intros H.
        -- right. exists i, v. split; [left; reflexivity|exact L].
        -- left. reflexivity.
        -- destruct H as [H|(j & x & Hj & Hx)]; [left; exact H|right]. exists j, x. split; [right; exact Hj|exact Hx].
        -- destruct H as [H|(j & x & [Hj|Hj] & Hx)]; [left; exact H| |right; exists j, x; split; assumption].
           assert (x = v) by congruence. lia.
      * intros P. rewrite H2. split.
        -- intros [H H']. split; [lia|]. intros j x [Hj|Hj]; [assert (x = v) by congruence; lia|apply (H' j), Hj].
        -- intros [H H']. split; [specialize (H' i v (or_introl eq_refl)); lia|]. intros j x Hj. apply (H' j). right. exact Hj.
    + destruct (IH mx ng) as [H1 H2]. split.
      * rewrite H1. split; intros [H|(j & x & Hj & Hx)]; try (left; exact H); right; exists j, x; (split; [|exact Hx]).
        -- right. exact Hj.
        -- destruct Hj as [Hj|Hj]; [discriminate|exact Hj].
      * intros P. rewrite H2. split; intros [H H']; (split; [exact H|]); intros j x Hj; apply (H' j).
        -- destruct Hj as [Hj|Hj]; [discriminate|exact Hj].
        -- right. exact Hj.
Qed.

Lemma zopt_list (l : list (option Z)) : (forall v, In (Some v) l -> (0 <= v)%Z) ->
  l = map zopt (map (option_map Z.to_nat) l).
Proof.
  intros H. rewrite map_map. rewrite <- (map_id l) at 1. apply map_ext_in. intros [v|] Hv; [|reflexivity].
  cbn. f_equal. specialize (H v Hv). lia.
Qed.

Lemma for_each_in {A} (a : darr A) l r : represents a l ->
  map (fun c : nat * bool * A => (fst (fst c), if snd (fst c) then Some (snd c) else None)) r = combine (seq 0 (length l)) l ->
  forall v, In (Some v) l <-> exists i, In (i, true, v) r.
Proof.
  intros R M v. split.
  - intros H. apply (In_nth _ _ None) in H as (i & Hi & E).
    assert (Hin : In (i, Some v) (combine (seq 0 (length l)) l)).
    { rewrite <- E. rewrite <- (seq_nth 0 0 Hi) at 1. cbn [Nat.add].
      rewrite <- combine_nth with (x := 0) (y := None) by apply seq_length. apply nth_In. rewrite combine_length, seq_length. lia. }
    rewrite <- M in Hin. apply in_map_iff in Hin as ([[j p] x] & Eq & Hin). cbn [fst snd] in Eq.
    destruct p; [|congruence]. exists i. assert (j = i) by congruence. assert (x = v) by congruence. subst. exact Hin.
  - intros (i & Hin). apply (in_map (fun c : nat * bool * A => (fst (fst c), if snd (fst c) then Some (snd c) else None))) in Hin.
    rewrite M in Hin. cbn [fst snd] in Hin. apply in_combine_r in Hin. exact Hin.
Qed.

Lemma from_mapping_ok a l P : represents a l ->
  ((0 <= P)%Z /\ in_range l P ->
     exists e m, from_mapping a P = Some (inr e) /\ l = map zopt m /\ e_split e = false /\ edge_rep e (Z.to_nat P) m) /\
  (~ ((0 <= P)%Z /\ in_range l P) -> exists err, from_mapping a P = Some (inl err)).
Proof.
  intros R. unfold from_mapping. destruct (rep_for_each a l R) as (r & E & M).
  pose proof (for_each_in a l r R M) as Hin. destruct (scan_ok r (-1)%Z false) as [H1 H2].
  rewrite E. cbn [bind]. unfold scan_mapping. set (sc := fold_left _ r _) in *. destruct sc as [mx ng]. cbn [fst snd] in *. split.
  - intros [HP Hr]. replace (P <? 0)%Z with false by lia.
    destruct ng.
    { destruct (proj1 H1 eq_refl) as [F|(i & v & Hi & Hv)]; [discriminate|].
      specialize (Hr v (proj2 (Hin v) (ex_intro _ i Hi))). lia. }
    assert (Hmx : (mx < P)%Z).
    { apply H2. split; [lia|]. intros i v Hi. apply (Hr v), Hin. exists i. exact Hi. }
    replace (P <=? mx)%Z with false by lia.
    eexists. exists (map (option_map Z.to_nat) l). split; [reflexivity|].
    assert (El : l = map zopt (map (option_map Z.to_nat) l)).
    { apply zopt_list. intros v Hv. apply (Hr v Hv). }
    split; [exact El|]. split; [reflexivity|]. rewrite <- (Z2Nat.id P) at 1 by exact HP. apply unsafe_mapping_ok.
    + rewrite <- El. exact R.
    + intros c q Hc. assert (Hc' : nth c l None = Some (Z.of_nat q)).
      { rewrite El. change (@None Z) with (zopt None). rewrite map_nth, Hc. reflexivity. }
      assert (Hq : In (Some (Z.of_nat q)) l).
      { rewrite <- Hc'. apply nth_In. destruct (Nat.lt_ge_cases c (length l)) as [L|L]; [exact L|].
        rewrite nth_overflow in Hc' by exact L. discriminate. }
      specialize (Hr _ Hq). lia.
  - intros Hno. destruct (Z.ltb_spec P 0) as [L|L]; [eexists; reflexivity|].
    destruct ng; [eexists; reflexivity|]. destruct (Z.leb_spec P mx) as [L'|L']; [eexists; reflexivity|].
    elim Hno. split; [exact L|]. intros v Hv. apply Hin in Hv as [i Hi]. split.
    + destruct (Z.lt_ge_cases v 0) as [Lv|Lv]; [|exact Lv].
      assert (false = true) by (apply H1; right; exists i, v; split; assumption). discriminate.
    + apply (proj2 (proj1 (H2 P) L') i), Hi.
Qed.

(** ** FromUniformGroups *)
Lemma uniform_splits p g : split_of (map (fun i => i * g) (seq 0 (S p))) p (map (fun c => Some (c / g)) (seq 0 (p * g))).
Proof.
  assert (N : forall i, i <= p -> nth i (map (fun i => i * g) (seq 0 (S p))) 0 = i * g).
  { intros i Hi. rewrite (nth_seq_map (fun i => i * g)) by lia. reflexivity. }
  split; [split; [|split]|split; [|split]].
  - cbn [seq map]. congruence.
  - rewrite N by lia. reflexivity.
  - rewrite map_length, seq_length. intros i j Hij. rewrite !N by lia. apply Nat.mul_le_mono_r. lia.
  - rewrite map_length, seq_length. reflexivity.
  - rewrite N, map_length, seq_length by lia. reflexivity.
  - intros q c Hq Hc. rewrite !N in Hc by lia. 
    assert (S q * g <= p * g) by (apply Nat.mul_le_mono_r; lia).
    rewrite nth_seq_map by lia. f_equal. symmetry. apply (Nat.div_unique c g q (c - q * g)); [cbn [Nat.mul] in Hc; lia|lia].
Qed.
Lemma from_uniform_ok P g : 
  ((P < 0)%Z \/ (g < 0)%Z -> from_uniform_groups P g = Some (inl NegArgs)) /\
  ((0 <= P)%Z -> (0 <= g)%Z -> (2 ^ 63 <= P * g)%Z -> from_uniform_groups P g = Some (inl MulOverflow)) /\
  ((0 <= P < 2 ^ 63 - 1)%Z -> (0 <= g)%Z -> (P * g < 2 ^ 63)%Z -> exists e,
     from_uniform_groups P g = Some (inr e) /\ e_split e = true /\
     edge_rep e (Z.to_nat P) (map (fun c => Some (c / Z.to_nat g)) (seq 0 (Z.to_nat P * Z.to_nat g)))).
Proof.
  unfold from_uniform_groups, fits_int64, int64_min, int64_max. split; [|split].
  - intros H. replace ((P <? 0)%Z || (g <? 0)%Z) with true by lia. reflexivity.
  - intros H1 H2 H3. replace ((P <? 0)%Z || (g <? 0)%Z) with false by lia.
    set (X := (P * g)%Z) in *. replace ((- 2 ^ 63 <=? X)%Z && (X <=? 2 ^ 63 - 1)%Z) with false by lia. reflexivity.
  - intros H1 H2 H3. replace ((P <? 0)%Z || (g <? 0)%Z) with false by lia.
    assert (HX : (0 <= P * g)%Z) by (apply Z.mul_nonneg_nonneg; lia).
    set (X := (P * g)%Z) in *. replace ((- 2 ^ 63 <=? X)%Z && (X <=? 2 ^ 63 - 1)%Z) with true by lia. cbn [negb].
    replace ((- 2 ^ 63 <=? P + 1)%Z && (P + 1 <=? 2 ^ 63 - 1)%Z) with true by lia. cbn [guard bind].
    pose proof (uniform_splits (Z.to_nat P) (Z.to_nat g)) as U.
    assert (Ez : map (fun i : nat => (Z.of_nat i * g)%Z) (seq 0 (Z.to_nat (P + 1))) =
      zs (map (fun i => i * Z.to_nat g) (seq 0 (S (Z.to_nat P))))).
    { unfold zs. rewrite map_map. replace (Z.to_nat (P + 1)) with (S (Z.to_nat P)) by lia.
      apply map_ext. intros i. rewrite Nat2Z.inj_mul. rewrite (Z2Nat.id g) by lia. reflexivity. }
    rewrite Ez. destruct (unsafe_split_ok _ _ _ _ (rep_plain _) U) as (e & E & S & _ & R).
    rewrite E. cbn [bind]. exists e. split; [reflexivity|]. split; [exact S|exact R].
Qed.

(** ** Conversions *)
Lemma fill_parents_ok s p mp : split_of s p mp -> forall n q m, q + n = p -> length m = length mp ->
  (forall r c, r < q -> nth r s 0 <= c < nth (S r) s 0 -> rd m c = Some (Z.of_nat r)) ->
  exists m', fill_parents (zs s) m q n = Some m' /\ length m' = length mp /\
   forall r c, r < p -> nth r s 0 <= c < nth (S r) s 0 -> rd m' c = Some (Z.of_nat r).
Proof.
  intros Hs. assert (Hl : length s = S p) by apply Hs. assert (Hm : mono s) by exact (proj2 (proj2 (proj1 Hs))).
  induction n as [|n IH]; intros q m Hq Lm H; cbn [fill_parents].
  - exists m. split; [reflexivity|]. split; [exact Lm|]. replace p with q by lia. exact H.
  - rewrite !rd_zs by lia. cbn [bind]. pose proof (Hm q (S q)). pose proof (split_le s p mp (S q) Hs).
    assert (Eg : forall a b : nat, a <= b -> (0 <=? Z.of_nat a)%Z && (Z.of_nat a <=? Z.of_nat b)%Z = true) by lia.
    assert (Ed : forall a b : nat, Z.to_nat (Z.of_nat b - Z.of_nat a) = b - a) by lia.
    rewrite Eg by lia. cbn [guard bind]. rewrite Nat2Z.id, Ed.
    destruct (fill_ok (nth (S q) s 0 - nth q s 0) m (nth q s 0) (Z.of_nat q)) as (m1 & E1 & L1 & R1); [lia|].
    rewrite E1. cbn [bind]. apply IH; [lia|lia|]. intros r c Hr Hc. rewrite R1.
    destruct (Nat.eq_dec r q) as [->|Nr].
    + replace ((nth q s 0 <=? c) && (c <? nth q s 0 + (nth (S q) s 0 - nth q s 0))) with true by lia. reflexivity.
    + pose proof (Hm (S r) q). replace ((nth q s 0 <=? c) && (c <? nth q s 0 + (nth (S q) s 0 - nth q s 0))) with false by lia.
      apply H; lia.
Qed.

Lemma zopt_nth m c : nth c (map zopt m) None = zopt (nth c m None).
Proof. change (@None Z) with (zopt None). apply map_nth. Qed.

Lemma to_mapping_ok alloc e p m : alloc_ok alloc -> edge_rep e p m ->
  exists e', to_mapping alloc e = Some e' /\ e_split e' = false /\ edge_rep e' p m.
Proof.
  intros Ha R. unfold to_mapping. destruct (e_split e) eqn:Es; [|exists e; tauto].
  assert (R' := R). apply edge_rep_split in R' as (Hp & Hc & s & Hs & Rv); [|exact Es].
  rewrite (rep_full_vals _ _ Rv), Hp, Hc, !Nat2Z.id.
  destruct (fill_parents_ok s p m Hs p 0 (alloc (length m)) eq_refl (Ha _)) as (m' & E & L & H); [intros r c Hr; lia|].
  rewrite E. cbn [bind]. eexists. split; [reflexivity|]. split; [reflexivity|]. apply unsafe_mapping_ok.
  - replace (map zopt m) with (map Some m'); [apply rep_plain|].
    apply (nth_ext _ _ None None); rewrite !map_length; [exact L|]. intros c Hc'. rewrite L in Hc'.
    destruct (split_parent s p m c Hs Hc') as (q & Hq & Hr & Eq). rewrite zopt_nth, Eq. cbn.
    specialize (H q c Hq Hr). unfold rd in H. apply (map_nth_error Some) in H. apply nth_error_nth, H.
  - apply R.
Qed.

(** Sortedness of a full mapping, as seen by the loop. *)
Lemma split_loop_ok P : forall vs i bin m pos, Forall (fun v => v < P) vs -> bin <= P -> pos = S bin -> length m = S P ->
  forall pre, length pre = i -> Forall (fun v => v <= bin) pre ->
  (forall k, k <= bin -> exists x, rd m k = Some (Z.of_nat x) /\ x <= i /\ forall c, c < i -> (nth c pre 0 < k <-> c < x)) ->
  match split_loop (zs vs) i (Z.of_nat bin) m pos with
  | None => False
  | Some None => exists c d, nth d (bin :: vs) 0 < nth c (bin :: vs) 0 /\ c < d <= length vs
  | Some (Some (bin', m', pos')) => exists b, bin' = Z.of_nat b /\ b <= P /\ pos' = S b /\ length m' = S P /\
      Forall (fun v => v <= b) (pre ++ vs) /\
      (forall k, k <= b -> exists x, rd m' k = Some (Z.of_nat x) /\ x <= length (pre ++ vs) /\
         forall c, c < length (pre ++ vs) -> (nth c (pre ++ vs) 0 < k <-> c < x)) /\
      forall c d, c <= d <= length vs -> nth c (bin :: vs) 0 <= nth d (bin :: vs) 0
  end.
Proof.
  induction vs as [|v vs IH]; intros i bin m pos Hv Hb Hpos Lm pre Lp Hpre H; cbn [zs map split_loop].
  - rewrite app_nil_r. exists bin. repeat (split; [assumption || reflexivity|]). split.
    + rewrite Lp. exact H.
    + intros c d Hcd. cbn [length] in Hcd. assert (c = 0) by lia. assert (d = 0) by lia. subst. reflexivity.
  - inversion Hv as [|? ? Hv1 Hv2]; subst x l.
    destruct (Z.ltb_spec (Z.of_nat v) (Z.of_nat bin)) as [L|L].
    { exists 0, 1. cbn [nth length]. lia. }
    replace (Z.to_nat (Z.of_nat v - Z.of_nat bin)) with (v - bin) by lia.
    destruct (fill_ok (v - bin) m pos (Z.of_nat i)) as (m1 & E1 & L1 & R1); [lia|]. rewrite E1. cbn [bind].
    specialize (IH (S i) v m1 (pos + (v - bin)) Hv2 ltac:(lia) ltac:(lia) ltac:(lia) (pre ++ [v])).
    rewrite <- app_assoc in IH. cbn [app] in IH.
    assert (Hi : match split_loop (zs vs) (S i) (Z.of_nat v) m1 (pos + (v - bin)) with
        | None => False
        | Some None => exists c d, nth d (v :: vs) 0 < nth c (v :: vs) 0 /\ c < d <= length vs
        | Some (Some (bin', m', pos')) => exists b, bin' = Z.of_nat b /\ b <= P /\ pos' = S b /\ length m' = S P /\
          Forall (fun v => v <= b) (pre ++ v :: vs) /\
          (forall k, k <= b -> exists x, rd m' k = Some (Z.of_nat x) /\ x <= length (pre ++ v :: vs) /\
             forall c, c < length (pre ++ v :: vs) -> (nth c (pre ++ v :: vs) 0 < k <-> c < x)) /\
          forall c d, c <= d <= length vs -> nth c (v :: vs) 0 <= nth d (v :: vs) 0
        end).
    { apply IH; clear IH.
      - rewrite app_length. cbn [length]. lia.
      - apply Forall_app. split; [|repeat constructor]. revert Hpre. apply Forall_impl. intros; lia.
      - intros k Hk. destruct (Nat.le_gt_cases k bin) as [Lk|Lk].
        + destruct (H k Lk) as (x & Ex & Hx & Hc). exists x. rewrite R1.
          replace ((pos <=? k) && (k <? pos + (v - bin))) with false by lia. split; [exact Ex|]. split; [lia|].
          intros c Hci. destruct (Nat.eq_dec c i) as [->|Nc].
          * rewrite app_nth2, Lp, Nat.sub_diag by lia. cbn [nth]. lia.
          * rewrite app_nth1 by lia. apply Hc. lia.
        + exists i. rewrite R1. replace ((pos <=? k) && (k <? pos + (v - bin))) with true by lia.
          split; [reflexivity|]. split; [lia|]. intros c Hci. destruct (Nat.eq_dec c i) as [->|Nc].
          * rewrite app_nth2, Lp, Nat.sub_diag by lia. cbn [nth]. lia.
          * rewrite app_nth1 by lia. rewrite Forall_forall in Hpre. specialize (Hpre (nth c pre 0) ltac:(apply nth_In; lia)). lia. }
    unfold zs in Hi. destruct (split_loop (map Z.of_nat vs) (S i) (Z.of_nat v) m1 (pos + (v - bin))) as [[[[bin' m'] pos']|]|]; [| |exact Hi].
    + destruct Hi as (b & H1 & H2 & H3 & H4 & H5 & H6 & H7). exists b. repeat (split; [assumption|]).
      intros c d Hcd. cbn [length] in Hcd. destruct c as [|c], d as [|d]; try lia.
      * cbn [nth]. pose proof (H7 0 d). cbn [nth] in H0. transitivity v; [lia|]. apply H0. lia.
      * cbn [nth]. apply (H7 c d). lia.
    + destruct Hi as (c & d & H2 & H3). exists (S c), (S d). cbn [nth length]. split; [exact H2|lia].
Qed.

Lemma full_map_list (m : list (option nat)) : (forall c, c < length m -> nth c m None <> None) ->
  exists ns, m = map Some ns.
Proof.
  intros H. apply full_list. apply Forall_forall. intros o Ho. apply (In_nth _ _ None) in Ho as (c & Hc & <-). apply H, Hc.
Qed.
Lemma zopt_zs ns : map zopt (map Some ns) = map Some (zs ns).
Proof. unfold zs. rewrite !map_map. reflexivity. Qed.
Lemma nth_some ns c q : nth c (map Some ns) None = Some q <-> c < length ns /\ nth c ns 0 = q.
Proof.
  destruct (Nat.lt_ge_cases c (length ns)) as [L|L].
  - rewrite nth_indep with (d' := Some 0) by (rewrite map_length; lia). rewrite map_nth. split; [intros H; split; [lia|congruence]|intros [_ ->]; reflexivity].
  - rewrite nth_overflow by (rewrite map_length; lia). split; [discriminate|lia].
Qed.

Lemma to_split_ok alloc e p m : alloc_ok alloc -> edge_rep e p m ->
  (full_sorted m -> exists e', to_split_points alloc e = Some (inr e') /\ e_split e' = true /\ edge_rep e' p m) /\
  (~ full_sorted m -> exists err, to_split_points alloc e = Some (inl err)).
Proof.
  intros Ha R. unfold to_split_points. destruct (e_split e) eqn:Es.
  { split; [intros _; exists e; tauto|]. intros Hn. elim Hn. apply edge_rep_split in R as (_ & _ & s & Hs & _); [|exact Es].
    eapply split_full_sorted, Hs. }
  assert (R' := R). apply edge_rep_mapping in R' as (Hp & Hc & Hr & Rv); [|exact Es].
  destruct (is_full_ok _ _ Rv) as (f & -> & Hf). cbn [bind]. destruct f; cbn [negb].
  2:{ split; [|intros _; eexists; reflexivity]. intros [H _]. elim Hf. apply Forall_forall. intros o Ho.
      apply in_map_iff in Ho as (x & <- & Hx). apply (In_nth _ _ None) in Hx as (c & Hc' & <-). specialize (H c Hc').
      destruct (nth c m None); [cbn; discriminate|congruence]. }
  assert (Hm : exists ns, m = map Some ns).
  { apply full_map_list. intros c Hc' En. assert (E : nth c (map zopt m) None = None) by (rewrite zopt_nth, En; reflexivity).
    rewrite Hf in E. assert (L : c < length (vals (e_vals e))) by (rewrite <- (map_length Some), <- Hf, map_length; exact Hc').
    destruct (rd_lt _ _ L) as [x Ex]. unfold rd in Ex. apply (map_nth_error Some) in Ex. rewrite (nth_error_nth _ _ _ Ex) in E. discriminate. }
  destruct Hm as [ns ->]. clear Hf. rewrite zopt_zs in Rv. assert (Hv := rep_full_vals _ _ Rv).
  rewrite Hp. replace (Z.to_nat (Z.of_nat p + 1)) with (S p) by lia.
  destruct (upd_lt (alloc (S p)) 0 0%Z) as [m0 E0]; [rewrite Ha; lia|]. rewrite E0. cbn [bind]. apply upd_spec in E0 as (_ & L0 & R0).
  rewrite Ha in L0. rewrite Hv.
  assert (Hns : Forall (fun v => v < p) ns).
  { apply Forall_forall. intros v Hv'. apply (In_nth _ _ 0) in Hv' as (c & Hc' & <-). apply (Hr c). apply nth_some. tauto. }
  pose proof (split_loop_ok p ns 0 0 m0 1 Hns ltac:(lia) eq_refl L0 [] eq_refl ltac:(constructor)) as Hloop.
  cbn [app Z.of_nat] in Hloop.
  assert (Hstart : forall k, k <= 0 -> exists x, rd m0 k = Some (Z.of_nat x) /\ x <= 0 /\ forall c, c < 0 -> (nth c [] 0 < k <-> c < x)).
  { intros k Hk. assert (k = 0) by lia. subst k. exists 0. rewrite R0. split; [reflexivity|]. split; lia. }
  specialize (Hloop Hstart). destruct (split_loop (zs ns) 0 0%Z m0 1) as [[[[bin m1] pos]|]|]; [| |contradiction]; cbn [bind].
  - destruct Hloop as (b & -> & Hb & -> & L1 & Hle & Hk & Hsort).
    destruct (fill_ok (p - b) m1 (S b) (Z.of_nat (length ns))) as (m2 & E2 & L2 & R2); [lia|].
    assert (Esz : da_size (e_vals e) = length ns) by (unfold da_size; rewrite Hv; apply zs_len). rewrite Esz.
    replace (Z.to_nat (Z.of_nat p - Z.of_nat b)) with (p - b) by lia. rewrite E2. cbn [bind].
    assert (Hk2 : forall k, k <= p -> exists x, rd m2 k = Some (Z.of_nat x) /\ x <= length ns /\ forall c, c < length ns -> (nth c ns 0 < k <-> c < x)).
    { intros k Hkp. rewrite R2. destruct (Nat.le_gt_cases k b) as [Lk|Lk].
      - replace ((S b <=? k) && (k <? S b + (p - b))) with false by lia. apply Hk, Lk.
      - replace ((S b <=? k) && (k <? S b + (p - b))) with true by lia. exists (length ns). split; [reflexivity|]. split; [lia|].
        intros c Hc'. rewrite Forall_forall in Hle. specialize (Hle (nth c ns 0) ltac:(apply nth_In, Hc')). lia. }
    set (s := map Z.to_nat m2).
    assert (Em : m2 = zs s).
    { apply zs_nonneg. intros i x Hx. pose proof (rd_Some_lt _ _ _ Hx). destruct (Hk2 i ltac:(lia)) as (y & Ey & _). assert (x = Z.of_nat y) by congruence. lia. }
    assert (Ls : length s = S p) by (unfold s; rewrite map_length; lia).
    assert (Hsk : forall k, k <= p -> nth k s 0 <= length ns /\ forall c, c < length ns -> (nth c ns 0 < k <-> c < nth k s 0)).
    { intros k Hkp. destruct (Hk2 k Hkp) as (x & Ex & Hx). rewrite Em, rd_zs in Ex by lia.
      assert (Z.of_nat (nth k s 0) = Z.of_nat x) by congruence. assert (nth k s 0 = x) by lia. subst x. exact Hx. }
    assert (Hso : split_of s p (map Some ns)).
    { split; [split; [|split]|split; [exact Ls|split]].
      - intros Z. rewrite Z in Ls. discriminate.
      - destruct (Hsk 0 ltac:(lia)) as [H1 H2]. destruct (nth 0 s 0) as [|x] eqn:Ex; [reflexivity|]. specialize (H2 0). lia.
      - intros i j Hij. destruct (Hsk i ltac:(lia)) as [H1 H2]. destruct (Hsk j ltac:(lia)) as [H3 H4].
        destruct (Nat.le_gt_cases (nth i s 0) (nth j s 0)) as [|L]; [assumption|].
        specialize (H2 (nth j s 0)). specialize (H4 (nth j s 0)). lia.
      - rewrite map_length. destruct (Hsk p ltac:(lia)) as [H1 H2].
        destruct (Nat.lt_ge_cases (nth p s 0) (length ns)) as [L|L]; [|lia].
        rewrite Forall_forall in Hns. specialize (Hns (nth (nth p s 0) ns 0) ltac:(apply nth_In, L)). specialize (H2 (nth p s 0)). lia.
      - intros q c Hq Hc'. apply nth_some. destruct (Hsk q ltac:(lia)) as [H1 H2]. destruct (Hsk (S q) ltac:(lia)) as [H3 H4].
        split; [lia|]. specialize (H2 c). specialize (H4 c). lia. }
    destruct (unsafe_split_ok (mkD m2 [] 0) s p (map Some ns)) as (e' & E & S' & _ & Re'); [rewrite Em; apply rep_plain|exact Hso|].
    rewrite E. cbn [bind]. split; [intros _; exists e'; tauto|]. intros Hn. elim Hn. eapply split_full_sorted, Hso.
  - split; [|intros _; eexists; reflexivity]. intros [_ Hs]. destruct Hloop as (c & d & H2 & H3).
    exfalso. destruct c as [|c]; [cbn in H2; lia|]. destruct d as [|d]; [lia|]. cbn [nth] in H2.
    specialize (Hs c d (nth c ns 0) (nth d ns 0) ltac:(lia)). rewrite !nth_some in Hs. lia.
Qed.

Lemma zopt_inj m m' : map zopt m = map zopt m' -> m = m'.
Proof.
  revert m'; induction m as [|x m IH]; intros [|y m'] H; try discriminate; [reflexivity|].
  cbn [map] in H. assert (H1 : zopt x = zopt y) by congruence. assert (H2 : map zopt m = map zopt m') by congruence.
  f_equal; [|apply IH, H2]. destruct x, y; cbn in H1; try discriminate; [|reflexivity]. f_equal. assert (Z.of_nat n = Z.of_nat n0) by congruence. lia.
Qed.
Lemma zs_map_inj s t : map Some (zs s) = map Some (zs t) <-> s = t.
Proof. split; [intros H; apply zs_inj, map_Some_inj, H|congruence]. Qed.

Lemma split_equiv e e' p m m' : e_split e = true -> e_split e' = true -> edge_rep e p m -> edge_rep e' p m' ->
  exists r, da_equivalent Z.eqb (e_vals e) (e_vals e') = Some r /\ (r = true <-> m = m').
Proof.
  intros S1 S2 R1 R2. apply edge_rep_split in R1 as (_ & _ & s & Hs & Rs); [|exact S1].
  apply edge_rep_split in R2 as (_ & _ & t & Ht & Rt); [|exact S2].
  destruct (rep_equivalent Z.eqb _ _ _ _ Z.eqb_eq Rs Rt) as (r & E & H). exists r. split; [exact E|]. rewrite H, zs_map_inj.
  split; intros ->; [eapply split_unique_m; eassumption|eapply split_unique_s; eassumption].
Qed.

Lemma full_sorted_dec m : full_sorted m \/ ~ full_sorted m.
Proof.
  (* decide through the conversion itself *)
  set (p := S (fold_right Nat.max 0 (map (fun o => match o with Some q => q | None => 0 end) m))).
  assert (Hp : forall c q, nth c m None = Some q -> q < p).
  { unfold p. clear p. induction m as [|o m IH]; intros c q Hc; [destruct c; discriminate|].
    cbn [map fold_right]. destruct c as [|c]; cbn [nth] in Hc; [subst o; lia|]. specialize (IH c q Hc). lia. }
  set (e := unsafe_from_mapping (mkD (map (fun o => match zopt o with Some z => z | None => 0%Z end) m) [] 0) (Z.of_nat p)).
  destruct (forallb is_some m) eqn:Ef.
  2:{ right. intros [H _]. assert (forallb is_some m = true); [|congruence]. apply forallb_forall. intros o Ho.
      apply (In_nth _ _ None) in Ho as (c & Hc & <-). specialize (H c Hc). destruct (nth c m None); [reflexivity|congruence]. }
  assert (R : edge_rep e p m).
  { apply unsafe_mapping_ok; [|exact Hp]. replace (map zopt m) with (map Some (map (fun o => match zopt o with Some z => z | None => 0%Z end) m)); [apply rep_plain|].
    rewrite map_map. apply map_ext_in. intros o Ho. rewrite forallb_forall in Ef. specialize (Ef o Ho). destruct o; [reflexivity|discriminate]. }
  destruct (to_split_ok (fun n => repeat 0%Z n) e p m (repeat_length 0%Z) R) as [H1 H2].
  destruct (to_split_points (fun n => repeat 0%Z n) e) as [[err|e']|] eqn:E.
  - right. intros H. destruct (H1 H) as (x & Ex & _). congruence.
  - left. (* sorted: otherwise the conversion would fail *)
    assert (Hd : forall ns, (forall c d, c <= d < length ns -> nth c ns 0 <= nth d ns 0) \/ exists c d, c <= d < length ns /\ nth d ns 0 < nth c ns 0).
    { clear. induction ns as [|x ns IH]; [left; cbn; lia|].
      destruct IH as [IH|(c & d & H & H')]; [|right; exists (S c), (S d); cbn [length nth]; split; [lia|exact H']].
      destruct ns as [|y ns]; [left; intros c d; cbn [length]; intros; assert (c = 0) by lia; assert (d = 0) by lia; subst; lia|].
      destruct (Nat.le_gt_cases x y) as [L|L]; [left|right; exists 0, 1; cbn [length nth]; lia].
      intros c d Hcd. cbn [length] in *. destruct c as [|c], d as [|d]; cbn [nth]; try lia.
      - transitivity y; [exact L|]. apply (IH 0 d). lia.
      - apply (IH c d). lia. }
    assert (Hfull : forall c, c < length m -> nth c m None <> None).
    { intros c Hc Hn. rewrite forallb_forall in Ef. specialize (Ef (nth c m None) (nth_In _ _ Hc)). rewrite Hn in Ef. discriminate. }
    destruct (full_map_list m Hfull) as [ns ->]. split; [exact Hfull|]. destruct (Hd ns) as [H|(c & d & H & H')].
    + intros c d q r Hcd Hq Hr. apply nth_some in Hq as [Lq <-]. apply nth_some in Hr as [Lr <-]. apply H. lia.
    + destruct H2 as [err Herr]; [|congruence]. intros [_ Hs]. specialize (Hs c d (nth c ns 0) (nth d ns 0) ltac:(lia)).
      rewrite !nth_some in Hs. lia.
  - right. intros H. destruct (H1 H) as (x & Ex & _). congruence.
Qed.

Lemma is_equivalent_ok alloc e e' p p' m m' : alloc_ok alloc -> edge_rep e p m -> edge_rep e' p' m' ->
  exists r, is_equivalent alloc e e' = Some r /\ (r = true <-> p = p' /\ m = m').
Proof.
  intros Ha R R'. unfold is_equivalent.
  assert (Hp : e_parent e = Z.of_nat p) by apply R. assert (Hp' : e_parent e' = Z.of_nat p') by apply R'.
  assert (Hc : e_child e = Z.of_nat (length m)) by apply R. assert (Hc' : e_child e' = Z.of_nat (length m')) by apply R'.
  rewrite Hp, Hp', Hc, Hc'.
  destruct (Z.eqb_spec (Z.of_nat p) (Z.of_nat p')) as [Ep|Np]; cbn [negb orb].
  2:{ exists false. split; [reflexivity|]. split; [discriminate|]. intros [-> _]. congruence. }
  assert (p = p') by lia. subst p'.
  destruct (Z.eqb_spec (Z.of_nat (length m)) (Z.of_nat (length m'))) as [Em|Nm]; cbn [negb].
  2:{ exists false. split; [reflexivity|]. split; [discriminate|]. intros [_ ->]. congruence. }
  assert (G : forall x y mx my, edge_rep x p mx -> edge_rep y p my -> e_split x <> e_split y ->
     exists r, (let? x' := to_split_points alloc x in match x' with inl _ => Some false | inr a' =>
       let? y' := to_split_points alloc y in match y' with inl _ => Some false | inr b' => da_equivalent Z.eqb (e_vals a') (e_vals b') end end) = Some r /\
       (r = true <-> mx = my)).
  { intros x y mx my Rx Ry Hxy. destruct (to_split_ok alloc x p mx Ha Rx) as [X1 X2]. destruct (to_split_ok alloc y p my Ha Ry) as [Y1 Y2].
    assert (Hone : full_sorted mx \/ full_sorted my).
    { destruct (e_split x) eqn:Sx.
      - left. apply edge_rep_split in Rx as (_ & _ & s & Hs & _); [|exact Sx]. eapply split_full_sorted, Hs.
      - right. destruct (e_split y) eqn:Sy; [|congruence]. apply edge_rep_split in Ry as (_ & _ & s & Hs & _); [|exact Sy]. eapply split_full_sorted, Hs. }
    destruct (full_sorted_dec mx) as [Fx|Fx].
    - destruct (X1 Fx) as (x' & -> & S1 & R1). cbn [bind]. destruct (full_sorted_dec my) as [Fy|Fy].
      + destruct (Y1 Fy) as (y' & -> & S2 & R2). cbn [bind]. apply (split_equiv x' y' p mx my); assumption.
      + destruct (Y2 Fy) as (er & ->). cbn [bind]. exists false. split; [reflexivity|]. split; [discriminate|]. intros ->. contradiction.
    - destruct (X2 Fx) as (er & ->). cbn [bind]. exists false. split; [reflexivity|]. split; [discriminate|]. intros ->. tauto. }
  destruct (e_split e) eqn:S1, (e_split e') eqn:S2; cbn [Bool.eqb].
  - destruct (split_equiv e e' p m m' S1 S2 R R') as (r & E & H). exists r. split; [exact E|]. rewrite H. tauto.
  - destruct (G e e' m m' R R') as (r & E & H); [congruence|]. exists r. split; [exact E|]. rewrite H. tauto.
  - destruct (G e e' m m' R R') as (r & E & H); [congruence|]. exists r. split; [exact E|]. rewrite H. tauto.
  - apply edge_rep_mapping in R as (_ & _ & _ & Rv); [|exact S1]. apply edge_rep_mapping in R' as (_ & _ & _ & Rv'); [|exact S2].
    destruct (rep_equivalent Z.eqb _ _ _ _ Z.eqb_eq Rv Rv') as (r & E & H). exists r. split; [exact E|]. rewrite H.
    split; [intros Hz; split; [reflexivity|apply zopt_inj, Hz]|intros [_ ->]; reflexivity].
Qed.

Lemma children_prefix s q : mono s -> forall n, n < length s ->
  children (flat_map (fun q => repeat (Some q) (nth (S q) s 0 - nth q s 0)) (seq 0 n)) q =
  if q <? n then nth (S q) s 0 - nth q s 0 else 0.
Proof.
  intros Hm. induction n as [|n IH]; intros Hn; [reflexivity|].
  rewrite seq_S, flat_map_app. unfold children in *. rewrite filter_app, app_length, IH by lia. cbn [Nat.add flat_map]. rewrite app_nil_r.
  assert (Hr : forall k, length (filter (fun o => match o with Some r => r =? q | None => false end) (repeat (Some n) k)) = if n =? q then k else 0).
  { induction k as [|k IHk]; [destruct (n =? q); reflexivity|]. cbn [repeat filter]. destruct (n =? q); [cbn [length]; lia|exact IHk]. }
  rewrite Hr. destruct (Nat.eqb_spec n q) as [->|N].
  - replace (q <? q) with false by lia. replace (q <? S q) with true by lia. lia.
  - destruct (Nat.ltb_spec q n); [replace (q <? S n) with true by lia|replace (q <? S n) with false by lia]; lia.
Qed.
Lemma split_size_ok e p m i : edge_rep e p m -> e_split e = true -> i < p ->
  split_size e i = Some (Z.of_nat (children m i)).
Proof.
  intros R Hsp Hi. apply edge_rep_split in R as (_ & _ & s & Hs & Rv); [|exact Hsp]. unfold split_size.
  assert (Hl : length s = S p) by apply Hs. rewrite (rep_full_vals _ _ Rv), !rd_zs by lia. cbn [bind]. f_equal.
  assert (E : m = split_mapping s).
  { eapply split_unique_m; [exact Hs|]. pose proof (split_mapping_ok s (proj1 Hs)) as H. replace p with (length s - 1) by lia. exact H. }
  assert (Hm : mono s) by exact (proj2 (proj2 (proj1 Hs))).
  rewrite E. unfold split_mapping. rewrite children_prefix by (assumption || lia). replace (i <? length s - 1) with true by lia.
  pose proof (Hm i (i + 1)). rewrite Nat.add_1_r in *. lia.
Qed.

(** ** Composition *)
Lemma compose2_len m1 m2 : length (compose2 m1 m2) = length m2.
Proof. apply map_length. Qed.
Lemma compose2_nth m1 m2 c : nth c (compose2 m1 m2) None = match nth c m2 None with Some q => nth q m1 None | None => None end.
Proof. unfold compose2. exact (map_nth (fun o => match o with Some q => nth q m1 None | None => None end) m2 None c). Qed.
Lemma compose2_assoc a b c : compose2 (compose2 a b) c = compose2 a (compose2 b c).
Proof.
  unfold compose2 at 1 3 4. rewrite map_map. apply map_ext. intros [q|]; [|reflexivity]. apply compose2_nth.
Qed.

Lemma nth_map0 (f : nat -> nat) (l : list nat) k : k < length l -> nth k (map f l) 0 = f (nth k l 0).
Proof. intros H. rewrite nth_indep with (d' := f 0) by (rewrite map_length; lia). apply map_nth. Qed.
Lemma split_compose s1 p1 m1 s2 m2 : split_of s1 p1 m1 -> split_of s2 (length m1) m2 ->
  split_of (map (fun x => nth x s2 0) s1) p1 (compose2 m1 m2).
Proof.
  intros H1 H2. assert (L1 : length s1 = S p1) by apply H1. assert (L2 : length s2 = S (length m1)) by apply H2.
  assert (M1 : mono s1) by exact (proj2 (proj2 (proj1 H1))). assert (M2 : mono s2) by exact (proj2 (proj2 (proj1 H2))).
  assert (Hb : forall k, k <= p1 -> nth k s1 0 <= length m1) by (intros k; apply split_le, H1).
  set (f := fun x => nth x s2 0).
  assert (N : forall k, k <= p1 -> nth k (map f s1) 0 = nth (nth k s1 0) s2 0).
  { intros k Hk. rewrite nth_indep with (d' := f 0) by (rewrite map_length; lia). rewrite map_nth. reflexivity. }
  split; [split; [|split]|split; [|split]].
  - intros Z. apply (f_equal (@length nat)) in Z. rewrite map_length in Z. cbn in Z. lia.
  - rewrite N by lia. destruct H1 as ((_ & -> & _) & _). apply H2.
  - rewrite map_length. intros i j Hij. rewrite !N by lia. pose proof (M1 i j). pose proof (Hb j). apply M2. lia.
  - rewrite map_length. exact L1.
  - rewrite N by lia. destruct H1 as (_ & _ & -> & _). rewrite compose2_len. apply H2.
  - intros q c Hq Hc. rewrite !N in Hc by lia. rewrite compose2_nth.
    assert (Hcl : c < length m2). { pose proof (split_le s2 (length m1) m2 (nth (S q) s1 0) H2). pose proof (Hb (S q)). lia. }
    destruct (split_parent s2 _ m2 c H2 Hcl) as (r & Hr & Hrange & ->).
    destruct H1 as (_ & _ & _ & H1). apply H1; [exact Hq|]. pose proof (Hb q). pose proof (Hb (S q)).
    pose proof (M2 (S r) (nth q s1 0)). pose proof (M2 (nth (S q) s1 0) r). lia.
Qed.

Lemma compose_row_ok s2 cur : (forall k, k < length cur -> nth k cur 0 < length s2) -> forall n j prev out,
  j + n = length cur -> length out = length cur -> match prev with Some p => p = zs cur | None => forall k, j <= k -> rd out k = rd (zs cur) k end ->
  exists out', compose_row (zs s2) prev out j n = Some out' /\ length out' = length cur /\
    forall k, k < length cur -> rd out' k = if k <? j then rd out k else Some (Z.of_nat (nth (nth k cur 0) s2 0)).
Proof.
  intros Hb. induction n as [|n IH]; intros j prev out Hj Lo Hp; cbn [compose_row].
  - exists out. split; [reflexivity|]. split; [exact Lo|]. intros k Hk. replace (k <? j) with true by lia. reflexivity.
  - assert (Er : match prev with Some p => rd p j | None => rd out j end = Some (Z.of_nat (nth j cur 0))).
    { destruct prev as [p|]; [subst p|rewrite Hp by lia]; apply rd_zs; lia. }
    rewrite Er. cbn [bind]. unfold rdz. assert (En : forall x : nat, (Z.of_nat x <? 0)%Z = false) by lia. rewrite En.
    rewrite Nat2Z.id, rd_zs by (apply Hb; lia). cbn [bind].
    destruct (upd_lt out j (Z.of_nat (nth (nth j cur 0) s2 0))) as [o1 E1]; [lia|]. rewrite E1. cbn [bind].
    apply upd_spec in E1 as (_ & L1 & R1).
    destruct (IH (S j) prev o1) as (o2 & E2 & L2 & R2); [lia|lia| |].
    { destruct prev; [exact Hp|]. intros k Hk. rewrite R1. replace (k =? j) with false by lia. apply Hp. lia. }
    exists o2. split; [exact E2|]. split; [exact L2|]. intros k Hk. rewrite R2, R1 by exact Hk.
    destruct (Nat.ltb_spec k (S j)), (Nat.ltb_spec k j), (Nat.eqb_spec k j); try lia; try reflexivity. subst k. reflexivity.
Qed.

Lemma compose_row_eq s2 cur prev out : (forall k, k < length cur -> nth k cur 0 < length s2) ->
  length out = length cur -> match prev with Some p => p = zs cur | None => out = zs cur end ->
  compose_row (zs s2) prev out 0 (length out) = Some (zs (map (fun x => nth x s2 0) cur)).
Proof.
  intros Hb Lo Hp. rewrite Lo.
  destruct (compose_row_ok s2 cur Hb (length cur) 0 prev out eq_refl Lo) as (o & E & L & R).
  { destruct prev; [exact Hp|]. intros k _. rewrite Hp. reflexivity. }
  rewrite E. f_equal. apply list_eq_rd. intros k. destruct (Nat.lt_ge_cases k (length cur)) as [Lk|Lk].
  - rewrite R by exact Lk. cbn [Nat.ltb Nat.leb]. rewrite rd_zs by (rewrite map_length; exact Lk). f_equal. f_equal.
    symmetry. apply (nth_map0 (fun x => nth x s2 0)). exact Lk.
  - transitivity (@None Z); [|symmetry]; apply rd_None_ge; [lia|]. rewrite zs_len, map_length. lia.
Qed.

Lemma chain_nonempty es p m : chain_rep es p m -> es <> [].
Proof. intros H. destruct H; discriminate. Qed.

Lemma compose_rows_ok es P m2 : chain_rep es P m2 -> forallb e_split es = true ->
  forall cur p1 m1 prev out, P = length m1 -> split_of cur p1 m1 -> length out = length cur ->
  match prev with Some p => p = zs cur | None => out = zs cur end ->
  exists s, compose_rows es prev out = Some (zs s) /\ split_of s p1 (compose2 m1 m2).
Proof.
  induction 1 as [e P m R|e P mm es m2 R _ IH]; intros Hs cur p1 m1 prev out HP Hcur Lo Hp; cbn [compose_rows];
    cbn [forallb] in Hs; apply andb_true_iff in Hs as [Hs1 Hs2].
  - apply edge_rep_split in R as (_ & _ & s & Hs & Rv); [|exact Hs1]. rewrite (rep_full_vals _ _ Rv). subst P.
    assert (Ls : length s = S (length m1)) by apply Hs. assert (Lc : length cur = S p1) by apply Hcur.
    rewrite (compose_row_eq s cur prev out); [|intros k Hk; pose proof (split_le cur p1 m1 k Hcur); lia|exact Lo|exact Hp].
    cbn [bind]. eexists. split; [reflexivity|]. apply split_compose; assumption.
  - apply edge_rep_split in R as (_ & _ & s & Hs & Rv); [|exact Hs1]. rewrite (rep_full_vals _ _ Rv). subst P.
    assert (Ls : length s = S (length m1)) by apply Hs. assert (Lc : length cur = S p1) by apply Hcur.
    rewrite (compose_row_eq s cur prev out); [|intros k Hk; pose proof (split_le cur p1 m1 k Hcur); lia|exact Lo|exact Hp].
    cbn [bind]. rewrite <- compose2_assoc.
    apply (IH Hs2 (map (fun x => nth x s 0) cur) p1 (compose2 m1 mm) None); [rewrite compose2_len; reflexivity| | |reflexivity].
    + apply split_compose; assumption.
    + apply zs_len.
Qed.

Lemma compose_split_points_ok alloc e es p m : alloc_ok alloc -> es <> [] -> chain_rep (e :: es) p m -> forallb e_split (e :: es) = true ->
  exists r, compose_split_points alloc e es = Some r /\ e_split r = true /\ edge_rep r p m.
Proof.
  intros Ha Hne H Hs. cbn [forallb] in Hs. apply andb_true_iff in Hs as [Hs1 Hs2].
  inversion H as [|? ? m1 ? m2 R1 H2]; subst; [congruence|].
  apply edge_rep_split in R1 as (_ & _ & s & Hsp & Rv); [|exact Hs1]. unfold compose_split_points, da_size.
  rewrite (rep_full_vals _ _ Rv).
  destruct (compose_rows_ok es _ m2 H2 Hs2 s p m1 (Some (zs s)) (alloc (length (zs s))) eq_refl Hsp) as (s' & E & Hs'); [rewrite Ha; apply zs_len|reflexivity|].
  rewrite E. cbn [bind]. destruct (unsafe_split_ok (mkD (zs s') [] 0) s' p _ (rep_plain _) Hs') as (r & Er & S & _ & R).
  exists r. tauto.
Qed.

Lemma chain_app a : forall b p m, a <> [] -> b <> [] -> chain_rep (a ++ b) p m ->
  exists m1 m2, chain_rep a p m1 /\ chain_rep b (length m1) m2 /\ m = compose2 m1 m2.
Proof.
  induction a as [|e a IH]; intros b p m Ha Hb H; [congruence|]. cbn [app] in H.
  destruct (a ++ b) as [|x t] eqn:Eab; [exfalso; destruct a; cbn in Eab; congruence|].
  inversion H as [|? ? m1 ? m2 R1 H2]; subst. rewrite <- Eab in *.
  destruct a as [|e' a].
  - cbn [app] in H2. exists m1, m2. split; [constructor; exact R1|]. split; [exact H2|reflexivity].
  - destruct (IH b (length m1) m2 ltac:(discriminate) Hb H2) as (ma & mb & Hma & Hmb & ->).
    exists (compose2 m1 ma), mb. split; [constructor; assumption|]. split; [rewrite compose2_len; exact Hmb|].
    symmetry. apply compose2_assoc.
Qed.
Lemma chain_join a p m1 : chain_rep a p m1 -> forall b m2, chain_rep b (length m1) m2 -> chain_rep (a ++ b) p (compose2 m1 m2).
Proof.
  induction 1 as [e p m R|e p ma es mb R _ IH]; intros b m2 Hb; cbn [app].
  - constructor; assumption.
  - rewrite compose2_assoc. constructor; [exact R|]. apply IH. rewrite compose2_len in Hb. exact Hb.
Qed.
Lemma chain_single e p m : chain_rep [e] p m -> edge_rep e p m.
Proof. intros H. inversion H as [|? ? ? ? ? ? H2]; subst; [assumption|]. inversion H2. Qed.
Lemma chain_range es p m : chain_rep es p m -> forall c q, nth c m None = Some q -> q < p.
Proof.
  induction 1 as [e p m R|e p m1 es m2 R H2 IH]; intros c q Hc.
  - apply R in Hc. exact Hc.
  - rewrite compose2_nth in Hc. destruct (nth c m2 None) as [r|]; [|discriminate]. apply R in Hc. exact Hc.
Qed.

(** Mapping composition through the builder. *)
Lemma list_write_one {A} (pre : list (option A)) o rest v : list_write (pre ++ o :: rest) (length pre) 1 (Some v) = pre ++ Some v :: rest.
Proof.
  unfold list_write. rewrite firstn_app, Nat.sub_diag, firstn_all, firstn_O, app_nil_r. f_equal. cbn [repeat app]. f_equal.
  rewrite skipn_app. rewrite skipn_all2 by lia. replace (length pre + 1 - length pre) with 1 by lia. reflexivity.
Qed.
Lemma compose_writes (f : Z -> option Z) : forall (l : list (option Z)) pre,
  fold_left list_wr (map (fun c : nat * Z => WSet (fst c) (f (snd c)))
      (flat_map (fun c => match snd c with Some v => [(fst c, v)] | None => [] end) (combine (seq (length pre) (length l)) l)))
    (pre ++ repeat None (length l)) = pre ++ map (fun o => match o with Some v => f v | None => None end) l.
Proof.
  induction l as [|o l IH]; intros pre; [reflexivity|]. cbn [length seq combine flat_map map repeat]. cbn [fst snd].
  assert (E : forall x, fold_left list_wr (map (fun c : nat * Z => WSet (fst c) (f (snd c)))
     (flat_map (fun c => match snd c with Some v => [(fst c, v)] | None => [] end) (combine (seq (S (length pre)) (length l)) l)))
     (pre ++ x :: repeat None (length l)) = pre ++ x :: map (fun o => match o with Some v => f v | None => None end) l).
  { intros x. specialize (IH (pre ++ [x])). rewrite <- !app_assoc in IH. rewrite app_length in IH. cbn [length app] in IH.
    rewrite Nat.add_1_r in IH. exact IH. }
  destruct o as [v|].
  - cbn [app map fold_left]. rewrite <- E. f_equal. cbn [list_wr fst snd]. destruct (f v) as [w|]; [apply list_write_one|reflexivity].
  - cbn [app]. apply E.
Qed.

Lemma set_all_ok me (m1 : list (option nat)) : represents me (map zopt m1) -> forall ps b,
  Forall (fun c : nat * Z => (0 <= snd c < Z.of_nat (length m1))%Z) ps ->
  set_all b me ps = wr_runs b (map (fun c : nat * Z => WSet (fst c) (nth (Z.to_nat (snd c)) (map zopt m1) None)) ps).
Proof.
  intros R. induction ps as [|[id v] ps IH]; intros b H; [reflexivity|]. inversion H as [|? ? H1 H2]; subst. cbn [snd] in H1.
  cbn [set_all map wr_runs wr_run fst snd]. replace (v <? 0)%Z with false by lia.
  destruct R as (R1 & R2 & R3). rewrite R3 by (rewrite map_length; lia). cbn [bind].
  destruct (db_set b id _); [|reflexivity]. cbn [bind]. apply IH, H2.
Qed.

Lemma present_pairs_in {A} (l : list (option A)) i v : In (i, v) (present_pairs l) -> i < length l /\ nth i l None = Some v.
Proof.
  unfold present_pairs. intros H. apply in_flat_map in H as ([j o] & Hin & H). cbn [fst snd] in H.
  destruct o as [w|]; [|destruct H]. destruct H as [H|[]]. assert (j = i) by congruence. assert (w = v) by congruence. subst.
  apply (In_nth _ _ (0, None)) in Hin as (k & Hk & E). rewrite combine_length, seq_length in Hk.
  rewrite combine_nth in E by apply seq_length. rewrite seq_nth in E by lia. cbn [Nat.add] in E.
  assert (k = i) by congruence. subst k. split; [lia|congruence].
Qed.

Lemma compose_step alloc me m1 x a : alloc_ok alloc -> represents me (map zopt m1) -> represents a (map zopt x) ->
  (forall c q, nth c x None = Some q -> q < length m1) ->
  exists b, (let? ps := da_for_each_present a in set_all (db_init (alloc (length x))) me ps) = Some b /\
    represents (db_build b) (map zopt (compose2 m1 x)).
Proof.
  intros Ha Rm Rx Hx. rewrite (rep_for_each_present a _ Rx). cbn [bind].
  assert (HF : Forall (fun c : nat * Z => (0 <= snd c < Z.of_nat (length m1))%Z /\ fst c < length x) (present_pairs (map zopt x))).
  { apply Forall_forall. intros [i v] Hin. apply present_pairs_in in Hin as [Hi E]. rewrite map_length in Hi. rewrite zopt_nth in E.
    destruct (nth i x None) as [q|] eqn:Eq; [|discriminate]. cbn in E. assert (v = Z.of_nat q) by congruence. specialize (Hx i q Eq). cbn [fst snd]. lia. }
  rewrite (set_all_ok me m1 Rm) by (revert HF; apply Forall_impl; tauto).
  set (g := fun v : Z => nth (Z.to_nat v) (map zopt m1) None).
  destruct (rep_builder (alloc (length x)) (map (fun c : nat * Z => WSet (fst c) (g (snd c))) (present_pairs (map zopt x)))) as (b & E & R & _).
  { rewrite Ha. apply Forall_forall. intros w Hw. apply in_map_iff in Hw as (c & <- & Hc). rewrite Forall_forall in HF. cbn [wr_in]. apply HF, Hc. }
  exists b. split; [exact E|]. rewrite Ha in R.
  pose proof (compose_writes g (map zopt x) []) as Hw. cbn [length app] in Hw. rewrite map_length in Hw.
  unfold present_pairs in R. rewrite map_length in R. rewrite Hw in R.
  replace (map zopt (compose2 m1 x)) with (map (fun o => match o with Some v => g v | None => None end) (map zopt x)); [exact R|].
  unfold compose2. rewrite !map_map. apply map_ext. intros [q|]; [|reflexivity]. cbn [zopt option_map]. unfold g. rewrite Nat2Z.id. apply zopt_nth.
Qed.

Lemma compose_loop_ok alloc n : alloc_ok alloc -> forall before p m x a, chain_rep before p m ->
  represents a (map zopt x) -> length x = n -> (forall c q, nth c x None = Some q -> q < length m) ->
  exists r, compose_mapping_loop alloc n (rev before) a = Some r /\ represents r (map zopt (compose2 m x)).
Proof.
  intros Ha. induction before as [|e before IH] using rev_ind; intros p m x a Hc R Ln Hx; [inversion Hc|].
  rewrite rev_app_distr. cbn [rev app compose_mapping_loop].
  assert (G : forall P me mx', edge_rep me P mx' -> (forall c q, nth c x None = Some q -> q < length mx') ->
     exists mp b, to_mapping alloc me = Some mp /\ (let? ps := da_for_each_present a in set_all (db_init (alloc n)) (e_vals mp) ps) = Some b /\
       represents (db_build b) (map zopt (compose2 mx' x))).
  { intros P me mx' Re Hx'. destruct (to_mapping_ok alloc me P mx' Ha Re) as (mp & E & S & Rp).
    apply edge_rep_mapping in Rp as (_ & _ & _ & Rv); [|exact S].
    destruct (compose_step alloc (e_vals mp) mx' x a Ha Rv R Hx') as (b & Eb & Rb). subst n. exists mp, b. tauto. }
  destruct before as [|e0 before].
  - apply chain_single in Hc. destruct (G p e m Hc Hx) as (mp & b & E & Eb & Rb). rewrite E. cbn [bind].
    destruct (da_for_each_present a) as [ps|]; [|discriminate]. cbn [bind] in *. rewrite Eb. cbn [bind rev compose_mapping_loop].
    eexists. split; [reflexivity|exact Rb].
  - apply chain_app in Hc as (ma & mb & Hma & Hmb & ->); [|discriminate|discriminate]. apply chain_single in Hmb.
    destruct (G _ e mb Hmb) as (mp & b & E & Eb & Rb). { intros c q Hcq. apply Hx in Hcq. rewrite compose2_len in Hcq. exact Hcq. }
    rewrite E. cbn [bind]. destruct (da_for_each_present a) as [ps|]; [|discriminate]. cbn [bind] in *. rewrite Eb. cbn [bind].
    rewrite compose2_assoc. apply (IH p ma (compose2 mb x)); [exact Hma|exact Rb|rewrite compose2_len; exact Ln|].
    intros c q Hcq. rewrite compose2_nth in Hcq. destruct (nth c x None) as [r|]; [|discriminate].
    exact (proj1 (proj2 (proj2 Hmb)) _ _ Hcq).
Qed.

Lemma chain_first e es p m : chain_rep (e :: es) p m -> e_parent e = Z.of_nat p.
Proof. intros H. inversion H as [? ? ? R|? ? ? ? ? R]; subst; apply R. Qed.

Lemma compose_mapping_ok alloc es p m : alloc_ok alloc -> chain_rep es p m -> 2 <= length es ->
  exists r, compose_mapping alloc es = Some r /\ e_split r = false /\ edge_rep r p m.
Proof.
  intros Ha H Hl. assert (Hr := chain_range _ _ _ H). unfold compose_mapping.
  destruct es as [|e0 es0]; [cbn in Hl; lia|].
  destruct (exists_last (l := e0 :: es0) ltac:(discriminate)) as (before & last & El).
  assert (Hfirst := chain_first _ _ _ _ H). rewrite El. rewrite rev_app_distr. cbn [rev app].
  assert (Hb : before <> []). { intros ->. apply (f_equal (@length edge)) in El. cbn [app length] in *. lia. }
  rewrite El in H. apply chain_app in H as (m1 & m2 & H1 & H2 & ->); [|exact Hb|discriminate]. apply chain_single in H2.
  destruct (to_mapping_ok alloc last _ m2 Ha H2) as (lm & E & S & Rl). 
  apply edge_rep_mapping in Rl as (Hp & Hc & Hx & Rv); [|exact S].
  assert (Ec : e_child last = Z.of_nat (length m2)) by apply H2.
  destruct (compose_loop_ok alloc (length m2) Ha before p m1 m2 (e_vals lm) H1 Rv eq_refl Hx) as (r & Er & Rr).
  destruct (before ++ [last]) as [|f0 t0] eqn:Eb; [destruct before; discriminate|].
  rewrite E. cbn [bind]. rewrite Ec, Nat2Z.id, Er. cbn [bind]. eexists. split; [reflexivity|]. split; [reflexivity|].
  assert (f0 = e0) by congruence. subst f0. rewrite Hfirst. apply unsafe_mapping_ok; [exact Rr|exact Hr].
Qed.

Lemma split_run_ok es : let '(r, rest) := split_run es in es = r ++ rest /\ forallb e_split r = true /\
  match rest with e :: _ => e_split e = false | [] => True end.
Proof.
  induction es as [|e t IH]; cbn [split_run]; [repeat split|]. destruct (e_split e) eqn:E.
  - destruct (split_run t) as [r rest]. destruct IH as (-> & H1 & H2). cbn [app forallb]. rewrite E. repeat split; assumption.
  - cbn [app forallb]. repeat split. exact E.
Qed.

Lemma transform_ok alloc fuel : alloc_ok alloc -> forall es p m, chain_rep es p m -> length es <= fuel ->
  exists ts, transform_edges alloc fuel es = Some ts /\ chain_rep ts p m /\ length ts <= length es /\
    (forallb e_split es = true -> exists t, ts = [t] /\ e_split t = true) /\
    (forallb e_split es = false -> forallb e_split ts = false).
Proof.
  intros Ha. induction fuel as [|fuel IH]; intros es p m H Hf.
  { destruct es; [inversion H|cbn in Hf; lia]. }
  destruct es as [|e t]; [inversion H|]. cbn [transform_edges].
  pose proof (split_run_ok (e :: t)) as Hrun. destruct (split_run (e :: t)) as [run rest] eqn:Erun.
  destruct Hrun as (Eq & Hall & Hrest).
  assert (Hone : (run = [] \/ exists a, run = [a]) ->
     exists ts, (let? r := transform_edges alloc fuel t in Some (e :: r)) = Some ts /\ chain_rep ts p m /\ length ts <= length (e :: t) /\
       (forallb e_split (e :: t) = true -> exists t, ts = [t] /\ e_split t = true) /\
       (forallb e_split (e :: t) = false -> forallb e_split ts = false)).
  { intros Hr. assert (Hnot : t <> [] -> forallb e_split (e :: t) = false).
    { intros Ht. destruct Hr as [->|[a ->]]; cbn [app] in Eq.
      - subst rest. cbn [forallb]. rewrite Hrest. reflexivity.
      - assert (t = rest) by congruence. subst t. destruct rest as [|y rest]; [congruence|]. cbn [forallb]. rewrite Hrest.
        cbn [andb]. apply andb_false_r. }
    inversion H as [? ? ? R|? ? m1 ? m2 R1 H2]; subst.
    - exists [e]. assert (Et : transform_edges alloc fuel [] = Some []) by (destruct fuel; reflexivity). rewrite Et. cbn [bind].
      split; [reflexivity|]. split; [exact H|]. split; [cbn; lia|]. split; [|tauto]. cbn [forallb]. rewrite andb_true_r. intros Hs. exists e. tauto.
    - destruct (IH t (length m1) m2 H2) as (ts & Et & Hts & Lt & Ht1 & Ht2); [cbn [length] in Hf; lia|]. rewrite Et. cbn [bind].
      exists (e :: ts). split; [reflexivity|]. split; [constructor; assumption|]. split; [cbn [length] in *; lia|].
      assert (Hne := chain_nonempty _ _ _ H2). specialize (Hnot Hne). split; [congruence|]. intros _. cbn [forallb].
      cbn [forallb] in Hnot. destruct (e_split e) eqn:Ee; [|reflexivity]. cbn [andb] in *. apply Ht2. exact Hnot. }
  destruct run as [|a [|b run]]; [apply Hone; tauto|apply Hone; right; eexists; reflexivity|].
  destruct rest as [|y rest].
  - rewrite app_nil_r in Eq. rewrite Eq in H.
    destruct (compose_split_points_ok alloc a (b :: run) p m Ha ltac:(discriminate) H Hall) as (r & E & S & R). rewrite E. cbn [bind].
    assert (Et : transform_edges alloc fuel [] = Some []) by (destruct fuel; reflexivity). rewrite Et. cbn [bind].
    exists [r]. split; [reflexivity|]. split; [constructor; exact R|]. split; [cbn [length]; lia|]. rewrite Eq, Hall.
    split; [intros _; exists r; tauto|discriminate].
  - rewrite Eq in H. apply chain_app in H as (m1 & m2 & H1 & H2 & ->); [|discriminate|discriminate].
    destruct (compose_split_points_ok alloc a (b :: run) p m1 Ha ltac:(discriminate) H1 Hall) as (r & E & S & R). rewrite E. cbn [bind].
    apply (f_equal (@length edge)) in Eq as Leq. rewrite app_length in Leq. cbn [length] in Leq.
    destruct (IH (y :: rest) (length m1) m2 H2) as (ts & Et & Hts & Lt & Ht1 & Ht2); [cbn [length] in *; lia|]. rewrite Et. cbn [bind].
    exists (r :: ts). split; [reflexivity|]. split; [constructor; assumption|]. split; [cbn [length] in *; lia|].
    rewrite Eq, forallb_app. cbn [forallb]. rewrite Hrest. cbn [andb]. rewrite andb_false_r. split; [discriminate|]. intros _.
    cbn [forallb] in *. rewrite Hrest in *. rewrite Ht2; [apply andb_false_r|reflexivity].
Qed.

Lemma chain_compatible es p m : chain_rep es p m -> compatible (Z.of_nat p) es = true.
Proof.
  induction 1 as [e p m R|e p m1 es m2 R _ IH]; cbn [compatible]; destruct R as (-> & Ec & _); rewrite Z.eqb_refl; cbn [negb]; [reflexivity|rewrite Ec; exact IH].
Qed.

Lemma compose_edges_ok alloc es p m : alloc_ok alloc -> chain_rep es p m ->
  exists r, compose_edges alloc es = Some (inr r) /\ edge_rep r p m /\ e_split r = forallb e_split es.
Proof.
  intros Ha H. unfold compose_edges. destruct es as [|e [|e2 es]]; [inversion H| |].
  - apply chain_single in H. exists e. cbn [forallb]. rewrite andb_true_r. tauto.
  - rewrite (chain_first _ _ _ _ H), (chain_compatible _ _ _ H). cbn [negb].
    destruct (transform_ok alloc (length (e :: e2 :: es)) Ha _ p m H (le_n _)) as (ts & E & Hts & Lt & H1 & H2). rewrite E. cbn [bind].
    destruct ts as [|t1 [|t2 ts]]; [inversion Hts| |].
    + exists t1. split; [reflexivity|]. split; [apply chain_single, Hts|].
      destruct (forallb e_split (e :: e2 :: es)) eqn:F.
      * destruct (H1 eq_refl) as (t & Et & St). congruence.
      * specialize (H2 eq_refl). cbn [forallb] in H2. rewrite andb_true_r in H2. exact H2.
    + destruct (compose_mapping_ok alloc _ p m Ha Hts) as (r & Er & S & R); [cbn [length]; lia|]. rewrite Er. cbn [bind].
      exists r. split; [reflexivity|]. split; [exact R|]. rewrite S.
      destruct (forallb e_split (e :: e2 :: es)) eqn:F; [|reflexivity]. destruct (H1 eq_refl) as (t & Et & St). discriminate.
Qed.

Lemma incompatible_ok pre : forall p0 e1 e2 post, e_child e1 <> e_parent e2 -> compatible p0 (pre ++ e1 :: e2 :: post) = false.
Proof.
  induction pre as [|e pre IH]; intros p0 e1 e2 post H; cbn [app compatible].
  - destruct (negb (e_parent e1 =? p0)%Z); [reflexivity|]. replace (e_parent e2 =? e_child e1)%Z with false by lia. reflexivity.
  - destruct (negb (e_parent e =? p0)%Z); [reflexivity|]. apply IH, H.
Qed.
Lemma compose_edges_incompatible alloc pre e1 e2 post : e_child e1 <> e_parent e2 ->
  compose_edges alloc (pre ++ e1 :: e2 :: post) = Some (inl Incompatible).
Proof.
  intros H. unfold compose_edges. pose proof (fun p0 => incompatible_ok pre p0 e1 e2 post H) as Hi.
  destruct (pre ++ e1 :: e2 :: post) as [|a [|b l]] eqn:E.
  - destruct pre; discriminate.
  - destruct pre as [|x [|y pre]]; discriminate.
  - rewrite Hi. reflexivity.
Qed.

Lemma uniform_overflow : exists P g, (0 <= P <= int64_max)%Z /\ (0 <= g)%Z /\
  (P * g < 2 ^ 63)%Z /\ from_uniform_groups P g = None.
Proof.
  exists int64_max, 0%Z. split; [unfold int64_max; lia|]. split; [lia|]. split; [lia|]. reflexivity.
Qed.
