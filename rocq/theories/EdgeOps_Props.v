(** C41: operators that build edges from sizes, expand values over an edge and
    resize groups (DenseArray). *)
From Coq Require Import FinFun.
From Verif Require Import Base Bits_Model Bitmap_Model Dense_Model Dense_Spec Dense_Proofs Edge_Model Edge_Spec Edge_Proofs
  Array_Model Array_Proofs GroupOps_Model Overflow_Model EdgeOps_Model EdgeOps_Spec EdgeOps_Proofs EdgeResize_Proofs.

(** edge.from_sizes builds the edge with [ns(q)] consecutive children for parent
    [q] whenever all sizes are present and non-negative with a total below 2^63,
    and reports an error in all other cases. *)
Theorem C41_from_sizes : forall alloc sizes l, alloc_ok alloc -> represents sizes l ->
  (forall ns, l = nums ns -> (Z.of_nat (list_sum ns) <= 2 ^ 63 - 1)%Z ->
     exists e, op_from_sizes alloc sizes = Some (inr e) /\ e_split e = true /\ edge_rep e (length ns) (size_mapping ns)) /\
  ((forall ns, l = nums ns -> (2 ^ 63 - 1 < Z.of_nat (list_sum ns))%Z) ->
     exists err, op_from_sizes alloc sizes = Some (inl err)).
Proof. exact from_sizes_ok. Qed.
Print Assumptions C41_from_sizes.

(** edge.sizes is its inverse: for every edge it returns the number of children
    of every parent. *)
Theorem C41_sizes : forall alloc e p m, alloc_ok alloc -> edge_rep e p m ->
  exists r, op_sizes alloc e = Some r /\ represents r (nums (map (children m) (seq 0 p))).
Proof. exact op_sizes_ok. Qed.
Print Assumptions C41_sizes.
Lemma children_sizes ns q : q < length ns -> children (size_mapping ns) q = nth q ns 0.
Proof.
  intros Hq. pose proof (points_mapping ns) as <-. pose proof (split_mapping_ok _ (points_splits ns)) as H.
  replace (length (points ns) - 1) with (length ns) in H by (rewrite points_len; lia).
  rewrite (split_children _ _ _ q H Hq), !points_nth by lia. rewrite base_S by exact Hq. lia.
Qed.
Theorem C41_round_trip : forall alloc alloc' sizes ns, alloc_ok alloc -> alloc_ok alloc' -> represents sizes (nums ns) ->
  (Z.of_nat (list_sum ns) <= 2 ^ 63 - 1)%Z ->
  exists e r, op_from_sizes alloc sizes = Some (inr e) /\ op_sizes alloc' e = Some r /\ represents r (nums ns).
Proof.
  intros alloc alloc' sizes ns Ha Ha' R Hs. destruct (from_sizes_ok alloc sizes _ Ha R) as [H _].
  destruct (H ns eq_refl Hs) as (e & Ee & _ & Re). destruct (op_sizes_ok alloc' e _ _ Ha' Re) as (r & Er & Rr).
  exists e, r. split; [exact Ee|]. split; [exact Er|].
  replace (map (children (size_mapping ns)) (seq 0 (length ns))) with ns in Rr; [exact Rr|].
  apply nat_list_eq; [rewrite map_length, seq_length; reflexivity|]. intros i Hi.
  rewrite (nth_indep (map _ _) 0 (children (size_mapping ns) 0)) by (rewrite map_length, seq_length; exact Hi).
  rewrite map_nth, seq_nth by exact Hi. symmetry. apply children_sizes, Hi.
Qed.
Print Assumptions C41_round_trip.
Example C41_from_sizes_ex :
  match op_from_sizes (fun n => repeat 7%Z n) (mkD [2; 0; 3]%Z [] 0) with
  | Some (inr e) => vals (e_vals e) = [0; 2; 2; 5]%Z /\ e_parent e = 3%Z /\ e_child e = 5%Z
  | _ => False end /\
  op_from_sizes (fun n => repeat 7%Z n) (mkD [2 ^ 62; 2 ^ 62]%Z [] 0) = Some (inl SizeOverflow) /\
  op_from_sizes (fun n => repeat 7%Z n) (mkD [1; 2]%Z [1%N] 0) = Some (inl SizesNotFull) /\
  match op_from_sizes (fun n => repeat 7%Z n) (mkD [2; -1]%Z [] 0) with Some (inl _) => True | _ => False end.
Proof. vm_compute. repeat split. Qed.

(** edge.pair_left and edge.pair_right, used together, enumerate all pairs of
    children of the same parent, each once: the two edges have the same children
    (the pairs), ordered by the left child. *)
Theorem C41_pairs : forall alloc sizes ns, alloc_ok alloc -> represents sizes (nums ns) ->
  (Z.of_nat (sum_sq ns) <= 2 ^ 63 - 1)%Z -> (Z.of_nat (list_sum ns) < 2 ^ 63 - 1)%Z ->
  exists l r, op_pair_left alloc sizes = Some (inr l) /\ op_pair_right alloc sizes = Some (inr r) /\
    edge_rep l (list_sum ns) (left_mapping ns) /\ edge_rep r (list_sum ns) (right_mapping ns).
Proof.
  intros alloc sizes ns Ha R Hq Hs.
  destruct (pair_left_ok alloc sizes ns Ha R Hq Hs) as (l & El & _ & Rl).
  destruct (pair_right_ok alloc sizes ns Ha R Hq) as (r & Er & _ & Rr).
  exists l, r. auto.
Qed.
Print Assumptions C41_pairs.
(** What [pairs] means, in terms of the edge with the same sizes. *)
Theorem C41_pairs_meaning : forall ns, NoDup (pairs 0 ns) /\
  forall c d, In (c, d) (pairs 0 ns) <-> exists q, nth c (size_mapping ns) None = Some q /\ nth d (size_mapping ns) None = Some q.
Proof.
  assert (G : forall ns b, NoDup (pairs b ns) /\ forall c d, In (c, d) (pairs b ns) <->
    exists q, q < length ns /\ b + base ns q <= c < b + base ns (S q) /\ b + base ns q <= d < b + base ns (S q)).
  { induction ns as [|s t IH]; intros b.
    - split; [constructor|]. intros c d. split; [intros []|]. intros (q & Hq & _). cbn in Hq. lia.
    - destruct (IH (b + s)) as [ND HI]. cbn [pairs]. assert (Hbs : forall q, base (s :: t) (S q) = s + base t q) by reflexivity.
      assert (Hb0 : forall u, base u 0 = 0) by reflexivity.
      split.
      + assert (NDp : forall (l m : list nat), NoDup l -> NoDup m -> NoDup (list_prod l m)).
        { induction l as [|x l IHl]; intros m Hl Hm; [constructor|]. inversion Hl as [|x' l' Hx Hl']; subst. cbn [list_prod].
          assert (NDm : NoDup (map (fun y => (x, y)) m)).
          { apply Injective_map_NoDup; [intros u v E; congruence|exact Hm]. }
          revert NDm. generalize (fun (y : nat * nat) (H : In y (map (fun y => (x, y)) m)) => proj1 (in_map_iff (fun y => (x, y)) m y) H).
          generalize (map (fun y : nat => (x, y)) m). intros k Hk NDk. specialize (IHl m Hl' Hm).
          induction k as [|z k IHk]; [exact IHl|]. inversion NDk; subst. cbn [app]. constructor.
          - rewrite in_app_iff. intros [K|K]; [contradiction|]. destruct (Hk z (or_introl eq_refl)) as (y & <- & _).
            apply in_prod_iff in K as [K _]. contradiction.
          - apply IHk; [intros y Hy; apply Hk; right; exact Hy|assumption]. }
        assert (NDa : forall (l m : list (nat * nat)), NoDup l -> NoDup m -> (forall x, In x l -> ~ In x m) -> NoDup (l ++ m)).
        { induction l as [|x l IHl]; intros m Hl Hm Hd; [exact Hm|]. inversion Hl; subst. cbn [app]. constructor.
          - rewrite in_app_iff. intros [K|K]; [contradiction|]. apply (Hd x (or_introl eq_refl) K).
          - apply IHl; [assumption|assumption|]. intros y Hy. apply Hd. right. exact Hy. }
        apply NDa; [apply NDp; apply seq_NoDup|exact ND|]. intros [c d] H1 H2. apply in_prod_iff in H1 as [H1 _]. apply in_seq in H1.
        apply HI in H2 as (q & _ & H2 & _). lia.
      + intros c d. rewrite in_app_iff, in_prod_iff, !in_seq, HI. split.
        * intros [[H1 H2]|(q & Hq & H1 & H2)].
          -- exists 0. rewrite Hbs, !Hb0. cbn [length]. lia.
          -- exists (S q). rewrite !Hbs. cbn [length]. lia.
        * intros ([|q] & Hq & H1 & H2); rewrite ?Hbs, ?Hb0 in *; [left; lia|right]. exists q. cbn [length] in Hq. lia. }
  intros ns. split; [apply G|]. intros c d. rewrite (proj2 (G ns 0)).
  pose proof (split_mapping_ok _ (points_splits ns)) as H. rewrite points_mapping in H.
  replace (length (points ns) - 1) with (length ns) in H by (rewrite points_len; lia).
  assert (K : forall c q, nth c (size_mapping ns) None = Some q <-> q < length ns /\ base ns q <= c < base ns (S q)).
  { intros x q. split.
    - intros E. assert (Hx : x < length (size_mapping ns)).
      { destruct (Nat.lt_ge_cases x (length (size_mapping ns))) as [L|L]; [exact L|]. rewrite nth_overflow in E by exact L. discriminate. }
      destruct (split_parent _ _ _ x H Hx) as (q' & Hq' & Hr & E'). assert (q' = q) by congruence. subst q'.
      rewrite !points_nth in Hr by lia. auto.
    - intros [Hq Hr]. apply H; [exact Hq|]. rewrite !points_nth by lia. exact Hr. }
  split.
  - intros (q & Hq & H1 & H2). exists q. cbn [Nat.add] in *. split; apply K; auto.
  - intros (q & H1 & H2). apply K in H1 as [Hq H1], H2 as [_ H2]. exists q. cbn [Nat.add]. auto.
Qed.
Print Assumptions C41_pairs_meaning.
Theorem C41_pairs_errors : forall alloc sizes l, represents sizes l ->
  (In None l -> op_pair_left alloc sizes = Some (inl SizesNotFull) /\ op_pair_right alloc sizes = Some (inl SizesNotFull)) /\
  (forall ns, l = nums ns -> (2 ^ 63 - 1 < Z.of_nat (sum_sq ns))%Z -> (Z.of_nat (list_sum ns) <= 2 ^ 63 - 1)%Z ->
     op_pair_left alloc sizes = Some (inl SizeOverflow) /\ op_pair_right alloc sizes = Some (inl SizeOverflow)).
Proof.
  intros alloc sizes l R. split; [exact (pair_missing alloc sizes l R)|]. intros ns -> . exact (pair_overflow alloc sizes ns R).
Qed.
Print Assumptions C41_pairs_errors.
Example C41_pairs_ex :
  match op_pair_left (fun n => repeat 7%Z n) (mkD [2; 0; 1]%Z [] 0), op_pair_right (fun n => repeat 7%Z n) (mkD [2; 0; 1]%Z [] 0) with
  | Some (inr l), Some (inr r) => vals (e_vals l) = [0; 2; 4; 5]%Z /\ vals (e_vals r) = [0; 1; 0; 1; 2]%Z
  | _, _ => False end /\
  op_pair_left (fun n => repeat 7%Z n) (mkD [2 ^ 32]%Z [] 0) = Some (inl SizeOverflow).
Proof. vm_compute. repeat split. Qed.

(** Negative sizes are not rejected.  edge.pair_left may write outside of its
    buffer, edge.pair_right may return an edge that depends on uninitialised
    memory; the sum of sizes may overflow before the check. *)
Theorem C41_pair_left_negative_refuted : exists l, forall alloc, alloc_ok alloc ->
  op_pair_left alloc (mkD l [] 0) = None.
Proof.
  exists [2; -2]%Z. intros alloc Ha. pose proof (Ha 1) as H. unfold op_pair_left.
  change (da_is_full (mkD [2; -2]%Z [] 0)) with (Some true). cbn [bind negb].
  change (da_for_each_present (mkD [2; -2]%Z [] 0)) with (Some [(0, 2%Z); (1, (-2)%Z)]). cbn [bind].
  change (fold_opt count_step [(0, 2%Z); (1, (-2)%Z)] (0, 0, false)%Z) with (Some (0, 8, false)%Z). cbn [bind].
  change (iadd 0 1) with (Some 1%Z). cbn [bind]. change (allocz alloc 1) with (Some (alloc 1)). cbn [bind].
  destruct (alloc 1) as [|x [|y t]]; [discriminate| |discriminate]. reflexivity.
Qed.
Print Assumptions C41_pair_left_negative_refuted.
Theorem C41_pair_right_negative_refuted : exists l a1 a2 e1 e2, alloc_ok a1 /\ alloc_ok a2 /\
  op_pair_right a1 (mkD l [] 0) = Some (inr e1) /\ op_pair_right a2 (mkD l [] 0) = Some (inr e2) /\
  vals (e_vals e1) <> vals (e_vals e2).
Proof.
  exists [3; -1; 2]%Z, (fun n => repeat 0%Z n), (fun n => repeat 1%Z n).
  eexists. eexists. split; [intros n; apply repeat_length|]. split; [intros n; apply repeat_length|].
  split; [vm_compute; reflexivity|]. split; [vm_compute; reflexivity|]. vm_compute. discriminate.
Qed.
Print Assumptions C41_pair_right_negative_refuted.
Theorem C41_pair_count_overflow_refuted : exists ns, forall alloc,
  op_pair_left alloc (mkD (zs ns) [] 0) = None /\ op_pair_right alloc (mkD (zs ns) [] 0) = None.
Proof.
  exists [Z.to_nat (2 ^ 63 - 1); Z.to_nat (2 ^ 63 - 1)]. intros alloc.
  assert (E : zs [Z.to_nat (2 ^ 63 - 1); Z.to_nat (2 ^ 63 - 1)] = [2 ^ 63 - 1; 2 ^ 63 - 1]%Z)
    by (unfold zs; cbn [map]; rewrite Z2Nat.id by discriminate; reflexivity).
  rewrite E. split; reflexivity.
Qed.
Print Assumptions C41_pair_count_overflow_refuted.

(** array.expand gives every child the value of its parent, for split point and
    mapping edges, and rejects an array of the wrong size. *)
Theorem C41_expand : forall A (mem : nat -> list A) par l e p m, (forall n, length (mem n) = n) ->
  represents par l -> edge_rep e p m ->
  (p = length l -> exists r, op_expand mem par e = Some (inr r) /\ represents r (expand l m)) /\
  (p <> length l -> op_expand mem par e = Some (inl ParentMismatch)).
Proof. intros A mem par l e p m. exact (op_expand_ok mem par l e p m). Qed.
Print Assumptions C41_expand.
Theorem C41_expand_scalar : forall A (mem : nat -> list A) x n, (forall k, length (mem k) = k) ->
  represents (op_expand_scalar mem x n) (repeat x n).
Proof. intros A mem x n. exact (op_expand_scalar_ok mem x n). Qed.
Print Assumptions C41_expand_scalar.
Example C41_expand_ex :
  op_expand (fun n => repeat 9 n) (mkD [10; 20; 30] [5%N] 0) (mkE true 3 4 (mkD [0; 1; 3; 4]%Z [] 0)) =
    Some (inr (mkD [10; 9; 9; 30] [9%N] 0)) /\
  op_expand (fun n => repeat 9 n) (mkD [10; 20; 30] [5%N] 0) (mkE false 3 4 (mkD [2; 0; 1; 2]%Z [7%N] 0)) =
    Some (inr (mkD [30; 10; 9; 9] [3%N] 0)).
Proof. split; vm_compute; reflexivity. Qed.

(** edge.resize_groups_child_side: every child whose offset is below the new
    size of its group is placed at that offset of the resized group, nothing else
    is placed; negative and duplicate offsets are rejected.  [ns] are the new
    sizes; one size for all groups is [repeat k p]; a scalar edge is one group. *)
Theorem C41_resize_child : forall alloc e p m sizes ns offsets offs, alloc_ok alloc -> edge_rep e p m -> e_split e = true ->
  represents sizes (nums ns) -> represents offsets offs -> length ns = p -> length offs = length m ->
  (Z.of_nat (list_sum ns) <= 2 ^ 63 - 1)%Z ->
  exists r, op_resize_child alloc e sizes offsets = Some r /\
    (has_negative offs -> r = inl NegOffset) /\
    (~ has_negative offs -> has_duplicate m offs ns -> r = inl DupOffset) /\
    (~ has_negative offs -> ~ has_duplicate m offs ns -> exists e' M, r = inr e' /\ e_split e' = false /\
       edge_rep e' (length m) M /\ length M = list_sum ns /\ forall c n, nth n M None = Some c <-> placed m offs ns c n).
Proof. exact op_resize_child_ok. Qed.
Print Assumptions C41_resize_child.
Theorem C41_resize_child_one : forall alloc e p m k offsets offs, alloc_ok alloc -> edge_rep e p m -> e_split e = true ->
  represents offsets offs -> length offs = length m -> (Z.of_nat (k * p) <= 2 ^ 63 - 1)%Z ->
  exists r, op_resize_child_one alloc e (Z.of_nat k) offsets = Some r /\ resized m offs (repeat k p) r.
Proof. exact op_resize_child_one_ok. Qed.
Print Assumptions C41_resize_child_one.
Theorem C41_resize_child_scalar : forall alloc n k offsets offs, alloc_ok alloc -> represents offsets offs -> length offs = n ->
  (Z.of_nat k <= 2 ^ 63 - 1)%Z ->
  exists r, op_resize_child_scalar alloc (Z.of_nat n) (Z.of_nat k) offsets = Some r /\ resized (repeat (Some 0) n) offs [k] r.
Proof. exact op_resize_child_scalar_ok. Qed.
Print Assumptions C41_resize_child_scalar.
Theorem C41_resize_rejects : forall alloc e p m sizes l offsets offs, edge_rep e p m ->
  represents sizes l -> represents offsets offs ->
  (e_split e = false -> op_resize_child alloc e sizes offsets = Some (inl NotSplitPoints) /\
     forall k, op_resize_child_one alloc e k offsets = Some (inl NotSplitPoints)) /\
  (e_split e = true -> In None l -> op_resize_child alloc e sizes offsets = Some (inl SizesNotFull)) /\
  (e_split e = true -> ~ In None l -> length l <> p -> op_resize_child alloc e sizes offsets = Some (inl SizesMismatch)) /\
  (e_split e = true -> ~ In None l -> length l = p -> length offs <> length m ->
     op_resize_child alloc e sizes offsets = Some (inl OffsetsMismatch)) /\
  (e_split e = true -> length offs = length m -> forall k, (- 2 ^ 63 <= k * Z.of_nat p < 0)%Z ->
     op_resize_child_one alloc e k offsets = Some (inl NegSize)).
Proof.
  intros alloc e p m sizes l offsets offs Re Rs Ro. unfold op_resize_child, op_resize_child_one.
  assert (S1 : da_size sizes = length l) by apply Rs. assert (S3 : da_size offsets = length offs) by apply Ro.
  assert (Hec : e_child e = Z.of_nat (length m)) by apply Re. assert (Hep : e_parent e = Z.of_nat p) by apply Re.
  rewrite S1, S3, Hec, Hep.
  assert (Hfull : ~ In None l -> da_is_full sizes = Some true).
  { intros Hin. destruct (is_full_ok sizes l Rs) as (f & E & Hf). rewrite E. destruct f; [reflexivity|]. elim Hf.
    apply Forall_forall. intros x Hx ->. exact (Hin Hx). }
  destruct (e_split e) eqn:Es.
  - apply edge_rep_split in Re as (_ & _ & s & Hs & Rv); [|exact Es].
    assert (Hls : length s = S p) by apply Hs. assert (Hlast : nth p s 0 = length m) by apply Hs.
    assert (S2 : da_size (e_vals e) = S p) by (destruct Rv as (_ & K & _); rewrite K, map_length, zs_len; exact Hls).
    rewrite S2. cbn [negb]. split; [discriminate|].
    split. { intros _ Hin. rewrite (is_full_some _ _ Rs Hin). reflexivity. }
    split. { intros _ Hin Hl. rewrite (Hfull Hin). cbn [bind negb]. replace (length l + 1 =? S p) with false by lia. reflexivity. }
    split. { intros _ Hin Hl Ho. rewrite (Hfull Hin). cbn [bind negb]. replace (length l + 1 =? S p) with true by lia. cbn [negb].
             replace (Z.of_nat (length offs) =? Z.of_nat (length m))%Z with false by lia. reflexivity. }
    intros _ Ho k Hk. replace (Z.of_nat (length offs) =? Z.of_nat (length m))%Z with true by lia. cbn [negb].
    unfold imul. replace (fits int64 (k * Z.of_nat p)) with true by (symmetry; apply fits64; pose proof max64_pos; lia). cbn [bind].
    unfold resize_child. rewrite (rep_full_vals _ _ Rv). assert (Hsn : s <> []) by apply Hs. rewrite back_zs by exact Hsn. cbn [bind].
    replace (k * Z.of_nat p <? 0)%Z with true by lia. reflexivity.
  - cbn [negb]. split; [intros _; split; [reflexivity|]; intros k; reflexivity|]. repeat split; discriminate.
Qed.
Print Assumptions C41_resize_rejects.
Example C41_resize_child_ex :
  match op_resize_child (fun n => repeat 7%Z n) (mkE true 2 5 (mkD [0; 3; 5]%Z [] 0))
          (mkD [2; 2]%Z [] 0) (mkD [1; 5; 0; 1; 4]%Z [29%N] 0) with
  | Some (inr e) => e_parent e = 5%Z /\ e_child e = 4%Z /\
      da_get (e_vals e) 0 = Some (Some 2%Z) /\ da_get (e_vals e) 1 = Some (Some 0%Z) /\
      da_get (e_vals e) 2 = Some None /\ da_get (e_vals e) 3 = Some (Some 3%Z)
  | _ => False end /\
  op_resize_child_one (fun n => repeat 7%Z n) (mkE true 2 5 (mkD [0; 3; 5]%Z [] 0)) 2 (mkD [1; 0; 1; 0; 0]%Z [] 0) = Some (inl DupOffset) /\
  op_resize_child_scalar (fun n => repeat 7%Z n) 2 2 (mkD [1; -1]%Z [] 0) = Some (inl NegOffset).
Proof. vm_compute. repeat split. Qed.
(** Negative sizes are only rejected when their total is negative: otherwise the
    operator may write outside of its buffers. *)
Theorem C41_resize_negative_refuted : exists e p m l offsets, edge_rep e p m /\ length l = p /\ da_size offsets = length m /\
  forall alloc, op_resize_child alloc e (mkD l [] 0) offsets = None.
Proof.
  exists (mkE true 2 2 (mkD [0; 1; 2]%Z [] 0)), 2, [Some 0; Some 1], [5; -5]%Z, (mkD [0; 0]%Z [] 0).
  split.
  { apply edge_rep_split; [reflexivity|]. split; [reflexivity|]. split; [reflexivity|]. exists [0; 1; 2]. split.
    - split.
      + split; [discriminate|]. split; [reflexivity|]. intros [|[|[|i]]] [|[|[|j]]] H; cbn in *; lia.
      + split; [reflexivity|]. split; [reflexivity|]. intros [|[|q]] c Hq Hc; [| |lia]; cbn in Hc; [replace c with 0 by lia|replace c with 1 by lia]; reflexivity.
    - apply (rep_plain [0; 1; 2]%Z). }
  split; [reflexivity|]. split; [reflexivity|]. intros alloc. unfold op_resize_child. cbn [e_split negb].
  change (da_is_full (mkD [5; -5]%Z [] 0)) with (Some true). cbn [bind negb].
  change (da_size (mkD [5; -5]%Z [] 0)) with 2. cbn [e_vals e_child]. change (da_size (mkD [0; 1; 2]%Z [] 0)) with 3.
  change (da_size (mkD [0; 0]%Z [] 0)) with 2. cbn [Nat.add Nat.eqb negb]. change (Z.of_nat 2 =? 2)%Z with true. cbn [negb vals].
  change (fold_opt (fun t s => iadd t s) [5; -5]%Z 0%Z) with (Some 0%Z). cbn [bind]. unfold resize_child. cbn [back rd nth_error length Nat.sub bind].
  change (0 <? 0)%Z with false. cbn [Nat.ltb Nat.leb]. change (Z.to_nat 0) with 0. cbn [rd nth_error bind].
  change (da_for_each_present (mkD [0; 0]%Z [] 0)) with (Some [(0, 0%Z); (1, 0%Z)]). cbn [bind fold_opt].
  unfold resize_step at 1. cbn [r_idx r_base r_size r_b r_set r_neg r_dup].
  destruct (advance _ _ _ _ _ _ _) as [[[i b] s]|] eqn:E; [|reflexivity]. vm_compute in E. injection E as <- <- <-. cbn [bind].
  change (0 <? 0)%Z with false. change (0 <? 5)%Z with true. change (iadd 0 0) with (Some 0%Z). cbn [bind guard Z.leb Z.compare].
  destruct (db_set _ _ _); reflexivity.
Qed.
Print Assumptions C41_resize_negative_refuted.
(** [new_size * edge.parent_size()] is not checked for overflow. *)
Theorem C41_resize_one_overflow_refuted : exists e p m k offsets, edge_rep e p m /\ da_size offsets = length m /\
  (0 <= k <= 2 ^ 63 - 1)%Z /\ forall alloc, op_resize_child_one alloc e k offsets = None.
Proof.
  exists (mkE true 2 0 (mkD [0; 0; 0]%Z [] 0)), 2, [], (2 ^ 62)%Z, (mkD [] [] 0).
  split.
  { apply edge_rep_split; [reflexivity|]. split; [reflexivity|]. split; [reflexivity|]. exists [0; 0; 0]. split.
    - split.
      + split; [discriminate|]. split; [reflexivity|]. intros [|[|[|i]]] [|[|[|j]]] H; cbn in *; lia.
      + split; [reflexivity|]. split; [reflexivity|]. intros [|[|q]] c Hq Hc; cbn in Hc; lia.
    - apply (rep_plain [0; 0; 0]%Z). }
  split; [reflexivity|]. split; [split; discriminate|]. intros alloc. reflexivity.
Qed.
Print Assumptions C41_resize_one_overflow_refuted.

(** edge.resize_groups_parent_side returns the edge with the new sizes. *)
Theorem C41_resize_parent_one : forall alloc e p m k, alloc_ok alloc -> edge_rep e p m -> e_split e = true ->
  (Z.of_nat (p * k) <= 2 ^ 63 - 1)%Z -> (Z.of_nat p < 2 ^ 63 - 1)%Z ->
  exists r, op_resize_parent_one alloc e (Z.of_nat k) = Some (inr r) /\ e_split r = true /\ edge_rep r p (size_mapping (repeat k p)).
Proof. exact op_resize_parent_one_ok. Qed.
Print Assumptions C41_resize_parent_one.
Theorem C41_resize_parent : forall alloc e p m sizes l, alloc_ok alloc -> edge_rep e p m -> represents sizes l ->
  (e_split e = false -> op_resize_parent alloc e sizes = Some (inl NotSplitPoints)) /\
  (e_split e = true -> length l <> p -> op_resize_parent alloc e sizes = Some (inl SizesMismatch)) /\
  (e_split e = true -> length l = p ->
    (forall ns, l = nums ns -> (Z.of_nat (list_sum ns) <= 2 ^ 63 - 1)%Z ->
       exists r, op_resize_parent alloc e sizes = Some (inr r) /\ e_split r = true /\ edge_rep r p (size_mapping ns)) /\
    ((forall ns, l = nums ns -> (2 ^ 63 - 1 < Z.of_nat (list_sum ns))%Z) ->
       exists err, op_resize_parent alloc e sizes = Some (inl err))).
Proof.
  intros alloc e p m sizes l Ha Re Rs. unfold op_resize_parent. assert (S1 : da_size sizes = length l) by apply Rs.
  assert (Hep : e_parent e = Z.of_nat p) by apply Re. rewrite S1, Hep. split; [intros ->; reflexivity|].
  split. { intros -> Hl. cbn [negb]. replace (Z.of_nat (length l) =? Z.of_nat p)%Z with false by lia. reflexivity. }
  intros -> Hl. cbn [negb]. replace (Z.of_nat (length l) =? Z.of_nat p)%Z with true by lia. cbn [negb].
  destruct (from_sizes_ok alloc sizes l Ha Rs) as [A B]. split; [|exact B]. intros ns E Hs. destruct (A ns E Hs) as (r & E1 & E2 & E3).
  exists r. split; [exact E1|]. split; [exact E2|]. replace p with (length ns); [exact E3|]. subst l. unfold nums in Hl. rewrite map_length in Hl. exact Hl.
Qed.
Print Assumptions C41_resize_parent.
Theorem C41_resize_parent_errors : forall alloc e k,
  (e_split e = false -> op_resize_parent_one alloc e k = Some (inl NotSplitPoints)) /\
  (e_split e = true -> (k < 0)%Z -> op_resize_parent_one alloc e k = Some (inl NegSize)).
Proof.
  intros alloc e k. unfold op_resize_parent_one. split; [intros ->; reflexivity|]. intros -> Hk. cbn [negb].
  replace (k <? 0)%Z with true by lia. reflexivity.
Qed.
Print Assumptions C41_resize_parent_errors.
(** The split points are added without an overflow check. *)
Theorem C41_resize_parent_overflow_refuted : exists e p m k, edge_rep e p m /\ (0 <= k <= 2 ^ 63 - 1)%Z /\
  forall alloc, alloc_ok alloc -> op_resize_parent_one alloc e k = None.
Proof.
  exists (mkE true 2 0 (mkD [0; 0; 0]%Z [] 0)), 2, [], (2 ^ 62)%Z.
  split.
  { apply edge_rep_split; [reflexivity|]. split; [reflexivity|]. split; [reflexivity|]. exists [0; 0; 0]. split.
    - split.
      + split; [discriminate|]. split; [reflexivity|]. intros [|[|[|i]]] [|[|[|j]]] H; cbn in *; lia.
      + split; [reflexivity|]. split; [reflexivity|]. intros [|[|q]] c Hq Hc; cbn in Hc; lia.
    - apply (rep_plain [0; 0; 0]%Z). }
  split; [split; discriminate|]. intros alloc Ha. pose proof (Ha 3) as H. unfold op_resize_parent_one. cbn [e_split negb e_parent].
  change (2 ^ 62 <? 0)%Z with false. change (iadd 2 1) with (Some 3%Z). cbn [bind]. change (allocz alloc 3) with (Some (alloc 3)). cbn [bind].
  destruct (alloc 3) as [|x [|y [|z [|u t]]]]; try discriminate. reflexivity.
Qed.
Print Assumptions C41_resize_parent_overflow_refuted.
Example C41_resize_parent_ex :
  match op_resize_parent_one (fun n => repeat 7%Z n) (mkE true 2 5 (mkD [0; 3; 5]%Z [] 0)) 4 with
  | Some (inr e) => vals (e_vals e) = [0; 4; 8]%Z | _ => False end.
Proof. vm_compute. reflexivity. Qed.
