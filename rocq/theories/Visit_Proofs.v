(** Proofs about the orders, traversal and transformation of expressions. *)
From Coq Require Import Permutation Sorted.
From Verif Require Import Base Visit_Model Visit_Spec.

(** ** Nodes *)
Fixpoint node_rect' (P : node -> Prop) (H : forall n, Forall P (deps n) -> P n) (n : node) : P n :=
  match n with
  | Lit v => H (Lit v) (Forall_nil P)
  | Leaf k => H (Leaf k) (Forall_nil P)
  | Plh k => H (Plh k) (Forall_nil P)
  | Op o a ds => H (Op o a ds) ((fix go l : Forall P l := match l with [] => Forall_nil P | d :: t => Forall_cons d (node_rect' P H d) (go t) end) ds)
  end.
Lemma leqb_eq {A} (eqb : A -> A -> bool) l : Forall (fun x => forall y, eqb x y = true <-> x = y) l -> forall m, leqb eqb l m = true <-> l = m.
Proof.
  induction 1 as [|x l Hx F IH]; intros [|y m]; cbn; try (split; [discriminate|discriminate]); [tauto|].
  rewrite andb_true_iff, Hx, IH. split; [intros [-> ->]; reflexivity|intros E; injection E; auto].
Qed.
Lemma nats_eq l m : leqb Nat.eqb l m = true <-> l = m.
Proof. apply leqb_eq. apply Forall_forall. intros x _ y. apply Nat.eqb_eq. Qed.
Lemma attr_eq a b : attr_eqb a b = true <-> a = b.
Proof. destruct a, b; cbn; try (split; [discriminate|discriminate]); try tauto; rewrite Nat.eqb_eq; split; [intros ->; reflexivity|intros E; injection E; auto|intros ->; reflexivity|intros E; injection E; auto]. Qed.
Lemma attrs_eq l m : leqb attr_eqb l m = true <-> l = m.
Proof. apply leqb_eq. apply Forall_forall. intros x _ y. apply attr_eq. Qed.
Lemma node_eq a : forall b, node_eqb a b = true <-> a = b.
Proof.
  induction a as [n IH] using node_rect'. intros b. destruct n as [x|x|x|o p ds], b as [y|y|y|o' p' ds']; cbn [node_eqb deps] in *; try (split; [discriminate|discriminate]).
  - rewrite Nat.eqb_eq. split; [intros ->; reflexivity|intros E; injection E; auto].
  - rewrite nats_eq. split; [intros ->; reflexivity|intros E; injection E; auto].
  - rewrite nats_eq. split; [intros ->; reflexivity|intros E; injection E; auto].
  - rewrite !andb_true_iff, Nat.eqb_eq, attr_eq, (leqb_eq node_eqb ds IH ds'). split; [intros [[-> ->] ->]; reflexivity|intros E; injection E; auto].
Qed.
Lemma nodes_eq l m : leqb node_eqb l m = true <-> l = m.
Proof. apply leqb_eq. apply Forall_forall. intros x _ y. apply node_eq. Qed.
Lemma node_refl n : node_eqb n n = true.
Proof. apply node_eq. reflexivity. Qed.
Lemma node_neq a b : node_eqb a b = false <-> a <> b.
Proof. rewrite <- not_true_iff_false, node_eq. tauto. Qed.
Lemma node_spec a b : reflect (a = b) (node_eqb a b).
Proof. destruct (node_eqb a b) eqn:E; constructor; [apply node_eq, E|apply node_neq, E]. Qed.
Lemma mem_in n l : mem n l = true <-> In n l.
Proof.
  unfold mem. rewrite existsb_exists. split; [intros (x & H & E); apply node_eq in E; subst; exact H|]. intros H. exists n. split; [exact H|apply node_refl].
Qed.
Lemma mem_not n l : mem n l = false <-> ~ In n l.
Proof. rewrite <- not_true_iff_false, mem_in. tauto. Qed.
Lemma mem_spec n l : reflect (In n l) (mem n l).
Proof. destruct (mem n l) eqn:E; constructor; [apply mem_in, E|apply mem_not, E]. Qed.

Lemma sum_cons' x l : list_sum (x :: l) = x + list_sum l. Proof. reflexivity. Qed.
Lemma size_deps n : size n = S (list_sum (map size (deps n))).
Proof. destruct n; reflexivity. Qed.
Lemma sum_in x l : In x l -> x <= list_sum l.
Proof. induction l as [|y l IH]; [contradiction|]. rewrite sum_cons'. intros [->|H]; [lia|]. specialize (IH H). lia. Qed.
Lemma dep_size n d : In d (deps n) -> size d < size n.
Proof. intros H. rewrite (size_deps n). apply (in_map size), sum_in in H. lia. Qed.
Lemma sub_size x n : sub x n -> size x <= size n.
Proof. induction 1 as [|n d H _ IH]; [lia|]. apply dep_size in H. lia. Qed.
Lemma sub_trans x y z : sub x y -> sub y z -> sub x z.
Proof. intros H. induction 1 as [|n d I _ IH]; [exact H|]. apply (sub_dep x n d I IH). Qed.

(** ** The recursive post order *)
Fixpoint po (n : node) (acc : list node) : list node :=
  if mem n acc then acc else
  match n with
  | Op _ _ ds => fold_left (fun acc d => po d acc) ds acc ++ [n]
  | _ => acc ++ [n]
  end.
Definition pos (ds : list node) (acc : list node) : list node := fold_left (fun acc d => po d acc) ds acc.
Lemma po_mem n acc : In n acc -> po n acc = acc.
Proof. intros H. apply mem_in in H. destruct n; cbn [po]; rewrite H; reflexivity. Qed.
Lemma po_new n acc : ~ In n acc -> po n acc = pos (deps n) acc ++ [n].
Proof. intros H. apply mem_not in H. destruct n; cbn [po]; rewrite H; reflexivity. Qed.
Lemma pos_cons d ds acc : pos (d :: ds) acc = pos ds (po d acc). Proof. reflexivity. Qed.

(** What is added *)
Lemma po_adds n : forall acc, exists new, po n acc = acc ++ new /\ (forall x, In x new -> sub x n).
Proof.
  induction n as [n IH] using node_rect'. intros acc. destruct (mem_spec n acc) as [H|H].
  - exists []. rewrite (po_mem n acc H), app_nil_r. split; [reflexivity|contradiction].
  - rewrite (po_new n acc H).
    assert (K : exists new, pos (deps n) acc = acc ++ new /\ forall x, In x new -> exists d, In d (deps n) /\ sub x d).
    { clear H. revert acc. generalize (deps n) as ds, IH. clear IH. induction ds as [|d ds IHd]; intros F acc.
      - exists []. rewrite app_nil_r. split; [reflexivity|contradiction].
      - inversion F as [|? ? F1 F2]; subst. rewrite pos_cons. destruct (F1 acc) as (n1 & E1 & H1). rewrite E1.
        destruct (IHd F2 (acc ++ n1)) as (n2 & E2 & H2). exists (n1 ++ n2). rewrite E2, app_assoc. split; [reflexivity|].
        intros x Hx. apply in_app_iff in Hx as [Hx|Hx]; [exists d; split; [left; reflexivity|auto]|].
        destruct (H2 x Hx) as (e & He & Se). exists e. split; [right; exact He|exact Se]. }
    destruct K as (new & E & Hn). exists (new ++ [n]). rewrite E, app_assoc. split; [reflexivity|].
    intros x Hx. apply in_app_iff in Hx as [Hx|[->|[]]]; [|constructor]. destruct (Hn x Hx) as (d & Hd & Sd). apply (sub_dep x n d Hd Sd).
Qed.
Lemma pos_adds ds : forall acc, exists new, pos ds acc = acc ++ new /\ (forall x, In x new -> exists d, In d ds /\ sub x d).
Proof.
  induction ds as [|d ds IH]; intros acc; [exists []; rewrite app_nil_r; split; [reflexivity|contradiction]|].
  rewrite pos_cons. destruct (po_adds d acc) as (n1 & E1 & H1). rewrite E1. destruct (IH (acc ++ n1)) as (n2 & E2 & H2).
  exists (n1 ++ n2). rewrite E2, app_assoc. split; [reflexivity|]. intros x Hx. apply in_app_iff in Hx as [Hx|Hx]; [exists d; split; [left; reflexivity|auto]|].
  destruct (H2 x Hx) as (e & He & Se). exists e. split; [right; exact He|exact Se].
Qed.
Lemma po_has n acc : In n (po n acc).
Proof.
  destruct (mem_spec n acc) as [H|H]; [rewrite (po_mem n acc H); exact H|]. rewrite (po_new n acc H). apply in_app_iff. right. left. reflexivity.
Qed.
Lemma po_incl n acc x : In x acc -> In x (po n acc).
Proof. intros H. destruct (po_adds n acc) as (new & -> & _). apply in_app_iff. auto. Qed.
Lemma pos_incl ds acc x : In x acc -> In x (pos ds acc).
Proof. intros H. destruct (pos_adds ds acc) as (new & -> & _). apply in_app_iff. auto. Qed.
Lemma pos_has ds : forall acc d, In d ds -> In d (pos ds acc).
Proof.
  induction ds as [|e ds IH]; intros acc d H; [contradiction|]. rewrite pos_cons. destruct H as [->|H]; [apply pos_incl, po_has|apply IH, H].
Qed.

(** Ordered: no duplicates, dependencies earlier *)
Definition ordered (l : list node) : Prop := NoDup l /\ forall i n, nth_error l i = Some n -> forall d, In d (deps n) -> In d (firstn i l).
Lemma ordered_snoc l n : ordered l -> ~ In n l -> (forall d, In d (deps n) -> In d l) -> ordered (l ++ [n]).
Proof.
  intros [N O] H D. split.
  - apply (Permutation_NoDup (Permutation_cons_append l n)). constructor; assumption.
  - intros i m E d Hd. destruct (Nat.lt_ge_cases i (length l)) as [L|L].
    + rewrite nth_error_app1 in E by exact L. rewrite firstn_app. apply in_app_iff. left. apply (O i m E d Hd).
    + rewrite nth_error_app2 in E by exact L. destruct (i - length l) as [|k] eqn:K; [|destruct k; discriminate]. injection E as <-.
      rewrite firstn_app, firstn_all2 by lia. apply in_app_iff. left. apply D, Hd.
Qed.
Lemma pos_ordered ds : Forall (fun d => forall acc, ordered acc -> ordered (po d acc)) ds -> forall acc, ordered acc -> ordered (pos ds acc).
Proof. induction 1 as [|d ds H F IH]; intros acc O; [exact O|]. rewrite pos_cons. apply IH, H, O. Qed.
Lemma po_ordered n : forall acc, ordered acc -> ordered (po n acc).
Proof.
  induction n as [n IH] using node_rect'. intros acc O. destruct (mem_spec n acc) as [H|H]; [rewrite (po_mem n acc H); exact O|].
  rewrite (po_new n acc H). apply ordered_snoc.
  - apply pos_ordered; [exact IH|exact O].
  - destruct (pos_adds (deps n) acc) as (new & -> & Hn). intros C. apply in_app_iff in C as [C|C]; [contradiction|].
    destruct (Hn n C) as (d & Hd & Sd). apply dep_size in Hd. apply sub_size in Sd. lia.
  - intros d Hd. apply pos_has, Hd.
Qed.
Lemma ordered_nil : ordered [].
Proof. split; [constructor|]. intros [|i] n E; discriminate. Qed.
Lemma ordered_in l x n : ordered l -> In n l -> sub x n -> In x l.
Proof.
  intros O Hn S. induction S as [|n d Hd _ IH]; [exact Hn|]. apply IH. apply In_nth_error in Hn as (i & E).
  destruct O as [_ O]. specialize (O i n E d Hd). rewrite <- (firstn_skipn i l). apply in_app_iff. left. exact O.
Qed.
Lemma po_root n x : In x (po n []) <-> sub x n.
Proof.
  split.
  - destruct (po_adds n []) as (new & -> & H). apply H.
  - intros S. apply (ordered_in (po n []) x n (po_ordered n [] ordered_nil) (po_has n []) S).
Qed.

(** ** PostOrder's loop *)
Definition arcs_of (l : list node) : nat := list_sum (map (fun n => length (deps n)) l).
Lemma arcs_app a b : arcs_of (a ++ b) = arcs_of a + arcs_of b.
Proof. unfold arcs_of. rewrite map_app, list_sum_app. reflexivity. Qed.
Lemma skip_fuel nodes ds : forall f idx g, length ds - idx <= f -> length ds - idx <= g -> skip_known nodes ds idx f = skip_known nodes ds idx g.
Proof.
  induction f as [|f IH]; intros idx g Hf Hg.
  - destruct g as [|g]; [reflexivity|]. cbn [skip_known]. destruct (nth_error ds idx) eqn:E; [|reflexivity].
    assert (idx < length ds) by (apply nth_error_Some; congruence). lia.
  - destruct g as [|g]; cbn [skip_known].
    + destruct (nth_error ds idx) eqn:E; [|reflexivity]. assert (idx < length ds) by (apply nth_error_Some; congruence). lia.
    + destruct (nth_error ds idx) eqn:E; [|reflexivity]. destruct (mem n nodes); [|reflexivity]. apply IH; lia.
Qed.
Lemma skip_step nodes ds idx d : nth_error ds idx = Some d -> In d nodes ->
  skip_known nodes ds idx (length ds) = skip_known nodes ds (S idx) (length ds).
Proof.
  intros E M. assert (L : idx < length ds) by (apply nth_error_Some; congruence). destruct (length ds) as [|k] eqn:K; [lia|].
  transitivity (skip_known nodes ds (S idx) k); [cbn [skip_known]; rewrite E; apply mem_in in M; rewrite M; reflexivity|]. apply skip_fuel; lia.
Qed.
Lemma skip_stop nodes ds idx d : nth_error ds idx = Some d -> ~ In d nodes -> skip_known nodes ds idx (length ds) = idx.
Proof.
  intros E M. apply mem_not in M. destruct (length ds); cbn [skip_known]; [reflexivity|]. rewrite E, M. reflexivity.
Qed.
Lemma skip_end nodes ds idx : length ds <= idx -> skip_known nodes ds idx (length ds) = idx.
Proof.
  intros L. destruct (length ds) eqn:K; cbn [skip_known]; [reflexivity|]. replace (nth_error ds idx) with (@None node); [reflexivity|]. symmetry. apply nth_error_None. lia.
Qed.
Definition resume (fuel : nat) (nodes : list node) (stack : list vframe) (arcs : nat) : option (list node * nat) :=
  match stack with [] => Some (nodes, arcs) | f :: st => po_loop fuel nodes st (v_node f) (v_cnt f) arcs end.
Definition loop_ok (n : node) : Prop := forall nodes stack base, ~ In n nodes -> exists k, k <= 2 * size n - 1 /\
  forall fuel, po_loop (k + fuel) nodes stack n 0 (base + arcs_of nodes) = resume fuel (po n nodes) stack (base + arcs_of (po n nodes)).
Lemma po_loop_step fu nodes stack fr idx arcs : po_loop (S fu) nodes stack fr idx arcs =
  (let i := skip_known nodes (deps fr) idx (length (deps fr)) in
   if i <? length (deps fr) then let? d := rd (deps fr) i in po_loop fu nodes (mkF fr (i + 1) :: stack) d 0 arcs
   else resume fu (nodes ++ [fr]) stack (arcs + length (deps fr))).
Proof. reflexivity. Qed.
Lemma loop_deps n : Forall loop_ok (deps n) -> forall rest idx nodes stack base, skipn idx (deps n) = rest -> idx <= length (deps n) ->
  exists k, 0 < k <= 2 * list_sum (map size rest) + 1 /\
  forall fuel, po_loop (k + fuel) nodes stack n idx (base + arcs_of nodes) =
    resume fuel (pos rest nodes ++ [n]) stack (base + arcs_of (pos rest nodes) + length (deps n)).
Proof.
  intros F. induction rest as [|d rest IH]; intros idx nodes stack base Hs Hi.
  - exists 1. cbn [map list_sum]. split; [unfold list_sum; cbn; lia|]. intros fuel. change (1 + fuel) with (S fuel). rewrite po_loop_step. cbv zeta.
    assert (L : length (deps n) <= idx) by (apply (f_equal (@length _)) in Hs; rewrite skipn_length in Hs; cbn in Hs; lia).
    rewrite skip_end by exact L. replace (idx <? length (deps n)) with false by lia. reflexivity.
  - assert (E : nth_error (deps n) idx = Some d).
    { rewrite <- (firstn_skipn idx (deps n)), Hs, nth_error_app2 by (rewrite firstn_length; lia). rewrite firstn_length, Nat.min_l, Nat.sub_diag by lia. reflexivity. }
    assert (L : idx < length (deps n)) by (apply nth_error_Some; congruence).
    assert (Hs' : skipn (S idx) (deps n) = rest).
    { clear - Hs. revert Hs. generalize (deps n). clear n. induction idx as [|i IH]; intros l Hs; destruct l as [|x l]; try discriminate; [cbn in Hs; injection Hs as _ Hs; exact Hs|]. apply (IH l). exact Hs. }
    cbn [map]. rewrite sum_cons', pos_cons. destruct (mem_spec d nodes) as [M|M].
    + rewrite (po_mem d nodes M). destruct (IH (S idx) nodes stack base Hs' ltac:(lia)) as (k & Hk & H). exists k. split; [lia|].
      intros fuel. rewrite <- (H fuel). destruct k as [|k]; [lia|]. change (S k + fuel) with (S (k + fuel)). rewrite !po_loop_step. rewrite (skip_step nodes (deps n) idx d E M). reflexivity.
    + assert (Ld : loop_ok d) by (rewrite Forall_forall in F; apply F; apply nth_error_In in E; exact E).
      destruct (Ld nodes (mkF n (idx + 1) :: stack) base M) as (k1 & Hk1 & H1).
      destruct (IH (S idx) (po d nodes) stack base Hs' ltac:(lia)) as (k2 & Hk2 & H2).
      exists (S (k1 + k2)). split; [assert (1 <= size d) by (rewrite size_deps; lia); lia|].
      intros fuel. change (S (k1 + k2) + fuel) with (S (k1 + k2 + fuel)). rewrite po_loop_step. cbv zeta. rewrite (skip_stop nodes (deps n) idx d E M).
      replace (idx <? length (deps n)) with true by lia. unfold rd. rewrite E. cbn [bind]. rewrite <- Nat.add_assoc, H1. cbn [resume v_node v_cnt].
      rewrite Nat.add_1_r. apply H2.
Qed.
Lemma loop_all n : loop_ok n.
Proof.
  induction n as [n IH] using node_rect'. intros nodes stack base M.
  destruct (loop_deps n IH (deps n) 0 nodes stack base eq_refl ltac:(lia)) as (k & Hk & H). exists k. split; [rewrite (size_deps n); lia|].
  intros fuel. rewrite H, (po_new n nodes M), arcs_app. replace (arcs_of [n]) with (length (deps n)) by (unfold arcs_of, list_sum; cbn; lia). f_equal. lia.
Qed.
Lemma po_loop_ok root : po_loop (2 * size root) [] [] root 0 0 = Some (po root [], arcs_of (po root [])).
Proof.
  destruct (loop_all root [] [] 0 (fun H => H)) as (k & Hk & H). specialize (H (2 * size root - k)).
  replace (k + (2 * size root - k)) with (2 * size root) in H by lia. exact H.
Qed.

(** ** The adjacency array *)
Lemma index_in_spec n l : In n l -> exists i, index_in n l = Some i /\ nth_error l i = Some n.
Proof.
  induction l as [|x l IH]; [contradiction|]. intros H. cbn [index_in]. destruct (node_spec x n) as [->|E]; [exists 0; auto|].
  destruct H as [H|H]; [contradiction|]. destruct (IH H) as (i & -> & E'). exists (S i). auto.
Qed.
Lemma index_in_some n l i : index_in n l = Some i -> nth_error l i = Some n.
Proof.
  revert i. induction l as [|x l IH]; intros i H; [discriminate|]. cbn [index_in] in H. destruct (node_spec x n) as [->|E]; [injection H as <-; reflexivity|].
  destruct (index_in n l) as [j|]; [|discriminate]. injection H as <-. apply IH. reflexivity.
Qed.
Definition idx (nodes : list node) (d : node) : nat := match index_in d nodes with Some i => i | None => 0 end.
Lemma upd_mid {A} (a : list A) x y b n : length a = n -> upd (a ++ x :: b) n y = Some (a ++ y :: b).
Proof. intros <-. induction a as [|z a IH]; cbn [app length upd]; [reflexivity|]. rewrite IH. reflexivity. Qed.
Lemma repeat_S {A} (x : A) n m : repeat x (n + m) = repeat x n ++ repeat x m.
Proof. apply repeat_app. Qed.
(** The array is [offs ++ rest of the offsets ++ lists ++ rest of the lists]. *)
Lemma put_deps_ok nodes ds : (forall d, In d ds -> In d nodes) -> forall a m, put_deps nodes (a ++ repeat 0 (length ds + m)) (length a) ds =
  Some (a ++ map (idx nodes) ds ++ repeat 0 m, length a + length ds).
Proof.
  induction ds as [|d ds IH]; intros H a m; cbn [put_deps map length app]; [rewrite Nat.add_0_r; reflexivity|].
  destruct (index_in_spec d nodes (H d (or_introl eq_refl))) as (i & E & _). unfold idx at 1. rewrite E. cbn [bind].
  cbn [Nat.add repeat]. rewrite (upd_mid a 0 i (repeat 0 (length ds + m)) (length a) eq_refl). cbn [bind].
  specialize (IH (fun d' H' => H d' (or_intror H')) (a ++ [i]) m). rewrite <- app_assoc in IH. cbn [app] in IH.
  rewrite app_length, Nat.add_1_r in IH. cbn [length] in IH. replace (S (length a)) with (length a + 1) in * by lia. rewrite IH, <- app_assoc. cbn [app]. f_equal. f_equal. lia.
Qed.
Fixpoint starts (j : nat) (l : list node) : list nat :=
  match l with [] => [] | n :: t => j :: starts (j + length (deps n)) t end.
Lemma starts_len l : forall j, length (starts j l) = length l.
Proof. induction l as [|n l IH]; intros j; [reflexivity|]. cbn. rewrite IH. reflexivity. Qed.
Lemma put_nodes_ok nodes : forall rest done m, (forall n d, In n rest -> In d (deps n) -> In d nodes) ->
  let off := length done + length rest + 1 in
  let lists l := concat (map (fun n => map (idx nodes) (deps n)) l) in
  put_nodes nodes (starts off done ++ repeat 0 (length rest + 1) ++ lists done ++ repeat 0 (arcs_of rest + m)) (length done) (off + arcs_of done) rest =
  Some (starts off (done ++ rest) ++ [0] ++ lists (done ++ rest) ++ repeat 0 m, off + arcs_of (done ++ rest)).
Proof.
  induction rest as [|n rest IH]; intros done m H off lists.
  - cbn [put_nodes length Nat.add repeat]. rewrite app_nil_r. reflexivity.
  - cbn [put_nodes length Nat.add repeat app].
    assert (Ls : length (starts off done) = length done) by apply starts_len.
    rewrite (upd_mid _ _ _ _ _ Ls). cbn [bind]. assert (Ll : length (lists done) = arcs_of done).
    { unfold lists, arcs_of. clear. induction done as [|x done IH]; [reflexivity|]. cbn [map concat]. rewrite app_length, map_length, sum_cons', IH. reflexivity. }
    assert (Ea : arcs_of (n :: rest) = length (deps n) + arcs_of rest) by reflexivity. rewrite Ea.
    set (A := starts off done ++ (off + arcs_of done) :: repeat 0 (length rest + 1) ++ lists done).
    assert (LA : length A = off + arcs_of done).
    { unfold A. rewrite app_length. cbn [length]. rewrite app_length, repeat_length, Ls, Ll. unfold off. cbn [length]. lia. }
    replace (starts off done ++ (off + arcs_of done) :: repeat 0 (length rest + 1) ++ lists done ++ repeat 0 (length (deps n) + arcs_of rest + m))
      with (A ++ repeat 0 (length (deps n) + (arcs_of rest + m))) by (unfold A; rewrite <- !app_assoc; cbn [app]; rewrite <- app_assoc, Nat.add_assoc; reflexivity).
    rewrite <- LA, (put_deps_ok nodes (deps n)) by (intros d Hd; apply (H n d (or_introl eq_refl) Hd)). cbn [bind fst snd].
    specialize (IH (done ++ [n]) m (fun n' d' H1 H2 => H n' d' (or_intror H1) H2)). cbv zeta in IH.
    assert (Eo : length (done ++ [n]) + length rest + 1 = off) by (rewrite app_length; cbn; unfold off; cbn [length]; lia). rewrite Eo in IH.
    assert (Es : starts off (done ++ [n]) = starts off done ++ [off + arcs_of done]).
    { clear. generalize off as o. induction done as [|x done IH]; intros o; [cbn; unfold arcs_of, list_sum; cbn; f_equal; lia|]. cbn [app starts]. rewrite IH. cbn [app]. do 3 f_equal.
      change (arcs_of (x :: done)) with (length (deps x) + arcs_of done). lia. }
    rewrite Es in IH. rewrite map_app, concat_app in IH. cbn [map concat] in IH. rewrite app_nil_r in IH. fold lists in IH.
    replace (length (done ++ [n])) with (S (length done)) in IH by (rewrite app_length; cbn; lia). rewrite arcs_app in IH.
    replace (arcs_of [n]) with (length (deps n)) in IH by (unfold arcs_of, list_sum; cbn; lia).
    replace (A ++ map (idx nodes) (deps n) ++ repeat 0 (arcs_of rest + m)) with
      ((starts off done ++ [off + arcs_of done]) ++ repeat 0 (length rest + 1) ++ (lists done ++ map (idx nodes) (deps n)) ++ repeat 0 (arcs_of rest + m)).
    2: { unfold A. rewrite <- !app_assoc. cbn [app]. rewrite <- !app_assoc. reflexivity. }
    replace (length A + length (deps n)) with (off + (arcs_of done + length (deps n))) by lia. unfold lists at 1. rewrite IH.
    replace ((done ++ [n]) ++ rest) with (done ++ n :: rest) by (rewrite <- app_assoc; reflexivity). reflexivity.
Qed.
Definition adj_of (nodes : list node) : list nat :=
  starts (length nodes + 1) nodes ++ [length nodes + 1 + arcs_of nodes] ++ concat (map (fun n => map (idx nodes) (deps n)) nodes).
Lemma post_order_ok root : post_order root = Some (mkP (po root []) (adj_of (po root []))).
Proof.
  unfold post_order. rewrite po_loop_ok. cbn [bind fst snd]. set (nodes := po root []). assert (O := po_ordered root [] ordered_nil). fold nodes in O.
  pose proof (put_nodes_ok nodes nodes [] 0) as Q. cbv zeta in Q. cbn [length Nat.add app starts map concat] in Q.
  replace (length nodes + 1 + arcs_of []) with (length nodes + 1) in Q by (unfold arcs_of, list_sum; cbn; lia). rewrite Nat.add_0_r in Q.
  rewrite <- repeat_S in Q. rewrite Q. clear Q.
  - cbn [bind fst snd repeat]. rewrite app_nil_r. rewrite (upd_mid _ 0 _ _ (length nodes) (starts_len nodes _)). reflexivity.
  - intros n d Hn Hd. apply In_nth_error in Hn as (i & E). destruct O as [_ O]. specialize (O i n E d Hd).
    rewrite <- (firstn_skipn i nodes). apply in_app_iff. left. exact O.
Qed.
Lemma starts_nth l : forall j i n, nth_error l i = Some n -> nth_error (starts j l) i = Some (j + arcs_of (firstn i l)).
Proof.
  induction l as [|x l IH]; intros j [|i] n E; try discriminate; cbn [starts nth_error firstn]; [unfold arcs_of, list_sum; cbn; f_equal; lia|].
  rewrite (IH _ i n E). f_equal. change (arcs_of (x :: firstn i l)) with (length (deps x) + arcs_of (firstn i l)). lia.
Qed.
Lemma firstn_snoc {A} (l : list A) i x : nth_error l i = Some x -> firstn (S i) l = firstn i l ++ [x].
Proof. revert i. induction l as [|y l IH]; intros [|i] E; try discriminate; [injection E as ->; reflexivity|]. cbn [firstn app]. f_equal. apply IH, E. Qed.
Lemma nth_split_at {A} (l : list A) i x : nth_error l i = Some x -> l = firstn i l ++ x :: skipn (S i) l.
Proof. revert i. induction l as [|y l IH]; intros [|i] E; try discriminate; [injection E as ->; reflexivity|]. cbn [firstn skipn app]. f_equal. apply IH, E. Qed.
Lemma adj_bound nodes i n : nth_error nodes i = Some n -> nth_error (adj_of nodes) (i + 1) = Some (length nodes + 1 + arcs_of (firstn (S i) nodes)).
Proof.
  intros E. unfold adj_of. assert (L : i < length nodes) by (apply nth_error_Some; congruence).
  destruct (nth_error nodes (S i)) as [m|] eqn:E'.
  - assert (S i < length nodes) by (apply nth_error_Some; congruence). rewrite nth_error_app1 by (rewrite starts_len; lia).
    replace (i + 1) with (S i) by lia. apply (starts_nth nodes _ (S i) m E').
  - apply nth_error_None in E'. rewrite nth_error_app2 by (rewrite starts_len; lia). rewrite starts_len. replace (i + 1 - length nodes) with 0 by lia. cbn [nth_error app].
    rewrite firstn_all2 by lia. reflexivity.
Qed.
Lemma dep_indices_ok nodes i n : ordered nodes -> nth_error nodes i = Some n ->
  dep_indices (mkP nodes (adj_of nodes)) i = Some (map (idx nodes) (deps n)).
Proof.
  intros O E. unfold dep_indices. cbn [p_adj]. unfold rd. assert (L : i < length nodes) by (apply nth_error_Some; congruence).
  rewrite (adj_bound nodes i n E). replace (nth_error (adj_of nodes) i) with (Some (length nodes + 1 + arcs_of (firstn i nodes))).
  2: { unfold adj_of. rewrite nth_error_app1 by (rewrite starts_len; lia). symmetry. apply (starts_nth nodes _ i n E). }
  cbn [bind]. rewrite (firstn_snoc nodes i n E), arcs_app. replace (arcs_of [n]) with (length (deps n)) by (unfold arcs_of, list_sum; cbn; lia).
  set (lists l := concat (map (fun n => map (idx nodes) (deps n)) l)).
  assert (Ll : forall l, length (lists l) = arcs_of l).
  { intros l. unfold lists, arcs_of. clear. induction l as [|x l IH]; [reflexivity|]. cbn [map concat]. rewrite app_length, map_length, sum_cons', IH. reflexivity. }
  assert (Ea : adj_of nodes = (starts (length nodes + 1) nodes ++ [length nodes + 1 + arcs_of nodes]) ++ lists (firstn i nodes) ++ map (idx nodes) (deps n) ++ lists (skipn (S i) nodes)).
  { unfold adj_of. rewrite <- app_assoc. do 2 f_equal. change (concat (map (fun n0 => map (idx nodes) (deps n0)) nodes)) with (lists nodes).
    rewrite (f_equal lists (nth_split_at nodes i n E)). unfold lists. rewrite map_app, concat_app. reflexivity. }
  set (P := starts (length nodes + 1) nodes ++ [length nodes + 1 + arcs_of nodes]) in *.
  assert (LP : length P = length nodes + 1) by (unfold P; rewrite app_length, starts_len; reflexivity).
  rewrite Ea. replace (_ && _) with true.
  2: { symmetry. apply andb_true_iff. rewrite !app_length, map_length, !Ll, LP. lia. }
  rewrite app_assoc. replace (length nodes + 1 + arcs_of (firstn i nodes)) with (length (P ++ lists (firstn i nodes))) by (rewrite app_length, Ll, LP; reflexivity).
  rewrite skipn_app, skipn_all, Nat.sub_diag. cbn [skipn app].
  replace (length nodes + 1 + _ - _) with (length (map (idx nodes) (deps n))) by (rewrite app_length, map_length, Ll, LP; lia).
  rewrite firstn_app, firstn_all, Nat.sub_diag. cbn [firstn]. rewrite app_nil_r. reflexivity.
Qed.
