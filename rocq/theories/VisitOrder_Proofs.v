(** Proofs about the visitor orders, the keys, the traversal and [Transform]. *)
From Coq Require Import Permutation.
From Verif Require Import Base Visit_Model Visit_Spec Visit_Proofs.

(** ** The recursive visiting order *)
Definition pv_dep (pv : node -> list node -> list node * list (bool * node)) (r : list node * list (bool * node)) (d : node) :
    list node * list (bool * node) :=
  if mem d (fst r) then r else (fst (pv d (d :: fst r)), snd r ++ snd (pv d (d :: fst r))).
Fixpoint pv (n : node) (vis : list node) : list node * list (bool * node) :=
  match n with
  | Op _ _ ds => let r := fold_left (pv_dep pv) ds (vis, []) in (fst r, (true, n) :: snd r ++ [(false, n)])
  | _ => (vis, [(true, n); (false, n)])
  end.
Definition pvs (ds : list node) (r : list node * list (bool * node)) := fold_left (pv_dep pv) ds r.
Lemma pv_eq n vis : pv n vis = (fst (pvs (deps n) (vis, [])), (true, n) :: snd (pvs (deps n) (vis, [])) ++ [(false, n)]).
Proof. destruct n; reflexivity. Qed.
Lemma pvs_acc ds : forall vis ev, pvs ds (vis, ev) = (fst (pvs ds (vis, [])), ev ++ snd (pvs ds (vis, []))).
Proof.
  induction ds as [|d ds IH]; intros vis ev; [cbn; rewrite app_nil_r; reflexivity|]. unfold pvs in *. cbn [fold_left]. unfold pv_dep at 2 4 6. cbn [fst snd].
  destruct (mem d vis); [apply IH|]. cbn [app]. rewrite IH. rewrite (IH _ (snd (pv d (d :: vis)))). cbn [fst snd]. rewrite app_assoc. reflexivity.
Qed.
Lemma pvs_cons d ds vis : pvs (d :: ds) (vis, []) =
  if mem d vis then pvs ds (vis, []) else let r := pv d (d :: vis) in (fst (pvs ds (fst r, [])), snd r ++ snd (pvs ds (fst r, []))).
Proof.
  unfold pvs at 1. cbn [fold_left]. unfold pv_dep at 2. cbn [fst snd]. destruct (mem d vis); [reflexivity|]. cbn [app]. apply pvs_acc.
Qed.

(** The loop follows it. *)
Definition vloop_ok (n : node) : Prop := forall vis stack ev, exists k, k <= 2 * size n - 1 /\
  forall fuel, visit_loop (k + fuel) vis (mkF n 0 :: stack) ev = visit_loop fuel (fst (pv n vis)) stack (ev ++ snd (pv n vis)).
Lemma vloop_deps n : Forall vloop_ok (deps n) -> forall rest i vis stack ev, skipn i (deps n) = rest -> i <= length (deps n) ->
  exists k, k <= 2 * list_sum (map size rest) + 1 /\
  forall fuel, visit_loop (k + fuel) vis (mkF n i :: stack) ev =
    visit_loop fuel (fst (pvs rest (vis, []))) stack (ev ++ (if i =? 0 then [(true, n)] else []) ++ snd (pvs rest (vis, [])) ++ [(false, n)]).
Proof.
  intros F. induction rest as [|d rest IH]; intros i vis stack ev Hs Hi.
  - exists 1. split; [unfold list_sum; cbn; lia|]. intros fuel.
    assert (L : length (deps n) <= i) by (apply (f_equal (@length _)) in Hs; rewrite skipn_length in Hs; cbn in Hs; lia).
    change (1 + fuel) with (S fuel). cbn [visit_loop v_cnt v_node]. replace (i =? length (deps n)) with true by lia. cbn [pvs fold_left fst snd].
    destruct (i =? 0); cbn [app]; rewrite <- ?app_assoc; reflexivity.
  - assert (E : nth_error (deps n) i = Some d).
    { rewrite <- (firstn_skipn i (deps n)), Hs, nth_error_app2 by (rewrite firstn_length; lia). rewrite firstn_length, Nat.min_l, Nat.sub_diag by lia. reflexivity. }
    assert (L : i < length (deps n)) by (apply nth_error_Some; congruence).
    assert (Hs' : skipn (S i) (deps n) = rest).
    { clear - Hs. revert Hs. generalize (deps n). clear n. induction i as [|i IH]; intros l Hs; destruct l as [|x l]; try discriminate; [cbn in Hs; injection Hs as _ Hs; exact Hs|]. apply (IH l). exact Hs. }
    cbn [map]. rewrite sum_cons', pvs_cons. assert (1 <= size d) by (rewrite size_deps; lia).
    set (pre := if i =? 0 then [(true, n)] else []). destruct (mem_spec d vis) as [M|M].
    + destruct (IH (S i) vis stack (ev ++ pre) Hs' ltac:(lia)) as (k & Hk & H'). exists (S k). split; [lia|].
      intros fuel. specialize (H' fuel). cbn [Nat.eqb app] in H'. rewrite <- app_assoc in H'. rewrite <- H'.
      change (S k + fuel) with (S (k + fuel)). cbn [visit_loop v_cnt v_node]. replace (i =? length (deps n)) with false by lia.
      unfold rd. rewrite E. cbn [bind]. apply mem_in in M. rewrite M. f_equal. unfold pre. destruct (i =? 0); [reflexivity|rewrite app_nil_r; reflexivity].
    + assert (Ld : vloop_ok d) by (rewrite Forall_forall in F; apply F; apply nth_error_In in E; exact E).
      destruct (Ld (d :: vis) (mkF n (S i) :: stack) (ev ++ pre)) as (k1 & Hk1 & H1).
      destruct (IH (S i) (fst (pv d (d :: vis))) stack ((ev ++ pre) ++ snd (pv d (d :: vis))) Hs' ltac:(lia)) as (k2 & Hk2 & H2).
      exists (S (k1 + k2)). split; [lia|]. intros fuel. specialize (H2 fuel). cbn [Nat.eqb app] in H2. cbv zeta. cbn [fst snd].
      rewrite <- !app_assoc in H2. rewrite <- !app_assoc. rewrite <- H2.
      change (S (k1 + k2) + fuel) with (S (k1 + k2 + fuel)). cbn [visit_loop v_cnt v_node]. replace (i =? length (deps n)) with false by lia.
      unfold rd. rewrite E. cbn [bind]. apply mem_not in M. rewrite M. rewrite <- Nat.add_assoc, app_assoc, <- H1. f_equal. unfold pre. destruct (i =? 0); [reflexivity|rewrite app_nil_r; reflexivity].
Qed.
Lemma vloop_all n : vloop_ok n.
Proof.
  induction n as [n IH] using node_rect'. intros vis stack ev.
  destruct (vloop_deps n IH (deps n) 0 vis stack ev eq_refl ltac:(lia)) as (k & Hk & H). exists k. split; [rewrite (size_deps n); lia|].
  intros fuel. rewrite H, (pv_eq n vis). reflexivity.
Qed.
Lemma visit_impl_ok root : visit_impl root = Some (snd (pv root [root])).
Proof.
  unfold visit_impl. destruct (vloop_all root [root] [] []) as (k & Hk & H). specialize (H (2 * size root - k)).
  replace (k + (2 * size root - k)) with (2 * size root) in H by lia. rewrite H. destruct (2 * size root - k); reflexivity.
Qed.

(** Nesting, and the closing events *)
Lemma nested_app a b : nested a -> nested b -> nested (a ++ b).
Proof.
  induction 1 as [|x l l' H1 _ H2 IH]; intros Hb; [exact Hb|]. cbn [app]. rewrite <- app_assoc. cbn [app]. constructor; [exact H1|apply IH, Hb].
Qed.
Lemma pv_nested n : forall vis, nested (snd (pv n vis)).
Proof.
  induction n as [n IH] using node_rect'. intros vis. rewrite pv_eq. cbn [snd]. apply (nest_node n _ []); [|constructor].
  revert vis. induction IH as [|d ds H F IHd]; intros vis; [constructor|]. rewrite pvs_cons. destruct (mem d vis); [apply IHd|]. cbn [snd]. apply nested_app; [apply H|apply IHd].
Qed.
Definition opens (l : list (bool * node)) : list node := map snd (filter fst l).
Definition closes (l : list (bool * node)) : list node := map snd (filter (fun e => negb (fst e)) l).
Lemma opens_app a b : opens (a ++ b) = opens a ++ opens b.
Proof. unfold opens. rewrite filter_app, map_app. reflexivity. Qed.
Lemma closes_app a b : closes (a ++ b) = closes a ++ closes b.
Proof. unfold closes. rewrite filter_app, map_app. reflexivity. Qed.
Lemma nested_perm l : nested l -> Permutation (opens l) (closes l).
Proof.
  induction 1 as [|x a b _ IHa _ IHb]; [constructor|].
  change ((true, x) :: a ++ (false, x) :: b) with ([(true, x)] ++ a ++ [(false, x)] ++ b). rewrite !opens_app, !closes_app. cbn [opens closes map filter fst snd negb app].
  change (closes ((true, x) :: nil)) with (@nil node). cbn [app]. apply Permutation_cons_app. apply Permutation_app; assumption.
Qed.
Lemma pv_po n : forall vis acc, In n vis -> ~ In n acc -> (forall x, In x acc -> In x vis) -> (forall x, In x vis -> In x acc \/ size n <= size x) ->
  acc ++ closes (snd (pv n vis)) = po n acc /\ (forall x, In x (fst (pv n vis)) <-> In x vis \/ In x (po n acc)).
Proof.
  induction n as [n IH] using node_rect'. intros vis acc Hn Ha Hav Hva.
  assert (K : forall ds, (forall d, In d ds -> In d (deps n)) -> Forall (fun d => forall vis acc, In d vis -> ~ In d acc -> (forall x, In x acc -> In x vis) ->
       (forall x, In x vis -> In x acc \/ size d <= size x) -> acc ++ closes (snd (pv d vis)) = po d acc /\ (forall x, In x (fst (pv d vis)) <-> In x vis \/ In x (po d acc))) ds ->
     forall vis acc, (forall x, In x acc -> In x vis) -> (forall x, In x vis -> In x acc \/ size n <= size x) ->
     acc ++ closes (snd (pvs ds (vis, []))) = pos ds acc /\ (forall x, In x (fst (pvs ds (vis, []))) <-> In x vis \/ In x (pos ds acc))).
  { clear IH Hn Ha Hav Hva vis acc. induction ds as [|d ds IHd]; intros Hds F vis acc Hav Hva.
    - cbn. rewrite app_nil_r. split; [reflexivity|]. intros x. specialize (Hav x). tauto.
    - inversion F as [|? ? F1 F2]; subst. rewrite pvs_cons, pos_cons. pose proof (dep_size n d (Hds d (or_introl eq_refl))) as Sd.
      assert (Hds' : forall d, In d ds -> In d (deps n)) by (intros; apply Hds; right; assumption).
      destruct (mem_spec d vis) as [M|M].
      + destruct (Hva d M) as [A|A]; [|lia]. rewrite (po_mem d acc A). apply IHd; assumption.
      + assert (A : ~ In d acc) by (intros A; apply M, Hav, A).
        destruct (F1 (d :: vis) acc (or_introl eq_refl) A) as [E1 E2].
        * intros x Hx. right. apply Hav, Hx.
        * intros x [<-|Hx]; [right; lia|]. destruct (Hva x Hx); [auto|right; lia].
        * cbn [fst snd]. rewrite closes_app, app_assoc, E1. destruct (IHd Hds' F2 (fst (pv d (d :: vis))) (po d acc)) as [E3 E4].
          -- intros x Hx. apply E2. auto.
          -- intros x Hx. apply E2 in Hx as [[<-|Hx]|Hx]; [left; apply po_has| |auto]. destruct (Hva x Hx) as [Hx'|Hx']; [left; apply po_incl, Hx'|auto].
          -- split; [exact E3|]. intros x. rewrite E4, E2. cbn [In]. split; [|tauto].
             intros [[[<-|Hx]|Hx]|Hx]; auto; right; [apply pos_incl, po_has|apply pos_incl, Hx]. }
  destruct (K (deps n) (fun d H => H) IH vis acc Hav Hva) as [E1 E2]. rewrite pv_eq, (po_new n acc Ha). cbn [fst snd]. split.
  - change ((true, n) :: ?l) with ([(true, n)] ++ l). rewrite !closes_app. change (closes [(true, n)]) with (@nil node). change (closes [(false, n)]) with [n]. cbn [app].
    rewrite app_assoc, E1. reflexivity.
  - intros x. rewrite E2, in_app_iff. cbn [In]. split; [tauto|]. intros [H|[H|[<-|[]]]]; auto.
Qed.
Lemma closes_po root : closes (snd (pv root [root])) = po root [].
Proof.
  destruct (pv_po root [root] [] (or_introl eq_refl) (fun H => H)) as [E _]; [contradiction| |exact E]. intros x [<-|[]]. right. lia.
Qed.
Lemma visitor_order_ok root : visitor_order root = Some (po root []).
Proof. unfold visitor_order. rewrite visit_impl_ok. cbn [bind]. f_equal. apply closes_po. Qed.
Lemma NoDup_po root : NoDup (po root []). Proof. apply (po_ordered root [] ordered_nil). Qed.

(** ** Keys *)
Lemma str_leb_refl a : str_leb a a = true.
Proof. induction a as [|x a IH]; [reflexivity|]. cbn. rewrite Nat.eqb_refl, IH. apply orb_true_r. Qed.
Lemma str_leb_total a : forall b, str_leb a b = false -> str_leb b a = true.
Proof.
  induction a as [|x a IH]; intros [|y b] H; try reflexivity; try discriminate. cbn in *. apply orb_false_iff in H as [H1 H2]. apply Nat.ltb_ge in H1.
  destruct (x =? y) eqn:E; [|apply orb_true_iff; left; apply Nat.eqb_neq in E; apply Nat.ltb_lt; lia].
  apply Nat.eqb_eq in E. subst. rewrite Nat.eqb_refl. cbn in H2. rewrite (IH b H2). apply orb_true_r.
Qed.
Lemma str_leb_lt a : forall b, str_leb a b = true -> a = b \/ str_lt a b.
Proof.
  induction a as [|x a IH]; intros [|y b] H; try discriminate; [left; reflexivity|right; left; exists y, b; reflexivity|].
  cbn in H. apply orb_true_iff in H as [H|H].
  - right. right. apply Nat.ltb_lt in H. exists [], x, y, a, b. auto.
  - apply andb_true_iff in H as [H1 H2]. apply Nat.eqb_eq in H1. subst y. destruct (IH b H2) as [->|[(c & t & ->)|(p & u & v & s & t & -> & -> & L)]]; [auto| |].
    + right. left. exists c, t. reflexivity.
    + right. right. exists (x :: p), u, v, s, t. auto.
Qed.
Lemma str_lt_trans a b c : str_lt a b -> str_lt b c -> str_lt a c.
Proof.
  assert (P : forall (p q : list nat) x y s t, p ++ x :: s = q ++ y :: t -> (exists r, q = p ++ x :: r) \/ (exists r, p = q ++ y :: r) \/ (p = q /\ x = y /\ s = t)).
  { induction p as [|h p IH]; intros [|h' q] x y s t E; cbn in E.
    - injection E as -> ->. auto.
    - injection E as -> E. left. exists q. reflexivity.
    - injection E as -> E. right. left. exists p. reflexivity.
    - injection E as -> E. destruct (IH q x y s t E) as [(r & ->)|[(r & ->)|(-> & -> & ->)]]; [left; exists r; reflexivity|right; left; exists r; reflexivity|right; right; auto]. }
  intros [(c1 & t1 & ->)|(p & x & y & s & t & -> & -> & L)] [(c2 & t2 & ->)|(q & u & v & s' & t' & E & -> & L')].
  - left. exists c1, (t1 ++ c2 :: t2). rewrite <- app_assoc. reflexivity.
  - destruct (P a q c1 u t1 s' E) as [(r & ->)|[(r & ->)|(-> & -> & ->)]].
    + left. exists c1, (r ++ v :: t'). rewrite <- app_assoc. reflexivity.
    + right. exists q, u, v, r, t'. auto.
    + left. exists v, t'. reflexivity.
  - right. exists p, x, y, s, (t ++ c2 :: t2). rewrite <- app_assoc. auto.
  - destruct (P p q y u t s' E) as [(r & ->)|[(r & ->)|(-> & -> & ->)]].
    + right. exists p, x, y, s, (r ++ v :: t'). rewrite <- app_assoc. auto.
    + right. exists q, u, v, (r ++ x :: s), t'. rewrite <- app_assoc. auto.
    + right. exists q, x, v, s, t'. repeat split. lia.
Qed.
Inductive incr : list (list nat) -> Prop := incr_nil : incr [] | incr_cons x l : incr l -> (forall y, In y l -> str_lt x y) -> incr (x :: l).
Lemma insert_in x l y : In y (insert x l) <-> y = x \/ In y l.
Proof.
  induction l as [|z l IH]; cbn [insert]; [cbn; intuition|]. destruct (str_leb x z); cbn [In]; [intuition|]. rewrite IH. intuition.
Qed.
Lemma sort_in l y : In y (sort l) <-> In y l.
Proof. induction l as [|x l IH]; [reflexivity|]. cbn [sort fold_right]. fold (sort l). rewrite insert_in, IH. cbn. intuition. Qed.
Lemma insert_incr x l : incr l -> ~ In x l -> incr (insert x l).
Proof.
  induction 1 as [|z l H IH Hz]; intros N; cbn [insert]; [constructor; [constructor|contradiction]|].
  destruct (str_leb x z) eqn:E.
  - constructor; [constructor; assumption|]. apply str_leb_lt in E as [->|E]; [exfalso; apply N; left; reflexivity|].
    intros y [<-|Hy]; [exact E|]. apply (str_lt_trans x z y E), Hz, Hy.
  - apply str_leb_total, str_leb_lt in E as [->|E]; [exfalso; apply N; left; reflexivity|]. constructor; [apply IH; intros C; apply N; right; exact C|].
    intros y Hy. apply insert_in in Hy as [->|Hy]; [exact E|apply Hz, Hy].
Qed.
Lemma sort_incr l : NoDup l -> incr (sort l).
Proof.
  induction 1 as [|x l N _ IH]; [constructor|]. cbn [sort fold_right]. fold (sort l). apply insert_incr; [exact IH|]. rewrite sort_in. exact N.
Qed.
Lemma incr_increasing l : incr l -> increasing l.
Proof.
  induction 1 as [|x l H IH Hx]; intros [|i] [|j] a b L Ea Eb; try discriminate; try lia.
  - injection Ea as <-. apply Hx. apply (nth_error_In l j). exact Eb.
  - apply (IH i j a b ltac:(lia) Ea Eb).
Qed.
(** Two increasing lists with the same elements are equal. *)
Lemma str_lt_irr a : ~ str_lt a a.
Proof.
  intros [(c & t & E)|(p & x & y & s & t & E1 & E2 & L)].
  - apply (f_equal (@length _)) in E. rewrite app_length in E. cbn in E. lia.
  - rewrite E1 in E2. apply app_inv_head in E2. injection E2 as E2 _. lia.
Qed.
Lemma incr_unique a : incr a -> forall b, incr b -> (forall x, In x a <-> In x b) -> a = b.
Proof.
  induction 1 as [|x a Ha IH Hx]; intros b Hb E; destruct Hb as [|y b Hb Hy].
  - reflexivity.
  - exfalso. apply (E y). left. reflexivity.
  - exfalso. apply (E x). left. reflexivity.
  - assert (x = y).
    { destruct (proj1 (E x) (or_introl eq_refl)) as [H|H]; [auto|]. destruct (proj2 (E y) (or_introl eq_refl)) as [H'|H']; [auto|].
      exfalso. apply (str_lt_irr x). apply (str_lt_trans x y x); [apply Hx, H'|apply Hy, H]. }
    subst y. f_equal. apply IH; [exact Hb|]. intros z. split; intros Hz.
    + destruct (proj1 (E z) (or_intror Hz)) as [<-|H]; [exfalso; apply (str_lt_irr x), Hx, Hz|exact H].
    + destruct (proj2 (E z) (or_intror Hz)) as [<-|H]; [exfalso; apply (str_lt_irr x), Hy, Hz|exact H].
Qed.
Definition key_fun (key : node -> list (list nat)) : Prop := forall n m k, In k (key n) -> In k (key m) -> n = m.
Definition key_one (key : node -> list (list nat)) : Prop := forall n, NoDup (key n).
Lemma NoDup_keys key l : key_fun key -> key_one key -> NoDup l -> NoDup (flat_map key l).
Proof.
  intros K O. induction 1 as [|n l N _ IH]; [constructor|]. cbn [flat_map].
  assert (D : forall k, In k (key n) -> ~ In k (flat_map key l)).
  { intros k Hk C. apply in_flat_map in C as (m & Hm & C). rewrite (K n m k Hk C) in N. contradiction. }
  specialize (O n). clear - O IH D. induction O as [|k ks Hk O IHk]; [exact IH|]. cbn [app]. constructor.
  - intros C. apply in_app_iff in C as [C|C]; [contradiction|]. apply (D k (or_introl eq_refl) C).
  - apply IHk. intros k' H'. apply D. right. exact H'.
Qed.
Lemma leaf_fun : key_fun leaf_key.
Proof. intros n m k. destruct n, m; cbn; try contradiction. intros [->|[]] [->|[]]. reflexivity. Qed.
Lemma plh_fun : key_fun plh_key.
Proof. intros n m k. destruct n, m; cbn; try contradiction. intros [->|[]] [->|[]]. reflexivity. Qed.
Lemma leaf_one : key_one leaf_key. Proof. intros n. destruct n; cbn; repeat constructor; intros []. Qed.
Lemma plh_one : key_one plh_key. Proof. intros n. destruct n; cbn; repeat constructor; intros []. Qed.
Lemma opens_keys (key : node -> list (list nat)) l : flat_map (fun e : bool * node => if fst e then key (snd e) else []) l = flat_map key (opens l).
Proof. induction l as [|[[|] n] l IH]; cbn; [reflexivity| |exact IH]. rewrite IH. reflexivity. Qed.
Lemma get_keys_ok key root : key_fun key -> key_one key ->
  exists l, get_keys key root = Some l /\ incr l /\ (forall k, In k l <-> exists n, sub n root /\ In k (key n)).
Proof.
  intros K O. unfold get_keys. rewrite visit_impl_ok. cbn [bind]. eexists. split; [reflexivity|]. rewrite opens_keys.
  pose proof (nested_perm _ (pv_nested root [root])) as P. rewrite closes_po in P. split.
  - apply sort_incr, NoDup_keys; [exact K|exact O|]. apply (Permutation_NoDup (Permutation_sym P)), NoDup_po.
  - intros k. rewrite sort_in, in_flat_map. split; intros (n & H1 & H2); exists n; (split; [|exact H2]).
    + apply po_root. apply (Permutation_in _ P), H1.
    + apply (Permutation_in _ (Permutation_sym P)). apply po_root, H1.
Qed.
Lemma get_keys_po_ok key root p : key_fun key -> key_one key -> post_order root = Some p -> get_keys key root = Some (get_keys_po key p).
Proof.
  intros K O E. destruct (get_keys_ok key root K O) as (l & -> & I & H). f_equal. rewrite post_order_ok in E. injection E as <-. unfold get_keys_po. cbn [p_nodes].
  apply incr_unique; [exact I|apply sort_incr, NoDup_keys; [exact K|exact O|apply NoDup_po]|]. intros k. rewrite H, sort_in, in_flat_map.
  split; intros (n & H1 & H2); exists n; (split; [|exact H2]); apply po_root, H1.
Qed.

(** ** Traversal *)
Lemma collect_app {A B} (a b : list (A + B)) : collect (a ++ b) =
  match collect a with inl e => inl e | inr x => match collect b with inl e => inl e | inr y => inr (x ++ y) end end.
Proof.
  induction a as [|[e|x] a IH]; cbn [collect app]; [destruct (collect b); reflexivity|reflexivity|]. rewrite IH. destruct (collect a); [reflexivity|]. destruct (collect b); reflexivity.
Qed.
Lemma collect_inr {A B} (l : list (A + B)) rs : collect l = inr rs <-> l = map inr rs.
Proof.
  revert rs. induction l as [|[e|x] l IH]; intros rs; cbn [collect].
  - split; [intros H; injection H as <-; reflexivity|]. destruct rs; [reflexivity|discriminate].
  - split; [discriminate|]. destruct rs; discriminate.
  - destruct (collect l) as [e|r] eqn:C.
    + split; [discriminate|]. destruct rs as [|y rs]; [discriminate|]. intros H. injection H as _ H. apply IH in H. discriminate.
    + split; [intros H; injection H as <-; cbn [map]; f_equal; apply IH; reflexivity|]. destruct rs as [|y rs]; [discriminate|]. intros H. injection H as -> H. apply IH in H. injection H as <-. reflexivity.
Qed.
Lemma idx_spec nodes i d : NoDup nodes -> In d (firstn i nodes) -> idx nodes d < i /\ nth_error nodes (idx nodes d) = Some d.
Proof.
  intros N H. assert (Hn : In d nodes) by (rewrite <- (firstn_skipn i nodes); apply in_app_iff; auto).
  unfold idx. destruct (index_in_spec d nodes Hn) as (j & -> & Ej). split; [|exact Ej].
  apply In_nth_error in H as (k & Ek). assert (Lk : k < length (firstn i nodes)) by (apply nth_error_Some; congruence). rewrite firstn_length in Lk.
  assert (Ek' : nth_error nodes k = Some d) by (rewrite <- (firstn_skipn i nodes), nth_error_app1 by (rewrite firstn_length; lia); exact Ek).
  assert (j = k); [|lia]. apply (proj1 (NoDup_nth_error nodes) N); [apply nth_error_Some; congruence|congruence].
Qed.
Lemma nth_first {A} (l : list A) i j : j < i -> nth_error (firstn i l) j = nth_error l j.
Proof.
  revert i j. induction l as [|x l IH]; intros [|i] [|j] H; try lia; try reflexivity. cbn [firstn nth_error]. apply IH. lia.
Qed.
Lemma po_last root : exists l, po root [] = l ++ [root].
Proof. rewrite (po_new root [] (fun H => H)). eexists. reflexivity. Qed.
Section Trav.
Context {E T : Type}.
Variable v : node -> list T -> E + T.
Notation bu := (bottom_up v).
Lemma bu_eq n : bu n = match collect (map bu (deps n)) with inl e => inl e | inr args => v n args end.
Proof. destruct n; reflexivity. Qed.
Definition err {A B} (x : A + B) : option A := match x with inl e => Some e | inr _ => None end.
Lemma first_err_po n : forall acc, err (collect (map bu acc)) = None -> err (collect (map bu (po n acc))) = err (bu n).
Proof.
  induction n as [n IH] using node_rect'. intros acc G. destruct (mem_spec n acc) as [M|M].
  - rewrite (po_mem n acc M), G. destruct (collect (map bu acc)) as [e|rs] eqn:C; [discriminate|]. apply collect_inr in C.
    apply (in_map bu) in M. rewrite C in M. apply in_map_iff in M as (y & <- & _). reflexivity.
  - rewrite (po_new n acc M), map_app, collect_app.
    assert (K : err (collect (map bu (pos (deps n) acc))) = err (collect (map bu (deps n)))).
    { clear M. revert acc G. generalize (deps n) as ds, IH. clear IH. induction ds as [|d ds IHd]; intros F acc G; [exact G|].
      inversion F as [|? ? F1 F2]; subst. rewrite pos_cons. cbn [map collect]. specialize (F1 acc G). destruct (bu d) as [e|x] eqn:B; cbn [err] in F1.
      - destruct (pos_adds ds (po d acc)) as (new & -> & _). rewrite map_app, collect_app. destruct (collect (map bu (po d acc))); [exact F1|discriminate].
      - rewrite (IHd F2 (po d acc) F1). destruct (collect (map bu ds)); reflexivity. }
    rewrite (bu_eq n). destruct (collect (map bu (pos (deps n) acc))) as [e|rs]; destruct (collect (map bu (deps n))) as [e'|args] eqn:C; cbn [err] in K; try discriminate; [exact K|].
    cbn [map collect]. rewrite (bu_eq n), C. destruct (v n args); reflexivity.
Qed.
Lemma rds_vals nodes i rs ds : NoDup nodes -> collect (map bu (firstn i nodes)) = inr rs -> (forall d, In d ds -> In d (firstn i nodes)) ->
  exists args, rds rs (map (idx nodes) ds) = Some args /\ collect (map bu ds) = inr args.
Proof.
  intros N C. apply collect_inr in C. induction ds as [|d ds IH]; intros H; [exists []; auto|].
  destruct IH as (args & E1 & E2); [intros; apply H; right; assumption|]. destruct (idx_spec nodes i d N (H d (or_introl eq_refl))) as [L Ed].
  assert (B : nth_error (map bu (firstn i nodes)) (idx nodes d) = Some (bu d)) by (rewrite nth_error_map, nth_first by exact L; rewrite Ed; reflexivity).
  rewrite C, nth_error_map in B. cbn [map rds]. unfold rd. destruct (nth_error rs (idx nodes d)) as [x|]; [|discriminate]. injection B as B.
  exists (x :: args). cbn [bind]. rewrite E1. cbn [bind collect]. rewrite <- B, E2. auto.
Qed.
Lemma invoke_ok nodes i n rs : ordered nodes -> nth_error nodes i = Some n -> collect (map bu (firstn i nodes)) = inr rs ->
  invoke v (mkP nodes (adj_of nodes)) rs i = Some (bu n).
Proof.
  intros O En C. unfold invoke. rewrite (dep_indices_ok nodes i n O En). cbn [bind p_nodes]. unfold rd at 1. rewrite En. cbn [bind].
  destruct (rds_vals nodes i rs (deps n) (proj1 O) C (proj2 O i n En)) as (args & -> & E2). cbn [bind]. rewrite (bu_eq n), E2. reflexivity.
Qed.
Lemma trav_ok nodes root : ordered nodes -> nth_error nodes (length nodes - 1) = Some root -> forall cnt i rs, i + cnt = length nodes - 1 ->
  collect (map bu (firstn i nodes)) = inr rs ->
  trav_loop v (mkP nodes (adj_of nodes)) rs i cnt = Some (match err (collect (map bu nodes)) with Some e => inl e | None => bu root end).
Proof.
  intros O Er. assert (Ln : length nodes - 1 < length nodes) by (apply nth_error_Some; congruence). induction cnt as [|cnt IH]; intros i rs L C.
  - cbn [trav_loop p_nodes]. rewrite <- L, Nat.add_0_r in *. rewrite (invoke_ok nodes i root rs O Er C). f_equal.
    assert (En : nodes = firstn i nodes ++ [root]) by (rewrite <- (firstn_snoc nodes i root Er), firstn_all2 by lia; reflexivity).
    rewrite En, map_app, collect_app, C. cbn [map collect]. destruct (bu root); reflexivity.
  - cbn [trav_loop]. destruct (nth_error nodes i) as [n|] eqn:En; [|apply nth_error_None in En; lia].
    rewrite (invoke_ok nodes i n rs O En C). cbn [bind]. assert (C' : map bu (firstn (S i) nodes) = map bu (firstn i nodes) ++ [bu n]) by (rewrite (firstn_snoc nodes i n En), map_app; reflexivity).
    destruct (bu n) as [e|x] eqn:B.
    + rewrite <- (firstn_skipn (S i) nodes), map_app, C', !collect_app, C. cbn [collect err]. reflexivity.
    + apply IH; [lia|]. rewrite C', collect_app, C. reflexivity.
Qed.
Lemma traverse_ok root p : post_order root = Some p -> traverse v p = Some (bu root).
Proof.
  rewrite post_order_ok. intros H. injection H as <-. unfold traverse. cbn [p_nodes]. destruct (po_last root) as (l & El).
  rewrite (trav_ok (po root []) root (po_ordered root [] ordered_nil)) with (cnt := length (po root []) - 1); [|rewrite El, app_length; cbn [length]; rewrite nth_error_app2 by lia; replace (_ - _) with 0 by lia; reflexivity|lia|reflexivity].
  rewrite (first_err_po root [] eq_refl). destruct (bu root); reflexivity.
Qed.
End Trav.

(** ** Transform *)
Section Trans.
Context {E : Type}.
Variable infer : nat -> list attr -> E + attr.
Variable f : node -> E + node.
Notation bu := (bottom_up (reapply infer f)).
Definition enc (c : node * node) : option node := if node_eqb (snd c) (fst c) then None else Some (snd c).
Lemma enc_pick n r : pick (enc (n, r)) n = r.
Proof. unfold enc. cbn [fst snd]. destruct (node_spec r n) as [->|]; reflexivity. Qed.
Lemma enc_picks ds args : length ds = length args -> map (fun c => pick (fst c) (snd c)) (combine (map enc (combine ds args)) ds) = args.
Proof.
  revert args. induction ds as [|d ds IH]; intros [|a args] L; try discriminate; [reflexivity|]. cbn [combine map]. cbn [fst snd]. rewrite enc_pick, (IH args) by (cbn in L; lia). reflexivity.
Qed.
Lemma enc_changed ds args : length ds = length args -> existsb changed (map enc (combine ds args)) = false <-> args = ds.
Proof.
  revert args. induction ds as [|d ds IH]; intros [|a args] L; try discriminate; [cbn; tauto|]. cbn [combine map existsb]. rewrite orb_false_iff, (IH args) by (cbn in L; lia).
  unfold enc at 1. cbn [fst snd]. destruct (node_spec a d) as [->|N]; cbn [changed].
  - split; [intros [_ ->]; reflexivity|intros H; injection H; auto].
  - split; [intros [H _]; discriminate|intros H; injection H; contradiction].
Qed.
Definition state (nodes rs : list node) : list (option node) := map enc (combine (firstn (length rs) nodes) rs) ++ repeat None (length nodes - length rs).
Lemma state_len nodes rs : length rs <= length nodes -> length (state nodes rs) = length nodes.
Proof. intros L. unfold state. rewrite app_length, map_length, combine_length, firstn_length, repeat_length. lia. Qed.
Lemma nth_combine {A B} (a : list A) (b : list B) i x y : nth_error a i = Some x -> nth_error b i = Some y -> nth_error (combine a b) i = Some (x, y).
Proof. revert b i. induction a as [|u a IH]; intros [|w b] [|i] H1 H2; try discriminate; [injection H1 as ->; injection H2 as ->; reflexivity|]. apply IH; assumption. Qed.
Lemma state_nth nodes rs i n r : nth_error nodes i = Some n -> nth_error rs i = Some r -> nth_error (state nodes rs) i = Some (enc (n, r)).
Proof.
  intros En Er. assert (L : i < length rs) by (apply nth_error_Some; congruence). assert (L' : i < length nodes) by (apply nth_error_Some; congruence).
  unfold state. rewrite nth_error_app1 by (rewrite map_length, combine_length, firstn_length; lia).
  rewrite nth_error_map, (nth_combine _ _ i n r); [reflexivity|rewrite nth_first by exact L; exact En|exact Er].
Qed.
Lemma rds_state nodes i rs ds : NoDup nodes -> length rs = i -> collect (map bu (firstn i nodes)) = inr rs -> (forall d, In d ds -> In d (firstn i nodes)) ->
  exists args, rds (state nodes rs) (map (idx nodes) ds) = Some (map enc (combine ds args)) /\ collect (map bu ds) = inr args /\ length ds = length args.
Proof.
  intros N Li C. apply collect_inr in C. induction ds as [|d ds IH]; intros H; [exists []; auto|].
  destruct IH as (args & E1 & E2 & E3); [intros; apply H; right; assumption|]. destruct (idx_spec nodes i d N (H d (or_introl eq_refl))) as [L Ed].
  assert (B : nth_error (map bu (firstn i nodes)) (idx nodes d) = Some (bu d)) by (rewrite nth_error_map, nth_first by exact L; rewrite Ed; reflexivity).
  rewrite C, nth_error_map in B. cbn [map rds]. unfold rd. destruct (nth_error rs (idx nodes d)) as [x|] eqn:Ex; [|discriminate]. injection B as B.
  rewrite (state_nth nodes rs _ d x Ed Ex). exists (x :: args). cbn [bind]. rewrite E1. cbn [bind collect]. rewrite <- B, E2. cbn. auto.
Qed.
Lemma trans_step_ok nodes i n rs : ordered nodes -> nth_error nodes i = Some n -> length rs = i -> collect (map bu (firstn i nodes)) = inr rs ->
  trans_step infer f (mkP nodes (adj_of nodes)) (state nodes rs) i = Some (match bu n with inl e => inl e | inr r => inr (state nodes (rs ++ [r])) end).
Proof.
  intros O En Li C. unfold trans_step. rewrite (dep_indices_ok nodes i n O En). cbn [bind p_nodes]. unfold rd at 1. rewrite En. cbn [bind].
  assert (L : i < length nodes) by (apply nth_error_Some; congruence).
  destruct (rds_state nodes i rs (deps n) (proj1 O) Li C (proj2 O i n En)) as (args & -> & E2 & E3). cbn [bind].
  assert (I : match (match n with
     | Op o _ ds => if existsb changed (map enc (combine (deps n) args)) then make_op infer o (map (fun c => pick (fst c) (snd c)) (combine (map enc (combine (deps n) args)) ds)) else inr n
     | _ => inr n end) with inl e => inl e | inr m => f m end = bu n).
  { rewrite (bu_eq (reapply infer f) n), E2. unfold reapply. destruct n as [x|x|x|o a ds]; cbn [deps] in *; try (destruct args; [|discriminate]; destruct (list_eq_dec _ _ _); [reflexivity|reflexivity]).
    rewrite (enc_picks ds args E3). destruct (existsb changed (map enc (combine ds args))) eqn:X.
    - destruct (list_eq_dec node_dec args ds) as [->|_]; [rewrite (proj2 (enc_changed ds ds eq_refl) eq_refl) in X; discriminate|].
      unfold make_op. destruct (infer o (map attr_of args)); reflexivity.
    - apply (enc_changed ds args E3) in X. subst args. destruct (list_eq_dec node_dec ds ds) as [_|N]; [reflexivity|contradiction]. }
  rewrite <- I. destruct (match n with Lit _ => _ | Leaf _ => _ | Plh _ => _ | Op _ _ _ => _ end) as [e|m]; [reflexivity|]. destruct (f m) as [e|r]; [reflexivity|].
  assert (S1 : state nodes rs = map enc (combine (firstn i nodes) rs) ++ None :: repeat None (length nodes - S i)).
  { unfold state. rewrite Li. f_equal. replace (length nodes - i) with (S (length nodes - S i)) by lia. reflexivity. }
  assert (S2 : state nodes (rs ++ [r]) = map enc (combine (firstn i nodes) rs) ++ enc (n, r) :: repeat None (length nodes - S i)).
  { unfold state. rewrite app_length, Li. cbn [length]. rewrite Nat.add_1_r, (firstn_snoc nodes i n En).
    assert (K : combine (firstn i nodes ++ [n]) (rs ++ [r]) = combine (firstn i nodes) rs ++ [(n, r)]).
    { assert (Lf : length (firstn i nodes) = length rs) by (rewrite firstn_length; lia). revert Lf. generalize (firstn i nodes) as a. clear. induction rs as [|y rs IH]; intros [|x a] L; try discriminate; [reflexivity|].
      cbn [app combine]. f_equal. apply IH. cbn in L. lia. }
    rewrite K, map_app, <- app_assoc. reflexivity. }
  rewrite S2. unfold enc at 2. cbn [fst snd]. destruct (node_eqb r n); [rewrite S1; reflexivity|].
  rewrite S1, upd_mid by (rewrite map_length, combine_length, firstn_length; lia). reflexivity.
Qed.
Lemma trans_loop_ok nodes : ordered nodes -> forall cnt i rs, i + cnt = length nodes -> length rs = i -> collect (map bu (firstn i nodes)) = inr rs ->
  trans_loop infer f (mkP nodes (adj_of nodes)) (state nodes rs) i cnt = Some (match collect (map bu nodes) with inl e => inl e | inr vs => inr (state nodes vs) end).
Proof.
  intros O. induction cnt as [|cnt IH]; intros i rs L Li C.
  - cbn [trans_loop]. rewrite firstn_all2 in C by lia. rewrite C. reflexivity.
  - cbn [trans_loop]. destruct (nth_error nodes i) as [n|] eqn:En; [|apply nth_error_None in En; lia].
    rewrite (trans_step_ok nodes i n rs O En Li C). cbn [bind]. assert (C' : map bu (firstn (S i) nodes) = map bu (firstn i nodes) ++ [bu n]) by (rewrite (firstn_snoc nodes i n En), map_app; reflexivity).
    destruct (bu n) as [e|x] eqn:B.
    + rewrite <- (firstn_skipn (S i) nodes), map_app, C', !collect_app, C. cbn [collect]. reflexivity.
    + apply IH; [lia|rewrite app_length; cbn; lia|]. rewrite C', collect_app, C. reflexivity.
Qed.
Lemma transform_ok root : transform infer f root = Some (rewritten infer f root).
Proof.
  unfold transform. rewrite post_order_ok. cbn [bind]. unfold transform_po. cbn [p_nodes]. set (nodes := po root []).
  assert (O : ordered nodes) by apply (po_ordered root [] ordered_nil).
  pose proof (trans_loop_ok nodes O (length nodes) 0 [] eq_refl eq_refl eq_refl) as Q. unfold state at 1 in Q. cbn [length firstn combine map app] in Q. rewrite Nat.sub_0_r in Q. rewrite Q. cbn [bind].
  pose proof (first_err_po (reapply infer f) root [] eq_refl) as F. fold nodes in F. unfold rewritten. destruct (po_last root) as (l & El). fold nodes in El.
  destruct (collect (map bu nodes)) as [e|vs] eqn:C; cbn [err] in F; [destruct (bu root); [injection F as <-; reflexivity|discriminate]|].
  apply collect_inr in C. assert (Lv : length vs = length nodes) by (apply (f_equal (@length _)) in C; rewrite !map_length in C; lia).
  assert (Er : nth_error nodes (length nodes - 1) = Some root) by (rewrite El, app_length; cbn [length]; rewrite nth_error_app2 by lia; replace (_ - _) with 0 by lia; reflexivity).
  assert (L : length nodes - 1 < length nodes) by (apply nth_error_Some; congruence).
  destruct (nth_error vs (length nodes - 1)) as [r|] eqn:Ev; [|apply nth_error_None in Ev; lia].
  assert (B : bu root = inr r).
  { assert (X : nth_error (map bu nodes) (length nodes - 1) = Some (bu root)) by (rewrite nth_error_map, Er; reflexivity). rewrite C, nth_error_map, Ev in X. injection X as <-. reflexivity. }
  unfold rd. rewrite (state_nth nodes vs _ root r Er Ev), B. cbn [bind]. unfold enc. cbn [fst snd]. destruct (node_spec r root) as [->|N]; [rewrite Er; reflexivity|reflexivity].
Qed.
End Trans.
