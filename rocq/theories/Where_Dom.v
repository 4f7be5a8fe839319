(** The dominator tree of an expression. *)
From Verif Require Import Base Cfg_Model Cfg_Spec Cfg_Proofs.
From Verif Require Import Visit_Model Visit_Spec Visit_Proofs VisitOrder_Proofs Where_Model Where_Spec.

Lemma walk_snoc a l v w : walk a l v -> In w (deps v) -> walk a (l ++ [w]) w.
Proof. induction 1 as [n|n d l v H W IH]; intros I; [apply (walk_step n w [w] w I (walk_one w))|]. apply (walk_step n d (l ++ [w]) w H (IH I)). Qed.
Lemma walk_sub a l v : walk a l v -> sub v a.
Proof. induction 1 as [n|n d l v H W IH]; [constructor|]. apply (sub_dep v n d H IH). Qed.
Lemma sub_walk a v : sub v a -> exists l, walk a l v.
Proof. induction 1 as [|n d H S (l & IH)]; [exists [v]; constructor|]. exists (n :: l). econstructor; eassumption. Qed.
Lemma walk_app a l v m w : walk a l v -> walk v m w -> walk a (l ++ tl m) w.
Proof.
  induction 1 as [n|n d l v H W IH]; intros M.
  - destruct M as [x|x d m y H M]; cbn; [constructor|]. econstructor; eassumption.
  - cbn [app]. apply (walk_step n d _ w H (IH M)).
Qed.
Lemma walk_end a l v : walk a l v -> In v l.
Proof. induction 1; [left; reflexivity|right; assumption]. Qed.
Lemma walk_head a l v : walk a l v -> exists t, l = a :: t.
Proof. destruct 1; eauto. Qed.
Lemma walk_between a l v x : walk a l v -> In x l -> sub x a /\ sub v x.
Proof.
  induction 1 as [n|n d l v H W IH]; intros I; [destruct I as [<-|[]]; split; constructor|].
  destruct I as [<-|I]; [split; [constructor|apply (sub_dep v n d H (walk_sub _ _ _ W))]|]. destruct (IH I) as [A B]. split; [apply (sub_dep x n d H A)|exact B].
Qed.
Lemma sub_cases x n : sub x n -> x = n \/ exists d, In d (deps n) /\ sub x d.
Proof. destruct 1 as [|n d H S]; [left; reflexivity|right; eauto]. Qed.
Lemma sub_anti a b : sub a b -> sub b a -> a = b.
Proof.
  intros H K. destruct (sub_cases _ _ H) as [E|(d & I & S)]; [exact E|]. apply dep_size in I. apply sub_size in S. apply sub_size in K. lia.
Qed.
Lemma sub_parent x r : sub x r -> x = r \/ exists q, sub q r /\ In x (deps q).
Proof.
  induction 1 as [|n d H S IH]; [left; reflexivity|]. right. destruct IH as [->|(q & Q & I)]; [exists n; split; [constructor|exact H]|].
  exists q. split; [apply (sub_dep q n d H Q)|exact I].
Qed.

Section Tree.
Variable root : node.
Let nodes := po root [].
Let n := length nodes.
Let p := mkP nodes (adj_of nodes).
Let O : ordered nodes := po_ordered root [] ordered_nil.

Definition pos_of (v : node) : nat := idx nodes v.
Definition id_of (v : node) : nat := n - 1 - pos_of v.
Lemma pos_spec v : sub v root -> pos_of v < n /\ nth_error nodes (pos_of v) = Some v.
Proof.
  intros S. apply po_root in S. unfold pos_of, n. fold nodes in S. destruct (idx_spec nodes (length nodes) v (proj1 O)) as [A B]; [rewrite firstn_all; exact S|]. split; assumption.
Qed.
Lemma pos_of_nth i v : nth_error nodes i = Some v -> sub v root /\ pos_of v = i.
Proof.
  intros E. assert (S : sub v root) by (apply po_root; apply (nth_error_In _ _ E)). split; [exact S|].
  destruct (pos_spec v S) as [L F]. apply (proj1 (NoDup_nth_error nodes) (proj1 O)); [exact L|congruence].
Qed.
Lemma dep_pos v d : sub v root -> In d (deps v) -> sub d root /\ pos_of d < pos_of v.
Proof.
  intros S H. destruct (pos_spec v S) as [L E]. pose proof (proj2 O _ _ E d H) as F. destruct (idx_spec nodes _ d (proj1 O) F) as [A B]. split; [|exact A].
  apply (pos_of_nth _ _ B).
Qed.
Lemma n_pos : 0 < n. Proof. unfold n, nodes. destruct (po_last root) as (l & ->). rewrite app_length. cbn. lia. Qed.
Lemma id_root : id_of root = 0.
Proof.
  unfold id_of. assert (E : nth_error nodes (n - 1) = Some root).
  { unfold n, nodes. destruct (po_last root) as (l & ->). rewrite app_length, nth_error_app2 by (cbn; lia). cbn. replace (length l + 1 - 1 - length l) with 0 by lia. reflexivity. }
  destruct (pos_of_nth _ _ E) as [_ ->]. lia.
Qed.
Lemma id_lt v : sub v root -> id_of v < n.
Proof. intros S. pose proof (pos_spec v S). unfold id_of. lia. Qed.
Lemma id_inj u v : sub u root -> sub v root -> id_of u = id_of v -> u = v.
Proof.
  intros A B E. destruct (pos_spec u A) as [L F]. destruct (pos_spec v B) as [L' F']. unfold id_of in E. assert (pos_of u = pos_of v) by lia. congruence.
Qed.
Lemma id_all k : k < n -> exists v, sub v root /\ id_of v = k.
Proof.
  intros L. destruct (nth_error nodes (n - 1 - k)) as [v|] eqn:E; [|apply nth_error_None in E; unfold n in *; lia].
  destruct (pos_of_nth _ _ E) as [S P]. exists v. split; [exact S|]. unfold id_of. lia.
Qed.

Lemma build_deps_ok : exists L, build_deps p n (repeat [] n) 0 n = Some L /\ length L = n /\
  forall v, sub v root -> rd L (id_of v) = Some (map (fun d => Z.of_nat (id_of d)) (deps v)).
Proof.
  assert (G : forall cnt i l, i + cnt = n -> length l = n -> (forall v, sub v root -> pos_of v < i -> rd l (id_of v) = Some (map (fun d => Z.of_nat (id_of d)) (deps v))) ->
    exists L, build_deps p n l i cnt = Some L /\ length L = n /\ forall v, sub v root -> rd L (id_of v) = Some (map (fun d => Z.of_nat (id_of d)) (deps v))).
  { induction cnt as [|cnt IH]; intros i l E Ll H.
    - exists l. split; [reflexivity|]. split; [exact Ll|]. intros v S. apply H; [exact S|]. pose proof (pos_spec v S). lia.
    - cbn [build_deps]. destruct (nth_error nodes i) as [v|] eqn:Ev; [|apply nth_error_None in Ev; unfold n in *; lia].
      destruct (pos_of_nth _ _ Ev) as [Sv Pv]. unfold p at 1. rewrite (dep_indices_ok nodes i v O Ev). cbn [bind]. rewrite map_map.
      destruct (upd_lt l (n - 1 - i) (map (fun x => Z.of_nat (n - 1 - idx nodes x)) (deps v))) as (l' & U); [lia|]. destruct (upd_spec _ _ _ _ U) as (_ & L' & R).
      rewrite U. cbn [bind]. apply IH; [lia|lia|]. intros w Sw Pw. destruct (Nat.eq_dec (pos_of w) i) as [Ew|Nw].
      + assert (w = v) by (destruct (pos_spec w Sw); congruence). subst w. unfold id_of at 1. rewrite Ew, R, Nat.eqb_refl. reflexivity.
      + rewrite R. destruct (Nat.eqb_spec (id_of w) (n - 1 - i)) as [Ei|_]; [unfold id_of in Ei; pose proof (pos_spec w Sw); lia|]. apply H; [exact Sw|lia]. }
  apply (G n 0 (repeat [] n)); [lia|apply repeat_length|intros; lia].
Qed.

Variable d : dtree.
Variable L : list (list Z).
Hypothesis EL : build_deps p n (repeat [] n) 0 n = Some L.
Hypothesis EG : create L = Some (inl (t_g d)).
Hypothesis ET : tree (t_g d) = Some (t_ts d).
Notation G := (g_deps (t_g d)).
Notation ts := (t_ts d).

Lemma L_ok : length L = n /\ forall v, sub v root -> rd L (id_of v) = Some (map (fun d => Z.of_nat (id_of d)) (deps v)).
Proof. destruct build_deps_ok as (L' & E & H). assert (L' = L) by congruence. subst. exact H. Qed.
Lemma g_ok : okg (t_g d) /\ tinv (t_g d) (length G) ts /\ length G = n /\ G = map (map Z.to_nat) L /\ length (g_rev (t_g d)) = n /\
  forall v, v < n -> rd (g_rev (t_g d)) v = Some (predecessors G v).
Proof.
  pose proof (create_spec L) as C. rewrite EG in C. destruct C as (_ & E & K & R1 & R2). destruct L_ok as [Ll _].
  destruct (tree_ok _ K) as (ts' & E' & T). assert (ts' = ts) by congruence. subst. rewrite Ll in *. split; [exact K|]. split; [exact T|]. split; [rewrite E, map_length; exact Ll|]. auto.
Qed.
Lemma G_rd v : sub v root -> rd G (id_of v) = Some (map id_of (deps v)).
Proof.
  intros S. destruct g_ok as (_ & _ & _ & -> & _). unfold rd. rewrite nth_error_map. destruct L_ok as [_ R]. specialize (R v S). unfold rd in R. rewrite R. cbn [option_map].
  rewrite map_map. f_equal. apply map_ext. intros x. apply Nat2Z.id.
Qed.
Lemma edge_id u v : sub u root -> sub v root -> edge G (id_of u) (id_of v) <-> In v (deps u).
Proof.
  intros Su Sv. unfold edge. rewrite (G_rd u Su). split.
  - intros (ds & [= <-] & I). apply in_map_iff in I. destruct I as (w & E & I). assert (w = v); [|subst; exact I]. apply id_inj; [apply (dep_pos u w Su I)|exact Sv|exact E].
  - intros I. eexists. split; [reflexivity|]. apply in_map, I.
Qed.
Lemma edge_node u k : sub u root -> edge G (id_of u) k -> exists v, sub v root /\ id_of v = k /\ In v (deps u).
Proof.
  intros Su (ds & E & I). rewrite (G_rd u Su) in E. injection E as <-. apply in_map_iff in I. destruct I as (w & E & I). exists w. split; [apply (dep_pos u w Su I)|auto].
Qed.
Lemma path_walk q k : path G 0 q k -> exists l v, walk root l v /\ id_of v = k /\ q = map id_of l.
Proof.
  induction 1 as [H|q a b P (l & v & W & E & Q) Ed].
  - exists [root], root. split; [constructor|]. split; [apply id_root|]. cbn. rewrite id_root. reflexivity.
  - subst a. destruct (edge_node v b (walk_sub _ _ _ W) Ed) as (w & Sw & Ew & I). exists (l ++ [w]), w. split; [apply (walk_snoc _ _ _ _ W I)|]. split; [exact Ew|].
    rewrite map_app, Q. cbn. rewrite Ew. reflexivity.
Qed.
Lemma walk_path l v : walk root l v -> path G 0 (map id_of l) (id_of v).
Proof.
  assert (H : forall a l v, walk a l v -> sub a root -> forall q, path G 0 q (id_of a) -> path G 0 (q ++ map id_of (tl l)) (id_of v)).
  { clear l v. induction 1 as [a|a b l v I W IH]; intros Sa q P; [cbn; rewrite app_nil_r; exact P|]. cbn [tl].
    destruct (dep_pos a b Sa I) as [Sb _]. assert (Pb : path G 0 (q ++ [id_of b]) (id_of b)) by (apply path_snoc with (id_of a); [exact P|apply edge_id; assumption]).
    specialize (IH Sb _ Pb). destruct (walk_head _ _ _ W) as (t & ->). cbn [tl map] in *. rewrite <- app_assoc in IH. exact IH. }
  intros W. destruct (walk_head _ _ _ W) as (t & ->). specialize (H root _ _ W (sub_refl _) [0]). rewrite id_root in H. cbn [tl app map] in *. rewrite id_root.
  apply H. constructor. destruct g_ok as (_ & _ & -> & _). apply n_pos.
Qed.
Lemma dom_iff b v : sub b root -> sub v root -> dominates G (id_of b) (id_of v) <-> only_through root b v.
Proof.
  intros Sb Sv. destruct g_ok as (_ & _ & Lg & _). split.
  - intros [_ H] l W. specialize (H _ (walk_path _ _ W)). apply in_map_iff in H. destruct H as (w & E & I). assert (w = b); [|subst; exact I].
    apply id_inj; [apply (walk_between _ _ _ _ W I)|exact Sb|exact E].
  - intros H. split; [rewrite Lg; apply id_lt, Sv|]. intros q P. destruct (path_walk _ _ P) as (l & w & W & E & ->).
    assert (w = v) by (apply id_inj; [apply (walk_sub _ _ _ W)|exact Sv|exact E]). subst w. apply in_map, H, W.
Qed.
Definition depth (v : node) : nat := df ts (id_of v).
Lemma depth_rd v : sub v root -> exists x, rd ts (id_of v) = Some x /\ i_dep x = depth v.
Proof.
  intros S. destruct g_ok as (K & T & Lg & _). destruct (tree_facts _ _ K T (id_of v)) as (x & E & _ & Ed & _); [rewrite Lg; apply id_lt, S|]. exists x. split; assumption.
Qed.
Lemma depth_dom b v : sub b root -> sub v root -> only_through root b v -> b <> v -> depth b < depth v.
Proof.
  intros Sb Sv H N. destruct g_ok as (K & T & Lg & _). apply dom_iff in H; [|exact Sb|exact Sv]. assert (Lv : id_of v < length G) by (rewrite Lg; apply id_lt, Sv).
  apply (dom_anc _ _ K T) in H; [|exact Lv]. destruct (anc_depth _ _ _ (ti_par _ _ _ T) (ti_dep _ _ _ T) _ _ Lv H) as [A B].
  unfold depth. destruct (Nat.eq_dec (df ts (id_of b)) (df ts (id_of v))) as [E|]; [|lia]. apply B, id_inj in E; congruence.
Qed.
(** The depth decides, for a child of a node that is only used through [b]. *)
Lemma dom_depth b q v : sub b root -> sub q root -> In v (deps q) -> only_through root b q -> depth b < depth v -> only_through root b v.
Proof.
  intros Sb Sq I H Ld. destruct g_ok as (K & T & Lg & _). destruct (dep_pos q v Sq I) as [Sv _].
  assert (Lv : id_of v < length G) by (rewrite Lg; apply id_lt, Sv). assert (Lq : id_of q < length G) by (rewrite Lg; apply id_lt, Sq).
  apply dom_iff in H; [|exact Sb|exact Sq]. apply (dom_anc _ _ K T) in H; [|exact Lq].
  apply dom_iff; [exact Sb|exact Sv|]. apply (dom_anc _ _ K T); [exact Lv|].
  assert (Ed : edge G (id_of q) (id_of v)) by (apply edge_id; assumption). pose proof (ok_edge _ K _ _ Ed) as Le.
  assert (P0 : 0 < id_of v < length G) by lia.
  pose proof (proj1 (ti_lca _ _ _ T _ P0 _) (anc_refl _ _) _ Ed) as A.
  apply anc_up; [lia|]. apply (anc_chain _ (df ts) _ (ti_par _ _ _ T) (ti_dep _ _ _ T) _ _ (id_of q) Lq H A).
  pose proof (ti_dep _ _ _ T _ P0). unfold depth in Ld. lia.
Qed.

(** The number of uses. *)
Lemma count_ids ds v : (forall x, In x ds -> sub x root) -> sub v root -> count_occ Nat.eq_dec (map id_of ds) (id_of v) = count_occ node_dec ds v.
Proof.
  intros H Sv. induction ds as [|x ds IH]; [reflexivity|]. cbn [map count_occ]. rewrite IH by (intros y Hy; apply H; right; exact Hy).
  destruct (node_dec x v) as [Exv|N], (Nat.eq_dec (id_of x) (id_of v)) as [E|E]; try reflexivity; [congruence|]. apply id_inj in E; [congruence|apply H; left; reflexivity|exact Sv].
Qed.
Lemma len_repeats (c : nat -> nat) l : length (flat_map (fun u => repeat u (c u)) l) = list_sum (map c l).
Proof. induction l as [|x l IH]; [reflexivity|]. cbn [flat_map map]. rewrite app_length, repeat_length, IH, sum_cons'. reflexivity. Qed.
Lemma sum_one (c : nat -> nat) w l : NoDup l -> In w l -> (forall x, In x l -> x <> w -> c x = 0) -> list_sum (map c l) = c w.
Proof.
  induction 1 as [|x l N ND IH]; intros I H; [destruct I|]. cbn [map]. rewrite sum_cons'. destruct (Nat.eq_dec x w) as [->|Nx].
  - replace (list_sum (map c l)) with 0; [lia|]. symmetry. clear - H N. induction l as [|y l IH]; [reflexivity|]. cbn [map]. rewrite sum_cons'.
    rewrite IH; [|intros Z; apply N; right; exact Z|intros z [Z|Z] Nz; [apply H; [left; exact Z|exact Nz]|apply H; [right; right; exact Z|exact Nz]]].
    rewrite (H y); [reflexivity|right; left; reflexivity|]. intros ->. apply N. left. reflexivity.
  - destruct I as [->|I]; [congruence|]. rewrite (H x (or_introl eq_refl) Nx). apply IH; [exact I|]. intros y Hy. apply H. right. exact Hy.
Qed.
Lemma single_use w v : sub w root -> In v (deps w) -> length (predecessors G (id_of v)) = 1 <-> only_use root w v.
Proof.
  intros Sw I. destruct (dep_pos w v Sw I) as [Sv _]. destruct g_ok as (_ & _ & Lg & _).
  set (c := fun u => count_occ Nat.eq_dec (nth u G []) (id_of v)).
  assert (Cc : forall u, sub u root -> c (id_of u) = count_occ node_dec (deps u) v).
  { intros u Su. unfold c. rewrite (nth_error_nth G (id_of u) [] (G_rd u Su)). apply count_ids; [|exact Sv]. intros x Hx. apply (dep_pos u x Su Hx). }
  unfold predecessors. fold c. rewrite (len_repeats c). rewrite Lg.
  assert (Iw : In (id_of w) (seq 0 n)) by (apply in_seq; pose proof (id_lt w Sw); lia).
  split.
  - intros H. assert (P : forall q, sub q root -> In v (deps q) -> 0 < c (id_of q)) by (intros q Sq Iq; rewrite (Cc q Sq); apply (count_occ_In node_dec), Iq).
    assert (Two : forall a b l, NoDup l -> In a l -> In b l -> a <> b -> c a + c b <= list_sum (map c l)).
    { clear. intros a b l. induction 1 as [|x l N ND IH]; intros A B D; [destruct A|]. cbn [map]. rewrite sum_cons'. destruct A as [->|A], B as [->|B]; [congruence| | |specialize (IH A B D); lia].
      - pose proof (sum_in (c b) (map c l) (in_map _ _ _ B)). lia.
      - pose proof (sum_in (c a) (map c l) (in_map _ _ _ A)). lia. }
    split.
    + rewrite <- (Cc w Sw). pose proof (P w Sw I). pose proof (sum_in (c (id_of w)) (map c (seq 0 n)) (in_map _ _ _ Iw)). lia.
    + intros q Sq Iq. destruct (Nat.eq_dec (id_of q) (id_of w)) as [E|N]; [apply id_inj; assumption|].
      assert (Jq : In (id_of q) (seq 0 n)) by (apply in_seq; pose proof (id_lt q Sq); lia).
      pose proof (Two (id_of q) (id_of w) _ (seq_NoDup n 0) Jq Iw N). pose proof (P q Sq Iq). pose proof (P w Sw I). lia.
  - intros [C U]. rewrite (sum_one c (id_of w)); [rewrite (Cc w Sw); exact C|apply seq_NoDup|exact Iw|].
    intros x Hx Nx. apply in_seq in Hx. destruct (id_all x) as (q & Sq & <-); [lia|]. rewrite (Cc q Sq). apply count_occ_not_In. intros Iq. apply Nx. rewrite (U q Sq Iq). reflexivity.
Qed.
End Tree.

Lemma build_ok root : let nodes := po root [] in exists d L, build (mkP nodes (adj_of nodes)) = Some (inr d) /\
  build_deps (mkP nodes (adj_of nodes)) (length nodes) (repeat [] (length nodes)) 0 (length nodes) = Some L /\ create L = Some (inl (t_g d)) /\ tree (t_g d) = Some (t_ts d) /\
  t_ids d = combine (map inj nodes) (seq 0 (length nodes)).
Proof.
  intros nodes. unfold build. cbn [p_nodes]. destruct (build_deps_ok root) as (L & E & Ll & R). fold nodes in E, Ll. rewrite E. cbn [bind].
  assert (V : valid L).
  { split; [intros ->; pose proof (n_pos root) as H; fold nodes in H; cbn in Ll; lia|]. split.
    - intros u ds z Eu Iz. assert (Lu : u < length nodes) by (rewrite <- Ll; apply rd_Some_lt in Eu; exact Eu).
      destruct (id_all root u Lu) as (v & Sv & <-). rewrite (R v Sv) in Eu. injection Eu as <-. apply in_map_iff in Iz. destruct Iz as (w & <- & Iw).
      destruct (dep_pos root v w Sv Iw) as [Sw P]. pose proof (pos_spec root v Sv) as [P1 _]. pose proof (pos_spec root w Sw) as [P2 _]. unfold nodes in *. unfold id_of. lia.
    - intros v Lv. rewrite Ll in Lv. destruct (id_all root v) as (w & Sw & <-); [apply Lv|]. destruct (sub_parent w root Sw) as [->|(q & Sq & I)]; [rewrite id_root in Lv; lia|].
      exists (id_of root q). eexists. split; [apply (R q Sq)|]. apply in_map_iff. exists w. auto. }
  pose proof (create_spec L) as C. destruct (create L) as [[g|e]|] eqn:Ec; [|exfalso; apply (proj2 C V)|contradiction].
  destruct C as (_ & _ & K & _). destruct (tree_ok g K) as (ts & Et & _). cbn [bind]. rewrite Et. cbn [bind].
  exists (mkDT g ts (combine (map inj nodes) (seq 0 (length nodes)))), L. repeat split; auto.
Qed.
