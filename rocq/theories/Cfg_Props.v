(** C29, C30, C31: control flow graphs and dominator trees. *)
From Verif Require Import Base Cfg_Model Cfg_Spec Cfg_Proofs.

(** C29: Create accepts exactly the valid graphs; the dependencies are kept, the reverse
    dependencies list every edge in increasing order. *)
Theorem C29_create : forall deps, exists r, create deps = Some r /\
  match r with
  | inl g => valid deps /\ map (map Z.of_nat) (g_deps g) = deps /\ length (g_rev g) = length deps /\
      forall v, v < length deps -> rd (g_rev g) v = Some (predecessors (g_deps g) v)
  | inr e => ~ valid deps /\ describes deps e
  end.
Proof.
  intros deps. pose proof (create_spec deps) as C. destruct (create deps) as [[g|e]|]; [| |contradiction].
  - exists (inl g). split; [reflexivity|]. destruct C as (V & E & _ & L & R). split; [exact V|]. split; [|split; [exact L|exact R]].
    rewrite E, map_map. rewrite <- (map_id deps) at 2. apply map_ext_in. intros ds I. rewrite map_map.
    rewrite <- (map_id ds) at 2. apply map_ext_in. intros z Iz. destruct V as (_ & V & _).
    apply In_nth_error in I as [u Eu]. specialize (V u ds z Eu Iz). lia.
  - exists (inr e). split; [reflexivity|]. tauto.
Qed.
Print Assumptions C29_create.

(** C29: the tree of an accepted graph.  The parent is the immediate dominator, the depth
    is the number of strict dominators, the children are the nodes immediately dominated. *)
Theorem C29_tree : forall deps g, create deps = Some (inl g) ->
  exists ts, tree g = Some ts /\ length ts = length deps /\
    forall v, v < length deps -> exists x, rd ts v = Some x /\
      (v = 0 -> i_par x = 0) /\
      (0 < v -> immediate_dominator (g_deps g) (i_par x) v) /\
      (exists l, NoDup l /\ length l = i_dep x /\ forall d, In d l <-> strictly_dominates (g_deps g) d v) /\
      increasing (i_ch x) /\
      (forall w, In w (i_ch x) <-> 0 < w < length deps /\ immediate_dominator (g_deps g) v w).
Proof.
  intros deps g E. pose proof (create_spec deps) as C. rewrite E in C. destruct C as (_ & Ed & O & _).
  assert (length (g_deps g) = length deps) as L by (rewrite Ed; apply map_length).
  destruct (tree_ok g O) as (ts & Et & T). exists ts. split; [exact Et|]. split; [rewrite (ti_len _ _ _ T); exact L|].
  rewrite <- L. intros v Hv. destruct (tree_facts g ts O T v Hv) as (x & Ex & P & D & I & Ch). exists x.
  split; [exact Ex|]. split; [|split; [|split; [|split; [exact I|exact Ch]]]].
  - intros ->. rewrite P. apply (ti_par0 _ _ _ T).
  - intros Pv. rewrite P. apply (idom_iff g ts O T); [lia|reflexivity].
  - rewrite D. apply (depth_count g ts O T v Hv).
Qed.
Print Assumptions C29_tree.

(** Immediate dominators are unique, so the tree is determined. *)
Theorem C29_unique : forall deps g v a b, create deps = Some (inl g) -> 0 < v < length deps ->
  immediate_dominator (g_deps g) a v -> immediate_dominator (g_deps g) b v -> a = b.
Proof.
  intros deps g v a b E Hv Ha Hb. pose proof (create_spec deps) as C. rewrite E in C. destruct C as (_ & Ed & O & _).
  destruct (tree_ok g O) as (ts & Et & T).
  assert (length (g_deps g) = length deps) as L by (rewrite Ed; apply map_length). rewrite <- L in Hv.
  apply (idom_iff g ts O T v a Hv) in Ha. apply (idom_iff g ts O T v b Hv) in Hb. congruence.
Qed.
Print Assumptions C29_unique.

(** C30 *)
Theorem C30_externalize : forall deps g ts glob, create deps = Some (inl g) -> tree g = Some ts ->
  exists g', externalize g ts glob = Some (inl g') /\ length (g_deps g') = length (g_deps g) /\
    tree g' = Some ts /\
    (forall v, v < length deps -> glob v = false -> rd (g_rev g') v = rd (g_rev g) v) /\
    (forall v, 0 < v < length deps -> glob v = true ->
       exists d, rd (g_rev g') v = Some [d] /\ immediate_dominator (g_deps g) d v).
Proof.
  intros deps g ts glob E Et. pose proof (create_spec deps) as C. rewrite E in C. destruct C as (_ & Ed & O & _ & Rg).
  assert (length (g_deps g) = length deps) as L by (rewrite Ed; apply map_length).
  destruct (tree_ok g O) as (ts0 & Et0 & T). assert (ts0 = ts) as -> by congruence.
  destruct (externalize_ok g ts glob O T) as (g' & Eg & O' & L' & _ & P1 & P2).
  assert (forall v, v < length deps -> rd (g_rev g') v = Some (predecessors (g_deps g') v)) as Rg'.
  { unfold externalize in Eg. destruct (ext_loop g ts glob (repeat [] (length (g_deps g))) 0 (length (g_deps g))) as [out|]; [|discriminate].
    cbn [bind] in Eg. pose proof (create_spec out) as C. rewrite Eg in C. destruct C as (_ & Eo & _ & _ & R).
    assert (length out = length deps) as Lo by (rewrite <- L, <- L', Eo, map_length; reflexivity). rewrite <- Lo. exact R. }
  exists g'. split; [exact Eg|]. split; [exact L'|]. split; [|split].
  - destruct (tree_ok g' O') as (ts' & Et' & T'). rewrite Et'. f_equal.
    apply (tree_same g ts g' ts' O O' T T' L'). intros v Hv. destruct (glob v) eqn:Gv.
    + right. intros u. rewrite <- predecessors_In, (P2 v Hv Gv). simpl. intuition congruence.
    + left. intros u. rewrite <- !predecessors_In. rewrite (P1 v) by (auto; lia). reflexivity.
  - intros v Hv Gv. rewrite Rg, Rg' by exact Hv. f_equal. apply P1; [lia|exact Gv].
  - intros v Hv Gv. exists (pf ts v). split; [rewrite Rg' by lia; f_equal; apply P2; [lia|exact Gv]|].
    apply (idom_iff g ts O T); [lia|reflexivity].
Qed.
Print Assumptions C30_externalize.

(** C31 *)
Theorem C31_frontier : forall deps g ts, create deps = Some (inl g) -> tree g = Some ts ->
  exists es, empty_frontier g ts = Some es /\ length es = length deps /\
    forall d, d < length deps -> exists b, rd es d = Some b /\
      (b = true <-> forall v, ~ in_frontier (g_deps g) d v) /\
      (b = true <-> forall v, reachable (g_deps g) d v -> dominates (g_deps g) d v).
Proof.
  intros deps g ts E Et. pose proof (create_spec deps) as C. rewrite E in C. destruct C as (_ & Ed & O & _).
  assert (length (g_deps g) = length deps) as L by (rewrite Ed; apply map_length).
  destruct (tree_ok g O) as (ts0 & Et0 & T). assert (ts0 = ts) as -> by congruence.
  destruct (frontier_ok g ts O T) as (es & Ee & Le & H). rewrite L in Le, H. exists es. auto.
Qed.
Print Assumptions C31_frontier.

(** A graph with two joins, a repeated edge and a node that is reached in two ways. *)
Definition ex_deps : list (list Z) := [[1; 2]; [3; 3]; [3; 5]; [4]; [5]; []]%Z.
Definition ex_g : cfg := mkG [[1; 2]; [3; 3]; [3; 5]; [4]; [5]; []] [[]; [0]; [0]; [1; 1; 2]; [3]; [2; 4]].
Example ex_create : create ex_deps = Some (inl ex_g). Proof. reflexivity. Qed.
Definition ex_ts : list info :=
  [mkI 0 0 [1; 2; 3; 5]; mkI 0 1 []; mkI 0 1 []; mkI 0 1 [4]; mkI 3 2 []; mkI 0 1 []].
Example ex_tree : tree ex_g = Some ex_ts. Proof. reflexivity. Qed.
Example ex_ext : externalize ex_g ex_ts (fun v => v =? 3) =
  Some (inl (mkG [[1; 2; 3]; []; [5]; [4]; [5]; []] [[]; [0]; [0]; [0]; [3]; [2; 4]])).
Proof. reflexivity. Qed.
Example ex_frontier : empty_frontier ex_g ex_ts = Some [true; false; false; false; false; true]. Proof. reflexivity. Qed.
Example ex_errors :
  create [] = Some (inr ENoNodes) /\ create [[1]; [0]]%Z = Some (inr (EOrder 1 0)) /\
  create [[1]; [2]]%Z = Some (inr (ERange 2)) /\ create [[1]; []; []]%Z = Some (inr (EUnreachable 2)).
Proof. repeat split. Qed.
