(** Compiling and running a whole expression. *)
From Verif Require Import Base Visit_Model Visit_Spec Visit_Proofs VisitOrder_Proofs Slots_Model Slots_Spec Slots_Proofs.

Lemma output_sub cls root : supported cls root -> exists e, output_expr cls root = Some e /\ sub e root /\ (e = root \/ kind_of cls root = Some GRoot).
Proof.
  intros Hs. specialize (Hs root (sub_refl root)). destruct root as [v|k|k|o a ds]; cbn [output_expr kind_of] in *; try (eexists; split; [reflexivity|split; [constructor|left; reflexivity]]).
  destruct (cls o) eqn:Ec; try (eexists; split; [reflexivity|split; [constructor|left; reflexivity]]). destruct Hs as [_ H]. destruct ds as [|d ds]; [contradiction|]. exists d. split; [reflexivity|]. split; [|right; reflexivity].
  apply (sub_dep d (Op o a (d :: ds)) d); [left; reflexivity|constructor].
Qed.
Section Tree.
Variable cls : nat -> opclass.
Variable ty : node -> nat.
Variable root : node.
Hypothesis Hs : supported cls root.
Let nodes := po root [].
Let ord : ordered nodes := po_ordered root [] ordered_nil.
Lemma sub_nodes x : In x nodes <-> sub x root. Proof. apply po_root. Qed.
Definition gk (n : node) : gkind := match kind_of cls n with Some k => k | None => GRoot end.
Definition gof (n : node) : gnode := mkG (gk n) (ty n) (map (idx nodes) (deps n)).
Lemma kind_some n : sub n root -> kind_of cls n = Some (gk n).
Proof. intros H. unfold gk. specialize (Hs n H). destruct n; try reflexivity. destruct Hs. Qed.
Lemma gnodes_ok ns : forall i, skipn i nodes = ns -> gnodes cls ty (mkP nodes (adj_of nodes)) i ns = Some (map gof ns).
Proof.
  induction ns as [|n ns IH]; intros i E; [reflexivity|]. cbn [gnodes map].
  assert (En : nth_error nodes i = Some n).
  { assert (Li : i < length nodes) by (assert (L : length (skipn i nodes) = length (n :: ns)) by (rewrite E; reflexivity); rewrite skipn_length in L; cbn in L; lia).
    rewrite <- (firstn_skipn i nodes), E. rewrite nth_error_app2; rewrite firstn_length_le by lia; [rewrite Nat.sub_diag; reflexivity|lia]. }
  rewrite (kind_some n) by (apply sub_nodes, (nth_error_In _ _ En)). cbn [bind]. rewrite (dep_indices_ok nodes i n ord En). cbn [bind]. rewrite (IH (S i)); [reflexivity|].
  clear -E. revert E. generalize nodes as l. induction i as [|i IHi]; intros [|x l] E; cbn in *; try discriminate; [congruence|apply IHi, E].
Qed.
Lemma gnth i g : nth_error (map gof nodes) i = Some g -> exists n, nth_error nodes i = Some n /\ g = gof n.
Proof. intros H. rewrite nth_error_map in H. destruct (nth_error nodes i) as [n|]; [|discriminate]. injection H as <-. exists n. auto. Qed.
Lemma last_node : nth_error nodes (length nodes - 1) = Some root /\ 0 < length nodes.
Proof.
  unfold nodes. destruct (po_last root) as (l & ->). rewrite app_length. cbn [length]. replace (length l + 1 - 1) with (length l) by lia. rewrite nth_error_app2, Nat.sub_diag by lia. split; [reflexivity|lia].
Qed.
Lemma idx_in d : In d nodes -> index_in d nodes = Some (idx nodes d) /\ nth_error nodes (idx nodes d) = Some d.
Proof. intros H. unfold idx. destruct (index_in_spec d nodes H) as (i & -> & E). auto. Qed.
Lemma idx_nth i n : nth_error nodes i = Some n -> idx nodes n = i.
Proof.
  intros E. destruct (idx_in n (nth_error_In _ _ E)) as [_ E']. apply (proj1 (NoDup_nth_error nodes) (proj1 ord)); [apply nth_error_Some; congruence|congruence].
Qed.
Variable inputs : list (list nat * nat).
Variable layout : list nat.
Variable reuse : bool.
Variable out_slot : nat.
Hypothesis Hg : good_slots root inputs layout reuse out_slot.
Lemma out_expr : exists e, output_expr cls root = Some e /\ In e nodes.
Proof. destruct (output_sub cls root Hs) as (e & E & S & _). exists e. split; [exact E|]. apply sub_nodes, S. Qed.
Lemma tree_wf e : output_expr cls root = Some e -> In e nodes -> well_formed (map gof nodes) inputs layout reuse (idx nodes e) out_slot.
Proof.
  intros Ee He. destruct Hg as (G1 & G2 & G3 & G4 & G5). constructor; try assumption.
  - intros i g d Ei Hd. apply gnth in Ei as (n & En & ->). cbn [gof g_deps] in Hd. apply in_map_iff in Hd as (x & <- & Hx). destruct ord as [N O]. apply (idx_spec nodes i x N). apply (O i n En x Hx).
  - intros g Hgn. apply in_map_iff in Hgn as (n & <- & Hn). apply sub_nodes in Hn. unfold gof, gk. cbn [g_kind g_deps]. pose proof (Hs n Hn) as Sn. destruct n as [v|k|k|o a ds]; cbn [kind_of]; [exact I|apply G1; exact Hn|destruct Sn|].
    destruct (cls o) eqn:Ec; [exact I| |].
    + cbn [deps]. destruct ds as [|d [|d' ds]]; try discriminate. exists (idx nodes d). reflexivity.
    + destruct Sn as [E Nd]. destruct ds as [|d ds]; [contradiction|]. rewrite <- E in Ee. cbn [output_expr] in Ee. rewrite Ec in Ee. injection Ee as <-. exists (map (idx nodes) ds). reflexivity.
  - intros i j g h k Ei Ej Eg Eh. apply gnth in Ei as (n & En & ->). apply gnth in Ej as (m & Em & ->).
    assert (K : forall x, gk x = GLeaf k -> x = Leaf k) by (intros x; unfold gk; destruct x as [v|k'|k'|o a ds]; cbn [kind_of]; try discriminate; [intros H; injection H as ->; reflexivity|destruct (cls o); discriminate]).
    apply K in Eg, Eh. subst n m. rewrite <- (idx_nth i _ En), <- (idx_nth j _ Em). reflexivity.
  - rewrite map_length. destruct last_node as [L1 L2]. exists (gof root). split; [rewrite nth_error_map, L1; reflexivity|].
    assert (C : e = root \/ gk root = GRoot).
    { destruct (output_sub cls root Hs) as (e' & E & _ & C). rewrite Ee in E. injection E as <-. destruct C as [C|C]; [left; exact C|right]. unfold gk. rewrite C. reflexivity. }
    destruct C as [->|C]; [left; apply idx_nth, L1|right; exact C].
Qed.
Section Val.
Context {V : Type}.
Variable lit : nat -> V.
Variable opf : nat -> list V -> V.
Variable proj : nat -> V -> V.
Variable leafv : list nat -> V.
Let evn := ev cls lit opf proj leafv.
Definition vals (i : nat) : V := evn (nth i nodes root).
Lemma vals_nth i n : nth_error nodes i = Some n -> vals i = evn n.
Proof. intros H. unfold vals. rewrite (nth_error_nth nodes i root H). reflexivity. Qed.
Lemma vals_deps i n : nth_error nodes i = Some n -> map vals (map (idx nodes) (deps n)) = map evn (deps n).
Proof.
  intros En. rewrite map_map. apply map_ext_in. intros d Hd. apply vals_nth. apply idx_in. apply sub_nodes. apply (sub_dep d n d) in Hd; [|constructor]. apply (sub_trans _ n); [exact Hd|]. apply sub_nodes, (nth_error_In _ _ En).
Qed.
Lemma tree_vals : value_ok lit opf proj leafv (map gof nodes) vals.
Proof.
  intros i g Ei. apply gnth in Ei as (n & En & ->). pose proof (Hs n (proj1 (sub_nodes n) (nth_error_In _ _ En))) as Sn. pose proof (vals_deps i n En) as D. unfold gof, gk. cbn [g_kind g_deps].
  destruct n as [v|k|k|o a ds]; cbn [kind_of]; [apply (vals_nth i _ En)|apply (vals_nth i _ En)|destruct Sn|]. cbn [deps] in *. rewrite (vals_nth i _ En). unfold evn. cbn [ev]. fold evn. rewrite <- D. destruct (cls o) eqn:Ec.
  - reflexivity.
  - destruct ds as [|d [|d' ds]]; try discriminate. exists (idx nodes d). split; reflexivity.
  - destruct Sn as [_ Nd]. destruct ds as [|d ds]; [contradiction|]. exists (idx nodes d), (map (idx nodes) ds). split; reflexivity.
Qed.
End Val.
Lemma compile_all : exists e, In e nodes /\ well_formed (map gof nodes) inputs layout reuse (idx nodes e) out_slot /\
  compile cls ty root inputs layout reuse out_slot = bind_all (map gof nodes) inputs layout reuse (idx nodes e) out_slot.
Proof.
  destruct out_expr as (e & Ee & He). exists e. split; [exact He|]. split; [apply (tree_wf e Ee He)|]. unfold compile. rewrite Ee. cbn [bind]. rewrite post_order_ok. cbn [bind p_nodes]. fold nodes. rewrite (gnodes_ok nodes 0 eq_refl). cbn [bind].
  unfold node_index. cbn [p_nodes]. rewrite (proj1 (idx_in e He)). reflexivity.
Qed.
End Tree.
