(** C33, C34: orders of expressions, traversal, Transform and DeepTransform. *)
From Coq Require Import Permutation.
From Verif Require Import Base Visit_Model Visit_Spec Visit_Proofs VisitOrder_Proofs Deep_Proofs.

(** x + x * (y + x) with operators 1 (plus) and 2 (times), sharing and nesting *)
Definition vx := Leaf [120]. Definition vy := Leaf [97; 98]. Definition vp := Plh [7].
Definition ve := Op 1 ANone [vx; Op 2 (AType 5) [vx; Op 1 ANone [vy; vx]]; vp].

(** ** C33 *)
Theorem C33_post_order root : exists p, post_order root = Some p /\ NoDup (p_nodes p) /\ (forall x, In x (p_nodes p) <-> sub x root) /\
  (exists l, p_nodes p = l ++ [root]) /\
  (forall n d, In n (p_nodes p) -> In d (deps n) -> before (p_nodes p) d n) /\
  (forall i n, nth_error (p_nodes p) i = Some n -> exists is, dep_indices p i = Some is /\ Forall2 (fun k d => nth_error (p_nodes p) k = Some d) is (deps n)) /\
  (forall n, match node_index p n with Some i => nth_error (p_nodes p) i = Some n | None => ~ sub n root end).
Proof.
  exists (mkP (po root []) (adj_of (po root []))). cbn [p_nodes]. pose proof (po_ordered root [] ordered_nil) as O. repeat split.
  - apply post_order_ok.
  - apply O.
  - apply po_root.
  - apply po_root.
  - apply po_last.
  - intros n d Hn Hd. apply In_nth_error in Hn as (i & Ei). pose proof (proj2 O i n Ei d Hd) as F. destruct (idx_spec _ i d (proj1 O) F) as [L Ed]. exists (idx (po root []) d), i. auto.
  - intros i n Ei. exists (map (idx (po root [])) (deps n)). split; [apply (dep_indices_ok _ i n O Ei)|]. pose proof (proj2 O i n Ei) as F. induction (deps n) as [|d ds IH]; constructor.
    + apply (idx_spec _ i d (proj1 O)), F. left. reflexivity.
    + apply IH. intros x Hx. apply F. right. exact Hx.
  - intros n. unfold node_index. cbn [p_nodes]. destruct (index_in n (po root [])) as [i|] eqn:Ei; [apply index_in_some, Ei|]. intros S. apply po_root in S. destruct (index_in_spec n _ S) as (i & E & _). congruence.
Qed.
Print Assumptions C33_post_order.
Example C33_ex : option_map p_nodes (post_order ve) = Some [vx; vy; Op 1 ANone [vy; vx]; Op 2 (AType 5) [vx; Op 1 ANone [vy; vx]]; vp; ve].
Proof. reflexivity. Qed.
Example C33_ex_adj : option_map p_adj (post_order ve) = Some [7; 7; 7; 9; 11; 11; 14; 1; 0; 0; 2; 0; 3; 4].
Proof. reflexivity. Qed.

Theorem C33_visitor_order root : exists p, post_order root = Some p /\ visitor_order root = Some (p_nodes p).
Proof. exists (mkP (po root []) (adj_of (po root []))). split; [apply post_order_ok|apply visitor_order_ok]. Qed.
Print Assumptions C33_visitor_order.
Example C33_visitor_ex : visitor_order ve = Some [vx; vy; Op 1 ANone [vy; vx]; Op 2 (AType 5) [vx; Op 1 ANone [vy; vx]]; vp; ve].
Proof. reflexivity. Qed.

(** Every sub-expression is opened once and closed once, events are nested, they are
    closed in post order, and nothing outside is visited. *)
Theorem C33_pre_post root : exists ev p, pre_post_order root = Some ev /\ post_order root = Some p /\ nested ev /\ NoDup ev /\
  (forall b x, In (b, x) ev <-> sub x root) /\ map snd (filter (fun e => negb (fst e)) ev) = p_nodes p.
Proof.
  exists (snd (pv root [root])), (mkP (po root []) (adj_of (po root []))). pose proof (pv_nested root [root]) as N. pose proof (nested_perm _ N) as P. pose proof (closes_po root) as C.
  rewrite C in P. assert (No : NoDup (opens (snd (pv root [root])))) by (apply (Permutation_NoDup (Permutation_sym P)), NoDup_po).
  assert (Nc : NoDup (closes (snd (pv root [root])))) by (rewrite C; apply NoDup_po).
  assert (In_o : forall x l, In (true, x) l <-> In x (opens l)).
  { intros x l. unfold opens. rewrite in_map_iff. split; [intros H; exists (true, x); split; [reflexivity|apply filter_In; auto]|]. intros ([b y] & <- & H). apply filter_In in H as [H E]. cbn in E. subst b. exact H. }
  assert (In_c : forall x l, In (false, x) l <-> In x (closes l)).
  { intros x l. unfold closes. rewrite in_map_iff. split; [intros H; exists (false, x); split; [reflexivity|apply filter_In; auto]|]. intros ([b y] & <- & H). apply filter_In in H as [H E]. cbn in E. destruct b; [discriminate|exact H]. }
  split; [apply visit_impl_ok|]. split; [apply post_order_ok|]. split; [exact N|]. split; [|split; [|exact C]].
  - clear - No Nc In_o In_c. induction (snd (pv root [root])) as [|[[|] x] l IH]; [constructor| |].
    + change (opens ((true, x) :: l)) with (x :: opens l) in No. change (closes ((true, x) :: l)) with (closes l) in Nc. inversion No as [|? ? H1 H2]; subst. constructor; [rewrite In_o; exact H1|apply IH; assumption].
    + change (opens ((false, x) :: l)) with (opens l) in No. change (closes ((false, x) :: l)) with (x :: closes l) in Nc. inversion Nc as [|? ? H1 H2]; subst. constructor; [rewrite In_c; exact H1|apply IH; assumption].
  - intros [|] x; [rewrite In_o|rewrite In_c, C; apply po_root]. rewrite <- po_root. split; [apply (Permutation_in _ P)|apply (Permutation_in _ (Permutation_sym P))].
Qed.
Print Assumptions C33_pre_post.
Example C33_pre_post_ex : pre_post_order (Op 1 ANone [vx; Op 2 ANone [vx]]) =
  Some [(true, Op 1 ANone [vx; Op 2 ANone [vx]]); (true, vx); (false, vx); (true, Op 2 ANone [vx]); (false, Op 2 ANone [vx]); (false, Op 1 ANone [vx; Op 2 ANone [vx]])].
Proof. reflexivity. Qed.

Theorem C33_leaf_keys root : exists l, get_keys leaf_key root = Some l /\ increasing l /\ (forall k, In k l <-> sub (Leaf k) root).
Proof.
  destruct (get_keys_ok leaf_key root leaf_fun leaf_one) as (l & E & I & H). exists l. split; [exact E|]. split; [apply incr_increasing, I|].
  intros k. rewrite H. split; [intros (n & S & K); destruct n; cbn in K; try contradiction; destruct K as [->|[]]; exact S|]. intros S. exists (Leaf k). split; [exact S|left; reflexivity].
Qed.
Print Assumptions C33_leaf_keys.
Theorem C33_placeholder_keys root : exists l, get_keys plh_key root = Some l /\ increasing l /\ (forall k, In k l <-> sub (Plh k) root).
Proof.
  destruct (get_keys_ok plh_key root plh_fun plh_one) as (l & E & I & H). exists l. split; [exact E|]. split; [apply incr_increasing, I|].
  intros k. rewrite H. split; [intros (n & S & K); destruct n; cbn in K; try contradiction; destruct K as [->|[]]; exact S|]. intros S. exists (Plh k). split; [exact S|left; reflexivity].
Qed.
Print Assumptions C33_placeholder_keys.
(** The overloads for a PostOrder *)
Theorem C33_keys_post_order root p : post_order root = Some p ->
  get_keys leaf_key root = Some (get_keys_po leaf_key p) /\ get_keys plh_key root = Some (get_keys_po plh_key p).
Proof. intros H. split; apply get_keys_po_ok; auto using leaf_fun, leaf_one, plh_fun, plh_one. Qed.
Print Assumptions C33_keys_post_order.
Example C33_keys_ex : get_keys leaf_key ve = Some [[97; 98]; [120]] /\ get_keys plh_key ve = Some [[7]].
Proof. split; reflexivity. Qed.

(** ** C34 *)
Theorem C34_traverse {E T} (v : node -> list T -> E + T) root p : post_order root = Some p -> traverse v p = Some (bottom_up v root).
Proof. apply traverse_ok. Qed.
Print Assumptions C34_traverse.
(** The number of nodes of the tree; an error for a placeholder *)
Example C34_traverse_ex : (let? p := post_order ve in traverse (fun (n : node) (a : list nat) => inr (S (list_sum a)) : nat + nat) p) = Some (inr 8) /\
  (let? p := post_order ve in traverse (fun (n : node) (a : list nat) => match n with Plh k => inl k | _ => inr 1 end) p) = Some (inl [7]).
Proof. split; reflexivity. Qed.

Theorem C34_transform {E} (infer : nat -> list attr -> E + attr) f root : transform infer f root = Some (rewritten infer f root).
Proof. apply transform_ok. Qed.
Print Assumptions C34_transform.
(** Operator 1 is replaced by 3, x by y; attributes of nodes without changes are kept. *)
Definition inf0 (o : nat) (l : list attr) : nat + attr := if o =? 9 then inl 1 else inr (AType (o + length l)).
Definition f0 (n : node) : nat + node := match n with Op 1 a ds => inr (Op 3 a ds) | Leaf [120] => inr vy | _ => inr n end.
Example C34_transform_ex : transform inf0 f0 ve = Some (inr (Op 3 (AType 4) [vy; Op 2 (AType 4) [vy; Op 3 (AType 3) [vy; vy]]; vp])).
Proof. reflexivity. Qed.
Example C34_transform_same_ex : transform inf0 (fun n => inr n) ve = Some (inr ve) /\ transform inf0 f0 (Op 9 ANone [vx]) = Some (inl 1).
Proof. split; reflexivity. Qed.

Section Deep.
Context {E : Type}.
Variables (infer : nat -> list attr -> E + attr) (f : node -> E + node) (bad : E).
(** A run always ends; it succeeds only with the result of rewriting to the end, and
    calls the function at most once per node. *)
Theorem C34_deep_run limit root : exists res, deep_run infer f bad limit root = Some res /\
  forall r calls, res = inr (r, calls) -> norm infer f root r /\ NoDup calls.
Proof.
  pose proof (deep_run_ok infer f bad limit root) as Q. destruct (deep_run infer f bad limit root) as [[e|[r calls]]|]; [|exists (inr (r, calls))|contradiction].
  - eexists. split; [reflexivity|]. intros; discriminate.
  - split; [reflexivity|]. intros r' calls' H. injection H as <- <-. exact Q.
Qed.
(** An infinite loop or an error is reported only if there is no such result; too many
    processed nodes only if that many have to be processed. *)
Theorem C34_deep_errors limit root e : deep_run infer f bad limit root = Some (inl e) ->
  match e with
  | DTooMany => exists ks, NoDup ks /\ limit < length ks /\ forall k, In k ks -> needed infer f root k
  | _ => ~ exists r, norm infer f root r
  end.
Proof. intros H. pose proof (deep_run_ok infer f bad limit root) as Q. rewrite H in Q. destruct e; exact Q. Qed.
(** With a sufficient limit the result is found, and some limit is sufficient. *)
Theorem C34_deep_complete root r ks limit : norm infer f root r -> (forall k, needed infer f root k -> In k ks) -> length ks <= limit ->
  exists calls, deep_run infer f bad limit root = Some (inr (r, calls)).
Proof. apply deep_enough. Qed.
Theorem C34_deep_limit root r : norm infer f root r -> exists ks, forall k, needed infer f root k -> In k ks.
Proof. intros H. apply needed_finite. exists r. exact H. Qed.
Theorem C34_deep_unique root r r' : norm infer f root r -> norm infer f root r' -> r = r'.
Proof. intros H. apply (proj1 (norm_fun infer f) root r H). Qed.
(** The function is the identity on every part of the result. *)
Theorem C34_deep_fixed limit root r calls x : deep_run infer f bad limit root = Some (inr (r, calls)) -> sub x r -> f x = inr x.
Proof. intros H S. pose proof (deep_run_ok infer f bad limit root) as Q. rewrite H in Q. apply (norm_fixed_subs infer f root r x (proj1 Q) S). Qed.
(** If it is the identity on every part of the root, that is returned. *)
Theorem C34_deep_identity root l limit : (forall x, sub x root -> f x = inr x) -> NoDup l -> (forall x, In x l <-> sub x root) -> length l <= limit ->
  exists calls, deep_run infer f bad limit root = Some (inr (root, calls)).
Proof.
  intros H N L K. pose proof (identity_norm infer f root H) as R. apply (deep_enough infer f bad root root l limit R); [|exact K]. intros k G. apply L, (normal_needed infer f root k R G).
Qed.
(** Denotations that the function and new arguments of equal denotation keep are kept. *)
Theorem C34_deep_preserves (R : node -> node -> Prop) limit root r calls : (forall a, R a a) -> (forall a b c, R a b -> R b c -> R a c) -> (forall a b, f a = inr b -> R a b) ->
  (forall n ds n', Forall2 R (deps n) ds -> rebuilt infer n ds n' -> R n n') -> deep_run infer f bad limit root = Some (inr (r, calls)) -> R root r.
Proof. intros R0 R1 R2 R3 H. pose proof (deep_run_ok infer f bad limit root) as Q. rewrite H in Q. apply (norm_preserves infer f R R0 R1 R2 R3 root r (proj1 Q)). Qed.
End Deep.
Print Assumptions C34_deep_run.
Print Assumptions C34_deep_errors.
Print Assumptions C34_deep_complete.
Print Assumptions C34_deep_limit.
Print Assumptions C34_deep_unique.
Print Assumptions C34_deep_fixed.
Print Assumptions C34_deep_identity.
Print Assumptions C34_deep_preserves.
(** f0 with a chain of rewritings: 1 to 3, 3 of two equal arguments to 2 of one *)
Definition f1 (n : node) : nat + node :=
  match n with
  | Op 1 a ds => inr (Op 3 a ds)
  | Op 3 a [x; y] => if node_eqb x y then inr (Op 2 ANone [Op 1 ANone [x]]) else inr n
  | Leaf [120] => inr vy
  | Leaf [121] => inr (Lit 3)
  | Op 4 a ds => inr (Op 5 a ds) | Op 5 a ds => inr (Op 4 a ds)
  | Op 6 a ds => inr (Op 6 a (vp :: ds))
  | _ => inr n
  end.
Definition ve1 := Op 1 ANone [vx; Op 2 (AType 5) [vx; Op 1 ANone [vy; vx]]].
Example C34_deep_ex : match deep_run inf0 f1 0 20 ve1 with
  | Some (inr (r, calls)) => r = Op 3 ANone [vy; Op 2 (AType 5) [vy; Op 2 ANone [Op 3 ANone [vy]]]] /\ length calls = 10
  | _ => False end.
Proof. vm_compute. auto. Qed.
Example C34_deep_infer_ex : option_map (fun r => match r with inr (x, _) => Some x | _ => None end) (deep_run inf0 f1 0 20 (Op 2 ANone [Leaf [121]])) = Some (Some (Op 2 (AType 3) [Lit 3])).
Proof. vm_compute. reflexivity. Qed.
(** Cycles, growth, and an error *)
Example C34_deep_fail_ex : deep_run inf0 f1 0 20 (Op 2 ANone [Op 4 ANone [vx]]) = Some (inl (DLoop (Op 5 ANone [vy]))) /\
  deep_run inf0 f1 0 20 (Op 6 ANone []) = Some (inl DTooMany) /\ deep_run inf0 (fun n => match n with Leaf _ => inl 3 | _ => inr n end) 0 20 ve1 = Some (inl (DErr 3)).
Proof. vm_compute. auto. Qed.
Example C34_deep_identity_ex : exists calls, deep_run inf0 (fun n => inr n) 0 20 ve1 = Some (inr (ve1, calls)).
Proof.
  apply (C34_deep_identity inf0 (fun n => inr n) 0 ve1 [vx; vy; Op 1 ANone [vy; vx]; Op 2 (AType 5) [vx; Op 1 ANone [vy; vx]]; ve1] 20); [auto| | |cbn; lia].
  - repeat constructor; cbn; intuition discriminate.
  - intros x. destruct (C33_post_order ve1) as (p & E & _ & H & _). rewrite <- H. cbv in E. injection E as <-. reflexivity.
Qed.
Example C34_deep_norm_ex : exists r, norm inf0 f1 ve1 r.
Proof. destruct (C34_deep_run inf0 f1 0 20 ve1) as (res & E & H). vm_compute in E. injection E as <-. eexists. apply (H _ _ eq_refl). Qed.
(** f1 keeps whether a node is an operator node *)
Example C34_deep_preserves_ex r calls : deep_run inf0 f1 0 20 ve1 = Some (inr (r, calls)) -> is_op ve1 = is_op r.
Proof.
  apply (C34_deep_preserves inf0 f1 0 (fun a b => is_op a = is_op b)); [reflexivity|intros a b c -> ->; reflexivity| |].
  - intros a b. unfold f1. destruct a as [v|k|k|o at_ ds]; [intros H; injection H as <-; reflexivity| |intros H; injection H as <-; reflexivity|].
    + intros H. assert (D : b = Leaf k \/ b = vy \/ b = Lit 3) by (repeat (match type of H with match ?x with _ => _ end = _ => destruct x end); injection H as <-; auto). destruct D as [->|[->| ->]]; reflexivity.
    + intros H. repeat (match type of H with match ?x with _ => _ end = _ => destruct x | (if ?b then _ else _) = _ => destruct b end); injection H as <-; reflexivity.
  - intros n ds n' _ R. destruct R; reflexivity.
Qed.
