(** C47: the pointwise tree compiler and the predictors it builds. *)
From Coq Require Import Permutation.
From Verif Require Import Base Forest_Model Forest_Spec Forest_Proofs Forest_Props ForestPt_Model ForestPt_Spec ForestPt_Proofs.

(** All SetNode and SetLeaf calls succeed exactly when every id is in range and defined
    at most once, and is the child of at most one node, the root of none. *)
Theorem C47_calls : forall T V n (ops : list (bop T V)),
  (exists b, calls_ok (new_builder n) ops = Some b) <-> calls_valid n ops.
Proof.
  intros T V n ops. pose proof (calls_inv T V n ops) as C. split.
  - intros [b E]. rewrite E in C. exact (inv_valid _ _ _ _ _ C).
  - intros H. destruct (calls_ok (new_builder n) ops) as [b|]; [eauto|contradiction].
Qed.
Print Assumptions C47_calls.

(** After successful calls Compile succeeds exactly when every id is defined and every id
    but the root is a child; otherwise it reports an error. *)
Theorem C47_accepts : forall T V n (ops : list (bop T V)) b, calls_ok (new_builder n) ops = Some b ->
  (calls_complete n ops -> exists t, compile b = COk t) /\ (~ calls_complete n ops -> exists e, compile b = CErr e).
Proof.
  intros T V n ops b E. pose proof (calls_inv T V n ops) as C. rewrite E in C.
  destruct (compile_ok T V _ _ _ C) as (C1 & C2 & C3). split; assumption.
Qed.
Print Assumptions C47_accepts.

(** If the root is a split node (or the only node), the compiled tree predicts the value
    of the leaf that the tests lead to, reading nothing outside of its vectors. *)
Theorem C47_predict : forall T V n (ops : list (bop T V)) b t ev, calls_ok (new_builder n) ops = Some b ->
  compile b = COk t -> n = 1 \/ (exists l r tt, In (SetNode 0 l r tt) ops) ->
  exists v, follows ops ev 0 v /\ (forall v', follows ops ev 0 v' -> v' = v) /\ exists k, forall fuel, k <= fuel -> predict ev t fuel = Done v.
Proof.
  intros T V n ops b t ev E Ct G. pose proof (calls_inv T V n ops) as C. rewrite E in C.
  destruct (compile_ok T V _ _ _ C) as (_ & _ & C3). destruct (C3 t Ct) as (CC & ss & Es & ->).
  destruct (compile_predicts T V n ops b ss ev C CC Es G) as (v & F & k & K). exists v. split; [exact F|]. split; [|exists k; exact K].
  intros v' F'. pose proof (root_mapping T V n ops b ss ev C CC Es G) as M.
  destruct (predict_follows T V n ops b ss ev C CC Es 0 v' F' _ M) as [k' K'].
  specialize (K (Nat.max k k') ltac:(lia)). specialize (K' (Nat.max k k') ltac:(lia)). unfold predict in K. congruence.
Qed.
Print Assumptions C47_predict.

(** The boosted predictor adds up the predictions of the trees that the filter selects,
    each exactly once, in some order, whatever their number and depths; if the order of
    additions does not matter, the result is the one of the trees in order. *)
Theorem C47_boosted : forall T V R Tag (op : R -> V -> R) (ev : T -> bool) flt (trees : list (ctree T V * Tag)) vs,
  Forall2 (fun x v => exists k, forall fuel, k <= fuel -> predict ev (fst x) fuel = Done v) (filter (fun x => flt (snd x)) trees) vs ->
  exists k, forall start fuel, k <= fuel -> exists r, boosted op Tag ev flt fuel trees start = Done r /\ added op start vs r /\
    ((forall a x y, op (op a x) y = op (op a y) x) -> r = fold_left op vs start).
Proof.
  intros T V R Tag op ev flt trees vs F.
  assert (F' : Forall2 (settles ev) (kept T V Tag flt trees) vs).
  { unfold kept. induction F as [|x v q vs H F IH]; cbn; constructor; [exact H|exact IH]. }
  destruct (boosted_ok T V R op ev Tag flt trees vs F') as [k K]. exists k. intros start fuel L.
  destruct (K start fuel L) as (r & B & A). exists r. split; [exact B|]. split; [exact A|]. intros C. exact (added_comm V R op start vs r C A).
Qed.
Print Assumptions C47_boosted.

(** A tree of an accepted forest is compiled exactly when no id is the child of two nodes
    and the root is the child of none; then the compiled tree predicts the weighted value
    of the leaf that the row reaches in the tree. *)
Theorem C47_forest : forall V (vo : vops V) ot ts req (t : tree V), from_trees ot ts = inr req -> In t ts ->
  ((exists b, add_regular_tree vo t = Some b) <-> NoDup (children (t_nodes t)) /\ ~ In 0%Z (children (t_nodes t))) /\
  forall b, add_regular_tree vo t = Some b -> exists ct d, compile b = COk ct /\ is_tree t d /\
    forall fr, exists v, tree_value vo ot fr t d = Some v /\ exists k, forall fuel, k <= fuel -> predict (ceval ot fr) ct fuel = Done v.
Proof.
  intros V vo ot ts req t E T. pose proof (from_trees_ok ot ts) as H. rewrite E in H. destruct H as [_ Sh]. specialize (Sh t T).
  assert (Q : (exists b, add_regular_tree vo t = Some b) <-> NoDup (children (t_nodes t)) /\ ~ In 0%Z (children (t_nodes t))).
  { pose proof (add_regular_ok V vo t Sh) as A. split.
    - intros [b B]. rewrite B in A. apply (tree_calls_valid V vo t Sh). exact (inv_valid _ _ _ _ _ A).
    - intros X. destruct (add_regular_tree vo t) as [b|]; [eauto|contradiction]. }
  split; [exact Q|]. intros b B. destruct (proj1 Q (ex_intro _ b B)) as [D N].
  destruct (regular_ok V vo t Sh D N) as (b' & ct & B' & Ct & P). rewrite B in B'. injection B' as <-.
  destruct (C46_terminates V ot ts req t E T) as [d U]; [|exact N|].
  { unfold split_children. apply NoDup_filter. exact D. }
  exists ct, d. split; [exact Ct|]. split; [exact U|]. intros fr. destruct (tree_value_some vo ot fr t d Sh U) as [v Tv].
  exists v. split; [exact Tv|]. exact (P ot fr d v U Tv).
Qed.
Print Assumptions C47_forest.

(** Ignoring the status of a failed SetNode is not safe: Compile then reads outside of a
    vector. *)
Theorem C47_ignored_error_refuted : exists n (ops : list (bop bool Z)) statuses b,
  run n ops = (b, statuses) /\ In false statuses /\ compile b = CUndefined.
Proof.
  exists 3, [SetNode 0 1 5 true; SetNode 1 2 7 true; SetLeaf 2 20%Z]. do 2 eexists. split; [reflexivity|]. split; [left; reflexivity|reflexivity].
Qed.
Print Assumptions C47_ignored_error_refuted.

(** If node 0 is a leaf, but other nodes form a cycle, Compile succeeds and the prediction
    is not the value of node 0, or does not terminate. *)
Theorem C47_leaf_root_refuted : exists n (ops : list (bop bool Z)) b t,
  calls_ok (new_builder n) ops = Some b /\ compile b = COk t /\ (forall ev, follows ops ev 0 10%Z) /\
  (forall fuel, predict (fun _ => false) t (S fuel) = Done 20%Z) /\
  (forall fuel, predict (fun _ => true) t fuel = OutOfFuel).
Proof.
  exists 3, [SetLeaf 0 10%Z; SetNode 1 1 2 true; SetLeaf 2 20%Z]. do 2 eexists. split; [reflexivity|]. split; [reflexivity|].
  split; [intros ev; apply fol_leaf; left; reflexivity|]. split; [intros []; reflexivity|]. intros fuel. unfold predict.
  match goal with |- predict_from ?e ?t fuel ?i = _ => change i with 0%Z end. induction fuel as [|k IH]; [reflexivity|]. exact IH.
Qed.
Print Assumptions C47_leaf_root_refuted.

(** Eighteen trees of different depths, every third one not selected; and the tree of C46. *)
Definition calls1 : list (bop nat Z) := [SetNode 0 2 1 7; SetLeaf 1 10%Z; SetNode 2 4 3 8; SetLeaf 4 5%Z; SetLeaf 3 6%Z].
Definition trees18 : list (ctree nat Z * nat) :=
  match calls_ok (new_builder 5) calls1, calls_ok (new_builder 1) [SetLeaf 0 100%Z] with
  | Some b, Some c => match compile b, compile c with
                      | COk t, COk u => concat (repeat [(t, 0); (u, 1); (t, 2)] 6)
                      | _, _ => []
                      end
  | _, _ => []
  end.
Example C47_ex : calls_valid 5 calls1 /\ calls_complete 5 calls1 /\ length trees18 = 18 /\
  boosted Z.add nat (fun t => t =? 7) (fun g => g <? 2) 5 trees18 0%Z = Done 636%Z /\
  follows calls1 (fun t => t =? 7) 0 6%Z /\
  (exists b ct, add_regular_tree zops tree1 = Some b /\ compile b = COk ct /\ predict (ceval no_others row1) ct 9 = Done 60%Z).
Proof.
  split; [|split; [|split; [|split; [|split]]]].
  - split; [repeat constructor; cbn; intuition congruence|]. split; [cbn; intuition lia|]. split; [repeat constructor; cbn; intuition congruence|cbn; intuition lia].
  - split; [lia|]. split; intros i X; do 5 (destruct i as [|i]; [cbn; intuition lia|]); lia.
  - reflexivity.
  - reflexivity.
  - eapply (fol_node _ _ 0 2 1 7); [cbn; auto|]. eapply (fol_node _ _ 2 4 3 8); [cbn; auto 6|]. apply fol_leaf. cbn; auto 9.
  - do 2 eexists. split; [reflexivity|]. split; reflexivity.
Qed.
