(** Pointwise evaluation of decision trees: the tree compiler, the single predictor and
    the boosted predictor.
    arolla/decision_forest/pointwise_evaluation/pointwise.h and the part of
    forest_evaluator.cc that feeds it. *)
From Verif Require Import Base Forest_Model.

Section pointwise.
(** [T] is the type NodeTest, [V] the type of the leaf values. *)
Variables T V : Type.

(** ** SingleTreeCompilationImpl, pointwise.h:121-208.  [None] is the id -1 of an unset
    field; node ids are int32 in the compiled tree, which the model does not bound. *)
Record bnode := { b_leaf : option nat; b_left : option nat; b_right : option nat; b_test : option T }.
Record builder := { b_nodes : list bnode; b_used : list bool; b_child : list bool; b_values : list V }.
Definition empty_node : bnode := {| b_leaf := None; b_left := None; b_right := None; b_test := None |}.
(** Constructor, lines 123-128. *)
Definition new_builder (n : nat) : builder :=
  {| b_nodes := repeat empty_node n; b_used := repeat false n;
     b_child := match n with 0 => [] | S m => true :: repeat false m end; b_values := [] |}.
(** TestNode, lines 187-196: [None] is an error status; otherwise the updated flags. *)
Definition test_node (id : nat) (used : list bool) : option (list bool) :=
  match rd used id with
  | None => None
  | Some true => None
  | Some false => upd used id true
  end.
Definition set_b_node (b : builder) (id : nat) (x : bnode) : builder :=
  match upd (b_nodes b) id x with
  | Some ns => {| b_nodes := ns; b_used := b_used b; b_child := b_child b; b_values := b_values b |}
  | None => b
  end.
(** The calls.  The second component is the status; a failing call keeps the flags it has
    set before the failure. *)
Inductive bop := SetNode (id left right : nat) (test : T) | SetLeaf (id : nat) (value : V).
(** SetNode, lines 130-139, and SetLeaf, lines 141-146. *)
Definition step (b : builder) (o : bop) : builder * bool :=
  match o with
  | SetNode id l r t =>
    match test_node id (b_used b) with
    | None => (b, false)
    | Some used =>
      let b1 := {| b_nodes := b_nodes b; b_used := used; b_child := b_child b; b_values := b_values b |} in
      match test_node l (b_child b) with
      | None => (b1, false)
      | Some child1 =>
        let b2 := {| b_nodes := b_nodes b; b_used := used; b_child := child1; b_values := b_values b |} in
        match test_node r child1 with
        | None => (b2, false)
        | Some child2 =>
          let b3 := {| b_nodes := b_nodes b; b_used := used; b_child := child2; b_values := b_values b |} in
          (set_b_node b3 id {| b_leaf := None; b_left := Some l; b_right := Some r; b_test := Some t |}, true)
        end
      end
    end
  | SetLeaf id v =>
    match test_node id (b_used b) with
    | None => (b, false)
    | Some used =>
      let b1 := {| b_nodes := b_nodes b; b_used := used; b_child := b_child b; b_values := b_values b ++ [v] |} in
      (set_b_node b1 id {| b_leaf := Some (length (b_values b)); b_left := None; b_right := None; b_test := None |}, true)
    end
  end.
(** A sequence of calls, with their statuses. *)
Definition run (n : nat) (ops : list bop) : builder * list bool :=
  fold_left (fun '(b, st) o => let '(b', ok) := step b o in (b', st ++ [ok])) ops (new_builder n, []).

(** ** The compiled tree, pointwise.h:86-119: NodeId (negative for a leaf), the test with
    next_node_ids, the adjustments. *)
Definition csplit_id (k : nat) : Z := Z.of_nat k.
Definition cleaf_id (k : nat) : Z := (- Z.of_nat k - 1)%Z.
Record csplit := { c_test : T; c_next0 : Z; c_next1 : Z }.
Record ctree := { c_splits : list csplit; c_adj : list V }.
Inductive cerror := EmptyTree | IdNotUsed.
Inductive cresult := CErr (e : cerror) | CUndefined | COk (t : ctree).
(** node_mapping, lines 163-172. *)
Fixpoint node_mapping (ns : list bnode) (cur : nat) : list Z :=
  match ns with
  | [] => []
  | n :: r => match b_leaf n with
              | None => csplit_id cur :: node_mapping r (S cur)
              | Some k => cleaf_id k :: node_mapping r cur
              end
  end.
(** Lines 173-182: the splits in increasing order of their ids; an unset child id is a
    read outside of node_mapping. *)
Fixpoint compile_splits (mapping : list Z) (ns : list bnode) : option (list csplit) :=
  match ns with
  | [] => Some []
  | n :: r =>
    match b_leaf n with
    | Some _ => compile_splits mapping r
    | None =>
      let? l := b_left n in let? rt := b_right n in let? t := b_test n in
      let? n1 := rd mapping l in let? n0 := rd mapping rt in
      let? rest := compile_splits mapping r in
      Some ({| c_test := t; c_next0 := n0; c_next1 := n1 |} :: rest)
    end
  end.
(** Compile, lines 148-184. *)
Definition compile (b : builder) : cresult :=
  match b_nodes b with
  | [] => CErr EmptyTree
  | _ =>
    if forallb (fun x => x) (b_child b) && forallb (fun x => x) (b_used b)
    then match compile_splits (node_mapping (b_nodes b) 0) (b_nodes b) with
         | Some ss => if length ss =? length (b_nodes b) - length (b_values b) then COk {| c_splits := ss; c_adj := b_values b |} else CUndefined
         | None => CUndefined
         end
    else CErr IdNotUsed
  end.

(** ** Traversal, pointwise.h:116-118 and 210-230. *)
Definition croot (t : ctree) : Z := match c_splits t with [] => cleaf_id 0 | _ => csplit_id 0 end.
Definition can_step (id : Z) : bool := negb (id <? 0)%Z.
Definition make_step (ev : T -> bool) (t : ctree) (id : Z) : option Z :=
  let? s := zrd (c_splits t) id in Some (if ev (c_test s) then c_next1 s else c_next0 s).
Definition get_value (t : ctree) (id : Z) : option V := zrd (c_adj t) (- id - 1)%Z.
(** SinglePredictor::Predict, lines 244-251. *)
Fixpoint predict_from (ev : T -> bool) (t : ctree) (fuel : nat) (id : Z) : outcome V :=
  if can_step id
  then match fuel with
       | 0 => OutOfFuel
       | S k => match make_step ev t id with Some id' => predict_from ev t k id' | None => OutOfBounds end
       end
  else match get_value t id with Some v => Done v | None => OutOfBounds end.
Definition predict (ev : T -> bool) (t : ctree) (fuel : nat) : outcome V := predict_from ev t fuel (croot t).

(** ** BoostedPredictor::Predict, lines 273-308.  A batch is the list of its unfinished
    trees with their current nodes, in the order of ids[]. *)
Variable R : Type.
Variable op : R -> V -> R.
Fixpoint pass (ev : T -> bool) (act : list (ctree * Z)) (start : R) : option (list (ctree * Z) * R) :=
  match act with
  | [] => Some ([], start)
  | (t, id) :: r =>
    if can_step id
    then let? id' := make_step ev t id in
         let? p := pass ev r start in Some ((t, id') :: fst p, snd p)
    else let? v := get_value t id in pass ev r (op start v)
  end.
Fixpoint drain (ev : T -> bool) (fuel : nat) (act : list (ctree * Z)) (start : R) : outcome R :=
  match act with
  | [] => Done start
  | _ => match fuel with
         | 0 => OutOfFuel
         | S k => match pass ev act start with Some (act', start') => drain ev k act' start' | None => OutOfBounds end
         end
  end.
Variable Tag : Type.
Fixpoint batches (ev : T -> bool) (flt : Tag -> bool) (fuel : nat) (n : nat) (trees : list (ctree * Tag)) (start : R) : outcome R :=
  match trees with
  | [] => Done start
  | _ => match n with
         | 0 => OutOfFuel
         | S m =>
           let batch := filter (fun x => flt (snd x)) (firstn 16 trees) in
           match drain ev fuel (map (fun x => (fst x, croot (fst x))) batch) start with
           | Done s => batches ev flt fuel m (skipn 16 trees) s
           | OutOfFuel => OutOfFuel
           | OutOfBounds => OutOfBounds
           end
         end
  end.
Definition boosted (ev : T -> bool) (flt : Tag -> bool) (fuel : nat) (trees : list (ctree * Tag)) (start : R) : outcome R :=
  batches ev flt fuel (length trees) trees start.

(** BoostedPredictorCompiler::Compile, lines 396-412: the first error, if any. *)
Fixpoint compile_all (bs : list (builder * Tag)) : cerror + option (list (ctree * Tag)) :=
  match bs with
  | [] => inr (Some [])
  | (b, g) :: r =>
    match compile b with
    | CErr e => inl e
    | CUndefined => inr None
    | COk t => match compile_all r with
               | inl e => inl e
               | inr None => inr None
               | inr (Some ts) => inr (Some ((t, g) :: ts))
               end
    end
  end.
End pointwise.
Arguments SetNode {T V}. Arguments SetLeaf {T V}. Arguments step {T V}. Arguments run {T V}.
Arguments compile {T V}. Arguments predict {T V}. Arguments CErr {T V}. Arguments CUndefined {T V}. Arguments COk {T V}.
Arguments c_splits {T V}. Arguments c_adj {T V}. Arguments croot {T V}. Arguments boosted {T V R}. Arguments compile_all {T V}.
Arguments predict_from {T V}. Arguments make_step {T V}. Arguments get_value {T V}. Arguments pass {T V R}. Arguments drain {T V R}.
Arguments batches {T V R}. Arguments new_builder {T V}. Arguments b_nodes {T V}. Arguments b_used {T V}. Arguments b_child {T V}. Arguments b_values {T V}.
Arguments b_leaf {T}. Arguments b_left {T}. Arguments b_right {T}. Arguments b_test {T}. Arguments c_test {T}. Arguments c_next0 {T}. Arguments c_next1 {T}.
Arguments empty_node {T}. Arguments node_mapping {T}. Arguments compile_splits {T}. Arguments set_b_node {T V}.

(** ** RegularPredictorsBuilder::AddTree, forest_evaluator.cc:102-120 and 137-163: the
    calls for a tree of a forest; it stops at the first error.  The interval, the
    universal and the virtual bound condition (bound_split_conditions.h) compute the same
    as the condition they are made from, so the test is the condition itself. *)
Definition child_number {V} (t : tree V) (c : Z) : nat :=
  if is_leaf c then Z.to_nat (adjustment_index c) + length (t_nodes t) else Z.to_nat c.
Definition tree_calls {V} (vo : vops V) (t : tree V) : list (bop cond V) :=
  map (fun '(id, n) => SetNode id (child_number t (n_true n)) (child_number t (n_false n)) (n_cond n))
      (combine (seq 0 (length (t_nodes t))) (t_nodes t)) ++
  map (fun '(i, a) => SetLeaf (i + length (t_nodes t)) (vmul vo a (t_weight t)))
      (combine (seq 0 (length (t_adj t))) (t_adj t)).
Fixpoint calls_ok {T V} (b : builder T V) (ops : list (bop T V)) : option (builder T V) :=
  match ops with
  | [] => Some b
  | o :: r => let '(b', ok) := step b o in if ok then calls_ok b' r else None
  end.
Definition add_regular_tree {V} (vo : vops V) (t : tree V) : option (builder cond V) :=
  calls_ok (new_builder (length (t_nodes t) + length (t_adj t))) (tree_calls vo t).
