(** The value of every node of a list of nodes, independently of slots. *)
From Verif Require Import Base Visit_Model Visit_Spec Slots_Model.

(** Dependencies come earlier; operators with one argument have one. *)
Definition acyclic (nodes : list gnode) : Prop := forall i n d, nth_error nodes i = Some n -> In d (g_deps n) -> d < i.
Section Val.
Context {V : Type}.
Variable lit : nat -> V.
Variable opf : nat -> list V -> V.
Variable proj : nat -> V -> V.
Variable leaf : list nat -> V.
(** [vals] are values of all nodes, according to what the nodes do. *)
Definition value_ok (nodes : list gnode) (vals : nat -> V) : Prop :=
  forall i n, nth_error nodes i = Some n ->
  match g_kind n with
  | GLeaf k => vals i = leaf k
  | GLit v => vals i = lit v
  | GOp o | GPerm o => vals i = opf o (map vals (g_deps n))
  | GView p => exists d, g_deps n = [d] /\ vals i = proj p (vals d)
  | GRoot => exists d t, g_deps n = d :: t /\ vals i = vals d
  end.
End Val.

(** Expressions that can be compiled: dependencies come earlier, arguments are as the kind
    of the node wants, the inputs of different leaves are different slots (needed only if
    they may be overwritten), the output slot is not an input slot, the last node is the
    output or the operator that collects the named outputs. *)
Record well_formed (nodes : list gnode) (inputs : list (list nat * nat)) (layout : list nat) (reuse : bool) (out_idx out_slot : nat) : Prop := {
  wf_acyclic : acyclic nodes;
  wf_args : forall n, In n nodes -> match g_kind n with
              | GLeaf k => exists s, In (k, s) inputs
              | GView _ => exists d, g_deps n = [d]
              | GRoot => exists t, g_deps n = out_idx :: t
              | _ => True end;
  wf_leaves : forall i j n m k, nth_error nodes i = Some n -> nth_error nodes j = Some m -> g_kind n = GLeaf k -> g_kind m = GLeaf k -> i = j;
  wf_keys : NoDup (map fst inputs);
  wf_distinct : reuse = true -> NoDup (map snd inputs);
  wf_inputs : forall k s, In (k, s) inputs -> s < length layout /\ s <> out_slot;
  wf_out : out_slot < length layout;
  wf_last : exists n, nth_error nodes (length nodes - 1) = Some n /\ (out_idx = length nodes - 1 \/ g_kind n = GRoot)
}.
(** The frame holds the inputs, the literals *)
Definition holds_inputs {V} (leaf : list nat -> V) (inputs : list (list nat * nat)) (fr : nat -> V) : Prop := forall k s, In (k, s) inputs -> fr s = leaf k.
Definition holds_literals {V} (lit : nat -> V) (l : list (nat * nat)) (fr : nat -> V) : Prop := forall s v, In (s, v) l -> fr s = lit v.

(** The slot an instruction writes *)
Definition dst (ins : instr) : nat := match ins with IOp _ _ o => o | ICopy _ o => o end.
(** The slots it reads *)
Definition srcs (ins : instr) : list tslot := match ins with IOp _ l _ => l | ICopy s _ => [s] end.
(** Nodes with a slot of their own *)
Definition computed (n : gnode) : Prop := match g_kind n with GLit _ | GOp _ | GPerm _ => True | _ => False end.

(** ** Expressions *)
Section Ev.
Context {V : Type}.
Variable cls : nat -> opclass.
Variable lit : nat -> V.
Variable opf : nat -> list V -> V.
Variable proj : nat -> V -> V.
Variable leaf : list nat -> V.
(** The value of an expression *)
Fixpoint ev (n : node) : V :=
  match n with
  | Lit v => lit v
  | Leaf k => leaf k
  | Plh k => leaf k
  | Op o _ ds => match cls o, map ev ds with
                 | CView, [x] => proj o x
                 | CRoot, x :: _ => x
                 | _, vs => opf o vs
                 end
  end.
End Ev.
(** No placeholders; views of one argument; the collecting operator only at the root *)
Definition supported (cls : nat -> opclass) (root : node) : Prop := forall x, sub x root ->
  match x with
  | Plh _ => False
  | Op o _ ds => match cls o with CView => length ds = 1 | CRoot => x = root /\ ds <> [] | CPlain => True end
  | _ => True
  end.
Definition good_slots (root : node) (inputs : list (list nat * nat)) (layout : list nat) (reuse : bool) (out_slot : nat) : Prop :=
  (forall k, sub (Leaf k) root -> exists s, In (k, s) inputs) /\ NoDup (map fst inputs) /\ (reuse = true -> NoDup (map snd inputs)) /\
  (forall k s, In (k, s) inputs -> s < length layout /\ s <> out_slot) /\ out_slot < length layout.
