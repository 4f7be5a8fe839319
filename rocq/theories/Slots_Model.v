(** Model of arolla/expr/eval/slot_allocator.h/.cc, of the loop that binds an expression
    (dynamic_compiled_expr.cc) and of running the bound program
    (executable_builder.cc).  A slot is a number (its address), the layout is the list of
    the types of the slots added so far; that slots do not overlap is C19.  Types,
    operators, sub-slots are numbers.  [None]: access out of bounds, a missing input slot
    or a compilation error.  Left out: checks of types, where and while operators with
    sub-programs, errors of operators while running. *)
From Verif Require Import Base Visit_Model.

(** A node in the post order: what it does, its type, the positions of its dependencies. *)
Inductive gkind :=
  | GLeaf (key : list nat)
  | GLit (v : nat)       (* the literal with this number *)
  | GOp (o : nat)        (* an operator with an output slot *)
  | GPerm (o : nat)      (* the same, with a permanent slot; not used by the compiler *)
  | GView (p : nat)      (* get_nth, core.has._optional, annotations, casts: part [p] of the slot of the dependency *)
  | GRoot.               (* InternalRootOperator *)
Record gnode := mkG { g_kind : gkind; g_ty : nat; g_deps : list nat }.
Definition is_leaf (n : gnode) : bool := match g_kind n with GLeaf _ => true | _ => false end.
Fixpoint keyb (a b : list nat) : bool :=
  match a, b with [], [] => true | x :: a', y :: b' => (x =? y) && keyb a' b' | _, _ => false end.
Fixpoint input_of (inputs : list (list nat * nat)) (k : list nat) : option nat :=
  match inputs with [] => None | (k', s) :: t => if keyb k' k then Some s else input_of t k end.

(** slot_allocator.h:72-98.  [a_free] is reusable_slots_, the last slot of a type first;
    [a_slot] has no value for UnsetSlot. *)
Record alloc := mkA { a_last : list nat; a_orig : list nat; a_slot : list (option (nat * nat)); a_free : nat -> list nat; a_layout : list nat }.
(** AddSlot *)
Definition add_slot (ty : nat) (a : alloc) : nat * alloc :=
  (length (a_layout a), mkA (a_last a) (a_orig a) (a_slot a) (a_free a) (a_layout a ++ [ty])).
(** slot_allocator.cc:58-60 *)
Fixpoint put_all (l : list nat) (js : list nat) (i : nat) : option (list nat) :=
  match js with [] => Some l | j :: t => let? l := upd l j i in put_all l t i end.
(** 57-63 *)
Fixpoint usages (nodes : list gnode) (i : nat) (l : list nat) : option (list nat) :=
  match nodes with
  | [] => Some l
  | n :: t => let? l := put_all l (g_deps n) i in
              let? l := upd l i i in
              usages t (S i) l
  end.
(** 64-71 *)
Fixpoint leaf_slots (inputs : list (list nat * nat)) (layout : list nat) (nodes : list gnode) : option (list (option (nat * nat))) :=
  match nodes with
  | [] => Some []
  | n :: t =>
      let? r := leaf_slots inputs layout t in
      match g_kind n with
      | GLeaf k => let? s := input_of inputs k in
                   let? ty := rd layout s in
                   Some (Some (ty, s) :: r)
      | _ => Some (None :: r)
      end
  end.
(** 48-72, the constructor *)
Definition new_alloc (nodes : list gnode) (inputs : list (list nat * nat)) (layout : list nat) (reuse : bool) : option alloc :=
  let n := length nodes in
  let? last := usages nodes 0 (repeat 0 n) in
  let? slots := if reuse then leaf_slots inputs layout nodes else Some (repeat None n) in
  Some (mkA last (seq 0 n) slots (fun _ => []) layout).
(** 74-77 *)
Definition alloc_permanent (ty : nat) (a : alloc) : nat * alloc := add_slot ty a.
(** 79-92 *)
Definition alloc_slot (i ty : nat) (a : alloc) : option (nat * alloc) :=
  let '(s, a) :=
    match a_free a ty with
    | [] => add_slot ty a
    | s :: t => (s, mkA (a_last a) (a_orig a) (a_slot a) (fun ty' => if ty' =? ty then t else a_free a ty') (a_layout a))
    end in
  let? slots := upd (a_slot a) i (Some (ty, s)) in
  Some (s, mkA (a_last a) (a_orig a) slots (a_free a) (a_layout a)).
(** 94-100 *)
Definition inherit (i from : nat) (a : alloc) : option alloc :=
  let? from := rd (a_orig a) from in
  let? orig := upd (a_orig a) i from in
  let? lf := rd (a_last a) from in
  let? li := rd (a_last a) i in
  let? last := upd (a_last a) from (Nat.max lf li) in
  Some (mkA last orig (a_slot a) (a_free a) (a_layout a)).
(** 102-112 *)
Fixpoint release (i : nat) (ds : list nat) (a : alloc) : option alloc :=
  match ds with
  | [] => Some a
  | d :: t =>
      let? o := rd (a_orig a) d in
      let? l := rd (a_last a) o in
      let? s := rd (a_slot a) o in
      match s with
      | Some (ty, s) =>
          if l =? i then
            let? slots := upd (a_slot a) o None in
            release i t (mkA (a_last a) (a_orig a) slots (fun ty' => if ty' =? ty then s :: a_free a ty' else a_free a ty') (a_layout a))
          else release i t a
      | None => release i t a
      end
  end.

(** ** Binding *)
(** A slot or a sub-slot of it *)
Record tslot := mkT { t_slot : nat; t_path : list nat }.
Definition tslot_eqb (a b : tslot) : bool := (t_slot a =? t_slot b) && keyb (t_path a) (t_path b).
(** An operator bound to slots, core._copy *)
Inductive instr := IOp (o : nat) (ins : list tslot) (out : nat) | ICopy (src : tslot) (out : nat).
(** The allocator, the slots of the nodes so far, the literals, the program *)
Record cst := mkC { c_al : alloc; c_res : list tslot; c_init : list (nat * nat); c_prog : list instr }.
Fixpoint rds {T} (rs : list T) (is : list nat) : option (list T) :=
  match is with [] => Some [] | i :: t => let? x := rd rs i in let? r := rds rs t in Some (x :: r) end.

Section Bind.
Variable inputs : list (list nat * nat).
Variables out_idx out_slot : nat.
(** dynamic_compiled_expr.cc:168-184 [maybe_copy_slot] *)
Definition maybe_copy (i : nat) (s : tslot) (from : nat) (c : cst) : option cst :=
  if i =? out_idx then Some (mkC (c_al c) (c_res c ++ [mkT out_slot []]) (c_init c) (c_prog c ++ [ICopy s out_slot]))
  else let? a := inherit i from (c_al c) in
       Some (mkC a (c_res c ++ [s]) (c_init c) (c_prog c)).
(** 151-272 [ConstructOutputSlot] with the cases of an operator; the slots of the
    dependencies are [ins] *)
Definition construct (i : nat) (n : gnode) (ins : list tslot) (c : cst) : option cst :=
  match g_kind n with
  | GLeaf k => let? s := input_of inputs k in maybe_copy i (mkT s []) i c
  | GLit v =>
      let '(s, a) := alloc_permanent (g_ty n) (c_al c) in
      maybe_copy i (mkT s []) i (mkC a (c_res c) (c_init c ++ [(s, v)]) (c_prog c))
  | GOp o =>
      if i =? out_idx then Some (mkC (c_al c) (c_res c ++ [mkT out_slot []]) (c_init c) (c_prog c ++ [IOp o ins out_slot]))
      else let? r := alloc_slot i (g_ty n) (c_al c) in
           Some (mkC (snd r) (c_res c ++ [mkT (fst r) []]) (c_init c) (c_prog c ++ [IOp o ins (fst r)]))
  | GPerm o =>
      if i =? out_idx then Some (mkC (c_al c) (c_res c ++ [mkT out_slot []]) (c_init c) (c_prog c ++ [IOp o ins out_slot]))
      else let '(s, a) := alloc_permanent (g_ty n) (c_al c) in
           Some (mkC a (c_res c ++ [mkT s []]) (c_init c) (c_prog c ++ [IOp o ins s]))
  | GView p =>
      match ins, g_deps n with
      | [s], [d] => maybe_copy i (mkT (t_slot s) (t_path s ++ [p])) d c
      | _, _ => None
      end
  | GRoot =>
      let? s := rd ins 0 in
      if tslot_eqb s (mkT out_slot []) then Some (mkC (c_al c) (c_res c ++ [s]) (c_init c) (c_prog c)) else None
  end.
(** 120-145, one node *)
Definition bind_node (i : nat) (n : gnode) (c : cst) : option cst :=
  let? ins := rds (c_res c) (g_deps n) in
  let? c := construct i n ins c in
  let? a := release i (g_deps n) (c_al c) in
  Some (mkC a (c_res c) (c_init c) (c_prog c)).
(** 463-472 *)
Fixpoint bind_loop (i : nat) (nodes : list gnode) (c : cst) : option cst :=
  match nodes with
  | [] => Some c
  | n :: t => let? c := bind_node i n c in bind_loop (S i) t c
  end.
End Bind.
(** 433-480 [BindToExecutableBuilder] *)
Definition bind_all (nodes : list gnode) (inputs : list (list nat * nat)) (layout : list nat) (reuse : bool) (out_idx out_slot : nat) : option cst :=
  let? a := new_alloc nodes inputs layout reuse in
  let? c := bind_loop inputs out_idx out_slot 0 nodes (mkC a [] [] []) in
  let? s := rd (c_res c) (length nodes - 1) in
  if tslot_eqb s (mkT out_slot []) then Some c else None.

(** ** Running *)
Section Run.
Context {V : Type}.
Variable lit : nat -> V.
Variable opf : nat -> list V -> V.
Variable proj : nat -> V -> V.
Definition frame := nat -> V.
Definition put (fr : frame) (s : nat) (v : V) : frame := fun s' => if s' =? s then v else fr s'.
Definition view (path : list nat) (v : V) : V := fold_left (fun v p => proj p v) path v.
Definition read (fr : frame) (s : tslot) : V := view (t_path s) (fr (t_slot s)).
(** executable_builder.cc:235-250 *)
Definition init_frame (l : list (nat * nat)) (fr : frame) : frame := fold_left (fun fr sv => put fr (fst sv) (lit (snd sv))) l fr.
Definition exec1 (fr : frame) (i : instr) : frame :=
  match i with
  | IOp o ins out => put fr out (opf o (map (read fr) ins))
  | ICopy s out => put fr out (read fr s)
  end.
(** RunBoundOperators, without errors *)
Definition exec (prog : list instr) (fr : frame) : frame := fold_left exec1 prog fr.
End Run.

(** ** Compiling an expression *)
(** How an operator is compiled (dynamic_compiled_expr.cc:186-272), and what it does *)
Inductive opclass := CPlain | CView | CRoot.
Section Compile.
Variable cls : nat -> opclass.
Variable ty : node -> nat.
(** Placeholders are not supported, 237-239 *)
Definition kind_of (n : node) : option gkind :=
  match n with
  | Lit v => Some (GLit v)
  | Leaf k => Some (GLeaf k)
  | Plh _ => None
  | Op o _ _ => Some (match cls o with CPlain => GOp o | CView => GView o | CRoot => GRoot end)
  end.
Fixpoint gnodes (p : porder) (i : nat) (ns : list node) : option (list gnode) :=
  match ns with
  | [] => Some []
  | n :: t => let? k := kind_of n in
              let? ds := dep_indices p i in
              let? r := gnodes p (S i) t in
              Some (mkG k (ty n) ds :: r)
  end.
(** 441-448 *)
Definition output_expr (root : node) : option node :=
  match root with
  | Op o _ ds => match cls o with CRoot => rd ds 0 | _ => Some root end
  | _ => Some root
  end.
(** 433-480 *)
Definition compile (root : node) (inputs : list (list nat * nat)) (layout : list nat) (reuse : bool) (out_slot : nat) : option cst :=
  let? e := output_expr root in
  let? p := post_order root in
  let? gs := gnodes p 0 (p_nodes p) in
  let? out := node_index p e in
  bind_all gs inputs layout reuse out out_slot.
End Compile.
