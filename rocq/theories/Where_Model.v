(** Model of arolla/expr/eval/compile_where_operator.cc (WhereOperatorGlobalTransformation
    and what it calls), expr_utils.cc (ExtractLambda), and of the evaluation of compiled
    expressions that contain internal.packed_where.  The given expression is one of
    Visit_Model; all its operators are lowered, so that core._short_circuit_where is the
    backend operator.  Comparing fingerprints is comparing trees.  Types are taken to be
    known and right (VerifyArgQTypes succeeds) and attributes are kept, since the new nodes
    have the types of the old ones; there are no annotations.  [None]: access out of bounds
    or to a missing key (DCHECKs are off), or a loop that does not end. *)
From Verif Require Import Base Visit_Model Cfg_Model.

(** Expressions after the transformation.  [XArg i]: parameter of a lambda, the placeholder
    with key "_i".  [XPack]: a node of internal.packed_where with the bodies of both
    lambdas and the number of parameters of the first, compile_where_operator.h:39-66 *)
Inductive ex := XLit (v : nat) | XLeaf (k : list nat) | XPlh (k : list nat) | XArg (i : nat)
  | XOp (o : nat) (a : attr) (ds : list ex) | XPack (a : attr) (t f : ex) (nt : nat) (ds : list ex).
Definition xdeps (x : ex) : list ex := match x with XOp _ _ ds => ds | XPack _ _ _ _ ds => ds | _ => [] end.
(** WithNewDependencies *)
Definition xwith (x : ex) (ds : list ex) : ex :=
  match x with XOp o a _ => XOp o a ds | XPack a t f n _ => XPack a t f n ds | _ => x end.
Fixpoint ex_eqb (x y : ex) {struct x} : bool :=
  match x, y with
  | XLit v, XLit w => v =? w
  | XLeaf k, XLeaf l => leqb Nat.eqb k l
  | XPlh k, XPlh l => leqb Nat.eqb k l
  | XArg i, XArg j => i =? j
  | XOp o a ds, XOp p b es => (o =? p) && attr_eqb a b && leqb ex_eqb ds es
  | XPack a t f n ds, XPack b u g m es => attr_eqb a b && ex_eqb t u && ex_eqb f g && (n =? m) && leqb ex_eqb ds es
  | _, _ => false
  end.
Fixpoint xsize (x : ex) : nat :=
  match x with XOp _ _ ds => S (list_sum (map xsize ds)) | XPack _ _ _ _ ds => S (list_sum (map xsize ds)) | _ => 1 end.
(** The given nodes among the new ones *)
Fixpoint inj (n : node) : ex :=
  match n with Lit v => XLit v | Leaf k => XLeaf k | Plh k => XPlh k | Op o a ds => XOp o a (map inj ds) end.

Fixpoint xlook {A} (l : list (ex * A)) (x : ex) : option A :=
  match l with [] => None | (k, v) :: t => if ex_eqb k x then Some v else xlook t x end.
Definition xmem (x : ex) (l : list ex) : bool := existsb (fun y => ex_eqb y x) l.
(** flat_hash_map::emplace: a key that is present keeps its value *)
Definition xemplace {A} (l : list (ex * A)) (x : ex) (v : A) : list (ex * A) :=
  match xlook l x with Some _ => l | None => l ++ [(x, v)] end.

(** ** expr_utils.cc *)
Section Extract.
Variable p : ex -> option bool.
Fixpoint xlooks (l : list (ex * ex)) (xs : list ex) : option (list ex) :=
  match xs with [] => Some [] | x :: t => let? y := xlook l x in let? ys := xlooks l t in Some (y :: ys) end.
(** expr_utils.cc:58-104; tasks, [true] for kPostorder, the top first *)
Fixpoint extract_loop (fuel : nat) (tasks : list (bool * ex)) (pre : list ex) (new : list (ex * ex)) (args : list ex) : option (list (ex * ex) * list ex) :=
  match tasks with
  | [] => Some (new, args)
  | (post, x) :: ts =>
      match fuel with
      | O => None
      | S fu =>
          if post then
            let? ds := xlooks new (xdeps x) in
            extract_loop fu ts pre (xemplace new x (xwith x ds)) args
          else if xmem x pre then extract_loop fu ts pre new args
          else
            let? b := p x in
            if b then extract_loop fu (map (pair false) (xdeps x) ++ (true, x) :: ts) (x :: pre) new args
            else match xlook new x with
                 | Some _ => extract_loop fu ts (x :: pre) new args
                 | None => extract_loop fu ts (x :: pre) (xemplace new x (XArg (length args))) (args ++ [x])
                 end
      end
  end.
(** expr_utils.cc:38-114 [ExtractLambda]: the body and the arguments *)
Definition extract (x : ex) : option (ex * list ex) :=
  let? r := extract_loop (2 * xsize x) [(false, x)] [] [] [] in
  let? y := xlook (fst r) x in Some (y, snd r).
End Extract.

(** ** compile_where_operator.cc *)
(** 66-148 [ExprDominatorTree] *)
Record dtree := mkDT { t_g : cfg; t_ts : list info; t_ids : list (ex * nat) }.
(** 74-82 *)
Fixpoint build_deps (p : porder) (n : nat) (ds : list (list Z)) (i cnt : nat) : option (list (list Z)) :=
  match cnt with
  | O => Some ds
  | S c => let? is := dep_indices p i in
           let? ds := upd ds (n - 1 - i) (map (fun j => Z.of_nat (n - 1 - j)) is) in
           build_deps p n ds (S i) c
  end.
Inductive werr := WArity | WCfg (e : cerr).
(** 69-87 [Build] *)
Definition build (p : porder) : option (werr + dtree) :=
  let n := length (p_nodes p) in
  let? ds := build_deps p n (repeat [] n) 0 n in
  let? r := create ds in
  match r with
  | inr e => Some (inl (WCfg e))
  | inl g => let? ts := tree g in
             Some (inr (mkDT g ts (combine (map inj (p_nodes p)) (seq 0 n))))
  end.
(** 132-137 [GetNodeId] *)
Definition get_id (d : dtree) (x : ex) : option nat :=
  let? i := xlook (t_ids d) x in Some (length (g_deps (t_g d)) - 1 - i).
(** 92-97 [StrictlyDominates] *)
Definition sdom (d : dtree) (x b : ex) : option bool :=
  let? i := get_id d x in
  let? j := get_id d b in
  let? ii := rd (t_ts d) i in
  let? ij := rd (t_ts d) j in
  Some (i_dep ij <? i_dep ii).
(** 102-105 [HasSingleParentInExprDag] *)
Definition single (d : dtree) (x : ex) : option bool :=
  let? i := get_id d x in
  let? r := rd (g_rev (t_g d)) i in
  Some (length r =? 1).
(** 109-119 [AddNodeAlias] *)
Definition alias (d : dtree) (new old : ex) : option dtree :=
  let? i := xlook (t_ids d) old in
  Some (mkDT (t_g d) (t_ts d) (xemplace (t_ids d) new i)).
(** 254-284 [must_be_short_circuited] *)
Definition must (d : dtree) (b x : ex) : option bool :=
  match x with
  | XLeaf _ => Some false
  | XLit _ => Some false
  | _ => if ex_eqb x b then single d x else sdom d x b
  end.

Section Where.
(** core._short_circuit_where and core.where *)
Variables scw where_op : nat.
(** 231-365 [WhereOperatorTransformationImpl] *)
Definition where_impl (d : dtree) (x : ex) : option (werr + ex) :=
  match x with
  | XOp o a ds =>
      if o =? scw then
        match ds with
        | [c; t; f] =>
            let? pt := must d t t in
            let? pf := must d f f in
            if negb pt && negb pf then Some (inr (XOp where_op a [c; t; f])) else
            let? lt := extract (must d t) t in
            let? lf := extract (must d f) f in
            Some (inr (XPack a (fst lt) (fst lf) (length (snd lt)) (c :: snd lt ++ snd lf)))
        | _ => Some (inl WArity)
        end
      else Some (inr x)
  | _ => Some (inr x)
  end.
(** 387-411, the visits of PostOrderTraverse (expr_visitor.h:176-209) from node [i] on *)
Fixpoint where_loop (p : porder) (d : dtree) (rs : list ex) (i cnt : nat) : option (werr + list ex) :=
  match cnt with
  | O => Some (inr rs)
  | S c =>
      let? n := rd (p_nodes p) i in
      let? is := dep_indices p i in
      let? xs := rds rs is in
      let? r := where_impl d (xwith (inj n) xs) in
      match r with
      | inl e => Some (inl e)
      | inr x => let? d := alias d x (inj n) in where_loop p d (rs ++ [x]) (S i) c
      end
  end.
Definition is_scw (n : node) : bool := match n with Op o _ _ => o =? scw | _ => false end.
(** 367-412 [WhereOperatorGlobalTransformation] *)
Definition where_transform (root : node) : option (werr + ex) :=
  let? p := post_order root in
  if existsb is_scw (p_nodes p) then
    let? b := build p in
    match b with
    | inl e => Some (inl e)
    | inr d =>
        let? r := where_loop p d [] 0 (length (p_nodes p)) in
        match r with
        | inl e => Some (inl e)
        | inr rs => let? x := rd rs (length (p_nodes p) - 1) in Some (inr x)
        end
    end
  else Some (inr (inj root)).
End Where.

(** ** Evaluation of compiled expressions *)
Fixpoint all_some {A} (l : list (option A)) : option (list A) :=
  match l with [] => Some [] | x :: t => let? v := x in let? r := all_some t in Some (v :: r) end.
Section Eval.
Context {D : Type}.
(** Values of literals and inputs, operators which may report an error, and the flag of an
    OptionalUnit *)
Variable lit : nat -> D.
Variable env : list nat -> D.
Variable sem : nat -> list D -> option D.
Variable present : D -> bool.
(** Every node of the expression is evaluated, dependencies first; for internal.packed_where
    one of the two programs is run on its part of the arguments
    (compile_where_operator.cc:414-451; see C60 for the jumps).  [None]: an error. *)
Fixpoint run (args : list D) (x : ex) : option D :=
  match x with
  | XLit v => Some (lit v)
  | XLeaf k => Some (env k)
  | XPlh _ => None
  | XArg i => rd args i
  | XOp o _ ds => let? vs := all_some (map (run args) ds) in sem o vs
  | XPack _ t f nt ds =>
      let? vs := all_some (map (run args) ds) in
      match vs with
      | [] => None
      | c :: r => if present c then run (firstn nt r) t else run (skipn nt r) f
      end
  end.
End Eval.
