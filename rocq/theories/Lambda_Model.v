(** Model of arolla/expr/lambda_expr_operator.cc and of ToLowerNode (expr/expr.cc), on the
    expressions of [Visit_Model].  Operators are numbers, [infer] is the InferAttributes of
    the operators in the body and in the arguments.  Of a signature the names are kept and
    whether the last parameter is variadic; the other checks of ValidateSignature are in
    [OpSig_Model].  Names of operators, docs, fingerprints and texts of errors are left out.
    [None]: access out of bounds, a read of an entry that was not set, or a failed DCHECK. *)
From Verif Require Import Base Visit_Model.

Notation key := (list nat).
Definition key_eqb : key -> key -> bool := leqb Nat.eqb.
Definition is_plh (n : node) : bool := match n with Plh _ => true | _ => false end.
Definition is_leaf (n : node) : bool := match n with Leaf _ => true | _ => false end.
Definition is_lit (n : node) : bool := match n with Lit _ => true | _ => false end.

Record sig := mkS { s_names : list key; s_variadic : bool }.
(** expr_operator_signature.cc:161-164 [HasVariadicParameter] *)
Definition variadic (s : sig) : bool := s_variadic s && negb (length (s_names s) =? 0).
(** 62-73, of [ValidateSignature] *)
Fixpoint unique_names (seen l : list key) : bool :=
  match l with [] => true | k :: t => negb (existsb (key_eqb k) seen) && unique_names (k :: seen) t end.
(** 205-220 [ValidateDepsCount] *)
Definition count_ok (s : sig) (n : nat) : bool :=
  let req := if variadic s then length (s_names s) - 1 else length (s_names s) in
  negb ((n <? req) || (negb (variadic s) && (req <? n))).

Inductive merr := BadSignature | LeafInBody | Internal | MissingParam (k : key) | NoPlaceholder | ManyPlaceholders (ks : list key).
(** lambda_expr_operator.cc:76-85; the placeholders of the model have no dependencies, 67-75 *)
Fixpoint plh_unique (seen : list key) (l : list node) : bool :=
  match l with
  | [] => true
  | Plh k :: t => negb (existsb (key_eqb k) seen) && plh_unique (k :: seen) t
  | _ :: t => plh_unique seen t
  end.
(** 59-87 [ValidateLambdaBody] *)
Definition validate_body (nodes : list node) : option merr :=
  if existsb is_leaf nodes then Some LeafInBody else
  if plh_unique [] nodes then None else Some Internal.
(** 136-153 *)
Fixpoint check_params (names : list key) (nodes : list node) : option merr :=
  match nodes with
  | [] => None
  | Plh k :: t => if existsb (key_eqb k) names then check_params names t else Some (MissingParam k)
  | _ :: t => check_params names t
  end.

Record lambda := mkL { l_sig : sig; l_body : porder; l_idx : list (option nat) }.
(** 172-176: the last index written under a name *)
Fixpoint param_index (names : list key) (i : nat) (k : key) : option nat :=
  match names with
  | [] => None
  | x :: t => match param_index t (S i) k with
              | Some j => Some j
              | None => if key_eqb x k then Some i else None
              end
  end.
(** 179-186 *)
Fixpoint put_indices (names : list key) (idx : list (option nat)) (i : nat) (nodes : list node) : option (list (option nat)) :=
  match nodes with
  | [] => Some idx
  | Plh k :: t => let? j := param_index names 0 k in
                  let? idx := upd idx j (Some i) in
                  put_indices names idx (S i) t
  | _ :: t => put_indices names idx (S i) t
  end.
(** 164-187, the constructor *)
Definition construct (s : sig) (p : porder) : option lambda :=
  let? idx := put_indices (s_names s) (repeat None (length (s_names s))) 0 (p_nodes p) in
  Some (mkL s p idx).
(** 128-162 [LambdaOperator::Make] *)
Definition make (s : sig) (body : node) : option (merr + lambda) :=
  if negb (unique_names [] (s_names s)) then Some (inl BadSignature) else
  let? p := post_order body in
  match validate_body (p_nodes p) with
  | Some e => Some (inl e)
  | None => match check_params (s_names s) (p_nodes p) with
            | Some e => Some (inl e)
            | None => let? l := construct s p in Some (inr l)
            end
  end.
(** 91-111 *)
Definition make_one (body : node) : option (merr + lambda) :=
  let? ks := get_keys plh_key body in
  match ks with
  | [] => Some (inl NoPlaceholder)
  | [k] => make (mkS [k] false) body
  | _ => Some (inl (ManyPlaceholders ks))
  end.

Fixpoint sequence {T} (l : list (option T)) : option (list T) :=
  match l with [] => Some [] | o :: t => let? x := o in let? r := sequence t in Some (x :: r) end.

Section Run.
Context {E T : Type}.
Inductive lerr := LCount | LErr (e : E).
Definition lift {X} (r : E + X) : lerr + X := match r with inl e => inl (LErr e) | inr x => inr x end.
(** 207-223 and 272-286: the entries of the parameters; [i] is the number of the first of [idx] *)
Fixpoint fill (vr : bool) (wrap : list T -> E + T) (idx : list (option nat)) (inputs : list T) (i : nat) (res : list (option T)) : option (lerr + list (option T)) :=
  match idx with
  | [] => Some (inr res)
  | [None] => Some (inr res)
  | [Some j] =>
      if vr then
        if length inputs <? i then None else
        match lift (wrap (skipn i inputs)) with
        | inl e => Some (inl e)
        | inr x => let? res := upd res j (Some x) in Some (inr res)
        end
      else
        let? x := rd inputs (length inputs - 1) in
        let? res := upd res j (Some x) in Some (inr res)
  | None :: t => fill vr wrap t inputs (S i) res
  | Some j :: t => let? x := rd inputs i in
                   let? res := upd res j (Some x) in
                   fill vr wrap t inputs (S i) res
  end.
(** The loops 224-264 and 288-306.  [step] is given the number of a node, the node, and the
    entries of its dependencies. *)
Variable step : nat -> node -> option (list T) -> option (E + T).
Fixpoint body_loop (p : porder) (res : list (option T)) (i cnt : nat) : option (lerr + list (option T)) :=
  match cnt with
  | O => Some (inr res)
  | S c =>
      let? n := rd (p_nodes p) i in
      if is_plh n then body_loop p res (S i) c else
      let? r := step i n (let? is := dep_indices p i in let? os := rds res is in sequence os) in
      match r with
      | inl e => Some (inl (LErr e))
      | inr x => let? res := upd res i (Some x) in body_loop p res (S i) c
      end
  end.
(** 203-266, 268-308 *)
Definition run (l : lambda) (wrap : list T -> E + T) (inputs : list T) : option (lerr + T) :=
  if negb (count_ok (l_sig l) (length inputs)) then Some (inl LCount) else
  let n := length (p_nodes (l_body l)) in
  let? r := fill (variadic (l_sig l)) wrap (l_idx l) inputs 0 (repeat None n) in
  match r with
  | inl e => Some (inl e)
  | inr res =>
      let? r := body_loop (l_body l) res 0 n in
      match r with
      | inl e => Some (inl e)
      | inr res => let? o := rd res (n - 1) in let? x := o in Some (inr x)
      end
  end.
End Run.
Arguments LCount {E}.
Arguments LErr {E} e.
Arguments lerr : clear implicits.

Section Lower.
Context {E : Type}.
Variable infer : nat -> list attr -> E + attr.
Variable bad : E.
(** MakeTupleOperator, the types of values, and MakeTupleQType *)
Variable tup : nat.
Variable type_of : nat -> nat.
Variable tuple_type : list nat -> nat.
(** expr_attributes.h, qtype() *)
Definition qtype (a : attr) : option nat := match a with ANone => None | AType t => Some t | AValue v => Some (type_of v) end.
(** tuple_expr_operator.cc:55-61 [StaticInferAttributes] *)
Definition tuple_attr (l : list attr) : attr :=
  match sequence (map qtype l) with None => ANone | Some ts => AType (tuple_type ts) end.
Definition is_empty (a : attr) : bool := match a with ANone => true | _ => false end.
(** expr_attributes.h:109-118 [IsSubsetOf] *)
Definition is_subset (a b : attr) : bool :=
  match a, b with
  | ANone, _ => true
  | AType t, _ => match qtype b with Some u => t =? u | None => false end
  | AValue v, AValue w => v =? w
  | AValue _, _ => false
  end.

(** 224-264; [cnt]: nodes_size().  Release mode: the check 247-259 is left out. *)
Definition lower_step (cnt : nat) (a : attr) (i : nat) (n : node) (args : option (list node)) : option (E + node) :=
  match n with
  | Lit _ => Some (inr n)
  | Op o _ _ =>
      let? ds := args in
      if (i + 1 <? cnt) || is_empty a then Some (with_new infer bad n ds)
      else Some (inr (Op o a ds))
  | _ => None
  end.
(** 203-266 [ToLowerLevel], for a node with attributes [a] and dependencies [inputs] *)
Definition to_lower (l : lambda) (a : attr) (inputs : list node) : option (lerr E + node) :=
  run (lower_step (length (p_nodes (l_body l))) a) l (make_op infer tup) inputs.
(** 288-306 *)
Definition infer_step (i : nat) (n : node) (args : option (list attr)) : option (E + attr) :=
  match attr_of n with
  | AValue v => Some (inr (AValue v))
  | _ => match n with
         | Op o _ _ => let? ds := args in Some (infer o ds)
         | _ => None
         end
  end.
(** 268-308 [InferAttributes] *)
Definition infer_lambda (l : lambda) (inputs : list attr) : option (lerr E + attr) :=
  run infer_step l (fun fs => inr (tuple_attr fs)) inputs.

Inductive werr := Lowering (e : lerr E) | AttrChanged (was is : attr).
(** expr.cc:47-65 [ToLowerNode], for a node of a lambda operator *)
Definition lower_node (l : lambda) (a : attr) (inputs : list node) : option (werr + node) :=
  let? r := to_lower l a inputs in
  match r with
  | inl e => Some (inl (Lowering e))
  | inr m => if is_subset a (attr_of m) then Some (inr m) else Some (inl (AttrChanged a (attr_of m)))
  end.
End Lower.
Arguments Lowering {E} e.
Arguments AttrChanged {E} was is.
