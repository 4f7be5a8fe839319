(** Model of operators that are chosen, or allowed, by the types of their inputs:
    arolla/expr/operator_loader/{helper,qtype_inference,dispatch_operator,
    restricted_lambda_operator}.cc, of qexpr/operators/bootstrap/qtype_operator.cc
    (qtype._parse_input_qtype_sequence) and of expr/overloaded_expr_operator.cc.
    Types are numbers, 0 is NOTHING.  An expression about types is compiled and executed in the
    code; here it is evaluated, [I] being the evaluation of its operators: a value or an error.
    The static types of such expressions, the texts of errors (parameter_qtypes.cc), names, docs
    and fingerprints are left out.  [None]: a value that does not have the type it is read
    with, access out of bounds or a failed DCHECK. *)
From Verif Require Import Base Visit_Model Lambda_Model.

(** TypedValue: a QType, an OptionalUnit, a sequence of QTypes, another value *)
Inductive val := VT (t : nat) | VU (b : bool) | VS (l : list nat) | VO (x : nat).
(** expr_node.h: the expressions given by the author of an operator *)
Inductive ex := XLit (v : val) | XLeaf (k : key) | XPar (k : key) | XOp (o : nat) (ds : list ex).
(** qtype_operator.cc:244-278: characters of a signature pattern, p P v V *)
Inductive pc := Cp | CP | Cv | CV.
(** The expressions after ResolvePlaceholders.  [RField pat j] is GetNth(j) of
    qtype._parse_input_qtype_sequence(pat, L.input_qtype_sequence). *)
Inductive rx := RLit (v : val) | RSeq | RField (pat : list pc) (j : nat) | ROp (o : nat) (ds : list rx).

(** "input_qtype_sequence" *)
Definition seq_key : key := [105;110;112;117;116;95;113;116;121;112;101;95;115;101;113;117;101;110;99;101].
(** helper.cc:70-80: the keys met in the expression *)
Fixpoint leaves (e : ex) : list key :=
  match e with XLeaf k => [k] | XOp _ ds => flat_map leaves ds | _ => [] end.
Fixpoint plhs (e : ex) : list key :=
  match e with XPar k => [k] | XOp _ ds => flat_map plhs ds | _ => [] end.

Inductive rerr := UnexpectedLeaves | UnexpectedPlaceholders.
(** helper.cc:69-105 [CheckExpr] *)
Definition check_expr (s : sig) (e : ex) : option rerr :=
  if existsb (fun k => negb (key_eqb k seq_key)) (leaves e) then Some UnexpectedLeaves else
  if existsb (fun k => negb (existsb (key_eqb k) (s_names s))) (plhs e) then Some UnexpectedPlaceholders else None.
(** helper.cc:123-134: the last parameter is the variadic one, if any *)
Fixpoint pattern (var : bool) (used names : list key) : list pc :=
  match names with
  | [] => []
  | k :: t => let u := existsb (key_eqb k) used in
              (if var && (length t =? 0) then if u then CV else Cv else if u then CP else Cp) :: pattern var used t
  end.
(** helper.cc:143-153: the field under which a parameter is found; the last one written *)
Fixpoint field_of (used names : list key) (j : nat) (k : key) : option nat :=
  match names with
  | [] => None
  | x :: t => if existsb (key_eqb x) used
              then match field_of used t (S j) k with
                   | Some i => Some i
                   | None => if key_eqb x k then Some j else None
                   end
              else field_of used t j k
  end.
(** helper.cc:154-173; by C34, TransformOnPostOrder replaces at every occurrence *)
Fixpoint replace (pat : list pc) (fld : key -> option nat) (e : ex) : option rx :=
  match e with
  | XLit v => Some (RLit v)
  | XLeaf k => if key_eqb k seq_key then Some RSeq else None
  | XPar k => let? j := fld k in Some (RField pat j)
  | XOp o ds =>
      let? rs := (fix go (l : list ex) : option (list rx) :=
                    match l with
                    | [] => Some []
                    | d :: t => let? r := replace pat fld d in let? rs := go t in Some (r :: rs)
                    end) ds in
      Some (ROp o rs)
  end.
(** helper.cc:109-195 [ResolvePlaceholders]: the expression and its readiness *)
Definition resolve (s : sig) (e : ex) : option (rerr + rx * rx) :=
  match check_expr s e with
  | Some err => Some (inl err)
  | None => let used := plhs e in
            let pat := pattern (s_variadic s) used (s_names s) in
            let? r := replace pat (field_of used (s_names s) 1) e in
            Some (inr (r, RField pat 0))
  end.

Section Run.
Context {E : Type}.
Variable I : nat -> list val -> E + val.
(** MakeTupleQType *)
Variable tuple_type : list nat -> nat.

(** qtype_operator.cc:250-279: whether to go on, the inputs left, the outputs written *)
Fixpoint parse_loop (pat : list pc) (inputs outs : list nat) : bool * list nat * list nat :=
  match pat with
  | [] => (true, inputs, outs)
  | Cp :: t => match inputs with [] => (false, inputs, outs) | _ :: r => parse_loop t r outs end
  | CP :: t => match inputs with
               | [] => (false, inputs, outs)
               | x :: r => if x =? 0 then (false, inputs, outs) else parse_loop t r (outs ++ [x])
               end
  | Cv :: t => parse_loop t [] outs
  | CV :: t => if existsb (Nat.eqb 0) inputs then (false, inputs, outs)
               else parse_loop t [] (outs ++ [tuple_type inputs])
  end.
(** bootstrap_operators.cc:895-905, without the field of readiness *)
Definition field_count (pat : list pc) : nat :=
  length (filter (fun c => match c with CP | CV => true | _ => false end) pat).
(** qtype_operator.cc:229-292 *)
Definition parse (pat : list pc) (seq : list nat) : bool * list nat :=
  let n := field_count pat in
  match parse_loop pat seq [] with
  | (ok, inputs, outs) =>
      if ok && (length inputs =? 0) then (true, firstn n outs ++ repeat 0 (n - length outs)) else (false, repeat 0 n)
  end.
(** The executor: the first error is the result. *)
Fixpoint run (seq : list nat) (r : rx) : option (E + val) :=
  match r with
  | RLit v => Some (inr v)
  | RSeq => Some (inr (VS seq))
  | RField pat 0 => Some (inr (VU (fst (parse pat seq))))
  | RField pat (S i) => let? t := rd (snd (parse pat seq)) i in Some (inr (VT t))
  | ROp o ds =>
      let? vs := (fix go (l : list rx) : option (E + list val) :=
                    match l with
                    | [] => Some (inr [])
                    | d :: t => let? v := run seq d in
                                match v with
                                | inl e => Some (inl e)
                                | inr v => let? vs := go t in
                                           Some (match vs with inl e => inl e | inr vs => inr (v :: vs) end)
                                end
                    end) ds in
      Some (match vs with inl e => inl e | inr vs => I o vs end)
  end.
(** the fields of a core.make_tuple *)
Fixpoint run_all (seq : list nat) (l : list rx) : option (E + list val) :=
  match l with
  | [] => Some (inr [])
  | d :: t => let? v := run seq d in
              match v with
              | inl e => Some (inl e)
              | inr v => let? vs := run_all seq t in
                         Some (match vs with inl e => inl e | inr vs => inr (v :: vs) end)
              end
  end.
(** UnsafeAs<OptionalUnit>, UnsafeAs<QTypePtr> *)
Definition as_unit (v : val) : option bool := match v with VU b => Some b | _ => None end.
Definition as_type (v : val) : option nat := match v with VT t => Some t | _ => None end.

(** qtype_inference.cc:62-72 *)
Fixpoint prepare_constraints (s : sig) (cs : list ex) : option (rerr + list rx) :=
  match cs with
  | [] => Some (inr [])
  | c :: t => let? a := resolve s c in
              match a with
              | inl e => Some (inl e)
              | inr (r, rdy) => let? rest := prepare_constraints s t in
                               Some (match rest with inl e => inl e | inr l => inr (rdy :: r :: l) end)
              end
  end.
(** 56-83 [PrepareQTypeInferenceExpr] *)
Definition prepare_inference (s : sig) (cs : list ex) (out : ex) : option (rerr + list rx) :=
  let? a := prepare_constraints s cs in
  match a with
  | inl e => Some (inl e)
  | inr l => let? b := resolve s out in
             Some (match b with inl e => inl e | inr (r, rdy) => inr (l ++ [rdy; r]) end)
  end.
Inductive ierr := EvalError (e : E) | Unsatisfied (i : nat) | NoOutput.
(** 109-127: [cnt] constraints to look at from number [i] *)
Fixpoint constraint_loop (vs : list val) (cnt i : nat) (all_ready : bool) : option (ierr + bool) :=
  match cnt with
  | O => Some (inr all_ready)
  | S cnt =>
      let? v := rd vs (2 * i) in
      let? ready := as_unit v in
      if negb ready then constraint_loop vs cnt (S i) false else
      let? v := rd vs (2 * i + 1) in
      let? sat := as_unit v in
      if negb sat then Some (inl (Unsatisfied i)) else constraint_loop vs cnt (S i) all_ready
  end.
(** 103-144 [QTypeInferenceFn]; a type that is not known is [None] *)
Definition infer_type (n : nat) (prepared : list rx) (seq : list nat) : option (ierr + option nat) :=
  let? res := run_all seq prepared in
  match res with
  | inl e => Some (inl (EvalError e))
  | inr vs =>
      let? a := constraint_loop vs n 0 true in
      match a with
      | inl e => Some (inl e)
      | inr all_ready =>
          let? ready := (if all_ready then let? v := rd vs (2 * n) in as_unit v else Some false) in
          if negb ready then Some (inr None) else
          let? v := rd vs (2 * n + 1) in
          let? t := as_type v in
          Some (if t =? 0 then inl NoOutput else inr (Some t))
      end
  end.

(** dispatch_operator.cc:76-89 *)
Fixpoint verify_conditions (s : sig) (cs : list ex) : option (option rerr) :=
  match cs with
  | [] => Some None
  | c :: t => let? a := resolve s c in
              match a with inl e => Some (Some e) | inr _ => verify_conditions s t end
  end.
(** 71-104 [PrepareDispatchExpr]; operator 0 stands for core.make_tuple, which is taken off again *)
Definition prepare_dispatch (s : sig) (cs : list ex) : option (rerr + list rx) :=
  let? bad := verify_conditions s cs in
  match bad with
  | Some e => Some (inl e)
  | None => let? a := resolve s (XOp 0 cs) in
            match a with
            | inl e => Some (inl e)
            | inr (ROp _ rs, rdy) => Some (inr (rdy :: rs))
            | inr _ => None
            end
  end.
Inductive gerr := GEval (e : E) | Multiple (first : nat) (others : list nat) | NoOverload.
(** 235-241 *)
Fixpoint first_match (vs : list val) (cnt i : nat) : option (option nat) :=
  match cnt with
  | O => Some None
  | S cnt => let? v := rd vs (S i) in
              let? b := as_unit v in
              if b then Some (Some i) else first_match vs cnt (S i)
  end.
(** 242-247 *)
Fixpoint other_matches (vs : list val) (cnt i : nat) : option (list nat) :=
  match cnt with
  | O => Some []
  | S cnt => let? v := rd vs (S i) in
              let? b := as_unit v in
              let? rest := other_matches vs cnt (S i) in
              Some (if b then i :: rest else rest)
  end.
(** 225-260 [GetOverload]; [total] counts the default operator, which is the last one.  The
    number of the overload; [None]: not known yet *)
Definition get_overload (total : nat) (prepared : list rx) (seq : list nat) : option (gerr + option nat) :=
  let? res := run_all seq prepared in
  match res with
  | inl e => Some (inl (GEval e))
  | inr vs =>
      let n := length vs - 1 in
      let? v := rd vs 0 in
      let? ready := as_unit v in
      if negb ready then Some (inr None) else
      let? m := first_match vs n 0 in
      let first := match m with Some i => i | None => n end in
      let? others := other_matches vs (n - S first) (S first) in
      match others with
      | _ :: _ => Some (inl (Multiple first others))
      | [] => Some (if first <? total then inr (Some first) else inl NoOverload)
      end
  end.

(** Operators built on these functions.  [infer] and [lower] are the InferAttributes and the
    ToLowerLevel of other operators. *)
Variable type_of : nat -> nat.
(** absl::StatusCode: InvalidArgument, or another one *)
Inductive oerr := Invalid | Other (x : nat).
Variable infer : nat -> list attr -> oerr + attr.
Variable lower : nat -> node -> option (oerr + node).

(** helper.cc:197-225 [MakeInputQTypeSequence]; [None]: an input of type NOTHING *)
Fixpoint type_sequence (l : list attr) : option (list nat) :=
  match l with
  | [] => Some []
  | a :: t =>
      match qtype type_of a with
      | Some 0 => None
      | o => let? r := type_sequence t in Some (match o with Some x => x | None => 0 end :: r)
      end
  end.
Inductive derr := WrongCount | NothingInput | Infer (e : ierr) | Pick (e : gerr) | Inner (e : oerr).

(** dispatch_operator.cc:144-161: the operators of the overloads and the default one *)
Record dispatch := mkD { d_sig : sig; d_ops : list nat; d_prep : list rx }.
(** 163-186 [InferAttributes] *)
Definition dispatch_infer (d : dispatch) (l : list attr) : option (derr + attr) :=
  if negb (count_ok (d_sig d) (length l)) then Some (inl WrongCount) else
  match type_sequence l with
  | None => Some (inl NothingInput)
  | Some seq =>
      let? g := get_overload (length (d_ops d)) (d_prep d) seq in
      match g with
      | inl e => Some (inl (Pick e))
      | inr None => Some (inr ANone)
      | inr (Some i) => let? o := rd (d_ops d) i in
                        Some (match infer o l with inl e => inl (Inner e) | inr a => inr a end)
      end
  end.
(** 188-223 [ToLowerLevel] of a node with attribute [a] *)
Definition dispatch_lower (d : dispatch) (self : nat) (a : attr) (ds : list node) : option (derr + node) :=
  if negb (count_ok (d_sig d) (length ds)) then Some (inl WrongCount) else
  match qtype type_of a with
  | None => Some (inr (Op self a ds))
  | Some _ =>
      match type_sequence (map attr_of ds) with
      | None => Some (inl NothingInput)
      | Some seq =>
          let? g := get_overload (length (d_ops d)) (d_prep d) seq in
          match g with
          | inl e => Some (inl (Pick e))
          | inr None => Some (inr (Op self a ds))
          | inr (Some i) => let? o := rd (d_ops d) i in
                            let? r := lower o (Op o a ds) in
                            Some (match r with inl e => inl (Inner e) | inr m => inr m end)
          end
      end
  end.

(** restricted_lambda_operator.cc:102-112; [r_unit] is the type UNIT of the stub, 84-88 *)
Record restricted := mkR { r_sig : sig; r_base : nat; r_n : nat; r_prep : list rx }.
(** 56-100 [Make]: 60-81 is a check that MakeQTypeInferenceFn would make as well *)
Definition make_restricted (s : sig) (base unit_type : nat) (cs : list ex) : option (rerr + restricted) :=
  if existsb (fun k => negb (existsb (key_eqb k) (s_names s))) (flat_map plhs cs) then Some (inl UnexpectedPlaceholders) else
  let? p := prepare_inference s cs (XLit (VT unit_type)) in
  Some (match p with inl e => inl e | inr l => inr (mkR s base (length cs) l) end).
(** 123-138 [InferAttributes] *)
Definition restricted_infer (r : restricted) (l : list attr) : option (derr + attr) :=
  if negb (count_ok (r_sig r) (length l)) then Some (inl WrongCount) else
  match type_sequence l with
  | None => Some (inl NothingInput)
  | Some seq =>
      let? g := infer_type (r_n r) (r_prep r) seq in
      match g with
      | inl e => Some (inl (Infer e))
      | inr None => Some (inr ANone)
      | inr (Some _) => Some (match infer (r_base r) l with inl e => inl (Inner e) | inr a => inr a end)
      end
  end.

(** overloaded_expr_operator.cc:114-141 [LookupImpl]: the operator and the attribute *)
Fixpoint lookup (ops : list nat) (l : list attr) : oerr + option nat * attr :=
  match ops with
  | [] => inl Invalid
  | o :: t => match infer o l with
              | inl Invalid => lookup t l
              | inl e => inl e
              | inr a => match qtype type_of a with
                         | None => inr (None, ANone)
                         | Some _ => inr (Some o, a)
                         end
              end
  end.
(** 86-93 [InferAttributes] *)
Definition overloaded_infer (ops : list nat) (l : list attr) : oerr + attr :=
  match lookup ops l with inl e => inl e | inr (_, a) => inr a end.
(** 95-112 [ToLowerLevel] *)
Definition overloaded_lower (ops : list nat) (self : nat) (a : attr) (ds : list node) : oerr + node :=
  match lookup ops (map attr_of ds) with
  | inl e => inl e
  | inr (None, _) => inr (Op self a ds)
  | inr (Some o, a) => inr (Op o a ds)
  end.
End Run.
Arguments ierr : clear implicits.
Arguments gerr : clear implicits.
Arguments derr : clear implicits.
