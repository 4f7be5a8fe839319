(** Model of arolla/expr/operators/while_loop/{while_loop,while_loop_impl}.cc and
    arolla/expr/eval/compile_while_operator.cc.
    Expressions are trees and are equal when their fingerprints are; a map is the
    list of its items in the order of iteration.  Operators are strict functions of
    the values of their arguments.  [None] is an error status. *)
From Verif Require Import Base Text_Model.

Definition key := list Z.
Definition key_dec : forall a b : key, {a = b} + {a <> b} := list_eq_dec Z.eq_dec.
(** The operators that the code itself uses: namedtuple.make with the given fields,
    core.get_nth, and core.cast(x, qtype.qtype_of(y), implicit_only=true) of [x], [y]. *)
Inductive oper := User (n : nat) | MakeTuple (fields : list key) | GetNth (i : nat) | CastLike.
Inductive expr := Leaf (k : key) | Plc (k : key) | Lit (n : nat) | Op (o : oper) (args : list expr).

Section ExprInd.
Variable Q : expr -> Prop.
Hypotheses (HL : forall k, Q (Leaf k)) (HP : forall k, Q (Plc k)) (HI : forall n, Q (Lit n))
  (HO : forall o args, Forall Q args -> Q (Op o args)).
Fixpoint expr_ind2 (e : expr) : Q e :=
  match e with
  | Leaf k => HL k | Plc k => HP k | Lit n => HI n
  | Op o args => HO o args ((fix go l : Forall Q l := match l with [] => Forall_nil Q | x :: t => Forall_cons x (expr_ind2 x) (go t) end) args)
  end.
End ExprInd.
Definition oper_dec (a b : oper) : {a = b} + {a <> b}.
Proof. decide equality; [apply Nat.eq_dec|apply (list_eq_dec key_dec)|apply Nat.eq_dec]. Defined.
Fixpoint expr_dec (a b : expr) : {a = b} + {a <> b}.
Proof.
  destruct a as [k|k|n|o l], b as [k'|k'|n'|o' l']; try (right; discriminate).
  - destruct (key_dec k k'); [left; congruence|right; congruence].
  - destruct (key_dec k k'); [left; congruence|right; congruence].
  - destruct (Nat.eq_dec n n'); [left; congruence|right; congruence].
  - destruct (oper_dec o o'); [|right; congruence]. destruct (list_eq_dec expr_dec l l'); [left; congruence|right; congruence].
Defined.

(** ** Values and operators of a program *)
Record lang := mkLang {
  T : Type; V : Type; ty : V -> T;
  lit : nat -> V;
  user : nat -> list V -> option V; user_ty : nat -> list T -> option T;
  pack : list key -> list V -> V; pack_ty : list key -> list T -> T; fields_ok : list key -> bool;
  nth_of : nat -> V -> option V; nth_ty : nat -> T -> option T;
  cast : T -> V -> option V; cast_ty : T -> T -> option T;
  truthy : V -> bool; cond_ty : T; ty_dec : forall a b : T, {a = b} + {a <> b} }.

Section MapOpt.
Context {A B : Type} (f : A -> option B).
Fixpoint map_opt (l : list A) : option (list B) :=
  match l with [] => Some [] | x :: t => let? y := f x in let? r := map_opt t in Some (y :: r) end.
End MapOpt.

Section Eval.
Variable G : lang.
(** Types of expressions: types of the leaves, of the placeholders. *)
Definition op_ty (o : oper) (ts : list (T G)) : option (T G) :=
  match o, ts with
  | User n, _ => user_ty G n ts
  | MakeTuple fs, _ => Some (pack_ty G fs ts)
  | GetNth i, [t] => nth_ty G i t
  | CastLike, [a; b] => cast_ty G b a
  | _, _ => None
  end.
Fixpoint ety (L P : key -> option (T G)) (e : expr) : option (T G) :=
  match e with
  | Leaf k => L k
  | Plc k => P k
  | Lit n => Some (ty G (lit G n))
  | Op o args => let? ts := map_opt (ety L P) args in op_ty o ts
  end.
Definition op_val (o : oper) (vs : list (V G)) : option (V G) :=
  match o, vs with
  | User n, _ => user G n vs
  | MakeTuple fs, _ => Some (pack G fs vs)
  | GetNth i, [v] => nth_of G i v
  | _, _ => None
  end.
Definition tys (E : key -> option (V G)) : key -> option (T G) := fun k => option_map (ty G) (E k).
(** Values of expressions; the type of an expression does not need its value.
    [LT], [PT]: the types of the leaves and placeholders. *)
Fixpoint eval (LT PT : key -> option (T G)) (L P : key -> option (V G)) (e : expr) : option (V G) :=
  match e with
  | Leaf k => L k
  | Plc k => P k
  | Lit n => Some (lit G n)
  | Op CastLike args =>
      match args with
      | [a; b] => let? v := eval LT PT L P a in let? t := ety LT PT b in cast G t v
      | _ => None
      end
  | Op o args => let? vs := map_opt (eval LT PT L P) args in op_val o vs
  end.
End Eval.
Arguments ety {G}. Arguments eval {G}. Arguments tys {G}.

(** ** while_loop_impl.cc:40-107 [ExtractImmutables]
    The naming function of while_loop.cc:151-161 numbers the expressions in the
    order of its calls: [ns] are the expressions named so far.  The traversal of the
    code visits a shared node once; visiting it again would not change anything. *)
Fixpoint index_of (e : expr) (ns : list expr) : option nat :=
  match ns with [] => None | x :: t => if expr_dec x e then Some 0 else option_map S (index_of e t) end.
(** "_while_loop_immutable" *)
Definition imm_prefix : key := [95; 119; 104; 105; 108; 101; 95; 108; 111; 111; 112; 95; 105; 109; 109; 117; 116; 97; 98; 108; 101]%Z.
Definition imm_name (i : nat) : key := imm_prefix ++ 95%Z :: as_text (Z.of_nat i).
Definition name_of (e : expr) (ns : list expr) : key * list expr :=
  match index_of e ns with
  | Some i => (imm_name i, ns)
  | None => (imm_name (length ns), ns ++ [e])
  end.
Record visit := mkVisit { v_expr : expr; v_plc : bool; v_leaf : bool }.
Definition items := list (key * expr).
Definition get {A} (m : list (key * A)) (k : key) : option A :=
  option_map snd (List.find (fun c => if key_dec (fst c) k then true else false) m).
Definition keys {A} (m : list (key * A)) : list key := map fst m.
(** emplace *)
Definition emplace {A} (m : list (key * A)) (k : key) (x : A) : list (key * A) := match get m k with Some _ => m | None => m ++ [(k, x)] end.
(** 81-91 *)
Fixpoint new_deps (vs : list visit) (ns : list expr) (im : items) : list expr * list expr * items :=
  match vs with
  | [] => ([], ns, im)
  | v :: t =>
      if v_plc v || negb (v_leaf v) then
        let '(ds, ns, im) := new_deps t ns im in (v_expr v :: ds, ns, im)
      else
        let '(k, ns) := name_of (v_expr v) ns in
        let '(ds, ns, im) := new_deps t ns (emplace im k (v_expr v)) in (Plc k :: ds, ns, im)
  end.
Fixpoint visit_node (e : expr) (ns : list expr) (im : items) : visit * list expr * items :=
  match e with
  | Plc _ => (mkVisit e true false, ns, im)
  | Leaf _ => (mkVisit e false true, ns, im)
  | Lit _ => (mkVisit e false false, ns, im)
  | Op o args =>
      let '(vs, ns, im) := (fix go l ns im := match l with
        | [] => ([], ns, im)
        | x :: t => let '(v, ns, im) := visit_node x ns im in let '(vs, ns, im) := go t ns im in (v :: vs, ns, im)
        end) args ns im in
      let hp := existsb v_plc vs in
      let hl := existsb v_leaf vs in
      if negb hp then (mkVisit e false hl, ns, im) else
      let '(ds, ns, im) := new_deps vs ns im in
      (mkVisit (Op o ds) true hl, ns, im)
  end.
Definition extract (e : expr) (ns : list expr) : expr * items * list expr :=
  let '(v, ns, im) := visit_node e ns [] in
  if v_plc v then (v_expr v, im, ns)
  else let '(k, ns) := name_of (v_expr v) ns in (Plc k, emplace im k (v_expr v), ns).

(** ** while_loop.cc *)
(** flat_hash_map::merge: adds the items with new keys *)
Definition merge (m1 m2 : items) : items := m1 ++ filter (fun c => match get m1 (fst c) with Some _ => false | None => true end) m2.
Fixpoint starts_with (p s : key) : bool :=
  match p, s with [], _ => true | x :: p, y :: s => (x =? y)%Z && starts_with p s | _, [] => false end.
(** 137-178 [MoveImmutablesIntoInitialState] *)
Fixpoint move_body (init body : items) (ns : list expr) : items * items * list expr :=
  match body with
  | [] => (init, [], ns)
  | (k, e) :: t =>
      let '(e', im, ns) := extract e ns in
      let '(init, body', ns) := move_body (merge init im) t ns in
      (init, (k, e') :: body', ns)
  end.
Definition move_immutables (init : items) (cond : expr) (body : items) : option (items * expr * items) :=
  if existsb (fun c => starts_with imm_prefix (fst c)) body then None else
  let '(init, body, ns) := move_body init body [] in
  let '(cond, im, _) := extract cond ns in
  Some (merge init im, cond, body).
(** std::sort *)
Fixpoint kle (a b : key) : bool :=
  match a, b with [], _ => true | _ :: _, [] => false | x :: a, y :: b => if (x =? y)%Z then kle a b else (x <? y)%Z end.
Fixpoint insert (k : key) (l : list key) : list key :=
  match l with [] => [k] | x :: t => if kle k x then k :: l else x :: insert k t end.
Fixpoint sort_keys (l : list key) : list key := match l with [] => [] | x :: t => insert x (sort_keys t) end.
(** 75-84 [ExpressionNames] *)
Definition names_of (m : items) : list key := sort_keys (keys m).
Definition memk (k : key) (l : list key) : bool := existsb (fun x => if key_dec x k then true else false) l.
(** [GetPlaceholderKeys], with repetitions *)
Fixpoint plcs (e : expr) : list key :=
  match e with Plc k => [k] | Op _ args => flat_map plcs args | _ => [] end.
Fixpoint leaves (e : expr) : list key :=
  match e with Leaf k => [k] | Op _ args => flat_map leaves args | _ => [] end.
(** 182-195 [CheckAllStateFieldsAreInitialized] *)
Definition check_init (all requested : list key) : bool := forallb (fun k => memk k all) requested.
(** substitution.cc:87-107 [SubstitutePlaceholders] *)
Fixpoint subst (all : bool) (s : items) (e : expr) : option expr :=
  match e with
  | Plc k => match get s k with Some x => Some x | None => if all then None else Some e end
  | Op o args => let? l := map_opt (subst all s) args in Some (Op o l)
  | _ => Some e
  end.
(** 118-132 [AddImplicitCastsToInitialState] *)
Fixpoint add_casts (init : items) (body : items) : option items :=
  match body with
  | [] => Some []
  | (k, e) :: t =>
      let? e1 := subst true init e in
      let? i := get init k in
      let? r := add_casts init t in
      Some ((k, Op CastLike [i; e1]) :: r)
  end.
(** [new_initial_state[name] = ...] for the items of the body *)
Definition with_casts (init casts : items) : items :=
  map (fun c => (fst c, match get casts (fst c) with Some e => e | None => snd c end)) init.
(** 102-115 [WrapAsTuple] *)
Definition wrap_tuple (G : lang) (m : items) (order : list key) : option expr :=
  let? es := map_opt (get m) order in
  if fields_ok G order then Some (Op (MakeTuple order) es) else None.
(** 86-99 [MakeNamedAccessors] *)
Definition accessors (e : expr) (order : list key) : items := combine order (map (fun i => Op (GetNth i) [e]) (seq 0 (length order))).
(** "loop_state" *)
Definition loop_state : key := [108; 111; 111; 112; 95; 115; 116; 97; 116; 101]%Z.
(** lambda_expr_operator.cc:108-140; ValidateSignature: identifiers, without
    repetition *)
Fixpoint nodupb (l : list key) : bool := match l with [] => true | x :: t => negb (memk x t) && nodupb t end.
Definition make_lambda (ident : key -> bool) (params : list key) (body : expr) : option expr :=
  if forallb ident params && nodupb params && (match leaves body with [] => true | _ => false end) && forallb (fun k => memk k params) (plcs body)
  then Some body else None.
(** The node: the operator with its parameters, condition and body, and the
    arguments. *)
Record wnode := mkW { w_params : list key; w_cond : expr; w_body : expr; w_deps : list expr }.
(** 199-268 [MakeWhileLoop] *)
Definition make_while (G : lang) (ident : key -> bool) (init : items) (cond : expr) (body : items) : option wnode :=
  let? (init, cond, body) := move_immutables init cond body in
  let all := names_of init in
  let mut := names_of body in
  if negb (check_init all mut && check_init all (plcs cond) && forallb (fun c => check_init all (plcs (snd c))) body) then None else
  let? casts := add_casts init body in
  let init := with_casts init casts in
  (* absl::c_set_difference of sorted lists without repetition *)
  let imm := filter (fun k => negb (memk k mut)) all in
  let? init_tuple := wrap_tuple G init mut in
  let? body_tuple := wrap_tuple G body mut in
  let? imm_deps := map_opt (get init) imm in
  let params := loop_state :: imm in
  let fields := accessors (Plc loop_state) mut in
  let? c := subst false fields cond in
  let? c := make_lambda ident params c in
  let? b := subst false fields body_tuple in
  let? b := make_lambda ident params b in
  Some (mkW params c b (init_tuple :: imm_deps)).

(** ** Evaluation *)
Section Run.
Variable G : lang.
(** A lambda applied to values: its parameters are bound in order. *)
Definition env (params : list key) (vs : list (V G)) : key -> option (V G) := get (combine params vs).
Definition envt (params : list key) (ts : list (T G)) : key -> option (T G) := get (combine params ts).
Definition no_leaves {A} (k : key) : option A := None.
(** while_loop.cc:316-352 [InferAttributes], with the types of all inputs known *)
Definition infer (w : wnode) (ts : list (T G)) : option (T G) :=
  match ts with
  | t0 :: _ =>
      let? c := ety no_leaves (envt (w_params w) ts) (w_cond w) in
      let? b := ety no_leaves (envt (w_params w) ts) (w_body w) in
      if ty_dec G c (cond_ty G) then if ty_dec G b t0 then Some t0 else None else None
  | [] => None
  end.
(** compile_while_operator.cc: the slots that change; the others keep the constants *)
Record frame := mkF { f_out : V G; f_tmp : V G; f_cond : bool }.
(** 86-106 [Run]: the status and the frame; [None]: not yet at an end.
    [junk]: what an evaluation that fails leaves behind. *)
Section Loop.
Variables (w : wnode) (ts : list (T G)) (consts : list (V G)) (junk : V G).
Definition call (body : expr) (state : V G) : option (V G) :=
  eval no_leaves (envt (w_params w) ts) no_leaves (env (w_params w) (state :: consts)) body.
Definition exec_cond (on_out : bool) (f : frame) : bool * frame :=
  match call (w_cond w) (if on_out then f_out f else f_tmp f) with
  | Some c => (true, mkF (f_out f) (f_tmp f) (truthy G c))
  | None => (false, f)
  end.
Definition exec_body (on_out : bool) (f : frame) : bool * frame :=
  let r := call (w_body w) (if on_out then f_out f else f_tmp f) in
  let ok := match r with Some _ => true | None => false end in
  let x := match r with Some v => v | None => junk end in
  (ok, if on_out then mkF (f_out f) x (f_cond f) else mkF x (f_tmp f) (f_cond f)).
Fixpoint run (fuel : nat) (f : frame) : option (bool * frame) :=
  match fuel with
  | O => None
  | S k =>
      let '(ok, f) := exec_cond true f in
      if negb ok || negb (f_cond f) then Some (ok, f) else
      let '(ok, f) := exec_body true f in
      if negb ok then Some (ok, f) else
      let '(ok, f) := exec_cond false f in
      if negb ok || negb (f_cond f) then Some (ok, mkF (f_tmp f) (f_tmp f) (f_cond f)) else
      let '(ok, f) := exec_body false f in
      if negb ok then Some (ok, f) else run k f
  end.
End Loop.
(** The value of the node: outer [None]: not yet at an end, inner: an error. *)
Definition weval (fuel : nat) (junk : V G) (LT PT : key -> option (T G)) (L P : key -> option (V G)) (w : wnode) : option (option (V G)) :=
  match map_opt (ety LT PT) (w_deps w) with
  | None => Some None
  | Some ts =>
      match infer w ts, map_opt (eval LT PT L P) (w_deps w) with
      | Some _, Some (init :: consts) =>
          let? (ok, f) := run w ts consts junk fuel (mkF init junk false) in
          Some (if (ok : bool) then Some (f_out f) else None)
      | _, _ => Some None
      end
  end.
End Run.
Arguments weval {G}. Arguments infer {G}. Arguments run {G}.
