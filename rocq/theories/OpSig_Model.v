(** Model of the signatures of expression operators:
    arolla/expr/expr_operator_signature.cc.  Strings are lists of chars, as in
    [Strings_Model].  [V] is the type of values (TypedValue), [D] that of
    expressions. *)
From Coq Require Import Decimal.
From Verif Require Import Base Strings_Model.
Local Open Scope Z_scope.

Definition str := list Z.
(** absl::ascii_isspace: tab, line feed, vertical tab, form feed, return, space *)
Definition is_space (c : Z) : bool := ((9 <=? c) && (c <=? 13)) || (c =? 32).
Definition ch_star := 42. Definition ch_comma := 44. Definition ch_colon := 58. Definition ch_eq := 61. Definition ch_bar := 124.
(** absl::StripLeadingAsciiWhitespace, StripTrailing..., Strip... *)
Fixpoint strip_l (s : str) : str := match s with c :: t => if is_space c then strip_l t else s | [] => [] end.
Definition strip_r (s : str) : str := rev (strip_l (rev s)).
Definition strip (s : str) : str := strip_r (strip_l s).
(** string_view::find of a char: what precedes it and, if found, what follows *)
Fixpoint find_char (c : Z) (s : str) : str * option str :=
  match s with
  | [] => ([], None)
  | x :: t => if x =? c then ([], Some t) else let '(a, b) := find_char c t in (x :: a, b)
  end.
(** absl::StrSplit by a char *)
Fixpoint split (c : Z) (s : str) : list str :=
  match s with
  | [] => [[]]
  | x :: t => if x =? c then [] :: split c t else match split c t with p :: r => (x :: p) :: r | [] => [[x]] end
  end.

(** expr_operator_signature.h:45-53; [Illegal]: a value of the enum without a name *)
Inductive kind := PosKw | Variadic | Illegal (n : nat).

Section Sig.
Context {V D : Type}.
Variable literal : V -> D.

Record param := mkP { p_name : str; p_default : option V; p_kind : kind }.
Record signature := mkSig { params : list param; aux_name : str; aux_opts : str }.

Inductive verr := BadName (n : str) | Repeated (n : str) | BadKind (n : str) | DefaultOrder | VariadicNotLast | VariadicDefault | AuxColon.
(** expr_operator_signature.cc:53-73 *)
Fixpoint check_legal (ps : list param) : option verr :=
  match ps with [] => None | p :: t => if negb (is_identifier (p_name p)) then Some (BadName (p_name p)) else check_legal t end.
Fixpoint check_unique (seen : list str) (ps : list param) : option verr :=
  match ps with
  | [] => None
  | p :: t => if existsb (str_eqb (p_name p)) seen then Some (Repeated (p_name p)) else check_unique (p_name p :: seen) t
  end.
(** 75-86 *)
Fixpoint check_kinds (ps : list param) : option verr :=
  match ps with [] => None | p :: t => match p_kind p with PosKw | Variadic => check_kinds t | Illegal _ => Some (BadKind (p_name p)) end end.
(** 88-106 *)
Fixpoint check_defaults (had : bool) (ps : list param) : option verr :=
  match ps with
  | [] => None
  | p :: t =>
      match p_kind p with
      | PosKw => match p_default p with None => if had then Some DefaultOrder else check_defaults had t | Some _ => check_defaults true t end
      | _ => None
      end
  end.
(** 108-124; the two loops as one pass *)
Fixpoint check_variadic (ps : list param) : option verr :=
  match ps with
  | [] => None
  | [p] => match p_kind p, p_default p with Variadic, Some _ => Some VariadicDefault | _, _ => None end
  | p :: t => match p_kind p with Variadic => Some VariadicNotLast | _ => check_variadic t end
  end.
(** 126-134 *)
Definition check_aux (s : signature) : option verr := if existsb (Z.eqb ch_colon) (aux_name s) then Some AuxColon else None.
Definition orelse (a b : option verr) : option verr := match a with Some e => Some e | None => b end.
(** 138-145 [ValidateSignature]; [None]: OK *)
Definition validate (s : signature) : option verr :=
  orelse (orelse (check_legal (params s)) (check_unique [] (params s))) (orelse (check_kinds (params s))
    (orelse (check_defaults false (params s)) (orelse (check_variadic (params s)) (check_aux s)))).

(** 161-164 *)
Definition has_variadic (s : signature) : bool :=
  match rev (params s) with p :: _ => match p_kind p with Variadic => true | _ => false end | [] => false end.
(** 205-220 [ValidateDepsCount]; [true]: OK *)
Definition deps_count_ok (s : signature) (n : nat) : bool :=
  let v := has_variadic s in
  let req := if v then (length (params s) - 1)%nat else length (params s) in
  negb ((n <? req)%nat || (negb v && (req <? n)%nat)).

Inductive berr := MultipleValues (n : str) | UnexpectedKind | TooMany (most got : nat) | Unexpected (ns : list str) | Missing (ns : list str).
Fixpoint lookup (n : str) (kw : list (str * D)) : option D :=
  match kw with [] => None | (k, v) :: t => if str_eqb n k then Some v else lookup n t end.
(** 233-247; [args]: from [argIdx] on; result: the parameters and the arguments
    that are left, and what was appended to [result] *)
Fixpoint bind_pos (kw : list (str * D)) (ps : list param) (args : list D) (res : list D) : berr + (list param * list D * list D) :=
  match ps, args with
  | p :: t, a :: rest =>
      match p_kind p with
      | PosKw => match lookup (p_name p) kw with Some _ => inl (MultipleValues (p_name p)) | None => bind_pos kw t rest (res ++ [a]) end
      | Variadic => bind_pos kw t [] (res ++ args)
      | Illegal _ => inl UnexpectedKind
      end
  | _, _ => inr (ps, args, res)
  end.
(** 253-270: [missing_arguments], [used_kwargs], [result] *)
Fixpoint bind_kw (kw : list (str * D)) (ps : list param) (missing used : list str) (res : list D) : berr + (list str * list str * list D) :=
  match ps with
  | [] => inr (missing, used, res)
  | p :: t =>
      match p_kind p with
      | PosKw =>
          match lookup (p_name p) kw with
          | Some v => bind_kw kw t missing (p_name p :: used) (res ++ [v])
          | None => match p_default p with
                    | Some d => bind_kw kw t missing used (res ++ [literal d])
                    | None => bind_kw kw t (missing ++ [p_name p]) used res
                    end
          end
      | Variadic => bind_kw kw t missing used res
      | Illegal _ => inl UnexpectedKind
      end
  end.
(** std::sort of strings *)
Fixpoint str_leb (a b : str) : bool :=
  match a, b with [], _ => true | _ :: _, [] => false | x :: s, y :: t => (x <? y) || ((x =? y) && str_leb s t) end.
Fixpoint ins (x : str) (l : list str) : list str := match l with [] => [x] | y :: t => if str_leb x y then x :: l else y :: ins x t end.
Fixpoint sort (l : list str) : list str := match l with [] => [] | x :: t => ins x (sort t) end.
(** 222-285 [BindArguments]; [kw] in the order of the iteration over the map *)
Definition bind_args (s : signature) (args : list D) (kw : list (str * D)) : berr + list D :=
  match bind_pos kw (params s) args [] with
  | inl e => inl e
  | inr (ps, left_args, res) =>
      match left_args with
      | _ :: _ => inl (TooMany (length res) (length args))
      | [] =>
          match bind_kw kw ps [] [] res with
          | inl e => inl e
          | inr (missing, used, res) =>
              match filter (fun n => negb (existsb (str_eqb n) used)) (map fst kw) with
              | (_ :: _) as un => inl (Unexpected (sort un))
              | [] => match missing with _ :: _ => inl (Missing missing) | [] => inr res end
              end
          end
      end
  end.

(** 391-401 *)
Definition get_aux_name (aux : str) : str := strip (fst (find_char ch_colon aux)).
Definition get_aux_opts (aux : str) : str := match snd (find_char ch_colon aux) with Some r => strip r | None => [] end.
(** 382-389 *)
Definition get_aux (nm opts : str) : str := match opts with [] => nm | _ => nm ++ ch_colon :: opts end.

Inductive merr := NoDefaultFor (n : str) | UnusedDefaults | Invalid (e : verr).
(** 323-343: one parameter; [ds]: default values from [i] on *)
Definition parse_param (def : str) (ds : list V) : merr + (param * list V) :=
  let def := strip def in
  let '(k, def) := match def with c :: t => if c =? ch_star then (Variadic, strip_l t) else (PosKw, def) | [] => (PosKw, def) end in
  match rev def with
  | c :: r =>
      if c =? ch_eq then
        let def := strip_r (rev r) in
        match ds with [] => inl (NoDefaultFor def) | d :: ds => inr (mkP def (Some d) k, ds) end
      else inr (mkP def None k, ds)
  | [] => inr (mkP def None k, ds)
  end.
Fixpoint parse_params (defs : list str) (ds : list V) : merr + (list param * list V) :=
  match defs with
  | [] => inr ([], ds)
  | def :: t =>
      match parse_param def ds with
      | inl e => inl e
      | inr (p, ds) => match parse_params t ds with inl e => inl e | inr (ps, ds) => inr (p :: ps, ds) end
      end
  end.
(** 305-351 [ExprOperatorSignature::Make] *)
Definition make (spec : str) (ds : list V) : merr + signature :=
  let '(before, after) := find_char ch_bar spec in
  let aux := match after with Some a => strip_l a | None => [] end in
  let body := strip before in
  match parse_params (match body with [] => [] | _ => split ch_comma body end) ds with
  | inl e => inl e
  | inr (ps, _ :: _) => inl UnusedDefaults
  | inr (ps, []) =>
      let s := mkSig ps (get_aux_name aux) (get_aux_opts aux) in
      match validate s with Some e => inl (Invalid e) | None => inr s end
  end.

(** 357-369; the default delimiter of [NonFirstComma] is ", " *)
Definition show_param (p : param) : str :=
  (match p_kind p with Variadic => [ch_star] | _ => [] end) ++ p_name p ++ (match p_default p with Some _ => [ch_eq] | None => [] end).
(** 353-376 [GetExprOperatorSignatureSpec] *)
Definition get_spec (s : signature) : str :=
  comma_loop true [ch_comma; 32] (map show_param (params s)) ++
  match get_aux (aux_name s) (aux_opts s) with [] => [] | aux => ch_bar :: aux end.
(** The default values that go with the text. *)
Fixpoint defaults (ps : list param) : list V :=
  match ps with [] => [] | p :: t => match p_default p with Some d => d :: defaults t | None => defaults t end end.

(** 287-297: [MakeArgsN]; absl::StrCat of a number: its decimal digits *)
Fixpoint uint_chars (u : uint) : str :=
  match u with
  | Nil => [] | D0 u => 48 :: uint_chars u | D1 u => 49 :: uint_chars u | D2 u => 50 :: uint_chars u | D3 u => 51 :: uint_chars u
  | D4 u => 52 :: uint_chars u | D5 u => 53 :: uint_chars u | D6 u => 54 :: uint_chars u | D7 u => 55 :: uint_chars u
  | D8 u => 56 :: uint_chars u | D9 u => 57 :: uint_chars u
  end.
Definition str_arg : str := [97; 114; 103].
Definition make_args_n (n : nat) : signature :=
  mkSig (if (n =? 1)%nat then [mkP str_arg None PosKw]
         else map (fun i => mkP (str_arg ++ uint_chars (Nat.to_uint (i + 1))) None PosKw) (seq 0 n)) [] [].
(** 299-303 *)
Definition make_variadic_args : signature := mkSig [mkP (str_arg ++ [115]) None Variadic] [] [].
End Sig.
Arguments param : clear implicits.
Arguments signature : clear implicits.
