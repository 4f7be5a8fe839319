(** Model of arolla/expr/operator_repr_functions.cc and of ToDebugString in
    arolla/expr/expr_debug_string.cc (not the verbose mode).  The text is the list of its
    Python tokens: blanks, the digits of a number, the quotes of a string are not modelled.
    Nodes with equal fingerprints are equal trees, and an operator is its display name and
    whether it comes from the registry.  [None]: a lookup of a missing key. *)
From Coq Require Import Ascii String.
From Verif Require Import Base Strings_Model.
Local Open Scope Z_scope.
Local Open Scope list_scope.

(** The bytes of a string literal. *)
Definition bytes (s : string) : list Z := map (fun c => Z.of_nat (nat_of_ascii c)) (list_ascii_of_string s).

(** The symbols of operator_repr_functions.cc:60-94 *)
Inductive sym := SPlus | SMinus | STilde | SPow | SMul | SDiv | SFloorDiv | SMod | SAnd | SOr
  | SLt | SLe | SEq | SNe | SGe | SGt.
Inductive tok := TName (s : list Z) | TNum (n : nat) | TStr (s : list Z) | TLit (n : nat) | TSym (s : sym)
  | TDot | TComma | TColon | TLPar | TRPar | TLBr | TRBr | TPin.
(** util/repr.h:41-80 [ReprToken]: text and precedence *)
Record rtok := mkR { r_str : list tok; r_prec : Z * Z }.
Definition r_left (t : rtok) := fst (r_prec t).
Definition r_right (t : rtok) := snd (r_prec t).
(** util/repr.h:58-79 *)
Definition kHighest := (-1, -1). Definition kSafeForNegation := (0, 0). Definition kSafeForArithmetic := (1, 1).
Definition kOpSubscription := (0, -1). Definition kOpUnary := (1, 1). Definition kOpPow := (1, 2).
Definition kOpMul := (3, 2). Definition kOpAdd := (5, 4). Definition kOpAnd := (9, 8). Definition kOpOr := (11, 10).
Definition kOpComparison := (12, 12). Definition kOpSlice := (13, 13).

(** Expression nodes.  Literals: a number without a minus sign, a number with one, a text,
    unspecified, anything else (written as one opaque token). *)
Inductive dexpr :=
| DLeaf (k : list Z) | DPlc (k : list Z)
| DNum (n : nat) | DNegNum (n : nat) | DText (s : list Z) | DUnspec | DLit (n : nat)
| DOp (reg : bool) (name : list Z) (ds : list dexpr).
Definition deps (n : dexpr) : list dexpr := match n with DOp _ _ ds => ds | _ => [] end.

Section ListEq.
Context {A : Type} (eqb : A -> A -> bool).
Fixpoint list_eqb (a b : list A) : bool :=
  match a, b with
  | [], [] => true
  | x :: a', y :: b' => eqb x y && list_eqb a' b'
  | _, _ => false
  end.
End ListEq.
(** Comparison of fingerprints *)
Fixpoint dexpr_eqb (a b : dexpr) {struct a} : bool :=
  match a, b with
  | DLeaf x, DLeaf y => str_eqb x y
  | DPlc x, DPlc y => str_eqb x y
  | DNum x, DNum y => Nat.eqb x y
  | DNegNum x, DNegNum y => Nat.eqb x y
  | DText x, DText y => str_eqb x y
  | DUnspec, DUnspec => true
  | DLit x, DLit y => Nat.eqb x y
  | DOp r n ds, DOp r' n' ds' => Bool.eqb r r' && str_eqb n n' && list_eqb dexpr_eqb ds ds'
  | _, _ => false
  end.
Definition tokens := dexpr -> option rtok.
Definition tset (nt : tokens) (n : dexpr) (t : rtok) : tokens := fun m => if dexpr_eqb n m then Some t else nt m.

(** A dotted name as tokens: cut at the dots. *)
Fixpoint segments (s : list Z) : list (list Z) :=
  match s with
  | [] => [[]]
  | c :: t =>
      if c =? ch_dot then [] :: segments t
      else match segments t with [] => [[c]] | h :: r => (c :: h) :: r end
  end.
Definition seg_toks (l : list (list Z)) : list tok := List.concat (map (fun s => [TDot; TName s]) l).
Definition name_toks (s : list Z) : list tok := List.tl (seg_toks (segments s)).

(** string.h:94-102 [ContainerAccessString] *)
Definition access_toks (key : list Z) : list tok :=
  if is_identifier key then [TDot; TName key] else [TLBr; TStr key; TRBr].
Definition paren (ts : list tok) : list tok := TLPar :: ts ++ [TRPar].

(** operator_repr_functions.cc:54-61 *)
Definition unary_ops : list (list Z * ((Z * Z) * sym)) :=
  [(bytes "math.pos", (kOpUnary, SPlus)); (bytes "math.neg", (kOpUnary, SMinus)); (bytes "core.presence_not", (kOpUnary, STilde))].
(** operator_repr_functions.cc:63-84 *)
Definition binary_ops : list (list Z * ((Z * Z) * sym)) :=
  [(bytes "math.pow", (kOpPow, SPow)); (bytes "math.multiply", (kOpMul, SMul)); (bytes "math.divide", (kOpMul, SDiv));
   (bytes "math.floordiv", (kOpMul, SFloorDiv)); (bytes "math.mod", (kOpMul, SMod)); (bytes "math.add", (kOpAdd, SPlus));
   (bytes "math.subtract", (kOpAdd, SMinus)); (bytes "core.presence_and", (kOpAnd, SAnd)); (bytes "core.presence_or", (kOpOr, SOr));
   (bytes "core.less", (kOpComparison, SLt)); (bytes "core.less_equal", (kOpComparison, SLe)); (bytes "core.equal", (kOpComparison, SEq));
   (bytes "core.not_equal", (kOpComparison, SNe)); (bytes "core.greater_equal", (kOpComparison, SGe)); (bytes "core.greater", (kOpComparison, SGt))].
Fixpoint assoc {B} (k : list Z) (l : list (list Z * B)) : option B :=
  match l with [] => None | (k', v) :: t => if str_eqb k k' then Some v else assoc k t end.

(** expr_debug_string.cc:145-154, operator_repr_functions.cc:87-95 [GetNodeDepsTokens] *)
Fixpoint deps_tokens (nt : tokens) (ds : list dexpr) : option (list rtok) :=
  match ds with
  | [] => Some []
  | d :: t => let? x := nt d in let? l := deps_tokens nt t in Some (x :: l)
  end.

(** operator_repr_functions.cc:97-117 [UnaryReprFn]; the outer [None] is a missing key, the
    inner one is std::nullopt *)
Definition unary_repr (nt : tokens) (name : list Z) (ds : list dexpr) : option (option rtok) :=
  let? inputs := deps_tokens nt ds in
  match assoc name unary_ops, inputs with
  | Some (p, s), [x] =>
      Some (Some (mkR (TSym s :: if r_left x <? snd p then r_str x else paren (r_str x)) p))
  | _, _ => Some None
  end.
(** operator_repr_functions.cc:119-154 [BinaryReprFn] *)
Definition binary_repr (nt : tokens) (name : list Z) (ds : list dexpr) : option (option rtok) :=
  let? inputs := deps_tokens nt ds in
  match assoc name binary_ops, inputs with
  | Some (p, s), [x; y] =>
      let lp := r_right x <? fst p in
      let rp := r_left y <? snd p in
      Some (Some (mkR (if lp && rp then r_str x ++ TSym s :: r_str y
                       else if lp && negb rp then r_str x ++ TSym s :: paren (r_str y)
                       else if negb lp && rp then paren (r_str x) ++ TSym s :: r_str y
                       else paren (r_str x) ++ TSym s :: paren (r_str y)) p))
  | _, _ => Some None
  end.
(** operator_repr_functions.cc:156-184 [GetAttrReprFn] *)
Definition getattr_repr (nt : tokens) (ds : list dexpr) : option (option rtok) :=
  match ds with
  | [_; DText attr] =>
      if is_identifier attr then
        let? inputs := deps_tokens nt ds in
        match inputs with
        | [x; _] => Some (Some (mkR ((if r_right x <? 0 then r_str x else paren (r_str x)) ++ [TDot; TName attr]) (0, -1)))
        | _ => None
        end
      else Some None
  | _ => Some None
  end.
Definition is_unspecified (d : dexpr) : bool := match d with DUnspec => true | _ => false end.
(** operator_repr_functions.cc:186-232 [MakeSliceRepr] *)
Definition make_slice_repr (nt : tokens) (n : dexpr) : option (option (list tok)) :=
  match n with
  | DOp true name [d0; d1; d2] =>
      if str_eqb name (bytes "core.make_slice") then
        let? x0 := nt d0 in let? x1 := nt d1 in let? x2 := nt d2 in
        let a := if is_unspecified d0 then [TColon]
                 else if r_right x0 <? fst kOpSlice then r_str x0 ++ [TColon]
                 else paren (r_str x0) ++ [TColon] in
        let b := if negb (is_unspecified d1)
                 then if (r_left x1 <? snd kOpSlice) && ((r_right x1 <? fst kOpSlice) || is_unspecified d2)
                      then r_str x1 else paren (r_str x1)
                 else [] in
        let c := if negb (is_unspecified d2)
                 then if r_left x2 <? snd kOpSlice then TColon :: r_str x2 else TColon :: paren (r_str x2)
                 else [] in
        Some (Some (a ++ b ++ c))
      else Some None
  | _ => Some None
  end.
(** operator_repr_functions.cc:234-256 [GetItemReprFn] *)
Definition getitem_repr (nt : tokens) (ds : list dexpr) : option (option rtok) :=
  match ds with
  | [d0; d1] =>
      let? lhs := nt d0 in
      let? sl := make_slice_repr nt d1 in
      let? rhs := match sl with Some s => Some s | None => let? t := nt d1 in Some (r_str t) end in
      Some (Some (mkR ((if r_right lhs <? 0 then r_str lhs else paren (r_str lhs)) ++ TLBr :: rhs ++ [TRBr]) (0, -1)))
  | _ => Some None
  end.
(** operator_repr_functions.cc:258-275 [SourceLocationReprFn] *)
Definition source_location_repr (nt : tokens) (ds : list dexpr) : option (option rtok) :=
  match ds with
  | [d0; _] =>
      let? x := nt d0 in
      Some (Some (mkR (if r_right x >=? fst kOpSubscription then paren (r_str x) ++ [TPin] else r_str x ++ [TPin]) kOpSubscription))
  | _ => Some None
  end.
(** operator_repr_functions.cc:306-337 [RegisteredOperatorReprFn] with the functions
    registered at start; no others are registered *)
Definition registered_repr (nt : tokens) (name : list Z) (ds : list dexpr) : option (option rtok) :=
  if match assoc name unary_ops with Some _ => true | None => false end then unary_repr nt name ds
  else if match assoc name binary_ops with Some _ => true | None => false end then binary_repr nt name ds
  else if str_eqb name (bytes "core.getattr") then getattr_repr nt ds
  else if str_eqb name (bytes "core.getitem") then getitem_repr nt ds
  else if str_eqb name (bytes "annotation.source_location") then source_location_repr nt ds
  else Some None.

Fixpoint comma_sep (l : list (list tok)) : list tok :=
  match l with [] => [] | [x] => x | x :: t => x ++ TComma :: comma_sep t end.
(** expr_debug_string.cc:181-202 [FormatOperatorCanonical] *)
Definition format_canonical (reg : bool) (name : list Z) (inputs : list rtok) : rtok :=
  mkR ((if reg then [TName (bytes "M"); TDot] else []) ++ name_toks name ++ TLPar :: comma_sep (map r_str inputs) ++ [TRPar]) kHighest.
(** expr_debug_string.cc:229-236 [FormatOperatorPretty] *)
Definition format_operator (nt : tokens) (reg : bool) (name : list Z) (ds : list dexpr) : option rtok :=
  let? r := if reg then registered_repr nt name ds else Some None in
  match r with
  | Some t => Some t
  | None => let? inputs := deps_tokens nt ds in Some (format_canonical reg name inputs)
  end.
(** expr_debug_string.cc:156-171, 259-275 [FormatPretty]; numbers: util/repr.cc:28-100 *)
Definition format_pretty (nt : tokens) (n : dexpr) : option rtok :=
  match n with
  | DLeaf k => Some (mkR (TName (bytes "L") :: access_toks k) kHighest)
  | DPlc k => Some (mkR (TName (bytes "P") :: access_toks k) kHighest)
  | DNum i => Some (mkR [TNum i] kSafeForNegation)
  | DNegNum i => Some (mkR [TSym SMinus; TNum i] kSafeForArithmetic)
  | DText s => Some (mkR [TStr s] kHighest)
  | DUnspec => Some (mkR [TName (bytes "unspecified")] kHighest)
  | DLit i => Some (mkR [TLit i] kHighest)
  | DOp reg name ds => format_operator nt reg name ds
  end.

(** ** Statements *)
Definition memd (n : dexpr) (l : list dexpr) : bool := existsb (dexpr_eqb n) l.
(** expr_visitor.h [PostOrder]: every node once, after its dependencies (the loop itself is
    modelled in Visit_Model) *)
Fixpoint post_order (n : dexpr) (acc : list dexpr) {struct n} : list dexpr :=
  if memd n acc then acc
  else match n with
       | DOp _ _ ds => fold_left (fun acc d => post_order d acc) ds acc ++ [n]
       | _ => acc ++ [n]
       end.

(** annotation_utils.cc:80-90, 120-127: [None] if not a name annotation (the code returns an
    empty name).  The name is a literal; a computed constant is not modelled. *)
Definition read_name (n : dexpr) : option (list Z) :=
  match n with
  | DOp _ name [_; DText s] => if str_eqb name (bytes "annotation.name") then Some s else None
  | _ => None
  end.
(** expr_debug_string.cc:88-92 [IsSafeStatementName] *)
Definition is_safe_name (s : list Z) : bool :=
  is_qualified s &&
  negb (Nat.ltb 1 (List.length s) && (match s with c :: t => (c =? ch_us) && forallb is_digit t | [] => false end)).
Definition safe_name (n : dexpr) : option (list Z) :=
  match read_name n with Some s => if is_safe_name s then Some s else None | None => None end.

(** expr_debug_string.cc:55-60 *)
Definition count_in (n : dexpr) (l : list dexpr) : nat := List.length (filter (dexpr_eqb n) l).
Definition parent_count (nodes : list dexpr) (n : dexpr) : nat := list_sum (map (fun p => count_in n (deps p)) nodes).
(** expr_debug_string.cc:63-82, the nodes seen so far with their depth *)
Definition depth_of (dm : list (dexpr * nat)) (n : dexpr) : nat :=
  match find (fun p => dexpr_eqb n (fst p)) dm with Some p => snd p | None => O end.
Fixpoint select_loop (nodes todo : list dexpr) (dm : list (dexpr * nat)) : list dexpr :=
  match todo with
  | [] => []
  | n :: t =>
      let depth := fold_left (fun a d => Nat.max a (1 + depth_of dm d)) (deps n) 1%nat in
      let st := match read_name n with Some _ => true | None => false end
                || (Nat.ltb 1 (parent_count nodes n) && Nat.leb 3 depth) in
      if st then n :: select_loop nodes t ((n, 1%nat) :: dm) else select_loop nodes t ((n, depth) :: dm)
  end.
Definition select_statements (nodes : list dexpr) : list dexpr := select_loop nodes nodes [].

(** absl::StrCat of a number *)
Fixpoint uint_digits (u : Decimal.uint) : list Z :=
  match u with
  | Decimal.Nil => []
  | Decimal.D0 u => 48 :: uint_digits u | Decimal.D1 u => 49 :: uint_digits u | Decimal.D2 u => 50 :: uint_digits u
  | Decimal.D3 u => 51 :: uint_digits u | Decimal.D4 u => 52 :: uint_digits u | Decimal.D5 u => 53 :: uint_digits u
  | Decimal.D6 u => 54 :: uint_digits u | Decimal.D7 u => 55 :: uint_digits u | Decimal.D8 u => 56 :: uint_digits u
  | Decimal.D9 u => 57 :: uint_digits u
  end.
Definition dec (n : nat) : list Z := uint_digits (Nat.to_uint n).

Definition name_count (sts : list dexpr) (s : list Z) : nat :=
  List.length (filter (fun n => match safe_name n with Some s' => str_eqb s s' | None => false end) sts).
(** expr_debug_string.cc:101-142 [GenStatementNames]; [seen]: the statements before this one;
    the counter of a repeated name is one more than its earlier uses *)
Fixpoint gen_loop (all seen todo : list dexpr) (anon : nat) : list (dexpr * list Z) :=
  match todo with
  | [] => []
  | n :: t =>
      match safe_name n with
      | None => (n, ch_us :: dec anon) :: gen_loop all (n :: seen) t (S anon)
      | Some s =>
          (n, if Nat.ltb 1 (name_count all s) then s ++ [ch_dot; ch_us] ++ dec (S (name_count seen s)) else s)
          :: gen_loop all (n :: seen) t anon
      end
  end.
Definition gen_names (nodes : list dexpr) : list (dexpr * list Z) :=
  let sts := select_statements nodes in gen_loop sts [] sts 1.

Definition lookup_name (names : list (dexpr * list Z)) (n : dexpr) : option (list Z) :=
  match find (fun p => dexpr_eqb n (fst p)) names with Some p => Some (snd p) | None => None end.
(** expr_debug_string.cc:285-316, the loop over the nodes of [ToDebugString] *)
Fixpoint debug_loop (names : list (dexpr * list Z)) (todo : list dexpr) (nt : tokens) (lines : list (list Z * list tok))
  : option (tokens * list (list Z * list tok)) :=
  match todo with
  | [] => Some (nt, lines)
  | n :: t =>
      match lookup_name names n with
      | None => let? x := format_pretty nt n in debug_loop names t (tset nt n x) lines
      | Some s =>
          let? x := match safe_name n with
                    | Some _ => match deps n with d :: _ => nt d | [] => None end
                    | None => format_pretty nt n
                    end in
          debug_loop names t (tset nt n (mkR (name_toks s) kHighest)) (lines ++ [(s, r_str x)])
      end
  end.
(** [ToDebugString(root, false)]: the statements in order, and the last line *)
Definition to_debug_string (root : dexpr) : option (list (list Z * list tok) * list tok) :=
  let nodes := post_order root [] in
  let? p := debug_loop (gen_names nodes) nodes (fun _ => None) [] in
  let '(nt, lines) := p in
  let? x := nt root in
  Some (lines, r_str x).
