(** What the printed text means: a parser for Python expressions (precedence climbing, with
    the levels of the Python language reference), and a relation saying which expression a
    syntax tree stands for. *)
From Coq Require Import Ascii String.
From Verif Require Import Base Strings_Model Repr_Model.
Local Open Scope list_scope.

(** ** Python syntax *)
Inductive ast :=
| AName (s : list Z) | ANum (n : nat) | AStr (s : list Z) | ALit (n : nat)
| AUn (s : sym) (a : ast) | ABin (s : sym) (a b : ast)
| AAttr (a : ast) (s : list Z) | APin (a : ast) | ACall (f : ast) (args : list ast)
| AIndex (a : ast) (i : ast) | ASlice (a : ast) (o1 o2 o3 : option ast).

(** Binding strength of a binary operator: comparisons 1, | 2, & 4, + - 6, * / // % 7, ** 9. *)
Definition level (s : sym) : option nat :=
  match s with
  | SLt | SLe | SEq | SNe | SGe | SGt => Some 1
  | SOr => Some 2
  | SAnd => Some 4
  | SPlus | SMinus => Some 6
  | SMul | SDiv | SFloorDiv | SMod => Some 7
  | SPow => Some 9
  | STilde => None
  end.
(** Only ** groups to the right. *)
Definition right_min (s : sym) (l : nat) : nat := match s with SPow => l | _ => S l end.
Definition is_prefix (s : sym) : bool := match s with SPlus | SMinus | STilde => true | _ => false end.
Definition comparison (ts : list tok) : bool :=
  match ts with TSym s :: _ => match level s with Some 1 => true | _ => false end | _ => false end.

(** [parse f m ts]: an expression all of whose outer operators have at least strength [m], and
    the remaining tokens; [f] limits the number of steps.  Unary operators have strength 8.
    Chains of comparisons such as a < b < c are rejected.  A number followed by a dot is not a number
    and an access. *)
Fixpoint parse (f m : nat) (ts : list tok) {struct f} : option (ast * list tok) :=
  match f with
  | O => None
  | S f =>
      match ts with
      | TName s :: r => climb f m (AName s) r
      | TNum _ :: TDot :: _ => None
      | TNum n :: r => climb f m (ANum n) r
      | TStr s :: r => climb f m (AStr s) r
      | TLit n :: r => climb f m (ALit n) r
      | TSym s :: r =>
          if is_prefix s then let? (a, r) := parse f 8 r in climb f m (AUn s a) r else None
      | TLPar :: r =>
          match parse f 0 r with Some (a, TRPar :: r') => climb f m a r' | _ => None end
      | _ => None
      end
  end
with climb (f m : nat) (a : ast) (ts : list tok) {struct f} : option (ast * list tok) :=
  match f with
  | O => None
  | S f =>
      match ts with
      | TDot :: TName s :: r => climb f m (AAttr a s) r
      | TDot :: _ => None
      | TPin :: r => climb f m (APin a) r
      | TLPar :: TRPar :: r => climb f m (ACall a []) r
      | TLPar :: r => let? (l, r) := parse_args f r in climb f m (ACall a l) r
      | TLBr :: r =>
          let? (o1, r) := match r with TColon :: _ => Some (None, r) | _ => let? (x, r) := parse f 0 r in Some (Some x, r) end in
          match r with
          | TRBr :: r => match o1 with Some x => climb f m (AIndex a x) r | None => None end
          | TColon :: r =>
              let? (o2, r) := match r with
                              | TColon :: _ | TRBr :: _ => Some (None, r)
                              | _ => let? (x, r) := parse f 0 r in Some (Some x, r)
                              end in
              match r with
              | TRBr :: r => climb f m (ASlice a o1 o2 None) r
              | TColon :: TRBr :: r => climb f m (ASlice a o1 o2 None) r
              | TColon :: r =>
                  match parse f 0 r with Some (x, TRBr :: r) => climb f m (ASlice a o1 o2 (Some x)) r | _ => None end
              | _ => None
              end
          | _ => None
          end
      | TSym s :: r =>
          match level s with
          | None => None
          | Some l =>
              if m <=? l then
                let? (b, r') := parse f (right_min s l) r in
                if (l =? 1) && comparison r' then None else climb f m (ABin s a b) r'
              else Some (a, ts)
          end
      | _ => Some (a, ts)
      end
  end
with parse_args (f : nat) (ts : list tok) {struct f} : option (list ast * list tok) :=
  match f with
  | O => None
  | S f =>
      match parse f 0 ts with
      | Some (a, TRPar :: r) => Some ([a], r)
      | Some (a, TComma :: r) => let? (l, r) := parse_args f r in Some (a :: l, r)
      | _ => None
      end
  end.
(** The tokens are exactly one expression: every large enough number of steps gives it. *)
Definition parses (ts : list tok) (a : ast) : Prop := exists f0, forall f, f0 <= f -> parse f 0 ts = Some (a, []).

(** ** Meaning *)
(** The registered operators behind the symbols of Python. *)
Definition unary_name (s : sym) : option string :=
  match s with SPlus => Some "math.pos" | SMinus => Some "math.neg" | STilde => Some "core.presence_not" | _ => None end%string.
Definition binary_name (s : sym) : option string :=
  match s with
  | SPlus => Some "math.add" | SMinus => Some "math.subtract" | SMul => Some "math.multiply" | SDiv => Some "math.divide"
  | SFloorDiv => Some "math.floordiv" | SMod => Some "math.mod" | SPow => Some "math.pow"
  | SAnd => Some "core.presence_and" | SOr => Some "core.presence_or"
  | SLt => Some "core.less" | SLe => Some "core.less_equal" | SEq => Some "core.equal" | SNe => Some "core.not_equal"
  | SGe => Some "core.greater_equal" | SGt => Some "core.greater" | STilde => None
  end%string.
(** [dotted a s]: the tree [a] is the chain of names that [s] spells with dots. *)
Inductive dotted : ast -> list Z -> Prop :=
| dot_one s : ~ In ch_dot s -> dotted (AName s) s
| dot_more a p s : dotted a p -> ~ In ch_dot s -> dotted (AAttr a s) (p ++ ch_dot :: s).

(** [reads ref a e]: the tree [a] stands for the expression [e], where [ref n e] says that the
    name [n] has been given to [e]. *)
Inductive reads (ref : list Z -> dexpr -> Prop) : ast -> dexpr -> Prop :=
| rd_ref a n e : dotted a n -> ref n e -> reads ref a e
| rd_leaf k : reads ref (AAttr (AName (bytes "L")) k) (DLeaf k)
| rd_leaf_key k : reads ref (AIndex (AName (bytes "L")) (AStr k)) (DLeaf k)
| rd_plc k : reads ref (AAttr (AName (bytes "P")) k) (DPlc k)
| rd_plc_key k : reads ref (AIndex (AName (bytes "P")) (AStr k)) (DPlc k)
| rd_num n : reads ref (ANum n) (DNum n)
| rd_neg n : reads ref (AUn SMinus (ANum n)) (DNegNum n)
| rd_text s : reads ref (AStr s) (DText s)
| rd_lit n : reads ref (ALit n) (DLit n)
| rd_unspec : reads ref (AName (bytes "unspecified")) DUnspec
| rd_un s o a e : unary_name s = Some o -> reads ref a e -> reads ref (AUn s a) (DOp true (bytes o) [e])
| rd_bin s o a b e g : binary_name s = Some o -> reads ref a e -> reads ref b g -> reads ref (ABin s a b) (DOp true (bytes o) [e; g])
| rd_attr a e k : reads ref a e -> reads ref (AAttr a k) (DOp true (bytes "core.getattr") [e; DText k])
| rd_pin a e x : reads ref a e -> reads ref (APin a) (DOp true (bytes "annotation.source_location") [e; x])
| rd_index a e i g : reads ref a e -> reads ref i g -> reads ref (AIndex a i) (DOp true (bytes "core.getitem") [e; g])
| rd_slice a e o1 o2 o3 e1 e2 e3 : reads ref a e -> reads_opt ref o1 e1 -> reads_opt ref o2 e2 -> reads_opt ref o3 e3 ->
    reads ref (ASlice a o1 o2 o3) (DOp true (bytes "core.getitem") [e; DOp true (bytes "core.make_slice") [e1; e2; e3]])
| rd_call f l name es : dotted f name -> reads_all ref l es -> reads ref (ACall f l) (DOp false name es)
| rd_mcall f l name es : dotted f (bytes "M." ++ name) -> reads_all ref l es -> reads ref (ACall f l) (DOp true name es)
with reads_opt (ref : list Z -> dexpr -> Prop) : option ast -> dexpr -> Prop :=
| ro_none : reads_opt ref None DUnspec
| ro_some a e : reads ref a e -> reads_opt ref (Some a) e
with reads_all (ref : list Z -> dexpr -> Prop) : list ast -> list dexpr -> Prop :=
| ra_nil : reads_all ref [] []
| ra_cons a l e es : reads ref a e -> reads_all ref l es -> reads_all ref (a :: l) (e :: es).

(** ** Statements *)
Definition named_as (env : list (list Z * dexpr)) (n : list Z) (e : dexpr) : Prop := In (n, e) env.
Definition digits (d : list Z) : Prop := d <> [] /\ forall c, In c d -> (48 <= c <= 57)%Z.
(** [gives n e e']: the statement "n = <e>" defines [e']: [e] itself if [n] is an underscore and
    digits, otherwise [e] with the name that [n] tells, up to a final "._" and digits. *)
Inductive gives : list Z -> dexpr -> dexpr -> Prop :=
| g_anon d e : digits d -> gives (ch_us :: d) e e
| g_name r n e : gives n e (DOp r (bytes "annotation.name") [e; DText n])
| g_dup r n d e : digits d -> gives (n ++ [ch_dot; ch_us] ++ d) e (DOp r (bytes "annotation.name") [e; DText n]).
(** The lines in order define [env]: each one refers only to the names of earlier lines. *)
Inductive defines : list (list Z * list tok) -> list (list Z * dexpr) -> Prop :=
| def_nil : defines [] []
| def_snoc ls env n ts a e e' : defines ls env -> parses ts a -> reads (named_as env) a e -> gives n e e' ->
    defines (ls ++ [(n, ts)]) (env ++ [(n, e')]).

(** [sub d e]: [d] occurs in [e]. *)
Inductive sub : dexpr -> dexpr -> Prop :=
| sub_refl e : sub e e
| sub_dep d g e : In g (deps e) -> sub d g -> sub d e.
(** Some part of [e] is annotated with the name [s]. *)
Definition annotated (e : dexpr) (s : list Z) : Prop := exists r x, sub (DOp r (bytes "annotation.name") [x; DText s]) e.
(** No negative number literals, no source locations, and no unregistered operator whose
    name starts with "M.". *)
Definition tidy (e : dexpr) : Prop := forall n, sub n e ->
  match n with
  | DNegNum _ => False
  | DOp r name ds => (r = true -> name <> bytes "annotation.source_location") /\ (r = false -> forall t, name <> bytes "M." ++ t)
  | _ => True
  end.
(** [n] is an operand at two different places of [e]. *)
Definition used_twice (e n : dexpr) : Prop := exists p q i j, (p, i) <> (q, j) /\ sub p e /\ sub q e /\
  nth_error (deps p) i = Some n /\ nth_error (deps q) j = Some n.
Definition is_named (n : dexpr) : Prop := exists r x s, n = DOp r (bytes "annotation.name") [x; DText s].
