(** What a lambda operator is meant to be: its parameters stand for the arguments. *)
From Verif Require Import Base Visit_Model Visit_Spec Lambda_Model.

(** The arguments of a call fit the parameters. *)
Definition fits (s : sig) (n : nat) : Prop :=
  if s_variadic s then match s_names s with [] => n = 0 | _ => length (s_names s) <= S n end else n = length (s_names s).
(** Parameter [k] stands for [x]: the argument at its place, or a tuple of the arguments from
    its place on. *)
Definition bound {T} (s : sig) (tuple : list T -> T -> Prop) (args : list T) (k : key) (x : T) : Prop :=
  exists j, nth_error (s_names s) j = Some k /\
    (if s_variadic s && (S j =? length (s_names s)) then tuple (skipn j args) x else nth_error args j = Some x).
Definition tuple_node (tup : nat) (ds : list node) (m : node) : Prop := exists a, m = Op tup a ds.
(** [m] is [n] with the parameters replaced; attributes are not compared. *)
Inductive inst (b : key -> node -> Prop) : node -> node -> Prop :=
  | inst_plh k m : b k m -> inst b (Plh k) m
  | inst_lit v : inst b (Lit v) (Lit v)
  | inst_op o a a' ds ds' : Forall2 (inst b) ds ds' -> inst b (Op o a ds) (Op o a' ds').

(** What an expression evaluates to. *)
Fixpoint value {V} (I : nat -> list V -> V) (lit : nat -> V) (leaf plh : key -> V) (n : node) : V :=
  match n with
  | Lit v => lit v
  | Leaf k => leaf k
  | Plh k => plh k
  | Op o _ ds => I o (map (value I lit leaf plh) ds)
  end.

Section Attr.
Context {E : Type}.
Variable infer : nat -> list attr -> E + attr.
Variable type_of : nat -> nat.
(** The second attribute says at least what the first one says. *)
Inductive below : attr -> attr -> Prop :=
  | below_none a : below ANone a
  | below_type t : below (AType t) (AType t)
  | below_type_value v : below (AType (type_of v)) (AValue v)
  | below_value v : below (AValue v) (AValue v).
(** Every operator node has the attributes that its operator gives it. *)
Inductive consistent : node -> Prop :=
  | con_lit v : consistent (Lit v)
  | con_leaf k : consistent (Leaf k)
  | con_plh k : consistent (Plh k)
  | con_op o a ds : infer o (map attr_of ds) = inr a -> Forall consistent ds -> consistent (Op o a ds).
(** Knowing more about the inputs, operators know no less about the output, *)
Definition monotone : Prop := forall o l l' a a', Forall2 below l l' -> infer o l = inr a -> infer o l' = inr a' -> below a a'.
(** and an output that is known is not an error. *)
Definition stable : Prop := forall o l l' v, Forall2 below l l' -> infer o l = inr (AValue v) -> exists a', infer o l' = inr a'.
(** A tuple has the type of the tuple of the types of its fields, when these are known. *)
Definition tuple_law (tup : nat) (tuple_type : list nat -> nat) : Prop :=
  forall l, exists a, infer tup l = inr a /\
    ((exists ts, Forall2 (fun x t => qtype type_of x = Some t) l ts /\ a = AType (tuple_type ts)) \/ (In ANone l /\ a = ANone)).
End Attr.
