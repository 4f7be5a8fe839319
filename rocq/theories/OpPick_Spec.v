(** What the types of the inputs of an operator are meant to decide. *)
From Coq Require Import Sorted.
From Verif Require Import Base Visit_Model Lambda_Model Lambda_Spec OpPick_Model.

Section Spec.
Context {E : Type}.
Variable I : nat -> list val -> E + val.
Variable tuple_type : list nat -> nat.

(** Parameter [k] occurs in the expression. *)
Inductive uses (k : key) : ex -> Prop :=
  | uses_par : uses k (XPar k)
  | uses_op o ds d : In d ds -> uses k d -> uses k (XOp o ds).
(** Leaf [k] occurs in the expression. *)
Inductive reads (k : key) : ex -> Prop :=
  | reads_leaf : reads k (XLeaf k)
  | reads_op o ds d : In d ds -> reads k d -> reads k (XOp o ds).

(** The type of parameter [k] is known and is [t]; of a variadic one, all types are known. *)
Definition known (s : sig) (seq : list nat) (k : key) (t : nat) : Prop :=
  t <> 0 /\ bound s (fun ts t => ~ In 0 ts /\ t = tuple_type ts) seq k t.
(** The types of all parameters of the expression are known. *)
Definition ready (s : sig) (seq : list nat) (e : ex) : Prop := forall k, uses k e -> exists t, known s seq k t.
(** [rho] has the types that are known. *)
Definition agrees (s : sig) (seq : list nat) (rho : key -> nat) : Prop := forall k t, known s seq k t -> rho k = t.

(** What an expression means when its parameters stand for types: *)
Fixpoint mean (rho : key -> nat) (seq : list nat) (e : ex) : E + val :=
  match e with
  | XLit v => inr v
  | XLeaf _ => inr (VS seq)
  | XPar k => inr (VT (rho k))
  | XOp o ds =>
      match fold_right (fun d acc => match mean rho seq d, acc with
                                     | inl e, _ => inl e
                                     | inr _, inl e => inl e
                                     | inr v, inr vs => inr (v :: vs)
                                     end) (inr []) ds with
      | inl e => inl e
      | inr vs => I o vs
      end
  end.
(** all parameters of an expression that is not ready stand for NOTHING. *)
Definition seen (s : sig) (seq : list nat) (rho : key -> nat) (e : ex) (r : E + val) : Prop :=
  (ready s seq e /\ r = mean rho seq e) \/ (~ ready s seq e /\ r = mean (fun _ => 0) seq e).
(** The condition is a condition: it evaluates to present or missing. *)
Definition decides (seq : list nat) (e : ex) : Prop := forall rho, exists b, mean rho seq e = inr (VU b).
Definition names_type (seq : list nat) (e : ex) : Prop := forall rho, exists t, mean rho seq e = inr (VT t).

(** The constraints of an operator and its output type. *)
Inductive outcome (s : sig) (cs : list ex) (out : ex) (seq : list nat) (rho : key -> nat) : ierr E + option nat -> Prop :=
  | out_violated i c :
      nth_error cs i = Some c -> ready s seq c -> mean rho seq c = inr (VU false) ->
      (forall j c', j < i -> nth_error cs j = Some c' -> ready s seq c' -> mean rho seq c' = inr (VU true)) ->
      outcome s cs out seq rho (inl (Unsatisfied i))
  | out_unknown c :
      (forall c', In c' cs -> ready s seq c' -> mean rho seq c' = inr (VU true)) ->
      In c (out :: cs) -> ~ ready s seq c -> outcome s cs out seq rho (inr None)
  | out_type t :
      (forall c', In c' cs -> ready s seq c' /\ mean rho seq c' = inr (VU true)) ->
      ready s seq out -> mean rho seq out = inr (VT t) -> t <> 0 -> outcome s cs out seq rho (inr (Some t))
  | out_nothing :
      (forall c', In c' cs -> ready s seq c' /\ mean rho seq c' = inr (VU true)) ->
      ready s seq out -> mean rho seq out = inr (VT 0) -> outcome s cs out seq rho (inl NoOutput).

(** The case whose condition holds; [n] is the number of conditions, [dflt] whether there is a
    default operator. *)
Definition holds (cs : list ex) (seq : list nat) (rho : key -> nat) (i : nat) : Prop :=
  exists c, nth_error cs i = Some c /\ mean rho seq c = inr (VU true).
Inductive choice (s : sig) (cs : list ex) (dflt : bool) (seq : list nat) (rho : key -> nat) : gerr E + option nat -> Prop :=
  | ch_unknown c : In c cs -> ~ ready s seq c -> choice s cs dflt seq rho (inr None)
  | ch_one i : (forall c, In c cs -> ready s seq c) -> (forall j, holds cs seq rho j <-> j = i) -> choice s cs dflt seq rho (inr (Some i))
  | ch_many i l : (forall c, In c cs -> ready s seq c) -> l <> [] -> StronglySorted lt (i :: l) -> (forall j, holds cs seq rho j <-> In j (i :: l)) ->
      choice s cs dflt seq rho (inl (Multiple i l))
  | ch_default : (forall c, In c cs -> ready s seq c) -> (forall j, ~ holds cs seq rho j) -> dflt = true -> choice s cs dflt seq rho (inr (Some (length cs)))
  | ch_none : (forall c, In c cs -> ready s seq c) -> (forall j, ~ holds cs seq rho j) -> dflt = false -> choice s cs dflt seq rho (inl NoOverload).

(** More is known in the second sequence of types. *)
Definition refines (seq seq' : list nat) : Prop := Forall2 (fun a b => a = 0 \/ a = b) seq seq'.
End Spec.

(** The types of the inputs, 0 for the unknown ones; no input has type NOTHING. *)
Definition types_as (type_of : nat -> nat) (l : list attr) (seq : list nat) : Prop :=
  Forall2 (fun a t => match qtype type_of a with Some x => t = x /\ x <> 0 | None => t = 0 end) l seq.
Section Ops.
Variable type_of : nat -> nat.
Variable infer : nat -> list attr -> oerr + attr.
(** The operator accepts the inputs, or it cannot tell yet. *)
Definition accepts (l : list attr) (o : nat) (a : attr) : Prop := infer o l = inr a /\ exists t, qtype type_of a = Some t.
Definition cannot_tell (l : list attr) (o : nat) : Prop := exists a, infer o l = inr a /\ qtype type_of a = None.
Definition rejects (l : list attr) (o : nat) : Prop := infer o l = inl Invalid.
(** An operator does not change its mind when more is known. *)
Definition settled : Prop := forall o l l', Forall2 (below type_of) l l' ->
  (infer o l = inl Invalid -> infer o l' = inl Invalid) /\
  (forall a, accepts l o a -> exists a', accepts l' o a' /\ below type_of a a').
End Ops.

(** [parses tuple pat seq fs]: the sequence of types has one for every p and P, known for P;
    v and V take all that are left, known for V; the fields are those of P and V in order. *)
Inductive parses (tuple : list nat -> nat) : list pc -> list nat -> list nat -> Prop :=
  | par_end : parses tuple [] [] []
  | par_skip x pat r fs : parses tuple pat r fs -> parses tuple (Cp :: pat) (x :: r) fs
  | par_take x pat r fs : x <> 0 -> parses tuple pat r fs -> parses tuple (CP :: pat) (x :: r) (x :: fs)
  | par_skips pat seq fs : parses tuple pat [] fs -> parses tuple (Cv :: pat) seq fs
  | par_takes pat seq fs : ~ In 0 seq -> parses tuple pat [] fs -> parses tuple (CV :: pat) seq (tuple seq :: fs).
