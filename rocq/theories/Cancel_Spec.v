(** Vocabulary for histories of a cancellation context; the latest event comes first. *)
From Verif Require Import Base Cancel_Model.

Definition cancelled (h : list ev) : Prop := exists e, In (EvCancel e) h.
(** [p] was the history at some earlier time. *)
Definition earlier (p h : list ev) : Prop := exists q, h = q ++ p.
(** Identifiers of the called callbacks. *)
Definition calls (h : list ev) : list nat := flat_map (fun e => match e with EvCall a => [a] | _ => [] end) h.
(** All operations have returned. *)
Definition quiescent (s : ctx) : Prop := forall t, pcs s t = Idle.
(** A thread that waits for the mutex. *)
Definition waits (p : pc) : Prop :=
  match p with CLock _ | SLock _ | DLock _ | GLock => True | _ => False end.

(** The destructor of [a]'s subscription (or its return) happened before the cancellation. *)
Definition before_cancel (e : ev) (h : list ev) : Prop := exists q p, h = q ++ p /\ In e p /\ ~ cancelled p.

(** Nested scopes: a stack of guards with their contexts. *)
Fixpoint scopes (st : list (nat * option nat)) (l : list gop) : option (list (nat * option nat)) :=
  match l with
  | [] => Some st
  | GPush a c :: r => if existsb (fun e => Nat.eqb a (fst e)) st then None else scopes ((a, c) :: st) r
  | GPop a :: r => match st with (b, _) :: st' => if a =? b then scopes st' r else None | [] => None end
  end.
