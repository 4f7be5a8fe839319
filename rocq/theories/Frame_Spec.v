(** Where the fields of a frame are, read off the returned slots. *)
From Coq Require Import Permutation.
From Verif Require Import Base Frame_Model.

Definition is_pow2 (a : nat) : Prop := exists k, a = 2 ^ k.
(** What the compiler guarantees about a type. *)
Definition type_ok (T : nat -> tinfo) (t : nat) : Prop :=
  is_pow2 (t_align (T t)) /\ t_size (T t) mod t_align (T t) = 0 /\
  Forall (fun s => fst s + t_size (T (snd s)) <= t_size (T t)) (t_sub (T t)).
Inductive op_ok (T : nat -> tinfo) : op -> Prop :=
| ok_slot t : type_ok T t -> op_ok T (OSlot t)
| ok_sub ord ops : (forall l, Permutation (ord l) l) -> Forall (op_ok T) ops -> op_ok T (OSub ord ops)
| ok_reg o sz t dup : op_ok T (OReg o sz t dup).

Definition shift (o : nat) (fs : list (nat * nat)) : list (nat * nat) := map (fun f => (o + fst f, snd f)) fs.
(** All the fields (offset and type) of a frame, those of nested frames included. *)
Fixpoint fields1 (s : slot) : list (nat * nat) :=
  match s with
  | SSlot o t => [(o, t)]
  | SSub o _ _ inner => shift o (flat_map fields1 inner)
  end.
Definition fields (ss : list slot) : list (nat * nat) := flat_map fields1 ss.
Definition s_off (s : slot) : nat := match s with SSlot o _ => o | SSub o _ _ _ => o end.
Definition s_size (T : nat -> tinfo) (s : slot) : nat := match s with SSlot _ t => t_size (T t) | SSub _ z _ _ => z end.
Definition s_align (T : nat -> tinfo) (s : slot) : nat := match s with SSlot _ t => t_align (T t) | SSub _ _ a _ => a end.

(** Further guarantees of the compiler: no empty objects, distinct subfields. *)
Definition type_pos (T : nat -> tinfo) (t : nat) : Prop :=
  0 < t_size (T t) /\ Forall (fun s => 0 < t_size (T (snd s))) (t_sub (T t)) /\ NoDup ((0, t) :: t_sub (T t)).
Inductive op_pos (T : nat -> tinfo) : op -> Prop :=
| pos_slot t : type_pos T t -> op_pos T (OSlot t)
| pos_sub ord ops : Forall (op_pos T) ops -> op_pos T (OSub ord ops)
| pos_reg o sz t dup : 0 < sz -> op_pos T (OReg o sz t dup).
