(** A buffer of strings is a list of strings. *)
From Verif Require Import Base GroupOps_Model SBuf_Model.
Local Open Scope Z_scope.

(** [b] holds the strings [l]. *)
Definition holds (b : sbuf) (l : list (list Z)) : Prop :=
  length (s_offs b) = length l /\ forall i v, rd l i = Some v -> s_get b i = Some v.
(** Every row lies in the characters. *)
Definition valid (b : sbuf) : Prop :=
  Forall (fun o => s_base b <= fst o <= snd o /\ snd o <= s_base b + zlen (s_chars b)) (s_offs b).

Definition set_range {A} (l : list A) (i n : nat) (x : A) : list A :=
  firstn i l ++ repeat x n ++ skipn (i + n) l.
(** Builder operations on lists of strings; [None]: outside of the list. *)
Definition spec_op (l : list (list Z)) (o : bop) : option (list (list Z)) :=
  match o with
  | BSet i v => upd l i v
  | BCopy f t => let? v := rd l f in upd l t v
  | BConst i n v => if n <=? 0 then Some l else
                    if (i + Z.to_nat n <=? length l)%nat then Some (set_range l i (Z.to_nat n) v) else None
  end.
Definition spec_rop (old l : list (list Z)) (o : rop) : option (list (list Z)) :=
  match o with
  | RCopy n i => let? v := rd old i in upd l n v
  | RRange f t i => let? v := rd old i in
                    if (f + (t - f) <=? length l)%nat then Some (set_range l f (t - f) v) else None
  end.
(** Characters appended by an operation. *)
Definition cost (o : bop) : Z := match o with BSet _ v => zlen v | BCopy _ _ => 0 | BConst _ _ v => zlen v end.
