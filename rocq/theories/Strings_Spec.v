(** Grammar of identifiers, and single typos, independent of the code. *)
From Verif Require Import Base.
Local Open Scope Z_scope.

Definition letter (c : Z) : Prop := 65 <= c <= 90 \/ 97 <= c <= 122.
Definition digit (c : Z) : Prop := 48 <= c <= 57.
(** [A-Za-z_][A-Za-z0-9_]* *)
Definition identifier (s : list Z) : Prop :=
  exists c t, s = c :: t /\ (c = 95 \/ letter c) /\ Forall (fun d => d = 95 \/ letter d \/ digit d) t.
(** Parts joined by a delimiter. *)
Fixpoint join (delim : list Z) (parts : list (list Z)) : list Z :=
  match parts with
  | [] => []
  | [p] => p
  | p :: t => p ++ delim ++ join delim t
  end.
(** Identifiers separated by dots. *)
Definition qualified (s : list Z) : Prop :=
  exists parts, parts <> [] /\ Forall identifier parts /\ s = join [46] parts.

(** One insertion, deletion, substitution or transposition of neighbours. *)
Inductive one_edit : list Z -> list Z -> Prop :=
| edit_insert u x v : one_edit (u ++ v) (u ++ x :: v)
| edit_delete u x v : one_edit (u ++ x :: v) (u ++ v)
| edit_replace u x y v : one_edit (u ++ x :: v) (u ++ y :: v)
| edit_swap u x y v : one_edit (u ++ x :: y :: v) (u ++ y :: x :: v).
Definition within_one (a b : list Z) : Prop := a = b \/ one_edit a b.
