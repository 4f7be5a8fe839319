(** Model of the logical operators on scalars: arolla/qexpr/operators/bool/logic.h and the presence
    operators of arolla/qexpr/operators/core/logic_operators.h.  An OptionalValue keeps a value also
    if it is missing, and this value may be anything. *)
From Verif Require Import Base.

Record opt (A : Type) := mk { present : bool; value : A }.
Arguments mk {A}. Arguments present {A}. Arguments value {A}.
(** OptionalValue<T>{v}, OptionalValue<T>{}: the value of the latter is T{} *)
Definition made {A} (v : A) : opt A := mk true v.

(** bool/logic.h:31-46 [LogicalAndOp] *)
Definition logical_and (l r : opt bool) : opt bool :=
  if present l then (if negb (value l) then made false else r)
  else if present r then (if negb (value r) then made false else l)
  else mk false false.
(** bool/logic.h:52-68 [LogicalOrOp] *)
Definition logical_or (l r : opt bool) : opt bool :=
  if present l then (if value l then made true else r)
  else if present r then (if value r then made true else l)
  else mk false false.
(** bool/logic.h:72-75 [LogicalNotOp], lifted to optional values *)
Definition logical_not (a : opt bool) : opt bool := if present a then made (negb (value a)) else mk false false.
Section Values.
Variable T : Type.
Variable dflt : T. (** T{} *)
(** bool/logic.h:79-104 [LogicalIfOp] *)
Definition logical_if (c : opt bool) (t f m : opt T) : opt T :=
  if present c then (if value c then t else f) else m.
(** core/logic_operators.h:53-91 [PresenceOrOp]: two optional values, and an optional and a full one *)
Definition presence_or (l r : opt T) : opt T := if present l then l else r.
Definition presence_or_full (l : opt T) (r : T) : T := if present l then value l else r.
(** core/logic_operators.h:95-137 [PresenceAndOp]; a mask is whether it is present *)
Definition presence_and (l : opt T) (c : bool) : opt T := if c then l else mk false dflt.
Definition presence_and_full (l : T) (c : bool) : opt T := if c then made l else mk false dflt.
(** core/logic_operators.h:140-174 [WhereOp] *)
Definition where_op (c : bool) (a b : opt T) : opt T := if c then a else b.
(** core/logic_operators.h:178-224 [PresenceAndOrOp], the four kinds of arguments *)
Definition and_or (a : opt T) (b : bool) (c : opt T) : opt T := if b && present a then a else c.
Definition and_or_full_c (a : opt T) (b : bool) (c : T) : T := if b && present a then value a else c.
Definition and_or_full_a (a : T) (b : bool) (c : opt T) : opt T := if b then made a else c.
Definition and_or_full (a : T) (b : bool) (c : T) : T := if b then a else c.
(** core/logic_operators.h:40-49 [HasOp], 227-233 [PresenceNotOp] *)
Definition has (a : opt T) : bool := present a.
Definition presence_not (a : opt T) : bool := negb (present a).
End Values.
