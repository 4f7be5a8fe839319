(** What implicit casting and overload resolution promise.  Only the data types
    of the model ([scal], [qt], [shape], [sig]) are used here. *)
From Coq Require Import Relations.
From Verif Require Import Base Ovl_Model.

(** The casts between scalars that common_qtype.cc:36-39 lists. *)
Inductive scalar_step : qt -> qt -> Prop :=
  | st_i32 : scalar_step (QScal I32) (QScal I64)
  | st_i64 : scalar_step (QScal I64) (QScal F32)
  | st_f32 : scalar_step (QScal F32) (QScal F64)
  | st_weak : scalar_step (QScal Weak) (QScal F32).
Definition scalar_le : qt -> qt -> Prop := clos_refl_trans qt scalar_step.

(** A scalar becomes an optional; with broadcasting, both become arrays. *)
Inductive shape_le (broadcasting : bool) : shape -> shape -> Prop :=
  | sh_refl s : shape_le broadcasting s s
  | sh_opt : shape_le broadcasting ShScalar ShOpt
  | sh_arr s k : broadcasting = true -> s = ShScalar \/ s = ShOpt -> shape_le broadcasting s (ShArr k).

(** [parts q sh v]: [q] has the shape [sh] and values of type [v]. *)
Inductive parts : qt -> shape -> qt -> Prop :=
  | p_scal s : parts (QScal s) ShScalar (QScal s)
  | p_opt v : parts (QOpt v) ShOpt v
  | p_arr k v : parts (QArr k v) (ShArr k) v.

Definition casts (b : bool) (x y : qt) : Prop :=
  x = y \/ exists sh v sh' v', parts x sh v /\ parts y sh' v' /\ scalar_le v v' /\ shape_le b sh sh'.

Section Registry.
Variable has_opt : qt -> bool.
Variable has_arr : nat -> qt -> bool.
(** The types of the program.  No type is an optional of an optional, or an
    array of optionals. *)
Definition known (q : qt) : Prop :=
  match q with
  | QOpt v => has_opt v = true /\ (forall u, v <> QOpt u)
  | QArr k v => has_arr k v = true /\ (forall u, v <> QOpt u)
  | _ => True
  end.
(** All kinds of arrays, and the optionals, come with the four number types
    (AROLLA_FOREACH_BASE_TYPE). *)
Definition numbers_known : Prop :=
  forall s, In s [I32; I64; F32; F64] -> has_opt (QScal s) = true /\ forall k v, has_arr k v = true -> has_arr k (QScal s) = true.

Definition upper (b : bool) (l : list qt) (z : qt) : Prop := known z /\ forall x, In x l -> casts b x z.
Definition least_upper (b : bool) (l : list qt) (z : qt) : Prop := upper b l z /\ forall w, upper b l w -> casts b z w.
End Registry.

(** The least shape above all of [l]. *)
Definition least_shape (l : list shape) (z : shape) : Prop :=
  (forall s, In s l -> shape_le true s z) /\ forall w, (forall s, In s l -> shape_le true s w) -> shape_le true z w.

(** ** Overloads *)
Section Match.
Variable decayed : qt -> qt.
Variables (ins : list qt) (out : qt) (sigs : list sig).
Definition exact (s : sig) : Prop := s_in s = map decayed ins /\ s_out s = decayed out.
Definition fits (s : sig) : Prop := s_out s = decayed out /\ Forall2 (casts true) ins (s_in s).
(** The signature matches up to derived types or, when none of the supported
    ones does, casts to every other one that fits. *)
Definition best (s : sig) : Prop :=
  In s sigs /\
  (exact s \/ (forall c, In c sigs -> ~ exact c) /\ fits s /\ forall c, In c sigs -> fits c -> Forall2 (casts true) (s_in s) (s_in c)).
Definition minimal (s : sig) : Prop :=
  In s sigs /\ fits s /\ forall c, In c sigs -> fits c -> Forall2 (casts true) (s_in c) (s_in s) -> c = s.
End Match.
