(** What a while loop means: the state variables get their initial values, then, as
    long as the condition holds, the values of the body, all at once. *)
From Verif Require Import Base While_Model.

(** What is assumed of the values and operators of a program. *)
Record lang_ok (G : lang) : Prop := mkLangOk {
  user_sound : forall n vs v, user G n vs = Some v -> user_ty G n (map (ty G) vs) = Some (ty G v);
  pack_sound : forall fs vs, ty G (pack G fs vs) = pack_ty G fs (map (ty G) vs);
  nth_pack : forall fs vs i, nth_of G i (pack G fs vs) = nth_error vs i;
  nth_pack_ty : forall fs ts i, nth_ty G i (pack_ty G fs ts) = nth_error ts i;
  nth_sound : forall i v x, nth_of G i v = Some x -> nth_ty G i (ty G v) = Some (ty G x);
  cast_sound : forall t v x, cast G t v = Some x -> ty G x = t /\ cast_ty G t (ty G v) = Some t;
  cast_ty_sound : forall t a t', cast_ty G t a = Some t' -> t' = t }.

Inductive sub (x : expr) : expr -> Prop :=
  | sub_refl : sub x x
  | sub_arg o args y : In y args -> sub x y -> sub x (Op o args).
(** Expressions of the user. *)
Definition plain (e : expr) : Prop := forall args, ~ sub (Op CastLike args) e.
(** [loop_inputs]: maps without repeated keys, expressions of the user; the body gives
    next values to initialised variables, and mentions nothing else. *)
Definition loop_inputs (init : items) (cond : expr) (body : items) : Prop :=
  NoDup (keys init) /\ NoDup (keys body) /\ plain cond /\ (forall k e, In (k, e) body -> plain e) /\
  incl (keys body) (keys init) /\ incl (plcs cond) (keys init) /\ (forall k e, In (k, e) body -> incl (plcs e) (keys init)).
(** No variable has a name that the code reserves for itself. *)
Definition no_reserved (init : items) : Prop := forall k, In k (keys init) -> starts_with imm_prefix k = false.

(** What MakeWhileLoop asks for. *)
Definition accepted (G : lang) (ident : key -> bool) (init : items) (cond : expr) (body : items) (names : list key) : Prop :=
  incl (keys body) (keys init) /\ incl (plcs cond) (keys init) /\ (forall k e, In (k, e) body -> incl (plcs e) (keys init)) /\
  fields_ok G names = true /\ (forall k, In k (keys init) -> ~ In k (keys body) -> ident k = true /\ k <> loop_state).

(** The fields of the result: the names of the body in increasing order. *)
Definition fields_of (body : items) (names : list key) : Prop :=
  (forall k, In k names <-> In k (keys body)) /\ NoDup names /\
  (forall i j, i < j < length names -> kle (nth i names []) (nth j names []) = true).

Section S.
Variables (G : lang) (LT PT : key -> option (T G)) (L P : key -> option (V G)).
Variables (init : items) (cond : expr) (body : items) (names : list key).
(** The types of the variables at first, and after the conversion to the type that
    the body gives. *)
Definition ty0 (k : key) : option (T G) := let? e := get init k in ety LT PT e.
Definition ty1 (k : key) : option (T G) := match get body k with Some e => ety LT ty0 e | None => ty0 k end.
Definition well_typed : Prop :=
  (forall k, In k (keys init) -> ty0 k <> None) /\
  (forall k e, get body k = Some e -> exists a t, ty0 k = Some a /\ ety LT ty0 e = Some t /\ cast_ty G t a = Some t /\ ety LT ty1 e = Some t) /\
  ety LT ty1 cond = Some (cond_ty G).

Definition val0 (k : key) : option (V G) := let? e := get init k in eval LT PT L P e.
(** The variables of the loop before the first iteration; the other ones keep their
    initial values. *)
Definition start : option (list (V G)) :=
  map_opt (fun k => let? v := val0 k in let? e := get body k in let? t := ety LT ty0 e in cast G t v) names.
Definition state (vs : list (V G)) (k : key) : option (V G) := match get (combine names vs) k with Some v => Some v | None => val0 k end.
(** The value of an expression in a state; it has no conversions, so that the types do
    not matter. *)
Definition value (vs : list (V G)) (e : expr) : option (V G) := eval no_leaves no_leaves L (state vs) e.
Definition next (vs : list (V G)) : option (list (V G)) := map_opt (fun k => let? e := get body k in value vs e) names.
Inductive iter : list (V G) -> option (list (V G)) -> Prop :=
  | iter_cond_error vs : value vs cond = None -> iter vs None
  | iter_done vs c : value vs cond = Some c -> truthy G c = false -> iter vs (Some vs)
  | iter_body_error vs c : value vs cond = Some c -> truthy G c = true -> next vs = None -> iter vs None
  | iter_next vs c vs' r : value vs cond = Some c -> truthy G c = true -> next vs = Some vs' -> iter vs' r -> iter vs r.
(** The outcome: the final values, or an error. *)
Inductive outcome : option (V G) -> Prop :=
  | out_init_error : (exists k, In k (keys init) /\ val0 k = None) -> outcome None
  | out_cast_error : (forall k, In k (keys init) -> val0 k <> None) -> start = None -> outcome None
  | out_loop vs r : (forall k, In k (keys init) -> val0 k <> None) -> start = Some vs -> iter vs r ->
      outcome (option_map (pack G names) r).
(** The states before each evaluation of the condition, and their types. *)
Inductive reached : list (V G) -> Prop :=
  | reached_start vs : start = Some vs -> reached vs
  | reached_next vs c vs' : reached vs -> value vs cond = Some c -> truthy G c = true -> next vs = Some vs' -> reached vs'.
Definition has_types (vs : list (V G)) : Prop := Forall2 (fun k v => ty1 k = Some (ty G v)) names vs.
(** What does not depend on the state has a value. *)
Definition invariants_ok : Prop :=
  forall e x, e = cond \/ In e (map snd body) -> sub x e -> plcs x = [] -> eval no_leaves no_leaves L no_leaves x <> None.
End S.
