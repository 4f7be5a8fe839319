(** Model of implicit casting and of the choice among overloads:
    arolla/qtype/standard_type_properties/common_qtype.cc and properties.cc,
    the shape types of arolla/qtype/shape_qtype.cc, dense_array/qtype/types.cc
    and array/qtype/types.cc, and arolla/qexpr/casting.cc.
    A type is its structure; the C++ compares addresses of unique objects.
    [nullptr] is [None]. *)
From Verif Require Import Base.

(** qtype/base_types.cc:45-53 [GetScalarQTypes] *)
Inductive scal := Unit | Bool | I32 | I64 | U64 | F32 | F64 | Weak | Bytes | Text.
(** [QOpt] and [QArr]: what [IsOptionalQType] and [IsArrayLikeQType] recognise;
    the number is the kind of the array (DenseArray, Array, ...).  [QBox]:
    other types with a [value_qtype], e.g. sequences and key-to-row dicts.
    [QAtom]: other types without one, e.g. tuples and expr quotes. *)
Inductive qt := QScal (s : scal) | QOpt (v : qt) | QArr (k : nat) (v : qt) | QBox (id : nat) (v : qt) | QAtom (id : nat).
Definition scal_eq_dec (a b : scal) : {a = b} + {a <> b}. Proof. decide equality. Defined.
Definition qt_eq_dec (a b : qt) : {a = b} + {a <> b}. Proof. decide equality; try apply scal_eq_dec; apply Nat.eq_dec. Defined.
Definition qt_eqb (a b : qt) : bool := if qt_eq_dec a b then true else false.

(** qtype.h [value_qtype] *)
Definition value_qtype (q : qt) : option qt :=
  match q with QScal _ | QAtom _ => None | QOpt v | QArr _ v | QBox _ v => Some v end.
(** base_types.cc:74-77 *)
Definition is_scalar (q : qt) : bool := match q with QScal _ => true | _ => false end.
Definition is_optional (q : qt) : bool := match q with QOpt _ => true | _ => false end.
(** optional_qtype.cc:101-103 [DecayOptionalQType] *)
Definition decay_opt (q : qt) : qt := match q with QOpt v => v | _ => q end.

Inductive shape := ShScalar | ShOpt | ShArr (k : nat).
Definition shape_eq_dec (a b : shape) : {a = b} + {a <> b}. Proof. decide equality; apply Nat.eq_dec. Defined.
Definition oshape_eqb (a b : option shape) : bool :=
  match a, b with None, None => true | Some x, Some y => if shape_eq_dec x y then true else false | _, _ => false end.
Definition is_array_shape (a : option shape) : bool := match a with Some (ShArr _) => true | _ => false end.

(** properties.cc:30-41 *)
Definition get_scalar (q : qt) : option qt :=
  match value_qtype q with Some v => Some v | None => if is_scalar q then Some q else None end.
(** properties.cc:52-69 *)
Definition get_shape (q : qt) : option shape :=
  match q with QScal _ => Some ShScalar | QOpt _ => Some ShOpt | QArr k _ => Some (ShArr k) | _ => None end.

(** common_qtype.cc:56-58 *)
Definition numeric : list qt := map QScal [F64; F32; I64; I32].
(** absl::c_find; the position of end() is the length. *)
Fixpoint find_pos (l : list qt) (q : qt) : nat := match l with [] => 0 | x :: t => if qt_eqb x q then 0 else S (find_pos t q) end.
(** common_qtype.cc:41-66 *)
Definition common_scalar (l r : qt) : option qt :=
  if qt_eqb l r then Some l else
  let l := if qt_eqb l (QScal Weak) then QScal F32 else l in
  let r := if qt_eqb r (QScal Weak) then QScal F32 else r in
  let i := find_pos numeric l in
  let j := find_pos numeric r in
  if negb (i =? length numeric) && negb (j =? length numeric) then rd numeric (Nat.min i j) else None.
(** common_qtype.cc:68-92 *)
Definition common_shape (l r : option shape) (broadcasting : bool) : option shape :=
  if oshape_eqb l r then r else
  if negb broadcasting && (is_array_shape l || is_array_shape r) then None else
  if oshape_eqb l (Some ShScalar) then r else
  if oshape_eqb r (Some ShScalar) then l else
  if oshape_eqb l (Some ShOpt) then r else
  if oshape_eqb r (Some ShOpt) then l else None.

Section Registry.
(** The types that the program has registered: [OptionalQTypeMaps] and
    [ValueToArrayLikeTypeMapping], per kind of array. *)
Variable has_opt : qt -> bool.
Variable has_arr : nat -> qt -> bool.

(** optional_qtype.cc:49-57 [ToOptionalQType] *)
Definition to_optional (q : qt) : option qt := if is_optional q then Some q else if has_opt q then Some (QOpt q) else None.
(** shape_qtype.cc:36-42 [EnsureIsBaseType] *)
Definition is_base (q : qt) : bool := is_scalar q || is_optional q.
(** [ShapeQType::WithValueQType]: shape_qtype.cc:50-53, 66-69;
    dense_array/qtype/types.cc:107-109, 119-123; array/qtype/types.cc *)
Definition with_value (sh : shape) (v : qt) : option qt :=
  match sh with
  | ShScalar => if is_base v then Some v else None
  | ShOpt => if is_base v then to_optional v else None
  | ShArr k => if has_arr k (decay_opt v) then Some (QArr k (decay_opt v)) else None
  end.

(** common_qtype.cc:96-126 *)
Definition common (b : bool) (l r : option qt) : option qt :=
  let? l := l in let? r := r in
  if qt_eqb l r then Some l else
  let? ls := get_scalar l in
  let? rs := get_scalar r in
  let? s := common_scalar ls rs in
  let? sh := common_shape (get_shape l) (get_shape r) b in
  with_value sh s.
(** common_qtype.cc:128-132 *)
Definition can_cast (b : bool) (from to : qt) : bool :=
  match common b (Some from) (Some to) with Some q => qt_eqb q to | None => false end.
(** common_qtype.cc:134-144 *)
Definition common_list (b : bool) (l : list qt) : option qt :=
  match l with [] => None | q :: t => fold_left (fun acc x => common b acc (Some x)) t (Some q) end.
(** common_qtype.cc:146-167 *)
Definition broadcast (targets : list qt) (q : qt) : option qt :=
  let sh := fold_left (fun sh t => common_shape sh (get_shape t) true) targets (get_shape q) in
  let? sh := sh in
  let? s := get_scalar q in
  with_value sh s.

(** ** qexpr/casting.cc *)
Record sig := mkS { s_in : list qt; s_out : qt }.
(** casting.cc:37-51 *)
Fixpoint can_cast_all (from to : list qt) : bool :=
  match from, to with
  | [], [] => true
  | f :: from', t :: to' => can_cast true f t && can_cast_all from' to'
  | _, _ => false
  end.
(** casting.cc:87-101: one pass over the frontier; [i] is the position of
    [previous], [o] that of [out_it].  The result has [dominates] and [dominated]. *)
Fixpoint scan (c : sig) (n i o : nat) (fr : list sig) (dominates : bool) : option (list sig * nat * bool * bool) :=
  match n with
  | O => Some (fr, o, dominates, false)
  | S n' =>
      let? p := rd fr i in
      if can_cast_all (s_in c) (s_in p) then scan c n' (S i) o fr true
      else if dominates || negb (can_cast_all (s_in p) (s_in c))
      then let? fr := upd fr o p in scan c n' (S i) (S o) fr dominates
      else Some (fr, o, dominates, true)
  end.
(** casting.cc:87-107 *)
Definition insert (c : sig) (fr : list sig) : option (list sig) :=
  let? (fr, o, dominates, dominated) := scan c (length fr) 0 0 fr false in
  let fr := if dominates then firstn o fr else fr in
  Some (if dominated then fr else fr ++ [c]).

(** [DerivedQTypeInterface::GetBaseQType] of the types that the model does not
    take apart; derived_qtype.cc:63-69 [DecayDerivedQType].  The derived types
    among the others are those of weak floats (weak_qtype.cc, types.cc). *)
Variable base : nat -> qt.
Definition decay (q : qt) : qt :=
  match q with
  | QScal Weak => QScal F64
  | QOpt (QScal Weak) => QOpt (QScal F64)
  | QArr k (QScal Weak) => QArr k (QScal F64)
  | QAtom i | QBox i _ => base i
  | _ => q
  end.

Inductive found := Found (s : sig) | NotFound | Ambiguous (l : list sig).
Definition types_eqb (a b : list qt) : bool := if list_eq_dec qt_eq_dec a b then true else false.
(** casting.cc:73-108: [inl]: returned from inside the loop *)
Fixpoint search (ins : list qt) (out : qt) (sigs : list sig) (fr : list sig) : option (sig + list sig) :=
  match sigs with
  | [] => Some (inr fr)
  | c :: t =>
      if negb (qt_eqb (decay out) (s_out c)) then search ins out t fr
      else if types_eqb (map decay ins) (s_in c) then Some (inl c)
      else if negb (can_cast_all ins (s_in c)) then search ins out t fr
      else let? fr := insert c fr in search ins out t fr
  end.
(** casting.cc:62-124 [FindMatchingSignature] *)
Definition find_sig (ins : list qt) (out : qt) (sigs : list sig) : option found :=
  let? r := search ins out sigs [] in
  match r with
  | inl s => Some (Found s)
  | inr [] => Some NotFound
  | inr [s] => Some (Found s)
  | inr fr => Some (Ambiguous fr)
  end.
End Registry.
