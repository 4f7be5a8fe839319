(** Model of the accumulators in
    arolla/qexpr/operators/aggregation/group_op_accumulators.h.
    Values are 64-bit counters as unbounded integers (fewer than 2^63 rows).  A
    GetResult that reads outside a vector returns an arbitrary value [oob] and a
    FinalizeFullGroup that writes outside one ends in an arbitrary state [ub]; the
    theorems hold for all of them.  std::sort, std::nth_element and std::partition
    are arbitrary functions with the guarantees of the C++ standard. *)
From Verif Require Import Base GroupOps_Model.

(** Element types as seen by comparisons: [cmp a b] is the partial_ordering of a and
    b ([None]: unordered), [nan] is std::isnan (false for types without NaN). *)
Record ord (T : Type) := { nan : T -> bool; cmp : T -> T -> option comparison }.
Arguments nan {T}. Arguments cmp {T}.
Definition o_lt {T} (o : ord T) (a b : T) : bool := match cmp o a b with Some Lt => true | _ => false end.
Definition o_le {T} (o : ord T) (a b : T) : bool := match cmp o a b with Some Lt | Some Eq => true | _ => false end.
Definition o_eq {T} (o : ord T) (a b : T) : bool := match cmp o a b with Some Eq => true | _ => false end.
(** Integers. *)
Definition int_ord : ord Z := {| nan := fun _ => false; cmp := fun a b => Some (a ?= b)%Z |}.
(** IEEE 754 binary formats by their bits: sign bit above [w] bits of magnitude, NaN
    above the magnitude [inf] of infinity (float: w = 31, inf = 0x7f800000). *)
Definition fp_key (w : N) (x : N) : Z :=
  let mag := Z.of_N (x mod 2 ^ w) in if N.testbit x w then (- mag)%Z else mag.
Definition fp_nan (w inf : N) (x : N) : bool := (inf <? x mod 2 ^ w)%N.
Definition fp_ord (w inf : N) : ord N :=
  {| nan := fp_nan w inf;
     cmp := fun a b => if fp_nan w inf a || fp_nan w inf b then None else Some (fp_key w a ?= fp_key w b)%Z |}.
Definition float32 : ord N := fp_ord 31 2139095040.
(** Strings, compared as std::string_view. *)
Fixpoint bytes_cmp (a b : list N) : comparison :=
  match a, b with
  | [], [] => Eq
  | [], _ => Lt
  | _, [] => Gt
  | x :: s, y :: t => match (x ?= y)%N with Eq => bytes_cmp s t | c => c end
  end.
Definition bytes_ord : ord (list N) := {| nan := fun _ => false; cmp := fun a b => Some (bytes_cmp a b) |}.

(** Two's complement, [w] bits. *)
Definition sw (w : Z) (z : Z) : Z := ((z + 2 ^ (w - 1)) mod 2 ^ w - 2 ^ (w - 1))%Z.

(** An accumulator without errors, parent arguments and child ids. *)
Definition plain {S C R} (k : kind) (copts : list bool) (empty : S) (reset : S -> S) (add : list (option C) -> S -> S)
  (finalize : S -> S) (result : S -> option R * S) : accum S C C R unit :=
  {| a_kind := k; a_forward_id := false; a_popts := []; a_copts := copts; a_empty := empty; a_reset := fun _ => reset;
     a_add := fun _ => add; a_finalize := finalize; a_result := result; a_status := fun _ => None |}.
Definition with_status {S C R} (k : kind) (copts : list bool) (empty : S) (reset : S -> S) (add : list (option C) -> S -> S)
  (finalize : S -> S) (result : S -> option R * S) (status : S -> option unit) : accum S C C R unit :=
  {| a_kind := k; a_forward_id := false; a_popts := []; a_copts := copts; a_empty := empty; a_reset := fun _ => reset;
     a_add := fun _ => add; a_finalize := finalize; a_result := result; a_status := status |}.
(** aggregation_ops_interface.h:125-129: the default AddN *)
Definition addn_default {S C} (add : list (option C) -> S -> S) (n : nat) (r : list (option C)) (s : S) : S := Nat.iter n (add r) s.

(** group_op_accumulators.h:52-64 [SimpleCountAccumulator] *)
Definition count_acc (k : kind) : accum Z unit unit Z unit :=
  plain k [false] 0%Z (fun _ => 0%Z) (fun _ s => (s + 1)%Z) (fun s => s) (fun s => (Some s, s)).
Definition count_addn (n : nat) (_ : list (option unit)) (s : Z) : Z := (s + Z.of_nat n)%Z.

(** 70-78 [AnyAccumulator]; the field is not initialised *)
Definition any_acc (k : kind) (init : bool) : accum bool unit unit unit unit :=
  plain k [false] init (fun _ => false) (fun _ _ => true) (fun s => s) (fun s => (if s then Some tt else None, s)).
Definition any_addn (n : nat) (_ : list (option unit)) (s : bool) : bool := true.

(** 83-96 [AllAccumulator] *)
Definition all_add (r : list (option unit)) (s : bool) : bool := match r with [v] => s && (match v with Some _ => true | None => false end) | _ => s end.
Definition all_acc (k : kind) (init : bool) : accum bool unit unit unit unit :=
  plain k [true] init (fun _ => true) all_add (fun s => s) (fun s => (if s then Some tt else None, s)).
Definition all_addn (n : nat) (r : list (option unit)) (s : bool) : bool := all_add r s.

(** 103-122 [LogicalAllAccumulator]: has_false, has_missing *)
Definition logical_all_add (r : list (option bool)) (s : bool * bool) : bool * bool :=
  match r with
  | [v] => (fst s || (match v with Some b => negb b | None => false end), snd s || (match v with Some _ => false | None => true end))
  | _ => s
  end.
Definition logical_all_acc (k : kind) (init : bool * bool) : accum (bool * bool) bool bool bool unit :=
  plain k [true] init (fun _ => (false, false)) logical_all_add (fun s => s)
    (fun s => (if fst s || negb (snd s) then Some (negb (fst s)) else None, s)).
Definition logical_all_addn (n : nat) := logical_all_add.

(** 128-148 [LogicalAnyAccumulator]: has_true, has_missing *)
Definition logical_any_add (r : list (option bool)) (s : bool * bool) : bool * bool :=
  match r with
  | [v] => (fst s || (match v with Some b => b | None => false end), snd s || (match v with Some _ => false | None => true end))
  | _ => s
  end.
Definition logical_any_acc (k : kind) (init : bool * bool) : accum (bool * bool) bool bool bool unit :=
  plain k [true] init (fun _ => (false, false)) logical_any_add (fun s => s)
    (fun s => (if fst s || negb (snd s) then Some (fst s) else None, s)).
Definition logical_any_addn (n : nat) := logical_any_add.

(** Arithmetic of the element type [V] and of its WideAccumulator [A] (157-170):
    AddOp and MultiplyOp (math/arithmetic.h:41-56, 73-86), the casts and the cast of
    an int64. *)
Record arith (V A : Type) := { r_add : A -> A -> A; r_mul : A -> A -> A; r_wide : V -> A; r_narrow : A -> V; r_count : Z -> A; r_zero : V }.
Arguments r_add {V A}. Arguments r_mul {V A}. Arguments r_wide {V A}. Arguments r_narrow {V A}. Arguments r_count {V A}. Arguments r_zero {V A}.
(** int32_t, int64_t: unsigned arithmetic modulo 2^w *)
Definition int_arith (w : Z) : arith Z Z :=
  {| r_add := fun a b => sw w (a + b); r_mul := fun a b => sw w (a * b); r_wide := fun v => v; r_narrow := fun v => v; r_count := sw w; r_zero := 0%Z |}.

(** 172-205 [SumAccumulator]: the OptionalValue is a flag and a value *)
Definition sum_add {V A} (ar : arith V A) (r : list (option V)) (s : bool * A) : bool * A :=
  match r with [Some v] => (true, r_add ar (snd s) (r_wide ar v)) | _ => s end.
Definition sum_acc {V A} (ar : arith V A) (k : kind) (initial : option V) (init : bool * A) : accum (bool * A) V V V unit :=
  plain k [false] init
    (fun _ => match initial with Some v => (true, r_wide ar v) | None => (false, r_wide ar (r_zero ar)) end)
    (sum_add ar) (fun s => s) (fun s => (if fst s then Some (r_narrow ar (snd s)) else None, s)).
Definition sum_addn {V A} (ar : arith V A) (n : nat) (r : list (option V)) (s : bool * A) : bool * A :=
  match r with
  | [Some v] => (true, r_add ar (snd s) (r_mul ar (r_wide ar v) (r_count ar (Z.of_nat n))))
  | _ => s
  end.

(** 252-291 [FunctorAccumulator]; the value of a missing accumulator is never read *)
Definition functor_add {V A} (f : A -> A -> A) (wide : V -> A) (r : list (option V)) (s : option A) : option A :=
  match r with [Some v] => Some (match s with Some a => f a (wide v) | None => wide v end) | _ => s end.
Definition functor_acc {V A} (f : A -> A -> A) (wide : V -> A) (narrow : A -> V) (k : kind) (initial : option V) (init : option A)
  : accum (option A) V V V unit :=
  plain k [false] init (fun _ => option_map wide initial) (functor_add f wide) (fun s => s) (fun s => (option_map narrow s, s)).
Definition functor_addn {V A} (f : A -> A -> A) (wide : V -> A) (ignore_repeating : bool) (n : nat) (r : list (option V)) (s : option A) : option A :=
  if ignore_repeating then functor_add f wide r s else addn_default (functor_add f wide) n r s.
(** 293-313: ProdAggregator; MinAggregator and MaxAggregator with MinOp and MaxOp
    (math/arithmetic.h:246-261) *)
Definition prod_acc {V A} (ar : arith V A) (k : kind) (init : option A) := functor_acc (r_mul ar) (r_wide ar) (r_narrow ar) k None init.
Definition prod_addn {V A} (ar : arith V A) := functor_addn (r_mul ar) (r_wide ar) false.
Definition min_op {T} (o : ord T) (a b : T) : T := if nan o a || o_le o a b then a else b.
Definition max_op {T} (o : ord T) (a b : T) : T := if nan o a || o_le o b a then a else b.
Definition min_acc {T} (o : ord T) (k : kind) (init : option T) := functor_acc (min_op o) (fun v => v) (fun v => v) k None init.
Definition min_addn {T} (o : ord T) := functor_addn (min_op o) (fun v : T => v) true.
Definition max_acc {T} (o : ord T) (k : kind) (init : option T) := functor_acc (max_op o) (fun v => v) (fun v => v) k None init.
Definition max_addn {T} (o : ord T) := functor_addn (max_op o) (fun v : T => v) true.

(** Buffering accumulators. *)
Definition push1 {C} (r : list (option C)) (s : list C) : list C := match r with [Some v] => s ++ [v] | _ => s end.
Section Select.
Context {T : Type}.
Variable o : ord T.
(** std::nth_element(begin, begin + k, end) *)
Variable nth_el : list T -> nat -> list T.
Variable oob : T.

(** 315-366 [InverseCdfAccumulator] with a valid cdf; [ceil_pos n] is
    ceil(cdf * n) - 1 as computed in floating point and converted to int64 *)
Definition inverse_cdf_result (ceil_pos : nat -> Z) (vs : list T) : option T * list T :=
  match find (nan o) vs with
  | Some x => (Some x, vs)
  | None =>
    match vs with
    | [] => (None, vs)
    | _ => let offset := Z.to_nat (Z.max 0 (Z.min (ceil_pos (length vs)) (Z.of_nat (length vs) - 1))) in
           let vs' := nth_el vs offset in (Some (nth offset vs' oob), vs')
    end
  end.
Definition inverse_cdf_acc (ceil_pos : nat -> Z) (init : list T) : accum (list T) T T T unit :=
  plain Aggregator [false] init (fun _ => []) push1 (fun s => s) (inverse_cdf_result ceil_pos).

(** 917-944 [MedianAggregator] *)
Definition median_result (vs : list T) : option T * list T :=
  match vs with
  | [] => (None, vs)
  | _ => match find (nan o) vs with
         | Some x => (Some x, vs)
         | None => let offset := (length vs - 1) / 2 in
                   let vs' := nth_el vs offset in (Some (nth offset vs' oob), vs')
         end
  end.
Definition median_acc (init : list T) : accum (list T) T T T unit :=
  plain Aggregator [false] init (fun _ => []) push1 (fun s => s) median_result.
End Select.

(** 368-413 [CollapseAccumulator]; for types without NaN the first branch with
    [nan = false].  [x0] is the uninitialised value_. *)
Record collapse_st (T : Type) := mkCol { cl_value : T; cl_present : bool; cl_equal : bool; cl_nan : bool }.
Arguments mkCol {T}. Arguments cl_value {T}. Arguments cl_present {T}. Arguments cl_equal {T}. Arguments cl_nan {T}.
Definition collapse_add {T} (o : ord T) (r : list (option T)) (s : collapse_st T) : collapse_st T :=
  match r with
  | [Some v] =>
    if negb (cl_present s) then mkCol v true true (nan o v)
    else mkCol (cl_value s) true (cl_equal s && ((cl_nan s && nan o v) || (negb (cl_nan s) && o_eq o v (cl_value s)))) (cl_nan s)
  | _ => s
  end.
Definition collapse_acc {T} (o : ord T) (x0 : T) : accum (collapse_st T) T T T unit :=
  plain Aggregator [false] (mkCol x0 false false false) (fun s => mkCol (cl_value s) false (cl_equal s) (cl_nan s)) (collapse_add o) (fun s => s)
    (fun s => (if cl_present s && cl_equal s then Some (cl_value s) else None, s)).
Definition collapse_addn {T} (o : ord T) (n : nat) := collapse_add o.

(** 946-1010 [ArgMinAggregator], [ArgMaxAggregator]: index_, min_ and arg_min_;
    [better v min_] is value < min_ or value > max_ *)
Record arg_st (T : Type) := mkArg { ag_index : Z; ag_best : T; ag_arg : option Z }.
Arguments mkArg {T}. Arguments ag_index {T}. Arguments ag_best {T}. Arguments ag_arg {T}.
Definition arg_add {T} (o : ord T) (better : T -> T -> bool) (r : list (option T)) (s : arg_st T) : arg_st T :=
  match r with
  | [Some v] => if (match ag_arg s with None => true | Some _ => false end) || (negb (nan o (ag_best s)) && (nan o v || better v (ag_best s)))
                then mkArg (ag_index s + 1)%Z v (Some (ag_index s)) else mkArg (ag_index s + 1)%Z (ag_best s) (ag_arg s)
  | _ => mkArg (ag_index s + 1)%Z (ag_best s) (ag_arg s)
  end.
Definition arg_acc {T} (o : ord T) (better : T -> T -> bool) (x0 : T) : accum (arg_st T) T T Z unit :=
  plain Aggregator [true] (mkArg 0%Z x0 None) (fun s => mkArg 0%Z (ag_best s) None) (arg_add o better) (fun s => s) (fun s => (ag_arg s, s)).
Definition arg_addn {T} (o : ord T) (better : T -> T -> bool) (n : nat) (r : list (option T)) (s : arg_st T) : arg_st T :=
  let s' := arg_add o better r s in mkArg (ag_index s' + (Z.of_nat n - 1))%Z (ag_best s') (ag_arg s').
Definition argmin_acc {T} (o : ord T) := arg_acc o (o_lt o).
Definition argmax_acc {T} (o : ord T) := arg_acc o (fun v best => o_lt o best v).

(** 462-498 [StringJoinAggregator] *)
Definition join_add (sep : list N) (r : list (option (list N))) (s : bool * list N) : bool * list N :=
  match r with
  | [Some v] => if fst s then (true, snd s ++ sep ++ v) else (true, snd s ++ v)
  | _ => s
  end.
Definition join_acc (sep : list N) : accum (bool * list N) (list N) (list N) (list N) unit :=
  plain Aggregator [false] (false, []) (fun _ => (false, [])) (join_add sep) (fun s => s)
    (fun s => (if fst s then Some (snd s) else None, s)).
