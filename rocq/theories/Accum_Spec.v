(** What the standard aggregations must compute: functions of the list of values of
    one group, applied to every group of an edge, on DenseArrays and on Arrays. *)
From Coq Require Import Permutation.
From Verif Require Import Base Dense_Model Dense_Spec DenseOps_Spec Array_Model Array_Spec Edge_Model Edge_Spec
  ArrEdge_Model ArrEdge_Spec GroupOps_Model GroupOps_Spec ArrGroup_Model ArrGroup_Spec Accum_Model.

(** [items]: for every child its value, or None if it does not take part (a
    required argument is missing); [m]: for every child its group.  The values of
    group [q] among the first [k] children, in order. *)
Definition group_upto {X} (items : list (option X)) (m : list (option nat)) (q k : nat) : list X :=
  flat_map (fun c => match nth c m None, nth c items None with
                     | Some r, Some x => if r =? q then [x] else []
                     | _, _ => []
                     end) (seq 0 k).
Definition group {X} (items : list (option X)) (m : list (option nat)) (q : nat) : list X :=
  group_upto items m q (length m).

(** [G xs]: results for a group with values [xs]: None for an error; one result for
    an aggregator, one per value otherwise. *)
Definition wanted {X R} (k : kind) (G : list X -> option (list (option R))) (items : list (option X))
  (m : list (option nat)) (p : nat) : list (option R) :=
  match k with
  | Aggregator => map (fun q => match G (group items m q) with Some [r] => r | _ => None end) (seq 0 p)
  | _ => map (fun c => match nth c m None, nth c items None with
                       | Some q, Some _ => match G (group items m q) with
                                           | Some rs => nth (length (group_upto items m q c)) rs None
                                           | None => None
                                           end
                       | _, _ => None
                       end) (seq 0 (length m))
  end.
Definition fails {X R} (G : list X -> option (list (option R))) (items : list (option X)) (m : list (option nat)) (p : nat) : Prop :=
  exists q, q < p /\ G (group items m q) = None.

(** How a row of child arguments is read: None if it does not take part. *)
Definition required1 {C} (r : list (option C)) : option C := match r with [x] => x | _ => None end.
Definition optional1 {C} (r : list (option C)) : option (option C) := match r with [x] => Some x | _ => None end.
Definition required2 {C} (r : list (option C)) : option (C * C) := match r with [Some x; Some y] => Some (x, y) | _ => None end.
Definition optional2 {C} (r : list (option C)) : option (option C * option C) := match r with [x; y] => Some (x, y) | _ => None end.
Definition items {C X} (dec : list (option C) -> option X) (cls : list (list (option C))) (n : nat) : list (option X) :=
  map (fun c => dec (row cls c)) (seq 0 n).

Section Op.
Context {S C R Err X : Type}.
Variables (acc : accum S C C R Err) (addn : nat -> list (option C) -> S -> S).
Variables (dec : list (option C) -> option X) (G : list X -> option (list (option R))).

(** On DenseArrays, for any representation of the edge and of the arguments. *)
Definition dense_ok : Prop := forall alloc e p m cargs cls,
  edge_rep e p m -> args_rep (a_copts acc) cargs cls (length m) -> (forall k, length (alloc k) = k) ->
  exists res, apply_edge acc alloc e [] cargs = Some res /\
    ((fails G (items dec cls (length m)) m p /\ exists x, res = GError x) \/
     (~ fails G (items dec cls (length m)) m p /\ exists d, res = GOut d /\
        represents d (wanted (a_kind acc) G (items dec cls (length m)) m p))).
(** Edge to scalar: one group with everything. *)
Definition dense_scalar_ok : Prop := forall alloc n cargs cls,
  args_rep (a_copts acc) cargs cls n -> (forall k, length (alloc k) = k) ->
  exists res, apply_scalar acc alloc n [] cargs = Some res /\
    match G (group (items dec cls n) (repeat (Some 0) n) 0) with
    | None => exists x, res = GError x
    | Some rs => match a_kind acc with
                 | Aggregator => exists r, rs = [r] /\ res = GScalar r
                 | _ => exists d, res = GOut d /\ represents d (wanted (a_kind acc) G (items dec cls n) (repeat (Some 0) n) 1)
                 end
    end.
(** On Arrays, for any form of the edge and of the arguments. *)
Definition array_ok : Prop := forall allocp allocc allocm allocr allocz allocw addr order use_dense e p m cargs cls,
  new_buffers allocp allocc allocm allocr allocz allocw -> (forall l, Permutation (order l) l) ->
  aedge_rep e p m -> aargs_rep (a_copts acc) cargs cls (length m) ->
  exists res, apply_array allocp allocc allocm allocr allocz allocw addr acc addn order use_dense e [] cargs = Some res /\
    ((fails G (items dec cls (length m)) m p /\ exists x, res = AGError x) \/
     (~ fails G (items dec cls (length m)) m p /\ exists d, res = AGOut d /\
        ar_rep d (wanted (a_kind acc) G (items dec cls (length m)) m p))).
Definition array_scalar_ok : Prop := forall allocc allocr allocw addr use_dense n cargs cls,
  alloc_sz allocc -> alloc_sz allocr -> allocw_ok allocw -> aargs_rep (a_copts acc) cargs cls n ->
  exists res, apply_array_scalar allocc allocr allocw addr acc addn use_dense n [] cargs = Some res /\
    match G (group (items dec cls n) (repeat (Some 0) n) 0) with
    | None => exists x, res = AGError x
    | Some rs => match a_kind acc with
                 | Aggregator => exists r, rs = [r] /\ res = AGScalar r
                 | _ => exists d, res = AGOut d /\ ar_rep d (wanted (a_kind acc) G (items dec cls n) (repeat (Some 0) n) 1)
                 end
    end.
(** The operator computes [G], group by group. *)
Definition computes : Prop := dense_ok /\ dense_scalar_ok /\ array_ok /\ array_scalar_ok.
End Op.

(** ** Functions of one group. *)
(** One result per group, or the result of every prefix for partial operators. *)
Definition by_kind {X R} (k : kind) (f : list X -> option R) (xs : list X) : option (list (option R)) :=
  match k with
  | Aggregator => Some [f xs]
  | _ => Some (map (fun i => f (firstn (S i) xs)) (seq 0 (length xs)))
  end.

Definition count_spec {X} (xs : list X) : option Z := Some (Z.of_nat (length xs)).
Definition any_spec {X} (xs : list X) : option unit := match xs with [] => None | _ => Some tt end.
Definition all_spec (xs : list (option unit)) : option unit := if existsb (fun x => negb (is_some x)) xs then None else Some tt.
(** Three-valued logic. *)
Definition logical_all_spec (xs : list (option bool)) : option bool :=
  if existsb (fun x => match x with Some false => true | _ => false end) xs then Some false
  else if existsb (fun x => negb (is_some x)) xs then None else Some true.
Definition logical_any_spec (xs : list (option bool)) : option bool :=
  if existsb (fun x => match x with Some true => true | _ => false end) xs then Some true
  else if existsb (fun x => negb (is_some x)) xs then None else Some false.

(** [r] is the [w]-bit integer congruent to [z]. *)
Definition congruent (w : Z) (z r : Z) : Prop := (- 2 ^ (w - 1) <= r < 2 ^ (w - 1) /\ exists q, z - r = q * 2 ^ w)%Z.
Definition is_sum (w : Z) (initial : option Z) (xs : list Z) (r : option Z) : Prop :=
  match xs with
  | [] => r = initial
  | _ => exists z, r = Some z /\ congruent w (match initial with Some i => i | None => 0 end + fold_right Z.add 0 xs)%Z z
  end.
Definition is_prod (w : Z) (xs : list Z) (r : option Z) : Prop :=
  match xs with
  | [] => r = None
  | [x] => r = Some x
  | _ => exists z, r = Some z /\ congruent w (fold_right Z.mul 1 xs)%Z z
  end.
(** In any arithmetic: from left to right. *)
Definition left_sum {V A} (ar : arith V A) (initial : option V) (xs : list V) : option V :=
  match xs, initial with
  | [], None => None
  | _, _ => Some (r_narrow ar (fold_left (fun a v => r_add ar a (r_wide ar v)) xs
                    (r_wide ar (match initial with Some v => v | None => r_zero ar end))))
  end.
Definition left_prod {V A} (ar : arith V A) (xs : list V) : option V :=
  match xs with
  | [] => None
  | x :: t => Some (r_narrow ar (fold_left (fun a v => r_mul ar a (r_wide ar v)) t (r_wide ar x)))
  end.

(** Types with a total order on the values that are not NaN. *)
Definition ord_ok {T} (o : ord T) : Prop :=
  (forall a b, cmp o a b = None <-> nan o a = true \/ nan o b = true) /\
  (forall a, nan o a = false -> cmp o a a = Some Eq) /\
  (forall a b c, cmp o a b = Some c -> cmp o b a = Some (CompOpp c)) /\
  (forall a b c, o_le o a b = true -> o_le o b c = true -> o_le o a c = true).

(** First NaN if there is one, otherwise the first of the best values;
    [better a b]: a is strictly better than b. *)
Definition is_best {T} (o : ord T) (better : T -> T -> bool) (xs : list T) (r : option T) : Prop :=
  match r with
  | None => xs = []
  | Some v => exists before after, xs = before ++ v :: after /\
      (forall x, In x before -> nan o x = false /\ (nan o v = true \/ better v x = true)) /\
      (nan o v = true \/ forall x, In x after -> nan o x = false /\ better x v = false)
  end.
(** The same with the position in the group, counting missing values too. *)
Definition is_arg_best {T} (o : ord T) (better : T -> T -> bool) (xs : list (option T)) (r : option Z) : Prop :=
  match r with
  | None => forall x, In x xs -> x = None
  | Some i => exists before v after, xs = before ++ Some v :: after /\ i = Z.of_nat (length before) /\
      (forall x, In (Some x) before -> nan o x = false /\ (nan o v = true \/ better v x = true)) /\
      (nan o v = true \/ forall x, In (Some x) after -> nan o x = false /\ better x v = false)
  end.
(** First NaN if there is one, otherwise the k-th smallest value. *)
Definition is_kth {T} (o : ord T) (k : nat) (xs : list T) (r : option T) : Prop :=
  match r with
  | None => xs = []
  | Some v => In v xs /\
      (find (nan o) xs = Some v \/
       (find (nan o) xs = None /\ length (filter (fun x => o_lt o x v) xs) <= k < length (filter (fun x => o_le o x v) xs)))
  end.
(** Guarantees of std::nth_element for values that are not NaN. *)
Definition nth_element {T} (o : ord T) (f : list T -> nat -> list T) : Prop :=
  forall l k, (forall x, In x l -> nan o x = false) -> k < length l ->
    Permutation (f l k) l /\
    exists before v after, f l k = before ++ v :: after /\ length before = k /\
      (forall x, In x before -> o_lt o v x = false) /\ (forall x, In x after -> o_lt o x v = false).

(** The common value of the group: first one, if all the others are equal to it (or
    all are NaN). *)
Definition collapse_spec {T} (o : ord T) (xs : list T) : option T :=
  match xs with
  | [] => None
  | x :: t => if forallb (fun y => (nan o x && nan o y) || (negb (nan o x) && o_eq o y x)) t then Some x else None
  end.
Fixpoint join_spec (sep : list N) (xs : list (list N)) : option (list N) :=
  match xs with
  | [] => None
  | x :: t => Some (match join_spec sep t with None => x | Some s => x ++ sep ++ s end)
  end.
