(** What ranks, inverse mappings, array.take and cumulative distributions are, for
    one group. *)
From Coq Require Import Permutation.
From Verif Require Import Base Accum_Model Accum_Spec.

(** ** The standard library. *)
(** No element of a range comes before an earlier one. *)
Fixpoint ascending {E} (lt : E -> E -> bool) (l : list E) : Prop :=
  match l with [] => True | x :: t => (forall y, In y t -> lt y x = false) /\ ascending lt t end.
(** std::sort, when the comparison is a strict weak order on the range. *)
Definition std_sort {E} (sort : (E -> E -> bool) -> list E -> list E) : Prop :=
  forall lt l,
    (forall a b, In a l -> In b l -> lt a b = true -> lt b a = false) ->
    (forall a b c, In a l -> In b l -> In c l -> lt a b = false -> lt b c = false -> lt a c = false) ->
    Permutation (sort lt l) l /\ ascending lt (sort lt l).
Definition std_partition {E} (partition : (E -> bool) -> list E -> list E * list E) : Prop :=
  forall p l, Permutation (fst (partition p l) ++ snd (partition p l)) l /\
    (forall x, In x (fst (partition p l)) -> p x = true) /\ (forall x, In x (snd (partition p l)) -> p x = false).

(** ** Ordinal rank: the number of values of the group that come before. *)
Definition comes_before {T} (o : ord T) (better : T -> T -> bool) (xs : list (T * Z)) (j i : nat) : bool :=
  match nth_error xs j, nth_error xs i with
  | Some (v, t), Some (w, u) =>
    if nan o w then negb (nan o v) || (j <? i)
    else negb (nan o v) && (better v w || (o_eq o v w && ((t <? u)%Z || ((t =? u)%Z && (j <? i)))))
  | _, _ => false
  end.
Definition ordinal_rank {T} (o : ord T) (better : T -> T -> bool) (xs : list (T * Z)) : list Z :=
  map (fun i => Z.of_nat (length (filter (fun j => comes_before o better xs j i) (seq 0 (length xs))))) (seq 0 (length xs)).

(** ** Dense rank: better values have lower ranks, equal values have equal ranks, NaNs
    come last, one rank each, and no rank is skipped. *)
Definition is_dense_rank {T} (o : ord T) (better : T -> T -> bool) (xs : list T) (rs : list Z) : Prop :=
  length rs = length xs /\
  (forall i j v w r q, nth_error xs i = Some v -> nth_error xs j = Some w -> nth_error rs i = Some r -> nth_error rs j = Some q ->
     (nan o v = false -> nan o w = false -> (r < q)%Z <-> better v w = true) /\
     (nan o v = false -> nan o w = true -> (r < q)%Z) /\
     (nan o v = true -> nan o w = true -> r = q -> i = j)) /\
  (forall i r q, nth_error rs i = Some r -> (0 <= q <= r)%Z -> In q rs) /\ (forall r, In r rs -> (0 <= r)%Z).

(** ** Inverse mapping. *)
Definition permutation_ok (xs : list (option Z)) : Prop :=
  (forall v, In (Some v) xs -> (0 <= v < Z.of_nat (length xs))%Z) /\
  (forall i j v, nth_error xs i = Some (Some v) -> nth_error xs j = Some (Some v) -> i = j).
Definition is_inverse (xs : list (option Z)) (rs : list (option Z)) : Prop :=
  length rs = length xs /\
  forall j r, nth_error rs j = Some r ->
    match r with
    | Some i => (0 <= i)%Z /\ nth_error xs (Z.to_nat i) = Some (Some (Z.of_nat j))
    | None => ~ In (Some (Z.of_nat j)) xs
    end.

(** ** array.take within a group. *)
Definition take_spec {T} (xs : list (option T * option Z)) : option (list (option T)) :=
  if existsb (fun x => match snd x with Some k => (k <? 0)%Z || (Z.of_nat (length xs) <=? k)%Z | None => false end) xs then None
  else Some (map (fun x => match snd x with
                           | Some k => match nth_error xs (Z.to_nat k) with Some y => fst y | None => None end
                           | None => None end) xs).

(** ** Weighted cumulative distribution: the weights of the values that are not
    larger, added in increasing order, divided by the sum of all weights. *)
Definition sum_weights {W A} (zero : A) (add : A -> W -> A) (ws : list W) : A := fold_left add ws zero.
Definition weights_at {T W} (xs : list (T * W)) (ids : list nat) : list W :=
  flat_map (fun j => match nth_error xs j with Some x => [snd x] | None => [] end) ids.
(** [ids] lists the positions of [xs] by increasing value and position. *)
Definition increasing {T W} (o : ord T) (xs : list (T * W)) (ids : list nat) : Prop :=
  Permutation ids (seq 0 (length xs)) /\
  forall before i after j x y, ids = before ++ i :: after -> In j after -> nth_error xs i = Some x -> nth_error xs j = Some y ->
    o_lt o (fst x) (fst y) = true \/ (o_eq o (fst x) (fst y) = true /\ i < j).
Definition is_cdf {T W A R} (o : ord T) (zero : A) (add : A -> W -> A) (to_ret : A -> R) (div : R -> A -> R) (nan_ret : T -> R)
  (xs : list (T * W)) (rs : list R) : Prop :=
  match find (fun x => nan o (fst x)) xs with
  | Some x => rs = map (fun _ => nan_ret (fst x)) xs
  | None => exists ids, increasing o xs ids /\
      rs = map (fun x => div (to_ret (sum_weights zero add (weights_at xs (filter (fun j => match nth_error xs j with Some y => o_le o (fst y) (fst x) | None => false end) ids))))
                             (sum_weights zero add (weights_at xs ids))) xs
  end.

(** ** Means, from left to right in any arithmetic. *)
Definition left_mean {V A} (ar : arith V A) (count : Z -> V) (div : V -> V -> V) (xs : list V) : option V :=
  match xs with
  | [] => None
  | _ => Some (div (r_narrow ar (fold_left (fun a v => r_add ar a (r_wide ar v)) xs (r_wide ar (r_zero ar)))) (count (Z.of_nat (length xs))))
  end.
Definition left_wavg {V A} (ar : arith V A) (div : A -> A -> A) (xs : list (V * V)) : option V :=
  Some (r_narrow ar (div (fold_left (fun a x => r_add ar a (r_mul ar (r_wide ar (fst x)) (r_wide ar (snd x)))) xs (r_wide ar (r_zero ar)))
                         (fold_left (fun a x => r_add ar a (r_wide ar (snd x))) xs (r_wide ar (r_zero ar))))).
