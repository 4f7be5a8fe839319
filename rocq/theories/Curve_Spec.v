(** What a piecewise linear curve through control points is. *)
From Coq Require Import QArith.
From Verif Require Import Base Curve_Model.
Local Open Scope nat_scope.
Local Open Scope list_scope.

(** The order of the numbers; NaN is not comparable. *)
Definition nlt (a b : num) : Prop :=
  match a, b with
  | Fin x, Fin y => (x < y)%Q
  | NInf, Fin _ => True | NInf, PInf => True | Fin _, PInf => True
  | _, _ => False
  end.
Definition same (a b : num) : Prop :=
  match a, b with Fin x, Fin y => (x == y)%Q | PInf, PInf => True | NInf, NInf => True | _, _ => False end.
Definition nle (a b : num) : Prop := nlt a b \/ same a b.
Definition infinite (a : num) : Prop := a = PInf \/ a = NInf.
Definition no_nan (ps : list point) : Prop := forall p, In p ps -> px p <> NaN /\ py p <> NaN.

(** The line through (a, c) and (b, d) at t; the line through (a, c) with slope 1 or -1. *)
Definition line (a c b d t : Q) : Q := (c + (d - c) * (t - a) / (b - a))%Q.
Definition unit_line (up : bool) (a c t : Q) : Q := if up then (c + (t - a))%Q else (c - (t - a))%Q.
Definition upward (front back : num) : bool := match front, back with NInf, _ => true | _, PInf => true | _, _ => false end.

Section Curve.
  Variable tr : num -> num. (* the transformation of the x axis *)
  Variable ps : list point.
  Let n := List.length ps.
  (** A point with finite coordinates on the transformed axis. *)
  Definition finite (p : point) (a c : Q) : Prop := tr (px p) = Fin a /\ py p = Fin c.
  (** All points from [i] to [j] - 1 have the same y. *)
  Definition flat (i j : nat) : Prop := forall k p q, i <= k -> S k < j -> rd ps k = Some p -> rd ps (S k) = Some q -> same (py p) (py q).
  (** The value at [x]: beyond the ends that of the end; between two points on their segment;
      next to an infinite end on the extension of the adjacent segment, or if there is none
      that is not flat, on the line with unit slope towards the end. *)
  Inductive on_curve (x : num) : num -> Prop :=
  | oc_left p : rd ps 0 = Some p -> nle x (px p) -> on_curve x (py p)
  | oc_right p : rd ps (n - 1) = Some p -> nle (px p) x -> on_curve x (py p)
  | oc_flat i p q : rd ps i = Some p -> rd ps (S i) = Some q -> nle (px p) x -> nle x (px q) -> same (py p) (py q) -> on_curve x (py p)
  | oc_segment i p q a b c d t : rd ps i = Some p -> rd ps (S i) = Some q -> nle (px p) x -> nle x (px q) ->
      finite p a c -> finite q b d -> tr x = Fin t -> on_curve x (Fin (line a c b d t))
  | oc_left_ray p0 p q a b c d t : rd ps 0 = Some p0 -> rd ps 1 = Some p -> rd ps 2 = Some q -> nlt (px p0) x -> nle x (px p) ->
      infinite (py p0) -> finite p a c -> finite q b d -> ~ (c == d)%Q -> tr x = Fin t -> on_curve x (Fin (line a c b d t))
  | oc_right_ray p0 p q a b c d t : 3 <= n -> rd ps (n - 3) = Some q -> rd ps (n - 2) = Some p -> rd ps (n - 1) = Some p0 -> nlt x (px p0) -> nle (px p) x ->
      infinite (py p0) -> finite p a c -> finite q b d -> ~ (c == d)%Q -> tr x = Fin t -> on_curve x (Fin (line a c b d t))
  | oc_left_unit p0 p a c t : rd ps 0 = Some p0 -> rd ps 1 = Some p -> nlt (px p0) x -> nle x (px p) -> infinite (py p0) -> finite p a c ->
      (flat 1 n \/ n = 3 /\ exists q, rd ps 2 = Some q /\ infinite (py q)) -> tr x = Fin t ->
      on_curve x (Fin (unit_line (upward (py p0) (Fin 0)) a c t))
  | oc_right_unit p0 p a c t : 2 <= n -> rd ps (n - 2) = Some p -> rd ps (n - 1) = Some p0 -> nlt x (px p0) -> nle (px p) x -> infinite (py p0) -> finite p a c ->
      (flat 0 (n - 1) \/ n = 3 /\ exists q, rd ps 0 = Some q /\ infinite (py q)) -> tr x = Fin t ->
      on_curve x (Fin (unit_line (upward (Fin 0) (py p0)) a c t)).
End Curve.

(** What is asked of the hook: from an allowed least x on, the transformation keeps the
    order, and is finite strictly between two numbers. *)
Definition hook_ok (h : hook) : Prop :=
  forall m, validate_min h m = true ->
    (forall x y, nle m x -> nle x y -> nle (h_in h x) (h_in h y)) /\
    (forall x y, nlt m x -> nlt x y -> exists q, h_in h x = Fin q).
(** The transformed control points are in strict order. *)
Definition spread (h : hook) (ps : list point) : Prop :=
  forall i p q, rd ps i = Some p -> rd ps (S i) = Some q -> nlt (h_in h (px p)) (h_in h (px q)).
(** What std::lower_bound does on a partitioned range. *)
Definition lower_bound_ok (lb : list bool -> nat) : Prop := forall i j, lb (repeat true i ++ repeat false j) = i.
