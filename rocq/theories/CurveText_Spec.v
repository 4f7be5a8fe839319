(** The texts of curves. *)
From Coq Require Import Ascii String QArith.
From Verif Require Import Base Repr_Model Curve_Model Curve_Spec CurveText_Model.
Local Open Scope nat_scope.
Local Open Scope list_scope.

(** The names, old ones included. *)
Inductive names : list Z -> ctype -> Prop :=
| n_pwl : names (bytes "PWLCurve") PWLCurve
| n_log : names (bytes "LogPWLCurve") LogPWLCurve
| n_log1p : names (bytes "Log1pPWLCurve") Log1pPWLCurve
| n_symlog1p : names (bytes "Symlog1pPWLCurve") Symlog1pPWLCurve
| n_logp1 : names (bytes "LogP1PWLCurve") Log1pPWLCurve
| n_symmetric : names (bytes "SymmetricLogP1PWLCurve") Symlog1pPWLCurve.

Section Text.
  Variable number : list Z -> num -> Prop. (* the text of a number *)
  Variable sep : Z.
  Inductive point_text : list Z -> point -> Prop :=
  | pt a b x y : number a x -> number b y -> point_text (bytes "{" ++ a ++ [sep] ++ b ++ bytes "}") (mkPt x y).
  Inductive points_text : list Z -> list point -> Prop :=
  | pts_one s p : point_text s p -> points_text s [p]
  | pts_more s p t ps : point_text s p -> points_text t ps -> points_text (s ++ [sep] ++ t) (p :: ps).
  (** Name({point;point;...}) *)
  Inductive curve_text : list Z -> ctype -> list point -> Prop :=
  | ct n t s ps : names n t -> points_text s ps -> curve_text (n ++ bytes "({" ++ s ++ bytes "})") t ps.
End Text.
(** The separators. *)
Definition separator (c : Z) : Prop := [c] = bytes ";" \/ [c] = bytes "|".
(** The texts of numbers have no separator or brace in them. *)
Definition plain (atod : list Z -> option num) : Prop :=
  forall a x, atod a = Some x -> forall c, In c (bytes ";|}") -> ~ In c a.
Definition reads (atod : list Z -> option num) (a : list Z) (x : num) : Prop := atod a = Some x.
(** A number that survives printing and reading. *)
Definition kept (atod : list Z -> option num) (show : num -> list Z) (x : num) : Prop := atod (show x) = Some x.
(** The axis of each type, and from where on it is defined. *)
Definition axis (log log1p : num -> num) (t : ctype) (x : num) : num :=
  match t, x with
  | PWLCurve, _ => x
  | LogPWLCurve, _ => log x
  | Log1pPWLCurve, _ => log1p x
  | Symlog1pPWLCurve, Fin q => if Qle_bool 0 q then log1p (Fin q) else match log1p (Fin (- q)) with Fin r => Fin (- r) | PInf => NInf | NInf => PInf | NaN => NaN end
  | Symlog1pPWLCurve, PInf => log1p PInf
  | Symlog1pPWLCurve, NInf => match log1p PInf with Fin r => Fin (- r) | PInf => NInf | NInf => PInf | NaN => NaN end
  | Symlog1pPWLCurve, NaN => match log1p NaN with Fin r => Fin (- r) | PInf => NInf | NInf => PInf | NaN => NaN end
  end.
Definition in_domain (t : ctype) (x : num) : Prop :=
  match t with PWLCurve => True | LogPWLCurve => nle (Fin 0) x | Log1pPWLCurve => nle (Fin (-1)) x | Symlog1pPWLCurve => True end.
