(** Model of arolla/pwlcurve/curves.cc: construction and evaluation in double precision.
    Numbers are rationals, infinities and NaN; arithmetic on rationals is exact (rounding
    and the sign of zero are not modelled).  [None]: undefined behaviour. *)
From Coq Require Import QArith.
From Verif Require Import Base.
Local Open Scope list_scope.

(** double *)
Inductive num := Fin (q : Q) | PInf | NInf | NaN.
Definition qlt (a b : Q) : bool := negb (Qle_bool b a).
Definition num_eq (a b : num) : bool :=
  match a, b with Fin x, Fin y => Qeq_bool x y | PInf, PInf => true | NInf, NInf => true | _, _ => false end.
Definition num_lt (a b : num) : bool :=
  match a, b with
  | Fin x, Fin y => qlt x y
  | NInf, Fin _ => true | NInf, PInf => true | Fin _, PInf => true
  | _, _ => false
  end.
Definition num_le (a b : num) : bool := num_lt a b || num_eq a b.
Definition isinf (a : num) : bool := match a with PInf => true | NInf => true | _ => false end.
Definition neg (a : num) : num := match a with Fin x => Fin (- x) | PInf => NInf | NInf => PInf | NaN => NaN end.
Definition add (a b : num) : num :=
  match a, b with
  | Fin x, Fin y => Fin (x + y)
  | NaN, _ => NaN | _, NaN => NaN
  | PInf, NInf => NaN | NInf, PInf => NaN
  | PInf, _ => PInf | _, PInf => PInf
  | NInf, _ => NInf | _, NInf => NInf
  end.
Definition sub (a b : num) : num := add a (neg b).
(** an infinity times the sign of [x] *)
Definition inf_by (i : num) (x : Q) : num := if Qeq_bool x 0 then NaN else if qlt 0 x then i else neg i.
Definition mul (a b : num) : num :=
  match a, b with
  | Fin x, Fin y => Fin (x * y)
  | NaN, _ => NaN | _, NaN => NaN
  | Fin x, i => inf_by i x | i, Fin x => inf_by i x
  | PInf, i => i | NInf, i => neg i
  end.
Definition div (a b : num) : num :=
  match a, b with
  | Fin x, Fin y => if Qeq_bool y 0 then inf_by PInf x else Fin (x / y)
  | NaN, _ => NaN | _, NaN => NaN
  | Fin _, _ => Fin 0
  | i, Fin y => if Qeq_bool y 0 then i else inf_by i y
  | _, _ => NaN
  end.

(** curves.h:47-61 [Point] *)
Record point := mkPt { px : num; py : num }.
(** curves.cc:332-342, 500-540 the hooks: [ValidateMin] (true: no error) and [In] *)
Record hook := mkHook { validate_min : num -> bool; h_in : num -> num }.
Definition identity_hook : hook := mkHook (fun _ => true) (fun x => x).
Definition log1p_hook (log1p : num -> num) : hook := mkHook (fun m => negb (num_lt m (Fin (-1)))) log1p.
Definition symlog1p_hook (log1p : num -> num) : hook :=
  mkHook (fun _ => true) (fun x => if num_le (Fin 0) x then log1p x else neg (log1p (neg x))).
Definition log_hook (log : num -> num) : hook := mkHook (fun m => negb (num_lt m (Fin 0))) log.

(** curves.cc:241-247 [TrimDuplicateYPointsAtEnds]: [begin], then [end] *)
Fixpoint trim_begin (l : list point) : list point :=
  match l with
  | a :: (b :: _) as t => if num_eq (py a) (py b) then trim_begin t else l
  | _ => l
  end.
Definition trim (l : list point) : list point := rev (trim_begin (rev (trim_begin l))).
(** curves.cc:262-268 the loop over adjacent points *)
Fixpoint increasing (l : list point) : bool :=
  match l with
  | a :: (b :: _) as t => if num_le (px b) (px a) then false else increasing t
  | _ => true
  end.

(** curves.cc:256-288 [CommonChecks]; [inl tt] is an error *)
Definition common_checks (h : hook) (ps : list point) : option (unit + list point) :=
  match ps with
  | [] => Some (inl tt)
  | front :: _ =>
      if negb (increasing ps) then Some (inl tt) else
      let l := trim ps in
      let n := List.length l in
      if Nat.eqb n 1 then Some (inr l) else
      let? bad :=
        (if Nat.leb 3 n then
           let? back := rd ps (List.length ps - 1) in
           let? l1 := rd l 1 in let? l2 := rd l 2 in
           let? m3 := rd l (n - 3) in let? m2 := rd l (n - 2) in
           Some ((isinf (px front) || isinf (py front)) && num_eq (py l1) (py l2) ||
                 (isinf (px back) || isinf (py back)) && num_eq (py m3) (py m2))
         else Some false) in
      if bad then Some (inl tt) else if validate_min h (px front) then Some (inr l) else Some (inl tt)
  end.

(** curves.cc:346-349 [TransformControlPoint] *)
Definition transform (h : hook) (p : point) : point := mkPt (h_in h (px p)) (py p).
(** curves.cc:542-544 [IsStrictlyMonotonic] *)
Definition strictly_monotonic (a b c : num) : bool := num_lt a b && num_lt b c || num_lt b a && num_lt c b.

(** curves.cc:356-359 [LinearCoefficients] *)
Record coef := mkCoef { c_max : num; c_m : num; c_b : num }.
(** curves.cc:393-403, the loop *)
Fixpoint segments (l : list point) : list coef :=
  match l with
  | cur :: (next :: _) as t =>
      let dy := sub (py next) (py cur) in
      let dx := sub (px next) (px cur) in
      let m := div dy dx in
      mkCoef (px next) m (sub (py cur) (mul m (px cur))) :: segments t
  | _ => []
  end.
(** curves.cc:368-405 [PWLCoefficientsFor] *)
Definition coefficients_for (net_increasing : bool) (l : list point) : list coef :=
  match l with
  | [p] => let m := Fin (if net_increasing then 1 else -1) in [mkCoef PInf m (sub (py p) (mul m (px p)))]
  | _ => segments l
  end.

(** curves.cc:294-316 [ConstantCurve], 427-497 [PWLCurveTmpl] *)
Inductive curve := Constant (y : num) | Pwl (front back : point) (cs : list coef).

(** curves.cc:692-703: the transformed interior points *)
Definition transformed_points (h : hook) (front back tf tb : point) (l : list point) : list point :=
  map (fun ii => let p := nth ii l front in
         if Nat.eqb ii 0 && num_eq (px front) (px p) then tf
         else if Nat.eqb ii (List.length l - 1) && num_eq (px back) (px p) then tb
         else transform h p) (seq 0 (List.length l)).

(** curves.cc:565-684, 688-719 [PWLCurveBuilder]: the checks, then [Build] *)
Definition build (h : hook) (ps : list point) : option (unit + curve) :=
  let? r := common_checks h ps in
  match r with
  | inl _ => Some (inl tt)
  | inr l =>
      let n := List.length l in
      let? front := rd l 0 in
      if Nat.eqb n 1 then Some (inr (Constant (py front))) else
      let tf := transform h front in
      let? back := rd l (n - 1) in
      let tb := transform h back in
      let? wrong :=
        (if Nat.leb 3 n then
           let? l1 := rd l 1 in let? l2 := rd l 2 in
           let? m3 := rd l (n - 3) in let? m2 := rd l (n - 2) in
           Some (isinf (py tf) && negb (strictly_monotonic (py tf) (py l1) (py l2)) ||
                 isinf (py tb) && negb (strictly_monotonic (py m3) (py m2) (py tb)))
         else Some false) in
      if wrong then Some (inl tt) else
      let? r1 :=
        (if isinf (px tf) then
           if negb (isinf (py tf)) then Some None
           else match tl l with [] => Some None | p :: _ => Some (Some (tl l, transform h p)) end
         else if isinf (py tf) then Some None else Some (Some (l, tf))) in
      match r1 with
      | None => Some (inl tt)
      | Some (l1, tf') =>
          let? r2 :=
            (if isinf (px tb) then
               if negb (isinf (py tb)) then Some None
               else match removelast l1 with [] => Some None | l2 => Some (Some l2) end
             else if isinf (py tb) then Some None else Some (Some l1)) in
          match r2 with
          | None => Some (inl tt)
          | Some l2 =>
              if existsb (fun p => isinf (py p)) l2 then Some (inl tt) else
              Some (inr (Pwl front back (coefficients_for (num_lt (py front) (py back)) (transformed_points h front back tf' tb l2))))
          end
      end
  end.

Section Eval.
  (** std::lower_bound, given the answers of the comparison for each element *)
  Variable lower_bound : list bool -> nat.
  (** curves.cc:326-330 [FindCoefficients] *)
  Definition find_coefficients (cs : list coef) (x : num) : option coef :=
    match cs with
    | [] => None
    | _ => rd cs (lower_bound (map (fun c => num_lt (c_max c) x) (removelast cs)))
    end.
  (** curves.cc:305, 409-414, 452-460 [Eval] *)
  Definition eval (h : hook) (c : curve) (x : num) : option num :=
    match c with
    | Constant y => Some y
    | Pwl front back cs =>
        if num_le x (px front) then Some (py front)
        else if num_le (px back) x then Some (py back)
        else let x := h_in h x in
             let? c := find_coefficients cs x in
             Some (add (mul (c_m c) x) (c_b c))
    end.
  (** curves.cc:310-312, 474-481 [Eval] of a span *)
  Definition eval_all (h : hook) (c : curve) (xs : list num) : option (list num) :=
    fold_right (fun x r => let? y := eval h c x in let? ys := r in Some (y :: ys)) (Some []) xs.
End Eval.
