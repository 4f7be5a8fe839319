(** Evaluation of decision trees that use a single input: piecewise constant functions.
    arolla/decision_forest/pointwise_evaluation/single_input_eval.{h,cc}. *)
From Verif Require Import Base Forest_Model ForestBm_Model.

(** ** The type of the input, float or int64_t.  [n_mid] is (left + right) / 2: for floats
    with the rounding of IEEE 754, for int64_t with truncation; [None] is the undefined
    overflow of a signed sum.  [n_points] is AddSplitPoints, single_input_eval.cc:49-76;
    [None] is an error status. *)
Record num T := {
  n_lt : T -> T -> bool; n_eq : T -> T -> bool; n_nan : T -> bool;
  n_zero : T; n_lowest : T; n_max : T;
  n_mid : T -> T -> option T;
  n_points : cond -> option (list T);
  n_frame : option T -> frame;
  n_read : frame -> nat -> option T;
  n_type : ity }.
Arguments n_lt {T}. Arguments n_eq {T}. Arguments n_nan {T}. Arguments n_zero {T}. Arguments n_lowest {T}. Arguments n_max {T}.
Arguments n_mid {T}. Arguments n_points {T}. Arguments n_frame {T}. Arguments n_read {T}. Arguments n_type {T}.

Definition f32_two : f32 := S754_finite false 8388608 (-22).
Definition f32_max : f32 := S754_finite false 16777215 104.
Definition f32_lowest : f32 := S754_finite true 16777215 104.
Definition f32_mid (l r : f32) : f32 := SFdiv 24 128 (SFadd 24 128 l r) f32_two.
Definition f32_points (c : cond) : option (list f32) :=
  match c with
  | SetF32 _ vs _ => Some vs
  | Interval _ l r =>
    Some ((if negb (feq l fninf) then [l] else []) ++ (if negb (feq r finf) && negb (feq r l) then [r] else []))
  | _ => None
  end.
(** The frame of the InternalEvaluator: every input is the only slot, lines 119-123. *)
Definition f32_num : num f32 :=
  {| n_lt := flt; n_eq := feq; n_nan := fnan; n_zero := S754_zero false; n_lowest := f32_lowest; n_max := f32_max;
     n_mid := fun l r => Some (f32_mid l r); n_points := f32_points;
     n_frame := fun x => {| in_f32 := fun _ => x; in_i64 := fun _ => None |}; n_read := in_f32; n_type := TF32 |}.
Definition i64_min : Z := (- 2 ^ 63)%Z.
Definition i64_max : Z := (2 ^ 63 - 1)%Z.
Definition i64_mid (l r : Z) : option Z :=
  if (i64_min <=? l + r)%Z && (l + r <=? i64_max)%Z then Some (Z.quot (l + r) 2) else None.
Definition i64_points (c : cond) : option (list Z) := match c with SetI64 _ vs _ => Some vs | _ => None end.
Definition i64_num : num Z :=
  {| n_lt := Z.ltb; n_eq := Z.eqb; n_nan := fun _ => false; n_zero := 0%Z; n_lowest := i64_min; n_max := i64_max;
     n_mid := i64_mid; n_points := i64_points;
     n_frame := fun x => {| in_f32 := fun _ => None; in_i64 := fun _ => x |}; n_read := in_i64; n_type := TI64 |}.

(** std::unique. *)
Fixpoint unique_from {T} (eq : T -> T -> bool) (last : T) (l : list T) : list T :=
  match l with [] => [] | x :: r => if eq last x then unique_from eq last r else x :: unique_from eq x r end.
Definition unique {T} (eq : T -> T -> bool) (l : list T) : list T := match l with [] => [] | x :: r => x :: unique_from eq x r end.

Section single.
Variable V : Type.
Variable vo : vops V.
Variable lib : library.
Variable ot : others.
(** The evaluator made by InternalEvaluator::Create, lines 115-130, from the trees and the
    types of the slots: [None] is an error status; the result maps a frame to the value, or
    to [None] if undefined. *)
Variable internal : list (tree V) -> list ity -> option (frame -> option V).

(** A result that may be an error status ([None]) or undefined ([Some None]). *)
Definition status A := option (option A).
Definition sbind {A B} (x : status A) (f : A -> status B) : status B :=
  match x with None => None | Some None => Some None | Some (Some a) => f a end.

(** ** PiecewiseConstantEvaluator, single_input_eval.h:46-61. *)
Record pce T := { p_points : list T; p_values : list V; p_middle : list V; p_missed : V }.
Arguments p_points {T}. Arguments p_values {T}. Arguments p_middle {T}. Arguments p_missed {T}.
Section typed.
Context {T : Type} (nm : num T).

(** GetSplitPoints, lines 78-91; the hash set of values is iterated in the order of the
    list that stands for it. *)
Fixpoint all_points (cs : list cond) : option (list T) :=
  match cs with [] => Some [] | c :: r => let? a := n_points nm c in let? b := all_points r in Some (a ++ b) end.
Definition split_points (ts : list (tree V)) : option (list T) :=
  let? l := all_points (map n_cond (flat_map t_nodes ts)) in
  Some (unique (n_eq nm) (l_sort lib _ (n_lt nm) l)).
(** Build, lines 146-179. *)
Fixpoint at_points (ev : option T -> option V) (pts : list T) : option (list V) :=
  match pts with [] => Some [] | p :: r => let? v := ev (Some p) in let? vs := at_points ev r in Some (v :: vs) end.
Fixpoint between (ev : option T -> option V) (p : T) (pts : list T) : option (list V) :=
  match pts with
  | [] => Some []
  | q :: r => let? m := n_mid nm p q in let? v := ev (Some m) in let? vs := between ev q r in Some (v :: vs)
  end.
Definition middles (ev : option T -> option V) (pts : list T) : option (list V) :=
  match pts with
  | [] => let? v := ev (Some (n_zero nm)) in Some [v]
  | p :: r => let? a := ev (Some (n_lowest nm)) in let? b := between ev p r in let? c := ev (Some (n_max nm)) in Some (a :: b ++ [c])
  end.
Definition tabulate (ev : option T -> option V) (pts : list T) : option (pce T) :=
  let? pv := at_points ev pts in let? mv := middles ev pts in let? ms := ev None in
  Some {| p_points := pts; p_values := pv; p_middle := mv; p_missed := ms |}.
Definition pce_build (ts : list (tree V)) (i : nat) : status (pce T) :=
  match split_points ts with
  | None => None
  | Some pts =>
    match from_trees ot ts with
    | inl _ => None
    | inr _ => match internal ts (repeat (n_type nm) (S i)) with
               | None => None
               | Some ev => Some (tabulate (fun x => ev (n_frame nm x)) pts)
               end
    end
  end.
(** Eval, lines 192-211; [None] is a read outside of a vector. *)
Definition pce_eval (p : pce T) (x : option T) : option V :=
  match x with
  | None => Some (p_missed p)
  | Some v =>
    if n_nan nm v then Some (p_missed p)
    else
      let k := l_upper lib _ (fun q => n_lt nm q v) (p_points p) in
      if k <? length (p_points p)
      then let? q := rd (p_points p) k in if n_eq nm q v then rd (p_values p) k else rd (p_middle p) k
      else rd (p_middle p) (length (p_middle p) - 1)
  end.
(** BuildEvaluatorsVector, lines 253-268, over the entries of the hash map; an evaluator
    with the input it reads. *)
Fixpoint build_vector (slots : list ity) (m : list (nat * list (tree V))) : status (list (nat * pce T)) :=
  match m with
  | [] => Some (Some [])
  | (i, ts) :: r =>
    match rd slots i with
    | None => None
    | Some ty =>
      if ity_eqb ty (n_type nm)
      then sbind (pce_build ts i) (fun p => sbind (build_vector slots r) (fun ps => Some (Some ((i, p) :: ps))))
      else None
    end
  end.
(** The loops of PiecewiseConstantEvaluators::IncrementalEval, lines 215-221. *)
Fixpoint add_all (ps : list (nat * pce T)) (fr : frame) (res : V) : option V :=
  match ps with
  | [] => Some res
  | (i, p) :: r => let? v := pce_eval p (n_read nm fr i) in add_all r fr (vadd vo res v)
  end.
End typed.

(** ** SingleInputBuilder, single_input_eval.h:120-165 and .cc:234-283. *)
Record pergroup := { pg_f : list (nat * list (tree V)); pg_i : list (nat * list (tree V)) }.
Definition si_new (n : nat) : list pergroup := repeat {| pg_f := []; pg_i := [] |} n.
(** AddTree, lines 234-251: [None] is an error status. *)
Definition si_add (b : list pergroup) (t : tree V) (sig : nat * ity) (g : nat) : option (list pergroup) :=
  let? pg := rd b g in
  let put := upsert (fst sig) [] (fun l => l ++ [t]) in
  match snd sig with
  | TF32 => upd b g {| pg_f := put (pg_f pg); pg_i := pg_i pg |}
  | TI64 => upd b g {| pg_f := pg_f pg; pg_i := put (pg_i pg) |}
  | TOther _ => None
  end.
(** Build, lines 270-283. *)
Definition sieval : Type := list (list (nat * pce f32) * list (nat * pce Z)).
Fixpoint si_build (slots : list ity) (b : list pergroup) : status sieval :=
  match b with
  | [] => Some (Some [])
  | pg :: r =>
    sbind (build_vector f32_num slots (l_iter lib _ (pg_f pg))) (fun fs =>
    sbind (build_vector i64_num slots (l_iter lib _ (pg_i pg))) (fun is =>
    sbind (si_build slots r) (fun rest => Some (Some ((fs, is) :: rest)))))
  end.
(** IncrementalEval, lines 213-223 and 227-232, for the values [out] of distinct slots. *)
Fixpoint si_eval (e : sieval) (fr : frame) (out : list V) : option (list V) :=
  match e, out with
  | [], _ => Some out
  | (fs, is) :: r, x :: out' =>
    let? a := add_all f32_num fs fr (vzero vo) in
    let? b := add_all i64_num is fr a in
    let? rest := si_eval r fr out' in
    Some (vrnd vo (vadd vo x b) :: rest)
  | _ :: _, [] => None
  end.
End single.
