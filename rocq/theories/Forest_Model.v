(** Decision forests: split conditions, validation of a forest and the reference
    ("naive") evaluation.
    arolla/decision_forest/decision_forest.{h,cc}, split_condition.h and
    split_conditions/*.h. *)
From Coq Require Export Floats.SpecFloat.
From Verif Require Export Base.

(** ** Float inputs.  A float32 is the IEEE datum of the standard library
    (sign, mantissa, exponent, infinities, signed zeros and one NaN); [<], [<=], [==]
    and unary minus are those of IEEE 754. *)
Definition f32 : Type := spec_float.
Definition fnan (x : f32) : bool := match x with S754_nan => true | _ => false end.
Definition flt : f32 -> f32 -> bool := SFltb.
Definition fle : f32 -> f32 -> bool := SFleb.
Definition feq : f32 -> f32 -> bool := SFeqb.
Definition fneg : f32 -> f32 := SFopp.
Definition finf : f32 := S754_infinity false.
Definition fninf : f32 := S754_infinity true.

(** ** Inputs.  The frame, seen through the input slots: the value of each
    OPTIONAL_FLOAT32 and each OPTIONAL_INT64 input, by input id.  Which of the two a
    slot holds is checked by ValidateInputSlots; conditions over other types are
    [Other] below and read the frame through [o_eval]. *)
Record frame := { in_f32 : nat -> option f32; in_i64 : nat -> option Z }.
Inductive ity := TF32 | TI64 | TOther (k : nat).

(** ** Split conditions.  [Interval] is IntervalSplitCondition
    (interval_split_condition.h:36-84), [SetI64] and [SetF32] are
    SetOfValuesSplitCondition<int64_t> and <float> (set_of_values_split_condition.h:43-135),
    with the hash set as a list without duplicates; [Other k] is any other class derived
    from SplitCondition, object number [k]. *)
Inductive cond :=
| Interval (input : nat) (left right : f32)
| SetI64 (input : nat) (values : list Z) (missed : bool)
| SetF32 (input : nat) (values : list f32) (missed : bool)
| Other (k : nat).
Record others := { o_eval : nat -> frame -> bool; o_sig : nat -> list (nat * ity) }.

Definition zin (v : Z) (l : list Z) : bool := existsb (Z.eqb v) l.
Definition fin (v : f32) (l : list f32) : bool := existsb (feq v) l.

(** EvaluateCondition: interval_split_condition.h:45-47,
    set_of_values_split_condition.h:54-57, split_condition.h:90-97. *)
Definition ceval (ot : others) (fr : frame) (c : cond) : bool :=
  match c with
  | Interval i l r => match in_f32 fr i with Some v => fle l v && fle v r | None => false end
  | SetI64 i vs missed => match in_i64 fr i with Some v => zin v vs | None => missed end
  | SetF32 i vs missed => match in_f32 fr i with Some v => fin v vs | None => missed end
  | Other k => o_eval ot k fr
  end.

(** GetInputSignatures: split_condition.h:111-113. *)
Definition csig (ot : others) (c : cond) : list (nat * ity) :=
  match c with
  | Interval i _ _ => [(i, TF32)]
  | SetI64 i _ _ => [(i, TI64)]
  | SetF32 i _ _ => [(i, TF32)]
  | Other k => o_sig ot k
  end.

(** Equals: interval_split_condition.h:72-78, set_of_values_split_condition.h:118-126
    (equality of hash sets: same size, every element of one in the other). *)
Definition cequals (c d : cond) : bool :=
  match c, d with
  | Interval i l r, Interval i' l' r' => (i =? i') && feq l l' && feq r r'
  | SetI64 i vs m, SetI64 i' vs' m' =>
    (i =? i') && ((length vs =? length vs') && forallb (fun v => zin v vs') vs) && Bool.eqb m m'
  | SetF32 i vs m, SetF32 i' vs' m' =>
    (i =? i') && ((length vs =? length vs') && forallb (fun v => fin v vs') vs) && Bool.eqb m m'
  | Other k, Other k' => k =? k'
  | _, _ => false
  end.

(** ** Output values.  [V] holds the float and double values of adjustments, weights and
    sums; [vadd] adds doubles, [vmul] is the product of an adjustment and a weight, [vrnd]
    stores a double into a float.  Nothing is assumed about them. *)
Record vops V := { vzero : V; vadd : V -> V -> V; vmul : V -> V -> V; vrnd : V -> V }.
Arguments vzero {V}. Arguments vadd {V}. Arguments vmul {V}. Arguments vrnd {V}.

(** ** Trees.  decision_forest.h:55-117.  A node id is the raw int64: negative for a
    leaf. *)
Definition is_leaf (id : Z) : bool := (id <? 0)%Z.
Definition adjustment_id (i : Z) : Z := (- i - 1)%Z.
Definition adjustment_index (id : Z) : Z := (- id - 1)%Z.
Record snode := { n_false : Z; n_true : Z; n_cond : cond }.
Record tree V := { t_nodes : list snode; t_adj : list V; t_weight : V; t_step : Z; t_sub : Z }.
Arguments t_nodes {V}. Arguments t_adj {V}. Arguments t_weight {V}. Arguments t_step {V}. Arguments t_sub {V}.

(** Reading a vector at an int64 index. *)
Definition zrd {A} (l : list A) (i : Z) : option A := if (i <? 0)%Z then None else rd l (Z.to_nat i).

(** GetTreeRootId, decision_forest.h:119-122. *)
Definition root {V} (t : tree V) : Z := match t_nodes t with [] => adjustment_id 0 | _ => 0%Z end.

(** TreeFilter, decision_forest.h:127-139. *)
Record tfilter := { step_from : Z; step_to : Z; submodels : list Z }.
Definition tfilter_ok (f : tfilter) (step sub : Z) : bool :=
  (step_from f <=? step)%Z && ((step_to f =? -1)%Z || (step <? step_to f)%Z) &&
  (match submodels f with [] => true | _ => false end || zin sub (submodels f)).
Definition selects {V} (f : tfilter) (t : tree V) : bool := tfilter_ok f (t_step t) (t_sub t).

(** ** DecisionForest::Initialize, decision_forest.cc:137-186.  The result is the error or
    the map of required types; the fingerprint is not modelled. *)
Inductive ferror := SubmodelNegative | StepNegative | RegionCount | SplitNodeBad | TypesMismatch.

Definition child_ok {V} (t : tree V) (id : Z) : bool :=
  if is_leaf id then (adjustment_index id <? Z.of_nat (length (t_adj t)))%Z
  else (id <? Z.of_nat (length (t_nodes t)))%Z.

(** required_qtypes_.emplace and the check that follows (lines 173-179). *)
Definition ity_eqb (a b : ity) : bool :=
  match a, b with TF32, TF32 => true | TI64, TI64 => true | TOther i, TOther j => i =? j | _, _ => false end.
Fixpoint lookup_ty (i : nat) (req : list (nat * ity)) : option ity :=
  match req with [] => None | (j, ty) :: r => if i =? j then Some ty else lookup_ty i r end.
Fixpoint add_sigs (sigs : list (nat * ity)) (req : list (nat * ity)) : ferror + list (nat * ity) :=
  match sigs with
  | [] => inr req
  | (i, ty) :: r =>
    match lookup_ty i req with
    | Some ty' => if ity_eqb ty' ty then add_sigs r req else inl TypesMismatch
    | None => add_sigs r (req ++ [(i, ty)])
    end
  end.
Fixpoint init_nodes {V} (ot : others) (t : tree V) (ns : list snode) (req : list (nat * ity)) : ferror + list (nat * ity) :=
  match ns with
  | [] => inr req
  | n :: r =>
    if child_ok t (n_false n) && child_ok t (n_true n)
    then match add_sigs (csig ot (n_cond n)) req with inl e => inl e | inr req' => init_nodes ot t r req' end
    else inl SplitNodeBad
  end.
Definition init_tree {V} (ot : others) (t : tree V) (req : list (nat * ity)) : ferror + list (nat * ity) :=
  if (t_sub t <? 0)%Z then inl SubmodelNegative
  else if (t_step t <? 0)%Z then inl StepNegative
  else if negb (length (t_nodes t) + 1 =? length (t_adj t)) then inl RegionCount
  else init_nodes ot t (t_nodes t) req.
Fixpoint init_trees {V} (ot : others) (ts : list (tree V)) (req : list (nat * ity)) : ferror + list (nat * ity) :=
  match ts with
  | [] => inr req
  | t :: r => match init_tree ot t req with inl e => inl e | inr req' => init_trees ot r req' end
  end.
(** FromTrees, decision_forest.cc:117-122: the required types of the accepted forest. *)
Definition from_trees {V} (ot : others) (ts : list (tree V)) : ferror + list (nat * ity) := init_trees ot ts [].

(** ValidateInputSlots, decision_forest.cc:124-135: [slots] are the types of the slots. *)
Definition validate_slots (req : list (nat * ity)) (slots : list ity) : bool :=
  forallb (fun r => match rd slots (fst r) with Some ty => ity_eqb ty (snd r) | None => false end) req.

(** ** Naive evaluation, decision_forest.cc:43-67.  The loop of lines 52-61 may not
    terminate, so it gets fuel; reading outside of a vector is a separate outcome. *)
Inductive outcome (A : Type) := Done (a : A) | OutOfFuel | OutOfBounds.
Arguments Done {A}. Arguments OutOfFuel {A}. Arguments OutOfBounds {A}.
Fixpoint walk {V} (ot : others) (fr : frame) (t : tree V) (fuel : nat) (id : Z) : outcome Z :=
  if is_leaf id then Done (adjustment_index id)
  else match fuel with
       | 0 => OutOfFuel
       | S k => match zrd (t_nodes t) id with
                | None => OutOfBounds
                | Some n => walk ot fr t k (if ceval ot fr (n_cond n) then n_true n else n_false n)
                end
       end.
Definition naive_tree {V} (vo : vops V) (ot : others) (fr : frame) (fuel : nat) (t : tree V) : outcome V :=
  match walk ot fr t fuel (root t) with
  | Done i => match zrd (t_adj t) i with Some a => Done (vmul vo a (t_weight t)) | None => OutOfBounds end
  | OutOfFuel => OutOfFuel
  | OutOfBounds => OutOfBounds
  end.
Fixpoint naive_sum {V} (vo : vops V) (ot : others) (fr : frame) (fuel : nat) (f : tfilter) (ts : list (tree V)) (res : V) : outcome V :=
  match ts with
  | [] => Done res
  | t :: r =>
    if selects f t
    then match naive_tree vo ot fr fuel t with
         | Done a => naive_sum vo ot fr fuel f r (vadd vo res a)
         | OutOfFuel => OutOfFuel
         | OutOfBounds => OutOfBounds
         end
    else naive_sum vo ot fr fuel f r res
  end.
Definition naive {V} (vo : vops V) (ot : others) (fr : frame) (fuel : nat) (f : tfilter) (ts : list (tree V)) : outcome V :=
  match naive_sum vo ot fr fuel f ts (vzero vo) with
  | Done a => Done (vrnd vo a)
  | OutOfFuel => OutOfFuel
  | OutOfBounds => OutOfBounds
  end.
