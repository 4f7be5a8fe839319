(** The forest evaluator: which evaluator each tree is given to, and the evaluation of all.
    arolla/decision_forest/pointwise_evaluation/forest_evaluator.{h,cc}. *)
From Verif Require Import Base Forest_Model ForestPt_Model ForestBm_Model ForestSi_Model.

(** The error statuses, an undefined operation, and fuel used up. *)
Inductive everror := NoOutputs | GroupsIntersect | RegularTree | NoSuitable | BitmaskStatus | SingleStatus.
Inductive result A := ROk (a : A) | RErr (e : everror) | RUndefined | RFuel.
Arguments ROk {A}. Arguments RErr {A}. Arguments RUndefined {A}. Arguments RFuel {A}.
Definition rbind {A B} (x : result A) (f : A -> result B) : result B :=
  match x with ROk a => f a | RErr e => RErr e | RUndefined => RUndefined | RFuel => RFuel end.
Definition of_outcome {A} (x : outcome A) : result A :=
  match x with Done a => ROk a | OutOfFuel => RFuel | OutOfBounds => RUndefined end.
Definition or_err {A} (e : everror) (x : option A) : result A := match x with Some a => ROk a | None => RErr e end.
Definition or_undef {A} (x : option A) : result A := match x with Some a => ROk a | None => RUndefined end.

(** CompilationParams, forest_evaluator.h:43-48. *)
Record params := { p_regular : bool; p_bitmask : bool; p_single : bool }.

Section evaluator.
Variable V : Type.
Variable vo : vops V.
(** The default weight of a tree, 1.0 (decision_forest.h:108). *)
Variable one : V.
Variable lib : library.
Variable ceq : cond -> cond -> bool.
Variable ot : others.

(** ** SplitTreesByGroups, forest_evaluator.cc:55-75; [None] is -1. *)
Fixpoint assign_group (f : tfilter) (g : nat) (ts : list (tree V)) (m : list (option nat)) : option (list (option nat)) :=
  match ts, m with
  | t :: ts', x :: m' =>
    if selects f t
    then match x with
         | Some _ => None
         | None => let? r := assign_group f g ts' m' in Some (Some g :: r)
         end
    else let? r := assign_group f g ts' m' in Some (x :: r)
  | _, _ => Some []
  end.
Fixpoint assign_groups (outs : list tfilter) (g : nat) (ts : list (tree V)) (m : list (option nat)) : option (list (option nat)) :=
  match outs with
  | [] => Some m
  | f :: r => let? m' := assign_group f g ts m in assign_groups r (S g) ts m'
  end.
Definition split_groups (outs : list tfilter) (ts : list (tree V)) : result (list (option nat)) :=
  match outs with
  | [] => RErr NoOutputs
  | _ => or_err GroupsIntersect (assign_groups outs 0 ts (repeat None (length ts)))
  end.

(** ** GetSingleInputSignature, forest_evaluator.cc:77-89. *)
Fixpoint single_sig (ns : list snode) (acc : option (nat * ity)) : option (nat * ity) :=
  match ns with
  | [] => acc
  | n :: r =>
    match csig ot (n_cond n) with
    | [s] => match acc with
             | Some a => if fst a =? fst s then single_sig r (Some s) else None
             | None => single_sig r (Some s)
             end
    | _ => None
    end
  end.
(** IsInputTypeSupported, single_input_eval.h:131-134. *)
Definition si_type (ty : ity) : bool := match ty with TF32 | TI64 => true | TOther _ => false end.

(** ** RegularPredictorsBuilder, forest_evaluator.cc:93-170.  A group has a universal and
    an interval compiler, each a list of trees with their tags.  The slots of the bound
    conditions are those of ValidateInputSlots, which Compile assumes. *)
Definition rgroup : Type := (list (builder cond V * Z) * list (builder cond V * Z))%type.
Definition only_intervals (t : tree V) : bool :=
  forallb (fun n => match n_cond n with Interval _ _ _ => true | _ => false end) (t_nodes t).
Definition add_regular (rs : list rgroup) (t : tree V) (g : nat) : result (list rgroup) :=
  rbind (or_undef (rd rs g)) (fun p =>
  rbind (or_err RegularTree (add_regular_tree vo t)) (fun b =>
  or_undef (upd rs g (if only_intervals t then (fst p, snd p ++ [(b, t_sub t)]) else (fst p ++ [(b, t_sub t)], snd p))))).
(** Build, lines 122-134. *)
Definition rpred : Type := (list (ctree cond V * Z) * list (ctree cond V * Z))%type.
Definition of_compiled (c : cerror + option (list (ctree cond V * Z))) : result (list (ctree cond V * Z)) :=
  match c with inl _ => RErr RegularTree | inr None => RUndefined | inr (Some l) => ROk l end.
Fixpoint build_regular (rs : list rgroup) : result (list rpred) :=
  match rs with
  | [] => ROk []
  | p :: r =>
    rbind (of_compiled (compile_all Z (fst p))) (fun u =>
    rbind (of_compiled (compile_all Z (snd p))) (fun i =>
    rbind (build_regular r) (fun rest => ROk ((u, i) :: rest))))
  end.

(** ** Compile, forest_evaluator.cc:172-255. *)
Record cstate := { st_reg : list rgroup; st_bit : bbuilder V; st_single : list (pergroup V); st_consts : list (list (Z * V)) }.
(** std::map<int, double>::operator[] and +=, line 202; ascending keys. *)
Fixpoint add_const (sub : Z) (v : V) (m : list (Z * V)) : list (Z * V) :=
  match m with
  | [] => [(sub, vadd vo (vzero vo) v)]
  | (s, x) :: r => if (sub =? s)%Z then (s, vadd vo x v) :: r
                   else if (sub <? s)%Z then (sub, vadd vo (vzero vo) v) :: m
                   else (s, x) :: add_const sub v r
  end.
(** The body of the loop, lines 190-237, for a tree with a group.  The conditions are
    checked in the order of the code. *)
Definition try_bitmask (fuel : nat) (p : params) (b : bbuilder V) (t : tree V) (g : nat) : result (option (bbuilder V)) :=
  if p_bitmask p && forallb (fun n => supported (n_cond n)) (t_nodes t)
  then rbind (of_outcome (to_oblivious V vo ceq fuel t)) (fun o =>
       match o with
       | Some ob =>
         if length (ot_layers V ob) <=? 64 then ROk (Some (add_oblivious V b ob g))
         else if length (t_adj t) <=? 64 then rbind (of_outcome (add_small V vo fuel b t g)) (fun b' => ROk (Some b'))
         else ROk None
       | None =>
         if length (t_adj t) <=? 64 then rbind (of_outcome (add_small V vo fuel b t g)) (fun b' => ROk (Some b'))
         else ROk None
       end)
  else ROk None.
Definition single_of (p : params) (t : tree V) : option (nat * ity) :=
  if p_single p
  then match single_sig (t_nodes t) None with
       | Some s => if si_type (snd s) then Some s else None
       | None => None
       end
  else None.
Definition add_tree (fuel : nat) (p : params) (st : cstate) (t : tree V) (g : nat) : result cstate :=
  if p_regular p && (match t_nodes t with [] => true | _ => false end)
  then rbind (or_undef (rd (t_adj t) 0)) (fun a =>
       rbind (or_undef (rd (st_consts st) g)) (fun m =>
       rbind (or_undef (upd (st_consts st) g (add_const (t_sub t) (vmul vo a (t_weight t)) m))) (fun cs =>
       ROk {| st_reg := st_reg st; st_bit := st_bit st; st_single := st_single st; st_consts := cs |})))
  else match single_of p t with
  | Some s => rbind (or_err SingleStatus (si_add V (st_single st) t s g)) (fun b =>
              ROk {| st_reg := st_reg st; st_bit := st_bit st; st_single := b; st_consts := st_consts st |})
  | None =>
    rbind (try_bitmask fuel p (st_bit st) t g) (fun ob =>
    match ob with
    | Some b => ROk {| st_reg := st_reg st; st_bit := b; st_single := st_single st; st_consts := st_consts st |}
    | None =>
      if p_regular p
      then rbind (add_regular (st_reg st) t g) (fun rs =>
           ROk {| st_reg := rs; st_bit := st_bit st; st_single := st_single st; st_consts := st_consts st |})
      else RErr NoSuitable
    end)
  end.
Fixpoint add_trees (fuel : nat) (p : params) (ts : list (tree V)) (m : list (option nat)) (st : cstate) : result cstate :=
  match ts, m with
  | t :: ts', Some g :: m' => rbind (add_tree fuel p st t g) (add_trees fuel p ts' m')
  | _ :: ts', None :: m' => add_trees fuel p ts' m' st
  | _, _ => ROk st
  end.
(** The merged constants, lines 238-245. *)
Definition const_tree (sub : Z) (v : V) : tree V :=
  {| t_nodes := []; t_adj := [vrnd vo v]; t_weight := one; t_step := 0%Z; t_sub := sub |}.
Fixpoint add_consts_of (g : nat) (m : list (Z * V)) (rs : list rgroup) : result (list rgroup) :=
  match m with
  | [] => ROk rs
  | (sub, v) :: r => rbind (add_regular rs (const_tree sub v) g) (add_consts_of g r)
  end.
Fixpoint add_consts (g : nat) (cs : list (list (Z * V))) (rs : list rgroup) : result (list rgroup) :=
  match cs with
  | [] => ROk rs
  | m :: r => rbind (add_consts_of g m rs) (add_consts (S g) r)
  end.
Record evaluator := { ev_regular : list rpred; ev_bitmask : option (edata V); ev_single : sieval V }.
Definition of_status {A} (e : everror) (x : status A) : result A :=
  match x with None => RErr e | Some None => RUndefined | Some (Some a) => ROk a end.
(** [internal] is the evaluator that single input evaluation uses while compiling. *)
Definition compile_with (internal : list (tree V) -> list ity -> option (frame -> option V))
    (fuel : nat) (p : params) (ts : list (tree V)) (slots : list ity) (outs : list tfilter) : result evaluator :=
  let n := length outs in
  rbind (split_groups outs ts) (fun m =>
  rbind (add_trees fuel p ts m {| st_reg := repeat ([], []) n; st_bit := new_bbuilder V; st_single := si_new V n; st_consts := repeat [] n |}) (fun st =>
  rbind (add_consts 0 (st_consts st) (st_reg st)) (fun rs =>
  rbind (build_regular rs) (fun reg =>
  rbind (or_err BitmaskStatus (build V lib n (st_bit st))) (fun bit =>
  rbind (of_status SingleStatus (si_build V lib ot internal slots (st_single st))) (fun si =>
  ROk {| ev_regular := reg; ev_bitmask := bit; ev_single := si |})))))).

(** ** Eval, forest_evaluator.cc:257-267 and forest_evaluator.h:75-83: the values of the
    output slots, which are distinct. *)
Definition predict_group (fuel : nat) (fr : frame) (p : rpred) : outcome V :=
  obind (boosted (vadd vo) Z (ceval ot fr) (fun _ => true) fuel (fst p) (vzero vo)) (fun u =>
  obind (boosted (vadd vo) Z (ceval ot fr) (fun _ => true) fuel (snd p) (vzero vo)) (fun i =>
  Done (vrnd vo (vadd vo u i)))).
Fixpoint predict_groups (fuel : nat) (fr : frame) (ps : list rpred) : outcome (list V) :=
  match ps with
  | [] => Done []
  | p :: r => obind (predict_group fuel fr p) (fun v => obind (predict_groups fuel fr r) (fun vs => Done (v :: vs)))
  end.
Definition eval (fuel : nat) (e : evaluator) (fr : frame) : outcome (list V) :=
  obind (predict_groups fuel fr (ev_regular e)) (fun out =>
  obind (match ev_bitmask e with Some d => oopt (incremental_eval V vo lib d fr out) | None => Done out end) (fun out =>
  oopt (si_eval V vo lib (ev_single e) fr out))).

(** ** SimpleForestEvaluator, forest_evaluator.h:108-137, as InternalEvaluator uses it
    (single_input_eval.cc:115-135), without single input evaluation.  No evaluation by a
    single input is built, so the internal evaluator of this one is never used. *)
Definition simple_filter : tfilter := {| step_from := 0%Z; step_to := (-1)%Z; submodels := [] |}.
Definition internal (fuel : nat) (ts : list (tree V)) (slots : list ity) : option (frame -> option V) :=
  match compile_with (fun _ _ => None) fuel {| p_regular := true; p_bitmask := true; p_single := false |} ts slots [simple_filter] with
  | ROk e => Some (fun fr => match eval fuel e fr with Done [y] => Some y | _ => None end)
  | _ => None
  end.
(** ForestEvaluator::Compile. *)
Definition ev_compile (fuel : nat) : params -> list (tree V) -> list ity -> list tfilter -> result evaluator :=
  compile_with (internal fuel) fuel.
End evaluator.
