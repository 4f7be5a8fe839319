(** The batched forest evaluator: splitting a forest into parts, evaluating each part on all
    rows of arrays and adding the results.
    arolla/decision_forest/batched_evaluation/batched_forest_evaluator.{h,cc}. *)
From Verif Require Import Base Forest_Model ForestPt_Model ForestBm_Model ForestSi_Model ForestEv_Model
  Dense_Model Array_Model FrameIter_Model.

(** The values in arrays and slots: float and int64 inputs, inputs of other types (values
    are numbered), outputs. *)
Inductive bval V := BF (x : f32) | BI (z : Z) | BO (k : Z) | BV (v : V).
Arguments BF {V}. Arguments BI {V}. Arguments BO {V}. Arguments BV {V}.

(** Error statuses, undefined operations, and fuel used up. *)
Inductive berror := FromTreesError (e : ferror) | EvaluatorError (e : everror) | NotEnoughInputs | IteratorError | InvalidType.
Inductive bresult A := BOk (a : A) | BErr (e : berror) | BUndefined | BFuel.
Arguments BOk {A}. Arguments BErr {A}. Arguments BUndefined {A}. Arguments BFuel {A}.
Definition bbind {A B} (x : bresult A) (f : A -> bresult B) : bresult B :=
  match x with BOk a => f a | BErr e => BErr e | BUndefined => BUndefined | BFuel => BFuel end.
Definition of_result {A} (x : result A) : bresult A :=
  match x with ROk a => BOk a | RErr e => BErr (EvaluatorError e) | RUndefined => BUndefined | RFuel => BFuel end.
Definition b_undef {A} (x : option A) : bresult A := match x with Some a => BOk a | None => BUndefined end.

Section batched.
Variable V : Type.
Variable vo : vops V.
Variable one : V.
Variable lib : library.
Variable ceq : cond -> cond -> bool.
Variable ot : others.
(** The types of other inputs: value type and whether it is optional. *)
Variable oty : nat -> nat * bool.
(** The type FLOAT32 of the slots in place of inputs that no tree uses. *)
Variable unused_ty : ity.
(** The order in which the hash map of the required types is read. *)
Variable order : list (nat * ity) -> list (nat * ity).

(** OPTIONAL_FLOAT32 and OPTIONAL_INT64. *)
Definition tag (ty : ity) : nat * bool := match ty with TF32 => (0, true) | TI64 => (1, true) | TOther k => oty k end.
Definition all_evaluators : params := {| p_regular := true; p_bitmask := true; p_single := true |}.

(** ** CreatePointwiseEvaluators, batched_forest_evaluator.cc:87-139. *)
(** Lines 91-94. *)
Fixpoint count_splits (ts : list (tree V)) (n : Z) : Z :=
  match ts with [] => n | t :: r => count_splits r (n + Z.of_nat (length (t_nodes t)))%Z end.
(** Lines 95-97: a division by zero and an overflow of int64 are undefined. *)
Definition evaluator_count (splits optimal : Z) : option Z :=
  if (optimal =? 0)%Z || (2 ^ 63 <=? splits + optimal)%Z then None
  else Some (Z.max 1 (Z.quot (splits + optimal - 1) optimal)).
(** FromTrees and ForestEvaluator::Compile. *)
Definition compile_part (fuel : nat) (slots : list ity) (outs : list tfilter) (trees : list (tree V)) : bresult (evaluator V) :=
  match from_trees ot trees with
  | inl e => BErr (FromTreesError e)
  | inr _ => of_result (ev_compile V vo one lib ceq ot fuel all_evaluators trees slots outs)
  end.
(** The loop of lines 117-130 and lines 131-137. *)
Fixpoint compile_parts (fuel : nat) (slots : list ity) (outs : list tfilter) (per : Z) (ts trees : list (tree V)) (current : Z) (evs : list (evaluator V)) :
    bresult (list (evaluator V)) :=
  match ts with
  | [] => match trees with
          | [] => BOk evs
          | _ => bbind (compile_part fuel slots outs trees) (fun e => BOk (evs ++ [e]))
          end
  | t :: r =>
    let trees := trees ++ [t] in
    let current := (current + Z.of_nat (length (t_nodes t)))%Z in
    if (per <=? current)%Z
    then bbind (compile_part fuel slots outs trees) (fun e => compile_parts fuel slots outs per r [] 0%Z (evs ++ [e]))
    else compile_parts fuel slots outs per r trees current evs
  end.
Definition create_evaluators (fuel : nat) (optimal : Z) (ts : list (tree V)) (slots : list ity) (outs : list tfilter) : bresult (list (evaluator V)) :=
  let splits := count_splits ts 0 in
  bbind (b_undef (evaluator_count splits optimal)) (fun count =>
  if (count =? 1)%Z
  then bbind (of_result (ev_compile V vo one lib ceq ot fuel all_evaluators ts slots outs)) (fun e => BOk [e])
  else compile_parts fuel slots outs (Z.quot (splits + count - 1) count) ts [] 0%Z []).

(** ** Compile, batched_forest_evaluator.cc:148-189.  The slots of the layout are numbered;
    [bound] has the slot and the type of each input id, no slot for an unused one. *)
Record batched := {
  b_width : nat;
  b_mapping : list (nat * slot);
  b_bound : list (option nat * ity);
  b_outputs : list slot;
  b_evaluators : list (evaluator V) }.
(** Lines 160-163. *)
Definition bind_slot (bound : list (option nat * ity)) (i : nat) (x : option nat * ity) : option (list (option nat * ity)) :=
  upd (bound ++ repeat (None, unused_ty) (S i - length bound)) i x.
(** Lines 158-166. *)
Fixpoint layout_inputs (req : list (nat * ity)) (next : nat) (bound : list (option nat * ity)) (mapping : list (nat * slot)) :
    option (list (option nat * ity) * list (nat * slot)) :=
  match req with
  | [] => Some (bound, mapping)
  | (i, ty) :: r =>
    let? bound' := bind_slot bound i (Some next, ty) in
    layout_inputs r (S next) bound' (mapping ++ [(i, {| sl_id := next; sl_ty := fst (tag ty); sl_opt := snd (tag ty) |})])
  end.
Definition out_slot (k : nat) : slot := {| sl_id := k; sl_ty := 0; sl_opt := false |}.
Definition b_compile (fuel : nat) (ts : list (tree V)) (req : list (nat * ity)) (groups : list tfilter) (optimal : Z) : bresult batched :=
  let required := order req in
  bbind (b_undef (layout_inputs required 0 [] [])) (fun im =>
  let n := length required in
  bbind (create_evaluators fuel optimal ts (map snd (fst im)) groups) (fun evs =>
  BOk {| b_width := n + length groups; b_mapping := snd im; b_bound := fst im;
         b_outputs := map out_slot (seq n (length groups)); b_evaluators := evs |})).

(** ** Evaluation of one frame: the inputs of the evaluator are read through the bound
    slots, its results are written to the output slots.  Conditions over other types see
    the numbers of the values as integers.  An evaluation that is not defined leaves the
    frame as it is; C50_eval shows when there is none. *)
Definition bound_cell (bound : list (option nat * ity)) (f : list (bool * bval V)) (i : nat) : option (bval V) :=
  match rd bound i with
  | Some (Some s, ty) => let? c := rd f s in if fst c || negb (snd (tag ty)) then Some (snd c) else None
  | _ => None
  end.
(** An output, read as an input, is a float. *)
Variable asf : V -> f32.
Definition as_f32 (v : option (bval V)) : option f32 := match v with Some (BF x) => Some x | Some (BV y) => Some (asf y) | _ => None end.
Definition as_i64 (v : option (bval V)) : option Z := match v with Some (BI x) | Some (BO x) => Some x | _ => None end.
Definition view (bound : list (option nat * ity)) (f : list (bool * bval V)) : Forest_Model.frame :=
  {| in_f32 := fun i => as_f32 (bound_cell bound f i); in_i64 := fun i => as_i64 (bound_cell bound f i) |}.
Fixpoint put_outputs (ss : list slot) (vs : list V) (f : list (bool * bval V)) : option (list (bool * bval V)) :=
  match ss, vs with
  | s :: ss', v :: vs' => let? f' := upd f (sl_id s) (true, BV v) in put_outputs ss' vs' f'
  | _, _ => Some f
  end.
Definition eval_frame (fuel : nat) (b : batched) (e : evaluator V) (f : list (bool * bval V)) : list (bool * bval V) :=
  match eval V vo lib ot fuel e (view (b_bound b) f) with
  | Done out => match put_outputs (b_outputs b) out f with Some f' => f' | None => f end
  | _ => f
  end.

(** ** AddFullFloatArrays, batched_forest_evaluator.cc:53-85.  Adding two floats as doubles
    and rounding the sum is adding them as floats. *)
Definition add_values (va vb : list (bval V)) (i : nat) : option (bval V) :=
  let? a := rd va i in let? b := rd vb i in
  match a, b with BV x, BV y => Some (BV (vrnd vo (vadd vo x y))) | _, _ => None end.
Definition add_full (a b : src (bval V)) : bresult (src (bval V)) :=
  match a, b with
  | SD _ a, SD _ b => bbind (b_undef (all_some (map (add_values (vals a) (vals b)) (seq 0 (da_size a))))) (fun vs => BOk (SD _ (mkD vs [] 0)))
  | SA _ a, SA _ b => bbind (b_undef (all_some (map (add_values (vals (ar_data a)) (vals (ar_data b))) (seq 0 (ar_size a))))) (fun vs => BOk (SA _ (ar_dense (mkD vs [] 0))))
  | _, _ => BErr InvalidType
  end.

(** ** EvalBatch, batched_forest_evaluator.cc:205-286, with the constructor and
    GetInputsFromSlots, lines 191-203.  The frame is [mem], of arrays; an input slot is its
    number and the value type of its array.  Inputs are references into the frame. *)
Variable dflt : bval V.
Variable alloc : nat -> list (bval V).
Variable allocw : nat -> list N.
Variable iorder : list (icopier (bval V)) -> list (icopier (bval V)).
Variable oorder : list (ocopier (bval V)) -> list (ocopier (bval V)).
Definition input_count (b : batched) : nat := fold_left (fun n m => Nat.max n (S (fst m))) (b_mapping b) 0.
Definition ref (mem : list (src (bval V))) (s : nat * nat) : option (tsrc (bval V)) :=
  let? a := rd mem (fst s) in Some {| ts_ty := snd s; ts_src := a |}.
Definition get_inputs (b : batched) (inputs : list (nat * nat)) (mem : list (src (bval V))) : option (list (tsrc (bval V))) :=
  all_some (map (fun m => let? s := rd inputs (fst m) in ref mem s) (b_mapping b)).
(** Lines 219-226. *)
Definition rows_of (b : batched) (inputs : list (nat * nat)) (mem : list (src (bval V))) (want : option nat) : option (option nat) :=
  match want with
  | Some n => Some (Some n)
  | None => let? arrays := get_inputs b inputs mem in
            match arrays, inputs with
            | a :: _, _ => Some (Some (src_size _ (ts_src _ a)))
            | [], s :: _ => let? a := ref mem s in Some (Some (src_size _ (ts_src _ a)))
            | [], [] => Some None
            end
  end.
Fixpoint store (mem : list (src (bval V))) (ws : list (nat * src (bval V))) : option (list (src (bval V))) :=
  match ws with [] => Some mem | (i, a) :: r => let? mem' := upd mem i a in store mem' r end.
(** run_evaluator, lines 242-260; [rf] is the fuel of the loop over the rows. *)
Definition run_evaluator (fuel rf : nat) (b : batched) (inputs : list (nat * nat)) (outs : list aslot) (rows : option nat)
    (mem : list (src (bval V))) (e : evaluator V) : bresult (list (src (bval V))) :=
  bbind (b_undef (get_inputs b inputs mem)) (fun arrays =>
  match create (bval V) alloc allocw iorder oorder arrays (map snd (b_mapping b)) outs (b_outputs b) (repeat (false, dflt) (b_width b)) rows 64 with
  | None => BErr IteratorError
  | Some it => match iterate_frames (bval V) dflt rf (eval_frame fuel b e) it with
               | Finished (c, _) => b_undef (store mem (store_output _ c))
               | Running => BFuel
               | Undefined => BUndefined
               end
  end).
Fixpoint add_outputs (sums : list (src (bval V))) (outs : list aslot) (mem : list (src (bval V))) : bresult (list (src (bval V))) :=
  match sums, outs with
  | s :: sums', o :: outs' => bbind (b_undef (rd mem (as_id o))) (fun a => bbind (add_full s a) (fun s' => bbind (add_outputs sums' outs' mem) (fun r => BOk (s' :: r))))
  | _, _ => BOk []
  end.
(** The loop of lines 270-277. *)
Fixpoint run_middle (run : list (src (bval V)) -> evaluator V -> bresult (list (src (bval V)))) (es : list (evaluator V)) (outs : list aslot)
    (sums mem : list (src (bval V))) : bresult (list (src (bval V)) * list (src (bval V))) :=
  match es with
  | [] => BOk (sums, mem)
  | e :: r => bbind (run mem e) (fun mem' => bbind (add_outputs sums outs mem') (fun sums' => run_middle run r outs sums' mem'))
  end.
(** Lines 279-285. *)
Fixpoint store_sums (sums : list (src (bval V))) (outs : list aslot) (mem : list (src (bval V))) : bresult (list (src (bval V))) :=
  match sums, outs with
  | s :: sums', o :: outs' => bbind (b_undef (rd mem (as_id o))) (fun a => bbind (add_full s a) (fun s' => bbind (b_undef (upd mem (as_id o) s')) (store_sums sums' outs')))
  | _, _ => BOk mem
  end.
Definition eval_batch (fuel rf : nat) (b : batched) (inputs : list (nat * nat)) (outs : list aslot) (want : option nat) (mem : list (src (bval V))) :
    bresult (list (src (bval V))) :=
  if length inputs <? input_count b then BErr NotEnoughInputs else
  bbind (b_undef (rows_of b inputs mem want)) (fun rows =>
  let run := run_evaluator fuel rf b inputs outs rows in
  match b_evaluators b with
  | [] => BUndefined
  | [e] => run mem e
  | e :: es =>
    bbind (run mem e) (fun mem1 =>
    bbind (b_undef (all_some (map (fun o => rd mem1 (as_id o)) outs))) (fun sums =>
    bbind (run_middle run (removelast es) outs sums mem1) (fun sm =>
    bbind (run (snd sm) (last es e)) (fun mem2 => store_sums (fst sm) outs mem2))))
  end).
End batched.
Arguments b_width {V}. Arguments b_mapping {V}. Arguments b_bound {V}. Arguments b_outputs {V}. Arguments b_evaluators {V}.
