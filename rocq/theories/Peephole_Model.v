(** Model of arolla/expr/optimization/pattern_based_optimization.cc, peephole_optimizer.cc
    and optimizer.cc, for builds with NDEBUG.  Expressions, their post order and [Transform]
    are those of Visit_Model.  Matchers are total functions without effects; a function of
    std::function which has been moved from is [None].  Hash functions are arbitrary.
    Messages of errors are left out.  [None]: access out of bounds, use of a pointer that
    was not set or of a function moved from, or a loop that does not end. *)
From Verif Require Import Base Visit_Model.

Definition matcher : Type := node -> bool.
(** flat_hash_map<std::string, NodeMatcher>, every key once *)
Definition matchers : Type := list (list nat * option matcher).
Definition str_eqb : list nat -> list nat -> bool := leqb Nat.eqb.
Fixpoint find_m (ms : matchers) (k : list nat) : option (option matcher) :=
  match ms with [] => None | (k', p) :: t => if str_eqb k' k then Some p else find_m t k end.
(** std::move(matcher_it->second) *)
Fixpoint move_m (ms : matchers) (k : list nat) : matchers :=
  match ms with [] => [] | (k', p) :: t => if str_eqb k' k then (k', None) :: t else (k', p) :: move_m t k end.
(** flat_hash_map<Fingerprint, size_t>; emplace is only used for a missing key *)
Fixpoint find_fp (fps : list (node * nat)) (n : node) : option nat :=
  match fps with [] => None | (k, i) :: t => if node_eqb k n then Some i else find_fp t n end.

(** pattern_based_optimization.h:80-109 [PatternPlan]: place, arity and name; place and
    fingerprint; two places; place and predicate *)
Record plan := mkPlan { pl_unfold : list (nat * nat * list nat); pl_fixed : list (nat * node);
  pl_same : list (nat * nat); pl_preds : list (nat * option matcher); pl_cap : nat }.
Record cst := mkC { c_mem : list node; c_fps : list (node * nat); c_ms : matchers; c_plan : plan }.
Record compiled := mkCP { cp_plan : plan; cp_to : porder; cp_map : list (nat * nat) }.

Inductive perr {E : Type} := PPlaceholder | PLeaves | PToKeys | PMatcherKeys | PMemory | PTooMany | PQType | PErr (e : E).
Arguments perr : clear implicits.

Section Peephole.
Context {E : Type}.
(** ExprOperator::InferAttributes and display_name *)
Variable infer : nat -> list attr -> E + attr.
Variable dname : nat -> list nat.
(** For a ReferenceToRegisteredOperator, the RegisteredOperator with its name *)
Variable refop : nat -> option nat.
(** absl::HashOf of a name and of a fingerprint, and the type of a value *)
Variable hname : list nat -> nat.
Variable hfp : node -> nat.
Variable vtype : nat -> nat.

Definition infer' (o : nat) (l : list attr) : perr E + attr := match infer o l with inl e => inl (PErr e) | inr a => inr a end.

(** ** peephole_optimizer.cc *)
(** peephole_optimizer.cc:81-95 [ResolveReferenceToRegisteredOperators] *)
Definition resolve_node (n : node) : perr E + node :=
  match n with
  | Op o _ ds => match refop o with Some r => inr (Op r ANone ds) | None => inr n end
  | _ => inr n
  end.
Definition resolve (n : node) : option (perr E + node) := transform infer' resolve_node n.

(** peephole_optimizer.cc:97-105 [PatternKey] *)
Definition pattern_key (n : node) : nat := match n with Op o _ _ => hname (dname o) | _ => hfp n end.

(** ** Compilation of a pattern *)
(** pattern_based_optimization.cc:213-216, 217-222 and 228-233: keys of [l] which are not in [known] *)
Definition unknown (known l : list (list nat)) : bool := existsb (fun k => negb (existsb (str_eqb k) known)) l.
(** pattern_based_optimization.cc:197-241 [VerifyPattern] *)
Definition verify (from to : node) (ms : matchers) : option (option (perr E)) :=
  match from with
  | Plh _ => Some (Some PPlaceholder)
  | _ =>
      let? lf := get_keys leaf_key from in
      let? lt := get_keys leaf_key to in
      match lf, lt with
      | [], [] =>
          let? known := get_keys plh_key from in
          let? kt := get_keys plh_key to in
          if unknown known kt then Some (Some PToKeys) else
          if unknown known (map fst ms) then Some (Some PMatcherKeys) else Some None
      | _, _ => Some (Some PLeaves)
      end
  end.

Definition add_same (i j : nat) (p : plan) : plan := mkPlan (pl_unfold p) (pl_fixed p) (pl_same p ++ [(i, j)]) (pl_preds p) (pl_cap p).
Definition add_fixed (i : nat) (n : node) (p : plan) : plan := mkPlan (pl_unfold p) (pl_fixed p ++ [(i, n)]) (pl_same p) (pl_preds p) (pl_cap p).
Definition add_pred (i : nat) (m : option matcher) (p : plan) : plan := mkPlan (pl_unfold p) (pl_fixed p) (pl_same p) (pl_preds p ++ [(i, m)]) (pl_cap p).
Definition add_unfold (i ar : nat) (name : list nat) (p : plan) : plan := mkPlan (pl_unfold p ++ [(i, ar, name)]) (pl_fixed p) (pl_same p) (pl_preds p) (pl_cap p).
(** 259-303, one round *)
Definition compile_step (st : cst) (i : nat) : option (perr E + cst) :=
  let? n := rd (c_mem st) i in
  match find_fp (c_fps st) n with
  | Some j => Some (inr (mkC (c_mem st) (c_fps st) (c_ms st) (add_same i j (c_plan st))))
  | None =>
      let fps := (n, i) :: c_fps st in
      match n with
      | Lit _ => Some (inr (mkC (c_mem st) fps (c_ms st) (add_fixed i n (c_plan st))))
      | Plh k => match find_m (c_ms st) k with
                 | Some m => Some (inr (mkC (c_mem st) fps (move_m (c_ms st) k) (add_pred i m (c_plan st))))
                 | None => Some (inr (mkC (c_mem st) fps (c_ms st) (c_plan st)))
                 end
      | Op o _ ds => Some (inr (mkC (c_mem st ++ ds) fps (c_ms st) (add_unfold i (length ds) (dname o) (c_plan st))))
      | Leaf _ => Some (inl PLeaves)
      end
  end.
Fixpoint compile_loop (fuel : nat) (st : cst) (i : nat) : option (perr E + cst) :=
  if i <? length (c_mem st) then
    match fuel with
    | O => None
    | S fu => let? r := compile_step st i in
              match r with inl e => Some (inl e) | inr st => compile_loop fu st (S i) end
    end
  else Some (inr st).
(** 309-320 *)
Fixpoint map_placeholders (fps : list (node * nat)) (nodes : list node) (i : nat) (acc : list (nat * nat)) : perr E + list (nat * nat) :=
  match nodes with
  | [] => inr acc
  | n :: t => match n with
              | Plh _ => match find_fp fps n with
                         | Some j => map_placeholders fps t (S i) (acc ++ [(i, j)])
                         | None => inl PToKeys
                         end
              | _ => map_placeholders fps t (S i) acc
              end
  end.
(** 245-324 [CompilePattern] *)
Definition compile (from to : node) (ms : matchers) : option (perr E + compiled) :=
  let? v := verify from to ms in
  match v with
  | Some e => Some (inl e)
  | None =>
      let? r := compile_loop (size from) (mkC [from] [] ms (mkPlan [] [] [] [] 0)) 0 in
      match r with
      | inl e => Some (inl e)
      | inr st =>
          let? t := resolve to in
          match t with
          | inl e => Some (inl e)
          | inr to =>
              let? p := post_order to in
              match map_placeholders (c_fps st) (p_nodes p) 0 [] with
              | inl e => Some (inl e)
              | inr m => let pl := c_plan st in
                         Some (inr (mkCP (mkPlan (pl_unfold pl) (pl_fixed pl) (pl_same pl) (pl_preds pl) (length (c_mem st))) p m))
              end
          end
      end
  end.

(** ** Matching *)
(** The pointers; [None] before the first assignment *)
Definition memory : Type := list (option node).
Definition mem_at (m : memory) (i : nat) : option node := let? c := rd m i in c.
(** 168-170 *)
Fixpoint write_deps (m : memory) (i : nat) (ds : list node) : option memory :=
  match ds with [] => Some m | d :: t => let? m := upd m i (Some d) in write_deps m (S i) t end.
(** 148-172; [Some None]: not matched *)
Fixpoint unfold_loop (m : memory) (next : nat) (acts : list (nat * nat * list nat)) : option (option memory) :=
  match acts with
  | [] => Some (Some m)
  | (i, ar, name) :: t =>
      let? n := mem_at m i in
      match n with
      | Op o _ ds =>
          if negb (length ds =? ar) || negb (str_eqb (dname o) name) then Some None else
          let? m := write_deps m next ds in
          unfold_loop m (next + length ds) t
      | _ => Some None
      end
  end.
(** 173-190 *)
Fixpoint all_ok {A} (f : A -> option bool) (l : list A) : option bool :=
  match l with [] => Some true | x :: t => let? b := f x in if b then all_ok f t else Some false end.
Definition check_fixed (m : memory) (a : nat * node) : option bool := let? n := mem_at m (fst a) in Some (node_eqb n (snd a)).
Definition check_same (m : memory) (a : nat * nat) : option bool :=
  let? n := mem_at m (fst a) in let? n' := mem_at m (snd a) in Some (node_eqb n n').
Definition check_pred (m : memory) (a : nat * option matcher) : option bool :=
  let? n := mem_at m (fst a) in let? p := snd a in Some (p n).
(** 138-192 [MatchPattern]; the memory if matched *)
Definition match_pattern (pl : plan) (root : node) (m : memory) : option (perr E + option memory) :=
  if length m <? pl_cap pl then Some (inl PMemory) else
  let? m := upd m 0 (Some root) in
  let? r := unfold_loop m 1 (pl_unfold pl) in
  match r with
  | None => Some (inr None)
  | Some m =>
      let? a := all_ok (check_fixed m) (pl_fixed pl) in
      if a then
        let? b := all_ok (check_same m) (pl_same pl) in
        if b then
          let? c := all_ok (check_pred m) (pl_preds pl) in
          if c then Some (inr (Some m)) else Some (inr None)
        else Some (inr None)
      else Some (inr None)
  end.

(** ** Substitution *)
(** 106-108 *)
Fixpoint put_nodes_of (m : memory) (results : list (option node)) (mp : list (nat * nat)) : option (list (option node)) :=
  match mp with
  | [] => Some results
  | (i, j) :: t => let? n := mem_at m j in let? results := upd results i (Some n) in put_nodes_of m results t
  end.
(** 109-131, one round *)
Definition subst_step (p : porder) (results : list (option node)) (i : nat) : option (perr E + list (option node)) :=
  let? r := rd results i in
  match r with
  | Some _ => Some (inr results)
  | None =>
      let? n := rd (p_nodes p) i in
      let? is := dep_indices p i in
      let? rs := rds results is in
      if existsb changed rs then
        match n with
        | Op o _ ds => match make_op infer' o (map (fun c => pick (fst c) (snd c)) (combine rs ds)) with
                       | inl e => Some (inl e)
                       | inr n' => let? results := upd results i (Some n') in Some (inr results)
                       end
        | _ => None
        end
      else Some (inr results)
  end.
Fixpoint subst_loop (p : porder) (results : list (option node)) (i cnt : nat) : option (perr E + list (option node)) :=
  match cnt with
  | O => Some (inr results)
  | S c => let? r := subst_step p results i in
           match r with inl e => Some (inl e) | inr results => subst_loop p results (S i) c end
  end.
(** 101-136 [SubstituteNodes] *)
Definition substitute (p : porder) (mp : list (nat * nat)) (m : memory) : option (perr E + node) :=
  let n := length (p_nodes p) in
  let? results := put_nodes_of m (repeat None n) mp in
  let? r := subst_loop p results 0 n in
  match r with
  | inl e => Some (inl e)
  | inr results => let? last := rd results (n - 1) in
                   match last with
                   | Some r => Some (inr r)
                   | None => let? x := rd (p_nodes p) (n - 1) in Some (inr x)
                   end
  end.
(** 62-71 [CompiledPatternOptimization::ApplyToRoot] *)
Definition apply_pattern (c : compiled) (root : node) : option (perr E + node) :=
  let? r := match_pattern (cp_plan c) root (repeat None (pl_cap (cp_plan c))) in
  match r with
  | inl e => Some (inl e)
  | inr None => Some (inr root)
  | inr (Some m) => substitute (cp_to c) (cp_map c) m
  end.

(** ** The optimizer *)
(** peephole_optimizer.h:67-107 [PeepholeOptimization]: GetKey and ApplyToRoot *)
Record opt := mkOpt { o_key : option nat; o_apply : node -> option (perr E + node) }.
(** pattern_based_optimization.cc:83-97 [CreatePatternBasedOptimization] *)
Definition create_pattern (from to : node) (ms : matchers) : option (perr E + opt) :=
  let? r := compile from to ms in
  Some (match r with inl e => inl e | inr c => inr (mkOpt (Some (pattern_key from)) (apply_pattern c)) end).

(** peephole_optimizer.cc:116-121 [Data] *)
Record data := mkData { d_pat : list (nat * list opt); d_trans : list opt }.
Fixpoint push_opt (m : list (nat * list opt)) (k : nat) (o : opt) : list (nat * list opt) :=
  match m with [] => [(k, [o])] | (k', l) :: t => if k' =? k then (k', l ++ [o]) :: t else (k', l) :: push_opt t k o end.
(** 153-164 [PeepholeOptimizer::Create] *)
Definition create (opts : list opt) : data :=
  fold_left (fun d o => match o_key o with
                        | Some k => mkData (push_opt (d_pat d) k o) (d_trans d)
                        | None => mkData (d_pat d) (d_trans d ++ [o])
                        end) opts (mkData [] []).
Fixpoint find_key (m : list (nat * list opt)) (k : nat) : option (list opt) :=
  match m with [] => None | (k', l) :: t => if k' =? k then Some l else find_key t k end.
(** 129-134 *)
Fixpoint pattern_loop (key : nat) (l : list opt) (n : node) : option (perr E + node) :=
  match l with
  | [] => Some (inr n)
  | o :: t => let? r := o_apply o n in
              match r with
              | inl e => Some (inl e)
              | inr n => if negb (pattern_key n =? key) then Some (inr n) else pattern_loop key t n
              end
  end.
(** 136-138 *)
Fixpoint transform_loop (l : list opt) (n : node) : option (perr E + node) :=
  match l with
  | [] => Some (inr n)
  | o :: t => let? r := o_apply o n in
              match r with inl e => Some (inl e) | inr n => transform_loop t n end
  end.
(** 123-140 [ApplyToNode] *)
Definition apply_node (d : data) (n : node) : option (perr E + node) :=
  let key := pattern_key n in
  let? r := match find_key (d_pat d) key with
            | Some l => pattern_loop key l n
            | None => Some (inr n)
            end in
  match r with inl e => Some (inl e) | inr n => transform_loop (d_trans d) n end.
(** 142-147 [Apply]; [inl None] stands for what a call of the function leaves undefined *)
Definition apply (d : data) (root : node) : option (perr E + node) :=
  let? r := transform (fun o l => match infer' o l with inl e => inl (Some e) | inr a => inr a end)
              (fun n => match apply_node d n with None => inl None | Some (inl e) => inl (Some e) | Some (inr m) => inr m end) root in
  match r with inl None => None | inl (Some e) => Some (inl e) | inr n => Some (inr n) end.

(** expr_node.h, qtype() *)
Definition qtype (n : node) : option nat := match attr_of n with ANone => None | AType t => Some t | AValue v => Some (vtype v) end.
Definition qtype_eqb (a b : option nat) : bool :=
  match a, b with None, None => true | Some x, Some y => x =? y | _, _ => false end.
(** optimizer.cc:32-62 [MakeOptimizer]; [left] rounds are allowed *)
Fixpoint optimize (left : nat) (d : data) (n : node) : option (perr E + node) :=
  match left with
  | O => Some (inl PTooMany)
  | S l => let? r := apply_node d n in
           match r with
           | inl e => Some (inl e)
           | inr n' => if negb (qtype_eqb (qtype n') (qtype n)) then Some (inl PQType) else
                       if negb (node_eqb n n') then optimize l d n' else Some (inr n')
           end
  end.
End Peephole.
(** optimizer.cc:30 [kPeepholeOptimizerIterationsLimit] *)
Definition iterations_limit : nat := 100.
Definition make_optimizer {E} dname hname hfp vtype (d : data) (n : node) : option (perr E + node) := optimize (E := E) dname hname hfp vtype iterations_limit d n.
