(** What single input evaluation has to compute, and for which conditions. *)
From Verif Require Import Base Forest_Model Forest_Spec ForestBm_Model ForestBm_Spec ForestSi_Model.

(** A float below 2^127 in absolute value. *)
Definition f32_bound (x : f32) : Prop := valid_binary 24 128 x = true /\ flt (SFabs x) (S754_finite false 8388608 104) = true.
(** Conditions with bounds and values that are far enough from the largest numbers; a set
    of integers has distinct values. *)
Definition cond_fine (c : cond) : Prop :=
  match c with
  | Interval _ l r => (l = fninf \/ f32_bound l) /\ (r = finf \/ f32_bound r)
  | SetF32 _ vs _ => forall v, In v vs -> f32_bound v
  | SetI64 _ vs _ => NoDup vs /\ forall v, In v vs -> (- 2 ^ 62 <= v < 2 ^ 62)%Z
  | Other _ => False
  end.
(** A row of floats; it has no NaN where a set of floats is true for a missing value. *)
Definition row_ok (fr : frame) : Prop := forall i x, in_f32 fr i = Some x -> valid_binary 24 128 x = true.
Definition nan_ok (fr : frame) (c : cond) : Prop :=
  match c with SetF32 i _ true => in_f32 fr i <> Some S754_nan | _ => True end.

(** Nodes form a tree: none is the child of two nodes, and the root of none. *)
Definition proper {V} (t : tree V) : Prop := NoDup (children (t_nodes t)) /\ ~ In 0%Z (children (t_nodes t)).
(** All conditions use the input [i] of type [ty]. *)
Definition single_input {V} (ot : others) (t : tree V) (i : nat) (ty : ity) : Prop :=
  forall n, In n (t_nodes t) -> csig ot (n_cond n) = [(i, ty)].
(** The filter of all trees. *)
Definition every_tree : tfilter := {| step_from := 0%Z; step_to := (-1)%Z; submodels := [] |}.

(** The internal evaluator is correct for trees from [us] with conditions satisfying [P]. *)
Definition internal_ok {V} (vo : vops V) (ot : others) (P : cond -> Prop) (us : list (tree V)) (internal : list (tree V) -> list ity -> option (frame -> option V)) : Prop :=
  forall ts slots req, from_trees ot ts = inr req -> validate_slots req slots = true ->
  (forall t, In t ts -> In t us) ->
  (forall t, In t ts -> proper t) -> (forall t n, In t ts -> In n (t_nodes t) -> P (n_cond n)) ->
  exists ev, internal ts slots = Some ev /\
  forall fr, exists vs y, values vo ot fr every_tree ts vs /\ ev fr = Some y /\ sum_of vo vs y.

(** The calls of AddTree. *)
Record scall V := { sc_group : nat; sc_tree : tree V; sc_input : nat; sc_type : ity }.
Arguments sc_group {V}. Arguments sc_tree {V}. Arguments sc_input {V}. Arguments sc_type {V}.
Definition si_calls {V} (n : nat) (cs : list (scall V)) : option (list (pergroup V)) :=
  fold_left (fun b c => let? b := b in si_add V b (sc_tree c) (sc_input c, sc_type c) (sc_group c)) cs (Some (si_new V n)).
