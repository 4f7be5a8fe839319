(** What the forest evaluator has to compute, and for which forests. *)
From Verif Require Import Base Forest_Model Forest_Spec ForestBm_Model ForestBm_Spec ForestSi_Model ForestSi_Spec ForestEv_Model.

(** No tree is selected by two outputs. *)
Definition disjoint_outputs {V} (outs : list tfilter) (ts : list (tree V)) : Prop :=
  forall t g h f f', In t ts -> nth_error outs g = Some f -> nth_error outs h = Some f' ->
  selects f t = true -> selects f' t = true -> g = h.
(** The trees that an output selects. *)
Definition selected {V} (outs : list tfilter) (ts : list (tree V)) (t : tree V) : Prop :=
  In t ts /\ exists f, In f outs /\ selects f t = true.
(** A tree that single input evaluation takes: all its conditions use the same input, of
    one of the two supported types. *)
Definition takes_single {V} (ot : others) (t : tree V) (i : nat) (ty : ity) : Prop :=
  t_nodes t <> [] /\ single_input ot t i ty /\ (ty = TF32 \/ ty = TI64).
(** The trees for which the evaluators that are switched on are correct. *)
Definition tree_fine {V} (p : params) (ot : others) (t : tree V) : Prop :=
  proper t /\ (N.of_nat (length (t_adj t)) < 2 ^ 32)%N /\
  (p_bitmask p = true -> forall n, In n (t_nodes t) -> cond_ok (n_cond n)) /\
  (p_single p = true -> forall i ty, takes_single ot t i ty -> forall n, In n (t_nodes t) -> cond_fine (n_cond n)).
(** The rows: of floats, without NaN where a set of floats of a tree over a single input
    is true for a missing value. *)
Definition row_fine {V} (p : params) (ot : others) (outs : list tfilter) (ts : list (tree V)) (fr : frame) : Prop :=
  p_single p = true -> row_ok fr /\
  forall t i ty n, selected outs ts t -> takes_single ot t i ty -> In n (t_nodes t) -> nan_ok fr (n_cond n).
(** A tree that some evaluator other than the regular one can take. *)
Definition fits {V} (p : params) (ceq : cond -> cond -> bool) (ot : others) (t : tree V) : Prop :=
  (p_single p = true /\ exists i ty, takes_single ot t i ty) \/
  (p_bitmask p = true /\ (forall n, In n (t_nodes t) -> supported (n_cond n) = true) /\
   (length (t_adj t) <= 64 \/
    exists d, is_tree t d /\ is_oblivious ceq (leftmost d) d /\ length (t_adj t) = 2 ^ length (leftmost d))).
(** The weight of the trees of merged constants. *)
Definition unit_weight {V} (vo : vops V) (one : V) : Prop := forall v, vmul vo (vrnd vo v) one = vrnd vo v.
(** The value of an output: a sum, in some order and grouping, of the values of the leaves
    that the row reaches in exactly the trees that the output selects, each once. *)
Definition output_ok {V} (vo : vops V) (ot : others) (fr : frame) (ts : list (tree V)) (f : tfilter) (y : V) : Prop :=
  exists vs, values vo ot fr f ts vs /\ sum_of vo vs y.
(** Arithmetic without rounding. *)
Definition exact_ops {V} (vo : vops V) : Prop :=
  (forall a b, vadd vo a b = vadd vo b a) /\ (forall a b c, vadd vo (vadd vo a b) c = vadd vo a (vadd vo b c)) /\
  (forall a, vadd vo (vzero vo) a = a) /\ forall a, vrnd vo a = a.
