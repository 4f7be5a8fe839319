(** C46: which decision forests are accepted and what the naive evaluation of an accepted
    forest does. *)
From Coq Require Import Permutation.
From Verif Require Import Base Forest_Model Forest_Spec Forest_Proofs.

(** A forest is accepted exactly when tags are not negative, every tree has one leaf more
    than split nodes, child ids are in range, and one type can be given to each input. *)
Theorem C46_accepts : forall V ot (ts : list (tree V)),
  (exists req, from_trees ot ts = inr req) <-> exists ty, forall t, In t ts -> valid_tree ot ty t.
Proof. intros. apply from_trees_iff. Qed.
Print Assumptions C46_accepts.

(** The slots are accepted exactly when each used input has a slot of its type. *)
Theorem C46_slots : forall V ot (ts : list (tree V)) req slots, from_trees ot ts = inr req ->
  (validate_slots req slots = true <-> forall i k, uses ot ts i k -> nth_error slots i = Some k).
Proof. intros. eapply validate_slots_iff. eassumption. Qed.
Print Assumptions C46_slots.

(** The evaluation of an accepted forest never reads outside of a vector. *)
Theorem C46_safe : forall V (vo : vops V) ot ts req fr fuel f, from_trees ot ts = inr req ->
  naive vo ot fr fuel f ts <> OutOfBounds.
Proof.
  intros V vo ot ts req fr fuel f E. apply naive_safe. pose proof (from_trees_ok ot ts) as H. rewrite E in H. apply H.
Qed.
Print Assumptions C46_safe.

(** If the trees of an accepted forest are trees, the evaluation terminates, and its
    result is the sum of the values of the leaves that the row reaches, over the selected
    trees from the first to the last. *)
Theorem C46_naive : forall V (vo : vops V) ot ts req fr f, from_trees ot ts = inr req ->
  (forall t, In t ts -> exists d, is_tree t d) ->
  exists vs, values vo ot fr f ts vs /\
  exists k, forall fuel, k <= fuel -> naive vo ot fr fuel f ts = Done (vrnd vo (fold_left (vadd vo) vs (vzero vo))).
Proof.
  intros V vo ot ts req fr f E D. pose proof (from_trees_ok ot ts) as H. rewrite E in H. destruct H as [_ S].
  destruct (values_some vo ot fr f ts S D) as [vs H]. exists vs. split; [exact H|].
  destruct (enough_fuel ts D) as [k K]. exists k. intros fuel F. unfold naive.
  rewrite (naive_sum_values vo ot fr f ts vs fuel H); [reflexivity|]. intros t d T U. specialize (K t d T U). lia.
Qed.
Print Assumptions C46_naive.

(** Which trees a filter selects: those of the steps from step_from to before step_to (-1: no
    end), of the given submodels (none given: of all). *)
Theorem C46_filter : forall V f (t : tree V), selects f t = true <->
  (step_from f <= t_step t)%Z /\ (step_to f <> -1 -> t_step t < step_to f)%Z /\ (submodels f <> [] -> In (t_sub t) (submodels f)).
Proof.
  intros V f t. unfold selects, tfilter_ok, zin. rewrite !Bool.andb_true_iff, !Bool.orb_true_iff, Z.leb_le, Z.eqb_eq, Z.ltb_lt, existsb_exists. split.
  - intros ((A & B) & C). split; [exact A|]. split; [intros N; destruct B as [B|B]; [contradiction|exact B]|]. intros N. destruct C as [C|(x & I & E)]; [destruct (submodels f); [contradiction|discriminate]|]. apply Z.eqb_eq in E. rewrite E. exact I.
  - intros (A & B & C). split; [split; [exact A|]|].
    + destruct (Z.eq_dec (step_to f) (-1)) as [E|N]; [left; exact E|right; exact (B N)].
    + destruct (submodels f) as [|x l] eqn:E; [left; reflexivity|right]. exists (t_sub t). split; [apply C; discriminate|apply Z.eqb_refl].
Qed.
Print Assumptions C46_filter.

(** A tree of an accepted forest is a tree if no split node is the child of two nodes and
    the root is the child of none. *)
Theorem C46_terminates : forall V ot (ts : list (tree V)) req t, from_trees ot ts = inr req -> In t ts ->
  NoDup (split_children (t_nodes t)) -> ~ In 0%Z (children (t_nodes t)) -> exists d, is_tree t d.
Proof.
  intros V ot ts req t E T O N. apply finite_tree; [|exact O|exact N].
  destruct (proj1 (from_trees_iff ot ts) (ex_intro _ req E)) as [ty H]. destruct (H t T) as (_ & _ & _ & C & _).
  intros c I. apply C. exact I.
Qed.
Print Assumptions C46_terminates.

(** Accepting a forest does not check this: here is an accepted forest whose evaluation
    never ends. *)
Definition zops : vops Z := {| vzero := 0%Z; vadd := Z.add; vmul := Z.mul; vrnd := fun x => x |}.
Definition no_others : others := {| o_eval := fun _ _ => false; o_sig := fun _ => [] |}.
Definition all_trees : tfilter := {| step_from := 0%Z; step_to := (-1)%Z; submodels := [] |}.
Definition one : f32 := S754_finite false 8388608 (-23).
Definition no_inputs : frame := {| in_f32 := fun _ => None; in_i64 := fun _ => None |}.
Definition cyclic : tree Z :=
  {| t_nodes := [{| n_false := 0%Z; n_true := (-1)%Z; n_cond := Interval 0 one finf |}];
     t_adj := [5%Z; 7%Z]; t_weight := 1%Z; t_step := 0%Z; t_sub := 0%Z |}.
Theorem C46_cycle_refuted : exists (ts : list (tree Z)) req fr,
  from_trees no_others ts = inr req /\ forall fuel, naive zops no_others fr fuel all_trees ts = OutOfFuel.
Proof.
  exists [cyclic], [(0, TF32)], no_inputs. split; [reflexivity|]. intros fuel.
  assert (W : walk no_others no_inputs cyclic fuel 0 = OutOfFuel) by (induction fuel as [|k IH]; [reflexivity|exact IH]).
  unfold naive. cbn [naive_sum]. unfold naive_tree. change (root cyclic) with 0%Z. rewrite W. reflexivity.
Qed.
Print Assumptions C46_cycle_refuted.

(** A forest with two trees: two inputs, three leaves, and a constant. *)
Definition half : f32 := S754_finite false 8388608 (-24).
Definition tree1 : tree Z :=
  {| t_nodes := [{| n_false := (-2)%Z; n_true := 1%Z; n_cond := Interval 0 half finf |};
                 {| n_false := (-1)%Z; n_true := (-3)%Z; n_cond := SetI64 1 [3; 5]%Z true |}];
     t_adj := [10; 20; 30]%Z; t_weight := 2%Z; t_step := 0%Z; t_sub := 0%Z |}.
Definition const1 : tree Z := {| t_nodes := []; t_adj := [4%Z]; t_weight := 1%Z; t_step := 1%Z; t_sub := 2%Z |}.
Definition row1 : frame := {| in_f32 := fun _ => Some one; in_i64 := fun _ => Some 5%Z |}.
Example C46_ex : from_trees no_others [tree1; const1] = inr [(0, TF32); (1, TI64)] /\
  validate_slots [(0, TF32); (1, TI64)] [TF32; TI64] = true /\
  (exists d, is_tree tree1 d) /\
  naive zops no_others row1 2 all_trees [tree1; const1] = Done 64%Z /\
  naive zops no_others row1 2 {| step_from := 0; step_to := 1; submodels := [] |}%Z [tree1; const1] = Done 60%Z /\
  naive zops no_others no_inputs 2 all_trees [tree1; const1] = Done 44%Z.
Proof.
  split; [reflexivity|]. split; [reflexivity|]. split; [|repeat split; reflexivity].
  eexists. eapply (unf_split _ 0); [reflexivity|apply unf_leaf; cbn; lia|].
  eapply (unf_split _ 1); [reflexivity|apply unf_leaf; cbn; lia|apply unf_leaf; cbn; lia].
Qed.
