(** C67: while loops. *)
From Verif Require Import Base While_Model While_Spec While_Fold While_Extract While_Make While_Proofs While_Accept.

(** ** A small language, used in the examples *)
Inductive xty := TI | TF | TC | TT (fs : list key) (ts : list xty).
Inductive xval := VI (z : Z) | VF (z : Z) | VC (b : bool) | VT (fs : list key) (vs : list xval).
Fixpoint xty_of (v : xval) : xty := match v with VI _ => TI | VF _ => TF | VC _ => TC | VT fs vs => TT fs (map xty_of vs) end.
Fixpoint xty_dec (a b : xty) : {a = b} + {a <> b}.
Proof.
  destruct a as [| | |fs ts], b as [| | |fs' ts']; try (left; reflexivity); try (right; discriminate).
  destruct (list_eq_dec key_dec fs fs'); [|right; congruence]. destruct (list_eq_dec xty_dec ts ts'); [left; congruence|right; congruence].
Defined.
(** 0: addition, 1: comparison, 2: remainder, an error for the divisor zero *)
Definition xuser (n : nat) (vs : list xval) : option xval :=
  match n, vs with
  | 0, [VI a; VI b] => Some (VI (a + b))
  | 0, [VF a; VI b] | 0, [VI a; VF b] | 0, [VF a; VF b] => Some (VF (a + b))
  | 1, [VI a; VI b] | 1, [VF a; VI b] | 1, [VI a; VF b] | 1, [VF a; VF b] => Some (VC (a <? b)%Z)
  | 2, [VI a; VI b] => if (b =? 0)%Z then None else Some (VI (a mod b))
  | _, _ => None
  end.
Definition xuser_ty (n : nat) (ts : list xty) : option xty :=
  match n, ts with
  | 0, [TI; TI] => Some TI
  | 0, [TF; TI] | 0, [TI; TF] | 0, [TF; TF] => Some TF
  | 1, [TI; TI] | 1, [TF; TI] | 1, [TI; TF] | 1, [TF; TF] => Some TC
  | 2, [TI; TI] => Some TI
  | _, _ => None
  end.
Definition xcast (t : xty) (v : xval) : option xval :=
  match t, v with TF, VI z => Some (VF z) | _, _ => if xty_dec (xty_of v) t then Some v else None end.
Definition xcast_ty (t a : xty) : option xty :=
  match t, a with TF, TI => Some TF | _, _ => if xty_dec a t then Some t else None end.
Definition X : lang := mkLang xty xval xty_of (fun n => VI (Z.of_nat n)) xuser xuser_ty VT TT (fun _ => true)
  (fun i v => match v with VT _ vs => nth_error vs i | _ => None end) (fun i t => match t with TT _ ts => nth_error ts i | _ => None end)
  xcast xcast_ty (fun v => match v with VC b => b | _ => false end) TC xty_dec.
Lemma X_ok : lang_ok X.
Proof.
  constructor; cbn.
  - intros n vs v. destruct n as [|[|[|n]]]; destruct vs as [|[a|a|a|fs us] [|[b|b|b|fs' us'] [|? ?]]]; cbn; try discriminate; try (intros E; injection E as <-; reflexivity).
    all: try (destruct (_ =? 0)%Z; [discriminate|]; intros E; injection E as <-; reflexivity).
  - reflexivity.
  - reflexivity.
  - reflexivity.
  - intros i v x. destruct v; try discriminate. cbn. intros H. rewrite nth_error_map, H. reflexivity.
  - intros t v x. unfold xcast, xcast_ty.
    assert (U : forall y, (if xty_dec (xty_of y) t then Some y else None) = Some x -> xty_of x = t /\ xty_of y = t).
    { intros y. destruct (xty_dec (xty_of y) t) as [D|]; [|discriminate]. intros E; injection E as <-. auto. }
    assert (R : (if xty_dec t t then Some t else None) = Some t) by (destruct (xty_dec t t); [reflexivity|contradiction]).
    destruct t; try (intros H; apply U in H; destruct H as [H1 H2]; split; [exact H1|rewrite H2; exact R]).
    destruct v; try (intros H; apply U in H; destruct H as [H1 H2]; discriminate H2); intros E; injection E as <-; auto.
  - intros t a t'. unfold xcast_ty.
    assert (U : forall y : xty, (if xty_dec y t then Some t else None) = Some t' -> t' = t).
    { intros y. destruct (xty_dec y t); [|discriminate]. congruence. }
    destruct t; try (apply U). destruct a; try (apply U). congruence.
Qed.
Definition ka : key := [97%Z]. Definition kb : key := [98%Z]. Definition kx : key := [120%Z]. Definition ky : key := [121%Z].
Definition ok_ident (k : key) : bool := true.
Definition leaf2 (x y : xval) (k : key) : option xval := if key_dec k kx then Some x else if key_dec k ky then Some y else None.
(** Euclid's algorithm. *)
Definition gcd_init : items := [(ka, Leaf kx); (kb, Leaf ky)].
Definition gcd_cond : expr := Op (User 1) [Lit 0; Plc kb].
Definition gcd_body : items := [(kb, Op (User 2) [Plc ka; Plc kb]); (ka, Plc kb)].
(** A sum whose variable starts as an integer and becomes a float. *)
Definition sum_init : items := [(ka, Lit 0); (kb, Leaf ky)].
Definition sum_cond : expr := Op (User 1) [Plc ka; Op (User 0) [Plc kb; Leaf ky]].
Definition sum_body : items := [(ka, Op (User 0) [Plc ka; Op (User 0) [Leaf kx; Leaf kx]])].
Definition run_loop (init : items) (cond : expr) (body : items) (x y : xval) (fuel : nat) : option (option (option xval)) :=
  let? w := make_while X ok_ident init cond body in
  Some (@weval X fuel (VI 0) (@tys X (leaf2 x y)) no_leaves (leaf2 x y) no_leaves w).

(** The value of the node is the outcome of the loop, and the node has no value when the
    loop does not end. *)
Theorem C67_loop G ident init cond body names w junk LT PT L P r : lang_ok G -> loop_inputs init cond body -> no_reserved init -> fields_of body names ->
  make_while G ident init cond body = Some w -> well_typed G LT PT init cond body -> invariants_ok G L cond body ->
  (exists fuel, weval fuel junk LT PT L P w = Some r) <-> outcome G LT PT L P init cond body names r.
Proof.
  intros OK LI NR FO H W IV. rewrite (fields_unique _ _ _ FO (names_fields body (proj1 (proj2 LI)))).
  destruct (make_inv _ _ _ _ _ _ H) as (init' & cond' & body' & casts & c & b & es & bs & ds & M). eapply loop_ok; eauto.
Qed.
Print Assumptions C67_loop.
Example C67_loop_example : run_loop gcd_init gcd_cond gcd_body (VI 48) (VI 36) 5 = Some (Some (Some (VT [ka; kb] [VI 12; VI 0]))) /\
  run_loop sum_init sum_cond sum_body (VF 2) (VI 5) 5 = Some (Some (Some (VT [ka] [VF 12]))) /\
  run_loop gcd_init gcd_cond gcd_body (VI 48) (VI 36) 1 = Some None.
Proof. repeat split; vm_compute; reflexivity. Qed.
Lemma sub_leafs x e : sub x e -> match e with Op _ args => x = e \/ exists y, In y args /\ sub x y | _ => x = e end.
Proof. intros H. inversion H; subst; [destruct e; auto|]. right; eauto. Qed.
Ltac subs := repeat match goal with
  | H : sub _ _ |- _ => apply sub_leafs in H; cbn in H
  | H : _ \/ _ |- _ => destruct H
  | H : exists _, _ |- _ => destruct H
  | H : _ /\ _ |- _ => destruct H
  | H : False |- _ => destruct H
  end; subst; try discriminate.
Lemma gcd_inputs : loop_inputs gcd_init gcd_cond gcd_body /\ no_reserved gcd_init.
Proof.
  split; [split; [|split; [|split; [|split; [|split; [|split]]]]]|].
  - repeat constructor; cbn; intuition discriminate.
  - repeat constructor; cbn; intuition discriminate.
  - intros a S. unfold gcd_cond in S. subs.
  - intros k e H a S. cbn in H. destruct H as [H|[H|[]]]; injection H as <- <-; subs.
  - intros k K. cbn in K |- *. intuition.
  - intros k K. cbn in K |- *. intuition.
  - intros k e H q Q. cbn in H. destruct H as [H|[H|[]]]; injection H as <- <-; cbn in Q |- *; intuition.
  - intros k K. cbn in K. destruct K as [<-|[<-|[]]]; reflexivity.
Qed.
Lemma gcd_invariants x y : invariants_ok X (leaf2 x y) gcd_cond gcd_body.
Proof.
  intros e z R S C. cbn in R. destruct R as [->|[<-|[<-|[]]]]; unfold gcd_cond in *; subs; try discriminate C; cbn; discriminate.
Qed.
Lemma gcd_typed a b : well_typed X (@tys X (leaf2 (VI a) (VI b))) no_leaves gcd_init gcd_cond gcd_body.
Proof.
  split; [|split; [|reflexivity]].
  - intros k K. cbn in K. destruct K as [<-|[<-|[]]]; discriminate.
  - intros k e H. apply get_In in H. cbn in H. destruct H as [H|[H|[]]]; injection H as <- <-; exists TI, TI; repeat split; reflexivity.
Qed.
(** Its hypotheses hold of this loop, for all integers. *)
Example C67_loop_hypotheses a b : exists w, make_while X ok_ident gcd_init gcd_cond gcd_body = Some w /\ forall r,
  (exists fuel, @weval X fuel (VI 0) (@tys X (leaf2 (VI a) (VI b))) no_leaves (leaf2 (VI a) (VI b)) no_leaves w = Some r) <->
  outcome X (@tys X (leaf2 (VI a) (VI b))) no_leaves (leaf2 (VI a) (VI b)) no_leaves gcd_init gcd_cond gcd_body [ka; kb] r.
Proof.
  destruct (make_while X ok_ident gcd_init gcd_cond gcd_body) as [w|] eqn:E; [|vm_compute in E; discriminate]. exists w. split; [reflexivity|]. intros r.
  apply (C67_loop X ok_ident gcd_init gcd_cond gcd_body [ka; kb] w); auto using X_ok, gcd_typed, gcd_invariants; try apply gcd_inputs.
  split; [|split]; [intros k; cbn; tauto|repeat constructor; cbn; intuition discriminate|].
  intros i j B. cbn in B. assert (i = 0 /\ j = 1) as [-> ->] by lia. reflexivity.
Qed.

(** Without the hypothesis on what does not depend on the state: a value is the outcome,
    and the loop is well typed. *)
Theorem C67_value G ident init cond body names w junk LT PT L P fuel v : lang_ok G -> loop_inputs init cond body -> no_reserved init -> fields_of body names ->
  make_while G ident init cond body = Some w -> weval fuel junk LT PT L P w = Some (Some v) ->
  well_typed G LT PT init cond body /\ outcome G LT PT L P init cond body names (Some v).
Proof.
  intros OK LI NR FO H E. rewrite (fields_unique _ _ _ FO (names_fields body (proj1 (proj2 LI)))).
  destruct (make_inv _ _ _ _ _ _ H) as (init' & cond' & body' & casts & c & b & es & bs & ds & M). eapply loop_value; eauto.
Qed.
Print Assumptions C67_value.
(** A loop that is not well typed is an error, without an iteration. *)
Theorem C67_ill_typed G ident init cond body w junk LT PT L P fuel : lang_ok G -> loop_inputs init cond body -> no_reserved init ->
  make_while G ident init cond body = Some w -> ~ well_typed G LT PT init cond body -> weval fuel junk LT PT L P w = Some None.
Proof.
  intros OK LI NR H. destruct (make_inv _ _ _ _ _ _ H) as (init' & cond' & body' & casts & c & b & es & bs & ds & M). eapply loop_ill; eauto.
Qed.
Print Assumptions C67_ill_typed.
(** Euclid's algorithm on floats: there is no remainder of floats. *)
Example C67_ill_typed_example : run_loop gcd_init gcd_cond gcd_body (VF 48) (VI 36) 0 = Some (Some None).
Proof. vm_compute; reflexivity. Qed.

(** There is one outcome at most. *)
Lemma iter_det G LT PT L P init cond body names vs r1 : iter G LT PT L P init cond body names vs r1 -> forall r2, iter G LT PT L P init cond body names vs r2 -> r1 = r2.
Proof.
  induction 1 as [vs EV|vs cv EV ET|vs cv EV ET EN|vs cv vs1 r EV ET EN I IH]; intros r2 H2;
    inversion H2 as [? EV2|? cv2 EV2 ET2|? cv2 EV2 ET2 EN2|? cv2 vs2 ? EV2 ET2 EN2 I2]; subst; try congruence.
  apply IH. assert (vs2 = vs1) by congruence. subst. exact I2.
Qed.
Theorem C67_deterministic G LT PT L P init cond body names r1 r2 :
  outcome G LT PT L P init cond body names r1 -> outcome G LT PT L P init cond body names r2 -> r1 = r2.
Proof.
  intros O1 O2. inversion O1 as [(k & K & N)|V S|vs r V S I]; inversion O2 as [(k2 & K2 & N2)|V2 S2|vs2 r' V2 S2 I2]; subst; try congruence.
  - exfalso. exact (V2 k K N).
  - exfalso. exact (V k2 K2 N2).
  - assert (vs2 = vs) by congruence. subst. f_equal. eapply iter_det; eauto.
Qed.
Print Assumptions C67_deterministic.

(** Which loops are accepted. *)
Theorem C67_accepted G ident init cond body names : NoDup (keys init) -> NoDup (keys body) -> no_reserved init -> fields_of body names ->
  (forall k, In k (plcs cond) -> starts_with imm_prefix k = false) -> (forall q e k, In (q, e) body -> In k (plcs e) -> starts_with imm_prefix k = false) ->
  ident loop_state = true -> (forall i, ident (imm_name i) = true) ->
  (exists w, make_while G ident init cond body = Some w) <-> accepted G ident init cond body names.
Proof.
  intros N1 N2 NR FO NC NB I1 I2. rewrite (fields_unique _ _ _ FO (names_fields body N2)). split.
  - intros (w & H). eapply accepted_fwd; eauto.
  - apply accepted_bwd; assumption.
Qed.
Print Assumptions C67_accepted.
Example C67_accepted_example : make_while X ok_ident gcd_init gcd_cond gcd_body <> None /\
  make_while X ok_ident [(ka, Leaf kx)] gcd_cond gcd_body = None /\ make_while X ok_ident (gcd_init ++ [(loop_state, Lit 1)]) gcd_cond gcd_body = None /\
  make_while X ok_ident gcd_init (Op (User 1) [Plc kx; Plc kb]) gcd_body = None.
Proof. split; [vm_compute; discriminate|]. repeat split; vm_compute; reflexivity. Qed.

(** The types of the state do not change from iteration to iteration; the condition and
    the result have the types that were inferred. *)
Theorem C67_types G init cond body names LT PT L P : lang_ok G -> loop_inputs init cond body -> fields_of body names ->
  (forall k v, L k = Some v -> LT k = Some (ty G v)) -> (forall k v, P k = Some v -> PT k = Some (ty G v)) -> well_typed G LT PT init cond body ->
  (forall vs, reached G LT PT L P init cond body names vs -> has_types G LT PT init body names vs /\
     (forall c, value G LT PT L P init names vs cond = Some c -> ty G c = cond_ty G)) /\
  (forall v, outcome G LT PT L P init cond body names (Some v) -> exists ts, map_opt (ty1 G LT PT init body) names = Some ts /\ ty G v = pack_ty G names ts).
Proof.
  intros OK LI FO HL HP W. rewrite (fields_unique _ _ _ FO (names_fields body (proj1 (proj2 LI)))). split.
  - intros vs R. split; [eapply reached_types; eauto|]. intros c. eapply cond_types; eauto.
  - intros v. eapply outcome_type; eauto.
Qed.
Print Assumptions C67_types.
(** The inferred type is the one of the initial state. *)
Theorem C67_infer G ident init cond body w LT PT : lang_ok G -> loop_inputs init cond body -> no_reserved init -> make_while G ident init cond body = Some w ->
  (exists ts t, map_opt (ety LT PT) (w_deps w) = Some ts /\ infer w ts = Some t) <-> well_typed G LT PT init cond body.
Proof.
  intros OK LI NR H. destruct (make_inv _ _ _ _ _ _ H) as (init' & cond' & body' & casts & c & b & es & bs & ds & M). eapply infer_iff; eauto.
  Unshelve. all: exact no_leaves.
Qed.
Print Assumptions C67_infer.
Example C67_types_example : @ty1 X (@tys X (leaf2 (VF 2) (VI 5))) no_leaves sum_init sum_body ka = Some TF /\
  @ty0 X (@tys X (leaf2 (VF 2) (VI 5))) no_leaves sum_init ka = Some TI.
Proof. split; vm_compute; reflexivity. Qed.

(** Refuted: the value does not depend on how the variables are named.  The check for the
    reserved prefix covers the variables of the body only; a variable of the initial
    state with such a name replaces an expression of the body. *)
Definition res_init : items := [(ka, Lit 1); (imm_name 0, Leaf ky)].
Definition res_cond : expr := Op (User 1) [Plc ka; Lit 5].
Definition res_body : items := [(ka, Op (User 0) [Plc ka; Leaf kx])].
Theorem C67_reserved_name_refuted : exists w v v' fuel, loop_inputs res_init res_cond res_body /\ fields_of res_body [ka] /\
  make_while X ok_ident res_init res_cond res_body = Some w /\ invariants_ok X (leaf2 (VI 100) (VI 7)) res_cond res_body /\
  @weval X fuel (VI 0) (@tys X (leaf2 (VI 100) (VI 7))) no_leaves (leaf2 (VI 100) (VI 7)) no_leaves w = Some (Some v) /\
  outcome X (@tys X (leaf2 (VI 100) (VI 7))) no_leaves (leaf2 (VI 100) (VI 7)) no_leaves res_init res_cond res_body [ka] (Some v') /\ v <> v'.
Proof.
  destruct (make_while X ok_ident res_init res_cond res_body) as [w|] eqn:E; [|vm_compute in E; discriminate].
  exists w, (VT [ka] [VI 8]), (VT [ka] [VI 101]), 3. split; [|split; [|split; [|split; [|split; [|split]]]]].
  - split; [|split; [|split; [|split; [|split; [|split]]]]].
    + repeat constructor; cbn; intuition discriminate.
    + repeat constructor; cbn; intuition discriminate.
    + intros a S. unfold res_cond in S. subs.
    + intros k e H a S. cbn in H. destruct H as [H|[]]; injection H as <- <-; subs.
    + intros k K. cbn in K |- *. intuition.
    + intros k K. cbn in K |- *. intuition.
    + intros k e H q Q. cbn in H. destruct H as [H|[]]; injection H as <- <-; cbn in Q |- *; intuition.
  - split; [intros k; cbn; tauto|]. split; [repeat constructor; intros []|]. intros i j B. cbn in B. lia.
  - reflexivity.
  - intros e z R S C. cbn in R. destruct R as [->|[<-|[]]]; unfold res_cond in *; subs; try discriminate C; cbn; discriminate.
  - vm_compute in E. injection E as <-. vm_compute. reflexivity.
  - apply (out_loop X _ _ _ _ _ _ _ _ [VI 1] (Some [VI 101])).
    + intros k K. cbn in K. destruct K as [<-|[<-|[]]]; vm_compute; discriminate.
    + vm_compute. reflexivity.
    + apply iter_next with (c := VC true) (vs' := [VI 101]); try (vm_compute; reflexivity).
      apply iter_done with (c := VC false); vm_compute; reflexivity.
  - discriminate.
Qed.
Print Assumptions C67_reserved_name_refuted.
(** Refuted: every variable used is initialised. *)
Theorem C67_reserved_placeholder_refuted : exists w, make_while X ok_ident [(ka, Lit 1)] (Op (User 1) [Plc (imm_name 0); Lit 5]) res_body = Some w.
Proof. eexists. vm_compute. reflexivity. Qed.
Print Assumptions C67_reserved_placeholder_refuted.
(** Refuted: a part of the body is evaluated only if the body is. *)
Definition eag_body : items := [(ka, Op (User 0) [Plc ka; Op (User 2) [Leaf kx; Leaf ky]])].
Definition eag_cond : expr := Op (User 1) [Plc ka; Lit 0].
Theorem C67_eager_refuted : exists w, make_while X ok_ident [(ka, Lit 1)] eag_cond eag_body = Some w /\
  well_typed X (@tys X (leaf2 (VI 1) (VI 0))) no_leaves [(ka, Lit 1)] eag_cond eag_body /\
  (forall fuel, @weval X fuel (VI 0) (@tys X (leaf2 (VI 1) (VI 0))) no_leaves (leaf2 (VI 1) (VI 0)) no_leaves w = Some None) /\
  outcome X (@tys X (leaf2 (VI 1) (VI 0))) no_leaves (leaf2 (VI 1) (VI 0)) no_leaves [(ka, Lit 1)] eag_cond eag_body [ka] (Some (VT [ka] [VI 1])).
Proof.
  destruct (make_while X ok_ident [(ka, Lit 1)] eag_cond eag_body) as [w|] eqn:E; [|vm_compute in E; discriminate]. exists w. split; [reflexivity|]. split; [|split].
  - split; [|split; [|reflexivity]].
    + intros k K. cbn in K. destruct K as [<-|[]]; discriminate.
    + intros k e H. apply get_In in H. cbn in H. destruct H as [H|[]]; injection H as <- <-. exists TI, TI; repeat split; reflexivity.
  - intros fuel. vm_compute in E. injection E as <-. unfold weval. vm_compute. reflexivity.
  - apply (out_loop X _ _ _ _ _ _ _ _ [VI 1] (Some [VI 1])).
    + intros k K. cbn in K. destruct K as [<-|[]]; vm_compute; discriminate.
    + vm_compute. reflexivity.
    + apply iter_done with (c := VC false); vm_compute; reflexivity.
Qed.
Print Assumptions C67_eager_refuted.
