(** C50: the forest evaluator. *)
From Coq Require Import Permutation.
From Verif Require Import Base Forest_Model Forest_Spec Forest_Proofs Forest_Props ForestPt_Model ForestPt_Spec ForestPt_Proofs FullAcc_Spec
  ForestBm_Model ForestBm_Spec ForestBm_Proofs ForestBm_Trees ForestBm_Eval ForestBm_Props ForestSi_Model ForestSi_Spec ForestSi_Build ForestSi_Props
  ForestEv_Model ForestEv_Spec ForestEv_Proofs ForestEv_Reg ForestEv_Loop ForestEv_Eval.

Section core.
Context {V : Type} (vo : vops V) (one : V) (U : unit_weight vo one) (lib : library) (L : lib_ok lib) (ceq : cond -> cond -> bool) (Q : ceq_ok ceq) (ot : others).
Lemma proper_is_tree (ts : list (tree V)) req t : from_trees ot ts = inr req -> In t ts -> proper t -> exists d, is_tree t d.
Proof. intros Acc T [N R]. apply (C46_terminates V ot ts req t Acc T); [unfold split_children; apply NoDup_filter; exact N|exact R]. Qed.
Lemma enough_nodes (ts : list (tree V)) : (forall t, In t ts -> exists d, is_tree t d) -> exists k, 0 < k /\ forall t d, In t ts -> is_tree t d -> nodes d < k.
Proof.
  induction ts as [|t ts IH]; intros H; [exists 1; split; [lia|intros t d []]|]. destruct IH as (k & K & IH); [intros; apply H; right; assumption|].
  destruct (H t (or_introl eq_refl)) as [d D]. exists (k + nodes d). split; [lia|]. intros u e [<-|I] E; [rewrite (is_tree_uniq t e d E D); lia|specialize (IH u e I E); lia].
Qed.
Lemma selected_list outs (ts : list (tree V)) : exists l, forall t, In t l <-> selected outs ts t.
Proof.
  exists (filter (fun t => existsb (fun f => selects f t) outs) ts). intros t. rewrite filter_In, existsb_exists. reflexivity.
Qed.

Lemma compile_core internal fuel p ts slots outs req : from_trees ot ts = inr req -> validate_slots req slots = true -> outs <> [] -> disjoint_outputs outs ts ->
  (forall t, selected outs ts t -> tree_fine p ot t) -> 0 < fuel -> (forall t d, selected outs ts t -> is_tree t d -> nodes d < fuel) ->
  (p_single p = true -> forall us, (forall t, In t us -> selected outs ts t) -> internal_ok vo ot cond_fine us internal) ->
  (exists e, compile_with V vo one lib ceq ot internal fuel p ts slots outs = ROk e /\ (p_regular p = false -> forall t, selected outs ts t -> fits p ceq ot t) /\
   forall fr, row_fine p ot outs ts fr -> exists out, eval V vo lib ot fuel e fr = Done out /\ Forall2 (output_ok vo ot fr ts) outs out) \/
  (compile_with V vo one lib ceq ot internal fuel p ts slots outs = RErr NoSuitable /\ p_regular p = false /\
   ((forall c d, cequals c d = true -> ceq c d = true) -> exists t, selected outs ts t /\ ~ fits p ceq ot t)).
Proof.
  intros Acc Vs Ne Dj Fine F0 Fu Int. unfold compile_with. rewrite (split_groups_ok outs ts Ne Dj). cbn [rbind].
  set (h := owner outs 0 (fun _ : tree V => None)).
  assert (Sel : forall g t, In (g, t) (pairs h ts) -> selected outs ts t /\ g < length outs).
  { intros g t I. destruct (pairs_In outs ts g t Dj I) as (It & f & Ef & S). split; [split; [exact It|exists f; split; [exact (nth_error_In _ _ Ef)|exact S]]|]. apply nth_error_Some. congruence. }
  assert (Sel' : forall t, selected outs ts t -> exists g, In (g, t) (pairs h ts)).
  { intros t (It & f & If & S). apply In_nth_error in If. destruct If as [g Eg]. exists g. apply gsel_In. unfold h. rewrite (gsel_pairs outs ts g f Dj Eg). apply filter_In. auto. }
  destruct (proj1 (C46_accepts V ot ts) (ex_intro _ req Acc)) as [ty Ty]. pose proof (from_trees_ok ot ts) as Ok. rewrite Acc in Ok. destruct Ok as [_ Sh].
  assert (Gd : forall g t, In (g, t) (pairs h ts) -> g < length outs /\ good ot p fuel t).
  { intros g t I. destruct (Sel g t I) as [S Lt]. split; [exact Lt|]. pose proof (Fine t S) as Ft. destruct (proper_is_tree ts req t Acc (proj1 S) (proj1 Ft)) as [d D].
    split; [apply Sh; apply S|]. split; [exists ty; intros nd i k; apply (Ty t (proj1 S))|]. split; [exact Ft|]. exists d. split; [exact D|]. exact (Fu t d S D). }
  destruct (add_trees_ok vo ceq ot p (length outs) fuel h ts [] _ [] [] [] [] (init_ok vo ceq ot p (length outs) fuel) Gd) as [(st & cs & sis & bms & regs & E & I)|(E & Rp & Nf)].
  2: { right. rewrite E. cbn [rbind]. split; [reflexivity|]. split; [exact Rp|]. intros Rf. destruct (Nf Rf) as (g & t & It & N). exists t. split; [apply (Sel g t It)|exact N]. }
  left. rewrite E. cbn [rbind app] in *.
  assert (Si : exists si, si_build V lib ot internal slots (st_single V st) = Some (Some si) /\ si_correct vo lib ot (length outs) (row_fine p ot outs ts) sis si).
  { destruct (p_single p) eqn:Ps.
    - assert (Us : forall t, In t (map sc_tree sis) -> selected outs ts t).
      { intros t It. apply in_map_iff in It. destruct It as (c & <- & Ic). refine (proj1 (Sel (sc_group c) _ _)). apply (Permutation_in _ (Permutation_sym (li_perm _ _ _ _ _ _ _ _ _ _ _ _ I))).
        rewrite !in_app_iff. right. left. apply in_map_iff. exists c. auto. }
      destruct (from_trees_sub ot ts (map sc_tree sis) req Acc) as [req' Acc']; [intros u Iu; apply Us; exact Iu|].
      destruct (C49_eval V vo lib ot internal sis (length outs) slots req' L (Int eq_refl _ Us) Acc') as (b & si & Eb & Es & K).
      { intros c Ic. pose proof (Us _ (in_map sc_tree _ _ Ic)) as S. destruct (li_sis _ _ _ _ _ _ _ _ _ _ _ _ I c Ic) as [_ (Nn & Sg & Tt)]. pose proof (Fine _ S) as (Pr & _ & _ & Fs).
        split; [|split; [exact Pr|split; [exact Tt|split; [exact Sg|split]]]].
        - apply (Sel (sc_group c) (sc_tree c)). apply (Permutation_in _ (Permutation_sym (li_perm _ _ _ _ _ _ _ _ _ _ _ _ I))). rewrite !in_app_iff. right. left. apply in_map_iff. exists c. auto.
        - apply (proj1 (C46_slots V ot ts req slots Acc) Vs). destruct (t_nodes (sc_tree c)) as [|nd r] eqn:En; [congruence|]. exists (sc_tree c), nd. split; [apply S|]. rewrite En. split; [left; reflexivity|].
          rewrite (Sg nd); [left; reflexivity|rewrite En; left; reflexivity].
        - apply (Fs Ps _ _ (conj Nn (conj Sg Tt))). }
      rewrite (li_single _ _ _ _ _ _ _ _ _ _ _ _ I) in Eb. injection Eb as <-. exists si. split; [exact Es|].
      intros fr out R Lo. destruct (R Ps) as [Rk Nk]. destruct (K fr out Rk) as (out' & E1 & E2 & E3); [|exact Lo|].
      { intros c nd Ic In. apply (Nk _ _ _ _ (Us _ (in_map sc_tree _ _ Ic)) (proj2 (li_sis _ _ _ _ _ _ _ _ _ _ _ _ I c Ic)) In). }
      exists out'. split; [exact E1|]. split; [exact E2|]. intros g x Ex. destruct (E3 g x Ex) as (y & vs & Y1 & Y2 & Y3). exists y, vs. split; [exact Y1|]. split; [|exact Y3].
      clear - Y2. induction Y2; cbn [map]; constructor; assumption.
    - assert (Es : sis = []) by (destruct sis as [|c r]; [reflexivity|]; destruct (li_sis _ _ _ _ _ _ _ _ _ _ _ _ I c (or_introl eq_refl)); congruence).
      pose proof (li_single _ _ _ _ _ _ _ _ _ _ _ _ I) as Sg. rewrite Es in Sg |- *. cbn in Sg. injection Sg as Sg. rewrite <- Sg. eexists. split; [apply si_none; exact L|apply si_correct_nil]. }
  destruct Si as (si & Es & Cs).
  destruct (finish_ok vo one U lib L ceq Q ot p (length outs) fuel F0 internal slots _ _ st cs sis bms regs si I Es Cs) as (e & Ee & Ke).
  exists e. split; [exact Ee|]. split.
  - intros Rp t S. destruct (Sel' t S) as [g Ig]. exact (li_fits _ _ _ _ _ _ _ _ _ _ _ _ I Rp g t Ig).
  - intros fr R. destruct (Ke fr R) as (out & E1 & E2 & E3). exists out. split; [exact E1|].
    assert (G : forall i f y, nth_error outs i = Some f -> nth_error out i = Some y -> output_ok vo ot fr ts f y).
    { intros i f y Ef Ey. destruct (E3 i y Ey) as (vs & Fv & Sv). unfold h in Fv. rewrite (gsel_pairs outs ts i f Dj Ef) in Fv. exists vs. split; [apply values_of; exact Fv|exact Sv]. }
    clear - E2 G. revert out E2 G. induction outs as [|f r IH]; intros [|y out] E2 G; cbn in E2; try lia; constructor; [exact (G 0 f y eq_refl eq_refl)|].
    apply IH; [lia|]. intros i f' y' A B. exact (G (Datatypes.S i) f' y' A B).
Qed.

Lemma fine_ok c : cond_fine c -> cond_ok c.
Proof.
  destruct c as [i l r|i vs m|i vs m|k]; cbn; [|tauto..]. intros [A B]. split; intros ->.
  - destruct A as [A|[_ A]]; discriminate.
  - destruct B as [B|[_ B]]; discriminate.
Qed.
(** The internal evaluator is correct. *)
Lemma internal_correct fuel (us : list (tree V)) : 0 < fuel -> (forall t, In t us -> (N.of_nat (length (t_adj t)) < 2 ^ 32)%N) -> (forall t d, In t us -> is_tree t d -> nodes d < fuel) ->
  internal_ok vo ot cond_fine us (internal V vo one lib ceq ot fuel).
Proof.
  intros F0 Sz Fu ts slots req Acc Vs Sub Pr Fi.
  destruct (compile_core (fun _ _ => None) fuel {| p_regular := true; p_bitmask := true; p_single := false |} ts slots [simple_filter] req Acc Vs) as [(e & E & _ & K)|(_ & X & _)]; try (cbn in *; discriminate); try exact F0.
  - intros t g h f f' _ A B _ _. destruct g as [|[|g]], h as [|[|h]]; cbn in *; try discriminate; reflexivity.
  - intros t [It _]. split; [apply Pr; exact It|]. split; [apply Sz, Sub, It|]. split; [intros _ nd I; apply fine_ok; apply (Fi t nd It I)|cbn; discriminate].
  - intros t d [It _] D. apply (Fu t d (Sub t It) D).
  - unfold internal. rewrite E. eexists. split; [reflexivity|]. intros fr. destruct (K fr) as (out & Eo & Fo); [intros X; cbn in X; discriminate|]. rewrite Eo.
    inversion Fo as [|f y l l' (vs & Vv & Sv) Fn Ef Ey]; subst. inversion Fn; subst. exists vs, y. split; [exact Vv|]. split; [reflexivity|exact Sv].
Qed.
End core.

(** Compiling a forest that TreeFilters select disjoint parts of succeeds, whatever the
    switched on evaluators, if each selected tree has one, and evaluating a row then sets
    each output to a sum of the values of exactly the selected trees. *)
Theorem C50_eval : forall V (vo : vops V) one lib ceq ot p ts req slots outs,
  unit_weight vo one -> lib_ok lib -> ceq_ok ceq ->
  from_trees ot ts = inr req -> validate_slots req slots = true -> outs <> [] -> disjoint_outputs outs ts ->
  (forall t, selected outs ts t -> tree_fine p ot t) ->
  p_regular p = true \/ ((forall c d, cequals c d = true -> ceq c d = true) /\ forall t, selected outs ts t -> fits p ceq ot t) ->
  exists k, forall fuel, k <= fuel -> exists e, ev_compile V vo one lib ceq ot fuel p ts slots outs = ROk e /\
  forall fr, row_fine p ot outs ts fr -> exists out, eval V vo lib ot fuel e fr = Done out /\ Forall2 (output_ok vo ot fr ts) outs out.
Proof.
  intros V vo one lib ceq ot p ts req slots outs U L Q Acc Vs Ne Dj Fine Fit.
  destruct (selected_list outs ts) as [l Hl]. destruct (enough_nodes l) as (k & K0 & K).
  { intros t It. apply Hl in It. apply (proper_is_tree ot ts req t Acc (proj1 It)), Fine, It. }
  exists k. intros fuel Fu. unfold ev_compile.
  destruct (compile_core vo one U lib L ceq Q ot (internal V vo one lib ceq ot fuel) fuel p ts slots outs req Acc Vs Ne Dj Fine) as [(e & E & _ & X)|(E & Rp & Nf)]; try lia.
  - intros t d S D. apply Hl in S. specialize (K t d S D). lia.
  - intros _ us Us. apply internal_correct; try assumption; try lia.
    + intros t It. apply (Fine t (Us t It)).
    + intros t d It D. apply Us, Hl in It. specialize (K t d It D). lia.
  - exists e. split; [exact E|exact X].
  - destruct Fit as [Rt|[Rf Fit]]; [congruence|]. destruct (Nf Rf) as (t & S & N). exfalso. exact (N (Fit t S)).
Qed.
Print Assumptions C50_eval.

(** Without the regular evaluator a tree that fits no other one is reported. *)
Theorem C50_unfit : forall V (vo : vops V) one lib ceq ot p ts req slots outs t,
  unit_weight vo one -> lib_ok lib -> ceq_ok ceq ->
  from_trees ot ts = inr req -> validate_slots req slots = true -> outs <> [] -> disjoint_outputs outs ts ->
  (forall t, selected outs ts t -> tree_fine p ot t) ->
  p_regular p = false -> selected outs ts t -> ~ fits p ceq ot t ->
  exists k, forall fuel, k <= fuel -> ev_compile V vo one lib ceq ot fuel p ts slots outs = RErr NoSuitable.
Proof.
  intros V vo one lib ceq ot p ts req slots outs t U L Q Acc Vs Ne Dj Fine Rp Sel Nf.
  destruct (selected_list outs ts) as [l Hl]. destruct (enough_nodes l) as (k & K0 & K).
  { intros u It. apply Hl in It. apply (proper_is_tree ot ts req u Acc (proj1 It)), Fine, It. }
  exists k. intros fuel Fu. unfold ev_compile.
  destruct (compile_core vo one U lib L ceq Q ot (internal V vo one lib ceq ot fuel) fuel p ts slots outs req Acc Vs Ne Dj Fine) as [(e & E & X & _)|(E & _ & _)]; try lia.
  - intros u d S D. apply Hl in S. specialize (K u d S D). lia.
  - intros _ us Us. apply internal_correct; try assumption; try lia.
    + intros u It. apply (Fine u (Us u It)).
    + intros u d It D. apply Us, Hl in It. specialize (K u d It D). lia.
  - exfalso. exact (Nf (X Rp t Sel)).
  - exact E.
Qed.
Print Assumptions C50_unfit.

(** Which outputs are rejected, with any forest and any evaluators. *)
Theorem C50_outputs : forall V (vo : vops V) one lib ceq ot fuel p ts slots outs,
  (outs = [] -> ev_compile V vo one lib ceq ot fuel p ts slots outs = RErr NoOutputs) /\
  (outs <> [] -> ~ disjoint_outputs outs ts -> ev_compile V vo one lib ceq ot fuel p ts slots outs = RErr GroupsIntersect).
Proof.
  intros V vo one lib ceq ot fuel p ts slots outs. unfold ev_compile, compile_with. split.
  - intros ->. reflexivity.
  - intros Ne Nd. rewrite (split_groups_err outs ts Ne Nd). reflexivity.
Qed.
Print Assumptions C50_outputs.

(** Without rounding, each output is the naive value of the forest. *)
Lemma exact_sum {V} (vo : vops V) vs y : exact_ops vo -> sum_of vo vs y -> y = fold_left (vadd vo) vs (vzero vo).
Proof.
  intros (Cm & As & Z0 & R). assert (F : forall l a, fold_left (vadd vo) l a = vadd vo a (fold_left (vadd vo) l (vzero vo))).
  { induction l as [|x l IH]; intros a; cbn [fold_left]; [rewrite Cm, Z0; reflexivity|]. rewrite (IH (vadd vo a x)), (IH (vadd vo (vzero vo) x)), Z0. apply As. }
  induction 1 as [|v|l1 l2 a b _ IH1 _ IH2|l a _ IH|l l' a P _ IH].
  - reflexivity.
  - cbn. symmetry. apply Z0.
  - rewrite fold_left_app, F, <- IH1, <- IH2. reflexivity.
  - rewrite R. exact IH.
  - rewrite IH. clear - P F Cm As. induction P as [|x l l' P IH|x z l|l m r P1 IH1 P2 IH2]; cbn [fold_left].
    + reflexivity.
    + rewrite (F l), (F l'), IH. reflexivity.
    + f_equal. rewrite !As. f_equal. apply Cm.
    + congruence.
Qed.
Theorem C50_exact : forall V (vo : vops V) one lib ceq ot p ts req slots outs,
  exact_ops vo -> unit_weight vo one -> lib_ok lib -> ceq_ok ceq ->
  from_trees ot ts = inr req -> validate_slots req slots = true -> outs <> [] -> disjoint_outputs outs ts ->
  (forall t, In t ts -> tree_fine p ot t) -> p_regular p = true ->
  exists k, forall fuel, k <= fuel -> exists e, ev_compile V vo one lib ceq ot fuel p ts slots outs = ROk e /\
  forall fr, row_fine p ot outs ts fr -> exists out, eval V vo lib ot fuel e fr = Done out /\
    map (fun f => naive vo ot fr fuel f ts) outs = map Done out.
Proof.
  intros V vo one lib ceq ot p ts req slots outs Ex U L Q Acc Vs Ne Dj Fine Rp.
  destruct (C50_eval V vo one lib ceq ot p ts req slots outs U L Q Acc Vs Ne Dj (fun t S => Fine t (proj1 S)) (or_introl Rp)) as [k K].
  destruct (enough_fuel ts) as [k' K']; [intros t T; exact (proper_is_tree ot ts req t Acc T (proj1 (Fine t T)))|].
  exists (k + k'). intros fuel Fu. destruct (K fuel ltac:(lia)) as (e & E & X). exists e. split; [exact E|]. intros fr R. destruct (X fr R) as (out & Eo & Fo). exists out. split; [exact Eo|].
  clear - Fo K' Fu Ex. induction Fo as [|f y outs out (vs & Vv & Sv) Fo IH]; [reflexivity|]. cbn [map]. f_equal; [|exact IH].
  unfold naive. rewrite (naive_sum_values vo ot fr f ts vs fuel Vv); [|intros t d T D; specialize (K' t d T D); lia]. cbn [obind]. rewrite <- (exact_sum vo vs y Ex Sv). f_equal. apply Ex.
Qed.
Print Assumptions C50_exact.

(** A forest with trees for each evaluator and two constants, and two outputs. *)
Definition with_sub (s : Z) (t : tree Z) : tree Z := {| t_nodes := t_nodes t; t_adj := t_adj t; t_weight := t_weight t; t_step := t_step t; t_sub := s |}.
Definition reg_tree : tree Z :=
  {| t_nodes := [{| n_false := 1%Z; n_true := (-2)%Z; n_cond := SetF32 0 [half] true |}; {| n_false := (-1)%Z; n_true := (-3)%Z; n_cond := SetI64 1 [3; 5]%Z false |}];
     t_adj := [1000; 2000; 3000]%Z; t_weight := 1%Z; t_step := 0%Z; t_sub := 0%Z |}.
Definition leaf_tree (v : Z) : tree Z := {| t_nodes := []; t_adj := [v]; t_weight := 10%Z; t_step := 0%Z; t_sub := 0%Z |}.
Definition forest50 : list (tree Z) :=
  [with_sub 0 float_tree; with_sub 1 tree1; with_sub 0 obl_tree; with_sub 1 (leaf_tree 7); with_sub 0 reg_tree; with_sub 1 int_tree; with_sub 1 (leaf_tree 3); with_sub 2 reg_tree].
Definition outs50 : list tfilter := [{| step_from := 0%Z; step_to := (-1)%Z; submodels := [1%Z] |}; {| step_from := 0%Z; step_to := (-1)%Z; submodels := [0%Z] |}].
Definition all_on : params := {| p_regular := true; p_bitmask := true; p_single := true |}.
Definition run50 (p : params) (fr : frame) : option (list Z) :=
  match ev_compile Z zops 1%Z ref_lib cequals no_others 9 p forest50 [TF32; TI64] outs50 with
  | ROk e => match eval Z zops ref_lib no_others 9 e fr with Done out => Some out | _ => None end
  | _ => None
  end.
Example C50_ex :
  unit_weight zops 1%Z /\ exact_ops zops /\ (exists req, from_trees no_others forest50 = inr req /\ validate_slots req [TF32; TI64] = true) /\
  disjoint_outputs outs50 forest50 /\ (forall t, In t forest50 -> tree_fine all_on no_others t) /\ row_fine all_on no_others outs50 forest50 row1 /\
  run50 all_on row1 = Some [180; 3660]%Z /\ run50 {| p_regular := true; p_bitmask := false; p_single := false |} row1 = Some [180; 3660]%Z /\
  map (fun f => naive zops no_others row1 9 f forest50) outs50 = [Done 180; Done 3660]%Z /\
  ev_compile Z zops 1%Z ref_lib cequals no_others 9 {| p_regular := false; p_bitmask := true; p_single := true |} forest50 [TF32; TI64] outs50 = RErr NoSuitable /\
  ev_compile Z zops 1%Z ref_lib cequals no_others 9 all_on forest50 [TF32; TI64] (simple_filter :: outs50) = RErr GroupsIntersect.
Proof.
  split; [intros v; cbn; lia|]. split; [unfold exact_ops; cbn; repeat split; intros; lia|].
  split; [eexists; split; reflexivity|]. split.
  { intros t g h f f' T A B. destruct g as [|[|g]]; [..|destruct g; discriminate]; (destruct h as [|[|h]]; [..|destruct h; discriminate]); cbn in A, B; injection A as <-; injection B as <-; try reflexivity;
      repeat (destruct T as [<-|T]; [discriminate|]); destruct T. }
  split.
  { assert (C : forall c, In c [Interval 0 half finf; Interval 0 fninf Forest_Props.one; SetI64 1 [3; 5]%Z true; SetI64 1 [5; 3]%Z true; SetI64 1 [3; 5]%Z false; SetI64 1 [3; 7; 5]%Z true; SetF32 0 [half] true] -> cond_fine c).
    { intros c I. repeat (destruct I as [<-|I]); [..|destruct I]; cbn.
      - split; [right; split; reflexivity|left; reflexivity].
      - split; [left; reflexivity|right; split; reflexivity].
      - split; [repeat constructor; cbn; lia|intros v [<-|[<-|[]]]; lia].
      - split; [repeat constructor; cbn; lia|intros v [<-|[<-|[]]]; lia].
      - split; [repeat constructor; cbn; lia|intros v [<-|[<-|[]]]; lia].
      - split; [repeat constructor; cbn; lia|intros v [<-|[<-|[<-|[]]]]; lia].
      - intros v [<-|[]]. split; reflexivity. }
    intros t T. assert (N : proper t /\ (N.of_nat (length (t_adj t)) < 2 ^ 32)%N /\ forall n, In n (t_nodes t) -> cond_fine (n_cond n)).
    { repeat (destruct T as [<-|T]); [..|destruct T]; (split; [split; cbn; [repeat constructor; cbn; intuition discriminate|intuition discriminate]|split; [reflexivity|]]; intros n I; apply C; cbn in I |- *; intuition (subst n; cbn; auto 10)). }
    destruct N as (N1 & N2 & N3). split; [exact N1|]. split; [exact N2|]. split; [intros _ n I; apply fine_ok, N3, I|intros _ i ty _; exact N3]. }
  split.
  { intros _. split; [intros i x [= <-]; reflexivity|]. intros t i ty n _ _ _. destruct (n_cond n) as [? ? ?|? ? ?|? ? []|?]; cbn; try exact I. discriminate. }
  repeat split; vm_compute; reflexivity.
Qed.
