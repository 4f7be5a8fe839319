(** Splitting a forest into parts, and the layout of the pointwise frames. *)
From Coq Require Import Permutation.
From Verif Require Import Base Forest_Model Forest_Spec Forest_Proofs Forest_Props ForestPt_Model ForestBm_Model ForestBm_Spec ForestSi_Model ForestSi_Spec ForestSi_Build
  ForestEv_Model ForestEv_Spec ForestEv_Proofs ForestEv_Reg ForestEv_Props FrameIter_Model FrameIter_Spec ForestBt_Model ForestBt_Spec.

(** ** Parts. *)
Section parts.
Context {V : Type} (vo : vops V) (one : V) (lib : library) (ceq : cond -> cond -> bool) (ot : others).

Fixpoint parts (per : Z) (ts trees : list (tree V)) (cur : Z) : list (list (tree V)) :=
  match ts with
  | [] => match trees with [] => [] | _ => [trees] end
  | t :: r =>
    let cur := (cur + Z.of_nat (length (t_nodes t)))%Z in
    if (per <=? cur)%Z then (trees ++ [t]) :: parts per r [] 0%Z else parts per r (trees ++ [t]) cur
  end.
Fixpoint each {A B} (f : A -> bresult B) (l : list A) : bresult (list B) :=
  match l with [] => BOk [] | x :: r => bbind (f x) (fun y => bbind (each f r) (fun ys => BOk (y :: ys))) end.
Lemma compile_parts_eq fuel slots outs per ts : forall trees cur evs,
  compile_parts V vo one lib ceq ot fuel slots outs per ts trees cur evs =
  bbind (each (compile_part V vo one lib ceq ot fuel slots outs) (parts per ts trees cur)) (fun es => BOk (evs ++ es)).
Proof.
  induction ts as [|t r IH]; intros trees cur evs; cbn [compile_parts parts].
  - destruct trees; cbn [each bbind]; [rewrite app_nil_r; reflexivity|]. destruct (compile_part V vo one lib ceq ot fuel slots outs (t :: trees)); reflexivity.
  - destruct (per <=? cur + Z.of_nat (length (t_nodes t)))%Z; [|apply IH]. cbn [each]. destruct (compile_part V vo one lib ceq ot fuel slots outs (trees ++ [t])); cbn [bbind]; try reflexivity.
    rewrite IH. destruct (each _ _); cbn [bbind]; try reflexivity. rewrite <- app_assoc. reflexivity.
Qed.
Lemma parts_concat per ts : forall trees cur, concat (parts per ts trees cur) = trees ++ ts.
Proof.
  induction ts as [|t r IH]; intros trees cur; cbn [parts].
  - destruct trees; cbn; rewrite ?app_nil_r; reflexivity.
  - destruct (per <=? _)%Z; cbn [concat]; rewrite IH, <- app_assoc; reflexivity.
Qed.
Lemma count_splits_ok (ts : list (tree V)) : forall n, count_splits V ts n = (n + splits ts)%Z.
Proof.
  unfold splits. induction ts as [|t r IH]; intros n; cbn [count_splits map list_sum fold_right]; [lia|]. rewrite IH. unfold list_sum. lia.
Qed.

(** What a compiled part does. *)
Definition part_ok (fuel : nat) (groups : list tfilter) (trees : list (tree V)) (e : evaluator V) : Prop :=
  forall fr, row_fine all_evaluators ot groups trees fr -> exists out, eval V vo lib ot fuel e fr = Done out /\ Forall2 (output_ok vo ot fr trees) groups out.

Section accepted.
Variables (U : unit_weight vo one) (L : lib_ok lib) (Q : ceq_ok ceq).
Variables (ts : list (tree V)) (req : list (nat * ity)) (slots : list ity) (groups : list tfilter).
Hypothesis Acc : from_trees ot ts = inr req.
Hypothesis Vs : validate_slots req slots = true.
Hypothesis Fine : forall t, selected groups ts t -> tree_fine all_evaluators ot t.

Lemma selected_sub (us : list (tree V)) t : incl us ts -> selected groups us t -> selected groups ts t.
Proof. intros I [A B]. split; [apply I; exact A|exact B]. Qed.
Lemma uses_sub (us : list (tree V)) i k : incl us ts -> uses ot us i k -> uses ot ts i k.
Proof. intros I (t & n & A & B). exists t, n. split; [apply I; exact A|exact B]. Qed.
Lemma part_compiles (us : list (tree V)) : incl us ts -> groups <> [] -> disjoint_outputs groups us ->
  exists k, forall fuel, k <= fuel -> exists e, ev_compile V vo one lib ceq ot fuel all_evaluators us slots groups = ROk e /\
    compile_part V vo one lib ceq ot fuel slots groups us = BOk e /\ part_ok fuel groups us e.
Proof.
  intros I Ne Dj. destruct (from_trees_sub ot ts us req Acc I) as [req' Acc'].
  destruct (C50_eval V vo one lib ceq ot all_evaluators us req' slots groups U L Q Acc') as [k K]; try assumption.
  - apply (C46_slots V ot us req' slots Acc'). intros i ty Us. apply (proj1 (C46_slots V ot ts req slots Acc) Vs). eapply uses_sub; eassumption.
  - intros t S. apply Fine. eapply selected_sub; eassumption.
  - left. reflexivity.
  - exists k. intros fuel F. destruct (K fuel F) as (e & E & P). exists e. split; [exact E|]. unfold compile_part. rewrite Acc', E. split; [reflexivity|exact P].
Qed.
Lemma parts_compile (ps : list (list (tree V))) : (forall us, In us ps -> incl us ts) -> groups <> [] -> disjoint_outputs groups ts ->
  exists k, forall fuel, k <= fuel -> exists es, each (compile_part V vo one lib ceq ot fuel slots groups) ps = BOk es /\ Forall2 (part_ok fuel groups) ps es.
Proof.
  intros I Ne Dj. induction ps as [|us ps IH]; [exists 0; intros; exists []; split; [reflexivity|constructor]|].
  destruct IH as [k K]; [intros; apply I; right; assumption|]. destruct (part_compiles us) as [k' K']; try assumption; [apply I; left; reflexivity| |].
  { intros t g h f f' T. apply Dj. apply (I us (or_introl eq_refl)). exact T. }
  exists (k + k'). intros fuel F. destruct (K fuel ltac:(lia)) as (es & Es & Fs). destruct (K' fuel ltac:(lia)) as (e & _ & E & P). exists (e :: es). cbn [each]. rewrite E, Es. cbn [bbind]. split; [reflexivity|]. constructor; assumption.
Qed.
Lemma evaluators_ok optimal : groups <> [] -> disjoint_outputs groups ts -> (0 < optimal)%Z -> (splits ts + optimal < 2 ^ 63)%Z ->
  exists k, forall fuel, k <= fuel -> exists ps es, create_evaluators V vo one lib ceq ot fuel optimal ts slots groups = BOk es /\
    concat ps = ts /\ Forall2 (part_ok fuel groups) ps es /\ es <> [] /\ ((splits ts <= optimal)%Z -> length es = 1).
Proof.
  intros Ne Dj O1 O2. unfold create_evaluators. rewrite count_splits_ok, Z.add_0_l. unfold evaluator_count.
  assert (S0 : (0 <= splits ts)%Z) by (unfold splits; lia).
  destruct (Z.eqb_spec optimal 0); [lia|]. destruct (Z.leb_spec (2 ^ 63) (splits ts + optimal)); [lia|]. cbn [orb b_undef bbind].
  rewrite Z.quot_div_nonneg by lia. set (c := Z.max 1 ((splits ts + optimal - 1) / optimal)) in *.
  destruct (Z.eqb_spec c 1) as [C1|C1].
  - destruct (part_compiles ts (incl_refl _) Ne Dj) as [k K]. exists k. intros fuel F. destruct (K fuel F) as (e & E & _ & P). exists [ts], [e].
    rewrite E. cbn [of_result bbind concat]. rewrite app_nil_r. split; [reflexivity|]. split; [reflexivity|]. split; [repeat constructor; exact P|]. split; [discriminate|reflexivity].
  - destruct (parts_compile (parts (Z.quot (splits ts + c - 1) c) ts [] 0%Z)) as [k K]; try assumption.
    { intros us I t T. rewrite <- (app_nil_l ts), <- (parts_concat (Z.quot (splits ts + c - 1) c) ts [] 0%Z). apply in_concat. eauto. }
    assert (Sm : ~ (splits ts <= optimal)%Z).
    { intros Le. apply C1. unfold c. assert ((splits ts + optimal - 1) / optimal < 2)%Z by (apply Z.div_lt_upper_bound; lia). lia. }
    exists k. intros fuel F. destruct (K fuel F) as (es & E & P). exists (parts (Z.quot (splits ts + c - 1) c) ts [] 0%Z), es. rewrite compile_parts_eq, E. cbn [bbind app]. split; [reflexivity|].
    split; [apply parts_concat|]. split; [exact P|]. split; [|intros Le; contradiction].
    intros ->. inversion P as [Pn|]. pose proof (parts_concat (Z.quot (splits ts + c - 1) c) ts [] 0%Z) as Cc. rewrite <- Pn in Cc. cbn in Cc. rewrite <- Cc in Sm. apply Sm. cbn. lia.
Qed.
(** Outputs that intersect. *)
Lemma disjoint_dec (us : list (tree V)) : disjoint_outputs groups us \/ ~ disjoint_outputs groups us.
Proof.
  destruct groups as [|f r] eqn:Eg; [left; intros t [|g] h f f' _ A; discriminate|]. rewrite <- Eg.
  destruct (assigns_none groups 0 (fun _ => None) us) as [E|[_ X]]; [right|left; exact X]. intros D.
  assert (Ne : groups <> []) by (rewrite Eg; discriminate). pose proof (split_groups_ok groups us Ne D) as S. unfold split_groups in S. rewrite Eg in S, E. cbv iota in S. rewrite <- Eg in S, E.
  replace (repeat None (length us)) with (map (fun _ : tree V => @None nat) us) in S by (clear; induction us as [|t us IH]; cbn; congruence). rewrite E in S. discriminate.
Qed.
Lemma parts_intersect (ps : list (list (tree V))) : (forall us, In us ps -> incl us ts) -> groups <> [] -> (exists us, In us ps /\ ~ disjoint_outputs groups us) ->
  exists k, forall fuel, k <= fuel -> each (compile_part V vo one lib ceq ot fuel slots groups) ps = BErr (EvaluatorError GroupsIntersect).
Proof.
  intros I Ne. induction ps as [|us ps IH]; intros (vs & Iv & Nd); [destruct Iv|].
  assert (Iu := I us (or_introl eq_refl)). destruct (disjoint_dec us) as [D|D].
  - destruct IH as [k K]; [intros; apply I; right; assumption|destruct Iv as [->|Iv]; [contradiction|eauto]|].
    destruct (part_compiles us Iu Ne D) as [k' K']. exists (k + k'). intros fuel F. destruct (K' fuel ltac:(lia)) as (e & _ & E & _). cbn [each]. rewrite E, (K fuel) by lia. reflexivity.
  - exists 0. intros fuel _. cbn [each]. unfold compile_part. destruct (from_trees_sub ot ts us req Acc Iu) as [req' ->].
    rewrite (proj2 (C50_outputs V vo one lib ceq ot fuel all_evaluators us slots groups) Ne D). reflexivity.
Qed.
Lemma evaluators_intersect optimal : groups <> [] -> ~ disjoint_outputs groups ts -> (0 < optimal)%Z -> (splits ts + optimal < 2 ^ 63)%Z ->
  exists k, forall fuel, k <= fuel -> create_evaluators V vo one lib ceq ot fuel optimal ts slots groups = BErr (EvaluatorError GroupsIntersect).
Proof.
  intros Ne Dj O1 O2. unfold create_evaluators. rewrite count_splits_ok, Z.add_0_l. unfold evaluator_count.
  assert (S0 : (0 <= splits ts)%Z) by (unfold splits; lia).
  destruct (Z.eqb_spec optimal 0); [lia|]. destruct (Z.leb_spec (2 ^ 63) (splits ts + optimal)); [lia|]. cbn [orb b_undef bbind].
  set (c := Z.max 1 _) in *. destruct (Z.eqb_spec c 1) as [C1|C1].
  - exists 0. intros fuel _. rewrite (proj2 (C50_outputs V vo one lib ceq ot fuel all_evaluators ts slots groups) Ne Dj). reflexivity.
  - set (per := Z.quot (splits ts + c - 1) c). pose proof (parts_concat per ts [] 0%Z) as Pc. cbn [app] in Pc.
    destruct (parts_intersect (parts per ts [] 0%Z)) as [k K]; try assumption.
    { intros us I t T. rewrite <- Pc. apply in_concat. eauto. }
    { assert (H' : forall ps : list (list (tree V)), (forall us, In us ps -> disjoint_outputs groups us) \/ exists us, In us ps /\ ~ disjoint_outputs groups us).
      { induction ps as [|us ps [IH|(vs & A & B)]]; [left; intros us []|destruct (disjoint_dec us) as [D|D]|].
        - left. intros vs [<-|J]; [exact D|apply IH; exact J].
        - right. exists us. split; [left; reflexivity|exact D].
        - right. exists vs. split; [right; exact A|exact B]. }
      destruct (H' (parts per ts [] 0%Z)) as [D|D]; [|exact D]. exfalso. apply Dj. intros t g h f f' T. rewrite <- Pc in T. apply in_concat in T. destruct T as (us & Iu & T). exact (D us Iu t g h f f' T). }
    exists k. intros fuel F. rewrite compile_parts_eq, (K fuel F). reflexivity.
Qed.
End accepted.
End parts.

(** ** The layout. *)
Section layout.
Variable oty : nat -> nat * bool.
Variable unused_ty : ity.
Fixpoint mapping_from (req : list (nat * ity)) (next : nat) : list (nat * slot) :=
  match req with [] => [] | (i, ty) :: r => (i, {| sl_id := next; sl_ty := fst (tag oty ty); sl_opt := snd (tag oty ty) |}) :: mapping_from r (S next) end.
(** An input id without a slot. *)
Definition unbound (bound : list (option nat * ity)) (j : nat) : Prop := nth_error bound j = None \/ nth_error bound j = Some (None, unused_ty).
Lemma bind_slot_ok bound i x : exists bound', bind_slot unused_ty bound i x = Some bound' /\ nth_error bound' i = Some x /\
  forall j, j <> i -> (unbound bound j -> unbound bound' j) /\ (nth_error bound j <> None -> nth_error bound' j = nth_error bound j).
Proof.
  unfold bind_slot. set (l := bound ++ _). assert (Ll : i < length l) by (unfold l; rewrite app_length, repeat_length; lia).
  destruct (upd_lt l i x Ll) as [l' E]. exists l'. split; [exact E|]. destruct (upd_spec l l' i x E) as (_ & _ & So). unfold rd in *. split; [rewrite So, Nat.eqb_refl; reflexivity|].
  intros j J. unfold unbound. rewrite !So. destruct (Nat.eqb_spec j i); [contradiction|]. unfold l. split.
  - intros H. destruct (Nat.lt_ge_cases j (length bound)) as [Lt|Ge].
    + rewrite nth_error_app1 by exact Lt. exact H.
    + rewrite nth_error_app2 by exact Ge. destruct (nth_error (repeat (None, unused_ty) (S i - length bound)) (j - length bound)) eqn:En; [right|left; reflexivity].
      apply nth_error_In, repeat_spec in En. rewrite En. reflexivity.
  - intros H. apply nth_error_Some in H. apply nth_error_app1. exact H.
Qed.
Lemma layout_ok req : forall next bound mapping, NoDup (map fst req) -> (forall j, In j (map fst req) -> unbound bound j) ->
  exists bound', layout_inputs oty unused_ty req next bound mapping = Some (bound', mapping ++ mapping_from req next) /\
  (forall p j ty, nth_error req p = Some (j, ty) -> nth_error bound' j = Some (Some (next + p), ty)) /\
  (forall j, ~ In j (map fst req) -> (unbound bound j -> unbound bound' j) /\ (nth_error bound j <> None -> nth_error bound' j = nth_error bound j)).
Proof.
  induction req as [|[i ty] r IH]; intros next bound mapping Nd Un; cbn [layout_inputs mapping_from].
  - exists bound. rewrite app_nil_r. split; [reflexivity|]. split; [intros [|p]; discriminate|]. auto.
  - inversion Nd as [|? ? Ni Nd']; subst. cbn [map fst] in *. destruct (bind_slot_ok bound i (Some next, ty)) as (b1 & -> & B1 & B2). cbn [bind].
    destruct (IH (S next) b1 (mapping ++ [(i, {| sl_id := next; sl_ty := fst (tag oty ty); sl_opt := snd (tag oty ty) |})]) Nd') as (b2 & E & P & R).
    { intros j J. apply B2; [intros ->; contradiction|]. apply Un. right. exact J. }
    exists b2. rewrite E, <- app_assoc. cbn [app]. split; [reflexivity|]. split.
    + intros [|p] j k H; cbn [nth_error] in H.
      * injection H as <- <-. rewrite Nat.add_0_r. rewrite (proj2 (R i Ni)); [exact B1|]. rewrite B1. discriminate.
      * rewrite (P p j k H). do 2 f_equal. f_equal. lia.
    + intros j J. assert (J1 : j <> i) by (intros ->; apply J; left; reflexivity). assert (J2 : ~ In j (map fst r)) by (intros X; apply J; right; exact X).
      destruct (B2 j J1) as [A1 A2]. destruct (R j J2) as [A3 A4]. split; [auto|]. intros H. rewrite <- (A2 H). apply A4. rewrite (A2 H). exact H.
Qed.
Lemma mapping_length req : forall next, length (mapping_from req next) = length req.
Proof. induction req as [|[i ty] r IH]; intros next; cbn; auto. Qed.
Lemma mapping_nth req : forall next p j ty, nth_error req p = Some (j, ty) ->
  nth_error (mapping_from req next) p = Some (j, {| sl_id := next + p; sl_ty := fst (tag oty ty); sl_opt := snd (tag oty ty) |}).
Proof.
  induction req as [|[i ty] r IH]; intros next [|p] j k H; cbn in *; try discriminate.
  - injection H as <- <-. rewrite Nat.add_0_r. reflexivity.
  - rewrite (IH (S next) p j k H). do 3 f_equal. lia.
Qed.
Lemma mapping_ids req : forall next, map sl_id (map snd (mapping_from req next)) = seq next (length req).
Proof. induction req as [|[i ty] r IH]; intros next; cbn; [reflexivity|]. rewrite IH. reflexivity. Qed.
Lemma mapping_fst req : forall next, map fst (mapping_from req next) = map fst req.
Proof. induction req as [|[i ty] r IH]; intros next; cbn; [reflexivity|]. rewrite IH. reflexivity. Qed.
End layout.

(** The required types have one entry for an input. *)
Lemma lookup_None i req : lookup_ty i req = None -> ~ In i (map fst req).
Proof.
  induction req as [|[j k] r IH]; cbn; intros H; [tauto|]. destruct (Nat.eqb_spec i j); [discriminate|]. intros [->|J]; [congruence|]. exact (IH H J).
Qed.
Lemma add_sigs_nodup sigs : forall req req', NoDup (map fst req) -> add_sigs sigs req = inr req' -> NoDup (map fst req').
Proof.
  induction sigs as [|[i ty] r IH]; intros req req' F H; cbn [add_sigs] in H; [injection H as <-; exact F|].
  destruct (lookup_ty i req) as [ty'|] eqn:E; [destruct (ity_eqb ty' ty); [eapply IH; eassumption|discriminate]|].
  eapply IH; [|exact H]. rewrite map_app. cbn [map fst]. apply (Permutation_NoDup (l := i :: map fst req)); [apply Permutation_cons_append|]. constructor; [apply lookup_None; exact E|exact F].
Qed.
Lemma init_nodes_nodup {V} ot (t : tree V) ns : forall req req', NoDup (map fst req) -> init_nodes ot t ns req = inr req' -> NoDup (map fst req').
Proof.
  induction ns as [|n r IH]; intros req req' F H; cbn [init_nodes] in H; [injection H as <-; exact F|].
  destruct (child_ok t (n_false n) && child_ok t (n_true n)); [|discriminate].
  destruct (add_sigs (csig ot (n_cond n)) req) as [e|req1] eqn:E; [discriminate|]. eapply IH; [|exact H]. eapply add_sigs_nodup; eassumption.
Qed.
Lemma init_trees_nodup {V} ot (ts : list (tree V)) : forall req req', NoDup (map fst req) -> init_trees ot ts req = inr req' -> NoDup (map fst req').
Proof.
  induction ts as [|t r IH]; intros req req' F H; cbn [init_trees] in H; [injection H as <-; exact F|].
  destruct (init_tree ot t req) as [e|req1] eqn:E; [discriminate|]. eapply IH; [|exact H].
  unfold init_tree in E. destruct (t_sub t <? 0)%Z; [discriminate|]. destruct (t_step t <? 0)%Z; [discriminate|]. destruct (negb _); [discriminate|]. eapply init_nodes_nodup; eassumption.
Qed.
Lemma required_ok {V} ot (ts : list (tree V)) req : from_trees ot ts = inr req -> NoDup (map fst req) /\ forall j ty, In (j, ty) req <-> uses ot ts j ty.
Proof.
  intros E. split; [eapply (init_trees_nodup ot ts []); [constructor|exact E]|]. intros j ty. pose proof (from_trees_ok ot ts) as H. rewrite E in H. destruct H as [H _]. rewrite <- (H j ty).
  assert (F : functional req) by (eapply init_trees_functional; [|exact E]; intros i k []). split; [apply F|apply lookup_ty_In].
Qed.
