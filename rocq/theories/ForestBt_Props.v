(** C56: the batched forest evaluator. *)
From Coq Require Import Permutation FunctionalExtensionality.
From Verif Require Import Base Bits_Model Bitmap_Model Dense_Model Dense_Spec IdFilter_Model Array_Model Array_Spec Edge_Proofs Array_Proofs
  FrameIter_Model FrameIter_Spec FrameIter_Main FrameIter_Props
  Forest_Model Forest_Spec Forest_Proofs Forest_Props ForestPt_Model ForestBm_Model ForestBm_Spec ForestBm_Props ForestSi_Model ForestSi_Spec ForestSi_Props ForestEv_Model ForestEv_Spec ForestEv_Props
  ForestBt_Model ForestBt_Spec ForestBt_Proofs ForestBt_Eval ForestBt_Run ForestBt_Main.

Lemma layout_of {V} oty unused_ty ot (ts : list (tree V)) req required : from_trees ot ts = inr req -> Permutation required req ->
  NoDup (map fst required) /\ (forall j ty, In (j, ty) required <-> uses ot ts j ty) /\
  exists bound, layout_inputs oty unused_ty required 0 [] [] = Some (bound, mapping_from oty required 0) /\
  (forall p j ty, nth_error required p = Some (j, ty) -> nth_error bound j = Some (Some p, ty)) /\
  (forall j, ~ In j (map fst required) -> unbound unused_ty bound j) /\ validate_slots req (map snd bound) = true.
Proof.
  intros Acc P. destruct (required_ok ot ts req Acc) as [Nd Us].
  assert (Nd' : NoDup (map fst required)) by (apply (Permutation_NoDup (l := map fst req)); [apply Permutation_map; symmetry; exact P|exact Nd]).
  assert (Us' : forall j ty, In (j, ty) required <-> uses ot ts j ty).
  { intros j ty. rewrite <- Us. split; apply Permutation_in; [exact P|symmetry; exact P]. }
  split; [exact Nd'|]. split; [exact Us'|]. destruct (layout_ok oty unused_ty required 0 [] [] Nd') as (bound & E & B & F); [intros j _; left; destruct j; reflexivity|].
  exists bound. split; [exact E|]. split; [exact B|]. split; [intros j J; apply (F j J); left; destruct j; reflexivity|].
  apply (C46_slots V ot ts req _ Acc). intros j ty U. apply Us' in U. destruct (In_nth_error _ _ U) as [p Ep]. rewrite nth_error_map, (B p j ty Ep). reflexivity.
Qed.

(** Evaluating stores, in each output slot, an array with one value for each row, a sum of
    the values of exactly the trees that the output selects, however the forest is split
    into parts; nothing else in the frame changes. *)
Theorem C56_eval : forall V (vo : vops V) one lib ceq ot oty unused_ty order ts req groups optimal,
  unit_weight vo one -> lib_ok lib -> ceq_ok ceq -> others_local ot -> (forall l, Permutation (order l) l) ->
  from_trees ot ts = inr req -> groups <> [] -> disjoint_outputs groups ts -> (forall t, selected groups ts t -> tree_fine all_evaluators ot t) ->
  (0 < optimal)%Z -> (splits ts + optimal < 2 ^ 63)%Z ->
  exists k, forall fuel, k <= fuel -> exists b, b_compile V vo one lib ceq ot oty unused_ty order fuel ts req groups optimal = BOk b /\
  forall asf dflt alloc allocw iorder oorder inputs outs want mem cols n rf,
  alloc_sz alloc -> allocw_ok allocw -> (forall l, Permutation (iorder l) l) -> (forall l, Permutation (oorder l) l) ->
  inputs_ok ot oty ts inputs mem cols n -> rows_known ot ts inputs mem want n -> outputs_ok groups outs mem ->
  (splits ts <= optimal)%Z \/ not_inputs ot ts inputs outs ->
  (forall i, i < n -> row_fine all_evaluators ot groups ts (input_row asf cols i)) -> n <= rf ->
  exists mem', eval_batch V vo lib ot oty asf dflt alloc allocw iorder oorder fuel rf b inputs outs want mem = BOk mem' /\
  stored groups outs n (fun f i y => output_ok vo ot (input_row asf cols i) ts f y) mem mem'.
Proof.
  intros V vo one lib ceq ot oty unused_ty order ts req groups optimal U L Q Lo Or Acc Ne Dj Fine O1 O2.
  destruct (layout_of oty unused_ty ot ts req (order req) Acc (Or req)) as (Nd & Us & bound & El & B1 & B2 & Vs).
  destruct (evaluators_ok vo one lib ceq ot U L Q ts req (map snd bound) groups Acc Vs Fine optimal Ne Dj O1 O2) as [k K].
  exists k. intros fuel Fu. destruct (K fuel Fu) as (ps & es & Ee & Ec & Pk & En & E1). unfold b_compile. rewrite El. cbn [b_undef bbind fst snd]. rewrite Ee. cbn [bbind]. eexists. split; [reflexivity|].
  intros asf dflt alloc allocw iorder oorder inputs outs want mem cols n rf Al Alw IO OO Iok Rk Ook Na Rfine Rf.
  destruct (eval_ok vo asf one lib ot oty unused_ty Lo ts (order req) groups
    {| b_width := length (order req) + length groups; b_mapping := mapping_from oty (order req) 0; b_bound := bound; b_outputs := map out_slot (seq (length (order req)) (length groups)); b_evaluators := es |}
    Us eq_refl eq_refl eq_refl B1 B2 dflt alloc allocw iorder oorder Al Alw IO OO inputs outs cols n fuel rf Rf Rfine mem want ps Pk Ec En) as (mem' & E & R1 & R2 & R3); try assumption.
  { destruct Na as [Na|Na]; [left; apply E1; exact Na|right; exact Na]. }
  exists mem'. split; [exact E|]. split; [exact R1|]. split; [exact R2|]. intros g f o Ef Eo. destruct (R3 g f o Ef Eo) as (a & Ea & ys & (F1 & F2 & _) & Ly & Py). exists a. split; [exact Ea|]. split; [exact F1|]. exists ys. auto.
Qed.
Print Assumptions C56_eval.

(** Without rounding, each row gets the naive value of the forest. *)
Theorem C56_exact : forall V (vo : vops V) one lib ceq ot oty unused_ty order ts req groups optimal,
  exact_ops vo -> unit_weight vo one -> lib_ok lib -> ceq_ok ceq -> others_local ot -> (forall l, Permutation (order l) l) ->
  from_trees ot ts = inr req -> groups <> [] -> disjoint_outputs groups ts -> (forall t, In t ts -> tree_fine all_evaluators ot t) ->
  (0 < optimal)%Z -> (splits ts + optimal < 2 ^ 63)%Z ->
  exists k, forall fuel, k <= fuel -> exists b, b_compile V vo one lib ceq ot oty unused_ty order fuel ts req groups optimal = BOk b /\
  forall asf dflt alloc allocw iorder oorder inputs outs want mem cols n rf,
  alloc_sz alloc -> allocw_ok allocw -> (forall l, Permutation (iorder l) l) -> (forall l, Permutation (oorder l) l) ->
  inputs_ok ot oty ts inputs mem cols n -> rows_known ot ts inputs mem want n -> outputs_ok groups outs mem ->
  (splits ts <= optimal)%Z \/ not_inputs ot ts inputs outs ->
  (forall i, i < n -> row_fine all_evaluators ot groups ts (input_row asf cols i)) -> n <= rf ->
  exists mem', eval_batch V vo lib ot oty asf dflt alloc allocw iorder oorder fuel rf b inputs outs want mem = BOk mem' /\
  stored groups outs n (fun f i y => naive vo ot (input_row asf cols i) fuel f ts = Done y) mem mem'.
Proof.
  intros V vo one lib ceq ot oty unused_ty order ts req groups optimal Ex U L Q Lo Or Acc Ne Dj Fine O1 O2.
  destruct (C56_eval V vo one lib ceq ot oty unused_ty order ts req groups optimal U L Q Lo Or Acc Ne Dj (fun t S => Fine t (proj1 S)) O1 O2) as [k K].
  destruct (enough_fuel ts) as [k' K']; [intros t T; exact (proper_is_tree ot ts req t Acc T (proj1 (Fine t T)))|].
  exists (k + k'). intros fuel Fu. destruct (K fuel ltac:(lia)) as (b & Eb & X). exists b. split; [exact Eb|].
  intros asf dflt alloc allocw iorder oorder inputs outs want mem cols n rf Al Alw IO OO Iok Rk Ook Na Rfine Rf.
  destruct (X asf dflt alloc allocw iorder oorder inputs outs want mem cols n rf Al Alw IO OO Iok Rk Ook Na Rfine Rf) as (mem' & E & R1 & R2 & R3).
  exists mem'. split; [exact E|]. split; [exact R1|]. split; [exact R2|]. intros g f o Ef Eo. destruct (R3 g f o Ef Eo) as (a & Ea & Ka & ys & Ly & Ca & Py).
  exists a. split; [exact Ea|]. split; [exact Ka|]. exists ys. split; [exact Ly|]. split; [exact Ca|]. intros i y Ey. destruct (Py i y Ey) as (vs & Vv & Sv).
  unfold naive. rewrite (naive_sum_values vo ot (input_row asf cols i) f ts vs fuel Vv); [|intros t d T D; specialize (K' t d T D); lia]. rewrite <- (exact_sum vo vs y Ex Sv). f_equal. apply Ex.
Qed.
Print Assumptions C56_exact.

(** No outputs, or outputs that share a tree, are rejected, also when the two outputs are
    only found to meet in one of the parts. *)
Theorem C56_groups : forall V (vo : vops V) one lib ceq ot oty unused_ty order ts req groups optimal,
  unit_weight vo one -> lib_ok lib -> ceq_ok ceq -> (forall l, Permutation (order l) l) ->
  from_trees ot ts = inr req -> (forall t, selected groups ts t -> tree_fine all_evaluators ot t) ->
  (0 < optimal)%Z -> (splits ts + optimal < 2 ^ 63)%Z ->
  exists k, forall fuel, k <= fuel ->
  (groups = [] -> b_compile V vo one lib ceq ot oty unused_ty order fuel ts req groups optimal = BErr (EvaluatorError NoOutputs)) /\
  (groups <> [] -> ~ disjoint_outputs groups ts -> b_compile V vo one lib ceq ot oty unused_ty order fuel ts req groups optimal = BErr (EvaluatorError GroupsIntersect)).
Proof.
  intros V vo one lib ceq ot oty unused_ty order ts req groups optimal U L Q Or Acc Fine O1 O2.
  destruct (layout_of oty unused_ty ot ts req (order req) Acc (Or req)) as (Nd & Us & bound & El & B1 & B2 & Vs).
  unfold b_compile. rewrite El. cbn [b_undef bbind fst snd]. destruct groups as [|g0 gs] eqn:Eg.
  - exists 0. intros fuel _. split; [|intros X; congruence]. intros _. unfold create_evaluators. rewrite count_splits_ok, Z.add_0_l. unfold evaluator_count.
    destruct (Z.eqb_spec optimal 0); [lia|]. destruct (Z.leb_spec (2 ^ 63) (splits ts + optimal)); [lia|]. cbn [orb b_undef bbind].
    set (c := Z.max 1 _). destruct (Z.eqb_spec c 1) as [C1|C1]; [rewrite (proj1 (C50_outputs V vo one lib ceq ot fuel all_evaluators ts (map snd bound) []) eq_refl); reflexivity|].
    rewrite compile_parts_eq. set (per := Z.quot _ _). pose proof (parts_concat per ts [] 0%Z) as Pc. cbn [app] in Pc. destruct (parts per ts [] 0%Z) as [|us ps] eqn:Ep.
    + exfalso. apply C1. unfold c. rewrite <- Pc. cbn [concat]. unfold splits. cbn [map list_sum fold_right Z.of_nat]. rewrite Z.quot_div_nonneg by lia. rewrite Z.div_small by lia. reflexivity.
    + cbn [each]. unfold compile_part. destruct (ForestSi_Build.from_trees_sub ot ts us req Acc) as [req' ->]; [intros u Iu; rewrite <- Pc; cbn [concat]; apply in_or_app; left; exact Iu|].
      rewrite (proj1 (C50_outputs V vo one lib ceq ot fuel all_evaluators us (map snd bound) []) eq_refl). reflexivity.
  - rewrite <- Eg in *. assert (Ne : groups <> []) by (rewrite Eg; discriminate). destruct (disjoint_dec ot ts groups Fine ts) as [D|D].
    + exists 0. intros fuel _. split; intros; contradiction.
    + destruct (evaluators_intersect vo one lib ceq ot U L Q ts req (map snd bound) groups Acc Vs Fine optimal Ne D O1 O2) as [k K]. exists k. intros fuel F. split; [intros; contradiction|]. intros _ _. rewrite (K fuel F). reflexivity.
Qed.
Print Assumptions C56_groups.

(** Evaluating only succeeds if the inputs have the types and a common size, and the
    outputs are as many as the groups. *)
Theorem C56_checks : forall V (vo : vops V) one lib ceq ot oty unused_ty order fuel ts req groups optimal b asf
    dflt alloc allocw iorder oorder inputs outs want mem mem' rf,
  (forall l, Permutation (order l) l) -> (forall l, Permutation (iorder l) l) -> (forall l, Permutation (oorder l) l) -> from_trees ot ts = inr req ->
  b_compile V vo one lib ceq ot oty unused_ty order fuel ts req groups optimal = BOk b ->
  eval_batch V vo lib ot oty asf dflt alloc allocw iorder oorder fuel rf b inputs outs want mem = BOk mem' ->
  length outs = length groups /\ (forall o, In o outs -> as_ty o = 0) /\
  exists n, (want = None \/ want = Some n) /\
  forall j ty, uses ot ts j ty -> exists s a, nth_error inputs j = Some (s, fst (tag oty ty)) /\ nth_error mem s = Some a /\ src_size _ a = n /\
    (snd (tag oty ty) = true \/ exists d, a = SD _ d).
Proof.
  intros V vo one lib ceq ot oty unused_ty order fuel ts req groups optimal b asf dflt alloc allocw iorder oorder inputs outs want mem mem' rf Or IO OO Acc Eb Ee.
  destruct (layout_of oty unused_ty ot ts req (order req) Acc (Or req)) as (Nd & Us & bound & El & B1 & B2 & Vs).
  unfold b_compile in Eb. rewrite El in Eb. cbn [b_undef bbind fst snd] in Eb. destruct (create_evaluators _ _ _ _ _ _ _ _ _ _ _) as [es| | |]; try discriminate. injection Eb as <-.
  set (b := {| b_width := _ |}) in Ee. unfold eval_batch in Ee. destruct (length inputs <? input_count V b); [discriminate|].
  destruct (rows_of V b inputs mem want) as [rows|] eqn:Er; [|discriminate]. cbn [b_undef bbind] in Ee.
  assert (First : exists e m1, run_evaluator V vo lib ot oty asf dflt alloc allocw iorder oorder fuel rf b inputs outs rows mem e = BOk m1).
  { destruct (b_evaluators b) as [|e [|e1 r]]; [discriminate|exists e, mem'; exact Ee|]. destruct (run_evaluator _ _ _ _ _ _ _ _ _ _ _ _ _ _ _ _ _ mem e) as [m1| | |] eqn:E1; try discriminate. exists e, m1. exact E1. }
  destruct First as (e & m1 & E1). unfold run_evaluator in E1. destruct (get_inputs V b inputs mem) as [arrays|] eqn:Ei; [|discriminate]. cbn [b_undef bbind] in E1.
  destruct (create _ _ _ _ _ _ _ _ _ _ _ _) as [it|] eqn:Ec; [|discriminate]. clear E1 Ee.
  destruct (proj1 (C54_create alloc allocw iorder oorder arrays _ outs _ _ rows 64 IO OO) it Ec) as (F1 & F2 & Ag1 & Ag2 & Ag3).
  split; [rewrite (Forall2_len F2); cbn [b b_outputs]; rewrite map_length, seq_length; reflexivity|]. split.
  { intros o Io. destruct (In_nth_error _ _ Io) as [g Eg]. destruct (Forall2_nth_l _ _ _ _ _ F2 Eg) as (s & Es & Fo). cbn [b b_outputs] in Es. rewrite nth_error_map in Es. destruct (nth_error (seq _ _) g); [|discriminate]. injection Es as <-. exact Fo. }
  exists (it_rows _ it). split.
  { destruct want as [n|]; [|left; reflexivity]. cbn in Er. injection Er as <-. destruct Ag2 as [Ag2|Ag2]; [discriminate|right; exact Ag2]. }
  intros j ty Uj. apply Us in Uj. destruct (In_nth_error _ _ Uj) as [p Ep]. unfold get_inputs in Ei. apply all_some_inv in Ei. cbn [b b_mapping] in Ei, F1.
  destruct (Forall2_nth_l _ _ _ _ _ Ei (mapping_nth oty (order req) 0 p j ty Ep)) as (t & Et & Er'). cbn [fst] in Er'. unfold rd at 1 in Er'. destruct (nth_error inputs j) as [[s k]|] eqn:Ej; [|discriminate]. cbn [bind] in Er'.
  unfold ref, rd in Er'. cbn [fst snd] in Er'. destruct (nth_error mem s) as [a|] eqn:Em; [|discriminate]. cbn [bind] in Er'. injection Er' as <-.
  destruct (Forall2_nth_l _ _ _ _ _ F1 Et) as (sl & Esl & T1 & T2). rewrite nth_error_map, (mapping_nth oty (order req) 0 p j ty Ep) in Esl. injection Esl as <-. cbn [ts_ty ts_src sl_ty sl_opt] in *.
  exists s, a. rewrite T1. split; [reflexivity|]. split; [exact Em|]. split; [|exact T2]. apply (Ag1 _ (nth_error_In _ _ Et)).
Qed.
Print Assumptions C56_checks.

(** "No limit" on the splits per evaluator is undefined: the sum overflows. *)
Theorem C56_no_limit_refuted : forall V (vo : vops V) one lib ceq ot oty unused_ty order fuel ts req groups,
  (forall l, Permutation (order l) l) -> from_trees ot ts = inr req -> (0 < splits ts)%Z ->
  b_compile V vo one lib ceq ot oty unused_ty order fuel ts req groups (2 ^ 63 - 1) = BUndefined.
Proof.
  intros V vo one lib ceq ot oty unused_ty order fuel ts req groups Or Acc S.
  destruct (layout_of oty unused_ty ot ts req (order req) Acc (Or req)) as (_ & _ & bound & El & _). unfold b_compile. rewrite El. cbn [b_undef bbind fst snd].
  unfold create_evaluators. rewrite count_splits_ok, Z.add_0_l. unfold evaluator_count. destruct (Z.leb_spec (2 ^ 63) (splits ts + (2 ^ 63 - 1))); [|lia]. rewrite Bool.orb_true_r. reflexivity.
Qed.
Print Assumptions C56_no_limit_refuted.

(** ** Examples: the forest of C50_ex, 12 splits, in one or in three parts, on three rows. *)
Definition falloc (n : nat) : list (bval Z) := repeat (BI 42%Z) n.
Definition fallocw (n : nat) : list N := repeat 3%N n.
Definition zf (z : Z) : f32 := if (z <=? 0)%Z then S754_zero false else Forest_Props.one.
Definition xs56 : list (option (bval Z)) := [Some (BF Forest_Props.one); None; Some (BF half)].
Definition ys56 : list (option (bval Z)) := [Some (BI 5%Z); Some (BI 3%Z); None].
Definition cols56 (j : nat) : list (option (bval Z)) := match j with O => xs56 | _ => ys56 end.
Definition none56 : src (bval Z) := SD _ (mkD [] [] 0).
Definition mem56 : list (src (bval Z)) :=
  [SD _ (mkD [BF Forest_Props.one; BI 9%Z; BF half] [5%N] 0); SA _ (ar_dense (mkD [BI 5%Z; BI 3%Z; BI 8%Z] [3%N] 0)); none56; none56].
Definition inputs56 : list (nat * nat) := [(0, 0); (1, 1)].
Definition outs56 : list aslot := [{| as_id := 2; as_ty := 0; as_arr := false |}; {| as_id := 3; as_ty := 0; as_arr := true |}].
Definition compile56 (groups : list tfilter) (optimal : Z) : bresult (batched Z) :=
  b_compile Z zops 1%Z ref_lib cequals no_others (fun _ => (2, false)) TF32 (@rev _) 9 forest50 [(0, TF32); (1, TI64)] groups optimal.
Definition get56 (a : src (bval Z)) : list (option (option (bval Z))) :=
  map (fun i => match a with SD _ a => da_get a i | SA _ a => ar_get a i end) (seq 0 3).
Definition run56 (optimal : Z) (outs : list aslot) (want : option nat) : option (nat * list (list (option (option (bval Z))))) :=
  match compile56 outs50 optimal with
  | BOk b => match eval_batch Z zops ref_lib no_others (fun _ => (2, false)) zf (BI 0%Z) falloc fallocw (@rev _) (@rev _) 9 3 b inputs56 outs want mem56 with
             | BOk m => let? l := all_some (map (fun o => rd m (as_id o)) outs) in Some (length (b_evaluators b), map get56 l)
             | _ => None
             end
  | _ => None
  end.
Definition want56 (f : tfilter) : list (outcome Z) := map (fun i => naive zops no_others (input_row zf cols56 i) 9 f forest50) (seq 0 3).

Example C56_ex :
  exact_ops zops /\ unit_weight zops 1%Z /\ others_local no_others /\ from_trees no_others forest50 = inr [(0, TF32); (1, TI64)] /\
  disjoint_outputs outs50 forest50 /\ (forall t, In t forest50 -> tree_fine all_evaluators no_others t) /\ splits forest50 = 12%Z /\
  inputs_ok no_others (fun _ => (2, false)) forest50 inputs56 mem56 cols56 3 /\ rows_known no_others forest50 inputs56 mem56 None 3 /\
  outputs_ok outs50 outs56 mem56 /\ not_inputs no_others forest50 inputs56 outs56 /\
  (forall i, i < 3 -> row_fine all_evaluators no_others outs50 forest50 (input_row zf cols56 i)) /\
  map want56 outs50 = [[Done 180; Done 160; Done 180]; [Done 3660; Done 3240; Done 2660]]%Z /\
  run56 5 outs56 None = Some (3, [[Some (Some (BV 180)); Some (Some (BV 160)); Some (Some (BV 180))]; [Some (Some (BV 3660)); Some (Some (BV 3240)); Some (Some (BV 2660))]]%Z) /\
  run56 12 outs56 (Some 3) = Some (1, [[Some (Some (BV 180)); Some (Some (BV 160)); Some (Some (BV 180))]; [Some (Some (BV 3660)); Some (Some (BV 3240)); Some (Some (BV 2660))]]%Z) /\
  run56 5 outs56 (Some 4) = None /\
  compile56 [] 5 = BErr (EvaluatorError NoOutputs) /\ compile56 (simple_filter :: outs50) 5 = BErr (EvaluatorError GroupsIntersect).
Proof.
  destruct C50_ex as (A & B & _ & D & E & _). split; [exact B|]. split; [exact A|]. split; [intros k fr fr' _; reflexivity|]. split; [reflexivity|]. split; [exact D|]. split; [exact E|]. split; [reflexivity|].
  assert (Us : forall j ty, uses no_others forest50 j ty <-> In (j, ty) [(0, TF32); (1, TI64)]) by (intros j ty; symmetry; apply (required_ok no_others forest50 _ eq_refl)).
  split.
  { intros j ty U. apply Us in U. destruct U as [[= <- <-]|[[= <- <-]|[]]]; cbn [tag fst snd].
    - exists 0. eexists. repeat (split; [reflexivity|]). split; [|split; [reflexivity|discriminate]]. split; [split; [cbn; lia|]; split; [repeat constructor|right; reflexivity]|]. split; [reflexivity|].
      intros i Hi. do 3 (destruct i; [reflexivity|]). cbn in Hi. lia.
    - exists 1. eexists. repeat (split; [reflexivity|]). split; [|split; [reflexivity|discriminate]]. apply ar_dense_rep. split; [split; [cbn; lia|]; split; [repeat constructor|right; reflexivity]|]. split; [reflexivity|].
      intros i Hi. do 3 (destruct i; [reflexivity|]). cbn in Hi. lia. }
  split; [right; split; [reflexivity|]; left; exists 0, TF32; apply Us; cbn; auto|].
  split; [split; [reflexivity|]; split; [repeat constructor; cbn; intuition discriminate|intros o [<-|[<-|[]]]; cbn; lia]|].
  split; [intros j ty s k U J; apply Us in U; destruct U as [[= <- <-]|[[= <- <-]|[]]]; injection J as <- <-; cbn; intuition discriminate|].
  split.
  { intros i Hi _. split.
    - intros j x. cbn [input_row in_f32]. do 3 (destruct i as [|i]; [destruct j as [|j]; cbn; intros [= <-]; reflexivity|]). lia.
    - intros t j ty n _ _ _. destruct (n_cond n) as [? ? ?|? ? ?|? ? []|?]; cbn [nan_ok]; try exact I. intros K. revert K. cbn [input_row in_f32].
      do 3 (destruct i as [|i]; [match goal with |- context [cols56 ?m] => destruct m as [|m] end; discriminate|]). lia. }
  repeat split; vm_compute; reflexivity.
Qed.

(** With more than one evaluator, an output stored in the slot of an input is read by the
    next evaluator: the values are wrong.  With one evaluator they are not. *)
Definition alias56 : list aslot := [{| as_id := 0; as_ty := 0; as_arr := false |}; {| as_id := 3; as_ty := 0; as_arr := false |}].
Theorem C56_alias_refuted :
  outputs_ok outs50 alias56 mem56 /\
  (exists b mem', compile56 outs50 5 = BOk b /\
   eval_batch Z zops ref_lib no_others (fun _ => (2, false)) zf (BI 0%Z) falloc fallocw (@rev _) (@rev _) 9 3 b inputs56 alias56 None mem56 = BOk mem' /\
   ~ stored outs50 alias56 3 (fun f i y => naive zops no_others (input_row zf cols56 i) 9 f forest50 = Done y) mem56 mem') /\
  run56 12 alias56 None = Some (1, map (map (fun x => match x with Done y => Some (Some (BV y)) | _ => None end)) (map want56 outs50)).
Proof.
  split; [split; [reflexivity|]; split; [repeat constructor; cbn; intuition discriminate|intros o [<-|[<-|[]]]; cbn; lia]|]. split; [|vm_compute; reflexivity].
  assert (R : match compile56 outs50 5 with
              | BOk b => match eval_batch Z zops ref_lib no_others (fun _ => (2, false)) zf (BI 0%Z) falloc fallocw (@rev _) (@rev _) 9 3 b inputs56 alias56 None mem56 with
                         | BOk m => match nth_error m 3 with Some (SD _ a) => da_get a 1 = Some (Some (BV 3640%Z)) | _ => False end
                         | _ => False
                         end
              | _ => False
              end) by (vm_compute; reflexivity).
  destruct (compile56 outs50 5) as [b| | |]; try contradiction. destruct (eval_batch _ _ _ _ _ _ _ _ _ _ _ _ _ b _ _ _ _) as [m| | |] eqn:Em; try contradiction.
  exists b, m. split; [reflexivity|]. split; [exact Em|]. intros (_ & _ & S). destruct (S 1 _ _ eq_refl eq_refl) as (a & Ea & _ & ys & Ly & Ca & Py). change (nth_error m 3 = Some a) in Ea. rewrite Ea in R.
  destruct a as [a|a]; [|contradiction]. destruct Ca as (_ & _ & G). specialize (G 1). rewrite map_length, Ly in G. specialize (G ltac:(lia)). rewrite R in G.
  destruct ys as [|y0 [|y1 ys]]; try discriminate Ly. cbn in G. injection G as <-. specialize (Py 1 _ eq_refl). vm_compute in Py. discriminate.
Qed.
Print Assumptions C56_alias_refuted.
Example C56_ex_no_limit : compile56 outs50 (2 ^ 63 - 1) = BUndefined.
Proof. apply C56_no_limit_refuted; [intros l; symmetry; apply Permutation_rev|reflexivity|reflexivity]. Qed.
