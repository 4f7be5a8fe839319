(** The regular predictors of the forest evaluator, and the assignment of trees to groups. *)
From Coq Require Import Permutation.
From Verif Require Import Base Forest_Model Forest_Spec Forest_Proofs Forest_Props ForestPt_Model ForestPt_Spec ForestPt_Proofs FullAcc_Spec
  ForestBm_Model ForestBm_Spec ForestBm_Proofs ForestBm_Trees ForestBm_Eval ForestSi_Model ForestSi_Spec ForestSi_Build ForestEv_Model ForestEv_Spec ForestEv_Proofs.

(** ** The number of steps of a prediction is bounded by the height of the tree. *)
Inductive fol_n {T V} (ops : list (bop T V)) (ev : T -> bool) : nat -> nat -> V -> Prop :=
| foln_leaf k id v : In (SetLeaf id v) ops -> fol_n ops ev k id v
| foln_node k id l r t v : In (SetNode id l r t) ops -> fol_n ops ev k (if ev t then l else r) v -> fol_n ops ev (S k) id v.
Lemma predict_fol_n T V n (ops : list (bop T V)) b ss ev : inv T V n ops b -> calls_complete n ops ->
  compile_splits (node_mapping (b_nodes b) 0) (b_nodes b) = Some ss ->
  forall k i v, fol_n ops ev k i v -> forall m, nth_error (node_mapping (b_nodes b) 0) i = Some m ->
  forall fuel, k <= fuel -> predict_from ev {| c_splits := ss; c_adj := b_values b |} fuel m = Done v.
Proof.
  intros I CC E k i v F. induction F as [k i v O|k i l r t v O F IH]; intros m M fuel Fu.
  - destruct (map_leaf T V n ops b I i v O) as (j & A & B). rewrite M in A. injection A as ->.
    assert (G : get_value {| c_splits := ss; c_adj := b_values b |} (cleaf_id j) = Some v).
    { unfold get_value, cleaf_id. replace (- (- Z.of_nat j - 1) - 1)%Z with (Z.of_nat j) by lia. rewrite zrd_nat. exact B. }
    unfold cleaf_id in *. destruct fuel; cbn [predict_from]; unfold can_step; destruct (Z.ltb_spec (- Z.of_nat j - 1) 0); try lia; cbn [negb]; rewrite G; reflexivity.
  - destruct (map_node T V n ops b ss I CC E i l r t O) as (m0 & m1 & A & B & C & D). rewrite M in A. injection A as ->.
    assert (N : nth_error (node_mapping (b_nodes b) 0) (if ev t then l else r) = Some (if ev t then m1 else m0)) by (destruct (ev t); assumption).
    destruct fuel as [|fuel]; [lia|]. cbn [predict_from]. unfold can_step, csplit_id.
    destruct (Z.ltb_spec (Z.of_nat (rank T (b_nodes b) i)) 0); [lia|]. cbn [negb]. unfold make_step. rewrite zrd_nat. cbn [c_splits].
    replace (nth_error ss (rank T (b_nodes b) i)) with (Some {| c_test := t; c_next0 := m0; c_next1 := m1 |}) by (symmetry; exact D).
    cbn [bind c_test c_next0 c_next1]. apply (IH _ N). lia.
Qed.
Lemma unfolds_fol_n {V} (vo : vops V) (t : tree V) ot fr id d : shape_ok t -> unfolds (t_nodes t) id d -> id_ok t id ->
  forall a, nth_error (t_adj t) (deval ot fr d) = Some a -> forall k, height d <= k -> fol_n (tree_calls vo t) (ceval ot fr) k (child_number t id) (vmul vo a (t_weight t)).
Proof.
  intros Sh U. induction U as [id L|k x f d N U1 IH1 U2 IH2]; intros I a A h Hh.
  - cbn [deval] in A. apply foln_leaf. unfold tree_calls. apply in_app_iff. right. apply in_map_iff.
    exists (Z.to_nat (- id - 1), a). split; [|apply (nth_combine_seq V t); exact A]. cbn. f_equal. unfold child_number, is_leaf, adjustment_index.
    destruct (Z.ltb_spec id 0); [reflexivity|lia].
  - assert (NN : In x (t_nodes t)) by (eapply nth_error_In; exact N). cbn [height] in Hh. destruct h as [|h]; [lia|].
    replace (child_number t (Z.of_nat k)) with k by (unfold child_number, is_leaf; destruct (Z.ltb_spec (Z.of_nat k) 0); lia).
    eapply (foln_node _ _ h k (child_number t (n_true x)) (child_number t (n_false x)) (n_cond x)).
    + unfold tree_calls. apply in_app_iff. left. apply in_map_iff. exists (k, x). split; [reflexivity|]. apply (nth_combine_seq V t). exact N.
    + cbn [deval] in A. destruct (ceval ot fr (n_cond x)).
      * apply IH2; [exact (node_children_ok t x true Sh NN)|exact A|lia].
      * apply IH1; [exact (node_children_ok t x false Sh NN)|exact A|lia].
Qed.
Lemma regular_fuel {V} (vo : vops V) (t : tree V) : shape_ok t -> proper t ->
  exists b ct, add_regular_tree vo t = Some b /\ compile b = COk ct /\
  forall ot fr d v, is_tree t d -> tree_value vo ot fr t d = Some v -> forall fuel, height d <= fuel -> predict (ceval ot fr) ct fuel = Done v.
Proof.
  intros Sh [D N]. pose proof (add_regular_ok V vo t Sh) as A. destruct (add_regular_tree vo t) as [b|] eqn:E; [|exfalso; tauto].
  destruct (compile_ok cond V _ _ _ A) as (C1 & _ & C3). pose proof (inv_valid _ _ _ _ _ A) as Va.
  pose proof (tree_calls_complete V vo t Sh Va) as CC. destruct (C1 CC) as [ct Ct]. destruct (C3 ct Ct) as (_ & ss & Es & ->).
  exists b. eexists. split; [reflexivity|]. split; [exact Ct|]. intros ot fr d v U Tv fuel Fu. apply (proj1 (root_is_tree t d)) in U.
  unfold tree_value in Tv. destruct (nth_error (t_adj t) (deval ot fr d)) as [a|] eqn:Na; cbn in Tv; [|discriminate]. injection Tv as <-.
  pose proof (unfolds_fol_n vo t ot fr _ d Sh U (root_ok t Sh) a Na (height d) (le_n _)) as F.
  assert (G : length (t_nodes t) + length (t_adj t) = 1 \/ exists l r tt, In (SetNode 0 l r tt) (tree_calls vo t)).
  { destruct (t_nodes t) as [|x q] eqn:Q.
    - left. destruct Sh as (_ & _ & L & _). rewrite L, Q. reflexivity.
    - right. exists (child_number t (n_true x)), (child_number t (n_false x)), (n_cond x). unfold tree_calls. rewrite Q. left. reflexivity. }
  assert (M := root_mapping cond V _ _ _ ss (ceval ot fr) A CC Es G).
  assert (Rn : child_number t (root t) = 0).
  { destruct Sh as (_ & _ & L & _). unfold root, child_number, is_leaf, adjustment_id, adjustment_index. destruct (t_nodes t); reflexivity. }
  rewrite Rn in F. exact (predict_fol_n cond V _ _ _ ss (ceval ot fr) A CC Es _ 0 _ F _ M fuel Fu).
Qed.

(** ** Items with a group. *)
Definition gsel {A} (g : nat) (l : list (nat * A)) : list A := map snd (filter (fun x => fst x =? g) l).
Lemma gsel_app {A} g (l l' : list (nat * A)) : gsel g (l ++ l') = gsel g l ++ gsel g l'.
Proof. unfold gsel. rewrite filter_app, map_app. reflexivity. Qed.
Lemma Permutation_filter' {A} (p : A -> bool) l l' : Permutation l l' -> Permutation (filter p l) (filter p l').
Proof.
  intros P. induction P as [|x l l' P IH|x y l|l l' l'' P1 IH1 P2 IH2]; cbn.
  - constructor.
  - destruct (p x); [apply perm_skip|]; exact IH.
  - destruct (p x), (p y); try reflexivity. apply perm_swap.
  - etransitivity; eassumption.
Qed.
Lemma gsel_perm {A} g (l l' : list (nat * A)) : Permutation l l' -> Permutation (gsel g l) (gsel g l').
Proof. intros P. unfold gsel. apply Permutation_map. apply Permutation_filter'. exact P. Qed.
Lemma gsel_In {A} g (l : list (nat * A)) x : In x (gsel g l) <-> In (g, x) l.
Proof.
  unfold gsel. rewrite in_map_iff. split.
  - intros ([h y] & <- & I). apply filter_In in I. destruct I as [I E]. apply Nat.eqb_eq in E. cbn in *. subst h. exact I.
  - intros I. exists (g, x). split; [reflexivity|]. apply filter_In. split; [exact I|]. apply Nat.eqb_refl.
Qed.
Lemma gsel_map {A B} g (grp : B -> nat) (f : B -> A) (l : list B) : gsel g (map (fun b => (grp b, f b)) l) = map f (filter (fun b => grp b =? g) l).
Proof. unfold gsel. induction l as [|b l IH]; cbn; [reflexivity|]. destruct (grp b =? g); cbn; rewrite IH; reflexivity. Qed.

Section regular.
Context {V : Type} (vo : vops V) (ot : others).
Definition made (t : tree V) (x : builder cond V * Z) : Prop := add_regular_tree vo t = Some (fst x).
Definition regs_ok (rs : list (rgroup V)) (regs : list (nat * tree V)) : Prop :=
  forall g p, nth_error rs g = Some p -> exists us is, Permutation (us ++ is) (gsel g regs) /\ Forall2 made us (fst p) /\ Forall2 made is (snd p).
Lemma regs_add rs regs t g b : regs_ok rs regs -> g < length rs -> add_regular_tree vo t = Some b ->
  exists rs', add_regular V vo rs t g = ROk rs' /\ length rs' = length rs /\ regs_ok rs' (regs ++ [(g, t)]).
Proof.
  intros K Lt A. unfold add_regular. destruct (rd_lt rs g Lt) as [p Ep]. rewrite Ep. cbn [or_undef rbind]. rewrite A. cbn [or_err rbind].
  set (p' := if only_intervals V t then _ else _). destruct (upd_lt rs g p' Lt) as [rs' Eu]. rewrite Eu. exists rs'. split; [reflexivity|].
  destruct (upd_spec _ _ _ _ Eu) as (_ & Ln & Sp). split; [exact Ln|]. intros h q Hq. rewrite gsel_app. unfold gsel at 2. cbn [filter fst]. pose proof (Sp h) as Sh. unfold rd in Sh. rewrite Sh in Hq. clear Sh.
  destruct (Nat.eqb_spec h g) as [->|Ne].
  - rewrite Nat.eqb_refl. cbn [map snd].
    destruct (K g p Ep) as (us & is & P & F1 & F2). assert (q = p') as -> by congruence. unfold p'. destruct (only_intervals V t); cbn [fst snd].
    + exists us, (is ++ [t]). split; [rewrite app_assoc; apply Permutation_app_tail; exact P|]. split; [exact F1|]. apply Forall2_app; [exact F2|]. repeat constructor. exact A.
    + exists (us ++ [t]), is. split; [|split; [apply Forall2_app; [exact F1|]; repeat constructor; exact A|exact F2]].
      rewrite <- app_assoc. cbn. rewrite <- Permutation_middle, <- P. rewrite <- Permutation_cons_append. reflexivity.
  - destruct (Nat.eqb_spec g h) as [->|_]; [congruence|]. cbn [map]. rewrite app_nil_r. exact (K h q Hq).
Qed.

(** ** Compiling and predicting. *)
Definition reg_good (fuel : nat) (t : tree V) : Prop := shape_ok t /\ proper t /\ exists d, is_tree t d /\ height d < fuel.
Definition predicts (fuel : nat) (t : tree V) (x : ctree cond V * Z) : Prop :=
  forall fr, exists v, has_value vo ot fr t v /\ forall k, pred fuel <= k -> predict (ceval ot fr) (fst x) k = Done v.
Lemma compile_made fuel ts bs : Forall2 made ts bs -> (forall t, In t ts -> reg_good fuel t) ->
  exists cts, compile_all Z bs = inr (Some cts) /\ Forall2 (predicts fuel) ts cts.
Proof.
  intros F. induction F as [|t [b z] ts bs M F IH]; intros G; [exists []; split; [reflexivity|constructor]|].
  destruct IH as (cts & E & P); [intros u U; apply G; right; exact U|]. destruct (G t (or_introl eq_refl)) as (Sh & Pr & d & It & Hd).
  destruct (regular_fuel vo t Sh Pr) as (b' & ct & Eb & Ec & Pd). unfold made in M. cbn [fst] in M. rewrite M in Eb. injection Eb as <-.
  exists ((ct, z) :: cts). cbn [compile_all]. rewrite Ec, E. split; [reflexivity|]. constructor; [|exact P].
  intros fr. destruct (tree_value_some vo ot fr t d Sh It) as [v Tv]. exists v. split; [exists d; auto|]. intros k Kk. cbn [fst]. apply (Pd ot fr d v It Tv). lia.
Qed.
Lemma boosted_sum fuel fr ts cts : Forall2 (predicts fuel) ts cts -> 0 < fuel ->
  exists r vs, boosted (vadd vo) Z (ceval ot fr) (fun _ => true) fuel cts (vzero vo) = Done r /\ Forall2 (has_value vo ot fr) ts vs /\ sum_of vo vs r.
Proof.
  intros F Fu. assert (X : exists vs, Forall2 (has_value vo ot fr) ts vs /\ Forall2 (fun x v => forall k, pred fuel <= k -> predict (ceval ot fr) x k = Done v) (map fst cts) vs).
  { induction F as [|t x ts cts P F IH]; [exists []; split; constructor|]. destruct IH as (vs & A & B). destruct (P fr) as (v & Hv & K). exists (v :: vs). split; constructor; assumption. }
  destruct X as (vs & A & B).
  assert (Kp : kept cond V Z (fun _ => true) cts = map fst cts).
  { unfold kept. f_equal. clear. induction cts as [|x l IH]; cbn; congruence. }
  destruct (batches_ok cond V V (vadd vo) (ceval ot fr) Z (fun _ => true) (pred fuel) (length cts) cts vs (le_n _)) with (fuel := fuel) (start := vzero vo) as (r & E & l & Pl & El).
  { rewrite Kp. exact B. }
  { lia. }
  exists r, vs. split; [exact E|]. split; [exact A|]. subst r. apply (sum_perm vo l); [exact Pl|]. apply (sum_of_fold vo l [] (vzero vo)). constructor.
Qed.
Lemma build_regular_ok fuel rs regs : regs_ok rs regs -> (forall g t, In (g, t) regs -> reg_good fuel t) -> 0 < fuel ->
  exists reg, build_regular V rs = ROk reg /\
  forall fr, exists out, predict_groups V vo ot fuel fr reg = Done out /\ length out = length rs /\
  forall g y, nth_error out g = Some y -> exists vs, Forall2 (has_value vo ot fr) (gsel g regs) vs /\ sum_of vo vs y.
Proof.
  intros K G Fu.
  assert (H : forall o, (forall g p, nth_error rs g = Some p -> exists us is, Permutation (us ++ is) (gsel (o + g) regs) /\ Forall2 made us (fst p) /\ Forall2 made is (snd p)) ->
    exists reg, build_regular V rs = ROk reg /\
    forall fr, exists out, predict_groups V vo ot fuel fr reg = Done out /\ length out = length rs /\
    forall g y, nth_error out g = Some y -> exists vs, Forall2 (has_value vo ot fr) (gsel (o + g) regs) vs /\ sum_of vo vs y); [|exact (H 0 K)].
  clear K. induction rs as [|p rs IH]; intros o K.
  - exists []. split; [reflexivity|]. intros fr. exists []. split; [reflexivity|]. split; [reflexivity|]. intros [|g] y H; discriminate.
  - destruct (IH (S o)) as (reg & E & P).
    { intros g q Q. destruct (K (S g) q Q) as (us & is & X). exists us, is. replace (S o + g) with (o + S g) by lia. exact X. }
    destruct (K 0 p eq_refl) as (us & is & Pm & F1 & F2). rewrite Nat.add_0_r in Pm.
    assert (Gu : forall t, In t (us ++ is) -> reg_good fuel t).
    { intros t T. apply (Permutation_in _ Pm) in T. apply gsel_In in T. exact (G _ _ T). }
    destruct (compile_made fuel us (fst p) F1) as (cu & Eu & Pu); [intros t T; apply Gu, in_app_iff; left; exact T|].
    destruct (compile_made fuel is (snd p) F2) as (ci & Ei & Pi); [intros t T; apply Gu, in_app_iff; right; exact T|].
    exists ((cu, ci) :: reg). cbn [build_regular]. rewrite Eu, Ei, E. split; [reflexivity|]. intros fr.
    destruct (boosted_sum fuel fr us cu Pu Fu) as (ru & vu & Bu & Hu & Su). destruct (boosted_sum fuel fr is ci Pi Fu) as (ri & vi & Bi & Hi & Si).
    destruct (P fr) as (out & Eo & Lo & Go). exists (vrnd vo (vadd vo ru ri) :: out). cbn [predict_groups]. unfold predict_group. cbn [fst snd]. rewrite Bu, Bi. cbn [obind]. rewrite Eo.
    split; [reflexivity|]. split; [cbn; lia|]. intros [|g] y Y; cbn [nth_error] in Y.
    + injection Y as <-. rewrite Nat.add_0_r. destruct (forall2_perm (has_value vo ot fr) _ _ Pm (vu ++ vi)) as (vs & Fv & Pv); [apply Forall2_app; assumption|].
      exists vs. split; [exact Fv|]. apply (sum_perm vo _ _ _ Pv). apply sum_rnd, sum_add; assumption.
    + replace (o + S g) with (S o + g) by lia. exact (Go g y Y).
Qed.

(** ** Trees and their groups. *)
Fixpoint owner (outs : list tfilter) (g : nat) (h : tree V -> option nat) (t : tree V) : option nat :=
  match outs with [] => h t | f :: r => owner r (S g) (fun t => if selects f t then Some g else h t) t end.
Lemma assign_ok f g h ts : (forall t, In t ts -> selects f t = true -> h t = None) ->
  assign_group V f g ts (map h ts) = Some (map (fun t => if selects f t then Some g else h t) ts).
Proof.
  induction ts as [|t ts IH]; intros H; [reflexivity|]. cbn. rewrite IH by (intros u U; apply H; right; exact U).
  destruct (selects f t) eqn:S; [|reflexivity]. rewrite (H t (or_introl eq_refl) S). reflexivity.
Qed.
Lemma assign_none f g h ts t : In t ts -> selects f t = true -> h t <> None -> assign_group V f g ts (map h ts) = None.
Proof.
  induction ts as [|u ts IH]; [intros []|intros [<-|I] S H; cbn].
  - rewrite S. destruct (h u); [reflexivity|congruence].
  - rewrite (IH I S H). destruct (selects f u); [destruct (h u); reflexivity|reflexivity].
Qed.
Lemma assigns_ok outs : forall g h ts, (forall t f i, In t ts -> nth_error outs i = Some f -> selects f t = true -> h t = None) -> disjoint_outputs outs ts ->
  assign_groups V outs g ts (map h ts) = Some (map (owner outs g h) ts).
Proof.
  induction outs as [|f outs IH]; intros g h ts H D; [reflexivity|]. cbn [assign_groups].
  rewrite assign_ok by (intros t T S; exact (H t f 0 T eq_refl S)). cbn [bind]. rewrite IH.
  - reflexivity.
  - intros t f' i T E S. destruct (selects f t) eqn:X; [|exact (H t f' (Datatypes.S i) T E S)]. pose proof (D t 0 (Datatypes.S i) f f' T eq_refl E X S). discriminate.
  - intros t a b f1 f2 T E1 E2 S1 S2. pose proof (D t (S a) (S b) f1 f2 T E1 E2 S1 S2). lia.
Qed.
Lemma assigns_none outs : forall g h ts, assign_groups V outs g ts (map h ts) = None \/
  ((forall t f i, In t ts -> nth_error outs i = Some f -> selects f t = true -> h t = None) /\ disjoint_outputs outs ts).
Proof.
  induction outs as [|f outs IH]; intros g h ts; [right; split; [intros t f [|i]; discriminate|intros t [|a]; discriminate]|]. cbn [assign_groups].
  destruct (assign_group V f g ts (map h ts)) as [m'|] eqn:E; [|left; reflexivity].
  assert (A : forall t, In t ts -> selects f t = true -> h t = None).
  { intros t T S. destruct (h t) eqn:Hh; [|reflexivity]. rewrite (assign_none f g h ts t T S) in E by congruence. discriminate. }
  rewrite (assign_ok f g h ts A) in E. injection E as <-. cbn [bind].
  destruct (IH (S g) (fun t => if selects f t then Some g else h t) ts) as [N|[H D]]; [left; exact N|]. right. split.
  - intros t f' [|i] T E S; cbn in E; [injection E as <-; exact (A t T S)|]. pose proof (H t f' i T E S) as X. cbn in X. destruct (selects f t); [discriminate|exact X].
  - intros t [|a] [|b] f1 f2 T E1 E2 S1 S2; cbn in E1, E2; [reflexivity| | |f_equal; exact (D t a b f1 f2 T E1 E2 S1 S2)].
    + injection E1 as <-. pose proof (H t f2 b T E2 S2) as X. cbn in X. rewrite S1 in X. discriminate.
    + injection E2 as <-. pose proof (H t f1 a T E1 S1) as X. cbn in X. rewrite S2 in X. discriminate.
Qed.
Lemma owner_spec outs : forall g h ts t, disjoint_outputs outs ts -> In t ts ->
  (forall i f, nth_error outs i = Some f -> selects f t = true -> owner outs g h t = Some (g + i)) /\
  ((forall i f, nth_error outs i = Some f -> selects f t = false) -> owner outs g h t = h t).
Proof.
  induction outs as [|f outs IH]; intros g h ts t D T; (split; [intros [|i] f' E S|]); try discriminate; [reflexivity| | | ].
  - cbn in E. injection E as <-. cbn [owner].
    assert (D' : disjoint_outputs outs ts) by (intros u a b f1 f2 U E1 E2 S1 S2; pose proof (D u (Datatypes.S a) (Datatypes.S b) f1 f2 U E1 E2 S1 S2); lia).
    destruct (IH (Datatypes.S g) (fun t => if selects f t then Some g else h t) ts t D' T) as [_ B]. rewrite B; [rewrite S; f_equal; lia|].
    intros i f' E. destruct (selects f' t) eqn:S'; [|reflexivity]. pose proof (D t 0 (Datatypes.S i) f f' T eq_refl E S S'). discriminate.
  - cbn in E. cbn [owner].
    assert (D' : disjoint_outputs outs ts) by (intros u a b f1 f2 U E1 E2 S1 S2; pose proof (D u (Datatypes.S a) (Datatypes.S b) f1 f2 U E1 E2 S1 S2); lia).
    destruct (IH (Datatypes.S g) (fun t => if selects f t then Some g else h t) ts t D' T) as [A _]. rewrite (A i f' E S). f_equal. lia.
  - intros H. cbn [owner].
    assert (D' : disjoint_outputs outs ts) by (intros u a b f1 f2 U E1 E2 S1 S2; pose proof (D u (Datatypes.S a) (Datatypes.S b) f1 f2 U E1 E2 S1 S2); lia).
    destruct (IH (Datatypes.S g) (fun t => if selects f t then Some g else h t) ts t D' T) as [_ B]. rewrite B; [rewrite (H 0 f eq_refl); reflexivity|].
    intros i f' E. exact (H (Datatypes.S i) f' E).
Qed.
Lemma split_groups_ok outs ts : outs <> [] -> disjoint_outputs outs ts ->
  split_groups V outs ts = ROk (map (owner outs 0 (fun _ => None)) ts).
Proof.
  intros Ne D. unfold split_groups. destruct outs as [|f r] eqn:E; [congruence|]. rewrite <- E in *.
  replace (repeat None (length ts)) with (map (fun _ : tree V => @None nat) ts) by (clear; induction ts as [|t ts IH]; cbn; congruence).
  rewrite assigns_ok; [reflexivity|reflexivity|exact D].
Qed.
Lemma split_groups_err outs ts : outs <> [] -> ~ disjoint_outputs outs ts -> split_groups V outs ts = RErr GroupsIntersect.
Proof.
  intros Ne D. unfold split_groups. destruct outs as [|f r] eqn:E; [congruence|]. rewrite <- E in *.
  replace (repeat None (length ts)) with (map (fun _ : tree V => @None nat) ts) by (clear; induction ts as [|t ts IH]; cbn; congruence).
  destruct (assigns_none outs 0 (fun _ => None) ts) as [->|[_ X]]; [reflexivity|contradiction].
Qed.
(** The pairs of group and tree, in the order of the loop. *)
Definition pairs (h : tree V -> option nat) (ts : list (tree V)) : list (nat * tree V) :=
  flat_map (fun t => match h t with Some g => [(g, t)] | None => [] end) ts.
Lemma gsel_pairs outs ts g f : disjoint_outputs outs ts -> nth_error outs g = Some f ->
  gsel g (pairs (owner outs 0 (fun _ => None)) ts) = filter (selects f) ts.
Proof.
  intros D E. assert (H : forall us, (forall u, In u us -> In u ts) -> gsel g (pairs (owner outs 0 (fun _ => None)) us) = filter (selects f) us).
  { induction us as [|t us IH]; intros I; [reflexivity|]. unfold pairs. cbn [flat_map]. fold (pairs (owner outs 0 (fun _ => None)) us). rewrite gsel_app, IH by (intros u U; apply I; right; exact U).
    cbn [filter]. destruct (owner_spec outs 0 (fun _ => None) ts t D (I t (or_introl eq_refl))) as [A B]. destruct (selects f t) eqn:S.
    - rewrite (A g f E S). unfold gsel. cbn. rewrite Nat.eqb_refl. reflexivity.
    - destruct (owner outs 0 (fun _ => None) t) as [g'|] eqn:O; [|reflexivity]. unfold gsel. cbn. destruct (Nat.eqb_spec g' g) as [->|]; [|reflexivity]. exfalso.
      assert (N : ~ forall i f, nth_error outs i = Some f -> selects f t = false) by (intros X; specialize (B X); discriminate).
      apply N. intros i f' E'. destruct (selects f' t) eqn:S'; [|reflexivity]. pose proof (A i f' E' S') as X. cbn in X. injection X as <-. rewrite E in E'. injection E' as <-. congruence. }
  exact (H ts (fun u U => U)).
Qed.
Lemma pairs_In outs ts g t : disjoint_outputs outs ts -> In (g, t) (pairs (owner outs 0 (fun _ => None)) ts) ->
  In t ts /\ exists f, nth_error outs g = Some f /\ selects f t = true.
Proof.
  intros D I. unfold pairs in I. apply in_flat_map in I. destruct I as (u & U & X). destruct (owner outs 0 (fun _ => None) u) as [h|] eqn:O; [|destruct X].
  destruct X as [[= <- <-]|[]]. split; [exact U|]. destruct (owner_spec outs 0 (fun _ => None) ts u D U) as [A B].
  destruct (existsb (fun f => selects f u) outs) eqn:Ex.
  - apply existsb_exists in Ex. destruct Ex as (f & F & S). apply In_nth_error in F. destruct F as [i E]. pose proof (A i f E S) as X. rewrite O in X. injection X as ->. exists f. auto.
  - rewrite B in O; [discriminate|]. intros i f E. destruct (selects f u) eqn:S; [|reflexivity]. assert (existsb (fun f => selects f u) outs = true); [|congruence].
    apply existsb_exists. exists f. split; [eapply nth_error_In; exact E|exact S].
Qed.
Lemma values_of fr f ts vs : Forall2 (has_value vo ot fr) (filter (selects f) ts) vs -> values vo ot fr f ts vs.
Proof.
  revert vs. induction ts as [|t ts IH]; intros vs F; cbn [filter] in F.
  - inversion F. constructor.
  - destruct (selects f t) eqn:S; [|apply vals_skip; auto]. inversion F as [|? v ? vs' (d & It & Tv) F']; subst. eapply vals_take; eauto.
Qed.
End regular.
