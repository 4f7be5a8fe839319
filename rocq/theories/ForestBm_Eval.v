(** The calls of a bitmask builder and the evaluator they lead to. *)
From Coq Require Import Permutation.
From Verif Require Import Base Bits_Model Bits_Proofs Forest_Model Forest_Spec Forest_Proofs FullAcc_Spec ForestBm_Model ForestBm_Spec ForestBm_Proofs ForestBm_Split ForestBm_Trees ForestBm_Build.

Section eval.
Variable V : Type.
Variable vo : vops V.
Variable ceq : cond -> cond -> bool.
Hypothesis Q : ceq_ok ceq.
Variable ot : others.

Definition small_item (t : tree V) (d : dtree) (vs : list V) : masked V := {| m_sub := t_sub t; m_splits := msplits 0 d; m_adj := vs |}.
Inductive repr : list (bcall V) -> list (nat * masked V) -> list (nat * otree V) -> Prop :=
| repr_nil : repr [] [] []
| repr_small g t d vs cs ms os : leaf_vals V vo t (leaves d) vs -> repr cs ms os -> repr (Small g t d :: cs) ((g, small_item t d vs) :: ms) os
| repr_obl g t d o cs ms os : repr cs ms os -> repr (Oblivious g t d o :: cs) ms ((g, o) :: os).
Definition cwidth (c : bcall V) : nat := match c with Small _ t _ => length (t_adj t) | Oblivious _ _ _ o => length (ot_layers V o) end.

Lemma unfolds_conds ns id d : unfolds ns id d -> forall c, In c (conds d) -> exists n, In n ns /\ n_cond n = c.
Proof.
  induction 1 as [id Neg|k n f t Hn Hf IHf Ht IHt]; intros c; cbn [conds]; [intros []|]. intros [<-|I]; [exists n; split; [apply nth_error_In in Hn; exact Hn|reflexivity]|].
  apply in_app_iff in I. destruct I; auto.
Qed.
Lemma size_adj (t : tree V) d : (forall i, In i (leaves d) -> i < length (t_adj t)) -> NoDup (leaves d) -> size d <= length (t_adj t).
Proof. intros H N. unfold size. rewrite <- (seq_length (length (t_adj t)) 0). apply NoDup_incl_length; [exact N|]. intros i I. apply in_seq. specialize (H i I). lia. Qed.
Definition nodes_ok (t : tree V) : Prop := forall n, In n (t_nodes t) -> supported (n_cond n) = true /\ cond_ok (n_cond n).
Lemma conds_ok (t : tree V) d : is_tree t d -> nodes_ok t -> layers_ok (conds d).
Proof. intros It N c I. apply root_is_tree in It. destruct (unfolds_conds _ _ _ It c I) as (n & In_ & <-). destruct (N n In_). auto. Qed.

Lemma run_ok fuel cs : (forall c, In c cs -> bc_ok vo ceq c /\ height (bc_dtree c) <= fuel) -> forall b, exists ms os,
  fold_left (run_call vo fuel) cs (Done b) = Done {| bb_masked := bb_masked V b ++ ms; bb_oblivious := bb_oblivious V b ++ os; bb_wide := bb_wide V b || existsb (fun c => 32 <? cwidth c) cs |} /\ repr cs ms os.
Proof.
  induction cs as [|c cs IH]; intros H b; cbn [fold_left existsb].
  - exists [], []. rewrite !app_nil_r, orb_false_r. split; [destruct b; reflexivity|constructor].
  - destruct (H c) as [Ok Hh]; [left; reflexivity|]. assert (H' : forall c', In c' cs -> bc_ok vo ceq c' /\ height (bc_dtree c') <= fuel) by (intros c' C; apply H; right; exact C).
    destruct c as [g t d|g t d o].
    + destruct Ok as (It & Lv & Nd & Nu & Sm). cbn [bc_tree bc_dtree] in *. pose proof (size_adj t d Lv Nu) as Sz. apply root_is_tree in It.
      destruct (dfs_ok V vo t (root t) d It fuel [] [] Lv ltac:(cbn; lia) Hh) as (vs & Vs & E). cbn [length app] in E.
      destruct (IH H' {| bb_masked := bb_masked V b ++ [(g, small_item t d vs)]; bb_oblivious := bb_oblivious V b; bb_wide := bb_wide V b || (32 <? length (t_adj t)) |}) as (ms & os & F & R).
      exists ((g, small_item t d vs) :: ms), os. split; [|constructor; assumption].
      replace (run_call vo fuel (Done b) (Small g t d)) with (Done {| bb_masked := bb_masked V b ++ [(g, small_item t d vs)]; bb_oblivious := bb_oblivious V b; bb_wide := bb_wide V b || (32 <? length (t_adj t)) |}).
      2: { cbn [run_call obind]. unfold add_small. rewrite E. reflexivity. }
      rewrite F. cbn [bb_masked bb_oblivious bb_wide cwidth]. rewrite <- app_assoc, orb_assoc. reflexivity.
    + destruct (IH H' (add_oblivious V b o g)) as (ms & os & F & R). exists ms, ((g, o) :: os). split; [|constructor; assumption].
      cbn [run_call obind]. rewrite F. unfold add_oblivious. cbn [bb_masked bb_oblivious bb_wide cwidth]. rewrite <- app_assoc, orb_assoc. reflexivity.
Qed.

Definition mval (w : nat) (fr : frame) (m : masked V) : option V := item_value V ot w (regular_leaf w) fr (mitem V m).
Definition oval (w : nat) (fr : frame) (o : otree V) : option V := item_value V ot w (fun m => Some (N.to_nat m)) fr (oitem V w o).
Lemma small_value w fr g t d vs : bc_ok vo ceq (Small g t d) -> leaf_vals V vo t (leaves d) vs -> length (t_adj t) <= w ->
  item_ok V (mitem V (small_item t d vs)) /\ mval w fr (small_item t d vs) = tree_value vo ot fr t d.
Proof.
  intros (It & Lv & Nd & Nu & Sm) Vs W. cbn [bc_tree bc_dtree] in *. pose proof (size_adj t d Lv Nu) as Sz. split.
  - intros m c I. cbn in I. assert (G : forall d o, In (m, c) (msplits o d) -> In c (conds d)).
    { clear. induction d as [i|c' f IHf t IHt]; intros o; cbn [msplits conds]; [intros []|]. rewrite !in_app_iff. intros [I|[I|[E|[]]]]; [right; apply in_app_iff; left; eapply IHf; exact I|right; apply in_app_iff; right; eapply IHt; exact I|injection E as _ ->; left; reflexivity]. }
    apply G in I. apply (conds_ok t d It Nd) in I. tauto.
  - unfold mval, item_value. cbn [mitem fst snd small_item m_splits m_adj]. rewrite regular_leaf_ok by lia. cbn [bind]. symmetry. apply (leaf_vals_nth V vo t (leaves d) vs _ _ Vs). apply dpos_deval.
Qed.
Lemma obl_value w fr g t d o : bc_ok vo ceq (Oblivious g t d o) -> 32 <= w ->
  item_ok V (oitem V w o) /\ oval w fr o = tree_value vo ot fr t d.
Proof.
  intros (It & Lv & Nd & Sm & fuel & E) W. cbn [bc_tree bc_dtree] in *. destruct (to_oblivious_sound V vo ceq fuel t d o It Lv E) as (_ & Ob & Vs & Ln & L32 & Ic).
  pose proof (conds_ok t d It Nd) as Co. assert (Lo : layers_ok (ot_layers V o)) by (intros c I; apply Co, Ic, I).
  split.
  - intros m c I. cbn in I. assert (G : forall l x, In (m, c) (layer_masks x l) -> In c l).
    { clear. induction l as [|y r IH]; intros x; cbn; [intros []|]. intros [K|K]; [injection K as _ ->; auto|right; eapply IH; exact K]. }
    apply G in I. apply Lo in I. tauto.
  - unfold oval, item_value. cbn [oitem fst snd]. destruct (oblivious_height ceq (ot_layers V o) d Ob) as (_ & _ & _ & Sz).
    assert (K : N.land (N.of_nat (length (ot_adj V o))) (wones w) = (2 ^ N.of_nat (length (ot_layers V o)))%N).
    { rewrite (leaf_vals_length V vo t _ _ Vs). fold (size d). rewrite Sz, Nat2N.inj_pow. change (N.of_nat 2) with 2%N. apply tb_inj. intros i. rewrite tb_land, tb_pow, tb_ones. destruct (Nat.eqb_spec i (length (ot_layers V o))) as [->|]; [|reflexivity]. apply Nat.ltb_lt. lia. }
    rewrite K, oblivious_mask by lia. cbn [bind]. rewrite Nat2N.id. symmetry. apply (leaf_vals_nth V vo t (leaves d) _ _ _ Vs). apply (oblivious_index ceq ot fr Q); assumption.
Qed.
Definition cgroup (g : nat) (cs : list (bcall V)) : list (bcall V) := filter (fun c => bc_group c =? g) cs.
Lemma value_some c fr : bc_ok vo ceq c -> bc_value vo ot fr c <> None.
Proof. intros (It & Lv & _). unfold bc_value, tree_value. destruct (rd_lt (t_adj (bc_tree c)) (deval ot fr (bc_dtree c))) as [a A]; [apply Lv, deval_leaves|]. unfold rd in A. rewrite A. discriminate. Qed.
Lemma repr_ok w cs ms os : repr cs ms os -> (forall c, In c cs -> bc_ok vo ceq c /\ cwidth c <= w) -> 32 <= w -> forall fr,
  (forall x, In x ms -> item_ok V (mitem V (snd x)) /\ mval w fr (snd x) <> None) /\ (forall x, In x os -> item_ok V (oitem V w (snd x)) /\ oval w fr (snd x) <> None) /\
  (forall g, Permutation (map (fun x => or0 V vo (mval w fr (snd x))) (grp g ms) ++ map (fun x => or0 V vo (oval w fr (snd x))) (grp g os)) (map (fun c => or0 V vo (bc_value vo ot fr c)) (cgroup g cs))) /\
  (forall n, (forall c, In c cs -> bc_group c < n) -> (forall x, In x ms -> fst x < n) /\ (forall x, In x os -> fst x < n)) /\ (ms = [] -> os = [] -> cs = []).
Proof.
  intros R H W fr. induction R as [|g t d vs cs ms os Vs R IH|g t d o cs ms os R IH].
  - split; [intros x []|]. split; [intros x []|]. split; [intros g; constructor|]. split; [intros n _; split; intros x []|reflexivity].
  - destruct IH as (A & B & C & D & _); [intros c I; apply H; right; exact I|]. destruct (H (Small g t d)) as [Ok Cw]; [left; reflexivity|]. cbn in Cw.
    destruct (small_value w fr g t d vs Ok Vs Cw) as [S1 S2]. pose proof (value_some _ fr Ok) as Vn. unfold bc_value in Vn. cbn [bc_tree bc_dtree] in Vn.
    split; [intros x [<-|I]; [split; [exact S1|cbn [snd]; rewrite S2; exact Vn]|apply A; exact I]|]. split; [exact B|]. split; [|split; [|discriminate]].
    + intros h. unfold grp, cgroup. cbn [filter fst bc_group]. destruct (g =? h); [|apply C]. cbn [map snd app]. unfold bc_value at 1. cbn [bc_tree bc_dtree]. rewrite S2. constructor. apply C.
    + intros n Hn. destruct (D n) as [D1 D2]; [intros c I; apply Hn; right; exact I|]. split; [intros x [<-|I]; [apply (Hn (Small g t d)); left; reflexivity|apply D1; exact I]|exact D2].
  - destruct IH as (A & B & C & D & _); [intros c I; apply H; right; exact I|]. destruct (H (Oblivious g t d o)) as [Ok Cw]; [left; reflexivity|].
    destruct (obl_value w fr g t d o Ok W) as [S1 S2]. pose proof (value_some _ fr Ok) as Vn. unfold bc_value in Vn. cbn [bc_tree bc_dtree] in Vn.
    split; [exact A|]. split; [intros x [<-|I]; [split; [exact S1|cbn [snd]; rewrite S2; exact Vn]|apply B; exact I]|]. split; [|split; [|discriminate]].
    + intros h. unfold grp, cgroup. cbn [filter fst bc_group]. destruct (g =? h); [|apply C]. cbn [map snd]. unfold bc_value at 1. cbn [bc_tree bc_dtree]. rewrite S2. rewrite <- Permutation_middle. constructor. apply C.
    + intros n Hn. destruct (D n) as [D1 D2]; [intros c I; apply Hn; right; exact I|]. split; [exact D1|]. intros x [<-|I]; [apply (Hn (Oblivious g t d o)); left; reflexivity|apply D2; exact I].
Qed.

(** Sorting by group. *)
Lemma by_group_asym {T} (sub : T -> Z) a b : by_group sub a b = true -> by_group sub b a = false.
Proof. unfold by_group. rewrite (Nat.eqb_sym (fst b)). destruct (Nat.eqb_spec (fst a) (fst b)); intros H; [apply Z.ltb_lt in H; apply Z.ltb_ge; lia|apply Nat.ltb_lt in H; apply Nat.ltb_ge; lia]. Qed.
Lemma by_group_ntrans {T} (sub : T -> Z) a b c : by_group sub a b = false -> by_group sub b c = false -> by_group sub a c = false.
Proof.
  unfold by_group. destruct (Nat.eqb_spec (fst a) (fst b)), (Nat.eqb_spec (fst b) (fst c)), (Nat.eqb_spec (fst a) (fst c)); rewrite ?Z.ltb_ge, ?Nat.ltb_ge; lia.
Qed.
Lemma ascending_grouped {T} (sub : T -> Z) l : ascending (by_group sub) l -> grouped l.
Proof.
  induction l as [|x r IH]; cbn; [auto|]. intros [A B]. split; [|auto]. intros y Y. specialize (A y Y). unfold by_group in A. destruct (Nat.eqb_spec (fst y) (fst x)); [lia|]. apply Nat.ltb_ge in A. lia.
Qed.
Variable lib : library.
Hypothesis L : lib_ok lib.
Lemma sort_groups {T} (sub : T -> Z) l : Permutation (l_sort lib _ (by_group sub) l) l /\ grouped (l_sort lib _ (by_group sub) l).
Proof.
  destruct (lib_sort lib L _ (by_group sub) l) as [P A]; [intros a b _ _; apply by_group_asym|intros a b c _ _ _; apply by_group_ntrans|]. split; [exact P|]. apply ascending_grouped in A. exact A.
Qed.
Lemma filter_perm {T} (p : T -> bool) l l' : Permutation l l' -> Permutation (filter p l) (filter p l').
Proof.
  induction 1 as [|x l l' P IH|x y l|l l1 l2 P1 IH1 P2 IH2]; cbn; [constructor| | |etransitivity; eassumption].
  - destruct (p x); [constructor|]; assumption.
  - destruct (p x), (p y); try reflexivity. constructor.
Qed.

(** The loop over the groups. *)
Lemma eval_groups_ok d masks vals : forall gs out k, length gs = length out ->
  (forall j reg obl, nth_error gs j = Some (reg, obl) -> exists a b la lb,
    sum_range V vo (leaf_value V d masks (regular_leaf (d_width V d))) reg = Some a /\ sum_range V vo (leaf_value V d masks (fun m => Some (N.to_nat m))) obl = Some b /\
    sum_of vo la a /\ sum_of vo lb b /\ Permutation (la ++ lb) (vals (k + j))) ->
  exists out', eval_groups V vo d masks gs out = Some out' /\ length out' = length out /\
    forall j x, nth_error out j = Some x -> exists y, nth_error out' j = Some y /\ sum_of vo (x :: vals (k + j)) y.
Proof.
  induction gs as [|[reg obl] r IH]; intros [|x out] k Ln H; try discriminate.
  - exists []. split; [reflexivity|]. split; [reflexivity|]. intros [|j] y Y; discriminate.
  - cbn [eval_groups]. destruct (H 0 reg obl eq_refl) as (a & b & la & lb & E1 & E2 & A & B & P). rewrite E1. cbn [bind]. rewrite E2. cbn [bind].
    destruct (IH out (S k)) as (out' & E & Lo & Hj); [cbn in Ln; lia|intros j r1 r2 J; rewrite Nat.add_succ_comm; apply (H (S j)); exact J|]. rewrite E. cbn [bind].
    eexists. split; [reflexivity|]. split; [cbn; lia|]. intros [|j] y Y.
    + cbn in Y. injection Y as <-. eexists. split; [reflexivity|]. apply sum_rnd. apply (sum_perm vo ([x] ++ la ++ lb)); [cbn; constructor; exact P|]. apply sum_add; [apply sum_one|]. apply sum_add; assumption.
    + rewrite <- Nat.add_succ_comm. apply Hj. exact Y.
Qed.
Lemma empty_inv w : binv V ot w [] {| b_offsets := []; b_adjs := []; b_data := {| by_interval := []; by_set := [] |} |}.
Proof.
  split; [reflexivity|]. split; [intros [|k] x X; discriminate|]. split; [intros i s []|]. split; [split; intros i s []|].
  intros fr t k. cbn [b_data]. unfold splits_of. replace (nth_error (@nil (item V)) t) with (@None (item V)) by (destruct t; reflexivity). cbn [mask_of fold_right]. rewrite tb_0. split; [intros [(i & s & [] & _)|(i & s & [] & _)]|discriminate].
Qed.
Lemma calls_eval cs n fuel fr out : cs <> [] -> (forall c, In c cs -> bc_ok vo ceq c /\ height (bc_dtree c) <= fuel) -> length out = n ->
  exists bb d out', run_calls vo fuel cs = Done bb /\ build V lib n bb = Some (Some d) /\ incremental_eval V vo lib d fr out = Some out' /\ length out' = n /\
    forall g x, nth_error out g = Some x -> exists y, nth_error out' g = Some y /\ sum_of vo (x :: map (fun c => or0 V vo (bc_value vo ot fr c)) (cgroup g cs)) y.
Proof.
  intros Ne H Lo. destruct (run_ok fuel cs) with (b := new_bbuilder V) as (ms & os & E & R); [exact H|].
  set (w := if existsb (fun c => 32 <? cwidth c) cs then 64 else 32).
  assert (W : forall c, In c cs -> cwidth c <= w).
  { intros c C. unfold w. destruct (existsb _ cs) eqn:X.
    - destruct (H c C) as ((_ & _ & _ & K) & _). destruct c; cbn [cwidth] in *; [destruct K; assumption|destruct K; assumption].
    - apply Nat.nlt_ge. intros G. apply Nat.ltb_lt in G. assert (Y : existsb (fun c => 32 <? cwidth c) cs = true) by (apply existsb_exists; exists c; auto). congruence. }
  assert (W32 : 32 <= w) by (unfold w; destruct (existsb _ cs); lia).
  assert (Cs : forall c, In c cs -> bc_ok vo ceq c /\ cwidth c <= w) by (intros c C; split; [apply H, C|apply W, C]).
  destruct (repr_ok w cs ms os R Cs W32 fr) as (A & B & C & _ & Z).
  destruct (sort_groups (m_sub V) ms) as [Pm Gm]. destruct (sort_groups (ot_sub V) os) as [Po Go].
  set (ms' := l_sort lib _ (by_group (m_sub V)) ms) in *. set (os' := l_sort lib _ (by_group (ot_sub V)) os) in *.
  destruct (build_groups_ok V ot w n 0 ms' os' [] _ [] (empty_inv w) Gm Go) as (gl & more & b & Eb & Bi & Lg & Sg).
  { intros x X. split; [lia|]. apply A. eapply Permutation_in; eassumption. }
  { intros x X. split; [lia|]. apply B. eapply Permutation_in; eassumption. }
  cbn [app] in *. set (d := {| d_offsets := b_offsets V b; d_groups := gl; d_adj := b_adjs V b; d_splits := finish lib (b_data V b); d_width := w |}).
  destruct (masks_ok V lib L ot w more b Bi fr d eq_refl eq_refl) as (masks & Em & Mk).
  destruct (eval_groups_ok d masks (fun g => map (fun c => or0 V vo (bc_value vo ot fr c)) (cgroup g cs)) gl out 0) as (out' & Ee & Lo' & He); [congruence| |].
  { intros j reg obl J. assert (Jn : j < n) by (rewrite <- Lg; apply nth_error_Some; congruence). destruct (Sg j Jn) as (lo & mid & hi & N & S1 & S2). rewrite N in J. injection J as <- <-. cbn [Nat.add] in *.
    destruct (seg_sum V vo ot w more b d fr masks (regular_leaf w) lo mid _ Bi eq_refl eq_refl Mk S1) as (s1 & X1 & Y1).
    { intros x X. apply in_map_iff in X. destruct X as (y & <- & Y). apply filter_In in Y. apply A. eapply Permutation_in; [exact Pm|apply Y]. }
    destruct (seg_sum V vo ot w more b d fr masks (fun m => Some (N.to_nat m)) mid hi _ Bi eq_refl eq_refl Mk S2) as (s2 & X2 & Y2).
    { intros x X. apply in_map_iff in X. destruct X as (y & <- & Y). apply filter_In in Y. apply B. eapply Permutation_in; [exact Po|apply Y]. }
    exists s1, s2. do 2 eexists. split; [exact X1|]. split; [exact X2|]. split; [exact Y1|]. split; [exact Y2|]. rewrite <- C, !map_map. apply Permutation_app; apply Permutation_map; apply filter_perm; assumption. }
  do 2 eexists. exists out'. split; [exact E|]. split.
  - unfold build. cbn [new_bbuilder bb_masked bb_oblivious bb_wide app orb]. assert (F : negb (nonempty ms) && negb (nonempty os) = false). { destruct ms; [|reflexivity]. destruct os; [|reflexivity]. exfalso. apply Ne. apply Z; reflexivity. }
    rewrite F. fold ms' os' w. rewrite Eb. cbn [bind fst snd]. reflexivity.
  - split; [unfold incremental_eval; fold d; rewrite Em; cbn [bind]; exact Ee|]. split; [congruence|]. intros g x X. destruct (He g x X) as (y & Y1 & Y2). exists y. auto.
Qed.
End eval.
