(** The evaluator built from the state after the loop, and its evaluation. *)
From Coq Require Import Permutation.
From Verif Require Import Base Forest_Model Forest_Spec Forest_Proofs Forest_Props ForestPt_Model ForestPt_Spec ForestPt_Proofs FullAcc_Spec
  ForestBm_Model ForestBm_Spec ForestBm_Proofs ForestBm_Build ForestBm_Trees ForestBm_Eval ForestSi_Model ForestSi_Spec ForestSi_Build ForestEv_Model ForestEv_Spec ForestEv_Proofs ForestEv_Reg ForestEv_Loop.

Lemma has_value_fun {V} (vo : vops V) ot fr (t : tree V) v v' : has_value vo ot fr t v -> has_value vo ot fr t v' -> v = v'.
Proof. intros (d & A & B) (d' & A' & B'). rewrite (is_tree_uniq t d' d A' A) in B'. congruence. Qed.

Section assemble.
Context {V : Type} (vo : vops V) (one : V) (U : unit_weight vo one) (lib : library) (L : lib_ok lib) (ceq : cond -> cond -> bool) (Q : ceq_ok ceq) (ot : others).
Variable p : params.
Variable n : nat.
Variable fuel : nat.
Hypothesis F0 : 0 < fuel.

(** ** The trees of the merged constants. *)
Definition ctrees_of (g : nat) (m : list (Z * V)) : list (nat * tree V) := map (fun e => (g, const_tree V vo one (fst e) (snd e))) m.
Fixpoint ctrees (g : nat) (ms : list (list (Z * V))) : list (nat * tree V) := match ms with [] => [] | m :: r => ctrees_of g m ++ ctrees (S g) r end.
Lemma const_shape s v : (0 <= s)%Z -> shape_ok (const_tree V vo one s v) /\ proper (const_tree V vo one s v).
Proof.
  intros H. split; [|split; cbn; [constructor|tauto]]. split; [exact H|]. split; [cbn; lia|]. split; [reflexivity|]. intros nd [].
Qed.
Lemma add_consts_of_ok g m : forall rs regs, regs_ok vo rs regs -> g < length rs -> (forall e, In e m -> (0 <= fst e)%Z) ->
  exists rs', add_consts_of V vo one g m rs = ROk rs' /\ length rs' = length rs /\ regs_ok vo rs' (regs ++ ctrees_of g m).
Proof.
  induction m as [|[s v] m IH]; intros rs regs K G H; cbn [add_consts_of].
  - exists rs. split; [reflexivity|]. split; [reflexivity|]. cbn. rewrite app_nil_r. exact K.
  - destruct (const_shape s v (H (s, v) (or_introl eq_refl))) as [Sh Pr]. destruct (regular_fuel vo _ Sh Pr) as (b & ct & Eb & _).
    destruct (regs_add vo rs regs _ g b K G Eb) as (rs1 & E1 & L1 & K1). rewrite E1. cbn [rbind].
    destruct (IH rs1 _ K1 ltac:(lia)) as (rs2 & E2 & L2 & K2); [intros e I; apply H; right; exact I|]. exists rs2. split; [exact E2|]. split; [lia|]. rewrite <- app_assoc in K2. exact K2.
Qed.
Lemma add_consts_ok ms : forall g rs regs, regs_ok vo rs regs -> g + length ms <= length rs -> (forall m e, In m ms -> In e m -> (0 <= fst e)%Z) ->
  exists rs', add_consts V vo one g ms rs = ROk rs' /\ length rs' = length rs /\ regs_ok vo rs' (regs ++ ctrees g ms).
Proof.
  induction ms as [|m ms IH]; intros g rs regs K G H; cbn [add_consts ctrees length] in *.
  - exists rs. split; [reflexivity|]. split; [reflexivity|]. rewrite app_nil_r. exact K.
  - destruct (add_consts_of_ok g m rs regs K ltac:(lia)) as (rs1 & E1 & L1 & K1); [intros e I; exact (H m e (or_introl eq_refl) I)|]. rewrite E1. cbn [rbind].
    destruct (IH (S g) rs1 _ K1 ltac:(lia)) as (rs2 & E2 & L2 & K2); [intros m' e I; apply H; right; exact I|]. exists rs2. split; [exact E2|]. split; [lia|]. rewrite <- app_assoc in K2. exact K2.
Qed.
Lemma ctrees_ge ms : forall g h t, In (h, t) (ctrees g ms) -> g <= h.
Proof.
  induction ms as [|m ms IH]; intros g h t; cbn [ctrees]; [intros []|]. intros I. apply in_app_iff in I. destruct I as [I|I].
  - apply in_map_iff in I. destruct I as (e & [= <- _] & _). lia.
  - apply IH in I. lia.
Qed.
Lemma gsel_none {A} g (l : list (nat * A)) : (forall h x, In (h, x) l -> h <> g) -> gsel g l = [].
Proof.
  intros H. destruct (gsel g l) as [|x r] eqn:E; [reflexivity|]. assert (I : In x (gsel g l)) by (rewrite E; left; reflexivity). apply gsel_In in I. exfalso. exact (H g x I eq_refl).
Qed.
Lemma gsel_ctrees_of g m : gsel g (ctrees_of g m) = map (fun e => const_tree V vo one (fst e) (snd e)) m.
Proof. unfold ctrees_of. rewrite (gsel_map g (fun _ : Z * V => g) (fun e => const_tree V vo one (fst e) (snd e)) m). f_equal. rewrite Nat.eqb_refl. induction m; [reflexivity|]. cbn. f_equal. assumption. Qed.
Lemma gsel_ctrees ms : forall g h m, nth_error ms h = Some m -> gsel (g + h) (ctrees g ms) = map (fun e => const_tree V vo one (fst e) (snd e)) m.
Proof.
  induction ms as [|m0 ms IH]; intros g h m E; [destruct h; discriminate|]. cbn [ctrees]. rewrite gsel_app. destruct h as [|h]; cbn [nth_error] in E.
  - injection E as ->. rewrite Nat.add_0_r, gsel_ctrees_of. rewrite (gsel_none g (ctrees (S g) ms)); [apply app_nil_r|]. intros h x I. apply ctrees_ge in I. lia.
  - rewrite gsel_none; [|intros k x I; apply in_map_iff in I; destruct I as (e & [= <- _] & _); lia]. cbn [app]. rewrite <- (IH (S g) h m E). f_equal. lia.
Qed.
Lemma ctrees_In ms : forall g h t, In (h, t) (ctrees g ms) -> exists m e, In m ms /\ In e m /\ t = const_tree V vo one (fst e) (snd e).
Proof.
  induction ms as [|m ms IH]; intros g h t I; cbn [ctrees] in I; [destruct I|]. apply in_app_iff in I. destruct I as [I|I].
  - apply in_map_iff in I. destruct I as (e & [= _ <-] & I). exists m, e. split; [left; reflexivity|auto].
  - destruct (IH _ _ _ I) as (m' & e & A & B & C). exists m', e. split; [right; exact A|auto].
Qed.
Lemma const_value' s v fr : has_value vo ot fr (const_tree V vo one s v) (vrnd vo v).
Proof. rewrite <- (U v) at 1. exact (const_value vo ot (const_tree V vo one s v) (vrnd vo v) fr eq_refl eq_refl). Qed.
Lemma consts_sum g cs m fr ws : consts_ok vo g cs m -> (forall c, In c cs -> has_value vo ot fr (fst (snd c)) (snd (snd c))) ->
  Forall2 (has_value vo ot fr) (map (fun e => const_tree V vo one (fst e) (snd e)) m) ws ->
  exists vs, Forall2 (has_value vo ot fr) (gsel g (map (fun c => (fst c, fst (snd c))) cs)) vs /\ exists parts, Forall2 (sum_of vo) parts ws /\ Permutation (concat parts) vs.
Proof.
  intros [_ (parts & F & P)] H W. exists (map snd (gsel g cs)). split.
  - rewrite (gsel_map g fst (fun c => fst (snd c)) cs). unfold gsel. rewrite map_map. clear - H. induction cs as [|c cs IH]; cbn [filter]; [constructor|].
    assert (IH' := IH (fun c' I => H c' (or_intror I))). destruct (fst c =? g); [|exact IH']. cbn [map]. constructor; [apply H; left; reflexivity|exact IH'].
  - exists parts. split; [|exact P]. assert (E : ws = map (fun e => vrnd vo (snd e)) m).
    { clear - W U. revert ws W. induction m as [|e m IH]; intros ws W; inversion W; subst; [reflexivity|]. cbn. f_equal; [|apply IH; assumption].
      match goal with X : has_value _ _ _ _ ?y |- ?y = _ => exact (has_value_fun vo ot fr _ _ _ X (const_value' _ _ fr)) end. }
    subst ws. clear - F. induction F; cbn [map]; constructor; [apply sum_rnd; assumption|assumption].
Qed.

(** ** Single input evaluation of no trees. *)
Lemma l_iter_nil A : l_iter lib A [] = [].
Proof. pose proof (lib_iter _ L A []) as P. apply Permutation_sym, Permutation_nil in P. exact P. Qed.
Lemma si_none internal slots k : si_build V lib ot internal slots (si_new V k) = Some (Some (repeat ([], []) k)).
Proof.
  unfold si_new. induction k as [|k IH]; [reflexivity|]. cbn [repeat si_build pg_f pg_i]. rewrite !l_iter_nil. cbn [build_vector sbind]. rewrite IH. reflexivity.
Qed.
Lemma si_eval_none fr : forall out, si_eval V vo lib (repeat ([], []) (length out)) fr out = Some (map (fun x => vrnd vo (vadd vo x (vzero vo))) out).
Proof. induction out as [|x out IH]; [reflexivity|]. cbn [length repeat si_eval map add_all bind]. rewrite IH. reflexivity. Qed.

(** ** All of Compile after the loop. *)
Definition si_correct (R : frame -> Prop) (sis : list (scall V)) (si : sieval V) : Prop :=
  forall fr out, R fr -> length out = n ->
  exists out', si_eval V vo lib si fr out = Some out' /\ length out' = n /\
  forall g x, nth_error out g = Some x -> exists y vs, nth_error out' g = Some y /\
    Forall2 (has_value vo ot fr) (map sc_tree (filter (fun c => sc_group c =? g) sis)) vs /\ sum_of vo (x :: vs) y.
Lemma si_correct_nil R : si_correct R [] (repeat ([], []) n).
Proof.
  intros fr out _ Ln. rewrite <- Ln, si_eval_none. eexists. split; [reflexivity|]. split; [apply map_length|]. intros g x E. exists (vrnd vo (vadd vo x (vzero vo))), []. rewrite nth_error_map, E. split; [reflexivity|].
  split; [constructor|]. apply sum_rnd. apply (sum_add vo [x] []); [apply sum_one|apply sum_zero].
Qed.
Definition finish_compile (internal : list (tree V) -> list ity -> option (frame -> option V)) (slots : list ity) (st : cstate V) : result (evaluator V) :=
  rbind (add_consts V vo one 0 (st_consts V st) (st_reg V st)) (fun rs =>
  rbind (build_regular V rs) (fun reg =>
  rbind (or_err BitmaskStatus (build V lib n (st_bit V st))) (fun bit =>
  rbind (of_status SingleStatus (si_build V lib ot internal slots (st_single V st))) (fun si =>
  ROk {| ev_regular := reg; ev_bitmask := bit; ev_single := si |})))).
Lemma forall2_app_r {A B} (R : A -> B -> Prop) l1 l2 m : Forall2 R (l1 ++ l2) m -> exists m1 m2, m = m1 ++ m2 /\ Forall2 R l1 m1 /\ Forall2 R l2 m2.
Proof. intros H. apply Forall2_app_inv_l in H. destruct H as (m1 & m2 & A1 & A2 & E). exists m1, m2. auto. Qed.
Lemma finish_ok internal slots R l st cs sis bms regs si : linv vo ceq ot p n fuel l st cs sis bms regs ->
  si_build V lib ot internal slots (st_single V st) = Some (Some si) -> si_correct R sis si ->
  exists e, finish_compile internal slots st = ROk e /\ forall fr, R fr -> exists out, eval V vo lib ot fuel e fr = Done out /\ length out = n /\
  forall g y, nth_error out g = Some y -> exists vs, Forall2 (has_value vo ot fr) (gsel g l) vs /\ sum_of vo vs y.
Proof.
  intros [Pm Gd Cl Co Cv Sg Si Bt Bm Rl Rg Ft] Es Cs. unfold finish_compile.
  assert (Cn : forall m e, In m (st_consts V st) -> In e m -> (0 <= fst e)%Z).
  { intros m e I J. apply In_nth_error in I. destruct I as [g I]. exact (proj1 (Co g m I) e J). }
  destruct (add_consts_ok (st_consts V st) 0 (st_reg V st) regs Rg ltac:(lia) Cn) as (rs & Er & Lr & Kr). rewrite Er. cbn [rbind].
  destruct (build_regular_ok vo ot fuel rs _ Kr) as (reg & Eg & Pg); [|exact F0|].
  { intros g t I. apply in_app_iff in I. destruct I as [I|I].
    - destruct (Gd g t) as [_ (Sh & _ & (Pr & _) & d & It & Nd)]; [apply (Permutation_in _ (Permutation_sym Pm)); rewrite !in_app_iff; tauto|].
      split; [exact Sh|]. split; [exact Pr|]. exists d. split; [exact It|]. pose proof (height_nodes d). lia.
    - destruct (ctrees_In _ _ _ _ I) as (m & e & Im & Ie & ->). destruct (const_shape (fst e) (snd e) (Cn m e Im Ie)) as [Sh Pr]. split; [exact Sh|]. split; [exact Pr|].
      exists (DLeaf 0). split; [exact (unf_leaf [] (-1) ltac:(lia))|exact F0]. }
  rewrite Eg. cbn [rbind].
  assert (B : exists bit, build V lib n (st_bit V st) = Some bit /\ forall fr out, length out = n ->
    exists out', match bit with Some d => oopt (incremental_eval V vo lib d fr out) | None => Done out end = Done out' /\ length out' = n /\
    forall g x, nth_error out g = Some x -> exists y vs, nth_error out' g = Some y /\ Forall2 (has_value vo ot fr) (map bc_tree (filter (fun c => bc_group c =? g) bms)) vs /\ sum_of vo (x :: vs) y).
  { destruct bms as [|c0 bms'] eqn:Eb.
    - cbn in Bt. injection Bt as Bt. exists None. split; [rewrite <- Bt; reflexivity|]. intros fr out Lo. exists out. split; [reflexivity|]. split; [exact Lo|]. intros g x E. exists x, []. split; [exact E|]. split; [constructor|apply sum_one].
    - rewrite <- Eb in *. assert (Ne : bms <> []) by (rewrite Eb; discriminate).
      assert (T : forall fr out, length out = n -> exists d, build V lib n (st_bit V st) = Some (Some d) /\ exists out', incremental_eval V vo lib d fr out = Some out' /\ length out' = n /\
        forall g x, nth_error out g = Some x -> exists y vs, nth_error out' g = Some y /\ Forall2 (has_value vo ot fr) (map bc_tree (filter (fun c => bc_group c =? g) bms)) vs /\ sum_of vo (x :: vs) y).
      { intros fr out Lo. destruct (calls_eval V vo ceq Q ot lib L bms n fuel fr out Ne Bm Lo) as (bb & d & out' & R1 & R2 & R3 & R4 & R5).
        rewrite Bt in R1. injection R1 as <-. exists d. split; [exact R2|]. exists out'. split; [exact R3|]. split; [exact R4|]. intros g x E. destruct (R5 g x E) as (y & Ey & Sy). exists y. eexists. split; [exact Ey|]. split; [|exact Sy].
        unfold cgroup. clear - Bm Eb Gd Pm. assert (H : forall c, In c (filter (fun c => bc_group c =? g) bms) -> bc_ok vo ceq c) by (intros c I; apply filter_In in I; apply Bm; apply I).
        induction (filter (fun c => bc_group c =? g) bms) as [|c r IH]; cbn [map]; constructor; [|apply IH; intros; apply H; right; assumption].
        destruct (H c (or_introl eq_refl)) as (It & Lv & _). exists (bc_dtree c). split; [exact It|]. unfold bc_value, tree_value.
        assert (X : deval ot fr (bc_dtree c) < length (t_adj (bc_tree c))) by (apply Lv, deval_leaves). apply nth_error_Some in X. destruct (nth_error (t_adj (bc_tree c)) _); [reflexivity|congruence]. }
      destruct (T {| in_f32 := fun _ => None; in_i64 := fun _ => None |} (repeat (vzero vo) n) (repeat_length _ _)) as (d & Ed & _). exists (Some d). split; [exact Ed|].
      intros fr out Lo. destruct (T fr out Lo) as (d' & Ed' & out' & E & K). rewrite Ed in Ed'. injection Ed' as <-. exists out'. rewrite E. split; [reflexivity|exact K]. }
  destruct B as (bit & Eb & Kb). rewrite Eb. cbn [or_err rbind]. rewrite Es. cbn [of_status rbind]. eexists. split; [reflexivity|].
  intros fr Rf. unfold eval. cbn [ev_regular ev_bitmask ev_single].
  destruct (Pg fr) as (o0 & E0 & L0 & K0). rewrite E0. cbn [obind]. destruct (Kb fr o0 ltac:(lia)) as (o1 & E1 & L1 & K1). rewrite E1. cbn [obind].
  destruct (Cs fr o1 Rf L1) as (o2 & E2 & L2 & K2). rewrite E2. exists o2. split; [reflexivity|]. split; [exact L2|]. intros g y Ey.
  assert (Lg : g < n) by (rewrite <- L2; apply nth_error_Some; congruence).
  destruct (nth_error o1 g) as [x1|] eqn:X1; [|apply nth_error_None in X1; lia]. destruct (nth_error o0 g) as [x0|] eqn:X0; [|apply nth_error_None in X0; lia].
  destruct (K0 g x0 X0) as (v0 & F0' & S0). destruct (K1 g x0 X0) as (x1' & v1 & X1' & F1 & S1). rewrite X1 in X1'. injection X1' as <-.
  destruct (K2 g x1 X1) as (y' & v2 & Y' & F2 & S2). rewrite Ey in Y'. injection Y' as <-.
  rewrite gsel_app in F0'. apply forall2_app_r in F0'. destruct F0' as (vr & vc & -> & Fr & Fc).
  destruct (nth_error (st_consts V st) g) as [m|] eqn:Em; [|apply nth_error_None in Em; lia].
  rewrite (gsel_ctrees (st_consts V st) 0 g m Em : gsel g (ctrees 0 (st_consts V st)) = _) in Fc.
  destruct (consts_sum g cs m fr vc (Co g m Em) (fun c I => Cv c I fr) Fc) as (wc & Fw & parts & Fp & Pp).
  assert (Sr : sum_of vo (vr ++ wc) x0).
  { apply (sum_perm vo (vr ++ concat parts)); [apply Permutation_app_head; exact Pp|]. replace (vr ++ concat parts) with (concat (map (fun v => [v]) vr ++ parts)).
    - apply (sum_subst vo (vr ++ vc) x0 S0). apply Forall2_app; [|exact Fp]. clear. induction vr; constructor; [apply sum_one|assumption].
    - rewrite concat_app. f_equal. clear. induction vr; cbn; [reflexivity|]. f_equal. assumption. }
  pose proof (sum_cons vo _ _ _ _ (sum_cons vo _ _ _ _ Sr S1) S2) as Sy.
  assert (Fall : Forall2 (has_value vo ot fr) (gsel g regs ++ gsel g (map (fun c => (fst c, fst (snd c))) cs) ++ gsel g (map (fun c => (bc_group c, bc_tree c)) bms) ++ gsel g (map (fun c => (sc_group c, sc_tree c)) sis)) (vr ++ wc ++ v1 ++ v2)).
  { apply Forall2_app; [exact Fr|]. apply Forall2_app; [exact Fw|]. rewrite !gsel_map. apply Forall2_app; assumption. }
  assert (Pl : Permutation (gsel g regs ++ gsel g (map (fun c => (fst c, fst (snd c))) cs) ++ gsel g (map (fun c => (bc_group c, bc_tree c)) bms) ++ gsel g (map (fun c => (sc_group c, sc_tree c)) sis)) (gsel g l)).
  { rewrite (gsel_perm g _ _ Pm). rewrite !gsel_app. set (a := gsel g regs). set (b := gsel g (map (fun c => (fst c, fst (snd c))) cs)). set (c := gsel g (map _ bms)). set (d := gsel g (map _ sis)).
    rewrite Permutation_app_comm. rewrite <- !app_assoc. apply Permutation_app_head. rewrite app_assoc. rewrite (Permutation_app_comm c d). rewrite <- app_assoc. reflexivity. }
  destruct (forall2_perm (has_value vo ot fr) _ _ Pl _ Fall) as (vs & Fv & Pv). exists vs. split; [exact Fv|]. apply (sum_perm vo (vr ++ wc ++ v1 ++ v2)); [exact Pv|].
  rewrite <- !app_assoc in Sy. exact Sy.
Qed.
End assemble.
