(** The loop over the trees of the forest evaluator. *)
From Coq Require Import Permutation.
From Verif Require Import Base Forest_Model Forest_Spec Forest_Proofs Forest_Props ForestPt_Model ForestPt_Spec ForestPt_Proofs FullAcc_Spec
  ForestBm_Model ForestBm_Spec ForestBm_Proofs ForestBm_Trees ForestBm_Eval ForestSi_Model ForestSi_Spec ForestSi_Build ForestEv_Model ForestEv_Spec ForestEv_Proofs ForestEv_Reg.

Lemma height_nodes d : height d < nodes d.
Proof. induction d as [i|c f IHf t IHt]; cbn; lia. Qed.
Lemma fin_refl v vs : In v vs -> forall x : Z, x = v -> zin x vs = true.
Proof. intros I x ->. apply existsb_exists. exists v. split; [exact I|apply Z.eqb_refl]. Qed.
Lemma feq_refl x : x <> S754_nan -> feq x x = true.
Proof.
  intros N. unfold feq, SFeqb, SFcompare. destruct x as [s|s| |s m e]; [reflexivity|destruct s; reflexivity|congruence|].
  destruct s; rewrite Z.compare_refl; unfold Pos.compare; rewrite Pos.compare_cont_refl; reflexivity.
Qed.
Lemma cequals_refl c : supported c = true -> cond_ok c -> cequals c c = true.
Proof.
  destruct c as [i l r|i vs m|i vs m|k]; cbn [supported]; try discriminate; intros _ H; cbn [cequals].
  - destruct H as [A B]. rewrite Nat.eqb_refl, (feq_refl l A), (feq_refl r B). reflexivity.
  - rewrite !Nat.eqb_refl, Bool.eqb_reflx. cbn [andb]. rewrite andb_true_r. apply forallb_forall. intros v I. exact (fin_refl v vs I v eq_refl).
Qed.

Lemma is_tree_uniq {V} (t : tree V) d d' : is_tree t d -> is_tree t d' -> d = d'.
Proof.
  intros A B. apply (proj1 (root_is_tree t d)) in A. apply (proj1 (root_is_tree t d')) in B. set (r := root t) in *. clearbody r. revert d' B.
  induction A as [id L|k nd f e E U1 IH1 U2 IH2]; intros d' U'; inversion U'; subst; try lia; [reflexivity|].
  match goal with H : Z.of_nat _ = Z.of_nat _ |- _ => apply Nat2Z.inj in H; subst end.
  match goal with H : nth_error _ _ = Some ?m, E : nth_error _ _ = Some ?m' |- _ => assert (m = m') by congruence; subst m end. f_equal; auto.
Qed.

Section loop.
Context {V : Type} (vo : vops V) (one : V) (lib : library) (ceq : cond -> cond -> bool) (ot : others).
Hypothesis Q : ceq_ok ceq.
Variable p : params.
Variable n : nat.
Variable fuel : nat.

(** ** Single inputs. *)
Definition typed (t : tree V) : Prop := exists ty : nat -> ity, forall nd i k, In nd (t_nodes t) -> In (i, k) (csig ot (n_cond nd)) -> ty i = k.
Lemma single_sig_some ns : forall acc s, single_sig ot ns acc = Some s ->
  (forall nd, In nd ns -> exists k, csig ot (n_cond nd) = [(fst s, k)]) /\ (forall a, acc = Some a -> fst a = fst s) /\ (acc = None -> ns <> []) /\
  (ns = [] \/ exists nd, In nd ns /\ csig ot (n_cond nd) = [s]).
Proof.
  induction ns as [|x ns IH]; intros acc s H; cbn [single_sig] in H.
  - subst acc. split; [intros nd []|]. split; [intros a [= ->]; reflexivity|]. split; [discriminate|left; reflexivity].
  - destruct (csig ot (n_cond x)) as [|[i k] [|? ?]] eqn:C; try discriminate.
    assert (H' : single_sig ot ns (Some (i, k)) = Some s /\ forall a, acc = Some a -> fst a = i).
    { destruct acc as [a|]; [|split; [exact H|discriminate]]. cbn [fst] in H. destruct (Nat.eqb_spec (fst a) i); [|discriminate]. split; [exact H|]. intros b [= <-]. assumption. }
    destruct H' as [H1 H2]. destruct (IH _ _ H1) as (A & B & _ & D). pose proof (B _ eq_refl) as Bi. cbn in Bi.
    split; [intros nd [<-|I]; [exists k; rewrite C, Bi; reflexivity|apply A; exact I]|]. split; [intros a E; rewrite (H2 a E); exact Bi|]. split; [intros _ X; discriminate|].
    right. destruct D as [->|(nd & I & E)].
    + cbn in H1. injection H1 as <-. exists x. split; [left; reflexivity|exact C].
    + exists nd. split; [right; exact I|exact E].
Qed.
Lemma single_sig_complete ns i ty : forall acc, (forall nd, In nd ns -> csig ot (n_cond nd) = [(i, ty)]) -> (acc = None \/ exists k, acc = Some (i, k)) ->
  single_sig ot ns acc = match ns with [] => acc | _ => Some (i, ty) end.
Proof.
  induction ns as [|x ns IH]; intros acc H A; [reflexivity|]. cbn [single_sig]. rewrite (H x (or_introl eq_refl)). cbn [fst].
  assert (R : single_sig ot ns (Some (i, ty)) = Some (i, ty)).
  { rewrite IH; [destruct ns; reflexivity|intros nd I; apply H; right; exact I|right; eauto]. }
  destruct A as [->|[k ->]]; [exact R|]. cbn [fst]. rewrite Nat.eqb_refl. exact R.
Qed.
Lemma single_of_some t s : typed t -> single_of V ot p t = Some s -> p_single p = true /\ takes_single ot t (fst s) (snd s).
Proof.
  intros [ty T] H. unfold single_of in H. destruct (p_single p); [|discriminate]. destruct (single_sig ot (t_nodes t) None) as [s'|] eqn:E; [|discriminate].
  destruct (si_type (snd s')) eqn:K; [|discriminate]. injection H as ->. split; [reflexivity|]. destruct (single_sig_some _ _ _ E) as (A & _ & N & D). specialize (N eq_refl).
  split; [exact N|]. split; [|destruct (snd s); cbn in K; [left|right|discriminate]; reflexivity].
  destruct D as [D|(nd & I & C)]; [contradiction|]. intros x X. destruct (A x X) as [k Ck]. rewrite Ck. destruct s as [i k']. cbn [fst snd] in *.
  rewrite <- (T x i k X) by (rewrite Ck; left; reflexivity). rewrite (T nd i k' I) by (rewrite C; left; reflexivity). reflexivity.
Qed.
Lemma single_of_none t : single_of V ot p t = None -> ~ (p_single p = true /\ exists i ty, takes_single ot t i ty).
Proof.
  intros H [Ps (i & ty & Ne & Si & Ty)]. unfold single_of in H. rewrite Ps in H. rewrite (single_sig_complete (t_nodes t) i ty None Si (or_introl eq_refl)) in H.
  destruct (t_nodes t); [congruence|]. cbn [snd] in H. destruct Ty as [->| ->]; discriminate.
Qed.

(** ** The layers of an oblivious tree are the conditions of its leftmost path. *)
Lemma otrav_left t depth d : forall layers adj l' a', otrav V vo ceq t depth d (length layers) (layers, adj) = Some (l', a') -> length layers <= depth -> l' = layers ++ leftmost d.
Proof.
  induction d as [i|c f IHf t2 IHt]; intros layers adj l' a' H C; cbn [otrav fst snd leftmost] in *.
  - destruct (length layers =? depth); [|discriminate]. destruct (nth_error (t_adj t) i); [|discriminate]. cbn in H. injection H as <- _. symmetry. apply app_nil_r.
  - destruct (olayer ceq depth (length layers) c layers) as [l|] eqn:El; [|discriminate]. cbn [bind] in H. destruct (otrav V vo ceq t depth f (S (length layers)) (l, adj)) as [[l1 a1]|] eqn:Ef; [|discriminate]. cbn [bind] in H.
    unfold olayer in El. destruct (Nat.leb_spec depth (length layers)); [discriminate|]. rewrite Nat.eqb_refl in El. injection El as <-.
    assert (Ln : length (layers ++ [c]) = S (length layers)) by (rewrite app_length; cbn; lia).
    destruct (otrav_sound V vo ceq t depth f _ _ _ _ _ Ef ltac:(lia)) as (F1 & _). rewrite <- Ln in Ef. apply IHf in Ef; [|lia].
    destruct (otrav_sound V vo ceq t depth t2 _ _ _ _ _ H ltac:(lia)) as (T1 & (e & T2 & _) & _). assert (e = []) by (subst l'; rewrite app_length in T1; destruct e; [reflexivity|cbn in T1; lia]). subst e l' l1.
    rewrite app_nil_r, <- app_assoc. reflexivity.
Qed.
Lemma to_oblivious_left t d o : is_tree t d -> leaves_ok V t d -> nodes d <= fuel -> to_oblivious V vo ceq fuel t = Done (Some o) -> ot_layers V o = leftmost d.
Proof.
  intros It Lv Fu H. destruct (to_oblivious_sound V vo ceq fuel t d o It Lv H) as (_ & _ & _ & E & K & _).
  rewrite (to_oblivious_unfold V vo ceq fuel t d It Lv Fu _ E K) in H. destruct (otrav V vo ceq t _ d 0 ([], [])) as [[l a]|] eqn:O; [|discriminate]. injection H as H. rewrite <- H at 1. cbn [ot_layers fst].
  exact (otrav_left t _ d [] [] l a O ltac:(cbn; lia)).
Qed.

(** ** The invariant. *)
Definition good (t : tree V) : Prop := shape_ok t /\ typed t /\ tree_fine p ot t /\ exists d, is_tree t d /\ nodes d < fuel.
Definition consts_ok (g : nat) (cs : list (nat * (tree V * V))) (m : list (Z * V)) : Prop :=
  (forall e, In e m -> (0 <= fst e)%Z) /\
  exists parts, Forall2 (fun part e => sum_of vo part (snd e)) parts m /\ Permutation (concat parts) (map snd (gsel g cs)).
Record linv (l : list (nat * tree V)) (st : cstate V) (cs : list (nat * (tree V * V))) (sis : list (scall V)) (bms : list (bcall V)) (regs : list (nat * tree V)) : Prop := {
  li_perm : Permutation l (map (fun c => (fst c, fst (snd c))) cs ++ map (fun c => (sc_group c, sc_tree c)) sis ++ map (fun c => (bc_group c, bc_tree c)) bms ++ regs);
  li_good : forall g t, In (g, t) l -> g < n /\ good t;
  li_clen : length (st_consts V st) = n;
  li_consts : forall g m, nth_error (st_consts V st) g = Some m -> consts_ok g cs m;
  li_cval : forall c, In c cs -> forall fr, has_value vo ot fr (fst (snd c)) (snd (snd c));
  li_single : si_calls n sis = Some (st_single V st);
  li_sis : forall c, In c sis -> p_single p = true /\ takes_single ot (sc_tree c) (sc_input c) (sc_type c);
  li_bit : run_calls vo fuel bms = Done (st_bit V st);
  li_bms : forall c, In c bms -> bc_ok vo ceq c /\ height (bc_dtree c) <= fuel;
  li_rlen : length (st_reg V st) = n;
  li_regs : regs_ok vo (st_reg V st) regs;
  li_fits : p_regular p = false -> forall g t, In (g, t) l -> fits p ceq ot t }.

Lemma add_const_ok g cs m t v : consts_ok g cs m -> (0 <= t_sub t)%Z -> consts_ok g (cs ++ [(g, (t, v))]) (add_const V vo (t_sub t) v m).
Proof.
  intros [Nn (parts & F & P)] S0. split.
  - clear - Nn S0. induction m as [|[s x] m IH]; cbn [add_const].
    + intros e [<-|[]]. exact S0.
    + assert (IH' := IH (fun e I => Nn e (or_intror I))). pose proof (Nn (s, x) (or_introl eq_refl)) as Ns. cbn in Ns.
      destruct (t_sub t =? s)%Z; [intros e [<-|I]; [exact Ns|exact (Nn e (or_intror I))]|]. destruct (t_sub t <? s)%Z; [intros e [<-|I]; [exact S0|exact (Nn e I)]|].
      intros e [<-|I]; [exact Ns|exact (IH' e I)].
  - assert (G : exists parts', Forall2 (fun part e => sum_of vo part (snd e)) parts' (add_const V vo (t_sub t) v m) /\ Permutation (concat parts') (concat parts ++ [v])).
    { clear P. induction F as [|part [s x] parts m Sx F IH]; cbn [add_const].
      - exists [[v]]. split; [|reflexivity]. repeat constructor. cbn. apply (sum_add vo [] [v]); [constructor|apply sum_one].
      - destruct (t_sub t =? s)%Z.
        + exists ((part ++ [v]) :: parts). split; [constructor; [cbn in *; apply sum_add; [exact Sx|apply sum_one]|exact F]|]. cbn [concat]. rewrite <- !app_assoc. apply Permutation_app_head, Permutation_app_comm.
        + destruct (t_sub t <? s)%Z.
          * exists ([v] :: part :: parts). split; [constructor; [cbn; apply (sum_add vo [] [v]); [constructor|apply sum_one]|constructor; assumption]|]. cbn. apply Permutation_cons_append.
          * destruct IH as (ps & Fp & Pp); [intros e I; apply Nn; right; exact I|]. exists (part :: ps). split; [constructor; assumption|]. cbn [concat]. rewrite <- app_assoc. apply Permutation_app_head. exact Pp. }
    destruct G as (ps & Fp & Pp). exists ps. split; [exact Fp|]. rewrite gsel_app, map_app. unfold gsel at 2. cbn. rewrite Nat.eqb_refl. cbn. rewrite Pp. apply Permutation_app_tail. exact P.
Qed.
Lemma consts_skip g h cs m x : g <> h -> consts_ok g cs m -> consts_ok g (cs ++ [(h, x)]) m.
Proof.
  intros Ne [Nn (parts & F & P)]. split; [exact Nn|]. exists parts. split; [exact F|]. rewrite gsel_app. unfold gsel at 2. cbn. destruct (Nat.eqb_spec h g) as [->|]; [congruence|]. cbn. rewrite app_nil_r. exact P.
Qed.
Lemma leaves_in (t : tree V) d : shape_ok t -> is_tree t d -> forall i, In i (leaves d) -> i < length (t_adj t).
Proof. intros Sh It. apply (proj1 (root_is_tree t d)) in It. exact (unfolds_leaves t _ d Sh It (root_ok t Sh)). Qed.
Lemma run_snoc bms c b : run_calls vo fuel bms = Done b -> (forall x, In x (bms ++ [c]) -> bc_ok vo ceq x /\ height (bc_dtree x) <= fuel) ->
  exists b', run_call vo fuel (Done b) c = Done b' /\ run_calls vo fuel (bms ++ [c]) = Done b'.
Proof.
  intros E H. destruct (run_ok V vo ceq fuel (bms ++ [c]) H (new_bbuilder V)) as (ms & os & R & _). unfold run_calls in *. rewrite fold_left_app, E in R. cbn [fold_left] in R.
  eexists. split; [exact R|]. rewrite fold_left_app, E. exact R.
Qed.
Lemma try_bitmask_ok bms b t g : good t -> run_calls vo fuel bms = Done b -> (forall c, In c bms -> bc_ok vo ceq c /\ height (bc_dtree c) <= fuel) ->
  (exists c b', try_bitmask V vo ceq fuel p b t g = ROk (Some b') /\ bc_group c = g /\ bc_tree c = t /\ run_calls vo fuel (bms ++ [c]) = Done b' /\ bc_ok vo ceq c /\ height (bc_dtree c) <= fuel /\
     fits p ceq ot t) \/
  (try_bitmask V vo ceq fuel p b t g = ROk None /\
   ((forall c d, cequals c d = true -> ceq c d = true) -> ~ (p_bitmask p = true /\ (forall nd, In nd (t_nodes t) -> supported (n_cond nd) = true) /\
   (length (t_adj t) <= 64 \/ exists d, is_tree t d /\ is_oblivious ceq (leftmost d) d /\ length (t_adj t) = 2 ^ length (leftmost d))))).
Proof.
  intros (Sh & _ & (Pr & Sz & Bm & _) & d & It & Nd) R H. unfold try_bitmask.
  destruct (p_bitmask p && forallb (fun nd => supported (n_cond nd)) (t_nodes t)) eqn:C.
  2: { right. split; [reflexivity|]. intros _ (A & B & _). rewrite A in C. cbn in C. rewrite (proj2 (forallb_forall _ _)) in C; [discriminate|exact B]. }
  apply andb_true_iff in C. destruct C as [Pb Su]. rewrite forallb_forall in Su. specialize (Bm Pb).
  pose proof (leaves_in t d Sh It) as Lv. pose proof (height_nodes d) as Hn.
  destruct (to_oblivious_total V vo ceq fuel t d It Lv ltac:(lia) Sz) as [r Er]. rewrite Er. cbn [of_outcome rbind].
  assert (Sm : length (t_adj t) <= 64 -> exists c b', rbind (of_outcome (add_small V vo fuel b t g)) (fun b' => ROk (Some b')) = ROk (Some b') /\ bc_group c = g /\ bc_tree c = t /\ run_calls vo fuel (bms ++ [c]) = Done b' /\ bc_ok vo ceq c /\ height (bc_dtree c) <= fuel).
  { intros Le. exists (Small g t d).
    assert (Ok : bc_ok vo ceq (Small g t d)).
    { split; [exact It|]. split; [exact Lv|]. split; [intros nd I; split; [apply Su; exact I|apply Bm; exact I]|]. split; [exact (proper_leaves t d Pr It)|exact Le]. }
    destruct (run_snoc bms (Small g t d) b R) as (b' & E & E').
    { intros x X. apply in_app_iff in X. destruct X as [X|[<-|[]]]; [apply H; exact X|]. split; [exact Ok|cbn; lia]. }
    exists b'. cbn [run_call obind] in E. rewrite E. split; [reflexivity|]. split; [reflexivity|]. split; [reflexivity|]. split; [exact E'|]. split; [exact Ok|]. cbn. lia. }
  destruct r as [o|].
  - destruct (to_oblivious_sound V vo ceq fuel t d o It Lv Er) as (_ & Ob & _ & Le & Lt & _).
    destruct (Nat.leb_spec (length (ot_layers V o)) 64); [|lia].
    left. exists (Oblivious g t d o).
    assert (Ok : bc_ok vo ceq (Oblivious g t d o)).
    { split; [exact It|]. split; [exact Lv|]. split; [intros nd I; split; [apply Su; exact I|apply Bm; exact I]|]. split; [lia|]. exists fuel. exact Er. }
    destruct (run_snoc bms (Oblivious g t d o) b R) as (b' & E & E').
    { intros x X. apply in_app_iff in X. destruct X as [X|[<-|[]]]; [apply H; exact X|]. split; [exact Ok|cbn; lia]. }
    exists b'. cbn [run_call obind] in E. injection E as <-. split; [reflexivity|]. split; [reflexivity|]. split; [reflexivity|]. split; [exact E'|]. split; [exact Ok|]. split; [cbn; lia|].
    right. split; [exact Pb|]. split; [exact Su|]. right. exists d. rewrite <- (to_oblivious_left t d o It Lv ltac:(lia) Er). auto.
  - destruct (Nat.leb_spec (length (t_adj t)) 64) as [Le|Gt].
    + left. destruct (Sm Le) as (c & b' & X & Y & Z & W & K & Hh). exists c, b'. assert (fits p ceq ot t) by (right; auto). tauto.
    + right. split; [reflexivity|]. intros Rf (_ & _ & [Le|(d' & It' & Ob & E)]); [lia|].
      pose proof (is_tree_uniq t d' d It' It). subst d'. assert (Lf : length (leftmost d) < 32).
      { rewrite E, Nat2N.inj_pow in Sz. change (N.of_nat 2) with 2%N in Sz. apply N.pow_lt_mono_r_iff in Sz; [lia|reflexivity]. }
      destruct (to_oblivious_complete V vo ceq fuel t d It Lv ltac:(lia)) as (o' & Eo' & _); [|exact Ob|exact E|exact Lf|congruence].
      intros c Ic. apply Rf. apply (proj1 (root_is_tree t d)) in It. destruct (unfolds_conds _ _ _ It c Ic) as (nd & I & <-). apply cequals_refl; [apply Su; exact I|apply Bm; exact I].
Qed.
(** ** One tree, and all trees. *)
Lemma const_value t a fr : t_nodes t = [] -> rd (t_adj t) 0 = Some a -> has_value vo ot fr t (vmul vo a (t_weight t)).
Proof.
  intros E A. exists (DLeaf 0). split.
  - unfold is_tree. rewrite E. exact (unf_leaf [] (-1) ltac:(lia)).
  - unfold tree_value. cbn [deval]. unfold rd in A. rewrite A. reflexivity.
Qed.
Lemma step_good l g t : (forall g' t', In (g', t') l -> g' < n /\ good t') -> g < n -> good t -> forall g' t', In (g', t') (l ++ [(g, t)]) -> g' < n /\ good t'.
Proof. intros H G T g' t' I. apply in_app_iff in I. destruct I as [I|[[= <- <-]|[]]]; auto. Qed.
Lemma add_tree_ok l st cs sis bms regs g t : linv l st cs sis bms regs -> g < n -> good t ->
  (exists st' cs' sis' bms' regs', add_tree V vo ceq ot fuel p st t g = ROk st' /\ linv (l ++ [(g, t)]) st' cs' sis' bms' regs') \/
  (add_tree V vo ceq ot fuel p st t g = RErr NoSuitable /\ p_regular p = false /\ ((forall c d, cequals c d = true -> ceq c d = true) -> ~ fits p ceq ot t)).
Proof.
  intros [Pm Gd Cl Co Cv Sg Si Bt Bm Rl Rg Ft] G T. pose proof (step_good l g t Gd G T) as Gd'. pose proof T as (Sh & Ty & (Pr & Sz & Fb & Fs) & d & It & Nd).
  unfold add_tree. destruct (p_regular p && match t_nodes t with [] => true | _ => false end) eqn:C.
  - left. apply andb_true_iff in C. destruct C as [Rp C]. assert (En : t_nodes t = []) by (destruct (t_nodes t); [reflexivity|discriminate]).
    destruct Sh as (S0 & _ & La & _). rewrite En in La. cbn in La. destruct (rd_lt (t_adj t) 0 ltac:(lia)) as [a A]. rewrite A. cbn [or_undef rbind].
    destruct (rd_lt (st_consts V st) g ltac:(lia)) as [m M]. rewrite M. cbn [or_undef rbind].
    destruct (upd_lt (st_consts V st) g (add_const V vo (t_sub t) (vmul vo a (t_weight t)) m) ltac:(lia)) as [cs' U]. rewrite U. cbn [or_undef rbind].
    destruct (upd_spec _ _ _ _ U) as (_ & L' & K). eexists _, (cs ++ [(g, (t, vmul vo a (t_weight t)))]), sis, bms, regs. split; [reflexivity|]. constructor; cbn [st_reg st_bit st_single st_consts]; try assumption.
    + rewrite map_app. cbn [map fst snd]. rewrite <- app_assoc. rewrite Pm. rewrite <- !app_assoc. apply Permutation_app_head. cbn [app]. symmetry. rewrite !app_assoc. apply Permutation_cons_append.
    + lia.
    + intros g' m' E. specialize (K g'). unfold rd in K. rewrite E in K. destruct (Nat.eqb_spec g' g) as [->|Ne].
      * injection K as ->. apply add_const_ok; [apply Co; exact M|exact S0].
      * apply consts_skip; [congruence|]. apply Co. symmetry. exact K.
    + intros c I fr. apply in_app_iff in I. destruct I as [I|[<-|[]]]; [apply Cv; exact I|]. cbn [fst snd]. apply const_value; assumption.
    + congruence.
  - destruct (single_of V ot p t) as [s|] eqn:S1.
    + left. destruct (single_of_some t s Ty S1) as [Ps Ts]. 
      assert (Hs : forall c, In c (sis ++ [Build_scall V g t (fst s) (snd s)]) -> sc_group c < n /\ (sc_type c = TF32 \/ sc_type c = TI64)).
      { intros c I. apply in_app_iff in I. destruct I as [I|[<-|[]]]; [|split; [exact G|apply Ts]]. split; [|apply (Si c I)].
        refine (proj1 (Gd (sc_group c) (sc_tree c) _)). apply (Permutation_in _ (Permutation_sym Pm)). apply in_app_iff. right. apply in_app_iff. left. apply in_map_iff. exists c. auto. }
      destruct (calls_builder n _ Hs) as (b & Eb & _). pose proof Eb as Eb'. unfold si_calls in Eb, Sg. rewrite fold_left_app, Sg in Eb. cbn [fold_left bind sc_tree sc_input sc_type sc_group] in Eb.
      rewrite <- surjective_pairing in Eb. cbn [bind] in Eb. rewrite Eb. cbn [or_err rbind]. eexists _, cs, (sis ++ [Build_scall V g t (fst s) (snd s)]), bms, regs. split; [reflexivity|]. constructor; cbn [st_reg st_bit st_single st_consts]; try assumption.
      * rewrite map_app. cbn [map sc_group sc_tree]. rewrite Pm. rewrite <- !app_assoc. apply Permutation_app_head, Permutation_app_head. cbn [app]. symmetry. rewrite !app_assoc. apply Permutation_cons_append.
      * intros c I. apply in_app_iff in I. destruct I as [I|[<-|[]]]; [apply Si; exact I|split; assumption].
      * intros Rp g' t' I. apply in_app_iff in I. destruct I as [I|[[= <- <-]|[]]]; [exact (Ft Rp g' t' I)|]. left. split; [exact Ps|]. eauto.
    + pose proof (single_of_none t S1) as Ns. destruct (try_bitmask_ok bms (st_bit V st) t g T Bt Bm) as [(c & b' & E & Eg & Et & R & Ok & Hh & Fb')|[E Un]]; rewrite E; cbn [rbind].
      * left. eexists _, cs, sis, (bms ++ [c]), regs. split; [reflexivity|]. constructor; cbn [st_reg st_bit st_single st_consts]; try assumption.
        -- rewrite map_app. cbn [map]. rewrite Eg, Et, Pm. rewrite <- !app_assoc. apply Permutation_app_head, Permutation_app_head, Permutation_app_head. symmetry. apply Permutation_cons_append.
        -- intros c' I. apply in_app_iff in I. destruct I as [I|[<-|[]]]; [apply Bm; exact I|split; assumption].
        -- intros Rp g' t' I. apply in_app_iff in I. destruct I as [I|[[= <- <-]|[]]]; [exact (Ft Rp g' t' I)|exact Fb'].
      * destruct (p_regular p) eqn:Rp.
        -- left. destruct (regular_fuel vo t Sh Pr) as (b & ct & Eb & _). destruct (regs_add vo (st_reg V st) regs t g b Rg ltac:(lia) Eb) as (rs' & Ea & La & Ra). rewrite Ea. cbn [rbind].
           eexists _, cs, sis, bms, (regs ++ [(g, t)]). split; [reflexivity|]. constructor; cbn [st_reg st_bit st_single st_consts]; try assumption.
           ++ rewrite Pm. rewrite <- !app_assoc. reflexivity.
           ++ lia.
           ++ congruence.
        -- right. split; [reflexivity|]. split; [reflexivity|]. intros Rf [F|F]; [exact (Ns F)|exact (Un Rf F)].
Qed.
Lemma add_trees_ok h ts : forall l st cs sis bms regs, linv l st cs sis bms regs -> (forall g t, In (g, t) (pairs h ts) -> g < n /\ good t) ->
  (exists st' cs' sis' bms' regs', add_trees V vo ceq ot fuel p ts (map h ts) st = ROk st' /\ linv (l ++ pairs h ts) st' cs' sis' bms' regs') \/
  (add_trees V vo ceq ot fuel p ts (map h ts) st = RErr NoSuitable /\ p_regular p = false /\ ((forall c d, cequals c d = true -> ceq c d = true) -> exists g t, In (g, t) (pairs h ts) /\ ~ fits p ceq ot t)).
Proof.
  induction ts as [|t ts IH]; intros l st cs sis bms regs I H; cbn [map add_trees].
  - left. exists st, cs, sis, bms, regs. split; [reflexivity|]. unfold pairs. cbn. rewrite app_nil_r. exact I.
  - unfold pairs in *. cbn [flat_map] in *. destruct (h t) as [g|].
    + destruct (H g t (or_introl eq_refl)) as [G T]. destruct (add_tree_ok l st cs sis bms regs g t I G T) as [(st1 & cs1 & sis1 & bms1 & regs1 & E & I1)|(E & Rp & Nf)]; rewrite E; cbn [rbind].
      * destruct (IH _ _ _ _ _ _ I1) as [(st2 & cs2 & sis2 & bms2 & regs2 & E2 & I2)|(E2 & Rp & Nf)]; [intros; apply H; right; assumption| |].
        -- left. exists st2, cs2, sis2, bms2, regs2. split; [exact E2|]. rewrite <- app_assoc in I2. exact I2.
        -- right. split; [exact E2|]. split; [exact Rp|]. intros Rf. destruct (Nf Rf) as (g' & t' & In' & F). exists g', t'. split; [right; exact In'|exact F].
      * right. split; [reflexivity|]. split; [exact Rp|]. intros Rf. exists g, t. split; [left; reflexivity|exact (Nf Rf)].
    + cbn [app] in *. apply (IH l st cs sis bms regs I H).
Qed.
Lemma init_ok : linv [] {| st_reg := repeat ([], []) n; st_bit := new_bbuilder V; st_single := si_new V n; st_consts := repeat [] n |} [] [] [] [].
Proof.
  constructor; cbn [st_reg st_bit st_single st_consts map app]; try (intros; contradiction); try apply repeat_length.
  - constructor.
  - intros g m E. apply nth_error_In, repeat_spec in E. subst m. split; [intros e []|]. exists []. split; constructor.
  - reflexivity.
  - reflexivity.
  - intros g x E. apply nth_error_In, repeat_spec in E. subst x. exists [], []. split; [constructor|]. split; constructor.
Qed.
End loop.
