(** Lemmas for C67: when the loop is accepted, and its types. *)
From Verif Require Import Base While_Model While_Spec While_Fold While_Extract While_Make.

Lemma check_init_iff all req : check_init all req = true <-> incl req all.
Proof.
  unfold check_init. rewrite forallb_forall. split; intros H k K; [apply memk_iff; auto|apply memk_iff; auto].
Qed.
Lemma names_of_In (m : items) k : In k (names_of m) <-> In k (keys m).
Proof. apply sort_In. Qed.
Lemma map_opt_total {A B} (f : A -> option B) l : (forall x, In x l -> f x <> None) -> exists r, map_opt f l = Some r.
Proof.
  intros H. destruct (map_opt f l) as [r|] eqn:E; [eauto|]. apply map_opt_None in E. destruct E as (x & X & N). exfalso. exact (H x X N).
Qed.
Lemma subst_total (all : bool) s e : (all = true -> incl (plcs e) (keys s)) -> exists e', subst all s e = Some e'.
Proof.
  induction e as [k|k|n|o args IH] using expr_ind2; intros H; cbn [subst]; eauto.
  - destruct (get s k) eqn:E; [eauto|]. destruct all; [|eauto]. exfalso. apply get_None in E. apply E. apply (H eq_refl). left; reflexivity.
  - destruct (map_opt_total (subst all s) args) as (r & R); [|rewrite R; cbn; eauto].
    intros x X N. rewrite Forall_forall in IH. destruct (IH x X) as (e' & E'); [|congruence].
    intros A k K. apply (H A). cbn [plcs]. apply in_flat_map. eauto.
Qed.
Lemma subst_plcs all s : forall e e', subst all s e = Some e' -> forall k, In k (plcs e') ->
  (In k (plcs e) /\ get s k = None) \/ exists q x, get s q = Some x /\ In k (plcs x).
Proof.
  induction e as [q|q|n|o args IH] using expr_ind2; intros e' H k K; cbn [subst] in H.
  - injection H as <-. destruct K.
  - destruct (get s q) as [x|] eqn:E; [injection H as <-; eauto|]. destruct all; [discriminate|]. injection H as <-. destruct K as [<-|[]]. left. cbn. auto.
  - injection H as <-. destruct K.
  - destruct (map_opt (subst all s) args) as [l|] eqn:E; [|discriminate]. cbn in H. injection H as <-. cbn [plcs] in K |- *.
    apply map_opt_Some in E. induction E as [|x y t t' H F IHF]; [destruct K|]. inversion IH as [|? ? H1 H2]; subst. cbn [flat_map] in K |- *.
    apply in_app_iff in K. rewrite in_app_iff. destruct K as [K|K]; [destruct (H1 _ H k K) as [[? ?]|?]; auto|destruct (IHF H2 K) as [[? ?]|?]; auto].
Qed.
Lemma subst_leaves all s : (forall q x, get s q = Some x -> leaves x = []) -> forall e e', subst all s e = Some e' -> leaves e = [] -> leaves e' = [].
Proof.
  intros S. induction e as [q|q|n|o args IH] using expr_ind2; intros e' H K; cbn [subst] in H.
  - discriminate.
  - destruct (get s q) as [x|] eqn:E; [injection H as <-; eauto|]. destruct all; [discriminate|]. injection H as <-. reflexivity.
  - injection H as <-. reflexivity.
  - destruct (map_opt (subst all s) args) as [l|] eqn:E; [|discriminate]. cbn in H. injection H as <-. cbn [leaves] in K |- *.
    apply map_opt_Some in E. induction E as [|x y t t' H F IHF]; [reflexivity|]. inversion IH as [|? ? H1 H2]; subst. cbn [flat_map] in K |- *.
    apply app_eq_nil in K. destruct K as [K1 K2]. rewrite (H1 _ H K1), (IHF H2 K2). reflexivity.
Qed.

Section A.
Variables (G : lang) (ident : key -> bool) (init : items) (cond : expr) (body : items).
Hypotheses (N1 : NoDup (keys init)) (N2 : NoDup (keys body)) (NR : no_reserved init)
  (NC : forall k, In k (plcs cond) -> starts_with imm_prefix k = false)
  (NB : forall q e k, In (q, e) body -> In k (plcs e) -> starts_with imm_prefix k = false)
  (I1 : ident loop_state = true) (I2 : forall i, ident (imm_name i) = true).
Let names := names_of body.

Lemma init_back ns init' k : init_ok init ns init' -> In k (keys init') -> In k (keys init) \/ exists i, k = imm_name i.
Proof.
  intros (_ & _ & H) K. apply get_Some_keys in K. destruct K as (x & K). destruct (H _ _ K) as [E|(i & -> & _)]; [left; apply get_Some_keys; eauto|eauto].
Qed.
Lemma init_fwd ns init' k : init_ok init ns init' -> In k (keys init) -> In k (keys init').
Proof. intros (_ & H & _) K. apply get_Some_keys in K. destruct K as (x & K). apply get_Some_keys. eauto. Qed.
Lemma not_imm i k : starts_with imm_prefix k = false -> k = imm_name i -> False.
Proof. intros H ->. rewrite imm_name_starts in H. discriminate. Qed.

Lemma accepted_fwd w : make_while G ident init cond body = Some w -> accepted G ident init cond body names.
Proof.
  intros H. unfold make_while in H. destruct (move_immutables init cond body) as [[[init' cond'] body']|] eqn:EM; [|discriminate]. cbn [bind] in H.
  destruct (move_ok _ _ _ _ _ _ NR N1 EM) as (ns & IO & DC & F & _).
  assert (NK : names_of body' = names) by (unfold names, names_of; rewrite (keys_same _ _ _ _ F); reflexivity). rewrite NK in H.
  assert (BR : forall k, In k (keys body) -> starts_with imm_prefix k = false).
  { intros k K. unfold move_immutables in EM. destruct (existsb _ body) eqn:X; [discriminate|]. apply in_map_iff in K. destruct K as (c & <- & K).
    destruct (starts_with imm_prefix (fst c)) eqn:S; [|reflexivity]. exfalso. rewrite <- not_true_iff_false in X. apply X. apply existsb_exists. eauto. }
  destruct (negb _) eqn:X in H; [discriminate|]. apply negb_false_iff in X. rewrite !andb_true_iff in X. destruct X as [[X1 X2] X3].
  apply check_init_iff in X1. apply check_init_iff in X2. rewrite forallb_forall in X3.
  destruct (add_casts init' body') as [casts|]; [|discriminate]. cbn [bind] in H.
  destruct (wrap_tuple G (with_casts init' casts) names) as [it|]; [|discriminate]. cbn [bind] in H.
  destruct (wrap_tuple G body' names) as [bt|] eqn:EW; [|discriminate]. cbn [bind] in H.
  destruct (map_opt _ (filter _ _)) as [ds|]; [|discriminate]. cbn [bind] in H.
  destruct (subst false _ cond') as [c|]; [|discriminate]. cbn [bind] in H.
  destruct (make_lambda ident _ c) as [c2|] eqn:EL; [|discriminate].
  split; [|split; [|split; [|split]]].
  - intros k K. assert (K' : In k names) by (apply names_of_In, K). apply X1, names_of_In in K'. destruct (init_back _ _ _ IO K') as [?|(i & E)]; [assumption|].
    exfalso. eapply not_imm; [apply BR, K|exact E].
  - intros k K. destruct DC as ((_ & D) & _). pose proof (D _ K) as K'. apply X2, names_of_In in K'. destruct (init_back _ _ _ IO K') as [?|(i & E)]; [assumption|].
    exfalso. eapply not_imm; [apply NC, K|exact E].
  - intros q e QE k K. apply In_get in QE as GE; [|exact N2]. pose proof (body_get _ _ _ _ q F) as BG. rewrite GE in BG.
    destruct (get body' q) as [e'|] eqn:E'; [|contradiction]. destruct BG as ((_ & D) & _). apply get_In in E'. pose proof (D _ K) as K'.
    apply X3 in E'. cbn [snd] in E'. apply check_init_iff in E'. apply E', names_of_In in K'. destruct (init_back _ _ _ IO K') as [?|(i & E)]; [assumption|].
    exfalso. eapply not_imm; [eapply NB; eauto|exact E].
  - unfold wrap_tuple in EW. destruct (map_opt (get body') names); [|discriminate]. cbn [bind] in EW. destruct (fields_ok G names); [reflexivity|discriminate].
  - intros k K KB. unfold make_lambda in EL. destruct (_ && _ && _ && _) eqn:X in EL; [|discriminate]. rewrite !andb_true_iff in X. destruct X as [[[A B] _] _].
    rewrite forallb_forall in A. apply nodupb_iff in B. inversion B as [|? ? B1 B2]; subst.
    assert (KI : In k (filter (fun k => negb (memk k names)) (names_of init'))).
    { apply filter_In. split; [apply names_of_In; eapply init_fwd; eauto|]. apply negb_true_iff, not_true_iff_false. rewrite memk_iff. intros Q. apply names_of_In in Q. auto. }
    split; [apply A; right; exact KI|]. intros ->. contradiction.
Qed.

Lemma accessors_leaves k x : get (accessors (Plc loop_state) names) k = Some x -> leaves x = [] /\ plcs x = [loop_state].
Proof.
  intros H. apply get_In in H. unfold accessors in H. apply in_combine_r in H. apply in_map_iff in H. destruct H as (i & <- & _). split; reflexivity.
Qed.
Lemma add_casts_total init' : forall body', (forall k e, In (k, e) body' -> In k (keys init') /\ incl (plcs e) (keys init')) -> exists casts, add_casts init' body' = Some casts.
Proof.
  induction body' as [|[k e] t IH]; intros H; cbn [add_casts]; [eauto|]. destruct (H k e (or_introl eq_refl)) as [A B].
  destruct (subst_total true init' e (fun _ => B)) as (e1 & E1). rewrite E1. cbn. apply get_Some_keys in A. destruct A as (x & A). rewrite A. cbn.
  destruct IH as (r & R); [intros q y Q; apply H; right; exact Q|]. rewrite R. cbn. eauto.
Qed.
Lemma accepted_bwd : accepted G ident init cond body names -> exists w, make_while G ident init cond body = Some w.
Proof.
  intros (A1 & A2 & A3 & A4 & A5). unfold make_while.
  destruct (move_immutables init cond body) as [[[init' cond'] body']|] eqn:EM.
  2:{ exfalso. unfold move_immutables in EM. destruct (existsb _ body) eqn:X.
      - apply existsb_exists in X. destruct X as (c & C & S). assert (K : In (fst c) (keys init)) by (apply A1, in_map, C). apply NR in K. congruence.
      - destruct (move_body init body []) as [[? ?] ?]. destruct (extract cond l) as [[? ?] ?]. discriminate. }
  destruct (move_ok _ _ _ _ _ _ NR N1 EM) as (ns & IO & DC & F & _). cbn [bind].
  pose proof (keys_same _ _ _ _ F) as KS.
  assert (NK : names_of body' = names) by (unfold names, names_of; rewrite KS; reflexivity). rewrite NK.
  assert (DP : forall e d, dep_ok ns init' e d -> incl (plcs e) (keys init) -> incl (plcs d) (keys init')).
  { intros e d (_ & D & _) H k K. destruct (D k K) as [K'|(i & x & -> & _ & K')]; [eapply init_fwd; eauto|apply get_Some_keys; eauto]. }
  assert (BD : forall q e', In (q, e') body' -> exists e, In (q, e) body /\ dep_ok ns init' e e').
  { clear -F. induction F as [|c c' l l' (H & D) F IH]; intros q e' Q; [destruct Q|]. destruct Q as [->|Q].
    - exists (snd c). split; [|exact D]. left. destruct c; cbn in *; congruence.
    - destruct (IH _ _ Q) as (e & E & D'). exists e. split; [right; exact E|exact D']. }
  assert (MI : incl names (keys init')) by (intros k K; apply names_of_In in K; eapply init_fwd; eauto).
  destruct (negb _) eqn:X.
  { exfalso. apply negb_true_iff in X. rewrite <- not_true_iff_false in X. apply X. rewrite !andb_true_iff. split; [split|].
    - apply check_init_iff. intros k K. apply names_of_In. auto.
    - apply check_init_iff. intros k K. apply names_of_In. eapply DP; eauto.
    - apply forallb_forall. intros [q e'] Q. apply check_init_iff. intros k K. apply names_of_In. destruct (BD _ _ Q) as (e & E & D). eapply DP; eauto. }
  destruct (add_casts_total init' body') as (casts & EC).
  { intros k e' K. destruct (BD _ _ K) as (e & E & D). split; [|eapply DP; eauto]. eapply init_fwd; [exact IO|]. apply A1. apply in_map_iff. exists (k, e). auto. }
  rewrite EC. cbn [bind].
  assert (WT : forall k, In k (keys init') -> get (with_casts init' casts) k <> None).
  { intros k K. rewrite with_casts_get. apply get_Some_keys in K. destruct K as (x & K). rewrite K. destruct (get casts k); discriminate. }
  unfold wrap_tuple. destruct (map_opt_total (get (with_casts init' casts)) names) as (es & ES); [intros k K; apply WT; auto|]. rewrite ES. cbn [bind]. rewrite A4. cbn [bind].
  destruct (map_opt_total (get body') names) as (bs & BS).
  { intros k K. apply names_of_In in K. rewrite <- KS in K. apply get_Some_keys in K. destruct K as (x & K). congruence. }
  rewrite BS. cbn [bind].
  set (imm := filter (fun k => negb (memk k names)) (names_of init')).
  assert (IMM : forall k, In k imm <-> In k (keys init') /\ ~ In k names).
  { intros k. unfold imm. rewrite filter_In, negb_true_iff, <- not_true_iff_false, memk_iff, names_of_In. tauto. }
  destruct (map_opt_total (get (with_casts init' casts)) imm) as (ds & DS); [intros k K; apply WT, IMM, K|]. rewrite DS. cbn [bind].
  assert (PO : forallb ident (loop_state :: imm) = true).
  { apply forallb_forall. intros k [<-|K]; [exact I1|]. apply IMM in K. destruct K as [K KN]. destruct (init_back _ _ _ IO K) as [K'|(i & ->)]; [|apply I2].
    apply A5; [exact K'|]. intros Q. apply KN, names_of_In, Q. }
  assert (PN : nodupb (loop_state :: imm) = true).
  { apply nodupb_iff. constructor.
    - intros K. apply IMM in K. destruct K as [K KN]. destruct (init_back _ _ _ IO K) as [K'|(i & E)].
      + apply (A5 loop_state K'); [|reflexivity]. intros Q. apply KN, names_of_In, Q.
      + discriminate E.
    - apply NoDup_filter, sort_nodup, IO. }
  assert (LAM : forall d d', leaves d = [] -> incl (plcs d) (keys init') -> subst false (accessors (Plc loop_state) names) d = Some d' ->
    make_lambda ident (loop_state :: imm) d' = Some d').
  { intros d d' Ld Pd S. unfold make_lambda. rewrite PO, PN.
    rewrite (subst_leaves false _ (fun q x E => proj1 (accessors_leaves q x E)) _ _ S Ld). cbn [andb].
    replace (forallb (fun k => memk k (loop_state :: imm)) (plcs d')) with true; [reflexivity|]. symmetry. apply forallb_forall. intros k K. apply memk_iff.
    destruct (subst_plcs _ _ _ _ S k K) as [[K1 K2]|(q & x & Q & K1)].
    - right. apply IMM. split; [auto|]. intros KN. apply get_None in K2. apply K2. unfold accessors. rewrite combine_keys by (rewrite map_length, seq_length; reflexivity). exact KN.
    - apply accessors_leaves in Q. destruct Q as [_ Q]. rewrite Q in K1. destruct K1 as [<-|[]]. left; reflexivity. }
  destruct (subst_total false (accessors (Plc loop_state) names) cond') as (c & SC); [discriminate|]. rewrite SC. cbn [bind].
  rewrite (LAM cond' c); [|apply DC|eapply DP; eauto|exact SC]. cbn [bind].
  destruct (subst_total false (accessors (Plc loop_state) names) (Op (MakeTuple names) bs)) as (b & SB); [discriminate|]. rewrite SB. cbn [bind].
  assert (BB : forall x, In x bs -> exists q, In (q, x) body').
  { intros x Hx. apply map_opt_Some in BS. clear -BS Hx. induction BS as [|k y t t' H F IH]; [destruct Hx|]. destruct Hx as [->|Hx]; [|auto]. exists k. apply get_In, H. }
  rewrite (LAM (Op (MakeTuple names) bs) b); [cbn [bind]; eauto| | |exact SB].
  - cbn [leaves]. destruct (flat_map leaves bs) as [|k l] eqn:E; [reflexivity|]. exfalso.
    assert (K : In k (flat_map leaves bs)) by (rewrite E; left; reflexivity). apply in_flat_map in K. destruct K as (x & Hx & K).
    destruct (BB x Hx) as (q & Q). destruct (BD _ _ Q) as (e & _ & ((D & _) & _)). rewrite D in K. destruct K.
  - intros k K. cbn [plcs] in K. apply in_flat_map in K. destruct K as (x & Hx & K). destruct (BB x Hx) as (q & Q). destruct (BD _ _ Q) as (e & E & D). eapply DP; eauto.
Qed.
End A.

Lemma F2_impl {A B} (R R' : A -> B -> Prop) l l' : (forall x y, R x y -> R' x y) -> Forall2 R l l' -> Forall2 R' l l'.
Proof. intros H. induction 1; constructor; auto. Qed.

(** ** Types of values *)
Section Ty.
Variable G : lang.
Hypothesis OK : lang_ok G.
Lemma eval_ty LT PT L P : (forall k v, L k = Some v -> LT k = Some (ty G v)) -> forall e v,
  (forall k v, In k (plcs e) -> P k = Some v -> PT k = Some (ty G v)) -> eval LT PT L P e = Some v -> ety LT PT e = Some (ty G v).
Proof.
  intros HL. induction e as [k|k|n|o args IH] using expr_ind2; intros v HP H.
  - apply HL, H.
  - apply HP; [left; reflexivity|exact H].
  - cbn in H |- *. congruence.
  - assert (AR : forall l vs, incl l args -> map_opt (eval LT PT L P) l = Some vs -> map_opt (ety LT PT) l = Some (map (ty G) vs)).
    { induction l as [|x t IHt]; intros vs IC E; cbn [map_opt] in E |- *; [injection E as <-; reflexivity|].
      destruct (eval LT PT L P x) as [y|] eqn:Ex; [|discriminate]. cbn in E. destruct (map_opt (eval LT PT L P) t) as [r|] eqn:Et; [|discriminate]. cbn in E. injection E as <-.
      rewrite Forall_forall in IH. rewrite (IH x (IC x (or_introl eq_refl)) y); [|intros k w K; apply HP; cbn [plcs]; apply in_flat_map; exists x; split; [apply IC; left; reflexivity|exact K]|exact Ex].
      cbn. rewrite (IHt r); [reflexivity|intros q Q; apply IC; right; exact Q|reflexivity]. }
    assert (PL : forall op, op <> CastLike -> (let? vs := map_opt (eval LT PT L P) args in op_val G op vs) = Some v -> (let? ts := map_opt (ety LT PT) args in op_ty G op ts) = Some (ty G v)).
    { intros op NC E. destruct (map_opt (eval LT PT L P) args) as [vs|] eqn:EA; [|discriminate]. cbn [bind] in E. rewrite (AR args vs (incl_refl _) EA). cbn [bind].
      destruct op as [n|fs|i|]; cbn [op_val op_ty] in E |- *.
      - apply (user_sound G OK), E.
      - injection E as <-. rewrite (pack_sound G OK). reflexivity.
      - destruct vs as [|x [|? ?]]; try discriminate E. cbn [map]. apply (nth_sound G OK), E.
      - contradiction. }
    cbn [ety]. destruct o as [n|fs|i|]; try (apply PL; [discriminate|exact H]).
    cbn [eval] in H. destruct args as [|a [|b2 [|? ?]]]; try discriminate H. destruct (eval LT PT L P a) as [x|] eqn:Ea; [|discriminate]. cbn in H.
    destruct (ety LT PT b2) as [t|] eqn:Eb; [|discriminate]. cbn in H. cbn [map_opt]. inversion IH as [|? ? Ha _]; subst.
    rewrite (Ha x); [|intros k w K; apply HP; cbn [plcs flat_map]; apply in_app_iff; left; exact K|exact Ea].
    cbn. rewrite Eb. cbn. destruct (cast_sound G OK _ _ _ H) as [-> E]. exact E.
Qed.
Variables (LT PT : key -> option (T G)) (L P : key -> option (V G)) (init : items) (cond : expr) (body : items).
Let names := names_of body.
Hypotheses (LI : loop_inputs init cond body) (HL : forall k v, L k = Some v -> LT k = Some (ty G v)) (HP : forall k v, P k = Some v -> PT k = Some (ty G v))
  (W : well_typed G LT PT init cond body).
Lemma start_types vs : start G LT PT L P init body names = Some vs -> has_types G LT PT init body names vs.
Proof.
  intros H. apply map_opt_Some in H. unfold has_types. revert H. apply F2_impl. intros k v E.
  destruct (val0 G LT PT L P init k); [|discriminate]. cbn in E. destruct (get body k) as [e|] eqn:EB; [|discriminate]. cbn in E.
  destruct (ety LT (ty0 G LT PT init) e) as [u|] eqn:Eu; [|discriminate]. cbn in E. unfold ty1. rewrite EB, Eu. destruct (cast_sound G OK _ _ _ E) as [-> _]. reflexivity.
Qed.
Lemma state_types vs k v : has_types G LT PT init body names vs -> state G LT PT L P init names vs k = Some v -> ty1 G LT PT init body k = Some (ty G v).
Proof.
  intros H. unfold state. destruct (get (combine names vs) k) as [x|] eqn:E.
  - intros I; injection I as <-. apply get_In in E. unfold has_types in H. revert E. induction H as [|q y t t' Eq F IH]; [intros []|].
    cbn [combine]. intros [I|I]; [injection I as <- <-; exact Eq|auto].
  - intros E2. unfold ty1. assert (NB : get body k = None).
    { apply get_None. intros K. apply (sort_In (keys body)) in K. apply get_None in E. apply E. rewrite combine_keys; [exact K|].
      clear -H. unfold has_types in H. change (length vs = length names). induction H; cbn; congruence. }
    rewrite NB. unfold ty0. unfold val0 in E2. destruct (get init k) as [e|]; [|discriminate]. cbn in E2 |- *. eapply eval_ty; eauto.
Qed.
Lemma value_types vs e v : plain e -> has_types G LT PT init body names vs -> value G LT PT L P init names vs e = Some v -> ety LT (ty1 G LT PT init body) e = Some (ty G v).
Proof.
  intros PE H E. unfold value in E. rewrite eval_fold in E by exact PE. rewrite <- (eval_fold G LT (ty1 G LT PT init body)) in E by exact PE.
  apply (eval_ty LT (ty1 G LT PT init body) L (state G LT PT L P init names vs) HL e v); [|exact E]. intros k x _. apply state_types, H.
Qed.
Lemma next_types vs vs' : has_types G LT PT init body names vs -> next G LT PT L P init body names vs = Some vs' -> has_types G LT PT init body names vs'.
Proof.
  intros H N. apply map_opt_Some in N. unfold has_types. revert N. apply F2_impl. intros k v E. destruct (get body k) as [e|] eqn:EB; [|discriminate]. cbn in E.
  destruct LI as (_ & _ & _ & PB & _). pose proof (value_types vs e v (PB k e (get_In _ _ _ EB)) H E) as TV.
  destruct W as (_ & W2 & _). destruct (W2 k e EB) as (a & u & _ & U1 & _ & U2). unfold ty1. rewrite EB. congruence.
Qed.
Lemma reached_types vs : reached G LT PT L P init cond body names vs -> has_types G LT PT init body names vs.
Proof. induction 1 as [vs S|vs c vs' R IH V C N]; [apply start_types, S|eapply next_types; eauto]. Qed.
Lemma cond_types vs c : reached G LT PT L P init cond body names vs -> value G LT PT L P init names vs cond = Some c -> ty G c = cond_ty G.
Proof.
  intros R E. apply reached_types in R. destruct LI as (_ & _ & PC & _). pose proof (value_types vs cond c PC R E) as H. destruct W as (_ & _ & W3). congruence.
Qed.
Lemma iter_types vs r : iter G LT PT L P init cond body names vs r -> has_types G LT PT init body names vs -> forall vs', r = Some vs' -> has_types G LT PT init body names vs'.
Proof.
  induction 1 as [vs EV|vs cv EV ET|vs cv EV ET EN|vs cv vs1 r EV ET EN I IH]; intros H vs' R; try discriminate R.
  - congruence.
  - apply IH; [eapply next_types; eauto|exact R].
Qed.
Lemma outcome_type v : outcome G LT PT L P init cond body names (Some v) -> exists ts, map_opt (ty1 G LT PT init body) names = Some ts /\ ty G v = pack_ty G names ts.
Proof.
  intros O. inversion O as [| |vs r V S I E]; subst. destruct r as [vs'|]; [|discriminate]. cbn in E. injection E as <-.
  pose proof (iter_types _ _ I (start_types _ S) vs' eq_refl) as H. exists (map (ty G) vs'). rewrite (pack_sound G OK). split; [|reflexivity].
  apply map_opt_Some. clear -H. unfold has_types in H. fold names. revert H. generalize names. intros l H. induction H; cbn; constructor; auto.
Qed.
End Ty.
