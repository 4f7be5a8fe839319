(** Lemmas for C67: the node that MakeWhileLoop builds. *)
From Verif Require Import Base While_Model While_Spec While_Fold While_Extract.

Definition init_ok (init : items) (ns : list expr) (init' : items) : Prop :=
  NoDup (keys init') /\ (forall k x, get init k = Some x -> get init' k = Some x) /\
  (forall k x, get init' k = Some x -> get init k = Some x \/ exists i, k = imm_name i /\ nth_error ns i = Some x).
Lemma nth_ext_some {A} (ns suf : list A) i x : nth_error ns i = Some x -> nth_error (ns ++ suf) i = Some x.
Proof. intros H. rewrite nth_error_app1; [exact H|]. apply nth_error_Some. congruence. Qed.
Lemma merge_ok init ns ns' init1 im : no_reserved init -> init_ok init ns init1 -> (exists suf, ns' = ns ++ suf) -> im_ok ns' im ->
  init_ok init ns' (merge init1 im) /\ (forall k x, get init1 k = Some x -> get (merge init1 im) k = Some x) /\
  (forall k x, get im k = Some x -> get (merge init1 im) k = Some x).
Proof.
  intros NR (N & A & B) (suf & ->) (N' & M). split; [split; [|split]|split].
  - apply merge_nodup; assumption.
  - intros k x K. rewrite get_merge, (A k x K). reflexivity.
  - intros k x. rewrite get_merge. destruct (get init1 k) as [y|] eqn:E.
    + intros I; injection I as <-. destruct (B _ _ E) as [H|(i & -> & H)]; [auto|]. right. exists i. split; [reflexivity|]. apply nth_ext_some; exact H.
    + intros H. right. auto.
  - intros k x K. rewrite get_merge, K. reflexivity.
  - intros k x K. rewrite get_merge. destruct (get init1 k) as [y|] eqn:E; [|exact K]. destruct (M _ _ K) as (i & -> & Hi).
    destruct (B _ _ E) as [H|(j & Ej & Hj)].
    + exfalso. assert (IK : In (imm_name i) (keys init)) by (apply get_Some_keys; eauto). apply NR in IK. rewrite imm_name_starts in IK. discriminate.
    + apply imm_name_inj in Ej. subst j. apply nth_ext_some with (suf := suf) in Hj. congruence.
Qed.
Lemma dep_ok_more ns ns' im im' e d : (exists suf, ns' = ns ++ suf) -> (forall k x, get im k = Some x -> get im' k = Some x) -> dep_ok ns im e d -> dep_ok ns' im' e d.
Proof. intros A B. apply dep_ok_ext. split; assumption. Qed.

Lemma move_body_ok init : no_reserved init -> forall body init1 ns init2 body' ns', init_ok init ns init1 -> move_body init1 body ns = (init2, body', ns') ->
  (exists suf, ns' = ns ++ suf) /\ init_ok init ns' init2 /\ (forall k x, get init1 k = Some x -> get init2 k = Some x) /\
  Forall2 (fun c c' => fst c' = fst c /\ dep_ok ns' init2 (snd c) (snd c')) body body' /\
  (forall Q : expr -> Prop, Forall Q ns -> (forall e x, In e (map snd body) -> sub x e -> plcs x = [] -> Q x) -> Forall Q ns').
Proof.
  intros NR body; induction body as [|[k e] t IH]; intros init1 ns init2 body' ns' I H; cbn [move_body] in H.
  - injection H as <- <- <-. split; [exists []; symmetry; apply app_nil_r|]. split; [exact I|]. split; [auto|]. split; [constructor|auto].
  - destruct (extract e ns) as [[e' im] ns1] eqn:E. destruct (move_body (merge init1 im) t ns1) as [[init3 b3] ns3] eqn:E3. injection H as <- <- <-.
    destruct (extract_ok _ _ _ _ _ E) as (X & M & D & Q1). destruct (merge_ok _ _ _ _ _ NR I X M) as (I1 & A1 & B1).
    destruct (IH _ _ _ _ _ I1 E3) as (X2 & I2 & A2 & F2 & Q2). split; [|split; [exact I2|split; [auto|split]]].
    + destruct X as (s1 & ->), X2 as (s2 & ->). exists (s1 ++ s2). symmetry; apply app_assoc.
    + constructor; [|exact F2]. cbn. split; [reflexivity|]. eapply dep_ok_more; [exact X2| |exact D]. auto.
    + intros Q H1 H2. apply Q2; [apply Q1; [exact H1|]|].
      * intros x S. apply (H2 e); [left; reflexivity|exact S].
      * intros f x Hf. apply H2. right; exact Hf.
Qed.
Lemma move_ok init cond body init' cond' body' : no_reserved init -> NoDup (keys init) -> move_immutables init cond body = Some (init', cond', body') ->
  exists ns, init_ok init ns init' /\ dep_ok ns init' cond cond' /\
  Forall2 (fun c c' => fst c' = fst c /\ dep_ok ns init' (snd c) (snd c')) body body' /\
  (forall x, In x ns -> plcs x = [] /\ exists e, (e = cond \/ In e (map snd body)) /\ sub x e).
Proof.
  intros NR N H. unfold move_immutables in H. destruct (existsb _ body); [discriminate|].
  destruct (move_body init body []) as [[init1 body1] ns1] eqn:E1. destruct (extract cond ns1) as [[c im] ns2] eqn:E2. injection H as <- <- <-.
  assert (I0 : init_ok init [] init) by (split; [exact N|split; auto]).
  destruct (move_body_ok init NR _ _ _ _ _ _ I0 E1) as (X1 & I1 & A1 & F1 & Q1). destruct (extract_ok _ _ _ _ _ E2) as (X & M & D & Q2).
  destruct (merge_ok _ _ _ _ _ NR I1 X M) as (I2 & A2 & B2). exists ns2. split; [exact I2|]. split; [|split].
  - eapply dep_ok_more; [exists []; symmetry; apply app_nil_r|exact B2|exact D].
  - clear - F1 X A2. induction F1 as [|c c' l l' (H & D) F IH]; constructor; [|exact IH]. split; [exact H|]. eapply dep_ok_more; [exact X|exact A2|exact D].
  - apply Forall_forall. apply Q2; [apply Q1; [constructor|]|].
    + intros e x He S C. split; [exact C|]. exists e. auto.
    + intros x S C. split; [exact C|]. exists cond. auto.
Qed.

(** The condition and the body after moving, in terms of those given. *)
Lemma dep_sem {X} (lv : nat -> X) ov ns init' e d L P P' : dep_ok ns init' e d -> (forall k, In k (plcs e) -> starts_with imm_prefix k = false) ->
  (forall k, In k (plcs e) -> P' k = P k) ->
  (forall i x, nth_error ns i = Some x -> get init' (imm_name i) = Some x -> P' (imm_name i) = fold lv ov L P x) ->
  fold lv ov L P' d = fold lv ov L P e.
Proof.
  intros (D1 & D2 & _ & D4) NR H1 H2.
  set (nm := combine (map imm_name (seq 0 (length ns))) ns).
  assert (GN : forall i, get nm (imm_name i) = nth_error ns i).
  { intros i. unfold nm. destruct (nth_error ns i) as [x|] eqn:E.
    - rewrite <- E. apply combine_get.
      + apply FinFun.Injective_map_NoDup; [intros a b; apply imm_name_inj|apply seq_NoDup].
      + rewrite map_length, seq_length. reflexivity.
      + assert (i < length ns) by (apply nth_error_Some; congruence). rewrite nth_error_map.
        replace (nth_error (seq 0 (length ns)) i) with (Some i); [reflexivity|]. symmetry.
        rewrite (nth_error_nth' _ 0) by (rewrite seq_length; assumption). rewrite seq_nth by assumption. reflexivity.
    - apply get_None. intros H. rewrite combine_keys in H by (rewrite map_length, seq_length; reflexivity).
      apply in_map_iff in H. destruct H as (j & Ej & Hj). apply imm_name_inj in Ej. subst j. apply in_seq in Hj. apply nth_error_None in E. lia. }
  assert (GK : forall k x, get nm k = Some x -> exists i, k = imm_name i /\ nth_error ns i = Some x).
  { intros k x K. assert (IK : In k (keys nm)) by (apply get_Some_keys; eauto). unfold nm in IK.
    rewrite combine_keys in IK by (rewrite map_length, seq_length; reflexivity). apply in_map_iff in IK. destruct IK as (j & <- & _).
    exists j. split; [reflexivity|]. rewrite <- GN. exact K. }
  rewrite (fold_ext lv ov L P' L (fun k => match get nm k with Some x => fold lv ov L P x | None => P' k end) d).
  - apply D4.
    + intros k K. destruct (get nm k) eqn:E; [|auto]. destruct (GK _ _ E) as (i & -> & _). apply NR in K. rewrite imm_name_starts in K. discriminate.
    + intros i x Hi. rewrite GN, Hi. reflexivity.
  - reflexivity.
  - intros k K. destruct (get nm k) as [x|] eqn:E; [|reflexivity]. destruct (GK _ _ E) as (i & -> & Hi). apply H2; [exact Hi|].
    destruct (D2 _ K) as [K'|(j & y & Ej & Hj & Gj)].
    + apply NR in K'. rewrite imm_name_starts in K'. discriminate.
    + apply imm_name_inj in Ej. subst j. congruence.
Qed.

(** ** The node *)
Record made (G : lang) (ident : key -> bool) (init : items) (cond : expr) (body : items) (w : wnode)
  (init' : items) (cond' : expr) (body' casts : items) (c b : expr) (es bs ds : list expr) : Prop := mkMade {
  m_move : move_immutables init cond body = Some (init', cond', body');
  m_chk : check_init (names_of init') (names_of body') = true;
  m_casts : add_casts init' body' = Some casts;
  m_es : map_opt (get (with_casts init' casts)) (names_of body') = Some es;
  m_bs : map_opt (get body') (names_of body') = Some bs;
  m_ds : map_opt (get (with_casts init' casts)) (filter (fun k => negb (memk k (names_of body'))) (names_of init')) = Some ds;
  m_c : subst false (accessors (Plc loop_state) (names_of body')) cond' = Some c;
  m_b : subst false (accessors (Plc loop_state) (names_of body')) (Op (MakeTuple (names_of body')) bs) = Some b;
  m_nodup : NoDup (loop_state :: filter (fun k => negb (memk k (names_of body'))) (names_of init'));
  m_w : w = mkW (loop_state :: filter (fun k => negb (memk k (names_of body'))) (names_of init')) c b (Op (MakeTuple (names_of body')) es :: ds) }.
Lemma make_lambda_inv ident params e e' : make_lambda ident params e = Some e' -> e' = e /\ NoDup params.
Proof.
  unfold make_lambda. destruct (_ && _ && _ && _) eqn:E; [|discriminate]. intros I; injection I as <-.
  rewrite !andb_true_iff in E. split; [reflexivity|]. apply nodupb_iff, E.
Qed.
Lemma wrap_inv G m order e : wrap_tuple G m order = Some e -> exists es, map_opt (get m) order = Some es /\ e = Op (MakeTuple order) es.
Proof.
  unfold wrap_tuple. destruct (map_opt (get m) order) as [es|]; [|discriminate]. cbn. destruct (fields_ok G order); [|discriminate].
  intros I; injection I as <-. eauto.
Qed.
Lemma make_inv G ident init cond body w : make_while G ident init cond body = Some w ->
  exists init' cond' body' casts c b es bs ds, made G ident init cond body w init' cond' body' casts c b es bs ds.
Proof.
  unfold make_while. destruct (move_immutables init cond body) as [[[init' cond'] body']|] eqn:EM; [|discriminate]. cbn.
  destruct (check_init (names_of init') (names_of body')) eqn:EC; cbn [andb negb]; [|discriminate].
  destruct (check_init (names_of init') (plcs cond') && _); cbn [negb]; [|discriminate].
  destruct (add_casts init' body') as [casts|] eqn:EA; [|discriminate]. cbn.
  destruct (wrap_tuple G (with_casts init' casts) (names_of body')) as [it|] eqn:E1; [|discriminate]. cbn.
  destruct (wrap_tuple G body' (names_of body')) as [bt|] eqn:E2; [|discriminate]. cbn.
  destruct (map_opt _ (filter _ _)) as [ds|] eqn:E3; [|discriminate]. cbn.
  destruct (subst false _ cond') as [c|] eqn:E4; [|discriminate]. cbn.
  destruct (make_lambda ident _ c) as [c2|] eqn:E5; [|discriminate]. cbn.
  destruct (subst false _ bt) as [b|] eqn:E6; [|discriminate]. cbn.
  destruct (make_lambda ident _ b) as [b2|] eqn:E7; [|discriminate]. cbn.
  intros I; injection I as <-.
  apply wrap_inv in E1. destruct E1 as (es & E1 & ->). apply wrap_inv in E2. destruct E2 as (bs & E2 & ->).
  apply make_lambda_inv in E5. destruct E5 as [-> N]. apply make_lambda_inv in E7. destruct E7 as [-> _].
  exists init', cond', body', casts, c, b, es, bs, ds. constructor; auto.
Qed.

Lemma add_casts_get init : forall body casts, add_casts init body = Some casts ->
  forall k, get casts k = match get body k with
    | Some e => match subst true init e, get init k with Some e1, Some i => Some (Op CastLike [i; e1]) | _, _ => None end
    | None => None end /\
  (forall e, get body k = Some e -> subst true init e <> None /\ get init k <> None).
Proof.
  induction body as [|[k0 e0] t IH]; intros casts H k; cbn [add_casts] in H.
  - injection H as <-. split; [reflexivity|discriminate].
  - destruct (subst true init e0) as [e1|] eqn:E1; [|discriminate]. cbn in H. destruct (get init k0) as [i|] eqn:Ei; [|discriminate]. cbn in H.
    destruct (add_casts init t) as [r|] eqn:Er; [|discriminate]. cbn in H. injection H as <-. rewrite !get_cons. cbn [fst snd].
    destruct (key_dec k0 k) as [<-|_]; [|apply IH; reflexivity]. rewrite E1, Ei. split; [reflexivity|].
    intros e I; injection I as <-. rewrite E1. split; discriminate.
Qed.
Lemma with_casts_get init casts k : get (with_casts init casts) k = match get init k with Some i => match get casts k with Some c => Some c | None => Some i end | None => None end.
Proof.
  unfold with_casts. induction init as [|[k0 e0] t IH]; [reflexivity|]. cbn [map]. rewrite !get_cons. cbn [fst snd].
  destruct (key_dec k0 k) as [<-|_]; [|exact IH]. destruct (get casts k0); reflexivity.
Qed.
Lemma keys_same ns init' (body body' : items) : Forall2 (fun c c' => fst c' = fst c /\ dep_ok ns init' (snd c) (snd c')) body body' -> keys body' = keys body.
Proof. unfold keys. induction 1 as [|c c' l l' (H & _) F IH]; [reflexivity|]. cbn. rewrite H, IH. reflexivity. Qed.
Lemma body_get ns init' (body body' : items) k : Forall2 (fun c c' => fst c' = fst c /\ dep_ok ns init' (snd c) (snd c')) body body' ->
  match get body k, get body' k with Some e, Some e' => dep_ok ns init' e e' | None, None => True | _, _ => False end.
Proof.
  induction 1 as [|c c' l l' (H & D) F IH]; [exact I|]. rewrite !get_cons, H. destruct (key_dec (fst c) k); [exact D|exact IH].
Qed.

Lemma accessors_get e order k i : NoDup order -> nth_error order i = Some k -> get (accessors e order) k = Some (Op (GetNth i) [e]).
Proof.
  intros N H. assert (B : i < length order) by (apply nth_error_Some; congruence).
  unfold accessors. rewrite (combine_get order _ k N) with (i := i); [|rewrite map_length, seq_length; reflexivity|exact H].
  rewrite nth_error_map, (nth_error_nth' (seq 0 (length order)) 0) by (rewrite seq_length; exact B). cbn. rewrite seq_nth by exact B. reflexivity.
Qed.
Lemma accessors_none e order k : ~ In k order -> get (accessors e order) k = None.
Proof. intros H. apply get_None. unfold accessors. rewrite combine_keys by (rewrite map_length, seq_length; reflexivity). exact H. Qed.

(** An expression of the condition or of the body, evaluated by the lambda. *)
Section Call.
Context {X : Type} (lv : nat -> X) (ov : oper -> list X -> option X).
Variables (init init' : items) (ns : list expr) (mut : list key) (L : key -> option X) (E0 E' : key -> option X) (st : X) (sts its : list X).
Let imm := filter (fun k => negb (memk k mut)) (names_of init').
Hypotheses (NR : no_reserved init) (IO : init_ok init ns init') (Nm : NoDup mut) (Im : incl mut (keys init)) (Nimm : NoDup (loop_state :: imm))
  (Hl : length sts = length mut) (Hnth : forall i, ov (GetNth i) [st] = nth_error sts i) (Hits : map_opt E' imm = Some its)
  (HE : forall k, In k (keys init) -> E' k = E0 k)
  (Hns : forall i x, nth_error ns i = Some x -> plcs x = [] /\ (get init' (imm_name i) = Some x -> forall P, E' (imm_name i) = fold lv ov L P x)).
Definition senv (k : key) : option X := match get (combine mut sts) k with Some v => Some v | None => E0 k end.
Lemma call_ok e d d' : dep_ok ns init' e d -> incl (plcs e) (keys init) -> subst false (accessors (Plc loop_state) mut) d = Some d' ->
  fold lv ov no_leaves (get (combine (loop_state :: imm) (st :: its))) d' = fold lv ov L senv e.
Proof.
  intros D HP S. rewrite (fold_subst lv ov _ _ _ _ _ _ S).
  assert (Hli : length its = length imm) by (eapply map_opt_length; exact Hits).
  set (EE := get (combine (loop_state :: imm) (st :: its))).
  assert (EL : EE loop_state = Some st).
  { unfold EE. cbn [combine]. rewrite get_cons. cbn [fst snd]. destruct (key_dec loop_state loop_state); [reflexivity|contradiction]. }
  set (PP := fun k => match get (combine mut sts) k with Some v => Some v | None => EE k end).
  assert (A : forall k, (match get (accessors (Plc loop_state) mut) k with Some x => fold lv ov no_leaves EE x | None => EE k end) = PP k).
  { intros k. unfold PP. destruct (in_dec key_dec k mut) as [H|H].
    - destruct (In_nth_error _ _ H) as (i & Hi). rewrite (accessors_get _ _ _ _ Nm Hi), (combine_get mut sts k Nm Hl i Hi). cbn [fold map_opt].
      rewrite EL. cbn [bind]. rewrite Hnth. destruct (nth_error sts i) eqn:E; [reflexivity|].
      apply nth_error_None in E. assert (i < length mut) by (apply nth_error_Some; congruence). lia.
    - rewrite (accessors_none _ _ _ H). replace (get (combine mut sts) k) with (@None X); [reflexivity|]. symmetry. apply get_None.
      rewrite combine_keys by exact Hl. exact H. }
  assert (B : forall k, In k (keys init') -> ~ In k mut -> EE k = E' k).
  { intros k K NK. unfold EE. assert (KI : In k imm).
    { apply filter_In. split; [apply sort_In; exact K|]. apply negb_true_iff, not_true_iff_false. rewrite memk_iff. exact NK. }
    destruct (In_nth_error _ _ KI) as (i & Hi). rewrite (combine_get (loop_state :: imm) (st :: its) k Nimm ltac:(cbn; rewrite Hli; reflexivity) (Datatypes.S i) Hi). cbn [nth_error].
    rewrite (map_opt_nth _ _ _ i Hits), Hi. reflexivity. }
  destruct IO as (_ & IO1 & IO2).
  rewrite (fold_ext lv ov no_leaves _ L PP d).
  - apply (dep_sem lv ov ns init' e d L senv PP D).
    + intros k K. apply NR. auto.
    + intros k K. unfold PP, senv. destruct (get (combine mut sts) k) eqn:E; [reflexivity|].
      rewrite <- HE by auto. apply B.
      * apply HP, get_Some_keys in K. destruct K as (x & K). apply get_Some_keys. exists x. apply IO1; exact K.
      * intros KM. apply get_None in E. rewrite combine_keys in E by exact Hl. contradiction.
    + intros i x Hi Gi. destruct (Hns i x Hi) as [C F]. rewrite <- (F Gi senv). unfold PP.
      assert (NM : ~ In (imm_name i) mut) by (intros H; apply Im, NR in H; rewrite imm_name_starts in H; discriminate).
      replace (get (combine mut sts) (imm_name i)) with (@None X).
      * apply B; [apply get_Some_keys; eauto|exact NM].
      * symmetry. apply get_None. rewrite combine_keys by exact Hl. exact NM.
  - destruct D as ((D1 & _) & _). rewrite D1. intros k [].
  - intros k _. apply A.
Qed.
End Call.
