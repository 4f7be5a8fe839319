(** Lemmas for C67: what does not depend on the state becomes a constant. *)
From Verif Require Import Base While_Model While_Spec While_Fold.

Definition nonil {A} (l : list A) : bool := match l with [] => false | _ => true end.
Lemma nonil_app {A} (a b : list A) : nonil (a ++ b) = nonil a || nonil b.
Proof. destruct a; [reflexivity|]. reflexivity. Qed.
Lemma nonil_false {A} (l : list A) : nonil l = false <-> l = [].
Proof. destruct l; cbn; split; congruence. Qed.

(** [ns'], [im'] extend [ns], [im]. *)
Definition ext (ns ns' : list expr) (im im' : items) : Prop :=
  (exists suf, ns' = ns ++ suf) /\ (forall k x, get im k = Some x -> get im' k = Some x).
Lemma ext_refl ns im : ext ns ns im im.
Proof. split; [exists []; symmetry; apply app_nil_r|auto]. Qed.
Lemma ext_trans a b c ia ib ic : ext a b ia ib -> ext b c ib ic -> ext a c ia ic.
Proof. intros ((s & ->) & A) ((s' & ->) & B). split; [exists (s ++ s'); symmetry; apply app_assoc|auto]. Qed.
Lemma ext_nth a b ia ib i x : ext a b ia ib -> nth_error a i = Some x -> nth_error b i = Some x.
Proof. intros ((s & ->) & _) H. rewrite nth_error_app1; [exact H|]. apply nth_error_Some. congruence. Qed.
Definition im_ok (ns : list expr) (im : items) : Prop :=
  NoDup (keys im) /\ forall k x, get im k = Some x -> exists i, k = imm_name i /\ nth_error ns i = Some x.

Definition dep_ok (ns : list expr) (im : items) (e d : expr) : Prop :=
  (leaves d = [] /\ incl (plcs e) (plcs d)) /\
  (forall k, In k (plcs d) -> In k (plcs e) \/ exists i x, k = imm_name i /\ nth_error ns i = Some x /\ get im k = Some x) /\
  (plain e -> plain d) /\
  (forall X (lv : nat -> X) ov L P P', (forall k, In k (plcs e) -> P' k = P k) ->
     (forall i x, nth_error ns i = Some x -> P' (imm_name i) = fold lv ov L P x) -> fold lv ov L P' d = fold lv ov L P e).
Definition vis_ok (ns : list expr) (im : items) (e : expr) (v : visit) : Prop :=
  v_plc v = nonil (plcs e) /\ v_leaf v = nonil (leaves e) /\ (v_plc v = false -> v_expr v = e) /\
  (v_plc v = true -> dep_ok ns im e (v_expr v)).
Lemma dep_ok_ext ns ns' im im' e d : ext ns ns' im im' -> dep_ok ns im e d -> dep_ok ns' im' e d.
Proof.
  intros E (A & B & C & D). split; [exact A|]. split; [|split; [exact C|]].
  - intros k K. destruct (B k K) as [H|(i & x & -> & H & H')]; [auto|]. right. exists i, x. split; [reflexivity|]. split; [eapply ext_nth; eauto|]. apply E, H'.
  - intros X lv ov L P P' H1 H2. apply D; [exact H1|]. intros i x H. apply H2. eapply ext_nth; eauto.
Qed.
Lemma vis_ok_ext ns ns' im im' e v : ext ns ns' im im' -> vis_ok ns im e v -> vis_ok ns' im' e v.
Proof. intros E (A & B & C & D). repeat (split; [assumption|]). intros H. eapply dep_ok_ext; eauto. Qed.

Lemma index_of_nth e ns i : index_of e ns = Some i -> nth_error ns i = Some e.
Proof.
  revert i; induction ns as [|x t IH]; intros i; cbn [index_of]; [discriminate|]. destruct (expr_dec x e) as [->|_].
  - intros E; injection E as <-. reflexivity.
  - destruct (index_of e t) as [j|]; [|discriminate]. cbn. intros E; injection E as <-. cbn. auto.
Qed.
(** Giving a name to an expression. *)
Lemma name_ok e ns im k ns' : name_of e ns = (k, ns') -> im_ok ns im -> plcs e = [] ->
  ext ns ns' im (emplace im k e) /\ im_ok ns' (emplace im k e) /\ dep_ok ns' (emplace im k e) e (Plc k) /\
  (forall Q : expr -> Prop, Forall Q ns -> Q e -> Forall Q ns').
Proof.
  intros H M C.
  assert (N : exists i, k = imm_name i /\ nth_error ns' i = Some e /\ (exists suf, ns' = ns ++ suf) /\ (forall Q : expr -> Prop, Forall Q ns -> Q e -> Forall Q ns')).
  { unfold name_of in H. destruct (index_of e ns) as [i|] eqn:E; injection H as <- <-.
    - exists i. split; [reflexivity|]. split; [apply index_of_nth; exact E|]. split; [exists []; symmetry; apply app_nil_r|auto].
    - exists (length ns). split; [reflexivity|]. split; [rewrite nth_error_app2, Nat.sub_diag by lia; reflexivity|]. split; [exists [e]; reflexivity|].
      intros Q A B. apply Forall_app. auto. }
  destruct N as (i & -> & Hi & Hs & HQ).
  assert (EX : ext ns ns' im (emplace im (imm_name i) e)).
  { split; [exact Hs|]. intros k x K. rewrite emplace_get, K. reflexivity. }
  assert (G : get (emplace im (imm_name i) e) (imm_name i) = Some e).
  { rewrite emplace_get. destruct (get im (imm_name i)) as [y|] eqn:E.
    - destruct M as [_ M]. destruct (M _ _ E) as (j & Ej & Hj). apply imm_name_inj in Ej. subst j. pose proof (ext_nth _ _ _ _ _ _ EX Hj). congruence.
    - destruct (key_dec (imm_name i) (imm_name i)); [reflexivity|contradiction]. }
  split; [exact EX|]. split; [|split; [|exact HQ]].
  - destruct M as [N M]. split; [apply emplace_nodup, N|]. intros k x. rewrite emplace_get. destruct (get im k) as [y|] eqn:E.
    + intros I; injection I as <-. destruct (M _ _ E) as (j & -> & Hj). exists j. split; [reflexivity|]. eapply ext_nth; eauto.
    + destruct (key_dec (imm_name i) k) as [<-|_]; [|discriminate]. intros I; injection I as <-. eauto.
  - split; [split; [reflexivity|rewrite C; intros ? []]|]. split; [|split].
    + intros k [<-|[]]. right. eauto.
    + intros _ a A. inversion A.
    + intros X lv ov L P P' _ H2. cbn [fold]. rewrite (H2 i e Hi). reflexivity.
Qed.

Lemma new_deps_ok es vs ns im ds ns' im' : new_deps vs ns im = (ds, ns', im') -> Forall2 (vis_ok ns im) es vs -> im_ok ns im ->
  ext ns ns' im im' /\ im_ok ns' im' /\ Forall2 (dep_ok ns' im') es ds /\
  (forall Q : expr -> Prop, Forall Q ns -> (forall e, In e es -> plcs e = [] -> Q e) -> Forall Q ns').
Proof.
  revert es ns im ds ns' im'; induction vs as [|v t IH]; intros es ns im ds ns' im' H F M; cbn [new_deps] in H.
  - injection H as <- <- <-. inversion F; subst. split; [apply ext_refl|]. split; [exact M|]. split; [constructor|auto].
  - inversion F as [|e ? es' ? V F']; subst. destruct V as (V1 & V2 & V3 & V4). destruct (v_plc v || negb (v_leaf v)) eqn:B.
    + destruct (new_deps t ns im) as [[ds1 ns1] im1] eqn:E. injection H as <- <- <-.
      destruct (IH _ _ _ _ _ _ E F' M) as (X & M' & D & QQ). split; [exact X|]. split; [exact M'|]. split.
      * constructor; [|exact D]. destruct (v_plc v) eqn:VP; [eapply dep_ok_ext; [exact X|auto]|].
        rewrite (V3 eq_refl). cbn in B. apply negb_true_iff in B. rewrite B in V2. symmetry in V2. apply nonil_false in V2.
        split; [split; [exact V2|apply incl_refl]|]. split; [auto|]. split; [auto|]. intros X0 lv ov L P P' H1 _. apply fold_ext; auto.
      * intros Q H1 H2. apply QQ; auto. intros x Hx. apply H2. right; exact Hx.
    + apply orb_false_iff in B. destruct B as [B1 B2]. rewrite (V3 B1) in H. rewrite B1 in V1. symmetry in V1. apply nonil_false in V1.
      destruct (name_of e ns) as [k ns1] eqn:EN. destruct (new_deps t ns1 (emplace im k e)) as [[ds1 ns2] im1] eqn:E. injection H as <- <- <-.
      destruct (name_ok _ _ _ _ _ EN M V1) as (X1 & M1 & D1 & Q1).
      assert (F1 : Forall2 (vis_ok ns1 (emplace im k e)) es' t).
      { clear - F' X1. induction F'; constructor; auto. eapply vis_ok_ext; eauto. }
      destruct (IH _ _ _ _ _ _ E F1 M1) as (X & M' & D & QQ). split; [eapply ext_trans; eauto|]. split; [exact M'|]. split.
      * constructor; [eapply dep_ok_ext; [exact X|exact D1]|exact D].
      * intros Q H1 H2. apply QQ; [apply Q1; [exact H1|apply H2; [left; reflexivity|exact V1]]|]. intros x Hx. apply H2. right; exact Hx.
Qed.

Fixpoint visit_args (l : list expr) (ns : list expr) (im : items) : list visit * list expr * items :=
  match l with
  | [] => ([], ns, im)
  | x :: t => let '(v, ns, im) := visit_node x ns im in let '(vs, ns, im) := visit_args t ns im in (v :: vs, ns, im)
  end.
Lemma visit_op o args ns im : visit_node (Op o args) ns im =
  let '(vs, ns, im) := visit_args args ns im in
  if negb (existsb v_plc vs) then (mkVisit (Op o args) false (existsb v_leaf vs), ns, im) else
  let '(ds, ns, im) := new_deps vs ns im in (mkVisit (Op o ds) true (existsb v_leaf vs), ns, im).
Proof. reflexivity. Qed.
Lemma fold_args {X} (lv : nat -> X) ov L P L' P' es ds :
  Forall2 (fun e d => fold lv ov L' P' d = fold lv ov L P e) es ds -> map_opt (fold lv ov L' P') ds = map_opt (fold lv ov L P) es.
Proof. induction 1 as [|e d es ds H F IH]; [reflexivity|]. cbn [map_opt]. rewrite H, IH. reflexivity. Qed.

Lemma visit_ok e : forall ns im v ns' im', visit_node e ns im = (v, ns', im') -> im_ok ns im ->
  ext ns ns' im im' /\ im_ok ns' im' /\ vis_ok ns' im' e v /\
  (forall Q : expr -> Prop, Forall Q ns -> (forall x, sub x e -> plcs x = [] -> Q x) -> Forall Q ns').
Proof.
  induction e as [k|k|n|o args IH] using expr_ind2; intros ns im v ns' im' H M.
  - injection H as <- <- <-. split; [apply ext_refl|]. split; [exact M|]. split; [|auto]. split; [reflexivity|]. split; [reflexivity|]. split; [reflexivity|discriminate].
  - injection H as <- <- <-. split; [apply ext_refl|]. split; [exact M|]. split; [|auto]. split; [reflexivity|]. split; [reflexivity|]. split; [reflexivity|].
    intros _. split; [split; [reflexivity|apply incl_refl]|]. split; [auto|]. split; [auto|]. intros X lv ov L P P' H1 _. cbn [v_expr fold]. apply H1. left; reflexivity.
  - injection H as <- <- <-. split; [apply ext_refl|]. split; [exact M|]. split; [|auto]. split; [reflexivity|]. split; [reflexivity|]. split; [reflexivity|discriminate].
  - rewrite visit_op in H. destruct (visit_args args ns im) as [[vs ns1] im1] eqn:EA.
    assert (A : ext ns ns1 im im1 /\ im_ok ns1 im1 /\ Forall2 (vis_ok ns1 im1) args vs /\
      (forall Q : expr -> Prop, Forall Q ns -> (forall y x, In y args -> sub x y -> plcs x = [] -> Q x) -> Forall Q ns1)).
    { clear H v ns' im'. revert ns im vs ns1 im1 EA M. induction args as [|x t IHt]; intros ns im vs ns1 im1 EA M; cbn [visit_args] in EA.
      - injection EA as <- <- <-. split; [apply ext_refl|]. split; [exact M|]. split; [constructor|auto].
      - inversion IH as [|? ? Hx Ht]; subst. destruct (visit_node x ns im) as [[v ns2] im2] eqn:E1. destruct (visit_args t ns2 im2) as [[vs' ns3] im3] eqn:E2.
        injection EA as <- <- <-. destruct (Hx _ _ _ _ _ E1 M) as (X1 & M1 & V1 & Q1). destruct (IHt Ht _ _ _ _ _ E2 M1) as (X2 & M2 & V2 & Q2).
        split; [eapply ext_trans; eauto|]. split; [exact M2|]. split.
        + constructor; [eapply vis_ok_ext; eauto|exact V2].
        + intros Q H1 H2. apply Q2; [apply Q1; [exact H1|]|].
          * intros y Y. apply (H2 x); [left; reflexivity|exact Y].
          * intros y z Y. apply H2. right; exact Y. }
    destruct A as (X1 & M1 & V1 & Q1).
    assert (EP : existsb v_plc vs = nonil (plcs (Op o args))).
    { clear - V1. cbn [plcs]. induction V1 as [|e v es vs (H & _) F IHF]; [reflexivity|]. cbn [existsb flat_map]. rewrite nonil_app, H, IHF. reflexivity. }
    assert (EL : existsb v_leaf vs = nonil (leaves (Op o args))).
    { clear - V1. cbn [leaves]. induction V1 as [|e v es vs (_ & H & _) F IHF]; [reflexivity|]. cbn [existsb flat_map]. rewrite nonil_app, H, IHF. reflexivity. }
    destruct (existsb v_plc vs) eqn:B; cbn [negb] in H.
    + destruct (new_deps vs ns1 im1) as [[ds ns2] im2] eqn:E. injection H as <- <- <-.
      destruct (new_deps_ok _ _ _ _ _ _ _ E V1 M1) as (X2 & M2 & D & Q2).
      split; [eapply ext_trans; eauto|]. split; [exact M2|]. split.
      * split; [exact EP|]. split; [exact EL|]. split; [discriminate|]. intros _. cbn [v_expr]. split; [|split; [|split]].
        -- split.
           ++ clear - D. cbn [leaves]. induction D as [|e d es ds ((H & _) & _) F IHF]; [reflexivity|]. cbn [flat_map]. rewrite H, IHF. reflexivity.
           ++ clear - D. cbn [plcs]. induction D as [|e d es ds ((_ & H) & _) F IHF]; [intros ? []|]. cbn [flat_map]. intros k K.
              apply in_app_iff in K. apply in_app_iff. destruct K as [K|K]; auto.
        -- intros k K. cbn [plcs] in K |- *. clear - D K. induction D as [|e d es ds (_ & H & _) F IHF]; [destruct K|]. cbn [flat_map] in K |- *.
           apply in_app_iff in K. rewrite in_app_iff. destruct K as [K|K]; [destruct (H k K) as [?|?]; auto|destruct (IHF K) as [?|?]; auto].
        -- intros HP a A. inversion A as [|? ? y Y S]; subst.
           ++ apply (HP args). constructor.
           ++ assert (PA : forall x, In x args -> plain x) by (intros x; apply plain_arg with (o := o), HP).
              clear - D Y S PA. induction D as [|e d es ds (_ & _ & H & _) F IHF]; [destruct Y|]. destruct Y as [->|Y].
              ** apply (H (PA e (or_introl eq_refl)) a S).
              ** apply IHF; [exact Y|]. intros z Z. apply PA. right; exact Z.
        -- intros X lv ov L P P' H1 H2. cbn [fold]. rewrite (fold_args lv ov L P L P' args ds); [reflexivity|].
           assert (H1' : forall x k, In x args -> In k (plcs x) -> P' k = P k) by (intros x k Hx K; apply H1; cbn [plcs]; apply in_flat_map; eauto).
           clear - D H1' H2. induction D as [|e d es ds (_ & _ & _ & H) F IHF]; constructor.
           ++ apply H; [|exact H2]. intros k. apply H1'. left; reflexivity.
           ++ apply IHF. intros x k Hx. apply H1'. right; exact Hx.
      * intros Q H1 H2. apply Q2; [apply Q1; [exact H1|]|].
        -- intros y x Y S. apply H2. eapply sub_arg; eauto.
        -- intros x Hx. apply H2. eapply sub_arg; [exact Hx|constructor].
    + injection H as <- <- <-. split; [exact X1|]. split; [exact M1|]. split.
      * split; [exact EP|]. split; [exact EL|]. split; [reflexivity|discriminate].
      * intros Q H1 H2. apply Q1; [exact H1|]. intros y x Y S. apply H2. eapply sub_arg; eauto.
Qed.

Lemma extract_ok e ns e' im ns' : extract e ns = (e', im, ns') ->
  (exists suf, ns' = ns ++ suf) /\ im_ok ns' im /\ dep_ok ns' im e e' /\
  (forall Q : expr -> Prop, Forall Q ns -> (forall x, sub x e -> plcs x = [] -> Q x) -> Forall Q ns').
Proof.
  unfold extract. destruct (visit_node e ns []) as [[v ns1] im1] eqn:E. intros H.
  assert (M0 : im_ok ns []) by (split; [constructor|discriminate]).
  destruct (visit_ok e _ _ _ _ _ E M0) as (X & M & (V1 & V2 & V3 & V4) & Q1). destruct (v_plc v) eqn:B.
  - injection H as <- <- <-. split; [apply X|]. auto.
  - rewrite (V3 eq_refl) in H. destruct (name_of e ns1) as [k ns2] eqn:EN. injection H as <- <- <-.
    symmetry in V1. apply nonil_false in V1. destruct (name_ok _ _ _ _ _ EN M V1) as (X2 & M2 & D2 & Q2).
    split; [apply (ext_trans _ _ _ _ _ _ X X2)|]. split; [exact M2|]. split; [exact D2|].
    intros Q H1 H2. apply Q2; [apply Q1; assumption|]. apply H2; [constructor|exact V1].
Qed.
