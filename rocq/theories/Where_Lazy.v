(** What the transformed expression evaluates. *)
From Verif Require Import Base Cfg_Model Cfg_Spec Cfg_Proofs.
From Verif Require Import Visit_Model Visit_Spec Visit_Proofs VisitOrder_Proofs Where_Model Where_Spec Where_Proofs Where_Dom Where_Main.

Lemma all_some_F2 {A B} (f : A -> option B) l : forall vs, all_some (map f l) = Some vs <-> Forall2 (fun a v => f a = Some v) l vs.
Proof.
  induction l as [|a l IH]; intros vs; cbn [map all_some].
  - split; [intros H; injection H as <-; constructor|intros H; inversion H; reflexivity].
  - destruct (f a) as [b|] eqn:E; cbn [bind].
    + destruct (all_some (map f l)) as [r|] eqn:R; cbn [bind].
      * split; [intros H; injection H as <-; constructor; [exact E|apply IH; reflexivity]|]. intros H. inversion H as [|? ? ? ? H1 H2]; subst. apply IH in H2. congruence.
      * split; [discriminate|]. intros H. inversion H as [|? ? ? ? H1 H2]; subst. apply IH in H2. congruence.
    + split; [discriminate|]. intros H. inversion H as [|? ? ? ? H1 H2]; subst. congruence.
Qed.
Lemma all_some_ok {A B} (f : A -> option B) l : (forall a, In a l -> f a <> None) -> exists vs, all_some (map f l) = Some vs.
Proof.
  induction l as [|a l IH]; intros H; [exists []; reflexivity|]. destruct IH as (vs & E); [intros b I; apply H; right; exact I|].
  cbn [map all_some]. destruct (f a) as [b|] eqn:F; [|destruct (H a (or_introl eq_refl) F)]. rewrite E. cbn [bind]. eauto.
Qed.

Section Z.
Variables scw where_op : nat.
Hypothesis Hw : where_op <> scw.
Context {D : Type}.
Variables (lit : nat -> D) (env : list nat -> D) (sem : nat -> list D -> option D) (present : D -> bool).
Hypothesis Hs : forall c t f, sem where_op [c; t; f] = Some (if present c then t else f).
Notation run := (run lit env sem present).
Notation lazy := (lazy scw lit env sem present).
Variable root : node.
Notation Tr := (Tr root).
Notation gated := (gated root).

(** ** Without conditionals *)
Lemma run_inj v : no_op scw v -> run [] (inj v) = lazy v.
Proof.
  induction v as [v IH] using node_rect'. intros N. destruct v as [a|k|k|o a ds]; try reflexivity. cbn [inj Where_Model.run Where_Spec.lazy]. destruct (Nat.eqb_spec o scw) as [->|No]; [destruct (N a ds (sub_refl _))|].
  assert (M : map (run []) (map inj ds) = map lazy ds).
  { rewrite map_map. apply map_ext_in. intros d I. cbn [deps] in IH. rewrite Forall_forall in IH. apply (IH d I). intros b es S. apply (N b es). econstructor; [exact I|exact S]. }
  rewrite M. destruct (all_some (map lazy ds)); reflexivity.
Qed.

Section Rs.
Variable rs : list ex.
Hypothesis GD : forall v x, Tr rs v x -> good scw where_op root rs v x.
Lemma pack_args ta fa vs : Forall2 (fun a v => run [] a = Some v) (ta ++ fa) vs ->
  Forall2 (fun a v => run [] a = Some v) ta (firstn (length ta) vs) /\ Forall2 (fun a v => run [] a = Some v) fa (skipn (length ta) vs).
Proof.
  revert vs. induction ta as [|a ta IH]; intros vs F; cbn [length]; [split; [constructor|exact F]|]. cbn in F. inversion F as [|? v ? vs' H1 H2]; subst.
  destruct (IH vs' H2) as [A B]. split; [constructor; [exact H1|exact A]|exact B].
Qed.
(** ** A value is the right one *)
Lemma value_T : forall v x d, Tr rs v x -> run [] x = Some d -> lazy v = Some d.
Proof.
  intros v. induction v as [v IH] using node_rect'. intros x d T R. pose proof (GD v x T) as G. unfold good in G.
  destruct v as [a|k|k|o a ds]; try (subst x; exact R). cbn [deps] in IH. cbn [Where_Spec.lazy]. destruct (o =? scw).
  - destruct G as (c & t & f & xc & xt & xf & -> & Tc & Tt & Tf & G). inversion IH as [|? ? Ic IH1]; subst. inversion IH1 as [|? ? It IH2]; subst. inversion IH2 as [|? ? If _]; subst.
    destruct G as [(-> & _)|(pt & pf & tb & fb & ta & fa & -> & B1 & B2 & _ & _)]; cbn [Where_Model.run] in R.
    + destruct (all_some (map (run []) [xc; xt; xf])) as [vs|] eqn:E; [|discriminate]. cbn [bind] in R. apply all_some_F2 in E.
      inversion E as [|? vc ? l1 Rc E1]; subst. inversion E1 as [|? vt ? l2 Rt E2]; subst. inversion E2 as [|? vf ? l3 Rf E3]; subst. inversion E3; subst.
      rewrite Hs in R. rewrite (Ic _ _ Tc Rc), (It _ _ Tt Rt), (If _ _ Tf Rf). destruct (present vc); exact R.
    + destruct (all_some (map (run []) (xc :: ta ++ fa))) as [vs|] eqn:E; [|discriminate]. cbn [bind] in R. apply all_some_F2 in E.
      inversion E as [|? vc ? l1 Rc E1]; subst. destruct (pack_args _ _ _ E1) as [F1 F2]. rewrite (Ic _ _ Tc Rc). destruct (present vc).
      * rewrite (body_run lit env sem present pt ta [] _ xt tb B1 F1) in R. apply (It _ _ Tt R).
      * rewrite (body_run lit env sem present pf fa [] _ xf fb B2 F2) in R. apply (If _ _ Tf R).
  - destruct G as (xs & F & ->). cbn [Where_Model.run] in R. destruct (all_some (map (run []) xs)) as [vs|] eqn:E; [|discriminate]. cbn [bind] in R. apply all_some_F2 in E.
    assert (E' : all_some (map lazy ds) = Some vs).
    { apply all_some_F2. clear R T. revert vs E. induction F as [|u y ds xs Tu F IHF]; intros vs E; inversion E as [|? v ? vs' R1 R2]; subst; [constructor|].
      inversion IH as [|? ? H1 H2]; subst. constructor; [apply (H1 _ _ Tu R1)|apply IHF; assumption]. }
    rewrite E'. exact R.
Qed.

(** ** Nothing else is needed *)
Hypothesis HN : no_op where_op root.
Definition opened (v u : node) : Prop := forall a c t f sel b, sub (Op scw a [c; t; f]) v ->
  (sel = true /\ b = t) \/ (sel = false /\ b = f) -> gated (Op scw a [c; t; f]) b -> only_through root b u -> exists x, lazy c = Some x /\ present x = sel.
Lemma gate_dep a c t f sel b : (sel = true /\ b = t) \/ (sel = false /\ b = f) -> In b (deps (Op scw a [c; t; f])).
Proof. intros [[_ ->]|[_ ->]]; cbn; auto. Qed.
(** A gate of a conditional at or below [v] does not contain a node at or above [v]. *)
Lemma gate_above v w b l z : sub w v -> In b (deps w) -> walk z l v -> In b l -> False.
Proof.
  intros S I W J. destruct (walk_between _ _ _ _ W J) as [_ K]. apply dep_size in I. apply sub_size in S, K. lia.
Qed.
Lemma opened_self v : sub v root -> opened v v.
Proof.
  intros Sv a c t f sel b S Hb G H. destruct (sub_walk root v Sv) as (l & W). exfalso. apply (gate_above v _ b l root S (gate_dep a c t f sel b Hb) W (H l W)).
Qed.
Lemma use_in w b q : gated w b -> sub q root -> In b (deps q) -> q = w.
Proof. intros [[_ U] _]. apply U. Qed.
Lemma opened_dep v d u : sub v root -> In d (deps v) -> sub u d -> opened d u ->
  (forall a c t f sel, v = Op scw a [c; t; f] -> (sel = true /\ d = t) \/ (sel = false /\ d = f) -> gated v d -> exists x, lazy c = Some x /\ present x = sel) -> opened v u.
Proof.
  intros Sv Id Su H Hd a c t f sel b S Hb G Th. set (w := Op scw a [c; t; f]) in *. pose proof (gate_dep a c t f sel b Hb) as Ib. fold w in Ib.
  assert (Sd : sub d root) by (apply (sub_trans _ v); [econstructor; [exact Id|constructor]|exact Sv]).
  destruct (sub_walk root v Sv) as (l1 & W1). destruct (sub_walk d u Su) as (l2 & W2).
  pose proof (Th _ (walk_app _ _ _ _ _ W1 (walk_step _ _ _ _ Id W2))) as J. cbn [tl] in J. apply in_app_or in J. destruct J as [J|J]; [destruct (gate_above v w b l1 root S Ib W1 J)|].
  destruct (walk_between _ _ _ _ W2 J) as [Kb _]. destruct (sub_parent b d Kb) as [->|(q & Sq & Iq)].
  - assert (v = w) as E by (apply (use_in w d v G Sv Id)). apply (Hd a c t f sel); [exact E|exact Hb|rewrite E; exact G].
  - assert (q = w) as E by (apply (use_in w b q G); [apply (sub_trans _ d); assumption|exact Iq]). subst q. apply (H a c t f sel b); assumption.
Qed.
Lemma opened_front v t u0 q u : sub v root -> In t (deps v) -> sub u0 t -> In u0 (deps q) -> only_through root t q -> sub q root -> ~ only_through root t u0 ->
  sub u u0 -> opened u0 u -> opened v u.
Proof.
  intros Sv It Su0 Iq Tq Sq No Su H a c t1 f sel b S Hb G Th. set (w := Op scw a [c; t1; f]) in *. pose proof (gate_dep a c t1 f sel b Hb) as Ib. fold w in Ib.
  destruct (sub_walk root q Sq) as (lq & Wq). destruct (walk_between _ _ _ _ Wq (Tq _ Wq)) as [_ Sqt].
  destruct (sub_walk root v Sv) as (l1 & W1). destruct (sub_walk t q Sqt) as (l3 & W3). destruct (sub_walk u0 u Su) as (l4 & W4).
  pose proof (walk_app _ _ _ _ _ W1 (walk_step _ _ _ _ It W3)) as W5. cbn [tl] in W5.
  pose proof (Th _ (walk_app _ _ _ _ _ W5 (walk_step _ _ _ _ Iq W4))) as J. cbn [tl] in J. apply in_app_or in J. destruct J as [J|J].
  - apply in_app_or in J. destruct J as [J|J]; [destruct (gate_above v w b l1 root S Ib W1 J)|]. exfalso. apply No. apply (through_up root t u0 u Su0 Su).
    apply (through_trans root t b u); [|exact Th]. destruct (walk_between _ _ _ _ W3 J) as [A B]. apply (between_through root t b q Tq A B).
  - destruct (walk_between _ _ _ _ W4 J) as [A _]. destruct (sub_parent b u0 A) as [->|(q' & Sq' & Iq')].
    + exfalso. apply No. assert (q = w) as E by (apply (use_in w u0 q G Sq Iq)). apply (through_trans root t q u0 Tq). rewrite E. apply use_through; [apply G|exact Ib|rewrite <- E; exact Sq].
    + assert (St : sub u0 root) by (apply (sub_trans _ q); [econstructor; [exact Iq|constructor]|exact Sq]).
      assert (q' = w) as E by (apply (use_in w b q' G); [apply (sub_trans _ u0); assumption|exact Iq']). subst q'. apply (H a c t1 f sel b); assumption.
Qed.
Lemma once_ne w b : gated w b -> forall l1 l2 l3, deps w = l1 ++ b :: l2 ++ b :: l3 -> False.
Proof.
  intros [[C _] _] l1 l2 l3 E. rewrite E in C. rewrite count_occ_app in C. rewrite count_occ_cons_eq in C by reflexivity. rewrite count_occ_app, count_occ_cons_eq in C by reflexivity. lia.
Qed.

Lemma lazy_T : forall v, sub v root -> forall x, Tr rs v x -> (forall u, sub u v -> opened v u -> lazy u <> None) -> exists d, run [] x = Some d /\ lazy v = Some d.
Proof.
  intros v. remember (size v) as k eqn:Ek. revert v Ek. induction k as [k IH] using lt_wf_ind. intros v Ek Sv x T H.
  assert (Go : forall d y, sub d v -> d <> v -> Tr rs d y -> (forall u, sub u d -> opened d u -> opened v u) -> exists z, run [] y = Some z /\ lazy d = Some z).
  { intros d y Sd Nd Td Ho. apply (IH (size d)); [|reflexivity|apply Td|exact Td|].
    - destruct (sub_cases d v Sd) as [E|(e & Ie & Se)]; [contradiction|]. apply dep_size in Ie. apply sub_size in Se. lia.
    - intros u Su Ou. apply H; [apply (sub_trans _ d); assumption|]. apply Ho; assumption. }
  assert (Dep : forall d y, In d (deps v) -> Tr rs d y -> (forall a c t f sel, v = Op scw a [c; t; f] -> (sel = true /\ d = t) \/ (sel = false /\ d = f) -> gated v d -> exists x, lazy c = Some x /\ present x = sel) ->
    exists z, run [] y = Some z /\ lazy d = Some z).
  { intros d y Id Td Hd. apply Go; [econstructor; [exact Id|constructor]|intros ->; apply dep_size in Id; lia|exact Td|]. intros u Su Ou. apply (opened_dep v d u); auto. }
  assert (Self : exists z, lazy v = Some z). { destruct (lazy v) as [z|] eqn:E; [eauto|]. destruct (H v (sub_refl v) (opened_self v Sv) E). }
  destruct Self as (z & Ez). exists z. split; [|exact Ez].
  assert (Hx : exists z', run [] x = Some z'); [|destruct Hx as (z' & Ez'); rewrite Ez'; pose proof (value_T v x z' T Ez'); congruence].
  pose proof (GD v x T) as G. unfold good in G. destruct v as [a|m|m|o a ds]; try (subst x; exists z; exact Ez).
  destruct (Nat.eqb_spec o scw) as [Eo|No].
  - destruct G as (c & t & f & xc & xt & xf & -> & Tc & Tt & Tf & G). subst o. set (v := Op scw a [c; t; f]) in *.
    assert (Ct : gated v t -> c <> t /\ f <> t).
    { intros Gt. split; intros E; [apply (once_ne v t Gt [] [] [f])|apply (once_ne v t Gt [c] [] [])]; unfold v; rewrite E; reflexivity. }
    assert (Cf : gated v f -> c <> f /\ t <> f).
    { intros Gt. split; intros E; [apply (once_ne v f Gt [] [t] [])|apply (once_ne v f Gt [c] [] [])]; unfold v; rewrite E; reflexivity. }
    destruct (Dep c xc) as (vc & Rc & Lc); [cbn; auto|exact Tc| |].
    { intros a' c' t' f' sel E Hb Gc. injection E as <- <- <- <-. destruct Hb as [[_ E]|[_ E]]; exfalso; rewrite E in Gc; [destruct (Ct Gc)|destruct (Cf Gc)]; congruence. }
    assert (DT : (gated v t -> present vc = true) -> exists z, run [] xt = Some z /\ lazy t = Some z).
    { intros Hp. apply Dep; [cbn; auto|exact Tt|]. intros a' c' t' f' sel E Hb Gt. injection E as <- <- <- <-. destruct Hb as [[-> _]|[_ E]]; [eauto|]. destruct (Ct Gt). congruence. }
    assert (DF : (gated v f -> present vc = false) -> exists z, run [] xf = Some z /\ lazy f = Some z).
    { intros Hp. apply Dep; [cbn; auto|exact Tf|]. intros a' c' t' f' sel E Hb Gt. injection E as <- <- <- <-. destruct Hb as [[_ E]|[-> _]]; [destruct (Cf Gt); congruence|eauto]. }
    destruct G as [(-> & NG)|(pt & pf & tb & fb & ta & fa & -> & B1 & B2 & F1 & F2 & _)]; cbn [Where_Model.run].
    + destruct (NG HN) as [N1 N2]. destruct DT as (vt & Rt & _); [intros Z; contradiction|]. destruct DF as (vf & Rf & _); [intros Z; contradiction|].
      cbn [map all_some]. rewrite Rc, Rt, Rf. cbn [bind]. rewrite Hs. eauto.
    + assert (Fr : forall e args, In e (deps v) -> (~ gated v e -> forall y, Tr rs e y -> exists z, run [] y = Some z) -> front where_op root rs v e args -> forall y, In y args -> run [] y <> None).
      { intros e args Ie He F y Iy. destruct (F y Iy) as (u & Tu & Su & Hu). destruct (Hu HN) as [(-> & Ng)|(Gt & (q & Sq & Iq & Tq) & C)].
        - destruct (He Ng y Tu) as (z' & R). congruence.
        - destruct C as [C|C].
          + pose proof (GD u y Tu) as Gu. destruct u as [b|m|m|p b es]; try discriminate; cbn in Gu; subst y; discriminate.
          + destruct (Go u y) as (z' & R & _); [apply (sub_trans _ e); [exact Su|econstructor; [exact Ie|constructor]]| |exact Tu| |congruence].
            * intros ->. apply dep_size in Ie. apply sub_size in Su. lia.
            * intros u' Su' Ou. apply (opened_front v e u q u'); assumption. }
      destruct (all_some_ok (run []) (xc :: ta ++ fa)) as (vs & E).
      { intros y [<-|I]; [congruence|]. apply in_app_or in I. destruct I as [I|I].
        - apply (Fr t ta); auto; [cbn; auto|]. intros Ng y' Ty. rewrite (Tr_fun root rs t y' xt Ty Tt). destruct DT as (z' & R & _); [intros; contradiction|eauto].
        - apply (Fr f fa); auto; [cbn; auto|]. intros Ng y' Ty. rewrite (Tr_fun root rs f y' xf Ty Tf). destruct DF as (z' & R & _); [intros; contradiction|eauto]. }
      rewrite E. cbn [bind]. apply all_some_F2 in E. inversion E as [|? vc' ? l1 Rc' E1]; subst. rewrite Rc in Rc'. injection Rc' as <-.
      destruct (pack_args _ _ _ E1) as [A1 A2]. destruct (present vc) eqn:P.
      * rewrite (body_run lit env sem present pt ta [] _ xt tb B1 A1). destruct DT as (z' & R & _); eauto.
      * rewrite (body_run lit env sem present pf fa [] _ xf fb B2 A2). destruct DF as (z' & R & _); eauto.
  - destruct G as (xs & F & ->). cbn [Where_Model.run]. set (v := Op o a ds) in *.
    assert (A : all_some (map (run []) xs) = all_some (map lazy ds)).
    { assert (Q : forall d y, In d ds -> Tr rs d y -> run [] y = lazy d).
      { intros d y Id Td. destruct (Dep d y Id Td) as (z' & R & L'); [|congruence]. intros a' c t f sel E. injection E as E _ _. congruence. }
      clear T Ez H Go Dep Sv v Ek. induction F as [|d y ds xs Td F IHF]; [reflexivity|]. cbn [map all_some]. rewrite (Q d y (or_introl eq_refl) Td), IHF; [reflexivity|]. intros e w I. apply Q. right. exact I. }
    rewrite A. exists z. cbn [Where_Spec.lazy] in Ez. unfold v in Ez. cbn [Where_Spec.lazy] in Ez. destruct (Nat.eqb_spec o scw) as [|_]; [contradiction|]. destruct (all_some (map lazy ds)); exact Ez.
Qed.
Lemma opened_selected u : selected scw lit env sem present root u <-> opened root u.
Proof.
  split.
  - intros H a c t f sel b S Hb [U C] Th. apply (H c sel b); [|exact Th]. destruct Hb as [[-> ->]|[-> ->]]; [apply (branch_true scw root a c t f)|apply (branch_false scw root a c t f)]; assumption.
  - intros H c sel b B Th. destruct B as [a c t f S U C|a c t f S U C]; [apply (H a c t f true t)|apply (H a c t f false f)]; auto; split; assumption.
Qed.
End Rs.
End Z.
