(** The transformed expression still stands for the expression, and does not copy what is shared. *)
From Verif Require Import Base Cfg_Model Cfg_Spec Cfg_Proofs.
From Verif Require Import Visit_Model Visit_Spec Visit_Proofs VisitOrder_Proofs Where_Model Where_Spec Where_Proofs Where_Dom Where_Main.

Section O.
Variables scw where_op : nat.
Hypothesis Hw : where_op <> scw.
Variable root : node.
Notation Tr := (Tr root).
Notation gated := (gated root).
Notation unpack := (unpack scw where_op).
Notation computes := (computes scw where_op).

Lemma unpack_inj v : no_op where_op v -> unpack [] (inj v) = v.
Proof.
  induction v as [v IH] using node_rect'. intros N. destruct v as [a|k|k|o a ds]; try reflexivity. cbn [inj Where_Spec.unpack]. destruct (Nat.eqb_spec o where_op) as [->|No]; [destruct (N a ds (sub_refl _))|].
  f_equal. rewrite map_map. transitivity (map (fun d => d) ds); [|apply map_id]. apply map_ext_in. intros d I. cbn [deps] in IH. rewrite Forall_forall in IH. apply (IH d I).
  intros b es S. apply (N b es). econstructor; [exact I|exact S].
Qed.
Lemma body_unpack p args outer x y : body p args x y -> unpack (map (unpack outer) args) y = unpack outer x.
Proof.
  intros H. induction H as [x i E N|x ys Z E A IH] using body_ind'.
  - cbn [Where_Spec.unpack]. apply nth_error_nth. rewrite nth_error_map, N. reflexivity.
  - assert (M : map (unpack (map (unpack outer) args)) ys = map (unpack outer) (xdeps x)).
    { clear A. induction IH as [|d y l m Q _ IHl]; cbn; [reflexivity|]. rewrite Q, IHl. reflexivity. }
    destruct x as [v|k|k|i|o a ds|a t f n ds]; cbn [xdeps] in *; cbn [xwith Where_Spec.unpack]; try reflexivity; [exfalso; apply (Z i eq_refl)|rewrite M; reflexivity|rewrite M; reflexivity].
Qed.
(** What a node computes itself. *)
Definition at_ (args : list node) (y : ex) (p : list node) (u : node) : Prop :=
  match y with
  | XOp _ _ _ => p = [] /\ u = unpack args y
  | XPack _ t f nt ds => (p = [] /\ u = unpack args y) \/
      match map (unpack args) ds with
      | [] => False
      | _ :: r => exists p', (p = unpack (firstn nt r) t :: p' /\ computes (firstn nt r) t p' u) \/ (p = unpack (skipn nt r) f :: p' /\ computes (skipn nt r) f p' u)
      end
  | _ => False
  end.
Lemma body_at bp args outer x ys p u : (forall i, x <> XArg i) -> Forall2 (body bp args) (xdeps x) ys -> at_ (map (unpack outer) args) (xwith x ys) p u -> at_ outer x p u.
Proof.
  intros Z A H.
  assert (M : map (unpack (map (unpack outer) args)) ys = map (unpack outer) (xdeps x)).
  { clear H. induction A as [|d y l m Q _ IHl]; cbn [map]; [reflexivity|]. rewrite (body_unpack bp args outer d y Q), IHl. reflexivity. }
  destruct x as [v|k|k|i|o a ds|a t f n ds]; cbn [xdeps] in *; cbn [xwith at_ Where_Spec.unpack] in *; try exact H; rewrite M in H; exact H.
Qed.
Lemma body_computes bp args outer xt env y p u : computes env y p u -> env = map (unpack outer) args -> forall x, body bp args x y -> reach bp xt x ->
  exists x', reach bp xt x' /\ bp x' = Some true /\ at_ outer x' p u.
Proof.
  assert (At : forall env y p u, at_ env y p u -> env = map (unpack outer) args -> forall x, body bp args x y -> reach bp xt x -> exists x', reach bp xt x' /\ bp x' = Some true /\ at_ outer x' p u).
  { clear. intros env y p u H -> x B R. inversion B as [x0 i E N E1 E2|x0 ys Z E A E1 E2]; subst; [destruct H|]. exists x. split; [exact R|]. split; [exact E|]. apply (body_at bp args outer x ys p u Z A H). }
  intros C. induction C as [env o a ds|env a t f nt ds|env y d p u I C IH|env a t f nt c ds p u C IH|env a t f nt c ds p u C IH]; intros Ee x B R.
  - apply (At env (XOp o a ds) [] (unpack env (XOp o a ds)) (conj eq_refl eq_refl) Ee x B R).
  - apply (At env (XPack a t f nt ds) [] (unpack env (XPack a t f nt ds)) (or_introl (conj eq_refl eq_refl)) Ee x B R).
  - inversion B as [x0 i E N E1 E2|x0 ys Z E A E1 E2]; subst; [destruct I|].
    assert (Id : In d ys) by (destruct x; cbn [xwith xdeps] in I; try exact I; try destruct I; exfalso; apply (Z i eq_refl)).
    destruct (Forall2_in_r _ _ _ _ A Id) as (x1 & I1 & B1). apply (IH eq_refl x1 B1). econstructor; eassumption.
  - apply (At env (XPack a t f nt (c :: ds)) (unpack (firstn nt (map (unpack env) ds)) t :: p) u) with (x := x); auto. cbn [at_ map]. right. exists p. left. auto.
  - apply (At env (XPack a t f nt (c :: ds)) (unpack (skipn nt (map (unpack env) ds)) f :: p) u) with (x := x); auto. cbn [at_ map]. right. exists p. right. auto.
Qed.
Lemma computes_at args y p u : computes args y p u -> exists y', reach (fun _ => Some true) y y' /\ at_ args y' p u.
Proof.
  assert (Up : forall y d y', In d (xdeps y) -> reach (fun _ => Some true) d y' -> reach (fun _ => Some true) y y').
  { clear. intros y d y' I R. induction R as [|z e R IH _ Ie]; [econstructor; [constructor|reflexivity|exact I]|]. econstructor; [exact IH|reflexivity|exact Ie]. }
  intros C. induction C as [env o a ds|env a t f nt ds|env y d p u I C IH|env a t f nt c ds p u C IH|env a t f nt c ds p u C IH].
  - eexists. split; [constructor|]. cbn. auto.
  - eexists. split; [constructor|]. cbn. auto.
  - destruct IH as (y' & R & A). exists y'. split; [apply (Up y d y' I R)|exact A].
  - eexists. split; [constructor|]. cbn [at_ map]. right. exists p. left. auto.
  - eexists. split; [constructor|]. cbn [at_ map]. right. exists p. right. auto.
Qed.

Section Rs.
Variable rs : list ex.
Hypothesis GD : forall v x, Tr rs v x -> good scw where_op root rs v x.
Hypothesis HN : no_op where_op root.
Lemma split_args ta fa : firstn (length ta) (map (unpack []) (ta ++ fa)) = map (unpack []) ta /\ skipn (length ta) (map (unpack []) (ta ++ fa)) = map (unpack []) fa.
Proof. induction ta as [|a ta [IH1 IH2]]; cbn [length app map firstn skipn]; [split; reflexivity|]. rewrite IH1, IH2. split; reflexivity. Qed.
Lemma unpack_T : forall v x, Tr rs v x -> unpack [] x = v.
Proof.
  intros v. induction v as [v IH] using node_rect'. intros x T. pose proof (GD v x T) as G. unfold good in G.
  destruct v as [a|k|k|o a ds]; try (subst x; reflexivity). cbn [deps] in IH. destruct (Nat.eqb_spec o scw) as [->|No].
  - destruct G as (c & t & f & xc & xt & xf & -> & Tc & Tt & Tf & G). inversion IH as [|? ? Ic IH1]; subst. inversion IH1 as [|? ? It IH2]; subst. inversion IH2 as [|? ? If _]; subst.
    destruct G as [(-> & _)|(pt & pf & tb & fb & ta & fa & -> & B1 & B2 & _)]; cbn [Where_Spec.unpack map].
    + rewrite Nat.eqb_refl, (Ic _ Tc), (It _ Tt), (If _ Tf). reflexivity.
    + destruct (split_args ta fa) as [-> ->]. rewrite (body_unpack pt ta [] xt tb B1), (body_unpack pf fa [] xf fb B2), (Ic _ Tc), (It _ Tt), (If _ Tf). reflexivity.
  - destruct G as (xs & F & ->). cbn [Where_Spec.unpack]. destruct (Nat.eqb_spec o where_op) as [->|_]; [destruct (HN a ds (proj1 T))|]. f_equal.
    clear T. induction F as [|d y ds xs Td F IHF]; [reflexivity|]. inversion IH as [|? ? H1 H2]; subst. cbn [map]. rewrite (H1 _ Td), (IHF H2). reflexivity.
Qed.
Lemma at_T : forall v x p u, Tr rs v x -> at_ [] x p u -> (forall b, In b p -> only_through root b u) /\ only_through root v u.
Proof.
  intros v. remember (size v) as k eqn:Ek. revert v Ek. induction k as [k IH] using lt_wf_ind. intros v Ek x p u T A.
  assert (Self : p = [] /\ u = unpack [] x -> (forall b, In b p -> only_through root b u) /\ only_through root v u).
  { intros [-> ->]. split; [intros b []|]. rewrite (unpack_T v x T). apply through_refl. }
  pose proof (GD v x T) as G. unfold good in G. destruct v as [a|m|m|o a ds]; try (subst x; destruct A; fail). destruct (Nat.eqb_spec o scw) as [Eo|No].
  - destruct G as (c & t & f & xc & xt & xf & -> & Tc & Tt & Tf & G). subst o. set (v := Op scw a [c; t; f]) in *.
    destruct G as [(-> & _)|(pt & pf & tb & fb & ta & fa & -> & B1 & B2 & _ & _ & N1 & N2)]; [apply Self; exact A|].
    cbn [at_] in A. destruct A as [A|A]; [apply Self; exact A|]. cbn [map] in A. destruct (split_args ta fa) as [S1 S2]. rewrite S1, S2 in A.
    assert (Br : forall bp e xe args y p', In e (deps v) -> Tr rs e xe -> body bp args xe y -> inner where_op root rs v e bp xe -> p = unpack (map (unpack []) args) y :: p' -> computes (map (unpack []) args) y p' u ->
      (forall b, In b p -> only_through root b u) /\ only_through root v u).
    { intros bp e xe args y p' Ie Te B N -> C. destruct (body_computes bp args [] xe _ y p' u C eq_refl xe B (reach_refl bp xe)) as (x' & R & E & A').
      destruct (N x' R E) as (u' & Tu & Su & Hu). destruct (Hu HN) as [Gt Th]. assert (Sz : size u' < k) by (apply dep_size in Ie; apply sub_size in Su; lia).
      destruct (IH (size u') Sz u' eq_refl x' p' u Tu A') as [I1 I2]. rewrite (body_unpack bp args [] xe y B), (unpack_T e xe Te).
      assert (K : only_through root e u) by (apply (through_trans root e u'); assumption). split; [intros b [<-|I]; [exact K|apply I1, I]|].
      apply (through_trans root v e); [|exact K]. apply use_through; [apply Gt|exact Ie|apply T]. }
    destruct A as (p' & [[E C]|[E C]]); [apply (Br pt t xt ta tb p'); auto; cbn; auto|apply (Br pf f xf fa fb p'); auto; cbn; auto].
  - destruct G as (xs & F & ->). apply Self. exact A.
Qed.
Lemma computes_T x p u : Tr rs root x -> computes [] x p u -> forall b, In b p -> only_through root b u.
Proof.
  intros T C. destruct (computes_at _ _ _ _ C) as (y & R & A). assert (E : exists v, Tr rs v y).
  { clear A. induction R as [|z e R IH _ Ie]; [eauto|]. destruct IH as (v & Tv). destruct (T_deps scw where_op root rs GD v z e Tv Ie) as (v' & T' & _). eauto. }
  destruct E as (v & Tv). apply (at_T v y p u Tv A).
Qed.
End Rs.
Lemma computes_inj v p u : computes [] (inj v) p u -> p = [].
Proof.
  intros C. destruct (computes_at _ _ _ _ C) as (y & R & A). assert (E : exists w, y = inj w).
  { clear A. induction R as [|z e R IH _ Ie]; [eauto|]. destruct IH as (w & ->). destruct w as [a|k|k|o a ds]; cbn [inj xdeps] in Ie; try destruct Ie. apply in_map_iff in Ie. destruct Ie as (d & <- & _). eauto. }
  destruct E as (w & ->). destruct w as [a|k|k|o a ds]; cbn in A; try destruct A. auto.
Qed.
End O.
