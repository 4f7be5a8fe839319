(** The transformation: what every node becomes. *)
From Verif Require Import Base Cfg_Model Cfg_Spec Cfg_Proofs.
From Verif Require Import Visit_Model Visit_Spec Visit_Proofs VisitOrder_Proofs Where_Model Where_Spec Where_Proofs Where_Dom.

Lemma Forall2_app_inv' {A B} (R : A -> B -> Prop) a b l : Forall2 R (a ++ b) l -> exists x y, l = x ++ y /\ Forall2 R a x /\ Forall2 R b y.
Proof. intros H. apply Forall2_app_inv_l in H. destruct H as (x & y & A1 & B1 & E). eauto. Qed.
Lemma Forall2_len {A B} (R : A -> B -> Prop) a b : Forall2 R a b -> length a = length b.
Proof. induction 1; cbn; congruence. Qed.
Lemma Forall2_in_r {A B} (R : A -> B -> Prop) a b y : Forall2 R a b -> In y b -> exists x, In x a /\ R x y.
Proof. induction 1 as [|x z a b H F IH]; intros I; [destruct I|]. destruct I as [<-|I]; [exists x; split; [left; reflexivity|exact H]|]. destruct (IH I) as (w & W & Q). exists w. split; [right; exact W|exact Q]. Qed.
Lemma Forall2_imp {A B} (R Q : A -> B -> Prop) a b : (forall x y, In x a -> R x y -> Q x y) -> Forall2 R a b -> Forall2 Q a b.
Proof. intros H. induction 1 as [|x y a b X F IH]; constructor; [apply H; [left; reflexivity|exact X]|]. apply IH. intros u w I. apply H. right. exact I. Qed.

(** ** Walks *)
Lemma walk_split a l v x : walk a l v -> In x l -> exists l1 l2, walk a l1 x /\ walk x l2 v /\ incl l1 l /\ incl l2 l.
Proof.
  induction 1 as [n|n d l v H W IH]; intros I.
  - destruct I as [<-|[]]. exists [n], [n]. split; [constructor|]. split; [constructor|]. split; apply incl_refl.
  - destruct I as [<-|I].
    + exists [n], (n :: l). split; [constructor|]. split; [econstructor; eassumption|]. split; [intros z [<-|[]]; left; reflexivity|apply incl_refl].
    + destruct (IH I) as (l1 & l2 & A & B & C & Dd). exists (n :: l1), l2. split; [econstructor; eassumption|]. split; [exact B|].
      split; [intros z [<-|Z]; [left; reflexivity|right; apply C, Z]|intros z Z; right; apply Dd, Z].
Qed.
Lemma through_trans root a b c : only_through root a b -> only_through root b c -> only_through root a c.
Proof. intros A B l W. destruct (walk_split _ _ _ _ W (B l W)) as (l1 & l2 & W1 & _ & I & _). apply I, A, W1. Qed.
Lemma through_refl root a : only_through root a a.
Proof. intros l W. apply (walk_end _ _ _ W). Qed.
Lemma walk_last a l v : walk a l v -> v = a \/ exists l' q, walk a l' q /\ In v (deps q) /\ incl l' l.
Proof.
  induction 1 as [n|n d l v H W IH]; [left; reflexivity|]. right. destruct IH as [->|(l' & q & W' & I & J)].
  - exists [n], n. split; [constructor|]. split; [exact H|]. intros z [<-|[]]. left. reflexivity.
  - exists (n :: l'), q. split; [econstructor; eassumption|]. split; [exact I|]. intros z [<-|Z]; [left; reflexivity|right; apply J, Z].
Qed.
Lemma use_through root w b : only_use root w b -> In b (deps w) -> sub w root -> only_through root w b.
Proof.
  intros [_ U] I S l W. destruct (walk_last _ _ _ W) as [->|(l' & q & W' & J & K)].
  - exfalso. apply dep_size in I. apply sub_size in S. lia.
  - rewrite <- (U q (walk_sub _ _ _ W') J). apply K, (walk_end _ _ _ W').
Qed.
Lemma sub_root_trans a b c : sub a b -> sub b c -> sub a c. Proof. apply sub_trans. Qed.
(** What lies between [t] and a node that is only used through [t]. *)
Lemma between_through root t x q : only_through root t q -> sub x t -> sub q x -> only_through root t x.
Proof.
  intros H S1 S2 l W. destruct (sub_walk x q S2) as (m & M). pose proof (H _ (walk_app _ _ _ _ _ W M)) as I. apply in_app_or in I. destruct I as [I|I]; [exact I|].
  assert (In t m) as J by (destruct (walk_head _ _ _ M) as (r & ->); right; exact I).
  destruct (walk_between _ _ _ _ M J) as [A _]. rewrite (sub_anti _ _ A S1). apply (walk_end _ _ _ W).
Qed.
(** A node above one that is only used through [t], but below [t]. *)
Lemma through_up root t u0 u : sub u0 t -> sub u u0 -> only_through root t u -> only_through root t u0.
Proof. intros A B H. apply (between_through root t u0 u H A B). Qed.

Inductive reach (p : ex -> option bool) (x : ex) : ex -> Prop :=
  | reach_refl : reach p x x
  | reach_dep y d : reach p x y -> p y = Some true -> In d (xdeps y) -> reach p x d.
Fixpoint inst (args : list ex) (y : ex) : ex :=
  match y with
  | XArg i => nth i args (XArg i)
  | XOp o a ds => XOp o a (map (inst args) ds)
  | XPack a t f n ds => XPack a t f n (map (inst args) ds)
  | _ => y
  end.
Lemma body_inst p args x y : body p args x y -> inst args y = x.
Proof.
  intros H. induction H as [x i E N|x ys Z E A IH] using body_ind'; [cbn; apply nth_error_nth, N|].
  assert (M : map (inst args) ys = xdeps x). { clear A. induction IH as [|d y l m Q _ IHl]; cbn; [reflexivity|]. rewrite Q, IHl. reflexivity. }
  destruct x as [v|k|k|i|o a ds|a t f n ds]; cbn [xdeps] in *; cbn [xwith inst]; try reflexivity; [exfalso; apply (Z i eq_refl)|rewrite M; reflexivity|rewrite M; reflexivity].
Qed.
Lemma inj_inj u : forall v, inj u = inj v -> u = v.
Proof.
  induction u as [u IH] using node_rect'. intros v E. destruct u as [a|k|k|o a ds], v as [b|l|l|p b es]; cbn [inj] in E; try discriminate; try congruence.
  injection E as -> -> E. f_equal. cbn [deps] in IH. revert es E. induction ds as [|d ds IHd]; intros [|e es] E; try discriminate; [reflexivity|].
  injection E as E1 E2. inversion IH as [|? ? H1 H2]; subst. f_equal; [apply H1, E1|apply IHd; assumption].
Qed.

Section W.
Variables scw where_op : nat.
Hypothesis Hw : where_op <> scw.
Variable root : node.
Let nodes := po root [].
Let n := length nodes.
Notation pos_of := (pos_of root).
Notation id_of := (id_of root).

Definition Tr (rs : list ex) (v : node) (x : ex) : Prop := sub v root /\ nth_error rs (pos_of v) = Some x.
Definition NM : Prop := no_op where_op root.
Definition gated (w b : node) : Prop := only_use root w b /\ computed b = true.
Definition front (rs : list ex) (w t : node) (args : list ex) : Prop := forall x, In x args -> exists u, Tr rs u x /\ sub u t /\
  (NM -> (u = t /\ ~ gated w t) \/ (gated w t /\ (exists q, sub q root /\ In u (deps q) /\ only_through root t q) /\ (computed u = false \/ ~ only_through root t u))).
(** The nodes [extract] accepts are the nodes that are only used through the branch. *)
Definition inner (rs : list ex) (w t : node) (p : ex -> option bool) (xt : ex) : Prop := forall x, reach p xt x -> p x = Some true -> exists u, Tr rs u x /\ sub u t /\ (NM -> gated w t /\ only_through root t u).
Definition good (rs : list ex) (v : node) (x : ex) : Prop :=
  match v with
  | Op o a ds =>
      if o =? scw then exists c t f xc xt xf, ds = [c; t; f] /\ Tr rs c xc /\ Tr rs t xt /\ Tr rs f xf /\
        ((x = XOp where_op a [xc; xt; xf] /\ (NM -> ~ gated v t /\ ~ gated v f)) \/
         exists pt pf tb fb ta fa, x = XPack a tb fb (length ta) (xc :: ta ++ fa) /\ body pt ta xt tb /\ body pf fa xf fb /\ front rs v t ta /\ front rs v f fa /\ inner rs v t pt xt /\ inner rs v f pf xf)
      else exists xs, Forall2 (Tr rs) ds xs /\ x = XOp o a xs
  | _ => x = inj v
  end.
Lemma Tr_more rs y v x : Tr rs v x -> Tr (rs ++ [y]) v x.
Proof. intros [S E]. split; [exact S|]. rewrite nth_error_app1; [exact E|]. apply nth_error_Some. congruence. Qed.
Lemma Tr_fun rs v x y : Tr rs v x -> Tr rs v y -> x = y. Proof. intros [_ A] [_ B]. congruence. Qed.
Lemma front_more rs y w t args : front rs w t args -> front (rs ++ [y]) w t args.
Proof. intros H x I. destruct (H x I) as (u & A & B). exists u. split; [apply Tr_more, A|exact B]. Qed.
Lemma inner_more rs y w t p xt : inner rs w t p xt -> inner (rs ++ [y]) w t p xt.
Proof. intros H x R E. destruct (H x R E) as (u & A & B). exists u. split; [apply Tr_more, A|exact B]. Qed.
Lemma good_more rs y v x : good rs v x -> good (rs ++ [y]) v x.
Proof.
  unfold good. destruct v as [k|k|k|o a ds]; auto. destruct (o =? scw).
  - intros (c & t & f & xc & xt & xf & E & A & B & C & H). exists c, t, f, xc, xt, xf. split; [exact E|]. split; [apply Tr_more, A|]. split; [apply Tr_more, B|]. split; [apply Tr_more, C|].
    destruct H as [H|(pt & pf & tb & fb & ta & fa & E1 & B1 & B2 & F1 & F2 & N1 & N2)]; [left; exact H|right]. exists pt, pf, tb, fb, ta, fa. auto 12 using front_more, inner_more.
  - intros (xs & F & E). exists xs. split; [|exact E]. clear E. induction F; constructor; auto using Tr_more.
Qed.

Section Rs.
Variable rs : list ex.
Hypothesis GD : forall v x, Tr rs v x -> good rs v x.
Lemma T_inj : NM -> forall v x, Tr rs v x -> forall w, sub w root -> x = inj w -> v = w.
Proof.
  intros H v. induction v as [v IH] using node_rect'. intros x T w S E. pose proof (GD v x T) as G. unfold good in G.
  destruct v as [a|k|k|o a ds]; try (rewrite G in E; apply inj_inj; exact E). destruct (Nat.eqb_spec o scw) as [Eo|No].
  - destruct G as (c & t & f & xc & xt & xf & -> & _ & _ & _ & [(-> & _)|(pt & pf & tb & fb & ta & fa & -> & _)]).
    + destruct w as [b|l|l|p b es]; try discriminate. cbn [inj] in E. injection E as <- <- _. exfalso. apply (H _ _ S).
    + destruct w; discriminate.
  - destruct G as (xs & F & ->). destruct w as [b|l|l|p b es]; try discriminate. cbn [inj] in E. injection E as <- <- E. f_equal. cbn [deps] in IH.
    assert (Se : forall e, In e es -> sub e root) by (intros e I; eapply sub_trans; [|exact S]; econstructor; [exact I|constructor]).
    clear T S. revert es E Se. induction F as [|d y ds ys Td F IHF]; intros [|e es] E Se; try discriminate; [reflexivity|]. injection E as E1 E2. inversion IH as [|? ? H1 H2]; subst.
    f_equal; [apply (H1 _ Td); [apply Se; left; reflexivity|reflexivity]|]. apply IHF; [exact H2|reflexivity|]. intros z Z. apply Se. right. exact Z.
Qed.
Lemma T_one : NM -> forall v x, Tr rs v x -> forall w, Tr rs w x -> v = w.
Proof.
  intros H v. induction v as [v IH] using node_rect'. intros x T w S. pose proof (GD v x T) as G. pose proof (GD w x S) as K.
  destruct v as [a|k|k|o a ds]; try (symmetry; apply (T_inj H _ _ S); [apply T|exact G]).
  destruct w as [b|l|l|p b es]; try (apply (T_inj H _ _ T); [apply S|exact K]).
  unfold good in G, K. cbn [deps] in IH. destruct (Nat.eqb_spec o scw) as [Eo|No], (Nat.eqb_spec p scw) as [Ep|Np].
  - subst. destruct G as (c & t & f & xc & xt & xf & -> & Tc & Tt & Tf & G), K as (c' & t' & f' & xc' & xt' & xf' & -> & Tc' & Tt' & Tf' & K).
    inversion IH as [|? ? Ic IH1]; subst. inversion IH1 as [|? ? It IH2]; subst. inversion IH2 as [|? ? If _]; subst.
    destruct G as [(-> & _)|(pt & pf & tb & fb & ta & fa & -> & B1 & B2 & _)], K as [(E & _)|(pt' & pf' & tb' & fb' & ta' & fa' & E & B1' & B2' & _)]; try discriminate.
    + injection E as <- <- <- <-. rewrite (Ic _ Tc _ Tc'), (It _ Tt _ Tt'), (If _ Tf _ Tf'). reflexivity.
    + injection E as <- <- <- El <- Ea.
      assert (ta' = ta /\ fa' = fa) as [-> ->].
      { clear - El Ea. revert ta' El Ea. induction ta as [|y ta IHa]; intros [|z ta'] El Ea; try discriminate; [auto|]. cbn in El, Ea. injection El as El. injection Ea as <- Ea. destruct (IHa ta' El Ea) as [-> ->]. auto. }
      apply body_inst in B1, B2, B1', B2'. rewrite B1 in B1'. rewrite B2 in B2'. subst xt' xf'.
      rewrite (Ic _ Tc _ Tc'), (It _ Tt _ Tt'), (If _ Tf _ Tf'). reflexivity.
  - destruct K as (xs & F & ->). destruct G as (c & t & f & xc & xt & xf & -> & _ & _ & _ & [(E & _)|(pt & pf & tb & fb & ta & fa & E & _)]); [|discriminate].
    injection E as -> -> ->. exfalso. apply (H _ _ (proj1 S)).
  - destruct G as (xs & F & ->). destruct K as (c & t & f & xc & xt & xf & -> & _ & _ & _ & [(E & _)|(pt & pf & tb & fb & ta & fa & E & _)]); [|discriminate].
    injection E as -> -> ->. exfalso. apply (H _ _ (proj1 T)).
  - destruct G as (xs & F & ->), K as (ys & F' & E). injection E as <- <- <-. f_equal. clear T S. revert es F'. induction F as [|d y ds ys Td F IHF]; intros es F'; inversion F' as [|e ? es' ? Te Fe]; subst; [reflexivity|].
    inversion IH as [|? ? H1 H2]; subst. f_equal; [apply (H1 _ Td _ Te)|apply IHF; assumption].
Qed.
(** The dependencies of a new node. *)
Lemma T_deps u x y : Tr rs u x -> In y (xdeps x) -> exists u', Tr rs u' y /\ sub u' u /\
  (NM -> exists q, sub q root /\ In u' (deps q) /\ only_through root u q).
Proof.
  intros T I. pose proof (GD u x T) as G. destruct T as [Su _]. unfold good in G. destruct u as [a|k|k|o a ds]; try (subst x; exact (False_ind _ I)).
  destruct (Nat.eqb_spec o scw) as [Eo|No].
  - destruct G as (c & t & f & xc & xt & xf & -> & Tc & Tt & Tf & G).
    assert (Dep : forall d y, In d [c; t; f] -> Tr rs d y -> exists u', Tr rs u' y /\ sub u' (Op o a [c; t; f]) /\ (NM -> exists q, sub q root /\ In u' (deps q) /\ only_through root (Op o a [c; t; f]) q)).
    { intros d z Id Td. exists d. split; [exact Td|]. split; [econstructor; [exact Id|constructor]|]. intros _. exists (Op o a [c; t; f]). split; [exact Su|]. split; [exact Id|apply through_refl]. }
    assert (Fr : forall d args, In d [c; t; f] -> front rs (Op o a [c; t; f]) d args -> In y args -> exists u', Tr rs u' y /\ sub u' (Op o a [c; t; f]) /\ (NM -> exists q, sub q root /\ In u' (deps q) /\ only_through root (Op o a [c; t; f]) q)).
    { intros d args Id F J. destruct (F y J) as (u' & T' & S' & N'). exists u'. split; [exact T'|]. split; [econstructor; [exact Id|exact S']|]. intros HN.
      destruct (N' HN) as [(-> & _)|((U & _) & (q & Sq & Iq & Tq) & _)]; [exists (Op o a [c; t; f]); split; [exact Su|]; split; [exact Id|apply through_refl]|].
      exists q. split; [exact Sq|]. split; [exact Iq|]. apply (through_trans _ _ d); [|exact Tq]. apply use_through; [exact U|exact Id|exact Su]. }
    destruct G as [(-> & _)|(pt & pf & tb & fb & ta & fa & -> & _ & _ & F1 & F2 & _)]; cbn [xdeps] in I.
    + destruct I as [<-|[<-|[<-|[]]]]; [apply (Dep c)|apply (Dep t)|apply (Dep f)]; cbn; auto.
    + destruct I as [<-|I]; [apply (Dep c); cbn; auto|]. apply in_app_or in I. destruct I as [I|I]; [apply (Fr t ta)|apply (Fr f fa)]; cbn; auto.
  - destruct G as (xs & F & ->). cbn [xdeps] in I. destruct (Forall2_in_r _ _ _ _ F I) as (d & Id & Td). exists d. split; [exact Td|]. split; [econstructor; [exact Id|constructor]|].
    intros _. exists (Op o a ds). split; [exact Su|]. split; [exact Id|apply through_refl].
Qed.
Lemma T_leaf v x : Tr rs v x -> computed v = match x with XLeaf _ => false | XLit _ => false | _ => true end.
Proof.
  intros T. pose proof (GD v x T) as G. unfold good in G. destruct v as [a|k|k|o a ds]; try (subst x; reflexivity). destruct (o =? scw).
  - destruct G as (c & t & f & xc & xt & xf & _ & _ & _ & _ & [(-> & _)|(pt & pf & tb & fb & ta & fa & -> & _)]); reflexivity.
  - destruct G as (xs & _ & ->). reflexivity.
Qed.
Lemma T_arg v i : ~ Tr rs v (XArg i).
Proof.
  intros T. pose proof (GD v _ T) as G. unfold good in G. destruct v as [a|k|k|o a ds]; try discriminate. destruct (o =? scw).
  - destruct G as (c & t & f & xc & xt & xf & _ & _ & _ & _ & [(E & _)|(pt & pf & tb & fb & ta & fa & E & _)]); discriminate.
  - destruct G as (xs & _ & E). discriminate.
Qed.

(** ** One conditional *)
Variable d : dtree.
Variable L : list (list Z).
Hypothesis EL : build_deps (mkP nodes (adj_of nodes)) n (repeat [] n) 0 n = Some L.
Hypothesis EG : create L = Some (inl (t_g d)).
Hypothesis ET : tree (t_g d) = Some (t_ts d).
Hypothesis ID : forall v x, Tr rs v x -> exists w, sub w root /\ xlook (t_ids d) x = Some (pos_of w) /\ (NM -> w = v).
Notation GO := (g_ok root d L EL EG ET).
Lemma id_T v x : Tr rs v x -> exists w, sub w root /\ get_id d x = Some (id_of w) /\ (NM -> w = v).
Proof.
  intros T. destruct (ID v x T) as (w & S & E & H). exists w. split; [exact S|]. split; [|exact H]. unfold get_id. rewrite E. cbn [bind].
  destruct GO as (_ & _ & -> & _). reflexivity.
Qed.
Lemma single_T v x : Tr rs v x -> exists b, single d x = Some b /\ (NM -> forall w, sub w root -> In v (deps w) -> b = true <-> only_use root w v).
Proof.
  intros T. destruct (id_T v x T) as (w & S & E & H). unfold single. rewrite E. cbn [bind]. destruct GO as (_ & _ & _ & _ & _ & R). rewrite R by (apply (id_lt root w S)). cbn [bind].
  eexists. split; [reflexivity|]. intros HN w' Sw' I. rewrite Nat.eqb_eq. rewrite (H HN). apply (single_use root d L EL EG ET w' v Sw' I).
Qed.
Lemma sdom_T u x t xt : Tr rs u x -> Tr rs t xt -> exists b, sdom d x xt = Some b /\ (NM -> b = true <-> depth root d t < depth root d u).
Proof.
  intros T T'. destruct (id_T u x T) as (w & S & E & H). destruct (id_T t xt T') as (w' & S' & E' & H'). unfold sdom. rewrite E, E'. cbn [bind].
  destruct (depth_rd root d L EL EG ET w S) as (i & Ri & Di). destruct (depth_rd root d L EL EG ET w' S') as (j & Rj & Dj). rewrite Ri, Rj. cbn [bind]. eexists. split; [reflexivity|].
  intros HN. rewrite Nat.ltb_lt, Di, Dj, (H HN), (H' HN). reflexivity.
Qed.
Lemma gated_T w t xt : sub w root -> In t (deps w) -> Tr rs t xt -> exists b, must d xt xt = Some b /\ (NM -> b = true <-> gated w t).
Proof.
  intros Sw I T. destruct (single_T t xt T) as (b & E & H). pose proof (T_leaf t xt T) as Lf. unfold gated.
  destruct (computed t) eqn:C.
  - exists b. split; [destruct xt; try discriminate; cbn [must]; rewrite ?ex_refl; exact E|]. intros HN. rewrite (H HN w Sw I). intuition.
  - exists false. split; [destruct xt; try discriminate; reflexivity|]. intros HN. split; [discriminate|intros [_ Z]; discriminate].
Qed.
Lemma branch_T w t xt : sub w root -> In t (deps w) -> Tr rs t xt -> exists y args, extract (must d xt) xt = Some (y, args) /\ body (must d xt) args xt y /\ front rs w t args /\ inner rs w t (must d xt) xt.
Proof.
  intros Sw I T. set (p := must d xt).
  set (V := fun x => exists u, Tr rs u x /\ sub u t /\ (NM -> u = t \/ (gated w t /\ exists q, sub q root /\ In u (deps q) /\ only_through root t q))).
  assert (Pdef : forall u x, Tr rs u x -> exists b, p x = Some b).
  { intros u x Tu. unfold p, must. destruct x as [v|k|k|i|o a ds|a tb fb nt ds]; eauto; destruct (ex_eqb _ xt); solve [destruct (single_T u _ Tu) as (b & E & _); eauto|destruct (sdom_T u _ t xt Tu T) as (b & E & _); eauto]. }
  assert (Peq : forall u x b, Tr rs u x -> computed u = true -> p x = Some b -> NM -> if node_dec u t then single d xt = Some b else sdom d x xt = Some b).
  { intros u x b Tu C P HN. unfold p, must in P. pose proof (T_leaf u x Tu) as Lf. rewrite C in Lf.
    assert (P' : (if ex_eqb x xt then single d x else sdom d x xt) = Some b) by (destruct x; try discriminate; exact P). clear P.
    destruct (ex_spec x xt) as [->|N].
    - destruct (node_dec u t) as [E|N]; [exact P'|]. exfalso. apply N. apply (T_one HN u xt Tu t T).
    - destruct (node_dec u t) as [E|_]; [|exact P']. exfalso. apply N. subst u. apply (Tr_fun rs t); assumption. }
  assert (KT : forall u x, Tr rs u x -> computed u = true -> p x = Some true -> NM -> (u = t \/ (gated w t /\ exists q, sub q root /\ In u (deps q) /\ only_through root t q)) -> gated w t /\ only_through root t u).
  { intros u x Tu C P HN Hu. pose proof (Peq u x true Tu C P HN) as Q. destruct (node_dec u t) as [->|Nu].
    - split; [|apply through_refl]. destruct (single_T t xt T) as (b & Es & Hs). rewrite Q in Es. injection Es as <-. split; [apply (Hs HN w Sw I); reflexivity|exact C].
    - destruct Hu as [E|(Gt & q0 & Sq0 & Iq0 & Tq0)]; [contradiction|]. split; [exact Gt|]. destruct (sdom_T u x t xt Tu T) as (b & Es & Hs). rewrite Q in Es. injection Es as <-.
      apply (dom_depth root d L EL EG ET t q0 u); auto; [apply T|]. apply (Hs HN). reflexivity. }
  assert (Vt : V xt) by (exists t; split; [exact T|]; split; [constructor|]; intros _; left; reflexivity).
  assert (PD : forall x y, V x -> p x = Some true -> In y (xdeps x) -> V y).
  { intros x y (u & Tu & Su & Hu) P Iy. destruct (T_deps u x y Tu Iy) as (u' & Tu' & Su' & Hu'). exists u'. split; [exact Tu'|]. split; [apply (sub_trans _ u); assumption|].
    intros HN. right.
    assert (C : computed u = true) by (rewrite (T_leaf u x Tu); destruct x; try reflexivity; destruct Iy).
    destruct (Hu' HN) as (q & Sq & Iq & Tq). destruct (KT u x Tu C P HN (Hu HN)) as [Gt Kt].
    split; [exact Gt|]. exists q. split; [exact Sq|]. split; [exact Iq|]. apply (through_trans _ _ u); assumption. }
  assert (IN : inner rs w t p xt).
  { intros x R E. assert (V x) as (u & Tu & Su & Hu) by (clear E; induction R as [|y0 d0 R IHR P0 I0]; [exact Vt|apply (PD y0 d0 IHR P0 I0)]).
    exists u. split; [exact Tu|]. split; [exact Su|]. intros HN. apply (KT u x Tu); auto. rewrite (T_leaf u x Tu). unfold p, must in E. destruct x; reflexivity || discriminate. }
  destruct (extract_ok p V) with (x := xt) as (y & args & E & B & _ & A).
  - intros i (u & Tu & _). apply (T_arg u i Tu).
  - intros x (u & Tu & _). apply (Pdef u x Tu).
  - exact PD.
  - exact Vt.
  - exists y, args. split; [exact E|]. split; [exact B|]. split; [|exact IN]. intros x Ix. destruct (A x Ix) as ((u & Tu & Su & Hu) & P). exists u. split; [exact Tu|]. split; [exact Su|]. intros HN.
    destruct (computed u) eqn:C.
    + pose proof (Peq u x false Tu C P HN) as Q. destruct (node_dec u t) as [->|Nu].
      * left. split; [reflexivity|]. intros [U _]. destruct (single_T t xt T) as (b & Es & Hs). rewrite Q in Es. injection Es as <-. apply (Hs HN w Sw I) in U. discriminate.
      * right. destruct (Hu HN) as [Z|(Gt & Hq)]; [contradiction|]. split; [exact Gt|]. split; [exact Hq|]. right. intros Th.
        destruct (sdom_T u x t xt Tu T) as (b & Es & Hs). rewrite Q in Es. injection Es as <-.
        assert (false = true) as Z; [|discriminate]. apply (Hs HN). apply (depth_dom root d L EL EG ET t u); auto; [apply T|apply Tu].
    + destruct (Hu HN) as [->|(Gt & Hq)]; [left; split; [reflexivity|intros [_ Z]; congruence]|]. right. auto.
Qed.
End Rs.

(** ** All nodes *)
Record inv (d : dtree) (rs : list ex) : Prop := {
  iv_good : forall v x, Tr rs v x -> good rs v x;
  iv_old : forall w, sub w root -> xlook (t_ids d) (inj w) = Some (pos_of w);
  iv_ids : forall x j, xlook (t_ids d) x = Some j -> exists w, sub w root /\ pos_of w = j /\ (x = inj w \/ Tr rs w x);
  iv_all : forall v x, Tr rs v x -> exists j, xlook (t_ids d) x = Some j }.
Lemma inv_id d rs : inv d rs -> forall v x, Tr rs v x -> exists w, sub w root /\ xlook (t_ids d) x = Some (pos_of w) /\ (NM -> w = v).
Proof.
  intros [Gd Io Ii Ia] v x T. destruct (Ia v x T) as (j & E). destruct (Ii x j E) as (w & S & <- & H). exists w. split; [exact S|]. split; [exact E|]. intros HN.
  destruct H as [H|H]; [symmetry; apply (T_inj rs Gd HN v x T w S H)|apply (T_one rs Gd HN w x H v T)].
Qed.
Lemma rds_pos rs : forall ds, (forall v, In v ds -> sub v root /\ pos_of v < length rs) -> exists xs, rds rs (map pos_of ds) = Some xs /\ Forall2 (Tr rs) ds xs.
Proof.
  induction ds as [|v ds IH]; intros H; [exists []; split; [reflexivity|constructor]|]. destruct IH as (xs & E & F); [intros w I; apply H; right; exact I|].
  destruct (H v (or_introl eq_refl)) as [S L]. destruct (nth_error rs (pos_of v)) as [x|] eqn:Ex; [|apply nth_error_None in Ex; lia].
  exists (x :: xs). split; [cbn [map rds]; unfold rd; rewrite Ex; cbn [bind]; rewrite E; reflexivity|]. constructor; [split; assumption|exact F].
Qed.
Lemma where_loop_ok L : build_deps (mkP nodes (adj_of nodes)) n (repeat [] n) 0 n = Some L ->
  forall cnt i d rs, create L = Some (inl (t_g d)) -> tree (t_g d) = Some (t_ts d) -> i + cnt = n -> length rs = i -> inv d rs ->
  exists r, where_loop scw where_op (mkP nodes (adj_of nodes)) d rs i cnt = Some r /\
    match r with inr rs' => length rs' = n /\ forall v x, Tr rs' v x -> good rs' v x | inl e => e = WArity /\ ~ ternary scw root end.
Proof.
  intros EL. induction cnt as [|cnt IH]; intros i d rs EG ET En Lr I; [exists (inr rs); split; [reflexivity|]; split; [lia|apply I]|].
  cbn [where_loop p_nodes]. destruct (nth_error nodes i) as [v|] eqn:Ev; [|apply nth_error_None in Ev; unfold n in *; lia].
  destruct (pos_of_nth root i v Ev) as [Sv Pv]. unfold rd at 1. rewrite Ev. cbn [bind]. assert (O := po_ordered root [] ordered_nil).
  rewrite (dep_indices_ok nodes i v O Ev). cbn [bind]. fold (Where_Dom.pos_of root).
  destruct (rds_pos rs (deps v)) as (xs & Er & F). { intros w Iw. destruct (dep_pos root v w Sv Iw). split; [assumption|lia]. }
  change (map (idx nodes) (deps v)) with (map pos_of (deps v)). rewrite Er. cbn [bind].
  assert (K : exists r, where_impl scw where_op d (xwith (inj v) xs) = Some r /\ match r with inr x => good rs v x | inl e => e = WArity /\ ~ ternary scw root end).
  { destruct v as [a|k|k|o a ds]; try (eexists; split; reflexivity).
    cbn [inj xwith where_impl good deps] in *. destruct (Nat.eqb_spec o scw) as [Eo|No]; [|exists (inr (XOp o a xs)); split; [reflexivity|eauto]].
    assert (Bad : length ds <> 3 -> ~ ternary scw root). { intros N T. apply N. apply (T a ds). rewrite <- Eo. exact Sv. }
    pose proof (Forall2_len _ _ _ F) as Ll. destruct xs as [|xc [|xt [|xf [|z xs]]]]; try (exists (inl WArity); split; [reflexivity|]; split; [reflexivity|]; apply Bad; cbn in Ll; lia).
    inversion F as [|c ? ds1 ? Tc F1]; subst. inversion F1 as [|t ? ds2 ? Tt F2]; subst. inversion F2 as [|f ? ds3 ? Tf F3]; subst. inversion F3; subst. clear F F1 F2 F3 Ll Bad.
    set (w := Op scw a [c; t; f]) in *. assert (It : In t (deps w)) by (cbn; auto). assert (If : In f (deps w)) by (cbn; auto).
    pose proof (iv_good d rs I) as GD. pose proof (inv_id d rs I) as ID.
    destruct (gated_T rs GD d L EL EG ET ID w t xt Sv It Tt) as (pt & Ept & Hpt). destruct (gated_T rs GD d L EL EG ET ID w f xf Sv If Tf) as (pf & Epf & Hpf).
    rewrite Ept, Epf. cbn [bind]. destruct (negb pt && negb pf) eqn:En2.
    - eexists. split; [reflexivity|]. apply andb_prop in En2. destruct En2 as [A B]. apply negb_true_iff in A, B. subst pt pf. exists c, t, f, xc, xt, xf. split; [reflexivity|]. split; [exact Tc|]. split; [exact Tt|]. split; [exact Tf|]. left. split; [reflexivity|].
      intros HN. split; intros Z; [apply (Hpt HN) in Z|apply (Hpf HN) in Z]; discriminate.
    - destruct (branch_T rs GD d L EL EG ET ID w t xt Sv It Tt) as (tb & ta & Et & Bt & Ft & Nt). destruct (branch_T rs GD d L EL EG ET ID w f xf Sv If Tf) as (fb & fa & Ef & Bf & Ff & Nf).
      rewrite Et, Ef. cbn [bind fst snd]. eexists. split; [reflexivity|]. exists c, t, f, xc, xt, xf. split; [reflexivity|]. split; [exact Tc|]. split; [exact Tt|]. split; [exact Tf|]. right.
      exists (must d xt), (must d xf), tb, fb, ta, fa. auto 12. }
  destruct K as (r & -> & K). cbn [bind]. destruct r as [e|x]; [exists (inl e); split; [reflexivity|exact K]|].
  unfold alias. rewrite (iv_old d rs I v Sv). cbn [bind]. apply IH; cbn [t_g t_ts]; auto; [lia|rewrite app_length; cbn; lia|].
  assert (New : forall w y, Tr (rs ++ [x]) w y -> Tr rs w y \/ (w = v /\ y = x)).
  { intros w y [S E]. destruct (Nat.lt_ge_cases (pos_of w) (length rs)) as [Lt|Ge]; [left; split; [exact S|]; rewrite nth_error_app1 in E by exact Lt; exact E|]. right.
    rewrite nth_error_app2 in E by exact Ge. destruct (pos_of w - length rs) as [|k] eqn:Ek; [|destruct k; discriminate]. injection E as <-. split; [|reflexivity].
    destruct (pos_spec root w S) as [_ Ew]. destruct (pos_spec root v Sv) as [_ Ev']. assert (pos_of w = pos_of v) as Z by lia. rewrite Z in Ew. congruence. }
  assert (Tv : Tr (rs ++ [x]) v x). { split; [exact Sv|]. rewrite nth_error_app2 by lia. rewrite Pv, Lr, Nat.sub_diag. reflexivity. }
  destruct I as [Gd Io Ii Ia]. constructor; cbn [t_ids].
  - intros w y T. apply good_more. destruct (New w y T) as [T'|[-> ->]]; [apply (Gd w y T')|exact K].
  - intros w S. rewrite xemplace_look, (Io w S). reflexivity.
  - intros y j. rewrite xemplace_look. destruct (xlook (t_ids d) y) as [j'|] eqn:Ey.
    + intros H. injection H as <-. destruct (Ii y j' Ey) as (w & S & Pw & H). exists w. split; [exact S|]. split; [exact Pw|]. destruct H as [H|H]; [left; exact H|right; apply Tr_more, H].
    + destruct (ex_spec x y) as [<-|N]; [|discriminate]. intros H. injection H as <-. exists v. auto.
  - intros w y T. rewrite xemplace_look. destruct (xlook (t_ids d) y) as [j|] eqn:Ey; [eauto|]. destruct (New w y T) as [T'|[-> ->]].
    + destruct (Ia w y T') as (j & Z). congruence.
    + rewrite ex_refl. eauto.
Qed.
Lemma inv_start d : t_ids d = combine (map inj nodes) (seq 0 n) -> inv d [].
Proof.
  intros E. assert (No : forall v x, ~ Tr [] v x) by (intros v x [_ Z]; destruct (pos_of v); discriminate).
  assert (In_c : forall x j, In (x, j) (t_ids d) -> exists w, sub w root /\ pos_of w = j /\ x = inj w).
  { intros x j I. rewrite E in I. apply In_nth_error in I. destruct I as (k & I).
    assert (A : nth_error (map inj nodes) k = Some x /\ nth_error (seq 0 n) k = Some j).
    { clear - I. revert k I. generalize (seq 0 n) as m. induction (map inj nodes) as [|y l IH]; intros [|z m] [|k] I; try discriminate; [injection I as -> ->; auto|apply (IH m k), I]. }
    destruct A as [A B]. rewrite nth_error_map in A. destruct (nth_error nodes k) as [w|] eqn:Ew; [|discriminate]. injection A as <-.
    assert (k < n) by (unfold n; apply nth_error_Some; congruence). assert (j = k).
    { apply (nth_error_nth _ _ 0) in B. rewrite seq_nth in B by assumption. lia. } subst j.
    destruct (pos_of_nth root k w Ew) as [S P]. exists w. auto. }
  constructor.
  - intros v x T. destruct (No v x T).
  - intros w S. destruct (xlook_key (t_ids d) (inj w)) as (j & Ej).
    { rewrite E. assert (A : map fst (combine (map inj nodes) (seq 0 n)) = map inj nodes).
      { assert (Z : length (map inj nodes) = length (seq 0 n)) by (rewrite map_length, seq_length; reflexivity). clear E. revert Z. generalize (seq 0 n) as m. induction (map inj nodes) as [|y l IH]; intros [|z m] Z; try discriminate; [reflexivity|]. cbn. f_equal. apply IH. cbn [length] in Z. injection Z as Z. exact Z. }
      rewrite A. apply in_map. destruct (pos_spec root w S) as [_ Z]. apply (nth_error_In _ _ Z). }
    rewrite Ej. apply xlook_in in Ej. destruct (In_c _ _ Ej) as (w' & S' & <- & Ew). apply inj_inj in Ew. subst. reflexivity.
  - intros x j Ej. apply xlook_in in Ej. destruct (In_c _ _ Ej) as (w' & S' & P & Ew). eauto 6.
  - intros v x T. destruct (No v x T).
Qed.
Lemma good_all rs : length rs = n -> (forall v x, Tr rs v x -> good rs v x) -> ternary scw root.
Proof.
  intros Lr G a ds S. destruct (pos_spec root _ S) as [P _]. fold nodes n in P. destruct (nth_error rs (pos_of (Op scw a ds))) as [x|] eqn:E; [|apply nth_error_None in E; unfold n in *; lia].
  pose proof (G _ _ (conj S E)) as K. unfold good in K. rewrite Nat.eqb_refl in K. destruct K as (c & t & f & ? & ? & ? & -> & _). reflexivity.
Qed.
Lemma no_scw : existsb (is_scw scw) nodes = false -> no_op scw root.
Proof.
  intros E a ds S. destruct (pos_spec root _ S) as [_ P]. apply nth_error_In in P. assert (existsb (is_scw scw) nodes = true); [|congruence].
  apply existsb_exists. exists (Op scw a ds). split; [exact P|]. cbn. apply Nat.eqb_refl.
Qed.
(** The three outcomes. *)
Lemma transform_ok : exists r, where_transform scw where_op root = Some r /\
  match r with
  | inl e => e = WArity /\ ~ ternary scw root
  | inr x => ternary scw root /\ ((no_op scw root /\ x = inj root) \/ exists rs, (forall v x, Tr rs v x -> good rs v x) /\ length rs = n /\ Tr rs root x)
  end.
Proof.
  unfold where_transform. rewrite post_order_ok. cbn [bind p_nodes]. fold nodes. destruct (existsb (is_scw scw) nodes) eqn:Es.
  - destruct (build_ok root) as (d & L & Eb & EL & EG & ET & Ei). fold nodes in Eb, EL, Ei. rewrite Eb. cbn [bind].
    destruct (where_loop_ok L EL n 0 d [] EG ET eq_refl eq_refl (inv_start d Ei)) as (r & Er & H). fold n. rewrite Er. cbn [bind].
    destruct r as [e|rs]; [exists (inl e); auto|]. destruct H as [Lr G]. destruct (pos_spec root root (sub_refl root)) as [P _]. fold nodes n in P.
    assert (Pr : pos_of root = n - 1). { pose proof (id_root root) as Z. unfold Where_Dom.id_of in Z. fold nodes n in Z. lia. }
    destruct (nth_error rs (n - 1)) as [x|] eqn:E; [|apply nth_error_None in E; unfold n in *; lia]. unfold rd. rewrite E. cbn [bind]. exists (inr x). split; [reflexivity|].
    split; [apply (good_all rs Lr G)|]. right. exists rs. split; [exact G|]. split; [exact Lr|]. split; [constructor|]. rewrite Pr. exact E.
  - exists (inr (inj root)). split; [reflexivity|]. pose proof (no_scw Es) as N. split; [intros a ds S; destruct (N a ds S)|]. left. auto.
Qed.
End W.
