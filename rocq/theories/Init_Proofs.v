(** From the graph back to the declarations. *)
From Coq Require Import Permutation Relations Operators_Properties.
From Verif Require Import Base Visit_Model Init_Model Init_Spec Init_Graph Init_Build Init_Exec.

Lemma inits_in g l i : In i (inits g l) <-> exists n, In n l /\ ginit g n = Some i.
Proof.
  unfold inits. rewrite in_flat_map. split.
  - intros (n & H & K). exists n. split; [exact H|]. destruct (ginit g n); [destruct K as [->|[]]; reflexivity|contradiction].
  - intros (n & H & K). exists n. split; [exact H|]. rewrite K. left. reflexivity.
Qed.
Lemma inits_split g ord : forall a j b, inits g ord = a ++ j :: b -> exists o1 n o2, ord = o1 ++ n :: o2 /\ inits g o1 = a /\ ginit g n = Some j /\ inits g o2 = b.
Proof.
  induction ord as [|m t IH]; intros a j b H; [destruct a; discriminate|]. cbn in H. fold (inits g t) in H. destruct (ginit g m) as [i|] eqn:E.
  - destruct a as [|x a]; cbn in H; injection H as -> H.
    + exists [], m, t. auto.
    + destruct (IH _ _ _ H) as (o1 & n & o2 & -> & <- & G & <-). exists (m :: o1), n, o2. cbn. rewrite E. auto.
  - destruct (IH _ _ _ H) as (o1 & n & o2 & -> & <- & G & <-). exists (m :: o1), n, o2. cbn. rewrite E. auto.
Qed.
Definition hasinit (g : digraph) (n : nat) : bool := match ginit g n with Some _ => true | None => false end.
Lemma inits_filter g l : inits g l = inits g (filter (hasinit g) l).
Proof. induction l as [|n t IH]; [reflexivity|]. cbn. fold (inits g t). unfold hasinit at 1. destruct (ginit g n) eqn:E; cbn; [rewrite E|]; fold (inits g (filter (hasinit g) t)); rewrite IH; reflexivity. Qed.
Lemma inits_perm g a b : NoDup a -> NoDup b -> (forall n i, ginit g n = Some i -> (In n a <-> In n b)) -> Permutation (inits g a) (inits g b).
Proof.
  intros Na Nb H. rewrite (inits_filter g a), (inits_filter g b). apply Permutation_flat_map. apply NoDup_Permutation; [apply NoDup_filter, Na|apply NoDup_filter, Nb|].
  intros n. rewrite !filter_In. unfold hasinit. destruct (ginit g n) as [i|] eqn:E; [rewrite (H n i E); tauto|split; intros [_ K]; discriminate].
Qed.
Lemma inits_ids g l ids : Forall2 (fun i n => ginit g n = Some i) l ids -> inits g ids = l.
Proof. induction 1 as [|i n l ids H _ IH]; [reflexivity|]. cbn. fold (inits g ids). rewrite H, IH. reflexivity. Qed.

Definition clean (P : list name) : Prop := forall x, In x P -> x <> [] /\ ~ phony x.

Section Top.
Variable ok : list initializer -> nat -> bool.
Variable P : list name.
Hypothesis Pclean : clean P.
Variable tr0 l : list initializer.
Variable g : digraph.
Variable ids : list nat.
Hypothesis B : built P l g ids.
Let C := b_core _ _ _ _ B.

Lemma edge_of_precede i j m n : ginit g m = Some i -> ginit g n = Some j -> must_precede i j ->
  In m (gdeps g n) \/ exists q, In m (gdeps g q) /\ In q (gdeps g n).
Proof.
  clear tr0. intros Hi Hj H. pose proof (c_name _ _ C _ _ Hi) as Ni. pose proof (c_name _ _ C _ _ Hj) as Nj.
  pose proof (c_index _ _ C) as I. destruct H as [[Z H]|[[Z H]|(p & Hp & H1 & H2)]].
  - left. destruct (b_dep _ _ _ _ B _ _ _ Hj H) as (k & Hk & Ek & _).
    { destruct (b_good _ _ _ _ B i (b_in _ _ _ _ _ _ B Hi)) as (_ & Q & _). exact Q. }
    assert (k = m) as <-; [|exact Hk]. apply (index_unique g k m I); congruence.
  - left. destruct (b_rdep _ _ _ _ B _ _ _ Hi H) as (k & Ek & Hk).
    assert (k = n) as <-; [|exact Hk]. apply (index_unique g k n I); congruence.
  - right. destruct (b_rdep _ _ _ _ B _ _ _ Hi H1) as (q & Eq & Hq). exists q. split; [exact Hq|].
    destruct (b_dep _ _ _ _ B _ _ _ Hj H2) as (k & Hk & Ek & _); [intros Q; destruct (Pclean p Q); contradiction|].
    assert (k = q) as <-; [|exact Hk]. apply (index_unique g k q I); [|congruence]. rewrite Ek. intros ->. apply phony_nil in Hp. exact Hp.
Qed.

Lemma order_of ord : NoDup ord -> closed_order g ord ->
  let rest := inits g (filter (fun n => negb (existsb (Nat.eqb n) ord)) ids) in
  ran_in_order l (inits g ord) rest.
Proof.
  clear tr0 ok. intros Nd Cl rest.
  assert (Nin : forall n, existsb (Nat.eqb n) ord = false <-> ~ In n ord).
  { intros n. rewrite <- not_true_iff_false, existsb_exists. split; intros H K; apply H; [exists n; split; [exact K|apply Nat.eqb_refl]|]. destruct K as (m & K & E). apply Nat.eqb_eq in E as ->. exact K. }
  split.
  - unfold rest. rewrite <- inits_app, <- (inits_ids g l ids (b_init _ _ _ _ B)). apply inits_perm; [|apply (b_nodup _ _ _ _ B)|].
    + pose proof (b_nodup _ _ _ _ B) as Ni. revert Nd. clear - Nin Ni. intros Nd. 
      assert (H : forall q, NoDup q -> NoDup (ord ++ filter (fun n => negb (existsb (Nat.eqb n) ord)) q)); [|apply H, Ni].
      intros q Nq. induction Nq as [|z q Nz Nq IH]; [cbn; rewrite app_nil_r; exact Nd|]. cbn [filter]. destruct (existsb (Nat.eqb z) ord) eqn:E; cbn [negb]; [exact IH|].
      apply Nin in E. apply (Permutation_NoDup (Permutation_middle _ _ _)). constructor; [|exact IH]. intros H. apply in_app_or in H as [H|H]; [contradiction|]. apply filter_In in H as [H _]. contradiction.
    + intros n i Hi. rewrite in_app_iff, filter_In. pose proof (b_ids _ _ _ _ B _ _ Hi). destruct (existsb (Nat.eqb n) ord) eqn:E; cbn [negb].
      * split; [auto|]. intros _. left. apply existsb_exists in E as (m & K & E). apply Nat.eqb_eq in E as ->. exact K.
      * tauto.
  - intros a j b E i Hi Hp. destruct (inits_split _ _ _ _ _ E) as (o1 & n & o2 & Eo & <- & Gn & <-).
    assert (Hm : exists m, ginit g m = Some i /\ ~ In m o1).
    { rewrite Eo in Nd. pose proof (NoDup_remove_2 _ _ _ Nd) as N2. destruct Hi as [<-|Hi].
      - exists n. split; [exact Gn|]. intros H. apply N2, in_or_app. left. exact H.
      - apply in_app_or in Hi as [Hi|Hi]; apply inits_in in Hi as (m & Hm & Gm); exists m; (split; [exact Gm|]).
        + intros H. clear - Nd H Hm. induction o1 as [|z o1 IH]; [contradiction|]. cbn in Nd. inversion Nd as [|? ? A D]; subst. destruct H as [->|H]; [apply A, in_or_app; right; right; exact Hm|apply IH; assumption].
        + apply filter_In in Hm as [_ Hm]. apply negb_true_iff, Nin in Hm. intros H. apply Hm. rewrite Eo. apply in_or_app. left. exact H. }
    destruct Hm as (m & Gm & Nm). apply Nm. destruct (edge_of_precede i j m n Gm Gn Hp) as [H|(q & Hq & Hn)].
    + apply (Cl _ _ _ Eo m H).
    + pose proof (Cl _ _ _ Eo q Hn) as Q. destruct (in_split _ _ Q) as (q1 & q2 & ->). 
      rewrite <- app_assoc in Eo. pose proof (Cl q1 q _ Eo m Hq) as R. apply in_or_app. left. exact R.
Qed.

(** A cycle of the graph comes from a cycle of the declarations. *)
Definition E (n m : nat) : Prop := In n (gdeps g m).
Definition T := clos_trans _ (fun a b => In a l /\ In b l /\ must_precede a b).
Hypothesis defined : forall i d, In i l -> In d (i_deps i) -> In d P \/ phony d \/ (d <> [] /\ exists k, In k l /\ i_name k = d).
Lemma solid n m : E n m -> ginit g n = None -> exists i, ginit g m = Some i /\ In (gname g n) (i_deps i) /\ phony (gname g n).
Proof.
  clear tr0 ok. intros H Hn. destruct (c_edge _ _ C _ _ H) as [(i & H1 & H2 & H3 & _)|(i & H1 & _)]; [|congruence].
  exists i. split; [exact H1|]. split; [exact H2|]. destruct (defined i _ (b_in _ _ _ _ _ _ B H1) H2) as [K|[K|(Z & k & Hk & Ek)]]; [contradiction|exact K|exfalso].
  destruct (Forall2_in_l _ _ _ _ (b_init _ _ _ _ B) Hk) as (nk & _ & Gk).
  assert (nk = n); [|congruence]. apply (index_unique g nk n (c_index _ _ C)); rewrite (c_name _ _ C _ _ Gk); congruence.
Qed.
Lemma direct n m i j : E n m -> ginit g n = Some i -> ginit g m = Some j -> must_precede i j.
Proof.
  clear tr0 ok defined. intros H Hi Hj. pose proof (c_name _ _ C _ _ Hi) as Ni. pose proof (c_name _ _ C _ _ Hj) as Nj.
  destruct (c_edge _ _ C _ _ H) as [(k & H1 & H2 & H3 & H4)|(k & H1 & H2 & H3)].
  - left. assert (k = j) as -> by congruence. rewrite Ni in *. split; [intros Z; specialize (H4 Z); congruence|exact H2].
  - right. left. assert (k = i) as -> by congruence. rewrite Nj in *. split; [intros Z; specialize (H3 Z); congruence|exact H2].
Qed.
Definition reached (i : initializer) (m : nat) : Prop :=
  match ginit g m with Some j => T i j | None => exists k nk, ginit g nk = Some k /\ E nk m /\ (k = i \/ T i k) end.
Lemma T_step i j k : In i l -> In j l -> In k l -> (j = i \/ T i j) -> must_precede j k -> T i k.
Proof.
  clear tr0 ok defined. intros Hi Hj Hk [->|H] M; [apply t_step; auto|]. apply t_trans with j; [exact H|apply t_step; auto].
Qed.
Lemma reached_step i m' m : In i l -> E m' m -> (forall j, ginit g m' = Some j -> j = i \/ T i j) -> (ginit g m' = None -> reached i m') -> reached i m.
Proof.
  clear tr0 ok. intros Hi H Hs Hn. unfold reached. destruct (ginit g m') as [j'|] eqn:E'.
  - destruct (ginit g m) as [j|] eqn:Em.
    + apply (T_step i j' j); [exact Hi|apply (b_in _ _ _ _ _ _ B E')|apply (b_in _ _ _ _ _ _ B Em)|apply Hs; reflexivity|apply (direct m' m); assumption].
    + exists j', m'. split; [exact E'|]. split; [exact H|apply Hs; reflexivity].
  - destruct (solid _ _ H E') as (j & Em & Hd & Hp). rewrite Em. specialize (Hn eq_refl). unfold reached in Hn. rewrite E' in Hn.
    destruct Hn as (k & nk & Gk & Ek & Hk). apply (T_step i k j); [exact Hi|apply (b_in _ _ _ _ _ _ B Gk)|apply (b_in _ _ _ _ _ _ B Em)|exact Hk|].
    right. right. exists (gname g m'). split; [exact Hp|]. split; [|exact Hd].
    destruct (c_edge _ _ C _ _ Ek) as [(z & H1 & _)|(z & H1 & H2 & _)]; [congruence|]. assert (z = k) as -> by congruence. exact H2.
Qed.
Lemma reached_of n m i : ginit g n = Some i -> clos_trans _ E n m -> reached i m.
Proof.
  clear tr0 ok. intros Hn H. pose proof (b_in _ _ _ _ _ _ B Hn) as Hi. apply clos_trans_tn1 in H. induction H as [m H|m m' H _ IH].
  - apply (reached_step i n m Hi H); [intros j Hj; left; congruence|congruence].
  - apply (reached_step i m m' Hi H); [|intros _; exact IH]. intros j Hj. right. unfold reached in IH. rewrite Hj in IH. exact IH.
Qed.
Lemma no_cycle : (forall i, ~ T i i) -> forall n, ~ clos_trans _ E n n.
Proof.
  clear tr0 ok. intros A. assert (K : forall n i, ginit g n = Some i -> ~ clos_trans _ E n n).
  { intros n i Hn H. pose proof (reached_of n n i Hn H) as R. unfold reached in R. rewrite Hn in R. exact (A i R). }
  intros n H. destruct (ginit g n) as [i|] eqn:Hn; [exact (K n i Hn H)|]. pose proof H as H0. apply clos_trans_t1n in H. inversion H as [m Hm|m z Hm Hz]; subst.
  - destruct (solid _ _ Hm Hn) as (i & E' & _). congruence.
  - destruct (solid _ _ Hm Hn) as (i & E' & _). apply (K m i E'). apply t_trans with n; [apply clos_t1n_trans, Hz|apply t_step, Hm].
Qed.
End Top.

Lemma gpath_trans g : forall t a, gpath g (a :: t) -> t <> [] -> clos_trans _ (E g) a (last t 0).
Proof.
  induction t as [|b t IH]; intros a H N; [congruence|]. cbn [gpath] in H. destruct H as [H1 H2]. destruct t as [|c t]; [apply t_step, H1|].
  apply t_trans with b; [apply t_step, H1|]. apply IH; [exact H2|congruence].
Qed.
Lemma gpath_names g (R : name -> name -> Prop) : (forall n m, In n (gdeps g m) -> R (gname g n) (gname g m)) ->
  forall t a, gpath g (a :: t) -> linked R (gname g a) (map (gname g) t).
Proof. intros K. induction t as [|b t IH]; intros a H; [exact I|]. cbn [gpath] in H. destruct H as [H1 H2]. cbn. split; [apply K, H1|apply IH, H2]. Qed.
Lemma last_map {A B} (f : A -> B) t d d' : t <> [] -> last (map f t) d' = f (last t d).
Proof. induction t as [|a [|b t] IH]; intros H; [congruence|reflexivity|]. apply IH. congruence. Qed.

Lemma unique_names l : (forall a i b, l = a ++ i :: b -> forall k, In k a -> i_name k = i_name i -> i_name i = []) -> NoDup (filter (fun n => negb (empty n)) (map i_name l)).
Proof.
  induction l as [|i t IH] using rev_ind; intros H; [constructor|]. rewrite map_app, filter_app. cbn [map filter].
  assert (Ht : NoDup (filter (fun n => negb (empty n)) (map i_name t))).
  { apply IH. intros a j b -> k. apply (H a j (b ++ [i])). rewrite <- app_assoc. reflexivity. }
  destruct (empty (i_name i)) eqn:E; cbn [negb]; [rewrite app_nil_r; exact Ht|]. apply NoDup_snoc; [exact Ht|].
  intros K. apply filter_In in K as [K _]. apply in_map_iff in K as (k & Ek & Hk). rewrite (H t i [] eq_refl k Hk Ek) in E. discriminate.
Qed.

Lemma order_acyclic l tr : Permutation tr l -> (forall a j b, tr = a ++ j :: b -> forall i, In i (j :: b) -> ~ must_precede i j) ->
  forall i, ~ clos_trans _ (fun a b => In a l /\ In b l /\ must_precede a b) i i.
Proof.
  intros Pm Ord.
  assert (K : forall a b, clos_trans _ (fun a b => In a l /\ In b l /\ must_precede a b) a b -> forall x y, tr = x ++ b :: y -> In a x).
  { assert (S1 : forall c b, In c l /\ In b l /\ must_precede c b -> forall x y, tr = x ++ b :: y -> In c x).
    { intros c b (Hc & _ & Hm) x y Ex. apply (Permutation_in _ (Permutation_sym Pm)) in Hc. rewrite Ex in Hc. apply in_app_or in Hc as [Hc|Hc]; [exact Hc|destruct (Ord x b y Ex c Hc Hm)]. }
    intros a b H. apply clos_trans_tn1 in H. induction H as [b H|c b H _ IH]; [apply S1, H|]. intros x y Ex. pose proof (S1 _ _ H x y Ex) as Hc.
    destruct (in_split _ _ Hc) as (x1 & x2 & ->). rewrite <- app_assoc in Ex. apply in_or_app. left. apply (IH x1 _ Ex). }
  intros i H. assert (D : forall n x y, length x <= n -> tr = x ++ i :: y -> False).
  { induction n as [|n IH]; intros x y L Ex; pose proof (K i i H x y Ex) as Hi; destruct (in_split _ _ Hi) as (x1 & x2 & ->).
    - rewrite app_length in L. cbn in L. lia.
    - rewrite app_length in L. cbn in L. rewrite <- app_assoc in Ex. apply (IH x1 _) in Ex; [exact Ex|lia]. }
  assert (Hi : In i tr) by (apply (Permutation_in _ (Permutation_sym Pm)); apply clos_trans_t1n in H; inversion H as [? Q|? ? Q]; apply Q).
  destruct (in_split _ _ Hi) as (x & y & Ex). exact (D _ x y (le_n _) Ex).
Qed.

(** ** The whole call *)
Section Run.
Variable ok : list initializer -> nat -> bool.
Variable P : list name.
Hypothesis Pclean : clean P.
Variable tr0 l : list initializer.

Lemma xinv0 g : xinv ok g tr0 (mkX (repeat Pending (size g)) [] tr0) [].
Proof.
  assert (R : forall n s, rd (repeat Pending (size g)) n = Some s -> s = Pending) by (intros n s H; apply nth_error_In, repeat_spec in H; exact H).
  split; cbn [x_st x_stack x_trace].
  - apply repeat_length.
  - intros n. split; [intros H; apply R in H; discriminate|intros []].
  - intros n. split; [intros H; apply R in H; discriminate|intros []].
  - constructor.
  - cbn. rewrite app_nil_r. reflexivity.
  - intros a n b H. destruct a; discriminate.
  - intros n [].
  - exact I.
  - intros a i b f H. destruct a; discriminate.
Qed.

Lemma run_cases : exists P' ran e, run ok P tr0 l = Some (P', tr0 ++ ran, e) /\
  (exists rest, ran_in_order l ran rest /\ (e = None -> rest = [])) /\
  match e with
  | None => feasible P l /\ all_succeeded ok tr0 ran /\ (forall x, In x P' <-> In x P \/ (x <> [] /\ exists i, In i l /\ i_name i = x))
  | Some e => justified ok P tr0 l ran e /\ (feasible P l -> exists n, e = EInit n)
  end.
Proof.
  unfold run. destruct (init_nodes_ok P l [] (mkG [] []) [] (built0 P)) as [(e & a & i & b & El & E0 & Hb)|(g & ids & E0 & B & U)]; rewrite E0; cbn [bind].
  - exists P, [], (Some e). split; [rewrite app_nil_r; reflexivity|]. split.
    + exists l. split; [|discriminate]. split; [apply Permutation_refl|]. intros [|] ? ? H; discriminate.
    + assert (Hi : In i l) by (rewrite El; apply in_or_app; right; left; reflexivity). cbn [app] in Hb.
      destruct Hb as [[-> Hp]|[[-> Hc]|(r & -> & Hr & Hi')]].
      * split; [split; [reflexivity|]; split; [exact Hp|]; exists i; auto|]. intros F. destruct (f_names _ _ F i Hi Hp).
      * split; [split; [reflexivity|]; exists a, i, b; auto|]. intros F. exfalso. destruct Hc as [Hc|(Z & k & Hk & Ek)]; [apply (f_new _ _ F i Hi Hc)|].
        pose proof (f_unique _ _ F) as N. rewrite El, map_app, filter_app in N. cbn [map filter] in N. destruct (empty (i_name i)) eqn:Em; [apply empty_nil in Em; contradiction|]. cbn [negb] in N.
        apply NoDup_remove_2 in N. apply N, in_or_app. left. apply filter_In. split; [rewrite <- Ek; apply in_map, Hk|rewrite Em; reflexivity].
      * split; [split; [reflexivity|]; split; [exact Hr|]; exists i; auto|]. intros F. destruct (f_late _ _ F i r Hi Hi' Hr).
  - cbn [app] in B, U. pose proof (b_core _ _ _ _ B) as C. fold (size g).
    assert (Has : forall n, In n ids -> exists i, ginit g n = Some i /\ In i l).
    { intros n Hn. destruct (Forall2_in_r _ _ _ _ (b_init _ _ _ _ B) Hn) as (i & Hi & G). eauto. }
    destruct (run_nodes_ok ok g (c_range _ _ C) tr0 (S (size g)) P (ssort (gname g) ids) (mkX (repeat Pending (size g)) [] tr0) [] (xinv0 g) eq_refl) as (P' & x' & e & E1 & Q).
    { intros n Hn. apply ssort_in in Hn. destruct (Has n Hn) as (i & G & _). congruence. }
    { cbn. lia. }
    rewrite E1. cbn [bind]. destruct e as [e|].
    + destruct Q as (ord & Nd & Cl & Rg & Et & Q). exists P', (inits g ord), (Some e). rewrite Et. split; [reflexivity|].
      split; [eexists; split; [apply (order_of P Pclean l g ids B ord Nd Cl)|discriminate]|].
      destruct e as [| | |ns|nm|who what]; try contradiction.
      * destruct Q as (n & t & -> & Nt & Lt & Gp & _). split.
        -- exists (gname g n), (map (gname g) t). split; [reflexivity|]. split; [destruct t; [congruence|discriminate]|]. split; [rewrite (last_map (gname g) t 0 []) by exact Nt; f_equal; exact Lt|].
           apply gpath_names; [|exact Gp]. intros a b Hab. destruct (c_edge _ _ C _ _ Hab) as [(i & H1 & H2 & _)|(i & H1 & H2 & _)]; exists i; (split; [apply (b_in _ _ _ _ _ _ B H1)|]); [left|right]; (split; [|exact H2]); symmetry; apply (c_name _ _ C _ _ H1).
        -- intros F. exfalso. apply (no_cycle P l g ids B (f_defined _ _ F) (f_acyclic _ _ F) n). rewrite <- Lt at 2. apply gpath_trans; assumption.
      * destruct Q as (a & n & i & f & -> & En & Gn & Fi & Of & Os). split; [|intros _; eauto]. exists (inits g a), i, f. rewrite inits_app. unfold inits at 2. cbn [flat_map]. rewrite Gn.
        split; [reflexivity|]. split; [rewrite <- En; symmetry; apply (c_name _ _ C _ _ Gn)|]. auto.
      * destruct Q as (p & m & Ep & Em & Hm & Gm & Hp & _).
        destruct (c_edge _ _ C _ _ Hm) as [(i & H1 & H2 & H3 & H4)|(i & H1 & _)]; [|congruence]. rewrite Em in *.
        assert (Un : what = [] \/ forall k, In k l -> i_name k <> what).
        { destruct (name_dec what []) as [Z|Z]; [left; exact Z|right]. intros k Hk Ek. destruct (Forall2_in_l _ _ _ _ (b_init _ _ _ _ B) Hk) as (nk & _ & Gk).
          assert (nk = m); [|congruence]. apply (index_unique g nk m (c_index _ _ C)); rewrite (c_name _ _ C _ _ Gk); congruence. }
        split.
        -- split; [exact Hp|]. split; [exact H3|]. split; [exact Un|]. exists i. split; [apply (b_in _ _ _ _ _ _ B H1)|]. split; [rewrite <- Ep; symmetry; apply (c_name _ _ C _ _ H1)|exact H2].
        -- intros F. exfalso. destruct (f_defined _ _ F i what (b_in _ _ _ _ _ _ B H1) H2) as [K|[K|(Z & k & Hk & Ek)]]; [contradiction|contradiction|].
           destruct Un as [Un|Un]; [contradiction|]. exact (Un k Hk Ek).
    + destruct Q as (o & V & _ & Hi & HP). cbn [app] in *. exists P', (inits g o), None. rewrite (v_trace _ _ _ _ _ V). split; [reflexivity|].
      pose proof (NoDup_appl _ _ (v_nodup _ _ _ _ _ V)) as Nd. pose proof (v_order _ _ _ _ _ V) as Cl.
      pose proof (order_of P Pclean l g ids B o Nd Cl) as O. cbv zeta in O.
      assert (R0 : filter (fun n => negb (existsb (Nat.eqb n) o)) ids = []).
      { assert (H : forall q, incl q o -> filter (fun n => negb (existsb (Nat.eqb n) o)) q = []).
        { induction q as [|z q IH]; intros Hq; [reflexivity|]. cbn [filter]. rewrite (proj2 (existsb_exists (Nat.eqb z) o)); [cbn; apply IH; intros y Hy; apply Hq; right; exact Hy|].
          exists z. split; [apply Hq; left; reflexivity|apply Nat.eqb_refl]. }
        apply H. intros n Hn. apply Hi, ssort_in, Hn. }
      rewrite R0 in O. cbn [inits flat_map] in O. split; [exists []; split; [exact O|reflexivity]|].
      destruct O as [Pm Ord]. rewrite app_nil_r in Pm.
      assert (Dn : forall n, In n ids -> In n o) by (intros n Hn; apply Hi, ssort_in, Hn).
      split; [|split; [apply (v_oks _ _ _ _ _ V)|]].
      * split.
        -- intros i Hin. destruct (b_good _ _ _ _ B i Hin) as (A1 & A2 & A3). assumption.
        -- apply unique_names. intros a i b El k Hk Ek. apply (U a i b El k Hk Ek).
        -- intros i Hin. destruct (b_good _ _ _ _ B i Hin) as (A1 & A2 & A3). assumption.
        -- intros i r Hin Hr. destruct (b_good _ _ _ _ B i Hin) as (A1 & A2 & A3). apply A3, Hr.
        -- intros i d Hin Hd. destruct (in_dec name_dec d P) as [K|K]; [auto|right].
           destruct (Forall2_in_l _ _ _ _ (b_init _ _ _ _ B) Hin) as (n & Hn & Gn). destruct (b_dep _ _ _ _ B _ _ _ Gn Hd K) as (m & Hm & Em & Zm).
           pose proof (Dn n Hn) as Ho. destruct (in_split _ _ Ho) as (o1 & o2 & Eo). pose proof (Cl _ _ _ Eo m Hm) as Hmo.
           assert (Hmo' : In m o) by (rewrite Eo; apply in_or_app; left; exact Hmo).
           destruct (ginit g m) as [k|] eqn:Gm.
           ++ right. pose proof (c_name _ _ C _ _ Gm) as Nk. split; [|exists k; split; [apply (b_in _ _ _ _ _ _ B Gm)|congruence]].
              intros Z. specialize (Zm Z). discriminate.
           ++ left. rewrite <- Em. apply (v_phony _ _ _ _ _ V); assumption.
        -- apply (order_acyclic l (inits g o) Pm). intros a j b Es i Hij. apply (Ord a j b Es i). rewrite app_nil_r. exact Hij.
      * intros x. rewrite HP. split; (intros [H|H]; [auto|right]).
        -- destruct H as (Z & Hp & n & Hn & En). apply ssort_in in Hn. destruct (Has n Hn) as (i & G & Hil). split; [exact Z|]. exists i. split; [exact Hil|]. rewrite <- En. symmetry. apply (c_name _ _ C _ _ G).
        -- destruct H as (Z & i & Hil & Ei). destruct (Forall2_in_l _ _ _ _ (b_init _ _ _ _ B) Hil) as (n & Hn & G). split; [exact Z|]. split; [rewrite <- Ei; apply (b_good _ _ _ _ B i Hil)|].
           exists n. split; [apply ssort_in, Hn|]. rewrite <- Ei. apply (c_name _ _ C _ _ G).
Qed.
End Run.
