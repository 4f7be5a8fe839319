(** When everything has a name, the order of registration does not matter. *)
From Coq Require Import Permutation.
From Verif Require Import Base Visit_Model Init_Model Init_Spec Init_Graph Init_Build Init_Exec Init_Proofs.

Lemma leb_cons x a y b : str_leb (x :: a) (y :: b) = true <-> x < y \/ (x = y /\ str_leb a b = true).
Proof. cbn [str_leb]. rewrite orb_true_iff, andb_true_iff, Nat.ltb_lt, Nat.eqb_eq. reflexivity. Qed.
Lemma leb_antisym a : forall b, str_leb a b = true -> str_leb b a = true -> a = b.
Proof.
  induction a as [|x a IH]; intros [|y b] H K; try discriminate; [reflexivity|]. apply leb_cons in H, K.
  destruct H as [H|[-> H]], K as [K|[E K]]; try lia. f_equal. apply IH; assumption.
Qed.
Lemma leb_trans a : forall b c, str_leb a b = true -> str_leb b c = true -> str_leb a c = true.
Proof.
  induction a as [|x a IH]; intros [|y b] [|z c] H K; try discriminate; try reflexivity. apply leb_cons in H, K. apply leb_cons.
  destruct H as [H|[-> H]], K as [K|[-> K]]; [left; lia|left; lia|left; lia|right; split; [reflexivity|apply (IH b c H K)]].
Qed.
Lemma leb_total a : forall b, str_leb a b = false -> str_leb b a = true.
Proof.
  induction a as [|x a IH]; intros [|y b] H; try discriminate; [reflexivity|]. apply leb_cons. apply not_true_iff_false in H. rewrite leb_cons in H.
  destruct (Nat.lt_trichotomy x y) as [L|[->|L]]; [exfalso; auto|right; split; [reflexivity|]|left; exact L].
  apply IH. apply not_true_iff_false. intros K. apply H. auto.
Qed.

Notation isort := (ssort (fun x : name => x)).
Notation ins := (sins (fun x : name => x)).
Lemma ins_comm x y l : ins x (ins y l) = ins y (ins x l).
Proof.
  unfold str_ltb. induction l as [|z l IH].
  - cbn [sins]. unfold str_ltb. destruct (str_leb x y) eqn:A, (str_leb y x) eqn:B; cbn [negb]; try reflexivity.
    + rewrite (leb_antisym _ _ A B). reflexivity.
    + apply leb_total in A. congruence.
  - cbn [sins]. unfold str_ltb. destruct (str_leb y z) eqn:A, (str_leb x z) eqn:B; cbn [negb sins]; unfold str_ltb.
    + rewrite A, B. cbn [negb]. destruct (str_leb x y) eqn:Q, (str_leb y x) eqn:Q'; cbn [negb]; try reflexivity.
      * rewrite (leb_antisym _ _ Q Q'). reflexivity.
      * apply leb_total in Q. congruence.
    + rewrite B. cbn [negb]. destruct (str_leb x y) eqn:Q; [rewrite (leb_trans _ _ _ Q A) in B; discriminate|]. cbn [negb sins]. unfold str_ltb. rewrite A. cbn [negb]. reflexivity.
    + rewrite A. cbn [negb]. destruct (str_leb y x) eqn:Q; [rewrite (leb_trans _ _ _ Q B) in A; discriminate|]. cbn [negb sins]. unfold str_ltb. rewrite B. cbn [negb]. reflexivity.
    + rewrite A, B. cbn [negb]. rewrite IH. reflexivity.
Qed.
Lemma isort_perm_eq l l' : Permutation l l' -> isort l = isort l'.
Proof. induction 1 as [|x l l' _ IH|x y l|l l' l'' _ IH1 _ IH2]; cbn; [reflexivity|unfold ssort in IH; rewrite IH; reflexivity|apply ins_comm|congruence]. Qed.
Lemma map_sins {A} (key : A -> name) x l : map key (sins key x l) = ins (key x) (map key l).
Proof. induction l as [|y t IH]; [reflexivity|]. cbn [sins map]. destruct (str_ltb (key y) (key x)); cbn [map]; [rewrite IH|]; reflexivity. Qed.
Lemma map_ssort {A} (key : A -> name) l : map key (ssort key l) = isort (map key l).
Proof. induction l as [|x t IH]; [reflexivity|]. cbn [ssort fold_right map]. rewrite map_sins. unfold ssort in IH. rewrite IH. reflexivity. Qed.

(** More fuel changes nothing. *)
Lemma exec_all_mono (rec rec' : xst -> nat -> option (xst * option err)) : (forall x n r, rec x n = Some r -> rec' x n = Some r) ->
  forall ds x r, exec_all rec x ds = Some r -> exec_all rec' x ds = Some r.
Proof.
  intros H. induction ds as [|d t IH]; intros x r; cbn [exec_all]; [auto|]. destruct (rec x d) as [q|] eqn:E; [|discriminate]. rewrite (H _ _ _ E). cbn [bind].
  destruct (snd q); [auto|apply IH].
Qed.
Lemma exec_mono ok g k : forall j x n r, k <= j -> exec ok k g x n = Some r -> exec ok j g x n = Some r.
Proof.
  induction k as [|k IH]; intros j x n r L H; [discriminate|]. destruct j as [|j]; [lia|]. cbn [exec] in *.
  destruct (rd (g_nodes g) n) as [nd|]; [|discriminate]. cbn [bind] in *. destruct (rd (x_st x) n) as [s|]; [|discriminate]. cbn [bind] in *.
  destruct s; [|exact H|exact H]. destruct (upd (x_st x) n Executing) as [st1|]; [|discriminate]. cbn [bind] in *.
  destruct (exec_all (exec ok k g) _ _) as [q|] eqn:E in H; [|discriminate].
  erewrite exec_all_mono; [exact H| |exact E]. intros x' n' r'. apply IH. lia.
Qed.
Lemma run_nodes_mono ok g k j : k <= j -> forall ns P x r, run_nodes ok k g P x ns = Some r -> run_nodes ok j g P x ns = Some r.
Proof.
  intros L. induction ns as [|n t IH]; intros P x r; cbn [run_nodes]; [auto|]. destruct (exec ok k g x n) as [q|] eqn:E; [|discriminate]. rewrite (exec_mono ok g k j x n q L E). cbn [bind].
  destruct (snd q); [auto|apply IH].
Qed.

Section Sim.
Variable ok : list initializer -> nat -> bool.
Variable P : list name.
Variables (l1 l2 : list initializer) (g1 g2 : digraph) (ids1 ids2 : list nat).
Hypothesis Pm : Permutation l1 l2.
Hypothesis B1 : built P l1 g1 ids1.
Hypothesis B2 : built P l2 g2 ids2.
Hypothesis Un : forall i k, In i l1 -> In k l1 -> i_name i = i_name k -> i = k.
Hypothesis named : forall i, In i l1 -> i_name i <> [] /\ ~ In [] (i_deps i).

Definition R (n1 n2 : nat) : Prop := gname g1 n1 <> [] /\ gname g1 n1 = gname g2 n2.
Lemma R_eqb a1 a2 b1 b2 : R a1 a2 -> R b1 b2 -> (a1 =? b1) = (a2 =? b2).
Proof.
  clear ok Pm. intros [Na Ea] [Nb Eb]. destruct (a1 =? b1) eqn:E, (a2 =? b2) eqn:E'; try reflexivity.
  - apply Nat.eqb_eq in E as ->. apply Nat.eqb_neq in E'. exfalso. apply E', (index_unique g2); [apply (c_index _ _ (b_core _ _ _ _ B2))|congruence|congruence].
  - apply Nat.eqb_eq in E' as ->. apply Nat.eqb_neq in E. exfalso. apply E, (index_unique g1); [apply (c_index _ _ (b_core _ _ _ _ B1))|congruence|congruence].
Qed.
Lemma init_iff l g ids n i : built P l g ids -> gname g n <> [] -> (ginit g n = Some i -> In i l /\ i_name i = gname g n) /\
  (In i l -> i_name i = gname g n -> exists k, ginit g n = Some k /\ In k l /\ i_name k = gname g n).
Proof.
  intros B N. pose proof (b_core _ _ _ _ B) as C. split.
  - intros H. split; [apply (b_in _ _ _ _ _ _ B H)|symmetry; apply (c_name _ _ C _ _ H)].
  - intros Hi E. destruct (Forall2_in_l _ _ _ _ (b_init _ _ _ _ B) Hi) as (m & _ & G). exists i.
    assert (m = n) as <-; [|auto]. apply (index_unique g m n (c_index _ _ C)); rewrite (c_name _ _ C _ _ G); congruence.
Qed.
Lemma R_init n1 n2 : R n1 n2 -> ginit g1 n1 = ginit g2 n2.
Proof.
  clear ok. intros [N E]. assert (N2 : gname g2 n2 <> []) by congruence.
  destruct (ginit g1 n1) as [i|] eqn:G1.
  - apply (proj1 (init_iff _ _ _ _ _ B1 N)) in G1 as [H1 H2]. pose proof (Permutation_in _ Pm H1) as H1'.
    destruct (proj2 (init_iff _ _ _ n2 i B2 N2) H1') as (k & -> & Hk & Ek); [congruence|]. f_equal. apply Un; [exact H1|apply (Permutation_in _ (Permutation_sym Pm)), Hk|congruence].
  - destruct (ginit g2 n2) as [i|] eqn:G2; [|reflexivity]. apply (proj1 (init_iff _ _ _ _ _ B2 N2)) in G2 as [H1 H2].
    destruct (proj2 (init_iff _ _ _ n1 i B1 N)) as (k & Hk & _); [apply (Permutation_in _ (Permutation_sym Pm)), H1|congruence|congruence].
Qed.
Lemma depnames_named x : ~ In [] (depnames P l1 x).
Proof.
  unfold depnames. rewrite in_flat_map. intros (i & Hi & H). destruct (named i Hi) as [A D]. apply in_app_or in H as [H|H].
  - destruct (name_eqb (i_name i) x); [|contradiction]. apply filter_In in H as [H _]. contradiction.
  - apply in_map_iff in H as (y & E & _). contradiction.
Qed.
Lemma names_R : forall a b, map (gname g1) a = map (gname g2) b -> ~ In [] (map (gname g1) a) -> Forall2 R a b.
Proof. induction a as [|n a IH]; intros [|m b] E N; cbn in *; try discriminate; constructor; [split; [intros Z; apply N; left; exact Z|congruence]|apply IH; [congruence|intros H; apply N; right; exact H]]. Qed.
Lemma R_deps n1 n2 : R n1 n2 -> Forall2 R (ssort (gname g1) (gdeps g1 n1)) (ssort (gname g2) (gdeps g2 n2)).
Proof.
  clear ok Un. intros [N E]. assert (N2 : gname g2 n2 <> []) by congruence.
  pose proof (DN_node g1 n1 (c_index _ _ (b_core _ _ _ _ B1)) N) as D1. rewrite (b_exact _ _ _ _ B1 _ N) in D1.
  pose proof (DN_node g2 n2 (c_index _ _ (b_core _ _ _ _ B2)) N2) as D2. rewrite (b_exact _ _ _ _ B2 _ N2) in D2.
  apply names_R.
  - rewrite !map_ssort, <- D1, <- D2, E. apply isort_perm_eq. unfold depnames. apply Permutation_flat_map, Pm.
  - rewrite map_ssort, <- D1. intros H. apply ssort_in in H. exact (depnames_named _ H).
Qed.

Definition sim (x1 x2 : xst) : Prop :=
  length (x_st x1) = size g1 /\ length (x_st x2) = size g2 /\ (forall n1 n2, R n1 n2 -> rd (x_st x1) n1 = rd (x_st x2) n2) /\ Forall2 R (x_stack x1) (x_stack x2) /\ x_trace x1 = x_trace x2.
Definition osim (r1 r2 : option (xst * option err)) : Prop :=
  match r1, r2 with Some (x1, e1), Some (x2, e2) => e1 = e2 /\ x_trace x1 = x_trace x2 /\ (e1 = None -> sim x1 x2) | None, None => True | _, _ => False end.
Lemma cycle_sim n1 n2 : R n1 n2 -> forall s1 s2, Forall2 R s1 s2 -> cycle_names g1 n1 s1 = cycle_names g2 n2 s2.
Proof.
  intros H. induction 1 as [|a b s1 s2 Hab _ IH]; [reflexivity|]. cbn [cycle_names]. rewrite (R_eqb _ _ _ _ Hab H), IH, (proj2 Hab). reflexivity.
Qed.
Lemma upd_sim (st1 st2 : list estate) (n1 n2 : nat) (s : estate) : R n1 n2 -> length st1 = size g1 -> length st2 = size g2 -> (forall m1 m2, R m1 m2 -> rd st1 m1 = rd st2 m2) ->
  exists u1 u2, upd st1 n1 s = Some u1 /\ upd st2 n2 s = Some u2 /\ length u1 = size g1 /\ length u2 = size g2 /\ forall m1 m2, R m1 m2 -> rd u1 m1 = rd u2 m2.
Proof.
  intros Hn L1 L2 H. destruct (Hn) as [N E]. assert (N2 : gname g2 n2 <> []) by congruence.
  destruct (upd_lt st1 n1 s) as [u1 U1]; [rewrite L1; apply gname_lt, N|]. destruct (upd_lt st2 n2 s) as [u2 U2]; [rewrite L2; apply gname_lt, N2|].
  exists u1, u2. split; [exact U1|]. split; [exact U2|]. apply upd_spec in U1 as (_ & A1 & R1). apply upd_spec in U2 as (_ & A2 & R2).
  split; [congruence|]. split; [congruence|]. intros m1 m2 Hm. rewrite R1, R2, (R_eqb m1 m2 n1 n2 Hm Hn). destruct (m2 =? n2); [reflexivity|apply H, Hm].
Qed.
Lemma exec_all_sim rec1 rec2 : (forall x1 x2 n1 n2, sim x1 x2 -> R n1 n2 -> osim (rec1 x1 n1) (rec2 x2 n2)) ->
  forall d1 d2, Forall2 R d1 d2 -> forall x1 x2, sim x1 x2 -> osim (exec_all rec1 x1 d1) (exec_all rec2 x2 d2).
Proof.
  intros H. induction 1 as [|a b d1 d2 Hab _ IH]; intros x1 x2 S; cbn [exec_all].
  - cbn. split; [reflexivity|]. split; [apply S|intros _; exact S].
  - pose proof (H x1 x2 a b S Hab) as K. destruct (rec1 x1 a) as [[y1 e1]|], (rec2 x2 b) as [[y2 e2]|]; cbn [osim bind fst snd] in *; try contradiction; [|exact I].
    destruct K as (<- & T & K). destruct e1 as [e|]; cbn [osim]; [split; [reflexivity|split; [exact T|discriminate]]|]. apply IH, K. reflexivity.
Qed.
Lemma exec_sim k : forall x1 x2 n1 n2, sim x1 x2 -> R n1 n2 -> osim (exec ok k g1 x1 n1) (exec ok k g2 x2 n2).
Proof.
  induction k as [|k IH]; intros x1 x2 n1 n2 S H; [exact I|]. cbn [exec].
  assert (L1 : n1 < size g1) by apply gname_lt, (proj1 H). assert (L2 : n2 < size g2) by (apply gname_lt; destruct H; congruence).
  destruct (rd_lt (g_nodes g1) n1 L1) as [nd1 E1]. destruct (rd_lt (g_nodes g2) n2 L2) as [nd2 E2]. rewrite E1, E2. cbn [bind].
  pose proof (R_deps n1 n2 H) as Hd. pose proof (R_init n1 n2 H) as Hi. assert (Hn : n_name nd1 = n_name nd2).
  { pose proof (proj2 H) as Q. unfold gname in Q. rewrite E1, E2 in Q. exact Q. }
  unfold gdeps in Hd. unfold ginit in Hi. rewrite E1, E2 in Hd, Hi. destruct S as (S1 & S2 & S3 & S4 & S5).
  rewrite (S3 n1 n2 H). destruct (rd_lt (x_st x2) n2) as [s Hs]; [rewrite S2; exact L2|]. rewrite Hs. cbn [bind]. destruct s.
  - destruct (upd_sim (x_st x1) (x_st x2) n1 n2 Executing H S1 S2 S3) as (u1 & u2 & U1 & U2 & A1 & A2 & A3). rewrite U1, U2. cbn [bind].
    pose proof (exec_all_sim (exec ok k g1) (exec ok k g2) IH _ _ Hd (mkX u1 (n1 :: x_stack x1) (x_trace x1)) (mkX u2 (n2 :: x_stack x2) (x_trace x2))) as K.
    assert (S' : sim (mkX u1 (n1 :: x_stack x1) (x_trace x1)) (mkX u2 (n2 :: x_stack x2) (x_trace x2))) by exact (conj A1 (conj A2 (conj A3 (conj (Forall2_cons _ _ H S4) S5)))).
    specialize (K S'). destruct (exec_all (exec ok k g1) _ _) as [[y1 e1]|], (exec_all (exec ok k g2) _ _) as [[y2 e2]|]; cbn [osim bind fst snd] in *; try contradiction; [|exact I].
    destruct K as (<- & T & K). destruct e1 as [e|]; cbn [osim]; [split; [reflexivity|split; [exact T|discriminate]]|].
    destruct (K eq_refl) as (Y1 & Y2 & Y3 & Y4 & Y5). destruct Y4 as [|t1 t2 q1 q2 Ht Hq]; [exact I|].
    destruct (upd_sim (x_st y1) (x_st y2) n1 n2 Done H Y1 Y2 Y3) as (w1 & w2 & W1 & W2 & Z1 & Z2 & Z3). rewrite W1, W2. cbn [bind]. rewrite Hi, Hn, T.
    destruct (n_init nd2) as [i|].
    + destruct (i_fn i) as [|f|f]; [| |destruct (ok (x_trace y2) f)]; cbn [osim x_trace]; (split; [reflexivity|split; [reflexivity|]]); try discriminate; intros _; unfold sim; cbn [x_st x_stack x_trace]; auto.
    + destruct (starts_with (n_name nd2) phony_prefix).
      * cbn [osim x_trace]. split; [reflexivity|split; [reflexivity|]]. intros _. unfold sim; cbn [x_st x_stack x_trace]; auto.
      * destruct Hq as [|a b q1 q2 Hab _]; [exact I|]. cbn [osim x_trace]. rewrite (proj2 Hab). split; [reflexivity|split; [reflexivity|discriminate]].
  - rewrite (cycle_sim n1 n2 H _ _ S4). destruct (cycle_names g2 n2 (x_stack x2)) as [q|]; [|exact I]. cbn [bind osim]. rewrite Hn. split; [reflexivity|]. split; [exact S5|discriminate].
  - cbn [osim]. split; [reflexivity|]. split; [exact S5|]. intros _. unfold sim. auto.
Qed.
Lemma run_sim k : forall d1 d2, Forall2 R d1 d2 -> forall Q x1 x2, sim x1 x2 ->
  match run_nodes ok k g1 Q x1 d1, run_nodes ok k g2 Q x2 d2 with
  | Some (P1, y1, e1), Some (P2, y2, e2) => P1 = P2 /\ e1 = e2 /\ x_trace y1 = x_trace y2
  | None, None => True | _, _ => False end.
Proof.
  induction 1 as [|a b d1 d2 Hab _ IH]; intros Q x1 x2 S; cbn [run_nodes].
  - split; [reflexivity|]. split; [reflexivity|apply S].
  - pose proof (exec_sim k x1 x2 a b S Hab) as K. destruct (exec ok k g1 x1 a) as [[y1 e1]|], (exec ok k g2 x2 b) as [[y2 e2]|]; cbn [osim bind fst snd] in *; try contradiction; [|exact I].
    destruct K as (<- & T & K). destruct e1 as [e|]; [auto|]. rewrite (proj2 Hab). apply IH, K. reflexivity.
Qed.
Lemma ids_R : Forall2 R (ssort (gname g1) ids1) (ssort (gname g2) ids2).
Proof.
  clear ok Un. assert (Nm : forall l g ids, built P l g ids -> map (gname g) ids = map i_name l).
  { intros l g ids B. pose proof (b_core _ _ _ _ B) as C. pose proof (b_init _ _ _ _ B) as F. clear B. induction F as [|i n l ids H _ IH]; [reflexivity|]. cbn. rewrite (c_name _ _ C _ _ H), IH. reflexivity. }
  apply names_R.
  - rewrite !map_ssort, (Nm _ _ _ B1), (Nm _ _ _ B2). apply isort_perm_eq, Permutation_map, Pm.
  - rewrite map_ssort, (Nm _ _ _ B1). intros H. apply ssort_in, in_map_iff in H as (i & E & Hi). destruct (named i Hi). contradiction.
Qed.
End Sim.

Definition decl_error (e : err) : Prop := match e with EPhonyName _ | ECollision _ | ELate _ _ => True | _ => False end.
Lemma run_perm ok P tr0 l1 l2 P1 t1 e1 P2 t2 e2 : clean P -> Permutation l1 l2 -> (forall i, In i l1 -> i_name i <> [] /\ ~ In [] (i_deps i)) ->
  run ok P tr0 l1 = Some (P1, t1, e1) -> run ok P tr0 l2 = Some (P2, t2, e2) ->
  P1 = P2 /\ t1 = t2 /\ (e1 = e2 \/ exists a b, e1 = Some a /\ e2 = Some b /\ decl_error a /\ decl_error b).
Proof.
  intros Pc Pm Nm H1 H2. unfold run in H1, H2.
  assert (Bad : forall l1 l2 a i b e, Permutation l1 l2 -> (forall i, In i l1 -> i_name i <> [] /\ ~ In [] (i_deps i)) -> l1 = a ++ i :: b -> init_bad P a i e ->
    forall g ids, built P l2 g ids -> (forall a i b, l2 = a ++ i :: b -> forall k, In k a -> i_name k = i_name i -> i_name i = []) -> False).
  { clear. intros l1 l2 a i b e Pm Nm El Hb g ids B U. assert (Hi : In i l1) by (rewrite El; apply in_or_app; right; left; reflexivity). pose proof (Permutation_in _ Pm Hi) as Hi2.
    destruct (b_good _ _ _ _ B i Hi2) as (G1 & G2 & G3). destruct Hb as [[_ H]|[[_ [H|(Z & k & Hk & Ek)]]|(r & _ & Hr & Hr')]]; [contradiction|contradiction| |exact (G3 r Hr' Hr)].
    apply unique_names in U. apply (Permutation_map i_name) in Pm.
    assert (N : NoDup (filter (fun n => negb (empty n)) (map i_name l1))).
    { assert (F : forall a b : list name, Permutation a b -> Permutation (filter (fun n => negb (empty n)) a) (filter (fun n => negb (empty n)) b)).
      { induction 1; cbn; try destruct (empty x); try destruct (empty y); cbn; try constructor; auto. eapply perm_trans; eassumption. }
      apply (Permutation_NoDup (Permutation_sym (F _ _ Pm)) U). }
    rewrite El, map_app, filter_app in N. cbn [map filter] in N. destruct (empty (i_name i)) eqn:Em; [apply empty_nil in Em; contradiction|]. cbn [negb] in N.
    apply NoDup_remove_2 in N. apply N, in_or_app. left. apply filter_In. split; [rewrite <- Ek; apply in_map, Hk|rewrite Em; reflexivity]. }
  assert (Nm2 : forall i, In i l2 -> i_name i <> [] /\ ~ In [] (i_deps i)) by (intros i Hi; apply Nm, (Permutation_in _ (Permutation_sym Pm)), Hi).
  assert (Dec : forall a i e, init_bad P a i e -> decl_error e) by (intros a i e [[-> _]|[[-> _]|(r & -> & _)]]; exact I).
  destruct (init_nodes_ok P l1 [] (mkG [] []) [] (built0 P)) as [(f1 & a1 & i1 & b1 & El1 & E1 & Hb1)|(g1 & ids1 & E1 & B1 & U1)];
  destruct (init_nodes_ok P l2 [] (mkG [] []) [] (built0 P)) as [(f2 & a2 & i2 & b2 & El2 & E2 & Hb2)|(g2 & ids2 & E2 & B2 & U2)];
  rewrite E1 in H1; rewrite E2 in H2; cbn [bind app] in *.
  - injection H1 as <- <- <-. injection H2 as <- <- <-. split; [reflexivity|]. split; [reflexivity|]. right. exists f1, f2. split; [reflexivity|]. split; [reflexivity|]. split; [apply (Dec _ _ _ Hb1)|apply (Dec _ _ _ Hb2)].
  - exfalso. apply (Bad l1 l2 a1 i1 b1 f1 Pm Nm El1 Hb1 g2 ids2 B2 U2).
  - exfalso. apply (Bad l2 l1 a2 i2 b2 f2 (Permutation_sym Pm) Nm2 El2 Hb2 g1 ids1 B1 U1).
  - destruct (run_nodes ok (S (length (g_nodes g1))) g1 P _ _) as [[[Q1 x1] r1]|] eqn:R1 in H1; [|discriminate]. destruct (run_nodes ok (S (length (g_nodes g2))) g2 P _ _) as [[[Q2 x2] r2]|] eqn:R2 in H2; [|discriminate].
    cbn [bind] in *. injection H1 as <- <- <-. injection H2 as <- <- <-.
    set (k := S (length (g_nodes g1)) + S (length (g_nodes g2))).
    apply (run_nodes_mono ok g1 _ k) in R1; [|unfold k; lia]. apply (run_nodes_mono ok g2 _ k) in R2; [|unfold k; lia].
    assert (Un : forall i j, In i l1 -> In j l1 -> i_name i = i_name j -> i = j).
    { intros i j Hi Hj E. destruct (in_split _ _ Hj) as (a & b & El). rewrite El in Hi. apply in_app_or in Hi as [Hi|[->|Hi]]; [|reflexivity|].
      - destruct (Nm j Hj) as [Z _]. destruct (Z (U1 a j b El i Hi E)).
      - destruct (in_split _ _ Hi) as (c & d & ->). assert (Hi' : In i l1) by (rewrite El; apply in_or_app; right; right; apply in_or_app; right; left; reflexivity).
        destruct (Nm i Hi') as [Z _]. destruct Z. apply (U1 (a ++ j :: c) i d) with (k := j); [rewrite El, <- app_assoc; reflexivity|apply in_or_app; right; left; reflexivity|congruence]. }
    pose proof (run_sim ok P l1 l2 g1 g2 ids1 ids2 Pm B1 B2 Un Nm k _ _ (ids_R P l1 l2 g1 g2 ids1 ids2 Pm B1 B2 Nm) P
      (mkX (repeat Pending (length (g_nodes g1))) [] tr0) (mkX (repeat Pending (length (g_nodes g2))) [] tr0)) as S.
    rewrite R1, R2 in S. destruct S as (A & B & C); [|auto].
    split; [apply repeat_length|]. split; [apply repeat_length|]. split; [|split; [constructor|reflexivity]]. cbn [x_st].
    intros n1 n2 [N E]. assert (H1 : n1 < size g1) by apply gname_lt, N. assert (H2 : n2 < size g2) by (apply gname_lt; congruence).
    unfold rd. rewrite !nth_error_repeat; [reflexivity|exact H2|exact H1].
Qed.
