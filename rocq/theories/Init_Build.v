(** The invariant of the construction of the graph. *)
From Coq Require Import Permutation Relations.
From Verif Require Import Base Visit_Model Init_Model Init_Spec Init_Graph.

Section B.
Variable P : list name.

Record core (g : digraph) : Prop := {
  c_index : index_ok g;
  c_range : forall n m, In m (gdeps g n) -> m < size g;
  c_name : forall n i, ginit g n = Some i -> gname g n = i_name i;
  c_edge : forall n m, In m (gdeps g n) ->
    (exists i, ginit g n = Some i /\ In (gname g m) (i_deps i) /\ ~ In (gname g m) P /\ (gname g m = [] -> ginit g m = None)) \/
    (exists i, ginit g m = Some i /\ In (gname g n) (i_rdeps i) /\ (gname g n = [] -> ginit g n = None))
}.
(** The names of the dependencies of the node named [x]. *)
Definition DN (g : digraph) (x : name) : list name :=
  match lookup x (g_index g) with Some n => map (gname g) (gdeps g n) | None => [] end.
Lemma DN_node g n : index_ok g -> gname g n <> [] -> DN g (gname g n) = map (gname g) (gdeps g n).
Proof. intros I N. unfold DN. rewrite (proj2 (I _ n N) eq_refl). reflexivity. Qed.
Lemma DN_none g x : index_ok g -> x <> [] -> (forall n, gname g n <> x) -> DN g x = [].
Proof. intros I N F. unfold DN. destruct (lookup x (g_index g)) as [n|] eqn:E; [|reflexivity]. apply (I x n N) in E. destruct (F n E). Qed.
Lemma DN_ext g g' x :
  core g -> index_ok g' -> x <> [] -> (forall m, m < size g -> gname g' m = gname g m) -> (forall m, gdeps g' m = gdeps g m) ->
  DN g' x = DN g x.
Proof.
  intros C I' N K D. pose proof (c_index _ C) as I. unfold DN. destruct (lookup x (g_index g)) as [n|] eqn:E.
  - apply (I x n N) in E. assert (L : n < size g) by (apply gname_lt; congruence). assert (E' : gname g' n = x) by (rewrite K; [exact E|exact L]).
    apply (I' x n N) in E' as ->. rewrite D. apply map_ext_in. intros m Hm. apply K, (c_range _ C n m Hm).
  - destruct (lookup x (g_index g')) as [n|] eqn:E'; [|reflexivity]. rewrite D.
    destruct (Nat.lt_ge_cases n (size g)) as [L|L]; [|rewrite (gdeps_out g n L); reflexivity].
    apply (I' x n N) in E'. rewrite (K n L) in E'. apply (I x n N) in E'. congruence.
Qed.

Lemma get_node_core g nm g' n : core g -> get_node g nm = (g', n) -> core g' /\ forall x, x <> [] -> DN g' x = DN g x.
Proof.
  intros C H. destruct (get_node_ok g nm g' n (c_index _ C) H) as (I & _ & L & _ & K & A & D & _ & _).
  split; [|intros x N; apply DN_ext; assumption].
  split; [exact I| | |].
  - intros a b Hb. rewrite D in Hb. pose proof (c_range _ C _ _ Hb). lia.
  - intros a i Hi. rewrite A in Hi. rewrite K by apply (ginit_lt _ _ _ Hi). apply (c_name _ C), Hi.
  - intros a b Hb. rewrite D in Hb. rewrite !A, (K a) by apply (gdeps_lt _ _ _ Hb). rewrite (K b) by apply (c_range _ C _ _ Hb). apply (c_edge _ C), Hb.
Qed.

(** What stays as it was. *)
Record keeps (g g' : digraph) : Prop := {
  k_size : size g <= size g';
  k_name : forall m, m < size g -> gname g' m = gname g m;
  k_init : forall m, ginit g' m = ginit g m;
  k_deps : forall n m, In m (gdeps g n) -> In m (gdeps g' n)
}.
Lemma keeps_refl g : keeps g g.
Proof. split; auto. Qed.
Lemma keeps_trans a b c : keeps a b -> keeps b c -> keeps a c.
Proof.
  intros [A1 A2 A3 A4] [B1 B2 B3 B4]. split; [lia| | |].
  - intros m H. rewrite B2 by lia. apply A2, H.
  - intros m. rewrite B3. apply A3.
  - intros n m H. apply B4, A4, H.
Qed.

Lemma add_edge g n m g1 : core g -> n < size g -> m < size g -> add_dep g n m = Some g1 ->
  ((exists i, ginit g n = Some i /\ In (gname g m) (i_deps i) /\ ~ In (gname g m) P /\ (gname g m = [] -> ginit g m = None)) \/
   (exists i, ginit g m = Some i /\ In (gname g n) (i_rdeps i) /\ (gname g n = [] -> ginit g n = None))) ->
  core g1 /\ keeps g g1 /\ In m (gdeps g1 n) /\
  forall x, x <> [] -> DN g1 x = DN g x ++ (if name_eqb (gname g n) x then [gname g m] else []).
Proof.
  intros C Ln Lm Hg HE. destruct (add_dep_ok g n m Ln (c_index _ C)) as (g1' & E & I & S & K & A & D). rewrite Hg in E. injection E as <-.
  split; [|split; [|split]].
  - split; [exact I| | |].
    + intros a b Hb. rewrite D in Hb. rewrite S. destruct (a =? n) eqn:Ea; [|apply (c_range _ C _ _ Hb)]. apply in_app_or in Hb as [Hb|[<-|[]]]; [apply (c_range _ C _ _ Hb)|exact Lm].
    + intros a i Hi. rewrite A in Hi. rewrite K. apply (c_name _ C), Hi.
    + intros a b Hb. rewrite D in Hb. rewrite !A, !K. destruct (a =? n) eqn:Ea; [|apply (c_edge _ C), Hb]. apply Nat.eqb_eq in Ea as ->.
      apply in_app_or in Hb as [Hb|[<-|[]]]; [apply (c_edge _ C), Hb|exact HE].
  - split; [lia|intros; apply K|exact A|]. intros a b Hb. rewrite D. destruct (a =? n) eqn:Ea; [|exact Hb]. apply Nat.eqb_eq in Ea as ->. apply in_or_app. left. exact Hb.
  - rewrite D, Nat.eqb_refl. apply in_or_app. right. left. reflexivity.
  - intros x N. unfold DN. pose proof (c_index _ C) as I0.
    destruct (lookup x (g_index g)) as [k|] eqn:E.
    + apply (I0 x k N) in E. assert (E' : gname g1 k = x) by (rewrite K; exact E). apply (I x k N) in E' as ->. rewrite D.
      destruct (k =? n) eqn:Ek.
      * apply Nat.eqb_eq in Ek as ->. rewrite E, (proj2 (name_eqb_eq x x) eq_refl), map_app. cbn [map]. rewrite K. f_equal. apply map_ext. intros; apply K.
      * destruct (name_eqb (gname g n) x) eqn:Q; [exfalso|rewrite app_nil_r; apply map_ext; intros; apply K].
        apply name_eqb_eq in Q. apply Nat.eqb_neq in Ek. apply Ek. apply (index_unique g); [exact I0|congruence|congruence].
    + destruct (lookup x (g_index g1)) as [k|] eqn:E'; [exfalso; apply (I x k N) in E'; rewrite K in E'; apply (I0 x k N) in E'; congruence|].
      destruct (name_eqb (gname g n) x) eqn:Q; [exfalso|reflexivity]. apply name_eqb_eq in Q. apply (I0 x n N) in Q. congruence.
Qed.

Lemma init_deps_ok i n ds : forall g, core g -> ginit g n = Some i -> incl ds (i_deps i) ->
  exists g', init_deps P g n ds = Some g' /\ core g' /\ keeps g g' /\
  (forall d, In d ds -> ~ In d P -> exists m, In m (gdeps g' n) /\ gname g' m = d /\ (d = [] -> ginit g' m = None)) /\
  forall x, x <> [] -> DN g' x = DN g x ++ (if name_eqb (gname g n) x then filter (fun d => negb (mem d P)) ds else []).
Proof.
  induction ds as [|d t IH]; intros g C Hn Hd.
  - exists g. split; [reflexivity|]. split; [exact C|]. split; [apply keeps_refl|]. split; [intros d []|]. intros x N. destruct (name_eqb _ _); rewrite app_nil_r; reflexivity.
  - assert (Ht : incl t (i_deps i)) by (intros z Hz; apply Hd; right; exact Hz). cbn [init_deps filter]. destruct (mem d P) eqn:Ed; cbn [negb].
    + destruct (IH g C Hn Ht) as (g' & E & C' & K & W & D). exists g'. split; [exact E|]. split; [exact C'|]. split; [exact K|]. split; [|exact D].
      intros z [<-|Hz] Nz; [apply mem_In in Ed; contradiction|apply W; assumption].
    + apply mem_nIn in Ed. destruct (get_node g d) as [g1 m] eqn:G. destruct (get_node_core _ _ _ _ C G) as [C1 D1].
      destruct (get_node_ok _ _ _ _ (c_index _ C) G) as (_ & Lm & Ls & Nm & K1 & A1 & Q1 & F1 & _).
      pose proof (ginit_lt _ _ _ Hn) as Ln. assert (Hn1 : ginit g1 n = Some i) by (rewrite A1; exact Hn).
      destruct (add_dep_ok g1 n m) as (g2 & E2 & _); [lia|apply (c_index _ C1)|]. rewrite E2. cbn [bind].
      destruct (add_edge g1 n m g2 C1) as (C2 & K2 & In2 & D2); [lia|exact Lm|exact E2| |].
      { left. exists i. rewrite Nm. split; [exact Hn1|]. split; [apply Hd; left; reflexivity|]. split; [exact Ed|].
        intros ->. rewrite A1. apply ginit_out. rewrite (F1 eq_refl). lia. }
      assert (Hn2 : ginit g2 n = Some i) by (rewrite (k_init _ _ K2); exact Hn1).
      destruct (IH g2 C2 Hn2 Ht) as (g' & E & C' & K & W & D). exists g'. split; [exact E|]. split; [exact C'|].
      assert (K01 : keeps g g1) by (split; [exact Ls|exact K1|exact A1|intros a b Hb; rewrite Q1; exact Hb]).
      split; [apply (keeps_trans _ _ _ (keeps_trans _ _ _ K01 K2) K)|]. split.
      * intros z [<-|Hz] Nz; [|apply W; assumption]. exists m. split; [apply (k_deps _ _ K), In2|]. pose proof (k_size _ _ K2) as S2.
        rewrite (k_name _ _ K) by lia. rewrite (k_name _ _ K2) by lia. split; [exact Nm|]. intros Z. rewrite (k_init _ _ K), (k_init _ _ K2), A1. apply ginit_out. rewrite (F1 Z). lia.
      * intros x N. rewrite (D x N), (D2 x N), (D1 x N), <- app_assoc. f_equal. rewrite (k_name _ _ K2) by lia. rewrite (K1 n Ln), Nm.
        destruct (name_eqb (gname g n) x); reflexivity.
Qed.

Lemma init_rdeps_ok i n rs : forall g, core g -> ginit g n = Some i -> incl rs (i_rdeps i) ->
  (exists r, In r rs /\ In r P /\ init_rdeps P (i_name i) g n rs = Some (inl (ELate (i_name i) r))) \/
  exists g', init_rdeps P (i_name i) g n rs = Some (inr g') /\ core g' /\ keeps g g' /\
  (forall r, In r rs -> ~ In r P /\ exists m, gname g' m = r /\ In n (gdeps g' m)) /\
  forall x, x <> [] -> DN g' x = DN g x ++ map (fun _ => i_name i) (filter (name_eqb x) rs).
Proof.
  induction rs as [|r t IH]; intros g C Hn Hd.
  - right. exists g. split; [reflexivity|]. split; [exact C|]. split; [apply keeps_refl|]. split; [intros d []|]. intros x N. rewrite app_nil_r. reflexivity.
  - assert (Ht : incl t (i_rdeps i)) by (intros z Hz; apply Hd; right; exact Hz). cbn [init_rdeps filter]. destruct (mem r P) eqn:Ed.
    + left. exists r. apply mem_In in Ed. split; [left; reflexivity|]. split; [exact Ed|reflexivity].
    + apply mem_nIn in Ed. destruct (get_node g r) as [g1 m] eqn:G. destruct (get_node_core _ _ _ _ C G) as [C1 D1].
      destruct (get_node_ok _ _ _ _ (c_index _ C) G) as (_ & Lm & Ls & Nm & K1 & A1 & Q1 & F1 & _).
      pose proof (ginit_lt _ _ _ Hn) as Ln. assert (Hn1 : ginit g1 n = Some i) by (rewrite A1; exact Hn).
      destruct (add_dep_ok g1 m n) as (g2 & E2 & _); [lia|apply (c_index _ C1)|]. rewrite E2. cbn [bind].
      destruct (add_edge g1 m n g2 C1) as (C2 & K2 & In2 & D2); [exact Lm|lia|exact E2| |].
      { right. exists i. rewrite Nm. split; [exact Hn1|]. split; [apply Hd; left; reflexivity|].
        intros ->. rewrite A1. apply ginit_out. rewrite (F1 eq_refl). lia. }
      assert (Hn2 : ginit g2 n = Some i) by (rewrite (k_init _ _ K2); exact Hn1).
      destruct (IH g2 C2 Hn2 Ht) as [(r' & R1 & R2 & R3)|(g' & E & C' & K & W & D)]; [left; exists r'; split; [right; exact R1|auto]|right].
      exists g'. split; [exact E|]. split; [exact C'|].
      assert (K01 : keeps g g1) by (split; [exact Ls|exact K1|exact A1|intros a b Hb; rewrite Q1; exact Hb]).
      split; [apply (keeps_trans _ _ _ (keeps_trans _ _ _ K01 K2) K)|]. pose proof (k_size _ _ K2) as S2. split.
      * intros z [<-|Hz]; [|apply W; assumption]. split; [exact Ed|]. exists m. split; [|apply (k_deps _ _ K), In2].
        rewrite (k_name _ _ K) by lia. rewrite (k_name _ _ K2) by lia. exact Nm.
      * intros x N. rewrite (D x N), (D2 x N), (D1 x N), <- app_assoc. f_equal. rewrite Nm, (c_name _ C1 _ _ Hn1).
        destruct (name_eqb x r) eqn:Q.
        -- apply name_eqb_eq in Q as ->. rewrite (proj2 (name_eqb_eq r r) eq_refl). reflexivity.
        -- destruct (name_eqb r x) eqn:Q'; [apply name_eqb_eq in Q' as ->; apply name_eqb_neq in Q; congruence|reflexivity].
Qed.

(** The dependencies that the declarations of [l] give to the name [x]. *)
Definition depnames (l : list initializer) (x : name) : list name :=
  flat_map (fun i => (if name_eqb (i_name i) x then filter (fun d => negb (mem d P)) (i_deps i) else []) ++
                     map (fun _ => i_name i) (filter (name_eqb x) (i_rdeps i))) l.

Record built (l : list initializer) (g : digraph) (ids : list nat) : Prop := {
  b_core : core g;
  b_init : Forall2 (fun i n => ginit g n = Some i) l ids;
  b_nodup : NoDup ids;
  b_ids : forall n i, ginit g n = Some i -> In n ids;
  b_dep : forall n i d, ginit g n = Some i -> In d (i_deps i) -> ~ In d P -> exists m, In m (gdeps g n) /\ gname g m = d /\ (d = [] -> ginit g m = None);
  b_rdep : forall m i r, ginit g m = Some i -> In r (i_rdeps i) -> exists n, gname g n = r /\ In m (gdeps g n);
  b_exact : forall x, x <> [] -> DN g x = depnames l x;
  b_good : forall i, In i l -> ~ phony (i_name i) /\ ~ In (i_name i) P /\ forall r, In r (i_rdeps i) -> ~ In r P
}.
Lemma Forall2_in_r {A B} (R : A -> B -> Prop) l l' y : Forall2 R l l' -> In y l' -> exists x, In x l /\ R x y.
Proof. induction 1 as [|a b l l' H F IH]; intros []; [subst; eauto using in_eq|]. destruct (IH H0) as (x & X & Y). eauto using in_cons. Qed.
Lemma Forall2_in_l {A B} (R : A -> B -> Prop) l l' x : Forall2 R l l' -> In x l -> exists y, In y l' /\ R x y.
Proof. induction 1 as [|a b l l' H F IH]; intros []; [subst; eauto using in_eq|]. destruct (IH H0) as (y & X & Y). eauto using in_cons. Qed.
Lemma b_in l g ids n i : built l g ids -> ginit g n = Some i -> In i l.
Proof. intros B H. pose proof (b_ids _ _ _ B _ _ H) as I. destruct (Forall2_in_r _ _ _ _ (b_init _ _ _ B) I) as (k & K & E). congruence. Qed.

Lemma Forall2_imp {A B} (R S : A -> B -> Prop) l l' : Forall2 R l l' -> (forall a b, R a b -> S a b) -> Forall2 S l l'.
Proof. induction 1; intros K; constructor; auto. Qed.
Lemma NoDup_snoc {A} (l : list A) x : NoDup l -> ~ In x l -> NoDup (l ++ [x]).
Proof. intros H N. apply (Permutation_NoDup (Permutation_cons_append l x)). constructor; assumption. Qed.

Definition init_bad (l : list initializer) (i : initializer) (e : err) : Prop :=
  (e = EPhonyName (i_name i) /\ phony (i_name i)) \/
  (e = ECollision (i_name i) /\ (In (i_name i) P \/ i_name i <> [] /\ exists k, In k l /\ i_name k = i_name i)) \/
  (exists r, e = ELate (i_name i) r /\ In r P /\ In r (i_rdeps i)).

Lemma init_node_ok l g ids i : built l g ids ->
  (exists e, init_node P g i = Some (inl e) /\ init_bad l i e) \/
  (exists g' n, init_node P g i = Some (inr (g', n)) /\ built (l ++ [i]) g' (ids ++ [n]) /\ (forall k, In k l -> i_name k = i_name i -> i_name i = [])).
Proof.
  intros B. unfold init_node. pose proof (b_core _ _ _ B) as C.
  destruct (starts_with (i_name i) phony_prefix) eqn:Ph; [left; eexists; split; [reflexivity|]; left; apply phony_iff in Ph; auto|].
  apply phony_false in Ph. destruct (get_node g (i_name i)) as [g1 n] eqn:G.
  destruct (get_node_core _ _ _ _ C G) as [C1 D1].
  destruct (get_node_ok _ _ _ _ (c_index _ C) G) as (_ & Ln & Ls & Nn & K1 & A1 & Q1 & F1 & N1).
  destruct (rd_lt (g_nodes g1) n Ln) as [nd Hnd]. rewrite Hnd. cbn [bind].
  assert (Hi : n_init nd = ginit g n) by (rewrite <- A1; unfold ginit; rewrite Hnd; reflexivity).
  rewrite Hi. destruct (ginit g n) as [k|] eqn:Gi; cbn [orb].
  { left. eexists. split; [reflexivity|]. right. left. split; [reflexivity|]. right.
    assert (Lg : n < size g) by apply (ginit_lt _ _ _ Gi). split; [intros Z; rewrite (F1 Z) in Lg; lia|].
    exists k. split; [apply (b_in _ _ _ _ _ B Gi)|]. rewrite <- (c_name _ C _ _ Gi), <- (K1 n Lg). exact Nn. }
  destruct (mem (i_name i) P) eqn:Mp; [apply mem_In in Mp; left; eexists; split; [reflexivity|]; right; left; auto|].
  apply mem_nIn in Mp.
  destruct (set_init_ok g1 n i Ln (c_index _ C1)) as (g2 & E2 & I2 & S2 & K2 & Q2 & A2). rewrite E2. cbn [bind].
  assert (NB : gname g1 n = [] -> forall a b, In b (gdeps g a) -> a <> n /\ b <> n).
  { intros Z a b Hb. rewrite Nn in Z. rewrite (F1 Z). pose proof (gdeps_lt _ _ _ Hb). pose proof (c_range _ C _ _ Hb). lia. }
  assert (C2 : core g2).
  { split; [exact I2| | |].
    - intros a b Hb. rewrite Q2, Q1 in Hb. pose proof (c_range _ C _ _ Hb). lia.
    - intros a j Hj. rewrite A2 in Hj. rewrite K2. destruct (a =? n) eqn:E; [apply Nat.eqb_eq in E as ->; injection Hj as <-; exact Nn|apply (c_name _ C1), Hj].
    - intros a b Hb. rewrite Q2 in Hb. rewrite !K2, !A2. pose proof Hb as Hb0. rewrite Q1 in Hb0.
      destruct (c_edge _ C1 _ _ Hb) as [(j & J1 & J2 & J3 & J4)|(j & J1 & J2 & J3)]; [left|right]; exists j.
      + split; [destruct (a =? n) eqn:E; [apply Nat.eqb_eq in E as ->; rewrite A1 in J1; congruence|exact J1]|]. split; [exact J2|]. split; [exact J3|].
        intros Z. destruct (b =? n) eqn:E; [apply Nat.eqb_eq in E as ->; destruct (NB Z _ _ Hb0); congruence|apply J4, Z].
      + split; [destruct (b =? n) eqn:E; [apply Nat.eqb_eq in E as ->; rewrite A1 in J1; congruence|exact J1]|]. split; [exact J2|].
        intros Z. destruct (a =? n) eqn:E; [apply Nat.eqb_eq in E as ->; destruct (NB Z _ _ Hb0); congruence|apply J3, Z]. }
  assert (Gn2 : ginit g2 n = Some i) by (rewrite A2, Nat.eqb_refl; reflexivity).
  destruct (init_deps_ok i n (i_deps i) g2 C2 Gn2 (incl_refl _)) as (g3 & E3 & C3 & K3 & W3 & D3). rewrite E3. cbn [bind].
  assert (Gn3 : ginit g3 n = Some i) by (rewrite (k_init _ _ K3); exact Gn2).
  destruct (init_rdeps_ok i n (i_rdeps i) g3 C3 Gn3 (incl_refl _)) as [(r & R1 & R2 & R3)|(g4 & E4 & C4 & K4 & W4 & D4)].
  { left. rewrite R3. cbn [bind]. eexists. split; [reflexivity|]. right. right. eauto. }
  right. rewrite E4. cbn [bind]. exists g4, n. split; [reflexivity|].
  pose proof (keeps_trans _ _ _ K3 K4) as K24.
  assert (Ini : forall m, ginit g4 m = if m =? n then Some i else ginit g m).
  { intros m. rewrite (k_init _ _ K24), A2. destruct (m =? n); [reflexivity|apply A1]. }
  assert (Sz : size g <= size g4) by (pose proof (k_size _ _ K24); lia).
  assert (Nms : forall m, m < size g -> gname g4 m = gname g m).
  { intros m Hm. rewrite (k_name _ _ K24) by lia. rewrite K2. apply K1, Hm. }
  assert (Dps : forall a b, In b (gdeps g a) -> In b (gdeps g4 a)).
  { intros a b Hb. apply (k_deps _ _ K24). rewrite Q2, Q1. exact Hb. }
  assert (Nids : ~ In n ids).
  { intros H. destruct (Forall2_in_r _ _ _ _ (b_init _ _ _ B) H) as (k & _ & E). congruence. }
  split.
  2:{ intros k Hk E. destruct (Forall2_in_l _ _ _ _ (b_init _ _ _ B) Hk) as (m & Hm & Em).
      destruct (name_dec (i_name i) []) as [Z|Z]; [exact Z|exfalso]. pose proof (c_name _ C _ _ Em) as F.
      assert (m = n); [|congruence]. apply (index_unique g1 m n (c_index _ C1)); rewrite (K1 m (ginit_lt _ _ _ Em)), F; congruence. }
  split; [exact C4| | | | | | |].
  - apply Forall2_app.
    + assert (H : Forall2 (fun i0 n0 => ginit g n0 = Some i0) l ids) by apply (b_init _ _ _ B).
      apply (Forall2_imp _ _ _ _ H). intros a b E. rewrite Ini. destruct (b =? n) eqn:Q; [apply Nat.eqb_eq in Q as ->; congruence|exact E].
    + constructor; [rewrite Ini, Nat.eqb_refl; reflexivity|constructor].
  - apply NoDup_snoc; [apply (b_nodup _ _ _ B)|exact Nids].
  - intros m j Hj. apply in_or_app. rewrite Ini in Hj. destruct (m =? n) eqn:Q; [apply Nat.eqb_eq in Q as ->; right; left; reflexivity|left; apply (b_ids _ _ _ B _ _ Hj)].
  - intros m j d Hj Hd Np. rewrite Ini in Hj. destruct (m =? n) eqn:Q.
    + apply Nat.eqb_eq in Q as ->. injection Hj as <-. destruct (W3 d Hd Np) as (k & Hk & Ek & Zk). exists k. split; [apply (k_deps _ _ K4), Hk|].
      rewrite (k_name _ _ K4) by apply (c_range _ C3 _ _ Hk). split; [exact Ek|]. rewrite (k_init _ _ K4). exact Zk.
    + destruct (b_dep _ _ _ B _ _ _ Hj Hd Np) as (k & Hk & Ek & Zk). exists k. split; [apply Dps, Hk|]. rewrite Nms by apply (c_range _ C _ _ Hk). split; [exact Ek|]. intros Z. rewrite Ini. destruct (k =? n) eqn:Qk; [exfalso|apply Zk, Z].
      apply Nat.eqb_eq in Qk as ->. pose proof (c_range _ C _ _ Hk) as Lk. rewrite <- (K1 n Lk), Nn in Ek. rewrite F1 in Lk by congruence. lia.
  - intros m j r Hj Hr. rewrite Ini in Hj. destruct (m =? n) eqn:Q.
    + apply Nat.eqb_eq in Q as ->. injection Hj as <-. destruct (W4 r Hr) as (_ & k & Ek & Hk). eauto.
    + destruct (b_rdep _ _ _ B _ _ _ Hj Hr) as (k & Ek & Hk). exists k. split; [rewrite Nms by apply (gdeps_lt _ _ _ Hk); exact Ek|apply Dps, Hk].
  - intros x N. rewrite (D4 x N), (D3 x N). rewrite (DN_ext g1 g2 x C1 I2 N (fun m _ => K2 m) Q2), (D1 x N), (b_exact _ _ _ B x N).
    unfold depnames. rewrite flat_map_app. cbn [flat_map]. rewrite app_nil_r, <- app_assoc, K2, Nn. reflexivity.
  - intros j Hj. apply in_app_or in Hj as [Hj|[<-|[]]]; [apply (b_good _ _ _ B), Hj|]. split; [exact Ph|]. split; [exact Mp|]. intros r Hr. apply (proj1 (W4 r Hr)).
Qed.

Lemma init_nodes_ok t : forall l g ids, built l g ids ->
  (exists e a i b, t = a ++ i :: b /\ init_nodes P g t = Some (inl e) /\ init_bad (l ++ a) i e) \/
  (exists g' ns, init_nodes P g t = Some (inr (g', ns)) /\ built (l ++ t) g' (ids ++ ns) /\
     (forall a i b, t = a ++ i :: b -> forall k, In k (l ++ a) -> i_name k = i_name i -> i_name i = [])).
Proof.
  induction t as [|i t IH]; intros l g ids B.
  - right. exists g, []. rewrite !app_nil_r. split; [reflexivity|]. split; [exact B|]. intros [|] ? ? H; discriminate.
  - cbn [init_nodes]. destruct (init_node_ok l g ids i B) as [(e & E & H)|(g1 & n & E & B1 & U)]; rewrite E; cbn [bind].
    + left. exists e, [], i, t. rewrite app_nil_r. auto.
    + destruct (IH _ _ _ B1) as [(e & a & j & b & -> & E1 & H)|(g2 & ns & E1 & B2 & U2)]; rewrite E1; cbn [bind].
      * left. exists e, (i :: a), j, b. rewrite <- app_assoc in H. auto.
      * right. exists g2, (n :: ns). rewrite <- !app_assoc in B2. split; [reflexivity|]. split; [exact B2|].
        intros [|a0 a] j b Ej k Hk; cbn in Ej; injection Ej as <- Ej.
        -- rewrite app_nil_r in Hk. apply (U k Hk).
        -- apply (U2 a j b Ej k). rewrite <- app_assoc. exact Hk.
Qed.

Lemma built0 : built [] (mkG [] []) [].
Proof.
  assert (R : forall n, rd (@nil gnode) n = None) by (intros [|n]; reflexivity).
  split; [split| | | | | | |].
  - intros x n N. unfold gname. cbn. rewrite R. split; [discriminate|congruence].
  - intros n m H. unfold gdeps in H. cbn in H. rewrite R in H. contradiction.
  - intros n i H. unfold ginit in H. cbn in H. rewrite R in H. discriminate.
  - intros n m H. unfold gdeps in H. cbn in H. rewrite R in H. contradiction.
  - constructor.
  - constructor.
  - intros n i H. unfold ginit in H. cbn in H. rewrite R in H. discriminate.
  - intros n i d H. unfold ginit in H. cbn in H. rewrite R in H. discriminate.
  - intros n i d H. unfold ginit in H. cbn in H. rewrite R in H. discriminate.
  - reflexivity.
  - intros i [].
Qed.
End B.
