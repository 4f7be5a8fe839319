(** Piecewise constant evaluation: the representative of every value. *)
From Coq Require Import Permutation.
From Verif Require Import Base Forest_Model Forest_Spec FullAcc_Spec ForestBm_Model ForestBm_Spec ForestBm_Proofs ForestSi_Model ForestSi_Spec.
From Verif Require ForestSi_Mid.

(** What the numbers have to satisfy: [good] for the order, [pt] for split points, [inp]
    for inputs. *)
Record num_ok {T} (nm : num T) (good pt inp : T -> Prop) : Prop := {
  no_asym : forall a b, n_lt nm a b = true -> n_lt nm b a = false;
  no_ntrans : forall a b c, good a -> good b -> good c -> n_lt nm a b = false -> n_lt nm b c = false -> n_lt nm a c = false;
  no_eq : forall a b, good a -> good b -> n_eq nm a b = negb (n_lt nm a b) && negb (n_lt nm b a);
  no_pt : forall p, pt p -> good p;
  no_good : forall v, n_nan nm v = false -> good v;
  no_low : forall p, pt p -> good (n_lowest nm) /\ n_lt nm (n_lowest nm) p = true;
  no_max : forall p, pt p -> good (n_max nm) /\ n_lt nm p (n_max nm) = true;
  no_zero : good (n_zero nm);
  no_mid : forall l r, pt l -> pt r -> exists m, n_mid nm l r = Some m /\
    forall v, good v -> inp v -> n_lt nm l v = true -> n_lt nm v r = true -> good m /\ n_lt nm l m = true /\ n_lt nm m r = true }.

Lemma exists_last_or_nil {A} (l : list A) : l = [] \/ exists l' x, l = l' ++ [x].
Proof. destruct l as [|x r]; [left; reflexivity|right]. destruct (exists_last (l := x :: r)) as (l' & y & E); [discriminate|]. eauto. Qed.
Section generic.
Context {T V : Type} (nm : num T) (good pt inp : T -> Prop) (N : num_ok nm good pt inp) (lib : library) (L : lib_ok lib).
Notation lt := (n_lt nm).
Notation eq := (n_eq nm).

Lemma lt_trans a b c : good a -> good b -> good c -> lt a b = true -> lt b c = true -> lt a c = true.
Proof.
  intros A B C X Y. destruct (lt a c) eqn:E; [reflexivity|]. pose proof (no_asym _ _ _ _ N _ _ Y) as Y'.
  pose proof (no_ntrans _ _ _ _ N a c b A C B E Y'). congruence.
Qed.
Lemma lt_le_trans a b c : good a -> good b -> good c -> lt a b = true -> lt c b = false -> lt a c = true.
Proof. intros A B C X Y. destruct (lt a c) eqn:E; [reflexivity|]. pose proof (no_ntrans _ _ _ _ N a c b A C B E Y). congruence. Qed.
Lemma le_lt_trans a b c : good a -> good b -> good c -> lt b a = false -> lt b c = true -> lt a c = true.
Proof. intros A B C X Y. destruct (lt a c) eqn:E; [reflexivity|]. pose proof (no_ntrans _ _ _ _ N b a c B A C X E). congruence. Qed.
Lemma eq_cell a b v : good a -> good b -> good v -> eq a b = true -> lt a v = lt b v /\ lt v a = lt v b.
Proof.
  intros A B G E. rewrite (no_eq _ _ _ _ N) in E by assumption. apply andb_true_iff in E. destruct E as [E1 E2].
  apply negb_true_iff in E1. apply negb_true_iff in E2. split.
  - destruct (lt a v) eqn:X, (lt b v) eqn:Y; try reflexivity.
    + rewrite (le_lt_trans b a v) in Y by assumption. discriminate.
    + rewrite (le_lt_trans a b v) in X by assumption. discriminate.
  - destruct (lt v a) eqn:X, (lt v b) eqn:Y; try reflexivity.
    + rewrite (lt_le_trans v a b) in Y by assumption. discriminate.
    + rewrite (lt_le_trans v b a) in X by assumption. discriminate.
Qed.

(** Two values that compare in the same way to all points. *)
Definition same_cell (pts : list T) (v w : T) : Prop := forall p, In p pts -> lt v p = lt w p /\ lt p v = lt p w.
Fixpoint increasing (l : list T) : Prop := match l with [] => True | x :: r => (forall y, In y r -> lt x y = true) /\ increasing r end.

Lemma unique_ok l : forall last, (forall x, In x (last :: l) -> good x) -> ascending lt (last :: l) ->
  increasing (last :: unique_from eq last l) /\
  (forall x, In x (unique_from eq last l) -> In x l) /\
  (forall x, In x l -> exists y, In y (last :: unique_from eq last l) /\ eq y x = true).
Proof.
  induction l as [|x r IH]; intros last G A.
  - cbn. split; [split; [intros y []|trivial]|]. split; intros x [].
  - cbn [unique_from]. cbn in A. destruct A as (A1 & A2 & A3).
    assert (Gl : good last) by (apply G; left; reflexivity). assert (Gx : good x) by (apply G; right; left; reflexivity).
    destruct (eq last x) eqn:E.
    + destruct (IH last) as (I1 & I2 & I3); [intros y [<-|Y]; [exact Gl|apply G; right; right; exact Y]| |].
      { cbn. split; [intros y Y; apply A1; right; exact Y|exact A3]. }
      split; [exact I1|]. split; [intros y Y; right; apply I2; exact Y|]. intros y [<-|Y]; [exists last; split; [left; reflexivity|exact E]|apply I3; exact Y].
    + destruct (IH x) as (I1 & I2 & I3); [intros y [<-|Y]; [exact Gx|apply G; right; right; exact Y]|cbn; split; assumption|].
      assert (Lx : lt last x = true).
      { rewrite (no_eq _ _ _ _ N) in E by assumption. rewrite (A1 x (or_introl eq_refl)) in E. destruct (lt last x); [reflexivity|discriminate]. }
      split; [|split].
      * cbn. split; [|exact I1]. intros y [<-|Y]; [exact Lx|]. apply I2 in Y. apply (lt_le_trans last x y); auto. apply G. right. right. exact Y.
      * intros y [<-|Y]; [left; reflexivity|right; apply I2; exact Y].
      * intros y [<-|Y].
        -- exists x. split; [right; left; reflexivity|]. rewrite (no_eq _ _ _ _ N) by assumption. destruct (lt x x) eqn:X; [pose proof (no_asym _ _ _ _ N _ _ X); congruence|reflexivity].
        -- destruct (I3 y Y) as (z & Z & Ez). exists z. split; [right; exact Z|exact Ez].
Qed.
Lemma eq_refl_good x : good x -> eq x x = true.
Proof. intros G. rewrite (no_eq _ _ _ _ N) by assumption. destruct (lt x x) eqn:X; [pose proof (no_asym _ _ _ _ N _ _ X); congruence|reflexivity]. Qed.
Lemma points_ok l : (forall x, In x l -> pt x) ->
  let pts := unique eq (l_sort lib _ lt l) in
  increasing pts /\ (forall x, In x pts -> pt x) /\
  forall v w, good v -> good w -> same_cell pts v w -> same_cell l v w.
Proof.
  intros P pts. assert (G : forall x, In x l -> good x) by (intros x X; apply (no_pt _ _ _ _ N), P, X).
  destruct (lib_sort _ L T lt l) as [Q A].
  - intros a b _ _. apply (no_asym _ _ _ _ N).
  - intros a b c Ia Ib Ic. apply (no_ntrans _ _ _ _ N); auto.
  - unfold pts. assert (Gs : forall x, In x (l_sort lib _ lt l) -> pt x) by (intros x X; apply P; apply (Permutation_in _ Q X)).
    assert (K : forall x, In x l -> In x (l_sort lib _ lt l)) by (intros x X; apply (Permutation_in _ (Permutation_sym Q) X)).
    destruct (l_sort lib _ lt l) as [|x r]; [split; [exact I|split; [intros x []|intros v w _ _ _ p X; destruct (K p X)]]|].
    destruct (unique_ok r x (fun y Y => no_pt _ _ _ _ N y (Gs y Y)) A) as (U1 & U2 & U3). cbn [unique]. split; [exact U1|].
    split; [intros y [<-|Y]; apply Gs; [left; reflexivity|right; apply U2; exact Y]|].
    intros v w Gv Gw C p X. specialize (K p X).
    assert (E : exists y, In y (x :: unique_from eq x r) /\ eq y p = true).
    { destruct K as [<-|K]; [|apply U3; exact K]. exists x. split; [left; reflexivity|]. apply eq_refl_good. apply (no_pt _ _ _ _ N), Gs. left. reflexivity. }
    destruct E as (y & Y & E). assert (Gy : good y) by (apply (no_pt _ _ _ _ N), Gs; destruct Y as [<-|Y]; [left; reflexivity|right; apply U2; exact Y]).
    destruct (eq_cell y p v Gy (G p X) Gv E) as [V1 V2]. destruct (eq_cell y p w Gy (G p X) Gw E) as [W1 W2]. rewrite <- V1, <- V2, <- W1, <- W2. apply C. exact Y.
Qed.

(** ** The table. *)
Variable ev : option T -> option V.
Hypothesis Ev : forall x, exists y, ev x = Some y.
Lemma at_points_ok pts : exists vs, at_points V ev pts = Some vs /\ length vs = length pts /\
  forall k p, nth_error pts k = Some p -> nth_error vs k = ev (Some p).
Proof.
  induction pts as [|p r (vs & E & Ln & H)]; [exists []; repeat split; intros [|k] p; discriminate|].
  destruct (Ev (Some p)) as [v Y]. exists (v :: vs). cbn. rewrite Y, E. cbn. split; [reflexivity|]. split; [f_equal; exact Ln|].
  intros [|k] q; cbn; [intros [= <-]; symmetry; exact Y|apply H].
Qed.
Lemma between_ok pts : forall p, (forall x, In x (p :: pts) -> pt x) -> exists vs, between V nm ev p pts = Some vs /\ length vs = length pts /\
  forall k a b, nth_error (p :: pts) k = Some a -> nth_error pts k = Some b -> exists m, n_mid nm a b = Some m /\ nth_error vs k = ev (Some m).
Proof.
  induction pts as [|q r IH]; intros p P; [exists []; repeat split; intros [|k] a b _ B; discriminate|].
  destruct (IH q) as (vs & E & Ln & H); [intros x X; apply P; right; exact X|].
  destruct (no_mid _ _ _ _ N p q) as (m & M & _); [apply P; left; reflexivity|apply P; right; left; reflexivity|].
  destruct (Ev (Some m)) as [v Y]. exists (v :: vs). cbn [between]. rewrite M. cbn [bind]. rewrite Y. cbn [bind]. rewrite E. split; [reflexivity|]. split; [cbn; f_equal; exact Ln|].
  intros [|k] a b; cbn; [intros [= <-] [= <-]; exists m; split; [exact M|symmetry; exact Y]|apply H].
Qed.
Lemma nth_last {A} (l : list A) (x : A) : nth_error (l ++ [x]) (length l) = Some x.
Proof. rewrite nth_error_app2 by lia. rewrite Nat.sub_diag. reflexivity. Qed.

Lemma increasing_split v pts : good v -> (forall x, In x pts -> good x) -> increasing pts ->
  exists a b, pts = a ++ b /\ (forall x, In x a -> lt x v = true) /\ (forall x, In x b -> lt x v = false).
Proof.
  intros G. induction pts as [|p r IH]; intros P I; [exists [], []; repeat split; intros x []|]. cbn in I. destruct I as [I1 I2].
  destruct (lt p v) eqn:E.
  - destruct IH as (a & b & -> & A & B); [intros x X; apply P; right; exact X|exact I2|]. exists (p :: a), b. split; [reflexivity|].
    split; [intros x [<-|X]; [exact E|apply A; exact X]|exact B].
  - exists [], (p :: r). split; [reflexivity|]. split; [intros x []|]. intros x [<-|X]; [exact E|].
    destruct (lt x v) eqn:F; [|reflexivity]. rewrite (lt_trans p x v) in E; auto; try discriminate; apply P; [left; reflexivity|right; exact X].
Qed.
Lemma increasing_app a b : increasing (a ++ b) -> (forall x y, In x a -> In y b -> lt x y = true) /\ increasing b.
Proof.
  induction a as [|z a IH]; cbn; [intros I; split; [intros x y []|exact I]|]. intros [I1 I2]. destruct (IH I2) as [J1 J2]. split; [|exact J2].
  intros x y [<-|X] Y; [apply I1; apply in_app_iff; right; exact Y|apply J1; assumption].
Qed.

Lemma table_ok pts : increasing pts -> (forall x, In x pts -> pt x) ->
  exists p, tabulate V nm ev pts = Some p /\
  (forall x, match x with None => True | Some v => n_nan nm v = true end -> pce_eval V lib nm p x = ev None) /\
  forall v, inp v -> n_nan nm v = false -> exists w, good w /\ same_cell pts v w /\ pce_eval V lib nm p (Some v) = ev (Some w).
Proof.
  intros I P. assert (G : forall x, In x pts -> good x) by (intros x X; apply (no_pt _ _ _ _ N), P, X).
  destruct (at_points_ok pts) as (pv & E1 & L1 & H1). destruct (Ev None) as [ms E3].
  assert (M : exists mv, middles V nm ev pts = Some mv /\ length mv = S (length pts) /\
    (pts = [] -> nth_error mv 0 = ev (Some (n_zero nm))) /\
    (pts <> [] -> nth_error mv 0 = ev (Some (n_lowest nm))) /\
    (forall k a b, nth_error pts k = Some a -> nth_error pts (S k) = Some b -> exists m, n_mid nm a b = Some m /\ nth_error mv (S k) = ev (Some m)) /\
    (pts <> [] -> nth_error mv (length pts) = ev (Some (n_max nm)))).
  { unfold middles. destruct pts as [|p r].
    - destruct (Ev (Some (n_zero nm))) as [z Z]. exists [z]. rewrite Z. cbn. split; [reflexivity|]. split; [reflexivity|]. split; [intros _; reflexivity|]. split; [congruence|].
      split; [intros [|k] a b; discriminate|congruence].
    - destruct (Ev (Some (n_lowest nm))) as [lo Lo]. destruct (between_ok r p P) as (bs & Eb & Lb & Hb). destruct (Ev (Some (n_max nm))) as [hi Hi].
      exists (lo :: bs ++ [hi]). rewrite Lo. cbn [bind]. rewrite Eb. cbn [bind]. rewrite Hi. split; [reflexivity|]. split; [cbn; rewrite app_length, Lb; cbn; lia|].
      split; [discriminate|]. split; [intros _; reflexivity|]. split.
      + intros k a b A B. cbn in B. destruct (Hb k a b A B) as (m & Em & Nm). exists m. split; [exact Em|]. cbn.
        rewrite nth_error_app1; [exact Nm|]. rewrite Lb. apply nth_error_Some. congruence.
      + intros _. cbn. rewrite <- Lb, nth_last. reflexivity. }
  destruct M as (mv & E2 & L2 & M0 & M1 & M2 & M3).
  exists {| p_points := pts; p_values := pv; p_middle := mv; p_missed := ms |}. unfold tabulate. rewrite E1. cbn [bind]. rewrite E2. cbn [bind]. rewrite E3. split; [reflexivity|].
  split; [intros [v|]; cbn; [intros ->|intros _]; reflexivity|].
  intros v Iv Nv. assert (Gv : good v) by (apply (no_good _ _ _ _ N); exact Nv). unfold pce_eval. rewrite Nv. cbn [p_points p_values p_middle].
  destruct (increasing_split v pts Gv G I) as (a & b & -> & A & B).
  rewrite (lib_upper _ L T (fun q => lt q v) a b A B).
  destruct (increasing_app a b I) as [J Ib].
  destruct b as [|q b].
  - rewrite app_nil_r in *. rewrite Nat.ltb_irrefl, L2. replace (S (length a) - 1) with (length a) by lia.
    destruct a as [|p a].
    + exists (n_zero nm). split; [apply (no_zero _ _ _ _ N)|]. split; [intros p []|]. apply M0. reflexivity.
    + destruct (no_max _ _ _ _ N p) as [Gm _]; [apply P; left; reflexivity|]. exists (n_max nm). split; [exact Gm|]. split; [|apply M3; discriminate].
      intros q Q. pose proof (A q Q) as X. destruct (no_max _ _ _ _ N q (P q Q)) as [_ Y]. rewrite X, Y, (no_asym _ _ _ _ N _ _ X), (no_asym _ _ _ _ N _ _ Y). split; reflexivity.
  - rewrite app_length. destruct (Nat.ltb_spec (length a) (length a + length (q :: b))) as [_|Bad]; [|cbn in Bad; lia].
    assert (Rq : nth_error (a ++ q :: b) (length a) = Some q) by (rewrite nth_error_app2, Nat.sub_diag by lia; reflexivity).
    unfold rd. rewrite Rq. cbn [bind]. assert (Pq : pt q) by (apply P; apply in_app_iff; right; left; reflexivity). pose proof (no_pt _ _ _ _ N q Pq) as Gq.
    destruct (eq q v) eqn:Eq.
    + exists q. split; [exact Gq|]. split; [|apply H1; exact Rq]. intros p X. destruct (eq_cell q v p Gq Gv (G p X) Eq) as [Y1 Y2]. split; symmetry; assumption.
    + assert (Lv : lt v q = true).
      { rewrite (no_eq _ _ _ _ N) in Eq by assumption. rewrite (B q (or_introl eq_refl)) in Eq. destruct (lt v q); [reflexivity|discriminate]. }
      assert (Bv : forall x, In x (q :: b) -> lt v x = true).
      { intros x [<-|X]; [exact Lv|]. apply (lt_trans v q x Gv Gq); [apply G; apply in_app_iff; right; right; exact X|exact Lv|]. cbn in Ib. apply Ib. exact X. }
      assert (Cell : forall m, good m -> lt m q = true -> (forall x, In x a -> lt x m = true) -> same_cell (a ++ q :: b) v m).
      { intros m Gm Mq Am x X. apply in_app_iff in X. destruct X as [X|X].
        - pose proof (A x X) as Y. pose proof (Am x X) as Z. rewrite Y, Z, (no_asym _ _ _ _ N _ _ Y), (no_asym _ _ _ _ N _ _ Z). split; reflexivity.
        - assert (Z : lt m x = true).
          { destruct X as [<-|X]; [exact Mq|]. apply (lt_trans m q x Gm Gq); [apply G; apply in_app_iff; right; right; exact X|exact Mq|]. cbn in Ib. apply Ib. exact X. }
          pose proof (Bv x X) as Y. rewrite Y, Z, (no_asym _ _ _ _ N _ _ Y), (no_asym _ _ _ _ N _ _ Z). split; reflexivity. }
      destruct (exists_last_or_nil a) as [->|(a' & p & ->)].
      * destruct (no_low _ _ _ _ N q Pq) as [Gl Ll]. exists (n_lowest nm). split; [exact Gl|]. split; [apply Cell; [exact Gl|exact Ll|intros x []]|]. apply M1. discriminate.
      * rewrite app_length in *. cbn [length] in *. replace (length a' + 1) with (S (length a')) in * by lia.
        assert (Pp : pt p) by (apply P; apply in_app_iff; left; apply in_app_iff; right; left; reflexivity).
        assert (Np : nth_error ((a' ++ [p]) ++ q :: b) (length a') = Some p).
        { rewrite <- app_assoc. rewrite nth_error_app2, Nat.sub_diag by lia. reflexivity. }
        destruct (M2 (length a') p q Np Rq) as (m & Em & Nm).
        destruct (no_mid _ _ _ _ N p q Pp Pq) as (m' & Em' & K). rewrite Em in Em'. injection Em' as <-.
        destruct (K v Gv Iv) as (Gm & X & Y); [apply A; apply in_app_iff; right; left; reflexivity|exact Lv|].
        exists m. split; [exact Gm|]. split; [|exact Nm]. apply Cell; [exact Gm|exact Y|]. intros x Hx. apply in_app_iff in Hx. destruct Hx as [Hx|[<-|[]]]; [|exact X].
        apply (lt_trans x p m); auto; [apply G; rewrite <- app_assoc; apply in_app_iff; left; exact Hx|apply (no_pt _ _ _ _ N); exact Pp|].
        rewrite <- app_assoc in I. destruct (increasing_app a' _ I) as [J' _]. apply J'; [exact Hx|left; reflexivity].
Qed.
End generic.
