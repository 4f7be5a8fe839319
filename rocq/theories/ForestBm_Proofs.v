(** Proofs about bitmask evaluation. *)
From Coq Require Import Permutation.
From Verif Require Import Base Bits_Model Bits_Proofs Forest_Model Forest_Spec Forest_Proofs FullAcc_Spec ForestBm_Model ForestBm_Spec.

(** ** The order of floats that are not NaN. *)
Definition frank (x : f32) : Z * Z * Z :=
  match x with
  | S754_nan => (0, 0, 0)%Z
  | S754_infinity true => (-2, 0, 0)%Z
  | S754_infinity false => (2, 0, 0)%Z
  | S754_zero _ => (0, 0, 0)%Z
  | S754_finite true m e => (-1, - e, Z.neg m)%Z
  | S754_finite false m e => (1, e, Z.pos m)%Z
  end.
Definition lex (a b : Z * Z * Z) : Prop :=
  let '(a1, a2, a3) := a in let '(b1, b2, b3) := b in (a1 < b1 \/ a1 = b1 /\ (a2 < b2 \/ a2 = b2 /\ a3 < b3))%Z.
Lemma fcompare x y : x <> S754_nan -> y <> S754_nan ->
  exists c, SFcompare x y = Some c /\ (c = Lt <-> lex (frank x) (frank y)) /\ (c = Gt <-> lex (frank y) (frank x)).
Proof.
  intros X Y. destruct x as [s|[]| |[] m e], y as [s'|[]| |[] m' e']; try contradiction; eexists; (split; [reflexivity|]); cbn [frank lex];
  try (split; split; intros; try discriminate; try reflexivity; lia).
  - destruct (Z.compare_spec e e'); cbn; [|split; split; intros; try discriminate; try reflexivity; lia..].
    change (Pcompare m m' Eq) with (Pos.compare m m'). destruct (Pos.compare_spec m m'); cbn; split; split; intros; try discriminate; try reflexivity; lia.
  - destruct (Z.compare_spec e e'); cbn; [|split; split; intros; try discriminate; try reflexivity; lia..].
    change (Pcompare m m' Eq) with (Pos.compare m m'). destruct (Pos.compare_spec m m'); cbn; split; split; intros; try discriminate; try reflexivity; lia.
Qed.
Lemma flt_lex x y : x <> S754_nan -> y <> S754_nan -> (flt x y = true <-> lex (frank x) (frank y)).
Proof.
  intros X Y. destruct (fcompare x y X Y) as (c & E & A & B). unfold flt, SFltb. rewrite E. rewrite <- A. destruct c; split; congruence.
Qed.
Lemma lex_irr a : ~ lex a a.
Proof. destruct a as [[a b] c]. cbn. lia. Qed.
Lemma lex_asym a b : lex a b -> ~ lex b a.
Proof. destruct a as [[a1 a2] a3], b as [[b1 b2] b3]. cbn. lia. Qed.
Lemma lex_ntrans a b c : ~ lex a b -> ~ lex b c -> ~ lex a c.
Proof. destruct a as [[a1 a2] a3], b as [[b1 b2] b3], c as [[c1 c2] c3]. cbn. lia. Qed.
Lemma flt_asym x y : flt x y = true -> flt y x = false.
Proof.
  destruct (flt y x) eqn:E; [|reflexivity]. intros H.
  assert (x <> S754_nan) by (intros ->; discriminate). assert (y <> S754_nan) by (intros ->; discriminate).
  apply flt_lex in H; [|assumption..]. apply flt_lex in E; [|assumption..]. exfalso. eapply lex_asym; eassumption.
Qed.
Lemma flt_ntrans x y z : x <> S754_nan -> y <> S754_nan -> z <> S754_nan -> flt x y = false -> flt y z = false -> flt x z = false.
Proof.
  intros X Y Z A B. destruct (flt x z) eqn:E; [|reflexivity]. exfalso. apply flt_lex in E; [|assumption..]. revert E. apply (lex_ntrans _ (frank y)).
  - intros H. apply flt_lex in H; [congruence|assumption..].
  - intros H. apply flt_lex in H; [congruence|assumption..].
Qed.
Lemma fle_flt x y : x <> S754_nan -> y <> S754_nan -> fle x y = negb (flt y x).
Proof.
  intros X Y. destruct (fcompare x y X Y) as (c & E & A & B). unfold fle, SFleb. rewrite E.
  destruct (flt y x) eqn:F; cbn.
  - apply flt_lex in F; [|assumption..]. apply B in F. subst c. reflexivity.
  - destruct c; try reflexivity. exfalso. assert (L : lex (frank y) (frank x)) by (apply B; reflexivity). apply flt_lex in L; [congruence|assumption..].
Qed.
Lemma feq_flt x y : x <> S754_nan -> y <> S754_nan -> feq x y = negb (flt x y) && negb (flt y x).
Proof.
  intros X Y. destruct (fcompare x y X Y) as (c & E & A & B). unfold feq, SFeqb. rewrite E.
  assert (FA : flt x y = true <-> c = Lt) by (rewrite A; apply flt_lex; assumption).
  assert (FB : flt y x = true <-> c = Gt) by (rewrite B; apply flt_lex; assumption).
  destruct c, (flt x y), (flt y x); cbn; try reflexivity; exfalso; intuition congruence.
Qed.
Lemma fneg_nan x : fneg x = S754_nan <-> x = S754_nan.
Proof. destruct x; cbn; split; congruence. Qed.
Lemma flt_fneg x y : flt (fneg x) (fneg y) = flt y x.
Proof.
  destruct x as [s|s| |s m e]; destruct y as [s'|s'| |s' m' e']; try destruct s; try destruct s'; cbn; try reflexivity.
  all: unfold flt, SFltb, fneg, SFopp, SFcompare; cbn; rewrite (Z.compare_antisym e' e) || idtac.
  all: try (destruct (Z.compare_spec e e'), (Z.compare_spec e' e); try lia; cbn; try reflexivity).
  all: change (Pcompare m m' Eq) with (Pos.compare m m'); change (Pcompare m' m Eq) with (Pos.compare m' m); rewrite (Pos.compare_antisym m m'); destruct (Pos.compare m m'); reflexivity.
Qed.
Lemma fle_nan_l x : fle S754_nan x = false. Proof. reflexivity. Qed.
Lemma fle_nan_r x : fle x S754_nan = false. Proof. destruct x as [| | |]; reflexivity. Qed.
Lemma flt_nan_l x : flt S754_nan x = false. Proof. reflexivity. Qed.
Lemma flt_nan_r x : flt x S754_nan = false. Proof. destruct x as [| | |]; reflexivity. Qed.
Lemma fnan_iff x : fnan x = true <-> x = S754_nan.
Proof. destruct x; cbn; split; congruence. Qed.
Lemma fnan_false x : fnan x = false <-> x <> S754_nan.
Proof. destruct x; cbn; split; congruence. Qed.
Lemma feq_refl x : x <> S754_nan -> feq x x = true.
Proof. intros X. rewrite feq_flt by assumption. destruct (flt x x) eqn:E; [pose proof (flt_asym x x E); congruence|reflexivity]. Qed.

(** ** SortAndDeduplicate. *)
Definition nonan (l : list (f32 * meta)) : Prop := forall x, In x l -> fst x <> S754_nan.
(** Some entry whose value satisfies [P] gives bit [b] to tree [t]. *)
Definition gives (P : f32 -> bool) (t b : nat) (l : list (f32 * meta)) : Prop :=
  exists (x : f32) (m : N), @In (f32 * meta) (x, (m, t)) l /\ P x = true /\ tb m b = true.
Section sorting.
Variable lib : library.
Hypothesis L : lib_ok lib.
Variable key : f32 -> f32.
Hypothesis key_nan : forall x, key x = S754_nan <-> x = S754_nan.

Lemma key_lt_asym a b : key_lt key a b = true -> key_lt key b a = false.
Proof.
  unfold key_lt. intros H. apply orb_true_iff in H. destruct H as [H|H].
  - rewrite H, (flt_asym _ _ H). reflexivity.
  - apply andb_true_iff in H. destruct H as [H1 H2]. apply negb_true_iff in H1. rewrite H1. cbn.
    apply Nat.ltb_lt in H2. apply andb_false_iff. right. apply Nat.ltb_ge. lia.
Qed.
Lemma key_lt_ntrans (a b c : f32 * meta) : fst a <> S754_nan -> fst b <> S754_nan -> fst c <> S754_nan ->
  key_lt key a b = false -> key_lt key b c = false -> key_lt key a c = false.
Proof.
  intros A B C. assert (KA : key (fst a) <> S754_nan) by (rewrite key_nan; exact A). assert (KB : key (fst b) <> S754_nan) by (rewrite key_nan; exact B).
  assert (KC : key (fst c) <> S754_nan) by (rewrite key_nan; exact C).
  unfold key_lt. intros H1 H2. apply orb_false_iff in H1. apply orb_false_iff in H2. destruct H1 as [H1 G1], H2 as [H2 G2].
  apply orb_false_iff. split; [eapply flt_ntrans; [| |exact KC|exact H1|exact H2]; assumption|].
  destruct (flt (key (fst c)) (key (fst a))) eqn:E; [reflexivity|]. cbn.
  assert (E1 : flt (key (fst b)) (key (fst a)) = false) by (eapply flt_ntrans; [| |exact KA|exact H2|exact E]; assumption).
  assert (E2 : flt (key (fst c)) (key (fst b)) = false) by (eapply flt_ntrans; [| |exact KB|exact E|exact H1]; assumption).
  rewrite E1 in G1. rewrite E2 in G2. cbn in G1, G2. apply Nat.ltb_ge in G1. apply Nat.ltb_ge in G2. apply Nat.ltb_ge. lia.
Qed.
(** Keys never decrease. *)
Fixpoint ordered (l : list (f32 * meta)) : Prop :=
  match l with [] => True | x :: r => (forall y, In y r -> flt (key (fst y)) (key (fst x)) = false) /\ ordered r end.
Lemma ascending_ordered l : ascending (key_lt key) l -> ordered l.
Proof.
  induction l as [|x r IH]; cbn; [trivial|]. intros [A B]. split; [|apply IH; exact B].
  intros y Y. specialize (A y Y). unfold key_lt in A. apply orb_false_iff in A. apply A.
Qed.
Variable P : f32 -> bool.
Hypothesis P_eq : forall x y, feq (key x) (key y) = true -> P x = P y.
Lemma dedup_ok l : forall last, nonan (last :: l) -> ordered (last :: l) ->
  nonan (dedup key last l) /\ ordered (dedup key last l) /\
  (forall x, In x (dedup key last l) -> exists y, In y (last :: l) /\ fst x = fst y) /\
  (forall t b, gives P t b (dedup key last l) <-> gives P t b (last :: l)) /\ dedup key last l <> [].
Proof.
  induction l as [|x r IH]; intros last N O; cbn [dedup].
  - repeat split; try tauto; try (apply O); try exact N; [intros z Z; exists z; tauto|discriminate].
  - destruct (key_eq key last x) eqn:E.
    + set (last' := (fst last, (N.lor (fst (snd last)) (fst (snd x)), snd (snd last)))).
      assert (N' : nonan (last' :: r)).
      { intros z [<- | Z]; [apply (N last); left; reflexivity|apply (N z); right; right; exact Z]. }
      assert (O' : ordered (last' :: r)).
      { cbn in O |- *. destruct O as [O1 [O2 O3]]. split; [|exact O3]. intros y Y. apply (O1 y). right. exact Y. }
      destruct (IH last' N' O') as (A & B & C & D & F). split; [exact A|]. split; [exact B|]. split; [|split; [|exact F]].
      * intros z Z. destruct (C z Z) as (y & [<- | Y] & G); [exists last; cbn; auto|exists y; cbn; auto].
      * intros t b. rewrite D. unfold key_eq in E. apply andb_true_iff in E. destruct E as [E1 E2]. apply Nat.eqb_eq in E2.
        destruct last as [lv [lm lt]], x as [xv [xm xt]]. cbn in *. subst xt. split.
        -- intros (z & m & [Z|Z] & Pz & T).
           ++ unfold last' in Z. injection Z as <- <- <-. rewrite tb_lor in T. apply orb_true_iff in T. destruct T as [T|T].
              ** exists lv, lm. cbn. auto.
              ** exists xv, xm. split; [cbn; auto|]. split; [rewrite <- (P_eq _ _ E1); exact Pz|exact T].
           ++ exists z, m. cbn. auto.
        -- intros (z & m & [Z|[Z|Z]] & Pz & T).
           ++ injection Z as -> -> ->. exists z. eexists. split; [left; reflexivity|]. split; [exact Pz|]. rewrite tb_lor, T. reflexivity.
           ++ injection Z as -> -> ->. exists lv. eexists. split; [left; reflexivity|]. split; [rewrite (P_eq _ _ E1); exact Pz|]. rewrite tb_lor, T, orb_true_r. reflexivity.
           ++ exists z, m. cbn. auto.
    + assert (N' : nonan (x :: r)) by (intros z Z; apply (N z); right; exact Z).
      destruct O as [O1 O2]. destruct (IH x N' O2) as (A & B & C & D & F). split; [|split; [|split; [|split; [|discriminate]]]].
      * intros z [<- | Z]; [apply (N last); left; reflexivity|apply A; exact Z].
      * cbn [ordered]. split; [|exact B]. intros y Y. destruct (C y Y) as (y' & Y' & ->). apply O1. exact Y'.
      * intros z [<- | Z]; [exists last; cbn; auto|]. destruct (C z Z) as (y & Y & G). exists y. cbn in *. tauto.
      * intros t b. specialize (D t b). split.
        -- intros (z & m & [Z|Z] & Pz & T); [exists z, m; cbn; auto|]. destruct (proj1 D) as (z' & m' & Z' & G); [exists z, m; auto|]. exists z', m'. split; [right; exact Z'|exact G].
        -- intros (z & m & [Z|Z] & Pz & T); [exists z, m; cbn; auto|]. destruct (proj2 D) as (z' & m' & Z' & G); [exists z, m; auto|]. exists z', m'. split; [right; exact Z'|exact G].
Qed.
Lemma gives_perm t b l l' : Permutation l l' -> gives P t b l -> gives P t b l'.
Proof. intros Q (x & m & I & G). exists x, m. split; [eapply Permutation_in; eassumption|exact G]. Qed.
Lemma sort_dedup_ok l : nonan l -> nonan (sort_dedup lib key l) /\ ordered (sort_dedup lib key l) /\
  (forall t b, gives P t b (sort_dedup lib key l) <-> gives P t b l) /\ (sort_dedup lib key l = [] <-> l = []).
Proof.
  intros N. unfold sort_dedup. destruct (Nat.ltb_spec (length l) 2) as [Le|Le].
  - destruct l as [|x [|y r]]; [| |cbn in Le; lia]; repeat split; try exact N; try tauto; intros; cbn in *; tauto.
  - destruct (lib_sort lib L _ (key_lt key) l) as [Pm As].
    + intros a b _ _ H. apply key_lt_asym. exact H.
    + intros a b c A B C. apply key_lt_ntrans; apply N; assumption.
    + destruct (l_sort lib _ (key_lt key) l) as [|x r] eqn:E.
      * apply Permutation_nil in Pm. subst l. cbn in Le. lia.
      * apply ascending_ordered in As. assert (N' : nonan (x :: r)) by (intros z Z; apply N; eapply Permutation_in; eassumption).
        destruct (dedup_ok r x N' As) as (A & B & _ & D & F). split; [exact A|]. split; [exact B|]. split.
        -- intros t b. rewrite D. split; apply gives_perm; [exact Pm|symmetry; exact Pm].
        -- split; [contradiction|intros ->; cbn in Le; lia].
Qed.
End sorting.

(** ** The Process functions. *)
Lemma split_at {A} (p : A -> bool) (l : list A) (lt : A -> A -> Prop) : 
  (forall a x b y c, l = a ++ x :: b ++ y :: c -> p y = true -> p x = true) ->
  exists a b, l = a ++ b /\ (forall x, In x a -> p x = true) /\ (forall x, In x b -> p x = false).
Proof.
  clear lt. induction l as [|x l IH]; intros H.
  - exists [], []. split; [reflexivity|]. split; intros ? [].
  - destruct (p x) eqn:E.
    + destruct IH as (a & b & -> & PA & PB).
      * intros a y b z c Eq. apply (H (x :: a) y b z c). rewrite Eq. reflexivity.
      * exists (x :: a), b. split; [reflexivity|]. split; [intros y [<- | Y]; auto|exact PB].
    + exists [], (x :: l). split; [reflexivity|]. split; [intros ? []|]. intros y [<- | Y]; [exact E|].
      destruct (p y) eqn:F; [|reflexivity]. apply in_split in Y. destruct Y as (b & c & ->).
      rewrite (H [] x b y c eq_refl F) in E. discriminate.
Qed.
Lemma ordered_mid key a x b y c : ordered key (a ++ x :: b ++ y :: c) -> flt (key (fst y)) (key (fst x)) = false.
Proof.
  induction a as [|z a IH]; cbn.
  - intros [O _]. apply O. apply in_app_iff. right. left. reflexivity.
  - intros [_ O]. apply IH. exact O.
Qed.
Lemma upper_prefix lib (L : lib_ok lib) (p : f32 -> bool) (l : list (f32 * meta)) :
  (forall a x b y c, l = a ++ x :: b ++ y :: c -> p (fst y) = true -> p (fst x) = true) ->
  forall m t, @In meta (m, t) (firstn (l_upper lib _ p (map fst l)) (map snd l)) <-> exists x : f32, @In (f32 * meta) (x, (m, t)) l /\ p x = true.
Proof.
  intros H m t. destruct (split_at (fun x => p (fst x)) l (fun _ _ => True)) as (a & b & -> & A & B).
  { intros a x b y c E. apply (H a x b y c E). }
  rewrite map_app, (lib_upper lib L).
  - rewrite map_app, firstn_app, !map_length, Nat.sub_diag, firstn_O, app_nil_r, firstn_all2 by (rewrite map_length; lia). split.
    + intros I. apply in_map_iff in I. destruct I as ([x mt] & E & I). cbn in E. subst mt. exists x. split; [apply in_app_iff; auto|apply (A _ I)].
    + intros (x & I & Px). apply in_app_iff in I. destruct I as [I|I]; [apply in_map_iff; exists (x, (m, t)); auto|]. pose proof (B _ I) as Q. cbn in Q. congruence.
  - intros x I. apply in_map_iff in I. destruct I as (y & <- & Y). apply A. exact Y.
  - intros x I. apply in_map_iff in I. destruct I as (y & <- & Y). apply B. exact Y.
Qed.
(** Bit [b] of tree [t] in a list of metas. *)
Definition sets (t b : nat) (l : list meta) : Prop := exists m : N, @In meta (m, t) l /\ tb m b = true.
Lemma sets_app t b l l' : sets t b (l ++ l') <-> sets t b l \/ sets t b l'.
Proof.
  unfold sets. split.
  - intros (m & I & T). apply in_app_iff in I. destruct I; [left|right]; exists m; auto.
  - intros [(m & I & T)|(m & I & T)]; exists m; (split; [apply in_app_iff|]); auto.
Qed.
Lemma sets_flat {A} t b (f : A -> list meta) l : sets t b (flat_map f l) <-> exists x, In x l /\ sets t b (f x).
Proof.
  unfold sets. split.
  - intros (m & I & T). apply in_flat_map in I. destruct I as (x & X & I). exists x. split; [exact X|]. exists m. auto.
  - intros (x & X & m & I & T). exists m. split; [apply in_flat_map; exists x; auto|exact T].
Qed.

Lemma sets_float fr i f t b : sets t b (float_input fr i f) <-> exists v, in_f32 fr i = Some v /\ v <> S754_nan /\ sets t b (f v).
Proof.
  unfold float_input. destruct (in_f32 fr i) as [v|]; [|split; [intros (m & [] & _)|intros (v & X & _); discriminate]].
  destruct (fnan v) eqn:F.
  - split; [intros (m & [] & _)|]. intros (v' & X & Y & _). injection X as <-. apply fnan_iff in F. contradiction.
  - apply fnan_false in F. split; [intros H; exists v; auto|]. intros (v' & X & Y & H). injection X as <-. exact H.
Qed.
Section processes.
Variable lib : library.
Hypothesis L : lib_ok lib.
Lemma upper_ok key (p : f32 -> bool) v l t b : (forall x, key x = S754_nan <-> x = S754_nan) -> v <> S754_nan ->
  (forall x, p x = negb (flt (key v) (key x))) -> nonan l ->
  let l' := sort_dedup lib key l in
  sets t b (firstn (l_upper lib _ p (map fst l')) (map snd l')) <-> gives p t b l.
Proof.
  intros K V Hp N. cbv zeta. assert (KV : key v <> S754_nan) by (rewrite K; exact V).
  assert (PE : forall x y, feq (key x) (key y) = true -> p x = p y).
  { intros x y E. assert (X : key x <> S754_nan) by (intros X; rewrite X in E; discriminate). assert (Y : key y <> S754_nan) by (intros Y; rewrite Y in E; destruct (key x); discriminate).
    rewrite feq_flt in E by assumption. apply andb_true_iff in E. destruct E as [E1 E2]. apply negb_true_iff in E1, E2. rewrite !Hp. f_equal.
    destruct (flt (key v) (key x)) eqn:G, (flt (key v) (key y)) eqn:H; try reflexivity.
    - rewrite (flt_ntrans (key v) (key y) (key x)) in G by assumption. discriminate.
    - rewrite (flt_ntrans (key v) (key x) (key y)) in H by assumption. discriminate. }
  destruct (sort_dedup_ok lib L key K p PE l N) as (A & B & C & _). rewrite <- C.
  assert (M : forall a x c y e, sort_dedup lib key l = a ++ x :: c ++ y :: e -> p (fst y) = true -> p (fst x) = true).
  { intros a x c y e Eq. rewrite Eq in A, B. pose proof (ordered_mid key a x c y e B) as O.
    assert (key (fst x) <> S754_nan) by (rewrite K; apply A; apply in_app_iff; right; left; reflexivity).
    assert (key (fst y) <> S754_nan) by (rewrite K; apply A; apply in_app_iff; right; right; apply in_app_iff; right; left; reflexivity).
    rewrite !Hp. intros Py. apply negb_true_iff in Py. apply negb_true_iff. eapply flt_ntrans; [| | |exact Py|exact O]; assumption. }
  unfold sets, gives. split.
  - intros (m & I & T). apply (upper_prefix lib L p _ M) in I. destruct I as (x & I & Px). exists x, m. auto.
  - intros (x & m & I & Px & T). exists m. split; [|exact T]. apply (upper_prefix lib L p _ M). exists x. auto.
Qed.
Lemma gives_ext P Q t b l : (forall x m, In (x, m) l -> P x = Q x) -> (gives P t b l <-> gives Q t b l).
Proof. intros E. split; intros (x & m & I & G & T); exists x, m; (split; [exact I|]); (split; [|exact T]); [rewrite <- (E x _ I)|rewrite (E x _ I)]; exact G. Qed.
Lemma left_ok fr i l t b : nonan l ->
  sets t b (process_left lib fr (i, sort_dedup lib fneg l)) <->
  exists v, in_f32 fr i = Some v /\ v <> S754_nan /\ gives (fun r => fle v r) t b l.
Proof.
  intros N. unfold process_left. rewrite sets_float. cbn [fst snd].
  assert (G : forall v : f32, v <> S754_nan -> sets t b (firstn (l_upper lib _ (fun x => negb (flt x v)) (map fst (sort_dedup lib fneg l))) (map snd (sort_dedup lib fneg l))) <-> gives (fun r => fle v r) t b l).
  { intros v V. etransitivity; [apply (upper_ok fneg (fun x => negb (flt x v)) v l t b fneg_nan V (fun x => f_equal negb (eq_sym (flt_fneg v x))) N)|].
    apply gives_ext. intros x m I. symmetry. apply fle_flt; [exact V|apply (N _ I)]. }
  split; intros (v & X & Y & H); exists v; (split; [exact X|]); (split; [exact Y|]); apply (G v Y); exact H.
Qed.
Lemma right_ok fr i l t b : nonan l ->
  sets t b (process_right lib fr (i, sort_dedup lib (fun x => x) l)) <->
  exists v, in_f32 fr i = Some v /\ v <> S754_nan /\ gives (fun l => fle l v) t b l.
Proof.
  intros N. unfold process_right. rewrite sets_float. cbn [fst snd].
  assert (G : forall v : f32, v <> S754_nan -> sets t b (firstn (l_upper lib _ (fun x => negb (flt v x)) (map fst (sort_dedup lib (fun x => x) l))) (map snd (sort_dedup lib (fun x => x) l))) <-> gives (fun r => fle r v) t b l).
  { intros v V. etransitivity; [apply (upper_ok (fun x => x) (fun x => negb (flt v x)) v l t b (fun x => conj (fun e => e) (fun e => e)) V (fun x => eq_refl) N)|].
    apply gives_ext. intros x m I. symmetry. apply fle_flt; [apply (N _ I)|exact V]. }
  split; intros (v & X & Y & H); exists v; (split; [exact X|]); (split; [exact Y|]); apply (G v Y); exact H.
Qed.
(** FillValue2Range *)
Lemma fill_ok (vals : list f32) : forall (rest : list f32) i last (lastv : f32) acc, (forall x, In x vals -> x <> S754_nan) ->
  (forall j k x y, j < k -> nth_error vals j = Some x -> nth_error vals k = Some y -> flt y x = false) ->
  i <= length vals -> rest = skipn i vals -> last <= i -> nth_error vals last = Some lastv ->
  (forall k x, last <= k < i -> nth_error vals k = Some x -> feq x lastv = true) ->
  (forall u lo hi k x, In (u, (lo, hi)) acc -> lo <= k < hi -> nth_error vals k = Some x -> feq x u = true) ->
  (forall k, k < last -> exists u lo hi, In (u, (lo, hi)) acc /\ lo <= k < hi) ->
  (forall u r, In (u, r) acc -> u <> S754_nan /\ flt u lastv = true) ->
  (forall a e b e' c, acc = a ++ e :: b ++ e' :: c -> flt (fst e') (fst e) = true) ->
  let res := fill_ranges i last lastv rest acc in
  (forall u lo hi k x, In (u, (lo, hi)) res -> lo <= k < hi -> nth_error vals k = Some x -> feq x u = true) /\
  (forall k, k < length vals -> exists u lo hi, In (u, (lo, hi)) res /\ lo <= k < hi) /\
  (forall u r, In (u, r) res -> u <> S754_nan) /\
  (forall a e b e' c, res = a ++ e :: b ++ e' :: c -> flt (fst e') (fst e) = true).
Proof.
  induction rest as [|x rest IH]; intros i last lastv acc NN Sr Li Er Ll Nl Cur Acc Cov Lt Pw; cbv zeta; cbn [fill_ranges].
  - assert (i = length vals) by (assert (length (skipn i vals) = 0) by (rewrite <- Er; reflexivity); rewrite skipn_length in *; lia). subst i.
    assert (NL : lastv <> S754_nan) by (apply NN; eapply nth_error_In; exact Nl).
    split; [|split; [|split]].
    + intros u lo hi k y [E|E] R Ny; [injection E as <- <- <-; apply (Cur k y R Ny)|apply (Acc u lo hi k y E R Ny)].
    + intros k K. destruct (Nat.lt_ge_cases k last) as [H|H].
      * destruct (Cov k H) as (u & lo & hi & I & R). exists u, lo, hi. split; [right; exact I|exact R].
      * exists lastv, last, (length vals). split; [left; reflexivity|lia].
    + intros u r [E|E]; [injection E as <- _; exact NL|apply (Lt u r E)].
    + intros a e b e' c E. destruct a as [|z a].
      * injection E as <- E. cbn [fst]. destruct e' as [u r]. apply (Lt u r). rewrite E. apply in_app_iff. right. left. reflexivity.
      * injection E as <- E. apply (Pw a e b e' c E).
  - assert (Nx : nth_error vals i = Some x).
    { rewrite <- (firstn_skipn i vals), <- Er. rewrite nth_error_app2; rewrite firstn_length_le by lia; [rewrite Nat.sub_diag; reflexivity|lia]. }
    assert (Li' : i < length vals) by (apply nth_error_Some; congruence).
    assert (Er' : rest = skipn (S i) vals).
    { replace (S i) with (1 + i) by lia. assert (G : skipn 1 (skipn i vals) = rest) by (rewrite <- Er; reflexivity). rewrite <- G.
      clear. revert vals. induction i as [|i IH]; intros [|y l]; try reflexivity. cbn [skipn]. cbn. apply (IH l). }
    assert (NX : x <> S754_nan) by (apply NN; eapply nth_error_In; exact Nx).
    assert (NL : lastv <> S754_nan) by (apply NN; eapply nth_error_In; exact Nl).
    destruct (feq x lastv) eqn:E; cbn [negb].
    + apply IH; try assumption; try lia. intros k y K Ny. destruct (Nat.eq_dec k i) as [->|]; [congruence|]. apply (Cur k y); [lia|exact Ny].
    + assert (LX : flt lastv x = true).
      { rewrite feq_flt in E by assumption. destruct (Nat.eq_dec last i) as [->|Ne].
        - assert (x = lastv) by congruence. subst. rewrite <- feq_flt in E by assumption. rewrite feq_refl in E by assumption. discriminate.
        - rewrite (Sr last i lastv x) in E by (try assumption; lia). cbn in E. apply negb_false_iff in E. exact E. }
      apply IH; try assumption; try lia.
      * intros k y K Ny. assert (k = i) by lia. subst k. rewrite Ny in Nx. injection Nx as ->. apply feq_refl. exact NX.
      * intros u lo hi k y [G|G] R Ny; [injection G as <- <- <-; apply (Cur k y R Ny)|apply (Acc u lo hi k y G R Ny)].
      * intros k K. destruct (Nat.lt_ge_cases k last) as [H|H].
        -- destruct (Cov k H) as (u & lo & hi & I & R). exists u, lo, hi. split; [right; exact I|exact R].
        -- exists lastv, last, i. split; [left; reflexivity|lia].
      * intros u r [G|G]; [injection G as <- _; auto|]. destruct (Lt u r G) as [U1 U2]. split; [exact U1|].
        destruct (flt u x) eqn:F; [reflexivity|]. exfalso.
        assert (flt u lastv = false) by (apply (flt_ntrans u x lastv); try assumption; apply flt_asym; exact LX). congruence.
      * intros a e b e' c G. destruct a as [|z a].
        -- injection G as <- G. cbn [fst]. destruct e' as [u r]. apply (Lt u r). rewrite G. apply in_app_iff. right. left. reflexivity.
        -- injection G as <- G. apply (Pw a e b e' c G).
Qed.
Lemma ordered_nth l j k x y : ordered (fun x => x) l -> j < k -> nth_error (map fst l) j = Some x -> nth_error (map fst l) k = Some y -> flt y x = false.
Proof.
  revert j k. induction l as [|z l IH]; intros j k O Lt J K; [destruct j; discriminate|]. destruct O as [O1 O2].
  destruct k as [|k]; [lia|]. destruct j as [|j].
  - cbn in J. injection J as <-. cbn in K. apply nth_error_In in K. apply in_map_iff in K. destruct K as (w & <- & W). apply (O1 w W).
  - cbn in J, K. apply (IH j k O2); [lia|exact J|exact K].
Qed.
Lemma value2range_ok l : nonan l -> ordered (fun x => x) l ->
  forall v m t, v <> S754_nan ->
  (exists u lo hi, find (fun x => feq (fst x) v) (value2range (map fst l)) = Some (u, (lo, hi)) /\ @In meta (m, t) (firstn (hi - lo) (skipn lo (map snd l)))) <->
  exists x : f32, @In (f32 * meta) (x, (m, t)) l /\ feq x v = true.
Proof.
  intros N O v m t V. destruct l as [|e l].
  - cbn. split; [intros (u & lo & hi & X & _); discriminate|intros (x & [] & _)].
  - set (all := e :: l) in *. set (vals := map fst all).
    assert (NN : forall x, In x vals -> x <> S754_nan) by (intros x I; apply in_map_iff in I; destruct I as (y & <- & Y); apply (N y Y)).
    destruct (fill_ok vals vals 0 0 (fst e) [] NN) as (A & B & C & D); try (cbn; lia); try reflexivity; try (cbn; intros; contradiction).
    { intros j k x y Lt J K. exact (ordered_nth all j k x y O Lt J K). }
    { intros a x b y c E. destruct a; discriminate. }
    assert (Ev : value2range vals = fill_ranges 0 0 (fst e) vals []) by reflexivity. rewrite Ev. set (res := fill_ranges 0 0 (fst e) vals []) in *.
    assert (Fe : forall x y, x <> S754_nan -> y <> S754_nan -> feq x y = true -> feq y x = true) by (intros x y X Y; rewrite !feq_flt by assumption; rewrite andb_comm; trivial).
    assert (Ft : forall x y z, x <> S754_nan -> y <> S754_nan -> z <> S754_nan -> feq x y = true -> feq y z = true -> feq x z = true).
    { intros x y z X Y Z. rewrite !feq_flt by assumption. rewrite !andb_true_iff, !negb_true_iff. intros [P1 P2] [Q1 Q2]. split; [apply (flt_ntrans x y z)|apply (flt_ntrans z y x)]; assumption. }
    assert (Nth : forall lo hi, @In meta (m, t) (firstn (hi - lo) (skipn lo (map snd all))) <-> exists k x, lo <= k < hi /\ @nth_error (f32 * meta) all k = Some (x, (m, t))).
    { intros lo hi. split.
      - intros I. apply In_nth_error in I. destruct I as [j J].
        assert (Lj : j < length (firstn (hi - lo) (skipn lo (map snd all)))) by (apply nth_error_Some; intros Q; rewrite Q in J; discriminate).
        assert (Lj' : j < hi - lo) by (rewrite firstn_length in Lj; lia).
        assert (J2 : nth_error (skipn lo (map snd all)) j = Some ((m, t) : meta)).
        { rewrite <- (firstn_skipn (hi - lo) (skipn lo (map snd all))). rewrite nth_error_app1; [exact J|exact Lj]. }
        assert (J3 : nth_error (map snd all) (lo + j) = Some ((m, t) : meta)).
        { rewrite <- J2. clear. revert lo. induction (map snd all) as [|z q IH]; intros [|lo]; try reflexivity; [destruct j; reflexivity|]. cbn. apply IH. }
        rewrite nth_error_map in J3. destruct (nth_error all (lo + j)) as [[x mt]|] eqn:Q; [|discriminate]. cbn in J3. injection J3 as ->. exists (lo + j), x. split; [lia|exact Q].
      - intros (k & x & R & Q). assert (J3 : nth_error (map snd all) k = Some ((m, t) : meta)) by (rewrite nth_error_map, Q; reflexivity).
        apply (nth_error_In _ (k - lo)). 
        assert (J2 : nth_error (skipn lo (map snd all)) (k - lo) = Some ((m, t) : meta)).
        { rewrite <- J3. replace k with (lo + (k - lo)) at 2 by lia. clear. generalize (k - lo) as j. intros j. revert lo. induction (map snd all) as [|z q IH]; intros [|lo]; try reflexivity; [destruct j; reflexivity|]. cbn. apply IH. }
        rewrite <- (firstn_skipn (hi - lo) (skipn lo (map snd all))) in J2. rewrite nth_error_app1 in J2; [exact J2|].
        rewrite firstn_length. assert (k < length (map snd all)) by (apply nth_error_Some; intros Q0; rewrite Q0 in J3; discriminate). rewrite skipn_length. lia. }
    split.
    + intros (u & lo & hi & F & I). apply find_some in F. destruct F as [F1 F2]. cbn in F2. apply Nth in I. destruct I as (k & x & R & Q).
      exists x. split; [eapply nth_error_In; exact Q|]. assert (Nk : nth_error vals k = Some x) by (unfold vals; rewrite nth_error_map, Q; reflexivity).
      apply (Ft x u v); [apply NN; eapply nth_error_In; exact Nk|exact (C _ _ F1)|exact V|exact (A u lo hi k x F1 R Nk)|exact F2].
    + intros (x & I & E). apply In_nth_error in I. destruct I as [k K]. assert (Nk : nth_error vals k = Some x) by (unfold vals; rewrite nth_error_map, K; reflexivity).
      assert (NX : x <> S754_nan) by (apply NN; eapply nth_error_In; exact Nk).
      destruct (B k) as (u & lo & hi & I & R); [eapply rd_Some_lt; exact Nk|].
      pose proof (A u lo hi k x I R Nk) as Ex. pose proof (C _ _ I) as NU.
      assert (Eu : feq u v = true) by (apply (Ft u x v); try assumption; apply Fe; assumption).
      exists u, lo, hi. split; [|apply Nth; exists k, x; auto].
      apply in_split in I. destruct I as (r1 & r2 & Er). 
      assert (Nf : forall w, In w r1 -> feq (fst w) v = false).
      { intros w W. apply in_split in W. destruct W as (s1 & s2 & ->). rewrite <- app_assoc in Er. cbn [app] in Er.
        pose proof (D s1 w s2 (u, (lo, hi)) r2 Er) as Lw. cbn in Lw. destruct (feq (fst w) v) eqn:Q; [|reflexivity]. exfalso.
        assert (NW : fst w <> S754_nan) by (destruct w as [w0 w1]; apply (C w0 w1); rewrite Er; apply in_app_iff; right; left; reflexivity).
        assert (G : feq u (fst w) = true) by (apply (Ft u v (fst w)); try assumption; apply Fe; assumption).
        rewrite feq_flt in G by assumption. rewrite Lw in G. discriminate. }
      rewrite Er. clear - Nf Eu. induction r1 as [|w r1 IH]; cbn.
      * rewrite Eu. reflexivity.
      * rewrite (Nf w) by (left; reflexivity). apply IH. intros z Z. apply Nf. right. exact Z.
Qed.
Lemma feq_P v x y : v <> S754_nan -> feq x y = true -> feq x v = feq y v.
Proof.
  intros V E. assert (X : x <> S754_nan) by (intros ->; discriminate). assert (Y : y <> S754_nan) by (intros ->; destruct x; discriminate).
  rewrite feq_flt in E by assumption. apply andb_true_iff in E. destruct E as [E1 E2]. apply negb_true_iff in E1, E2. rewrite !feq_flt by assumption.
  assert (flt x v = flt y v).
  { destruct (flt x v) eqn:G, (flt y v) eqn:H; try reflexivity; [rewrite (flt_ntrans x y v) in G by assumption|rewrite (flt_ntrans y x v) in H by assumption]; discriminate. }
  assert (flt v x = flt v y).
  { destruct (flt v x) eqn:G, (flt v y) eqn:K; try reflexivity; [rewrite (flt_ntrans v y x) in G by assumption|rewrite (flt_ntrans v x y) in K by assumption]; discriminate. }
  congruence.
Qed.
Lemma eq_ok fr i l t b : nonan l -> let l' := sort_dedup lib (fun x => x) l in
  sets t b (process_eq fr (i, {| e_metas := map snd l'; e_ranges := value2range (map fst l') |})) <->
  exists v, in_f32 fr i = Some v /\ v <> S754_nan /\ gives (fun x => feq x v) t b l.
Proof.
  intros N. cbv zeta. unfold process_eq. rewrite sets_float. cbn [fst snd e_ranges e_metas].
  assert (G : forall v, v <> S754_nan -> sets t b
      match find (fun x => feq (fst x) v) (value2range (map fst (sort_dedup lib (fun x => x) l))) with
      | Some (_, (lo, hi)) => firstn (hi - lo) (skipn lo (map snd (sort_dedup lib (fun x => x) l)))
      | None => []
      end <-> gives (fun x => feq x v) t b l).
  { intros v V. destruct (sort_dedup_ok lib L (fun x => x) (fun x => conj (fun e => e) (fun e => e)) (fun x => feq x v) (fun x y => feq_P v x y V) l N) as (A & B & C & _).
    rewrite <- C. pose proof (value2range_ok _ A B v) as R. unfold sets, gives. split.
    - intros (m & I & T). destruct (find _ _) as [[u [lo hi]]|] eqn:F; [|destruct I].
      destruct (proj1 (R m t V)) as (x & X & E); [exists u, lo, hi; auto|]. exists x, m. auto.
    - intros (x & m & I & E & T). destruct (proj2 (R m t V)) as (u & lo & hi & F & J); [exists x; auto|]. exists m. rewrite F. auto. }
  split; intros (v & X & Y & H); exists v; (split; [exact X|]); (split; [exact Y|]); apply (G v Y); exact H.
Qed.
Lemma range_loop_ok v l m : v <> S754_nan -> (forall x, In x l -> fst (fst x) <> S754_nan /\ snd (fst x) <> S754_nan) ->
  ascending (fun a b => flt (fst (fst a)) (fst (fst b))) l ->
  (In m (range_loop v l) <-> exists lo hi, In (lo, hi, m) l /\ fle lo v = true /\ fle v hi = true).
Proof.
  intros V. induction l as [|[[lo hi] m0] r IH]; intros N As; cbn [range_loop].
  - split; [intros []|intros (lo & hi & [] & _)].
  - destruct As as [A1 A2]. specialize (IH (fun x X => N x (or_intror X)) A2). destruct (N (lo, hi, m0) (or_introl eq_refl)) as [NL NH]. cbn in NL, NH.
    destruct (flt v lo) eqn:F.
    + split; [intros []|]. intros (lo' & hi' & I & P & _). exfalso. destruct I as [E|I].
      * injection E as -> -> ->. rewrite fle_flt, F in P by assumption. discriminate.
      * pose proof (A1 _ I) as Q. cbn in Q. destruct (N _ (or_intror I)) as [NL' _]. cbn in NL'. rewrite fle_flt in P by assumption. apply negb_true_iff in P.
        rewrite (flt_ntrans v lo' lo) in F by assumption. discriminate.
    + assert (P : fle lo v = true) by (rewrite fle_flt, F by assumption; reflexivity). destruct (fle v hi) eqn:G.
      * cbn [In]. rewrite IH. split.
        -- intros [<- | (lo' & hi' & I & H)]; [exists lo, hi; auto|exists lo', hi'; cbn; tauto].
        -- intros (lo' & hi' & [E|I] & H); [left; congruence|right; exists lo', hi'; auto].
      * rewrite IH. split.
        -- intros (lo' & hi' & I & H). exists lo', hi'. cbn. tauto.
        -- intros (lo' & hi' & [E|I] & H); [injection E as -> -> ->; destruct H; congruence|exists lo', hi'; auto].
Qed.
Lemma range_ok fr i (l : list (f32 * f32 * meta)) t b : (forall x, In x l -> fst (fst x) <> S754_nan /\ snd (fst x) <> S754_nan) ->
  sets t b (process_range fr (i, l_sort lib _ (fun a b => flt (fst (fst a)) (fst (fst b))) l)) <->
  exists v, in_f32 fr i = Some v /\ v <> S754_nan /\ exists lo hi m, In (lo, hi, (m, t)) l /\ fle lo v = true /\ fle v hi = true /\ tb m b = true.
Proof.
  intros N. unfold process_range. rewrite sets_float. cbn [fst snd].
  destruct (lib_sort lib L _ (fun a b : f32 * f32 * meta => flt (fst (fst a)) (fst (fst b))) l) as [P A].
  { intros a c _ _. apply flt_asym. }
  { intros a c e Ia Ic Ie. apply flt_ntrans; apply N; assumption. }
  set (l' := l_sort lib _ _ l) in *.
  assert (N' : forall x, In x l' -> fst (fst x) <> S754_nan /\ snd (fst x) <> S754_nan) by (intros x X; apply N; eapply Permutation_in; eassumption).
  split; intros (v & X & Y & H); exists v; (split; [exact X|]); (split; [exact Y|]).
  - destruct H as (m & I & T). apply (range_loop_ok v l' (m, t) Y N' A) in I. destruct I as (lo & hi & I & H). exists lo, hi, m. split; [eapply Permutation_in; eassumption|tauto].
  - destruct H as (lo & hi & m & I & H1 & H2 & T). exists m. split; [|exact T]. apply (range_loop_ok v l' (m, t) Y N' A). exists lo, hi. split; [eapply Permutation_in; [symmetry; exact P|exact I]|auto].
Qed.
End processes.
