From Verif Require Import Base Overflow_Model Overflow_Spec.
Local Open Scope Z_scope.

Lemma fits_iff t z : fits t z = true <-> ilo t <= z <= ihi t.
Proof. unfold fits. rewrite andb_true_iff, !Z.leb_le. lia. Qed.
Lemma wrap_fits t z : ilo t <= z <= ihi t -> wrap t z = z.
Proof. intros H. unfold wrap. rewrite Z.mod_small; lia. Qed.
Lemma wrap_range t z : ilo t <= ihi t -> ilo t <= wrap t z <= ihi t.
Proof. intros H. unfold wrap. pose proof (Z.mod_pos_bound (z - ilo t) (ihi t - ilo t + 1)). lia. Qed.

Lemma builtin_ok t z ov r o : builtin t z = (r, o) ->
  (ov || o = false <-> ov = false /\ ilo t <= z <= ihi t) /\ (ov || o = false -> r = z).
Proof.
  unfold builtin. intros H. injection H as <- <-.
  destruct (fits t z) eqn:F.
  - apply fits_iff in F. rewrite orb_false_r. split; [tauto|]. intros _. apply wrap_fits, F.
  - assert (~ (ilo t <= z <= ihi t)) by (intros K; apply fits_iff in K; congruence).
    cbn [negb]. rewrite orb_true_r. split; [|discriminate]. split; [discriminate|tauto].
Qed.

Lemma safe_add_ok t x y ov : let '(r, o) := safe_add t x y ov in
  (o = false <-> ov = false /\ ilo t <= x + y <= ihi t) /\ (o = false -> r = x + y).
Proof. unfold safe_add. destruct (builtin t (x + y)) eqn:E. apply (builtin_ok _ _ ov) in E. exact E. Qed.
Lemma safe_mul_ok t x y ov : let '(r, o) := safe_mul t x y ov in
  (o = false <-> ov = false /\ ilo t <= x * y <= ihi t) /\ (o = false -> r = x * y).
Proof. unfold safe_mul. destruct (builtin t (x * y)) eqn:E. apply (builtin_ok _ _ ov) in E. exact E. Qed.
Lemma safe_abs_ok src t x ov : ilo src <= x -> let '(r, o) := safe_abs src t x ov in
  (o = false <-> ov = false /\ ilo t <= Z.abs x <= ihi t) /\ (o = false -> r = Z.abs x).
Proof.
  intros Hs. unfold safe_abs.
  assert (E : exists b, (if ilo src <? 0 then if x <? 0 then builtin t (0 - x) else builtin t (x + 0) else builtin t (x + 0)) = b /\
             b = builtin t (Z.abs x)).
  { eexists. split; [reflexivity|]. destruct (Z.ltb_spec (ilo src) 0); [destruct (Z.ltb_spec x 0)|]; f_equal; lia. }
  destruct E as (b & -> & ->). destruct (builtin t (Z.abs x)) eqn:E. apply (builtin_ok _ _ ov) in E. exact E.
Qed.

Lemma eval_sticky f : forall ov, snd (eval f ov) = false -> ov = false.
Proof.
  induction f as [z|t a IHa b IHb|t a IHa b IHb|src t a IHa]; intros ov H; cbn [eval] in H.
  - exact H.
  - destruct (eval a ov) as [x o1] eqn:Ea. destruct (eval b o1) as [y o2] eqn:Eb.
    specialize (IHa ov). rewrite Ea in IHa. specialize (IHb o1). rewrite Eb in IHb. cbn [snd] in IHa, IHb.
    unfold safe_add, builtin in H. cbn [snd] in H. apply orb_false_iff in H. tauto.
  - destruct (eval a ov) as [x o1] eqn:Ea. destruct (eval b o1) as [y o2] eqn:Eb.
    specialize (IHa ov). rewrite Ea in IHa. specialize (IHb o1). rewrite Eb in IHb. cbn [snd] in IHa, IHb.
    unfold safe_mul, builtin in H. cbn [snd] in H. apply orb_false_iff in H. tauto.
  - destruct (eval a ov) as [x o1] eqn:Ea. specialize (IHa ov). rewrite Ea in IHa. cbn [snd] in IHa.
    unfold safe_abs in H. destruct (if ilo src <? 0 then _ else _) as [r o]. cbn [snd] in H. apply orb_false_iff in H. tauto.
Qed.

Lemma eval_ok f : typed f -> forall ov, let '(r, o) := eval f ov in
  (o = false <-> ov = false /\ in_range_everywhere f) /\ (o = false -> r = exact f).
Proof.
  induction f as [z|t a IHa b IHb|t a IHa b IHb|src t a IHa]; intros Ht ov; cbn [eval typed exact in_range_everywhere] in *.
  - tauto.
  - destruct Ht as [Ta Tb]. specialize (IHa Ta ov). destruct (eval a ov) as [x o1].
    specialize (IHb Tb o1). destruct (eval b o1) as [y o2].
    pose proof (safe_add_ok t x y o2) as H. destruct (safe_add t x y o2) as [r o].
    destruct IHa as [A1 A2], IHb as [B1 B2], H as [H1 H2].
    assert (K : o = false -> x = exact a /\ y = exact b) by tauto.
    split; [|intros E; rewrite H2 by exact E; destruct (K E) as [-> ->]; reflexivity].
    split; [intros E; destruct (K E) as [K1 K2]; rewrite K1, K2 in H1; tauto|].
    intros (-> & Ra & Rb & Rr). assert (o1 = false) by tauto. assert (o2 = false) by tauto.
    apply H1. rewrite A2, B2 by assumption. tauto.
  - destruct Ht as [Ta Tb]. specialize (IHa Ta ov). destruct (eval a ov) as [x o1].
    specialize (IHb Tb o1). destruct (eval b o1) as [y o2].
    pose proof (safe_mul_ok t x y o2) as H. destruct (safe_mul t x y o2) as [r o].
    destruct IHa as [A1 A2], IHb as [B1 B2], H as [H1 H2].
    assert (K : o = false -> x = exact a /\ y = exact b) by tauto.
    split; [|intros E; rewrite H2 by exact E; destruct (K E) as [-> ->]; reflexivity].
    split; [intros E; destruct (K E) as [K1 K2]; rewrite K1, K2 in H1; tauto|].
    intros (-> & Ra & Rb & Rr). assert (o1 = false) by tauto. assert (o2 = false) by tauto.
    apply H1. rewrite A2, B2 by assumption. tauto.
  - destruct Ht as [Ta Hs]. specialize (IHa Ta ov). destruct (eval a ov) as [x o1].
    destruct IHa as [A1 A2]. destruct o1.
    + unfold safe_abs. destruct (if ilo src <? 0 then _ else _) as [r o]. cbn [orb].
      split; [|discriminate]. split; [discriminate|]. intros (-> & Ra & _). assert (true = false) by tauto. discriminate.
    + specialize (A2 eq_refl). subst x.
      pose proof (safe_abs_ok src t (exact a) false Hs) as H. destruct (safe_abs src t (exact a) false) as [r o].
      tauto.
Qed.

(** Signed types are symmetric up to one; the only argument of SafeAbs that
    overflows into the same type is the smallest value. *)
Lemma safe_results t x y :
  SafeAdd t x y = (if fits t (x + y) then inr (x + y) else inl tt) /\
  SafeMul t x y = (if fits t (x * y) then inr (x * y) else inl tt).
Proof.
  unfold SafeAdd, SafeMul, safe_add, safe_mul, builtin. cbn [orb].
  split; [destruct (fits t (x + y)) eqn:F|destruct (fits t (x * y)) eqn:F]; cbn [negb]; try reflexivity;
    rewrite wrap_fits by (apply fits_iff, F); reflexivity.
Qed.
Lemma safe_abs_result src t x : ilo src <= x ->
  SafeAbs src t x = (if fits t (Z.abs x) then inr (Z.abs x) else inl tt).
Proof.
  intros Hs. unfold SafeAbs. pose proof (safe_abs_ok src t x false Hs) as H.
  destruct (safe_abs src t x false) as [r o]. destruct H as [H1 H2]. destruct (fits t (Z.abs x)) eqn:F.
  - apply fits_iff in F. destruct o; [|rewrite H2; reflexivity]. exfalso. assert (true = false) by tauto. discriminate.
  - destruct o; [reflexivity|]. exfalso. assert (false = false) as E by reflexivity. apply H1 in E. destruct E as [_ E].
    apply fits_iff in E. congruence.
Qed.
