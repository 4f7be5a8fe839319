(** Proofs about the list forms and the search over overloads. *)
From Coq Require Import Permutation.
From Verif Require Import Base Ovl_Model Ovl_Spec Ovl_Proofs.

Section Reg.
Variable has_opt : qt -> bool.
Variable has_arr : nat -> qt -> bool.
Notation common := (common has_opt has_arr).
Notation known := (known has_opt has_arr).
Notation upper := (upper has_opt has_arr).
Notation least_upper := (least_upper has_opt has_arr).

Lemma fold_common_none b l : fold_left (fun acc x => common b acc (Some x)) l None = None.
Proof. induction l; cbn; auto. Qed.
Lemma fold_common b l : numbers_known has_opt has_arr -> Forall known l -> forall a pre, known a -> least_upper b pre a ->
  match fold_left (fun acc x => common b acc (Some x)) l (Some a) with
  | Some z => least_upper b (pre ++ l) z
  | None => forall w, ~ upper b (pre ++ l) w
  end.
Proof.
  intros NK. induction 1 as [|x l Kx _ IH]; intros a pre Ka La; cbn [fold_left].
  - rewrite app_nil_r. exact La.
  - destruct (common b (Some a) (Some x)) as [c|] eqn:E.
    + destruct (common_some _ _ _ _ _ _ Ka Kx E) as (Kc & C1 & C2 & C3). replace (pre ++ x :: l) with ((pre ++ [x]) ++ l) by (rewrite <- app_assoc; reflexivity).
      apply IH; [exact Kc|]. split.
      * split; [exact Kc|]. intros y H. apply in_app_iff in H. destruct H as [H|[<-|[]]]; [|exact C2]. eapply casts_trans; [apply (proj1 La), H|exact C1].
      * intros w [Kw U]. apply C3; [|apply U, in_app_iff; right; left; reflexivity].
        apply (proj2 La). split; [exact Kw|]. intros y H. apply U, in_app_iff. auto.
    + rewrite fold_common_none. intros w [Kw U]. apply (common_none _ _ _ _ _ NK Ka Kx E w Kw). split.
      * apply (proj2 La). split; [exact Kw|]. intros y H. apply U, in_app_iff. auto.
      * apply U, in_app_iff. right. left. reflexivity.
Qed.
Lemma common_list_spec b l : numbers_known has_opt has_arr -> Forall known l -> l <> [] ->
  match common_list has_opt has_arr b l with
  | Some z => least_upper b l z
  | None => forall w, ~ upper b l w
  end.
Proof.
  intros NK Kl N. destruct Kl as [|q t Kq Kt]; [congruence|]. apply (fold_common b t NK Kt q [q] Kq). split.
  - split; [exact Kq|]. intros x [<-|[]]. apply casts_refl.
  - intros w [_ U]. apply U. left. reflexivity.
Qed.
Lemma least_upper_unique b l z z' : least_upper b l z -> least_upper b l z' -> z = z'.
Proof. intros [U L] [U' L']. apply (casts_antisym b); auto. Qed.

(** ** Broadcasting *)
Lemma fold_shape_none l : fold_left (fun sh t => common_shape sh (get_shape t) true) l None = None.
Proof. induction l; cbn; auto. rewrite common_shape_none_l. exact IHl. Qed.
Lemma fold_shape l : forall a pre, least_shape pre a ->
  match fold_left (fun sh t => common_shape sh (get_shape t) true) l (Some a) with
  | Some z => exists shs, Forall2 (fun t s => get_shape t = Some s) l shs /\ least_shape (pre ++ shs) z
  | None => forall shs w, Forall2 (fun t s => get_shape t = Some s) l shs -> ~ (forall s, In s (pre ++ shs) -> shape_le true s w)
  end.
Proof.
  induction l as [|t l IH]; intros a pre La; cbn [fold_left].
  - exists []. split; [constructor|]. rewrite app_nil_r. exact La.
  - destruct (get_shape t) as [s|] eqn:Et.
    + pose proof (common_shape_spec true a s) as Ch. destruct (common_shape (Some a) (Some s) true) as [c|].
      * destruct Ch as (C1 & C2 & C3 & _).
        assert (Lc : least_shape (pre ++ [s]) c).
        { split.
          - intros y H. apply in_app_iff in H. destruct H as [H|[<-|[]]]; [|exact C2]. eapply shape_le_trans; [apply (proj1 La), H|exact C1].
          - intros w U. apply C3; [apply (proj2 La); intros y H; apply U, in_app_iff; auto|apply U, in_app_iff; right; left; reflexivity]. }
        specialize (IH c _ Lc). destruct (fold_left _ l (Some c)) as [z|].
        -- destruct IH as (shs & F & L). exists (s :: shs). split; [constructor; auto|]. rewrite <- app_assoc in L. exact L.
        -- intros shs w F. inversion F as [|? s' ? shs' E F']; subst. assert (s' = s) by congruence. subst s'.
           specialize (IH shs' w F'). rewrite <- app_assoc in IH. exact IH.
      * rewrite fold_shape_none. intros shs w F U. inversion F as [|? s' ? shs' E F']; subst. assert (s' = s) by congruence. subst s'.
        apply (Ch w). split; [apply (proj2 La); intros y H; apply U, in_app_iff; auto|apply U, in_app_iff; right; left; reflexivity].
    + rewrite common_shape_none_r, fold_shape_none. intros shs w F. inversion F; congruence.
Qed.
Lemma least_shape_unique l a b : least_shape l a -> least_shape l b -> a = b.
Proof. intros [U L] [U' L']. apply (shape_le_antisym true); auto. Qed.
Lemma shapes_fun l : forall s s', Forall2 (fun t s => get_shape t = Some s) l s -> Forall2 (fun t s => get_shape t = Some s) l s' -> s = s'.
Proof. induction l; intros s s' F F'; inversion F; inversion F'; subst; [reflexivity|]. f_equal; [congruence|auto]. Qed.
End Reg.

(** ** The frontier *)
Section Frontier.
Variable has_opt : qt -> bool.
Variable has_arr : nat -> qt -> bool.
Notation known := (known has_opt has_arr).
Notation le := (fun a b => can_cast_all has_opt has_arr (s_in a) (s_in b)).
Definition sknown (s : sig) : Prop := Forall known (s_in s).
Lemma le_iff a b : sknown a -> sknown b -> (le a b = true <-> Forall2 (casts true) (s_in a) (s_in b)).
Proof. apply can_cast_all_iff. Qed.
Lemma le_trans a b c : sknown a -> sknown b -> sknown c -> le a b = true -> le b c = true -> le a c = true.
Proof. intros Ka Kb Kc. rewrite !le_iff by assumption. apply Forall2_casts_trans. Qed.
Lemma le_refl a : sknown a -> le a a = true.
Proof. intros Ka. apply le_iff; auto. apply Forall2_casts_refl. Qed.

(** The pass keeps what the candidate does not cast to. *)
Notation keep c := (fun p => negb (le c p)).
Lemma upd_app {A} (l : list A) x y r : upd (l ++ x :: r) (length l) y = Some (l ++ y :: r).
Proof. induction l as [|a l IH]; cbn; [reflexivity|]. rewrite IH. reflexivity. Qed.
Lemma scan_dom c : forall rest done junk, 
  exists junk', scan has_opt has_arr c (length rest) (length done + length junk) (length done) (done ++ junk ++ rest) true
    = Some (done ++ filter (keep c) rest ++ junk', length done + length (filter (keep c) rest), true, false).
Proof.
  induction rest as [|p rest IH]; intros done junk; cbn [scan length filter].
  - exists junk. rewrite app_nil_r, app_nil_l, Nat.add_0_r. reflexivity.
  - replace (rd (done ++ junk ++ p :: rest) (length done + length junk)) with (Some p).
    2:{ unfold rd. rewrite nth_error_app2 by lia. rewrite nth_error_app2 by lia. replace (length done + length junk - length done - length junk) with 0 by lia. reflexivity. }
    cbn [bind orb]. destruct (can_cast_all has_opt has_arr (s_in c) (s_in p)) eqn:E; cbn [negb].
    + destruct (IH done (junk ++ [p])) as (j & Ej). exists j. rewrite app_length in Ej. cbn [length] in Ej.
      replace (length done + (length junk + 1)) with (S (length done + length junk)) in Ej by lia. rewrite <- app_assoc in Ej. exact Ej.
    + destruct junk as [|x junk].
      * cbn [app]. rewrite upd_app. cbn [bind length]. destruct (IH (done ++ [p]) []) as (j & Ej). exists j. cbn [app length] in Ej |- *.
        rewrite !Nat.add_0_r in Ej |- *. rewrite app_length in Ej. cbn [length] in Ej. rewrite <- !app_assoc in Ej. cbn [app] in Ej.
        replace (length done + 1) with (S (length done)) in Ej by lia. rewrite Ej. cbn [length]. rewrite Nat.add_succ_r. reflexivity.
      * cbn [app]. rewrite upd_app. cbn [bind length]. destruct (IH (done ++ [p]) (junk ++ [p])) as (j & Ej). exists j.
        rewrite !app_length in Ej. cbn [length] in Ej. rewrite <- !app_assoc in Ej. cbn [app] in Ej.
        replace (length done + 1 + (length junk + 1)) with (S (length done + S (length junk))) in Ej by lia.
        replace (length done + 1) with (S (length done)) in Ej by lia. rewrite Ej. cbn [length app]. rewrite (Nat.add_succ_r (length done) (length (filter _ _))). reflexivity.
Qed.
(** While nothing was discarded the pass leaves everything in place. *)
Lemma scan_start c : forall rest done, (forall p, In p done -> le c p = false /\ le p c = false) ->
  match scan has_opt has_arr c (length rest) (length done) (length done) (done ++ rest) false with
  | Some (fr, _, false, true) => fr = done ++ rest /\ exists p, In p rest /\ le p c = true
  | Some (fr, _, false, false) => fr = done ++ rest /\ forall p, In p (done ++ rest) -> le c p = false /\ le p c = false
  | Some (fr, o, true, false) => firstn o fr = filter (keep c) (done ++ rest) /\ exists p, In p rest /\ le c p = true
  | _ => False
  end.
Proof.
  induction rest as [|p rest IH]; intros done H; cbn [scan length].
  - rewrite app_nil_r. auto.
  - replace (rd (done ++ p :: rest) (length done)) with (Some p).
    2:{ unfold rd. rewrite nth_error_app2, Nat.sub_diag by lia. reflexivity. }
    cbn [bind orb]. destruct (can_cast_all has_opt has_arr (s_in c) (s_in p)) eqn:E.
    + destruct (scan_dom c rest done [p]) as (j & Ej). cbn [length app] in Ej. replace (length done + 1) with (S (length done)) in Ej by lia. rewrite Ej.
      split; [|exists p; split; [left; reflexivity|exact E]].
      rewrite app_assoc. replace (length done + length (filter (keep c) rest)) with (length (done ++ filter (keep c) rest)) by apply app_length.
      rewrite firstn_app, firstn_all, Nat.sub_diag. cbn [firstn]. rewrite app_nil_r, filter_app. cbn [filter]. rewrite E. cbn [negb].
      f_equal. clear -H. induction done as [|d done IH]; [reflexivity|]. cbn [filter]. rewrite (proj1 (H d (or_introl eq_refl))). cbn [negb]. f_equal.
      apply IH. intros q Hq. apply H. right. exact Hq.
    + destruct (can_cast_all has_opt has_arr (s_in p) (s_in c)) eqn:E'; cbn [negb].
      * split; [reflexivity|]. exists p. split; [left; reflexivity|exact E'].
      * rewrite upd_app. cbn [bind]. specialize (IH (done ++ [p])). rewrite app_length in IH. cbn [length] in IH. rewrite <- app_assoc in IH. cbn [app] in IH.
        replace (length done + 1) with (S (length done)) in IH by lia.
        assert (H' : forall q, In q (done ++ [p]) -> le c q = false /\ le q c = false).
        { intros q Hq. apply in_app_iff in Hq. destruct Hq as [Hq|[<-|[]]]; auto. }
        specialize (IH H'). destruct (scan _ _ _ _ _ _ _ _) as [[[[fr o] [|]] [|]]|]; auto.
        -- destruct IH as [A (q & Hq & B)]. split; [exact A|]. exists q. split; [right; exact Hq|exact B].
        -- destruct IH as [A (q & Hq & B)]. split; [exact A|]. exists q. split; [right; exact Hq|exact B].
Qed.

Inductive antichain : list sig -> Prop :=
  | ac_nil : antichain []
  | ac_cons x l : (forall y, In y l -> le x y = false /\ le y x = false) -> antichain l -> antichain (x :: l).
Lemma antichain_app l c : antichain l -> (forall y, In y l -> le c y = false /\ le y c = false) -> antichain (l ++ [c]).
Proof.
  induction 1 as [|x l H _ IH]; intros K; cbn [app].
  - constructor; [intros y []|constructor].
  - constructor; [|apply IH; intros y Hy; apply K; right; exact Hy].
    intros y Hy. apply in_app_iff in Hy. destruct Hy as [Hy|[<-|[]]]; [auto|]. destruct (K x (or_introl eq_refl)). auto.
Qed.
Lemma antichain_filter f l : antichain l -> antichain (filter f l).
Proof.
  induction 1 as [|x l H _ IH]; cbn [filter]; [constructor|]. destruct (f x); [|exact IH]. constructor; [|exact IH].
  intros y Hy. apply filter_In in Hy. apply H, Hy.
Qed.
Lemma antichain_le l x y : antichain l -> In x l -> In y l -> le x y = true -> x = y.
Proof.
  induction 1 as [|z l H _ IH]; intros [] []; subst; intros E; auto.
  - destruct (H y H1). congruence.
  - destruct (H x H0). congruence.
Qed.

(** [fr] has the minimal elements among the candidates [seen]. *)
Definition frontier (seen fr : list sig) : Prop :=
  (forall p, In p fr -> In p seen) /\ (forall p, In p seen -> exists f, In f fr /\ le f p = true) /\ antichain fr.
Lemma insert_ok c seen fr : (forall p, In p seen -> sknown p) -> sknown c -> frontier seen fr ->
  exists fr', insert has_opt has_arr c fr = Some fr' /\ frontier (seen ++ [c]) fr'.
Proof.
  intros Ks Kc (F1 & F2 & F3). unfold insert. pose proof (scan_start c fr [] (fun p H => match H with end)) as S. cbn [app length] in S.
  destruct (scan _ _ _ _ _ _ _ _) as [[[[fr' o] [|]] [|]]|]; try (destruct S; fail); cbn [bind].
  - destruct S as [-> (d & Hd & Ld)]. eexists. split; [reflexivity|]. split; [|split].
    + intros p Hp. apply in_app_iff in Hp. destruct Hp as [Hp|Hp]; apply in_app_iff; auto. apply filter_In in Hp. left. apply F1, Hp.
    + intros p Hp. apply in_app_iff in Hp. destruct Hp as [Hp|[<-|[]]].
      * destruct (F2 p Hp) as (f & Hf & Lf). destruct (can_cast_all has_opt has_arr (s_in c) (s_in f)) eqn:E.
        -- exists c. split; [apply in_app_iff; right; left; reflexivity|]. apply (le_trans c f p); auto.
        -- exists f. split; [|exact Lf]. apply in_app_iff. left. apply filter_In. rewrite E. auto.
      * exists c. split; [apply in_app_iff; right; left; reflexivity|]. apply le_refl, Kc.
    + apply antichain_app; [apply antichain_filter, F3|]. intros y Hy. apply filter_In in Hy. destruct Hy as [Hy Ny]. apply negb_true_iff in Ny.
      split; [exact Ny|]. destruct (can_cast_all has_opt has_arr (s_in y) (s_in c)) eqn:E; [|reflexivity]. exfalso.
      assert (L : le y d = true) by (apply (le_trans y c d); auto). rewrite (antichain_le _ _ _ F3 Hy Hd L) in Ny. congruence.
  - destruct S as [-> (d & Hd & Ld)]. exists fr. split; [reflexivity|]. split; [|split; [|exact F3]].
    + intros p Hp. apply in_app_iff. auto.
    + intros p Hp. apply in_app_iff in Hp. destruct Hp as [Hp|[<-|[]]]; eauto.
  - destruct S as [-> S]. eexists. split; [reflexivity|]. split; [|split].
    + intros p Hp. apply in_app_iff in Hp. destruct Hp as [Hp|Hp]; apply in_app_iff; auto.
    + intros p Hp. apply in_app_iff in Hp. destruct Hp as [Hp|[<-|[]]].
      * destruct (F2 p Hp) as (f & Hf & Lf). exists f. split; [apply in_app_iff; auto|exact Lf].
      * exists c. split; [apply in_app_iff; right; left; reflexivity|]. apply le_refl, Kc.
    + apply antichain_app; assumption.
Qed.
End Frontier.

Section Search.
Variable has_opt : qt -> bool.
Variable has_arr : nat -> qt -> bool.
Variable base : nat -> qt.
Variables (ins : list qt) (out : qt).
Notation known := (known has_opt has_arr).
Notation sknown := (sknown has_opt has_arr).
Notation exact := (exact (decay base) ins out).
Notation fits := (fits (decay base) ins out).
Hypothesis Ki : Forall known ins.

Lemma types_eqb_eq a b : types_eqb a b = true <-> a = b.
Proof. unfold types_eqb. destruct (list_eq_dec qt_eq_dec a b); intuition congruence. Qed.
Lemma fits_dec c : sknown c -> {fits c} + {~ fits c}.
Proof.
  intros Kc. unfold Ovl_Spec.fits. destruct (qt_eq_dec (s_out c) (decay base out)) as [E|E]; [|right; tauto].
  destruct (can_cast_all has_opt has_arr ins (s_in c)) eqn:F; [left; split; [exact E|apply (can_cast_all_iff _ _ _ _ Ki Kc); exact F]|].
  right. intros [_ H]. apply (can_cast_all_iff _ _ _ _ Ki Kc) in H. congruence.
Qed.
Lemma search_ok : forall sigs fr pre seen, (forall c, In c (pre ++ sigs) -> sknown c) ->
  (forall c, In c pre -> ~ exact c) -> (forall c, In c seen <-> In c pre /\ fits c) -> frontier has_opt has_arr seen fr ->
  match search has_opt has_arr base ins out sigs fr with
  | Some (inl s) => In s sigs /\ exact s
  | Some (inr fr') => (forall c, In c (pre ++ sigs) -> ~ exact c) /\ exists seen', (forall c, In c seen' <-> In c (pre ++ sigs) /\ fits c) /\ frontier has_opt has_arr seen' fr'
  | None => False
  end.
Proof.
  induction sigs as [|c sigs IH]; intros fr pre seen K Ne Hs F; cbn [search].
  - rewrite app_nil_r. split; [exact Ne|]. exists seen. auto.
  - assert (Kc : sknown c) by (apply K, in_app_iff; right; left; reflexivity).
    replace (pre ++ c :: sigs) with ((pre ++ [c]) ++ sigs) in K |- * by (rewrite <- app_assoc; reflexivity).
    assert (W : forall r : option (sig + list sig), match r with Some (inl s) => In s sigs /\ exact s | Some (inr fr') => (forall c0, In c0 ((pre ++ [c]) ++ sigs) -> ~ exact c0) /\ exists seen', (forall c0, In c0 seen' <-> In c0 ((pre ++ [c]) ++ sigs) /\ fits c0) /\ frontier has_opt has_arr seen' fr' | None => False end -> match r with Some (inl s) => In s (c :: sigs) /\ exact s | Some (inr fr') => (forall c0, In c0 ((pre ++ [c]) ++ sigs) -> ~ exact c0) /\ exists seen', (forall c0, In c0 seen' <-> In c0 ((pre ++ [c]) ++ sigs) /\ fits c0) /\ frontier has_opt has_arr seen' fr' | None => False end).
    { intros [[s|f]|]; auto. intros [A B]. split; [right; exact A|exact B]. }
    assert (Sk : ~ exact c -> ~ fits c -> (forall c0, In c0 (pre ++ [c]) -> ~ exact c0) /\ (forall c0, In c0 seen <-> In c0 (pre ++ [c]) /\ fits c0)).
    { intros A B. split.
      - intros d Hd. apply in_app_iff in Hd. destruct Hd as [Hd|[<-|[]]]; auto.
      - intros d. rewrite Hs, in_app_iff. split; [intuition|]. intros [[Hd|[<-|[]]] Fd]; [auto|contradiction]. }
    destruct (qt_eqb (decay base out) (s_out c)) eqn:Eo; cbn [negb].
    2:{ apply qt_eqb_neq in Eo. apply W. destruct Sk as [S1 S2]; [intros [_ H]; congruence|intros [H _]; congruence|]. apply (IH fr (pre ++ [c]) seen); auto. }
    apply qt_eqb_eq in Eo. destruct (types_eqb (map (decay base) ins) (s_in c)) eqn:Ex.
    { apply types_eqb_eq in Ex. split; [left; reflexivity|]. split; auto. }
    assert (Nx : ~ exact c) by (intros [H _]; apply eq_sym, types_eqb_eq in H; congruence).
    destruct (can_cast_all has_opt has_arr ins (s_in c)) eqn:Ec; cbn [negb].
    2:{ apply W. destruct Sk as [S1 S2]; [exact Nx|intros [_ H]; apply (can_cast_all_iff _ _ _ _ Ki Kc) in H; congruence|]. apply (IH fr (pre ++ [c]) seen); auto. }
    assert (Fc : fits c) by (split; [auto|apply (can_cast_all_iff _ _ _ _ Ki Kc); exact Ec]).
    destruct (insert_ok has_opt has_arr c seen fr) as (fr' & Ei & F'); [intros p Hp; apply Hs in Hp; apply K; rewrite !in_app_iff; tauto|exact Kc|exact F|].
    rewrite Ei. cbn [bind]. apply W. apply (IH fr' (pre ++ [c]) (seen ++ [c])); auto.
    + intros d Hd. apply in_app_iff in Hd. destruct Hd as [Hd|[<-|[]]]; auto.
    + intros d. rewrite !in_app_iff, Hs. cbn [In]. split; [intros [[A B]|[<-|[]]]; auto|intros [[A|[<-|[]]] B]; auto].
Qed.
End Search.
