From Coq Require Import Ascii String.
From Verif Require Import Base Strings_Model Strings_Proofs Repr_Model Repr_Spec Repr_Parse Repr_Proofs.
Local Open Scope list_scope.

Scheme reads_mut := Minimality for reads Sort Prop
  with reads_opt_mut := Minimality for reads_opt Sort Prop
  with reads_all_mut := Minimality for reads_all Sort Prop.
Combined Scheme reads_all_ind from reads_mut, reads_opt_mut, reads_all_mut.

Lemma reads_mono3 (R R' : list Z -> dexpr -> Prop) : (forall n e, R n e -> R' n e) ->
  (forall a e, reads R a e -> reads R' a e) /\ (forall o e, reads_opt R o e -> reads_opt R' o e) /\ (forall l es, reads_all R l es -> reads_all R' l es).
Proof. intros H. apply (reads_all_ind R); intros; try (econstructor; eauto; fail). Qed.
Lemma reads_mono (R R' : list Z -> dexpr -> Prop) a e : (forall n e, R n e -> R' n e) -> reads R a e -> reads R' a e.
Proof. intros H. apply (proj1 (reads_mono3 R R' H)). Qed.

Lemma dotted_fun a n : dotted a n -> forall n', dotted a n' -> n = n'.
Proof. induction 1 as [s|a p s Ha IH Hs]; intros n' H'; inversion H'; subst; [reflexivity|]. f_equal. apply IH. assumption. Qed.

Lemma tidy_dep e d : tidy e -> In d (deps e) -> tidy d.
Proof. intros H Hd n Hn. apply H. eapply sub_dep; eassumption. Qed.
Lemma tidy_self e : tidy e -> match e with DNegNum _ => False | DOp r name ds => (r = true -> name <> bytes "annotation.source_location") /\ (r = false -> forall t, name <> bytes "M." ++ t) | _ => True end.
Proof. intros H. exact (H e (sub_refl e)). Qed.

Definition nor : list Z -> dexpr -> Prop := fun _ _ => False.
Lemma no_L g : ~ reads nor (AName (bytes "L")) g.
Proof. intros H. inversion H; subst; match goal with K : nor _ _ |- _ => destruct K end. Qed.
Lemma no_P g : ~ reads nor (AName (bytes "P")) g.
Proof. intros H. inversion H; subst; match goal with K : nor _ _ |- _ => destruct K end. Qed.

Ltac noref := match goal with K : nor _ _ |- _ => destruct K end.
Ltac tid := match goal with K : tidy (DOp _ _ _) |- tidy _ => apply (tidy_dep _ _ K); cbn [deps In]; tauto
  | K : tidy (DOp _ _ [_; DOp _ _ _]) |- tidy _ => refine (tidy_dep _ _ (tidy_dep _ _ K (or_intror (or_introl eq_refl))) _); cbn [deps In]; tauto end.

Lemma reads_fun3 : 
  (forall a e, reads nor a e -> tidy e -> forall e', reads nor a e' -> tidy e' -> e = e') /\
  (forall o e, reads_opt nor o e -> tidy e -> forall e', reads_opt nor o e' -> tidy e' -> e = e') /\
  (forall l es, reads_all nor l es -> (forall e, In e es -> tidy e) -> forall es', reads_all nor l es' -> (forall e, In e es' -> tidy e) -> es = es').
Proof.
  apply (reads_all_ind nor).
  - intros; noref.
  - intros k T e' H' T'. inversion H'; subst; try noref; try reflexivity. exfalso; eapply no_L; eassumption.
  - intros k T e' H' T'. inversion H'; subst; try noref; try reflexivity. exfalso; eapply no_L; eassumption.
  - intros k T e' H' T'. inversion H'; subst; try noref; try reflexivity. exfalso; eapply no_P; eassumption.
  - intros k T e' H' T'. inversion H'; subst; try noref; try reflexivity. exfalso; eapply no_P; eassumption.
  - intros k T e' H' T'. inversion H'; subst; try noref; try reflexivity.
  - intros k T e' H' T'. destruct (tidy_self _ T).
  - intros k T e' H' T'. inversion H'; subst; try noref; try reflexivity.
  - intros k T e' H' T'. inversion H'; subst; try noref; try reflexivity.
  - intros T e' H' T'. inversion H'; subst; try noref; try reflexivity.
  - intros s o a e Ho H IH T e' H' T'. inversion H'; subst; try noref; [destruct (tidy_self _ T')|].
    assert (o0 = o) by congruence. subst. repeat f_equal. apply IH; [tid|assumption|tid].
  - intros s o a b e g Ho H IH Hb IHb T e' H' T'. inversion H'; subst; try noref.
    assert (o0 = o) by congruence. subst. repeat f_equal; [apply IH|apply IHb]; first [assumption|tid].
  - intros a e k H IH T e' H' T'. inversion H'; subst; try noref; try (exfalso; first [eapply no_L; eassumption | eapply no_P; eassumption]).
    repeat f_equal. apply IH; first [assumption|tid].
  - intros a e x H IH T. destruct (tidy_self _ T) as [K _]. destruct (K eq_refl eq_refl).
  - intros a e i g H IH Hi IHi T e' H' T'. inversion H'; subst; try noref; try (exfalso; first [eapply no_L; eassumption | eapply no_P; eassumption]).
    repeat f_equal; [apply IH|apply IHi]; first [assumption|tid].
  - intros a e o1 o2 o3 e1 e2 e3 H IH H1 IH1 H2 IH2 H3 IH3 T e' H' T'. inversion H'; subst; try noref.
    repeat f_equal; [apply IH|apply IH1|apply IH2|apply IH3]; first [assumption|tid].
  - intros f l name es D H IH T e' H' T'. inversion H'; subst; try noref.
    + rewrite (dotted_fun _ _ D _ H2). f_equal. apply IH; [intros; tid|assumption|intros; tid].
    + exfalso. destruct (tidy_self _ T) as [_ K]. apply (K eq_refl name0). apply (dotted_fun _ _ D _ H2).
  - intros f l name es D H IH T e' H' T'. inversion H'; subst; try noref.
    + exfalso. destruct (tidy_self _ T') as [_ K]. apply (K eq_refl name). apply (dotted_fun _ _ H2 _ D).
    + pose proof (dotted_fun _ _ D _ H2) as E. apply app_inv_head in E. subst. f_equal. apply IH; [intros; tid|assumption|intros; tid].
  - intros T e' H' T'. inversion H'. reflexivity.
  - intros a e H IH T e' H' T'. inversion H'; subst. apply IH; assumption.
  - intros _ es' H' _. inversion H'. reflexivity.
  - intros a l e es H IH Hl IHl T es' H' T'. inversion H'; subst. f_equal.
    + apply IH; [apply T; left; reflexivity|assumption|apply T'; left; reflexivity].
    + apply IHl; [intros; apply T; right; assumption|assumption|intros; apply T'; right; assumption].
Qed.
Lemma parses_fun ts a b : parses ts a -> parses ts b -> a = b.
Proof. intros (f & H) (g & K). specialize (H (f + g) ltac:(lia)). specialize (K (f + g) ltac:(lia)). congruence. Qed.
