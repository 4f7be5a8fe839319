(** All the batches of a process. *)
From Coq Require Import Permutation.
From Verif Require Import Base Visit_Model Init_Model Init_Spec Init_Graph Init_Build Init_Exec Init_Proofs.

Lemma app_split {A} (x : list A) : forall y a j b, x ++ y = a ++ j :: b ->
  (exists b1, x = a ++ j :: b1 /\ b = b1 ++ y) \/ (exists a2, a = x ++ a2 /\ y = a2 ++ j :: b).
Proof.
  induction x as [|z x IH]; intros y a j b H; [right; exists a; auto|]. destruct a as [|w a]; cbn in H; injection H as -> H.
  - left. exists x. subst. auto.
  - destruct (IH _ _ _ _ H) as [(b1 & -> & ->)|(a2 & -> & ->)]; [left; exists b1; auto|right; exists a2; auto].
Qed.
Lemma registered_app a b : registered (a ++ b) = registered a ++ registered b.
Proof. apply flat_map_app. Qed.

Section P.
Variable ok : list initializer -> nat -> bool.
Record pinv (os : list pop) (p : proc) : Prop := {
  pi_all : Permutation (p_trace p ++ p_head p) (registered os);
  pi_done : forall x, In x (p_done p) <-> x <> [] /\ exists i, In i (p_trace p) /\ i_name i = x;
  pi_names : forall i, In i (p_trace p) -> ~ phony (i_name i);
  pi_hist : history_ok (p_trace p);
  pi_called : p_called p = true <-> In CallInit os;
  pi_once : p_once p = p_called p;
  pi_quiet : ~ In CallInit os -> p_trace p = []
}.
Lemma pinv_clean os p : pinv os p -> clean (p_done p).
Proof. intros I x H. apply (pi_done _ _ I) in H as (Z & i & Hi & <-). split; [exact Z|apply (pi_names _ _ I), Hi]. Qed.

Lemma hist_run P tr ran l : clean P -> (forall x, In x P <-> x <> [] /\ exists i, In i tr /\ i_name i = x) -> history_ok tr -> feasible P l -> ran_in_order l ran [] -> history_ok (tr ++ ran).
Proof.
  intros Pc HP [U H] F [Pm Ord]. rewrite app_nil_r in Pm. split.
  - rewrite map_app, filter_app. assert (N2 : NoDup (filter (fun n => negb (empty n)) (map i_name ran))).
    { assert (Pf : forall a b : list name, Permutation a b -> Permutation (filter (fun n => negb (empty n)) a) (filter (fun n => negb (empty n)) b)).
      { induction 1; cbn; try destruct (empty x); try destruct (empty y); cbn; try constructor; auto. eapply perm_trans; eassumption. }
      apply (Permutation_NoDup (Pf _ _ (Permutation_map i_name (Permutation_sym Pm)))), (f_unique _ _ F). }
    assert (D : forall x, In x (filter (fun n => negb (empty n)) (map i_name tr)) -> ~ In x (filter (fun n => negb (empty n)) (map i_name ran))).
    { intros x Hx Hy. apply filter_In in Hx as [Hx Ex]. apply filter_In in Hy as [Hy _]. apply in_map_iff in Hx as (i & <- & Hi). apply in_map_iff in Hy as (k & Ek & Hk).
      apply (f_new _ _ F k (Permutation_in _ Pm Hk)). rewrite Ek. apply HP. split; [intros Z; rewrite Z in Ex; discriminate|eauto]. }
    revert U D. generalize (filter (fun n => negb (empty n)) (map i_name tr)) as q. induction q as [|z q IH]; intros U D; [exact N2|]. cbn. inversion U as [|? ? A B]; subst. constructor.
    + intros K. apply in_app_or in K as [K|K]; [contradiction|]. apply (D z (or_introl eq_refl) K).
    + apply IH; [exact B|]. intros y Hy. apply D. right. exact Hy.
  - intros a j b E. destruct (app_split _ _ _ _ _ E) as [(b1 & Et & ->)|(a2 & -> & Er)].
    + destruct (H a j b1 Et) as [H1 H2]. split; [|exact H2]. intros i Hi Hp. assert (Hj : In j tr) by (rewrite Et; apply in_or_app; right; left; reflexivity).
      assert (Hi' : In i (j :: b1) \/ In i ran) by (destruct Hi as [<-|Hi]; [left; left; reflexivity|apply in_app_or in Hi as [Hi|Hi]; [left; right; exact Hi|right; exact Hi]]).
      destruct Hi' as [Hi'|Hi']; [exact (H1 i Hi' Hp)|]. apply (Permutation_in _ Pm) in Hi'. destruct Hp as [[Z Hp]|[Z Hp]].
      * destruct (H2 _ Hp (f_names _ _ F i Hi')) as (_ & k & Hk & Ek). apply (f_new _ _ F i Hi'), HP. split; [exact Z|]. exists k. split; [rewrite Et; apply in_or_app; left; exact Hk|exact Ek].
      * apply (f_late _ _ F i _ Hi' Hp), HP. split; [exact Z|eauto].
    + assert (Hj : In j l) by (apply (Permutation_in _ Pm); rewrite Er; apply in_or_app; right; left; reflexivity).
      split.
      * intros i Hi Hp. apply (Ord a2 j b Er i); [rewrite app_nil_r; exact Hi|]. destruct Hp as [Hp|Hp]; [left|right; left]; exact Hp.
      * intros d Hd Nd. destruct (f_defined _ _ F j d Hj Hd) as [K|[K|(Z & k & Hk & Ek)]]; [|contradiction|].
        -- apply HP in K as (Z & i & Hi & Ei). split; [exact Z|]. exists i. split; [apply in_or_app; left; exact Hi|exact Ei].
        -- split; [exact Z|]. exists k. split; [|exact Ek]. apply in_or_app. right. apply (Permutation_in _ (Permutation_sym Pm)) in Hk. rewrite Er in Hk. apply in_app_or in Hk as [Hk|Hk]; [exact Hk|exfalso].
           apply (Ord a2 j b Er k); [rewrite app_nil_r; exact Hk|]. left. split; congruence.
Qed.

Lemma run_registered_ok os p : pinv os p -> p_called p = true -> exists r, run_registered ok p = Some r /\
  match r with
  | inl (tr, e) => exists rest, Permutation (tr ++ rest) (registered os)
  | inr p' => pinv os p' /\ p_head p' = []
  end.
Proof.
  intros I Hc. unfold run_registered. destruct (run_cases ok (p_done p) (pinv_clean _ _ I) (p_trace p) (p_head p)) as (P' & ran & e & E & (rest & O & Hr) & Q). rewrite E. cbn [bind].
  destruct e as [e|]; eexists; (split; [reflexivity|]).
  - exists rest. destruct O as [O _]. rewrite <- app_assoc. apply (perm_trans (Permutation_app_head _ O)), (pi_all _ _ I).
  - rewrite (Hr eq_refl) in O. destruct Q as (F & _ & HP). pose proof O as [Pm _]. rewrite app_nil_r in Pm. split; [|reflexivity]. split; cbn [p_trace p_head p_done p_called p_once].
    + rewrite app_nil_r. apply (perm_trans (Permutation_app_head _ Pm)), (pi_all _ _ I).
    + intros x. rewrite HP, (pi_done _ _ I). split.
      * intros [(Z & i & Hi & Ei)|(Z & i & Hi & Ei)]; (split; [exact Z|]); exists i; (split; [|exact Ei]); apply in_or_app; [left; exact Hi|right; apply (Permutation_in _ (Permutation_sym Pm)), Hi].
      * intros (Z & i & Hi & Ei). apply in_app_or in Hi as [Hi|Hi]; [left|right]; (split; [exact Z|]); exists i; (split; [|exact Ei]); [exact Hi|apply (Permutation_in _ Pm), Hi].
    + intros i Hi. apply in_app_or in Hi as [Hi|Hi]; [apply (pi_names _ _ I), Hi|apply (f_names _ _ F), (Permutation_in _ Pm), Hi].
    + apply (hist_run (p_done p) _ _ (p_head p)); [apply (pinv_clean _ _ I)|apply (pi_done _ _ I)|apply (pi_hist _ _ I)|exact F|exact O].
    + apply (pi_called _ _ I).
    + apply (pi_once _ _ I).
    + intros N. exfalso. apply N, (pi_called _ _ I), Hc.
Qed.

Lemma pstep_ok os p o : pinv os p -> exists r, pstep ok p o = Some r /\
  match r with
  | inl (tr, e) => exists rest, Permutation (tr ++ rest) (registered (os ++ [o]))
  | inr p' => pinv (os ++ [o]) p' /\
      match o with
      | Register _ => True
      | CallInit => ~ In CallInit os -> p_head p' = []
      | Secondary => In CallInit os -> p_head p' = []
      end
  end.
Proof.
  intros I. assert (Rg : forall o, (forall i, o <> Register i) -> registered (os ++ [o]) = registered os).
  { intros o' N. rewrite registered_app. destruct o'; [destruct (N i eq_refl)| |]; apply app_nil_r. }
  destruct o as [i| |]; cbn [pstep].
  - eexists. split; [reflexivity|]. split; [|exact I0 || exact Logic.I]. destruct I as [A B C D E F G]. split; cbn [p_trace p_head p_done p_called p_once]; auto.
    + rewrite registered_app. cbn. apply (perm_trans (Permutation_sym (Permutation_middle _ _ _))). apply (perm_trans (perm_skip _ A)). apply Permutation_cons_append.
    + rewrite E, in_app_iff. split; [auto|]. intros [H|[H|[]]]; [exact H|discriminate].
    + intros N. apply G. intros H. apply N, in_or_app. auto.
  - destruct (p_once p) eqn:Eo.
    + eexists. split; [reflexivity|]. rewrite (pi_once _ _ I) in Eo. pose proof (proj1 (pi_called _ _ I) Eo) as Hc. split; [|intros N; contradiction].
      destruct I as [A B C D E F G]. split; auto.
      * rewrite Rg by discriminate. exact A.
      * rewrite E, in_app_iff. cbn. tauto.
      * intros N. destruct N. apply in_or_app. auto.
    + assert (I1 : pinv (os ++ [CallInit]) (mkP true true (p_head p) (p_done p) (p_trace p))).
      { destruct I as [A B C D E F G]. split; cbn [p_trace p_head p_done p_called p_once]; auto.
        - rewrite Rg by discriminate. exact A.
        - split; [intros _; apply in_or_app; right; left; reflexivity|reflexivity].
        - intros N. destruct N. apply in_or_app; right; left; reflexivity. }
      destruct (run_registered_ok _ _ I1 eq_refl) as (r & E & Q). exists r. split; [exact E|]. destruct r as [[tr e]|p']; [exact Q|]. destruct Q. auto.
  - assert (I1 : pinv (os ++ [Secondary]) p).
    { destruct I as [A B C D E F G]. split; auto.
      - rewrite Rg by discriminate. exact A.
      - rewrite E, in_app_iff. split; [auto|]. intros [H|[H|[]]]; [exact H|discriminate].
      - intros N. apply G. intros H. apply N, in_or_app. auto. }
    destruct (p_called p) eqn:Ec.
    + destruct (run_registered_ok _ _ I1 Ec) as (r & E & Q). exists r. split; [exact E|]. destruct r as [[tr e]|p']; [exact Q|]. destruct Q. auto.
    + eexists. split; [reflexivity|]. split; [exact I1|]. intros H. apply (pi_called _ _ I) in H. congruence.
Qed.

Lemma psteps_app os1 : forall p os2, psteps ok p (os1 ++ os2) = bind (psteps ok p os1) (fun r => match r with inl e => Some (inl e) | inr p' => psteps ok p' os2 end).
Proof.
  induction os1 as [|o t IH]; intros p os2; [reflexivity|]. cbn [app psteps]. destruct (pstep ok p o) as [[e|p']|]; [reflexivity| |reflexivity]. cbn [bind]. apply IH.
Qed.
Lemma psteps_ok os : exists r, psteps ok proc0 os = Some r /\ match r with inl (tr, e) => exists rest, Permutation (tr ++ rest) (registered os) | inr p => pinv os p end.
Proof.
  induction os as [|o os IH] using rev_ind.
  - eexists. split; [reflexivity|]. split; cbn; auto; try tauto.
    + intros x. split; [contradiction|]. intros (_ & i & [] & _).
    + split; [constructor|]. intros [|] ? ? H; discriminate.
    + split; [discriminate|contradiction].
  - destruct IH as (r & E & Q). rewrite psteps_app, E. cbn [bind]. destruct r as [[tr e]|p].
    + eexists. split; [reflexivity|]. destruct Q as [rest Q]. exists (rest ++ registered [o]). rewrite registered_app, app_assoc. apply Permutation_app_tail, Q.
    + destruct (pstep_ok os p o Q) as (r & E1 & Q1). cbn [psteps]. rewrite E1. cbn [bind]. destruct r as [[tr e]|p']; eexists; (split; [reflexivity|]); [exact Q1|apply Q1].
Qed.
End P.
