From Coq Require Import Ascii String.
From Verif Require Import Base Strings_Model Strings_Proofs Repr_Model Repr_Spec Repr_Parse Repr_Proofs Repr_Inj Repr_Stmt.
Local Open Scope list_scope.

Lemma read_name_ok n : read_name n <> None <-> is_named n.
Proof.
  unfold is_named. split.
  - unfold read_name. destruct n as [| | | | | | |r name ds]; try congruence.
    destruct ds as [|x [|[| | | |s| | |] [|? ?]]]; try congruence.
    destruct (str_eqb name (bytes "annotation.name")) eqn:E; [|congruence]. apply str_eqb_ok in E. subst. eauto.
  - intros (r & x & s & ->). unfold read_name. rewrite (proj2 (str_eqb_ok _ _) eq_refl). discriminate.
Qed.

(** ** Counting uses *)
Lemma count_in_cons n x l : count_in n (x :: l) = (if dexpr_eqb n x then 1 else 0) + count_in n l.
Proof. unfold count_in. cbn [filter]. destruct (dexpr_eqb n x); reflexivity. Qed.
Lemma count_pos n l : 1 <= count_in n l <-> exists i, nth_error l i = Some n.
Proof.
  induction l as [|x t IH]; [cbn; split; [lia|intros ([|] & H); discriminate]|]. rewrite count_in_cons.
  destruct (dexpr_eqb n x) eqn:E.
  - apply dexpr_eqb_ok in E. subst. split; [intros _; exists 0; reflexivity|lia].
  - cbn [plus]. rewrite IH. split; [intros (i & H); exists (S i); exact H|].
    intros ([|i] & H); [cbn in H; injection H as ->; rewrite dexpr_eqb_refl in E; discriminate|exists i; exact H].
Qed.
Lemma count_two n l : 2 <= count_in n l <-> exists i j, i <> j /\ nth_error l i = Some n /\ nth_error l j = Some n.
Proof.
  induction l as [|x t IH]; [cbn; split; [lia|intros ([|] & j & _ & H & _); discriminate]|]. rewrite count_in_cons.
  destruct (dexpr_eqb n x) eqn:E.
  - apply dexpr_eqb_ok in E. subst. split.
    + intros H. destruct (proj1 (count_pos x t) ltac:(lia)) as (i & Hi). exists 0, (S i). repeat split; [lia|exact Hi].
    + intros (i & j & N & Hi & Hj). enough (1 <= count_in x t) by lia. apply count_pos. destruct i as [|i]; [destruct j as [|j]; [congruence|exists j; exact Hj]|exists i; exact Hi].
  - cbn [plus]. rewrite IH. split.
    + intros (i & j & N & Hi & Hj). exists (S i), (S j). repeat split; [lia|exact Hi|exact Hj].
    + assert (Z : nth_error (x :: t) 0 <> Some n) by (cbn; intros [= ->]; rewrite dexpr_eqb_refl in E; discriminate).
      intros ([|i] & [|j] & N & Hi & Hj); try congruence; try contradiction. exists i, j. repeat split; [lia|exact Hi|exact Hj].
Qed.
Lemma parent_cons p l n : parent_count (p :: l) n = count_in n (deps p) + parent_count l n.
Proof. reflexivity. Qed.
Lemma parent_pos l n : 1 <= parent_count l n <-> exists p i, In p l /\ nth_error (deps p) i = Some n.
Proof.
  induction l as [|p t IH]; [cbn; split; [lia|intros (p & i & [] & _)]|]. rewrite parent_cons. split.
  - intros H. destruct (Nat.le_gt_cases 1 (count_in n (deps p))) as [C|C].
    + apply count_pos in C. destruct C as (i & Hi). exists p, i. split; [left; reflexivity|exact Hi].
    + destruct (proj1 IH ltac:(lia)) as (q & i & Hq & Hi). exists q, i. split; [right; exact Hq|exact Hi].
  - intros (q & i & [->|Hq] & Hi).
    + enough (1 <= count_in n (deps q)) by lia. apply count_pos. eauto.
    + enough (1 <= parent_count t n) by lia. apply IH. eauto.
Qed.
Lemma parent_two l n : NoDup l -> (1 < parent_count l n <->
  exists p q i j, (p, i) <> (q, j) /\ In p l /\ In q l /\ nth_error (deps p) i = Some n /\ nth_error (deps q) j = Some n).
Proof.
  induction l as [|p t IH]; intros Hnd; [cbn; split; [lia|intros (p & q & i & j & _ & [] & _)]|].
  apply NoDup_cons_iff in Hnd. destruct Hnd as [Hp Ht]. specialize (IH Ht). rewrite parent_cons. split.
  - intros H. destruct (Nat.le_gt_cases 2 (count_in n (deps p))) as [C|C].
    + apply count_two in C. destruct C as (i & j & N & Hi & Hj). exists p, p, i, j. repeat split; try (left; reflexivity); try assumption. congruence.
    + destruct (Nat.le_gt_cases 2 (parent_count t n)) as [D|D].
      * destruct (proj1 IH D) as (q & q' & i & j & N & Hq & Hq' & Hi & Hj). exists q, q', i, j. repeat split; try (right; assumption); assumption.
      * destruct (proj1 (count_pos n (deps p)) ltac:(lia)) as (i & Hi). destruct (proj1 (parent_pos t n) ltac:(lia)) as (q & j & Hq & Hj).
        exists p, q, i, j. repeat split; [intros [= -> _]; contradiction|left; reflexivity|right; exact Hq|exact Hi|exact Hj].
  - intros (q & q' & i & j & N & Hq & Hq' & Hi & Hj).
    assert (P : forall a k, In a t -> nth_error (deps a) k = Some n -> 1 <= parent_count t n) by (intros a k Ha Hk; apply parent_pos; eauto).
    assert (C : forall k, nth_error (deps p) k = Some n -> 1 <= count_in n (deps p)) by (intros k Hk; apply count_pos; eauto).
    destruct Hq as [<-|Hq], Hq' as [<-|Hq'].
    + enough (2 <= count_in n (deps p)) by lia. apply count_two. exists i, j. repeat split; try assumption. congruence.
    + specialize (C _ Hi). specialize (P _ _ Hq' Hj). lia.
    + specialize (C _ Hj). specialize (P _ _ Hq Hi). lia.
    + enough (1 < parent_count t n) by lia. apply IH. exists q, q', i, j. auto.
Qed.

(** ** Depth *)
Lemma depth_fold dm ds : forall a, 1 <= a -> let r := fold_left (fun a d => Nat.max a (1 + depth_of dm d)) ds a in
  1 <= r /\ forall k, k <= r <-> k <= a \/ exists d, In d ds /\ k <= 1 + depth_of dm d.
Proof.
  induction ds as [|d t IH]; intros a Ha; cbn [fold_left]; cbv zeta.
  - split; [exact Ha|]. intros k. split; [auto|]. intros [?|(d & [] & _)]; assumption.
  - destruct (IH (Nat.max a (1 + depth_of dm d)) ltac:(lia)) as [H1 H2]. split; [exact H1|]. intros k. rewrite H2. split.
    + intros [H|(g & Hg & H)]; [|right; exists g; split; [right; exact Hg|exact H]].
      destruct (Nat.le_gt_cases k a); [left; assumption|right; exists d; split; [left; reflexivity|lia]].
    + intros [H|(g & [->|Hg] & H)]; [left; lia|left; lia|right; exists g; auto].
Qed.
Lemma depth_of_cons n k dm d : depth_of ((n, k) :: dm) d = if dexpr_eqb d n then k else depth_of dm d.
Proof. unfold depth_of. cbn [find fst]. destruct (dexpr_eqb d n); reflexivity. Qed.

Definition chosen (nodes : list dexpr) (sel : list dexpr) (n : dexpr) : Prop :=
  is_named n \/ (1 < parent_count nodes n /\ exists d, In d (deps n) /\ deps d <> [] /\ ~ In d sel).
Lemma select_ok nodes : forall todo done dm pre, closed (done ++ todo) -> NoDup (done ++ todo) -> incl pre done ->
  (forall d, In d done -> 1 <= depth_of dm d /\ (2 <= depth_of dm d <-> deps d <> [] /\ ~ In d pre)) ->
  (forall d, In d done -> (In d pre <-> chosen nodes pre d)) ->
  let sel := pre ++ select_loop nodes todo dm in
  forall d, In d (done ++ todo) -> (In d sel <-> chosen nodes sel d).
Proof.
  induction todo as [|n t IH]; intros done dm pre Hc Hnd Hpre Hdm Hch; cbn [select_loop]; cbv zeta.
  { rewrite !app_nil_r. exact Hch. }
  assert (Hnew : ~ In n done) by (intros K; apply NoDup_remove_2 in Hnd; apply Hnd, in_or_app; left; exact K).
  pose proof (Hc done n t eq_refl) as Hdeps.
  destruct (depth_fold dm (deps n) 1 (le_n 1)) as [D1 D2]. cbv zeta in D1, D2.
  set (depth := fold_left (fun a d => Nat.max a (1 + depth_of dm d)) (deps n) 1) in *.
  assert (D3 : 3 <= depth <-> exists d, In d (deps n) /\ deps d <> [] /\ ~ In d pre).
  { rewrite D2. split.
    - intros [?|(d & Hd & H)]; [lia|]. exists d. split; [exact Hd|]. apply (proj2 (Hdm d (Hdeps d Hd))). lia.
    - intros (d & Hd & H). right. exists d. split; [exact Hd|]. pose proof (proj2 (proj2 (Hdm d (Hdeps d Hd))) H). lia. }
  assert (D4 : 2 <= depth <-> deps n <> []).
  { rewrite D2. split.
    - intros [?|(d & Hd & _)]; [lia|]. intros E. rewrite E in Hd. destruct Hd.
    - intros H. destruct (deps n) as [|d r] eqn:E; [congruence|]. right. exists d. split; [left; reflexivity|].
      pose proof (proj1 (Hdm d (Hdeps d (or_introl eq_refl)))). lia. }
  assert (Eapp : done ++ n :: t = (done ++ [n]) ++ t) by (rewrite <- app_assoc; reflexivity).
  assert (Hkeep : forall sel', (forall d, In d done -> (In d sel' <-> In d pre)) -> forall d, In d done -> (chosen nodes sel' d <-> chosen nodes pre d)).
  { intros sel' Hs d Hd. unfold chosen. apply in_split in Hd. destruct Hd as (l1 & l2 & ->).
    assert (Hin : forall g, In g (deps d) -> In g (l1 ++ d :: l2)).
    { intros g Hg. apply in_or_app. left. apply (Hc l1 d (l2 ++ n :: t)); [rewrite <- app_assoc; reflexivity|exact Hg]. }
    split; (intros [?|(H & g & Hg & H1 & H2)]; [left; assumption|right; split; [exact H|]; exists g; repeat split; [exact Hg|exact H1|]; intros K; apply H2, (Hs g (Hin g Hg)), K]). }
  assert (Hst : (match read_name n with Some _ => true | None => false end || (Nat.ltb 1 (parent_count nodes n) && Nat.leb 3 depth)) = true <-> chosen nodes pre n).
  { unfold chosen. rewrite orb_true_iff, andb_true_iff, Nat.ltb_lt, Nat.leb_le, D3, <- read_name_ok.
    destruct (read_name n); intuition congruence. }
  assert (Hpn : forall s, (forall d, In d (deps n) -> (In d s <-> In d pre)) -> (chosen nodes s n <-> chosen nodes pre n)).
  { intros s Hs. unfold chosen. split; (intros [?|(H & g & Hg & H1 & H2)]; [left; assumption|right; split; [exact H|]; exists g; repeat split; [exact Hg|exact H1|]; intros K; apply H2, (Hs g Hg), K]). }
  destruct (_ || _) eqn:St.
  - pose proof (proj1 Hst eq_refl) as Cn.
    assert (Hsn : forall d, In d done -> (In d (pre ++ [n]) <-> In d pre)).
    { intros d Hd. split; [|intros K; apply in_or_app; left; exact K]. intros K. apply in_app_or in K. destruct K as [K|[<-|[]]]; [exact K|contradiction]. }
    replace (pre ++ n :: select_loop nodes t ((n, 1) :: dm)) with ((pre ++ [n]) ++ select_loop nodes t ((n, 1) :: dm)) by (rewrite <- app_assoc; reflexivity).
    rewrite Eapp in Hc, Hnd |- *. apply IH; [exact Hc|exact Hnd| | |].
    + intros x Hx. apply in_or_app. apply in_app_or in Hx. destruct Hx as [Hx|Hx]; [left; apply Hpre, Hx|right; exact Hx].
    + intros d Hd. rewrite depth_of_cons. apply in_app_or in Hd. destruct Hd as [Hd|[<-|[]]].
      * rewrite dexpr_eqb_neq by (intros ->; contradiction). rewrite (Hsn d Hd). apply Hdm, Hd.
      * rewrite dexpr_eqb_refl. split; [lia|]. split; [lia|]. intros [_ K]. exfalso. apply K, in_or_app. right. left. reflexivity.
    + intros d Hd. apply in_app_or in Hd. destruct Hd as [Hd|[<-|[]]].
      * rewrite (Hsn d Hd), (Hkeep _ Hsn d Hd). apply Hch, Hd.
      * split; [intros _|intros _; apply in_or_app; right; left; reflexivity]. apply (Hpn (pre ++ [n])); [|exact Cn]. intros d Hd. apply Hsn, Hdeps, Hd.
  - rewrite Eapp in Hc, Hnd |- *. apply IH; [exact Hc|exact Hnd| | |].
    + intros x Hx. apply in_or_app. left. apply Hpre, Hx.
    + intros d Hd. rewrite depth_of_cons. apply in_app_or in Hd. destruct Hd as [Hd|[<-|[]]].
      * rewrite dexpr_eqb_neq by (intros ->; contradiction). apply Hdm, Hd.
      * rewrite dexpr_eqb_refl. split; [exact D1|]. rewrite D4. split; [|tauto]. intros H. split; [exact H|]. intros K. apply Hpre in K. contradiction.
    + intros d Hd. apply in_app_or in Hd. destruct Hd as [Hd|[<-|[]]]; [apply Hch, Hd|].
      split; [intros K; apply Hpre in K; contradiction|]. intros K. apply Hst in K. discriminate.
Qed.

Lemma sub_in root l : closed l -> In root l -> forall n, sub n root -> In n l.
Proof.
  intros Hc Hr n H. revert Hr. induction H as [e|d g e Hg _ IH]; intros Hr; [exact Hr|]. apply IH.
  apply in_split in Hr. destruct Hr as (l1 & l2 & E). rewrite E. apply in_or_app. left. apply (Hc _ _ _ E), Hg.
Qed.
Lemma nodes_sub root n : In n (post_order root []) <-> sub n root.
Proof.
  destruct (post_order_ok root) as [E R]. destruct (E [] closed_nil (NoDup_nil _)) as (c & _ & _ & s). split.
  - intros H. destruct (s n H) as [[]|H']. exact H'.
  - intros H. apply (sub_in root); [exact c|apply R; [apply closed_nil|constructor]|exact H].
Qed.
Lemma selected root n : sub n root -> (In n (select_statements (post_order root [])) <->
  is_named n \/ (used_twice root n /\ exists d, In d (deps n) /\ deps d <> [] /\ ~ In d (select_statements (post_order root [])))).
Proof.
  intros H. destruct (post_order_ok root) as [E R]. destruct (E [] closed_nil (NoDup_nil _)) as (c & nd & _ & _).
  pose proof (select_ok (post_order root []) (post_order root []) [] [] []) as K. cbn [app] in K.
  specialize (K c nd (incl_refl _) ltac:(intros ? []) ltac:(intros ? []) n (proj2 (nodes_sub root n) H)).
  unfold select_statements at 1. etransitivity; [exact K|]. unfold chosen. rewrite (parent_two _ n nd).
  assert (U : (exists p q i j, (p, i) <> (q, j) /\ In p (post_order root []) /\ In q (post_order root []) /\ nth_error (deps p) i = Some n /\ nth_error (deps q) j = Some n) <-> used_twice root n).
  { unfold used_twice. split; intros (p & q & i & j & N & Hp & Hq & Hr); exists p, q, i, j; (split; [exact N|]);
      (split; [apply nodes_sub, Hp|]); (split; [apply nodes_sub, Hq|exact Hr]). }
  rewrite U. reflexivity.
Qed.
