(** Proofs about the validation of forests and the naive evaluation. *)
From Coq Require Import Permutation.
From Verif Require Import Base Forest_Model Forest_Spec.

(** ** Sums. *)
Lemma fold_add {V} (vo : vops V) (ex : exact vo) l a :
  fold_left (vadd vo) l a = vadd vo a (fold_left (vadd vo) l (vzero vo)).
Proof.
  revert a. induction l as [|x l IH]; intros a; cbn [fold_left].
  - rewrite (ex_comm vo ex), (ex_zero vo ex). reflexivity.
  - rewrite IH. rewrite (IH (vadd vo (vzero vo) x)). rewrite (ex_zero vo ex), (ex_assoc vo ex). reflexivity.
Qed.
Lemma sum_of_exact {V} (vo : vops V) l a : exact vo -> sum_of vo l a -> a = fold_left (vadd vo) l (vzero vo).
Proof.
  intros ex H. induction H as [|v|l1 l2 a b H1 IH1 H2 IH2|l a H IH|l l' a P H IH].
  - reflexivity.
  - cbn. rewrite (ex_zero vo ex). reflexivity.
  - rewrite fold_left_app, fold_add by exact ex. congruence.
  - rewrite (ex_rnd vo ex). exact IH.
  - rewrite IH. clear IH H. induction P; cbn [fold_left].
    + reflexivity.
    + rewrite fold_add, (fold_add vo ex l') by exact ex. congruence.
    + f_equal. rewrite !(ex_zero vo ex). apply (ex_comm vo ex).
    + congruence.
Qed.
Lemma sum_of_fold {V} (vo : vops V) l l0 a : sum_of vo l0 a -> sum_of vo (l0 ++ l) (fold_left (vadd vo) l a).
Proof.
  revert l0 a. induction l as [|x l IH]; intros l0 a H; cbn [fold_left].
  - rewrite app_nil_r. exact H.
  - replace (l0 ++ x :: l) with ((l0 ++ [x]) ++ l) by (rewrite <- app_assoc; reflexivity).
    apply IH. apply sum_add; [exact H|apply sum_one].
Qed.

(** ** Validation. *)
Lemma ity_eqb_eq a b : ity_eqb a b = true <-> a = b.
Proof.
  destruct a, b; cbn; split; intros H; try discriminate; try reflexivity; try congruence.
  - apply Nat.eqb_eq in H. congruence.
  - injection H as ->. apply Nat.eqb_refl.
Qed.
Lemma lookup_ty_app i a b : lookup_ty i (a ++ b) = match lookup_ty i a with Some x => Some x | None => lookup_ty i b end.
Proof. induction a as [|[j x] a IH]; cbn; [reflexivity|]. destruct (i =? j); [reflexivity|exact IH]. Qed.
Lemma lookup_ty_In i k req : lookup_ty i req = Some k -> In (i, k) req.
Proof.
  induction req as [|[j x] r IH]; cbn; [discriminate|]. destruct (Nat.eqb_spec i j) as [->|]; intros H.
  - injection H as ->. left. reflexivity.
  - right. apply IH. exact H.
Qed.
(** The required types after some signatures. *)
Definition req_ok (P : nat -> ity -> Prop) (req : list (nat * ity)) : Prop :=
  forall i k, lookup_ty i req = Some k <-> P i k.

Lemma add_sigs_ok sigs : forall (P : nat -> ity -> Prop) req, req_ok P req ->
  match add_sigs sigs req with
  | inr req' => req_ok (fun i k => P i k \/ In (i, k) sigs) req'
  | inl _ => exists i k k', In (i, k) sigs /\ k <> k' /\ (P i k' \/ In (i, k') sigs)
  end.
Proof.
  induction sigs as [|[i ty] r IH]; intros P req H; cbn [add_sigs].
  - intros j k. rewrite (H j k). cbn. tauto.
  - destruct (lookup_ty i req) as [ty'|] eqn:E.
    + destruct (ity_eqb ty' ty) eqn:Q.
      * apply ity_eqb_eq in Q. subst ty'. specialize (IH P req H).
        destruct (add_sigs r req) as [e|req'].
        -- destruct IH as (j & k & k' & A & B & C). exists j, k, k'. cbn. tauto.
        -- intros j k. rewrite (IH j k). cbn. split; [tauto|]. intros [A|[A|A]]; try tauto.
           injection A as <- <-. left. apply H. exact E.
      * exists i, ty, ty'. split; [left; reflexivity|]. split.
        -- intros ->. assert (ity_eqb ty' ty' = true) by (apply ity_eqb_eq; reflexivity). congruence.
        -- left. apply H. exact E.
    + assert (H' : req_ok (fun j k => P j k \/ (j, k) = (i, ty)) (req ++ [(i, ty)])).
      { intros j k. rewrite lookup_ty_app. destruct (lookup_ty j req) as [x|] eqn:F.
        - split.
          + intros A. injection A as ->. left. apply H. exact F.
          + intros [A|A]; [apply H in A; congruence|]. injection A as -> ->. congruence.
        - cbn. destruct (Nat.eqb_spec j i) as [->|N].
          + split; [intros A; injection A as ->; right; reflexivity|].
            intros [A|A]; [apply H in A; congruence|]. injection A as ->. reflexivity.
          + split; [discriminate|]. intros [A|A]; [apply H in A; congruence|]. injection A as -> ->. congruence. }
      specialize (IH _ _ H'). destruct (add_sigs r (req ++ [(i, ty)])) as [e|req'].
      * destruct IH as (j & k & k' & A & B & C). exists j, k, k'. split; [right; exact A|]. split; [exact B|].
        cbn. destruct C as [[C|C]|C]; [tauto| |tauto]. injection C as -> ->. tauto.
      * intros j k. rewrite (IH j k). cbn. split.
        -- intros [[A|A]|A]; [tauto| |tauto]. right; left. congruence.
        -- intros [A|[A|A]]; [tauto| |tauto]. left; right. congruence.
Qed.

Definition conflict (P : nat -> ity -> Prop) : Prop := exists i k k', k <> k' /\ P i k /\ P i k'.
Lemma req_ok_ext P Q req : (forall i k, P i k <-> Q i k) -> req_ok P req -> req_ok Q req.
Proof. intros E H i k. rewrite <- E. apply H. Qed.
Lemma conflict_mono (P Q : nat -> ity -> Prop) : (forall i k, P i k -> Q i k) -> conflict P -> conflict Q.
Proof. intros E (i & k & k' & A & B & C). exists i, k, k'. auto. Qed.

Lemma child_ok_iff {V} (t : tree V) c :
  child_ok t c = true <-> (- Z.of_nat (length (t_adj t)) <= c < Z.of_nat (length (t_nodes t)))%Z \/
                          (0 <= c < Z.of_nat (length (t_nodes t)))%Z \/ (- Z.of_nat (length (t_adj t)) <= c < 0)%Z.
Proof.
  unfold child_ok, is_leaf, adjustment_index. destruct (Z.ltb_spec c 0); rewrite Z.ltb_lt; lia.
Qed.
Definition node_ok {V} (t : tree V) (n : snode) : Prop := child_ok t (n_false n) = true /\ child_ok t (n_true n) = true.

Lemma init_nodes_ok {V} (ot : others) (t : tree V) ns : forall (P : nat -> ity -> Prop) req, req_ok P req ->
  let P' := fun i k => P i k \/ exists n, In n ns /\ In (i, k) (csig ot (n_cond n)) in
  match init_nodes ot t ns req with
  | inr req' => req_ok P' req' /\ (forall n, In n ns -> node_ok t n)
  | inl _ => (exists n, In n ns /\ ~ node_ok t n) \/ conflict P'
  end.
Proof.
  induction ns as [|n r IH]; intros P req H P'; cbn [init_nodes].
  - split; [|intros n []]. eapply req_ok_ext; [|exact H]. intros i k. unfold P'. split; [tauto|].
    intros [A|(n & [] & _)]. exact A.
  - destruct (child_ok t (n_false n) && child_ok t (n_true n)) eqn:E.
    + apply andb_true_iff in E. pose proof (add_sigs_ok (csig ot (n_cond n)) P req H) as A.
      destruct (add_sigs (csig ot (n_cond n)) req) as [e|req1].
      * right. destruct A as (i & k & k' & A & B & C). exists i, k, k'. split; [exact B|]. unfold P'. split.
        -- right. exists n. split; [left; reflexivity|exact A].
        -- destruct C as [C|C]; [left; exact C|]. right. exists n. split; [left; reflexivity|exact C].
      * specialize (IH _ _ A). cbv zeta in IH. destruct (init_nodes ot t r req1) as [e|req2].
        -- destruct IH as [(m & M & N)|C]; [left; exists m; split; [right; exact M|exact N]|]. right.
           eapply conflict_mono; [|exact C]. intros i k. unfold P'. intros [[X|X]|(m & M & X)]; [tauto| |].
           ++ right. exists n. split; [left; reflexivity|exact X].
           ++ right. exists m. split; [right; exact M|exact X].
        -- destruct IH as [I1 I2]. split.
           ++ eapply req_ok_ext; [|exact I1]. intros i k. unfold P'. split.
              ** intros [[X|X]|(m & M & X)]; [tauto| |].
                 --- right. exists n. split; [left; reflexivity|exact X].
                 --- right. exists m. split; [right; exact M|exact X].
              ** intros [X|(m & [M|M] & X)]; [tauto| |]; [subst m; tauto|]. right. exists m. tauto.
           ++ intros m [M|M]; [subst m; exact E|]. apply I2. exact M.
    + left. exists n. split; [left; reflexivity|]. intros [A B]. rewrite A, B in E. discriminate.
Qed.

Definition shape_ok {V} (t : tree V) : Prop :=
  (0 <= t_sub t)%Z /\ (0 <= t_step t)%Z /\ length (t_adj t) = S (length (t_nodes t)) /\
  forall n, In n (t_nodes t) -> node_ok t n.
Lemma init_trees_ok {V} (ot : others) (ts : list (tree V)) : forall (P : nat -> ity -> Prop) req, req_ok P req ->
  let P' := fun i k => P i k \/ uses ot ts i k in
  match init_trees ot ts req with
  | inr req' => req_ok P' req' /\ (forall t, In t ts -> shape_ok t)
  | inl _ => (exists t, In t ts /\ ~ shape_ok t) \/ conflict P'
  end.
Proof.
  induction ts as [|t r IH]; intros P req H P'; cbn [init_trees].
  - split; [|intros t []]. eapply req_ok_ext; [|exact H]. intros i k. unfold P'. split; [tauto|].
    intros [A|(t & n & [] & _)]. exact A.
  - unfold init_tree.
    destruct (Z.ltb_spec (t_sub t) 0); [left; exists t; split; [left; reflexivity|]; intros (A & _); lia|].
    destruct (Z.ltb_spec (t_step t) 0); [left; exists t; split; [left; reflexivity|]; intros (_ & A & _); lia|].
    destruct (Nat.eqb_spec (length (t_nodes t) + 1) (length (t_adj t))) as [L|L]; cbn [negb];
      [|left; exists t; split; [left; reflexivity|]; intros (_ & _ & A & _); lia].
    pose proof (init_nodes_ok ot t (t_nodes t) P req H) as A. cbv zeta in A.
    assert (U : forall i k, P' i k <-> (P i k \/ (exists n, In n (t_nodes t) /\ In (i, k) (csig ot (n_cond n)))) \/ uses ot r i k).
    { intros i k. unfold P', uses. split.
      - intros [X|(u & n & [M|M] & N & X)]; [tauto| |].
        + subst u. left; right. exists n. tauto.
        + right. exists u, n. tauto.
      - intros [[X|(n & N & X)]|(u & n & M & N & X)]; [tauto| |]; right.
        + exists t, n. cbn. tauto.
        + exists u, n. cbn. tauto. }
    destruct (init_nodes ot t (t_nodes t) req) as [e|req1].
    + destruct A as [(n & N & B)|A].
      * left. exists t. split; [left; reflexivity|]. intros (_ & _ & _ & C). apply B, C, N.
      * right. eapply conflict_mono; [|exact A]. intros i k X. apply U. left. exact X.
    + destruct A as [A1 A2]. specialize (IH _ _ A1). cbv zeta in IH. destruct (init_trees ot r req1) as [e|req2].
      * destruct IH as [(u & M & N)|C]; [left; exists u; split; [right; exact M|exact N]|]. right.
        eapply conflict_mono; [|exact C]. intros i k X. apply U. exact X.
      * destruct IH as [I1 I2]. split.
        -- eapply req_ok_ext; [|exact I1]. intros i k. symmetry. apply U.
        -- intros u [M|M]; [subst u; repeat split; try lia; apply A2; assumption|]. apply I2. exact M.
Qed.

Lemma children_In ns c : In c (children ns) <-> exists n, In n ns /\ (c = n_false n \/ c = n_true n).
Proof.
  unfold children. rewrite in_flat_map. split; intros (n & N & C); exists n; (split; [exact N|]); cbn in *; intuition congruence.
Qed.
Lemma shape_children {V} (t : tree V) : length (t_adj t) = S (length (t_nodes t)) ->
  (forall n, In n (t_nodes t) -> node_ok t n) <->
  (forall c, In c (children (t_nodes t)) -> (- Z.of_nat (length (t_adj t)) <= c < Z.of_nat (length (t_nodes t)))%Z).
Proof.
  intros L. split.
  - intros H c C. apply children_In in C. destruct C as (n & N & [-> | ->]); destruct (H n N) as [A B].
    + apply child_ok_iff in A. lia.
    + apply child_ok_iff in B. lia.
  - intros H n N. split; apply child_ok_iff; left; apply H; apply children_In; exists n; tauto.
Qed.

Lemma from_trees_ok {V} (ot : others) (ts : list (tree V)) :
  match from_trees ot ts with
  | inr req => req_ok (uses ot ts) req /\ (forall t, In t ts -> shape_ok t)
  | inl _ => (exists t, In t ts /\ ~ shape_ok t) \/ conflict (uses ot ts)
  end.
Proof.
  pose proof (init_trees_ok ot ts (fun _ _ => False) []) as H. cbv zeta in H. unfold from_trees.
  destruct (init_trees ot ts []) as [e|req].
  - destruct H as [H|H]; [intros i k; cbn; split; [discriminate|tauto]|tauto|]. right.
    eapply conflict_mono; [|exact H]. cbn. intros i k [[]|X]; exact X.
  - destruct H as [H1 H2]; [intros i k; cbn; split; [discriminate|tauto]|]. split; [|exact H2].
    eapply req_ok_ext; [|exact H1]. cbn. tauto.
Qed.
Lemma from_trees_iff {V} (ot : others) (ts : list (tree V)) :
  (exists req, from_trees ot ts = inr req) <-> exists ty, forall t, In t ts -> valid_tree ot ty t.
Proof.
  pose proof (from_trees_ok ot ts) as H. split.
  - intros [req E]. rewrite E in H. destruct H as [H1 H2].
    exists (fun i => match lookup_ty i req with Some k => k | None => TF32 end). intros t T.
    destruct (H2 t T) as (A & B & C & D). repeat split; try assumption.
    + apply (shape_children t C); assumption.
    + apply (shape_children t C); assumption.
    + intros n i k N S. assert (U : uses ot ts i k) by (exists t, n; tauto). apply H1 in U. rewrite U. reflexivity.
  - intros [ty H0]. destruct (from_trees ot ts) as [e|req]; [exfalso|eauto].
    destruct H as [(t & T & H)|(i & k & k' & N & (t & n & T & M & S) & (t' & n' & T' & M' & S'))].
    + apply H. destruct (H0 t T) as (A & B & C & D & E). split; [exact A|]. split; [exact B|]. split; [exact C|].
      apply (shape_children t C). exact D.
    + destruct (H0 t T) as (_ & _ & _ & _ & E). destruct (H0 t' T') as (_ & _ & _ & _ & E').
      apply N. rewrite <- (E n i k M S). apply (E' n' i k' M' S').
Qed.

(** ** The walk. *)
Lemma zrd_nat {A} (l : list A) k : zrd l (Z.of_nat k) = nth_error l k.
Proof. unfold zrd. destruct (Z.ltb_spec (Z.of_nat k) 0); [lia|]. rewrite Nat2Z.id. reflexivity. Qed.
Lemma zrd_lt {A} (l : list A) i : (0 <= i < Z.of_nat (length l))%Z -> exists x, zrd l i = Some x /\ In x l.
Proof.
  intros H. unfold zrd. destruct (Z.ltb_spec i 0); [lia|]. destruct (rd_lt l (Z.to_nat i)) as [x E]; [lia|].
  exists x. split; [exact E|]. eapply nth_error_In. exact E.
Qed.
Lemma root_is_tree {V} (t : tree V) d : is_tree t d <-> unfolds (t_nodes t) (root t) d.
Proof. unfold is_tree, root, adjustment_id. destruct (t_nodes t); reflexivity. Qed.

Definition id_ok {V} (t : tree V) (id : Z) : Prop := (- Z.of_nat (length (t_adj t)) <= id < Z.of_nat (length (t_nodes t)))%Z.
Lemma root_ok {V} (t : tree V) : shape_ok t -> id_ok t (root t).
Proof.
  intros (_ & _ & L & _). unfold id_ok, root, adjustment_id. destruct (t_nodes t) eqn:E; cbn [length] in *; lia.
Qed.
Lemma node_children_ok {V} (t : tree V) n b : shape_ok t -> In n (t_nodes t) -> id_ok t (if b : bool then n_true n else n_false n).
Proof.
  intros (_ & _ & L & H) N. destruct (H n N) as [A B]. unfold id_ok.
  destruct b; [apply child_ok_iff in B|apply child_ok_iff in A]; lia.
Qed.
Lemma walk_safe {V} ot fr (t : tree V) fuel : shape_ok t -> forall id, id_ok t id ->
  match walk ot fr t fuel id with Done i => (0 <= i < Z.of_nat (length (t_adj t)))%Z | OutOfFuel => True | OutOfBounds => False end.
Proof.
  intros S. induction fuel as [|k IH]; intros id I; cbn [walk]; unfold is_leaf; destruct (Z.ltb_spec id 0); unfold id_ok in I.
  1,3: unfold adjustment_index; lia.
  - exact Logic.I.
  - destruct (zrd_lt (t_nodes t) id) as (n & E & N); [lia|]. rewrite E. apply IH. apply node_children_ok; assumption.
Qed.
Lemma naive_safe {V} (vo : vops V) ot fr fuel f (ts : list (tree V)) :
  (forall t, In t ts -> shape_ok t) -> naive vo ot fr fuel f ts <> OutOfBounds.
Proof.
  intros H. unfold naive. enough (forall a, naive_sum vo ot fr fuel f ts a <> OutOfBounds) as E.
  { specialize (E (vzero vo)). destruct (naive_sum vo ot fr fuel f ts (vzero vo)); congruence. }
  induction ts as [|t r IH]; intros a; cbn [naive_sum]; [discriminate|].
  destruct (selects f t); [|apply IH; intros u U; apply H; right; exact U].
  unfold naive_tree. pose proof (walk_safe ot fr t fuel (H t (or_introl eq_refl)) (root t) (root_ok t (H t (or_introl eq_refl)))) as W.
  destruct (walk ot fr t fuel (root t)) as [i| |]; [|discriminate|contradiction].
  destruct (zrd_lt (t_adj t) i W) as (x & E & _). rewrite E. apply IH. intros u U. apply H. right. exact U.
Qed.

Lemma walk_unfolds {V} ot fr (t : tree V) id d : unfolds (t_nodes t) id d ->
  forall fuel, height d <= fuel -> walk ot fr t fuel id = Done (Z.of_nat (deval ot fr d)).
Proof.
  intros U. induction U as [id L|k n f d E U1 IH1 U2 IH2]; intros fuel F.
  - destruct fuel; cbn [walk]; unfold is_leaf; destruct (Z.ltb_spec id 0); try lia; cbn [deval];
      unfold adjustment_index; f_equal; lia.
  - cbn [height] in F. destruct fuel as [|fuel]; [lia|]. cbn [walk]. unfold is_leaf.
    destruct (Z.ltb_spec (Z.of_nat k) 0); [lia|]. rewrite zrd_nat, E. cbn [deval].
    destruct (ceval ot fr (n_cond n)); [apply IH2|apply IH1]; lia.
Qed.
Lemma unfolds_leaves {V} (t : tree V) id d : shape_ok t -> unfolds (t_nodes t) id d -> id_ok t id ->
  forall i, In i (leaves d) -> i < length (t_adj t).
Proof.
  intros S U. induction U as [id L|k n f d E U1 IH1 U2 IH2]; intros I i; cbn [leaves].
  - unfold id_ok in I. intros [<-|[]]. lia.
  - apply nth_error_In in E. rewrite in_app_iff. intros [X|X].
    + apply IH1; [exact (node_children_ok t n false S E)|exact X].
    + apply IH2; [exact (node_children_ok t n true S E)|exact X].
Qed.
Lemma deval_leaves ot fr d : In (deval ot fr d) (leaves d).
Proof. induction d as [i|c f IHf t IHt]; cbn; [tauto|]. apply in_app_iff. destruct (ceval ot fr c); tauto. Qed.
Lemma tree_value_some {V} (vo : vops V) ot fr (t : tree V) d : shape_ok t -> is_tree t d ->
  exists v, tree_value vo ot fr t d = Some v.
Proof.
  intros S U. apply root_is_tree in U. unfold tree_value.
  pose proof (unfolds_leaves t _ d S U (root_ok t S) _ (deval_leaves ot fr d)) as L.
  destruct (rd_lt (t_adj t) _ L) as [x E]. unfold rd in E. rewrite E. cbn. eauto.
Qed.
Lemma values_some {V} (vo : vops V) ot fr f (ts : list (tree V)) :
  (forall t, In t ts -> shape_ok t) -> (forall t, In t ts -> exists d, is_tree t d) -> exists vs, values vo ot fr f ts vs.
Proof.
  induction ts as [|t r IH]; intros S D; [exists []; constructor|].
  destruct IH as [vs IH]; [intros; apply S; right; assumption|intros; apply D; right; assumption|].
  destruct (selects f t) eqn:E.
  - destruct (D t (or_introl eq_refl)) as [d U]. destruct (tree_value_some vo ot fr t d (S t (or_introl eq_refl)) U) as [v T].
    exists (v :: vs). eapply vals_take; eassumption.
  - exists vs. apply vals_skip; assumption.
Qed.
(** A fuel that is enough for all trees. *)
Lemma enough_fuel {V} (ts : list (tree V)) : (forall t, In t ts -> exists d, is_tree t d) ->
  exists k, forall t d, In t ts -> is_tree t d -> height d <= k.
Proof.
  assert (Uniq : forall ns id d, unfolds ns id d -> forall d', unfolds ns id d' -> d = d').
  { intros ns id d U. induction U as [id L|k n f d E U1 IH1 U2 IH2]; intros d' U'; inversion U'; subst; try lia.
    - reflexivity.
    - match goal with H : Z.of_nat _ = Z.of_nat _ |- _ => apply Nat2Z.inj in H; subst end.
      match goal with H : nth_error ns k = Some ?m |- _ => assert (m = n) by congruence; subst m end.
      f_equal; auto. }
  induction ts as [|t r IH]; intros D; [exists 0; intros t d []|].
  destruct IH as [k IH]; [intros; apply D; right; assumption|].
  destruct (D t (or_introl eq_refl)) as [d U]. exists (Nat.max k (height d)). intros u e [<-|I] E.
  - rewrite (Uniq _ _ _ E _ U). lia.
  - specialize (IH u e I E). lia.
Qed.
Lemma naive_sum_values {V} (vo : vops V) ot fr f (ts : list (tree V)) vs fuel : values vo ot fr f ts vs ->
  (forall t d, In t ts -> is_tree t d -> height d <= fuel) ->
  forall a, naive_sum vo ot fr fuel f ts a = Done (fold_left (vadd vo) vs a).
Proof.
  intros H. induction H as [|t ts vs Sel H IH|t ts vs d v Sel D T H IH]; intros F a; cbn [naive_sum fold_left].
  - reflexivity.
  - rewrite Sel. apply IH. intros; eapply F; [right|]; eassumption.
  - rewrite Sel. unfold naive_tree.
    pose proof (proj1 (root_is_tree t d) D) as U.
    rewrite (walk_unfolds ot fr t _ d U fuel (F t d (or_introl eq_refl) D)), zrd_nat.
    unfold tree_value in T. destruct (nth_error (t_adj t) (deval ot fr d)) as [x|]; cbn in T; [|discriminate].
    injection T as ->. apply IH. intros; eapply F; [right|]; eassumption.
Qed.

(** ** Trees in which no node is a child twice are finite. *)
Section reach.
Variable ns : list snode.
Hypothesis Range : forall c, In c (children ns) -> (c < Z.of_nat (length ns))%Z.
Hypothesis Once : NoDup (split_children ns).
Hypothesis NoRoot : ~ In 0%Z (children ns).

Inductive reach : nat -> nat -> Prop :=
| reach_root : reach 0 0
| reach_child l k n c : reach l k -> nth_error ns k = Some n -> c = n_false n \/ c = n_true n -> (0 <= c)%Z ->
    reach (S l) (Z.to_nat c).

Lemma parent_unique k k' n n' c : nth_error ns k = Some n -> nth_error ns k' = Some n' ->
  (c = n_false n \/ c = n_true n) -> (c = n_false n' \/ c = n_true n') -> (0 <= c)%Z -> k = k'.
Proof.
  intros E E' C C' P. revert k k' E E' Once. unfold split_children. clear Range NoRoot. induction ns as [|m r IH]; intros k k' E E' O.
  - destruct k; discriminate.
  - assert (In1 : forall k x, nth_error r k = Some x -> c = n_false x \/ c = n_true x -> In c (filter (fun c => (0 <=? c)%Z) (children r))).
    { intros j x X Y. apply filter_In. split; [|lia]. apply children_In. exists x. split; [eapply nth_error_In; exact X|exact Y]. }
    change (children (m :: r)) with (n_false m :: n_true m :: children r) in O. cbn [filter] in O.
    assert (NM : c = n_false m \/ c = n_true m -> ~ In c (filter (fun c => (0 <=? c)%Z) (children r))).
    { intros [-> | ->] I.
      - destruct (Z.leb_spec 0 (n_false m)); [|lia]. inversion O as [|? ? A B]; subst. apply A.
        destruct (0 <=? n_true m)%Z; [right|]; exact I.
      - destruct (Z.leb_spec 0 (n_true m)); [|lia]. destruct (0 <=? n_false m)%Z.
        + inversion O as [|? ? A B]; subst. inversion B; subst. contradiction.
        + inversion O; subst. contradiction. }
    assert (O' : NoDup (filter (fun c => (0 <=? c)%Z) (children r))).
    { destruct (0 <=? n_false m)%Z, (0 <=? n_true m)%Z; repeat match goal with H : NoDup (_ :: _) |- _ => inversion H; clear H; subst end; assumption. }
    destruct k as [|k], k' as [|k']; cbn [nth_error] in E, E'.
    + reflexivity.
    + injection E as ->. exfalso. apply (NM C). eapply In1; eassumption.
    + injection E' as ->. exfalso. apply (NM C'). eapply In1; eassumption.
    + f_equal. apply IH; assumption.
Qed.
Lemma reach_level l k : reach l k -> forall l', reach l' k -> l = l'.
Proof.
  intros R. induction R as [|l k n c R IH E C P]; intros l' R'.
  - inversion R' as [|l1 k1 n1 c1 R1 E1 C1 P1 A B]; [reflexivity|]. exfalso. apply NoRoot.
    assert (c1 = 0%Z) by lia. subst c1. apply children_In. exists n1. split; [eapply nth_error_In; exact E1|]. intuition.
  - inversion R' as [A B|l1 k1 n1 c1 R1 E1 C1 P1 A B].
    + exfalso. apply NoRoot. assert (c = 0%Z) by lia. subst c. apply children_In. exists n. split; [eapply nth_error_In; exact E|]. intuition.
    + assert (c1 = c) by lia. subst c1. assert (k = k1) by (eapply parent_unique; eassumption). subst k1. f_equal. apply IH. exact R1.
Qed.
(** The nodes on the way to a node. *)
Lemma reach_path l k : reach l k -> k < length ns -> exists p : list nat, length p = S l /\ NoDup p /\ (forall x, In x p -> x < length ns) /\
  forall x, In x p -> exists j, j <= l /\ reach j x.
Proof.
  intros R. induction R as [|l k n c R IH E C P]; intros L.
  - exists [0]. split; [reflexivity|]. split; [repeat constructor; intros []|]. split.
    + intros x [<-|[]]. exact L.
    + intros x [<-|[]]. exists 0. split; [lia|constructor].
  - destruct IH as (p & A & B & D & F); [apply nth_error_Some; congruence|].
    exists (Z.to_nat c :: p). split; [cbn; lia|]. split; [|split].
    + constructor; [|exact B]. intros I. destruct (F _ I) as (j & J & Rj).
      assert (S l = j); [|lia]. eapply reach_level; [|exact Rj]. econstructor; eassumption.
    + intros x [<-|I]; [exact L|]. apply D. exact I.
    + intros x [<-|I].
      * exists (S l). split; [lia|]. econstructor; eassumption.
      * destruct (F _ I) as (j & J & Rj). exists j. split; [lia|exact Rj].
Qed.
Lemma reach_bound l k : reach l k -> k < length ns -> l < length ns.
Proof.
  intros R L. destruct (reach_path l k R L) as (p & A & B & C & _).
  assert (length p <= length (seq 0 (length ns))) as X.
  { apply NoDup_incl_length; [exact B|]. intros x I. apply in_seq. specialize (C x I). lia. }
  rewrite seq_length in X. lia.
Qed.
Lemma finite_from m : forall l k, reach l k -> k < length ns -> length ns - l <= m -> exists d, unfolds ns (Z.of_nat k) d.
Proof.
  induction m as [|m IH]; intros l k R L M.
  - pose proof (reach_bound l k R L). lia.
  - destruct (rd_lt ns k L) as [n E]. unfold rd in E.
    assert (Ch : forall c, c = n_false n \/ c = n_true n -> exists d, unfolds ns c d).
    { intros c C. destruct (Z.ltb_spec c 0) as [N|N]; [eexists; apply unf_leaf; exact N|].
      assert (I : In c (children ns)) by (apply children_In; exists n; split; [eapply nth_error_In; exact E|exact C]).
      specialize (Range c I). assert (R' : reach (S l) (Z.to_nat c)) by (econstructor; eassumption).
      destruct (IH (S l) (Z.to_nat c) R') as [d D]; [lia|lia|]. exists d. rewrite Z2Nat.id in D by lia. exact D. }
    destruct (Ch (n_false n)) as [f F]; [tauto|]. destruct (Ch (n_true n)) as [t T]; [tauto|].
    exists (DNode (n_cond n) f t). eapply unf_split; eassumption.
Qed.
End reach.

Lemma finite_tree {V} (t : tree V) :
  (forall c, In c (children (t_nodes t)) -> (c < Z.of_nat (length (t_nodes t)))%Z) ->
  NoDup (split_children (t_nodes t)) -> ~ In 0%Z (children (t_nodes t)) -> exists d, is_tree t d.
Proof.
  intros R O N. unfold is_tree. destruct (t_nodes t) as [|n r] eqn:E; [eexists; apply unf_leaf; lia|].
  change 0%Z with (Z.of_nat 0). eapply (finite_from (n :: r) R O N _ 0 0); [constructor|cbn; lia|reflexivity].
Qed.

(** ** The map of required types has one entry for an input. *)
Definition functional (req : list (nat * ity)) : Prop := forall i k, In (i, k) req -> lookup_ty i req = Some k.
Lemma add_sigs_functional sigs : forall req req', functional req -> add_sigs sigs req = inr req' -> functional req'.
Proof.
  induction sigs as [|[i ty] r IH]; intros req req' F H; cbn [add_sigs] in H; [injection H as <-; exact F|].
  destruct (lookup_ty i req) as [ty'|] eqn:E.
  - destruct (ity_eqb ty' ty); [eapply IH; eassumption|discriminate].
  - eapply IH; [|exact H]. intros j k. rewrite in_app_iff, lookup_ty_app. intros [A|[A|[]]].
    + rewrite (F j k A). reflexivity.
    + injection A as <- <-. rewrite E. cbn. rewrite Nat.eqb_refl. reflexivity.
Qed.
Lemma init_nodes_functional {V} ot (t : tree V) ns : forall req req', functional req -> init_nodes ot t ns req = inr req' -> functional req'.
Proof.
  induction ns as [|n r IH]; intros req req' F H; cbn [init_nodes] in H; [injection H as <-; exact F|].
  destruct (child_ok t (n_false n) && child_ok t (n_true n)); [|discriminate].
  destruct (add_sigs (csig ot (n_cond n)) req) as [e|req1] eqn:E; [discriminate|].
  eapply IH; [|exact H]. eapply add_sigs_functional; eassumption.
Qed.
Lemma init_trees_functional {V} ot (ts : list (tree V)) : forall req req', functional req -> init_trees ot ts req = inr req' -> functional req'.
Proof.
  induction ts as [|t r IH]; intros req req' F H; cbn [init_trees] in H; [injection H as <-; exact F|].
  destruct (init_tree ot t req) as [e|req1] eqn:E; [discriminate|]. eapply IH; [|exact H].
  unfold init_tree in E. destruct (t_sub t <? 0)%Z; [discriminate|]. destruct (t_step t <? 0)%Z; [discriminate|].
  destruct (negb _); [discriminate|]. eapply init_nodes_functional; eassumption.
Qed.
Lemma validate_slots_iff {V} ot (ts : list (tree V)) req slots : from_trees ot ts = inr req ->
  (validate_slots req slots = true <-> forall i k, uses ot ts i k -> nth_error slots i = Some k).
Proof.
  intros E. pose proof (from_trees_ok ot ts) as H. rewrite E in H. destruct H as [H _].
  assert (F : functional req) by (eapply init_trees_functional; [|exact E]; intros i k []).
  unfold validate_slots. rewrite forallb_forall. split.
  - intros A i k U. apply H in U. apply lookup_ty_In in U. specialize (A _ U). cbn [fst snd] in A. unfold rd in A.
    destruct (nth_error slots i); [|discriminate]. apply ity_eqb_eq in A. congruence.
  - intros A [i k] I. cbn [fst snd]. apply F in I. apply H in I. unfold rd. rewrite (A i k I). apply ity_eqb_eq. reflexivity.
Qed.
