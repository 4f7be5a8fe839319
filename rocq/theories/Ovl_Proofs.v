(** Proofs about implicit casting and overloads. *)
From Coq Require Import Relations Permutation.
From Verif Require Import Base Ovl_Model Ovl_Spec.

Lemma qt_eqb_eq a b : qt_eqb a b = true <-> a = b.
Proof. unfold qt_eqb. destruct (qt_eq_dec a b); intuition congruence. Qed.
Lemma qt_eqb_refl a : qt_eqb a a = true.
Proof. apply qt_eqb_eq. reflexivity. Qed.
Lemma qt_eqb_neq a b : qt_eqb a b = false <-> a <> b.
Proof. unfold qt_eqb. destruct (qt_eq_dec a b); intuition congruence. Qed.

(** ** Scalars *)
Definition sleb (a b : scal) : bool :=
  match a, b with
  | I32, (I32 | I64 | F32 | F64) | I64, (I64 | F32 | F64) | F32, (F32 | F64) | F64, F64 | Weak, (Weak | F32 | F64) => true
  | Unit, Unit | Bool, Bool | U64, U64 | Bytes, Bytes | Text, Text => true
  | _, _ => false
  end.
Lemma scalar_le_iff u v : scalar_le u v <-> u = v \/ exists a b, u = QScal a /\ v = QScal b /\ sleb a b = true.
Proof.
  split.
  - intros H. induction H as [u v []|u|u v w _ [->|(a & b & -> & -> & E1)] _ [<-|(c & d & E & -> & E2)]]; try (right; do 2 eexists; repeat split; reflexivity); auto.
    + right. eauto.
    + right. eauto.
    + injection E as ->. right. exists a, d. split; [reflexivity|]. split; [reflexivity|]. destruct a, c; try discriminate; destruct d; try discriminate; reflexivity.
  - intros [->|(a & b & -> & -> & E)]; [apply rt_refl|].
    assert (A : scalar_le (QScal I32) (QScal I64)) by (apply rt_step; constructor).
    assert (B : scalar_le (QScal I64) (QScal F32)) by (apply rt_step; constructor).
    assert (C : scalar_le (QScal F32) (QScal F64)) by (apply rt_step; constructor).
    assert (D : scalar_le (QScal Weak) (QScal F32)) by (apply rt_step; constructor).
    unfold scalar_le in *.
    destruct a, b; try discriminate; try apply rt_refl; try assumption; eauto using rt_trans.
Qed.
Lemma sleb_refl a : sleb a a = true.
Proof. destruct a; reflexivity. Qed.
Lemma scal_le a b : sleb a b = true -> scalar_le (QScal a) (QScal b).
Proof. intros H. apply scalar_le_iff. right. eauto. Qed.
Lemma scal_le_inv a x : scalar_le (QScal a) x -> exists d, x = QScal d /\ sleb a d = true.
Proof. rewrite scalar_le_iff. intros [<-|(? & d & E & -> & L)]; [eauto using sleb_refl|]. injection E as ->. eauto. Qed.
Lemma common_scalar_bool a c : QScal a <> QScal c -> 
  match common_scalar (QScal a) (QScal c) with
  | Some w => exists m, w = QScal m /\ In m [I32; I64; F32; F64] /\ sleb a m = true /\ sleb c m = true /\ forall d, sleb a d = true -> sleb c d = true -> sleb m d = true
  | None => forall d, sleb a d = true -> sleb c d = true -> False
  end.
Proof.
  intros N. destruct a, c; try congruence; vm_compute;
    (lazymatch goal with
     | |- exists m, _ => eexists; split; [reflexivity|]; split; [auto 6|]; split; [reflexivity|]; split; [reflexivity|]
     | |- _ => idtac
     end); intros d; destruct d; congruence.
Qed.
Lemma common_scalar_spec u v : 
  match common_scalar u v with
  | Some w => scalar_le u w /\ scalar_le v w /\ (forall x, scalar_le u x -> scalar_le v x -> scalar_le w x) /\
              (u = v /\ w = u \/ exists s, w = QScal s /\ In s [I32; I64; F32; F64])
  | None => forall x, ~ (scalar_le u x /\ scalar_le v x)
  end.
Proof.
  unfold common_scalar. destruct (qt_eqb u v) eqn:E.
  - apply qt_eqb_eq in E. subst v. split; [apply rt_refl|]. split; [apply rt_refl|]. auto.
  - apply qt_eqb_neq in E.
    assert (Hu : (exists a, u = QScal a) \/ forall a, u <> QScal a) by (destruct u; eauto; right; intros ?; discriminate).
    assert (Hv : (exists a, v = QScal a) \/ forall a, v <> QScal a) by (destruct v; eauto; right; intros ?; discriminate).
    destruct Hu as [(a & ->)|Hu]; [destruct Hv as [(c & ->)|Hv]|].
    + pose proof (common_scalar_bool a c E) as B. unfold common_scalar in B. rewrite (proj2 (qt_eqb_neq _ _) E) in B. cbv zeta in B |- *.
      destruct (if negb _ && _ then rd numeric _ else None) as [w|].
      * destruct B as (m & -> & Im & B1 & B2 & B3). split; [apply scal_le; exact B1|]. split; [apply scal_le; exact B2|]. split; [|eauto].
        intros x K1 K2. destruct (scal_le_inv _ _ K1) as (d & -> & L1). destruct (scal_le_inv _ _ K2) as (d' & Ed & L2). injection Ed as <-.
        apply scal_le. auto.
      * intros x [K1 K2]. destruct (scal_le_inv _ _ K1) as (d & -> & L1). destruct (scal_le_inv _ _ K2) as (d' & Ed & L2). injection Ed as <-.
        exact (B d L1 L2).
    + replace (find_pos numeric (if qt_eqb v (QScal Weak) then QScal F32 else v)) with (length numeric).
      2:{ destruct v; try reflexivity. destruct (Hv s eq_refl). }
      rewrite Nat.eqb_refl, andb_false_r. intros x [K1 K2]. apply scalar_le_iff in K2. destruct K2 as [<-|(? & ? & -> & _)]; [|destruct (Hv _ eq_refl)].
      apply scalar_le_iff in K1. destruct K1 as [K1|(? & ? & _ & -> & _)]; [congruence|destruct (Hv _ eq_refl)].
    + replace (find_pos numeric (if qt_eqb u (QScal Weak) then QScal F32 else u)) with (length numeric).
      2:{ destruct u; try reflexivity. destruct (Hu s eq_refl). }
      rewrite Nat.eqb_refl. intros x [K1 K2]. apply scalar_le_iff in K1. destruct K1 as [<-|(? & ? & -> & _)]; [|destruct (Hu _ eq_refl)].
      apply scalar_le_iff in K2. destruct K2 as [K2|(? & ? & _ & -> & _)]; [congruence|destruct (Hu _ eq_refl)].
Qed.
Lemma scalar_le_trans u v w : scalar_le u v -> scalar_le v w -> scalar_le u w.
Proof. apply rt_trans. Qed.
Lemma scalar_le_refl u : scalar_le u u.
Proof. apply rt_refl. Qed.
Lemma scalar_le_antisym u v : scalar_le u v -> scalar_le v u -> u = v.
Proof.
  rewrite !scalar_le_iff. intros [->|(a & b & -> & -> & L)] [K|(c & d & E & E' & K)]; auto.
  injection E as ->. injection E' as ->. destruct c, d; congruence || discriminate.
Qed.

(** ** Shapes *)
Lemma oshape_eqb_eq a b : oshape_eqb a b = true <-> a = b.
Proof. destruct a as [a|], b as [b|]; cbn; try (destruct (shape_eq_dec a b)); intuition congruence. Qed.
Lemma shape_le_trans b x y z : shape_le b x y -> shape_le b y z -> shape_le b x z.
Proof.
  intros H K. inversion H; subst; auto; inversion K; subst; auto; try (constructor; auto; fail); intuition discriminate.
Qed.
Lemma shape_le_antisym b x y : shape_le b x y -> shape_le b y x -> x = y.
Proof. intros H K. inversion H; subst; auto; inversion K; subst; auto. destruct H1; subst; discriminate. Qed.
Lemma common_shape_spec b x y :
  match common_shape (Some x) (Some y) b with
  | Some z => shape_le b x z /\ shape_le b y z /\ (forall w, shape_le b x w -> shape_le b y w -> shape_le b z w) /\ (z = x \/ z = y)
  | None => forall w, ~ (shape_le b x w /\ shape_le b y w)
  end.
Proof.
  unfold common_shape, oshape_eqb. destruct (shape_eq_dec x y) as [->|N]; [repeat split; auto; constructor|].
  destruct b; destruct x as [| |k], y as [| |k']; try congruence; cbn;
    (lazymatch goal with
     | |- forall w, ~ _ => intros w [H K]; inversion H; inversion K; subst; try congruence; intuition discriminate
     | |- _ => split; [constructor; auto|]; split; [constructor; auto|]; split; [|auto]; intros w H K; assumption
     end).
Qed.
Lemma common_shape_none_l b s : common_shape None s b = None.
Proof. destruct s as [[| |k]|], b; reflexivity. Qed.
Lemma common_shape_none_r b s : common_shape s None b = None.
Proof. destruct s as [[| |k]|], b; reflexivity. Qed.

(** ** Types *)
Lemma parts_get q sh v : parts q sh v -> get_scalar q = Some v /\ get_shape q = Some sh.
Proof. intros []; split; reflexivity. Qed.
Lemma get_parts q sh v : get_scalar q = Some v -> get_shape q = Some sh -> parts q sh v.
Proof. destruct q; cbn; intros A B; try discriminate; injection A as <-; injection B as <-; constructor. Qed.
Lemma parts_fun q sh v sh' v' : parts q sh v -> parts q sh' v' -> sh = sh' /\ v = v'.
Proof. intros H K. destruct (parts_get _ _ _ H), (parts_get _ _ _ K). split; congruence. Qed.
Lemma parts_inj q q' sh v : parts q sh v -> parts q' sh v -> q = q'.
Proof. intros H K. inversion H; subst; inversion K; subst; auto. Qed.
Lemma shape_parts q sh : get_shape q = Some sh -> exists v, parts q sh v.
Proof. destruct q; cbn; intros A; try discriminate; injection A as <-; eexists; constructor. Qed.

Lemma casts_refl b x : casts b x x.
Proof. left. reflexivity. Qed.
Lemma casts_parts b x y sh v : casts b x y -> parts x sh v -> exists sh' v', parts y sh' v' /\ scalar_le v v' /\ shape_le b sh sh'.
Proof.
  intros [<-|(s & u & s' & u' & P & P' & L & L')] Q.
  - exists sh, v. split; [exact Q|]. split; [apply rt_refl|constructor].
  - destruct (parts_fun _ _ _ _ _ P Q) as [<- <-]. eauto.
Qed.
Lemma casts_trans b x y z : casts b x y -> casts b y z -> casts b x z.
Proof.
  intros [<-|(s & u & s' & u' & P & P' & L & L')] K; [exact K|].
  destruct (casts_parts _ _ _ _ _ K P') as (s2 & u2 & P2 & L2 & L2'). right. exists s, u, s2, u2.
  split; [exact P|]. split; [exact P2|]. split; [eapply rt_trans; eauto|eapply shape_le_trans; eauto].
Qed.
Lemma casts_antisym b x y : casts b x y -> casts b y x -> x = y.
Proof.
  intros [<-|(s & u & s' & u' & P & P' & L & L')] K; [reflexivity|].
  destruct (casts_parts _ _ _ _ _ K P') as (s2 & u2 & P2 & L2 & L2'). destruct (parts_fun _ _ _ _ _ P P2) as [<- <-].
  rewrite (scalar_le_antisym _ _ L L2) in P. rewrite (shape_le_antisym _ _ _ L' L2') in P. exact (parts_inj _ _ _ _ P P').
Qed.

Section Reg.
Variable has_opt : qt -> bool.
Variable has_arr : nat -> qt -> bool.
Notation common := (common has_opt has_arr).
Notation can_cast := (can_cast has_opt has_arr).
Notation known := (known has_opt has_arr).
Notation with_value := (with_value has_opt has_arr).
Notation can_cast_all := (can_cast_all has_opt has_arr).

Lemma known_value q sh v : known q -> parts q sh v -> forall u, v <> QOpt u.
Proof. intros H P. inversion P; subst; cbn in H; [discriminate|apply H|apply H]. Qed.
Lemma with_value_parts sh v q : (forall u, v <> QOpt u) -> with_value sh v = Some q -> parts q sh v /\ known q.
Proof.
  intros N. unfold Ovl_Model.with_value, to_optional, is_base. destruct sh as [| |k].
  - destruct v; cbn; intros E; try discriminate; [|destruct (N v eq_refl)]. injection E as <-. split; [constructor|exact I].
  - destruct v; cbn; intros E; try discriminate; [|destruct (N v eq_refl)]. destruct (has_opt (QScal s)) eqn:H; [|discriminate]. injection E as <-.
    split; [constructor|]. split; [exact H|discriminate].
  - replace (decay_opt v) with v by (destruct v; try reflexivity; destruct (N v eq_refl)).
    destruct (has_arr k v) eqn:H; [|discriminate]. intros E. injection E as <-. split; [constructor|]. split; assumption.
Qed.
(** [WithValueQType] finds a type of the program, except for an optional of
    something that is not a scalar. *)
Lemma with_value_known sh v q : known q -> parts q sh v -> (sh = ShOpt -> is_scalar v = true) -> with_value sh v = Some q.
Proof.
  intros K P H. destruct P as [s|v|k v]; cbn in K |- *.
  - reflexivity.
  - specialize (H eq_refl). destruct v; try discriminate. cbn. unfold to_optional. cbn. rewrite (proj1 K). reflexivity.
  - replace (decay_opt v) with v by (destruct v; try reflexivity; destruct (proj2 K v eq_refl)). rewrite (proj1 K). reflexivity.
Qed.

Lemma common_eq b x y : common b (Some x) (Some y) =
  if qt_eqb x y then Some x else
  bind (get_scalar x) (fun ls => bind (get_scalar y) (fun rs => bind (common_scalar ls rs) (fun s => bind (common_shape (get_shape x) (get_shape y) b) (fun sh => with_value sh s)))).
Proof. reflexivity. Qed.

(** What [CommonQType] returns is the least type that both cast to. *)
Lemma common_some b x y z : known x -> known y -> common b (Some x) (Some y) = Some z ->
  known z /\ casts b x z /\ casts b y z /\ forall w, casts b x w -> casts b y w -> casts b z w.
Proof.
  intros Kx Ky. rewrite common_eq. destruct (qt_eqb x y) eqn:E.
  - apply qt_eqb_eq in E. subst y. intros [= <-]. repeat split; auto using casts_refl.
  - destruct (get_scalar x) as [v|] eqn:Sx; [|discriminate]. destruct (get_scalar y) as [v'|] eqn:Sy; [|discriminate]. cbn [bind].
    pose proof (common_scalar_spec v v') as Cs. destruct (common_scalar v v') as [w|]; [|discriminate]. cbn [bind].
    destruct (get_shape x) as [sh|] eqn:Hx; [|rewrite common_shape_none_l; discriminate].
    destruct (get_shape y) as [sh'|] eqn:Hy; [|rewrite common_shape_none_r; discriminate].
    pose proof (common_shape_spec b sh sh') as Ch. destruct (common_shape (Some sh) (Some sh') b) as [t|]; [|discriminate]. cbn [bind].
    pose proof (get_parts _ _ _ Sx Hx) as Px. pose proof (get_parts _ _ _ Sy Hy) as Py.
    intros W. destruct Cs as (A1 & A2 & A3 & A4). destruct Ch as (B1 & B2 & B3 & B4).
    assert (Nw : forall u, w <> QOpt u).
    { destruct A4 as [[_ ->]|(s & -> & _)]; [apply (known_value _ _ _ Kx Px)|discriminate]. }
    destruct (with_value_parts _ _ _ Nw W) as [Pz Kz].
    split; [exact Kz|]. split; [right; exists sh, v, t, w; auto|]. split; [right; exists sh', v', t, w; auto|].
    intros u Cx Cy. destruct (casts_parts _ _ _ _ _ Cx Px) as (s1 & v1 & P1 & L1 & M1). destruct (casts_parts _ _ _ _ _ Cy Py) as (s2 & v2 & P2 & L2 & M2).
    destruct (parts_fun _ _ _ _ _ P1 P2) as [<- <-]. right. exists t, w, s1, v1. auto.
Qed.

(** It returns one whenever one exists. *)
Lemma common_none b x y : numbers_known has_opt has_arr -> known x -> known y -> common b (Some x) (Some y) = None ->
  forall w, known w -> ~ (casts b x w /\ casts b y w).
Proof.
  intros NK Kx Ky. rewrite common_eq. destruct (qt_eqb x y) eqn:E; [discriminate|]. apply qt_eqb_neq in E.
  intros H w Kw [Cx Cy].
  assert (Ps : exists sh v sh' v', parts x sh v /\ parts y sh' v').
  { destruct Cx as [<-|(? & ? & ? & ? & P1 & P2 & _)]; destruct Cy as [<-|(? & ? & ? & ? & P1' & P2' & _)]; try congruence; eauto 6. }
  destruct Ps as (sh & v & sh' & v' & Px & Py).
  destruct (casts_parts _ _ _ _ _ Cx Px) as (s1 & v1 & P1 & L1 & M1). destruct (casts_parts _ _ _ _ _ Cy Py) as (s2 & v2 & P2 & L2 & M2).
  destruct (parts_fun _ _ _ _ _ P1 P2) as [<- <-].
  rewrite (proj1 (parts_get _ _ _ Px)), (proj1 (parts_get _ _ _ Py)), (proj2 (parts_get _ _ _ Px)), (proj2 (parts_get _ _ _ Py)) in H. cbn [bind] in H.
  pose proof (common_scalar_spec v v') as Cs. destruct (common_scalar v v') as [u|]; [|exact (Cs v1 (conj L1 L2))]. cbn [bind] in H.
  pose proof (common_shape_spec b sh sh') as Ch. destruct (common_shape (Some sh) (Some sh') b) as [t|]; [|exact (Ch s1 (conj M1 M2))]. cbn [bind] in H.
  destruct Cs as (_ & _ & _ & A4). destruct Ch as (B1 & B2 & _ & B4).
  assert (Kt : exists q, known q /\ parts q t u /\ (t = ShOpt -> is_scalar u = true)).
  { destruct A4 as [[-> ->]|(s & -> & Is)].
    - destruct B4 as [->| ->].
      + exists x. repeat split; auto. intros ->. inversion Px; subst. inversion Py; subst; try reflexivity; try congruence. inversion B2.
      + exists y. repeat split; auto. intros ->. inversion Py; subst. inversion Px; subst; try reflexivity; try congruence. inversion B1.
    - destruct (NK s Is) as [No Na]. destruct t as [| |k].
      + exists (QScal s). split; [exact I|]. split; [constructor|discriminate].
      + exists (QOpt (QScal s)). split; [split; [exact No|discriminate]|]. split; [constructor|reflexivity].
      + exists (QArr k (QScal s)). split; [split; [|discriminate]|split; [constructor|discriminate]].
        destruct B4 as [<-|<-]; [inversion Px; subst; exact (Na _ _ (proj1 Kx))|inversion Py; subst; exact (Na _ _ (proj1 Ky))]. }
  destruct Kt as (q & Kq & Pq & Sq). rewrite (with_value_known _ _ _ Kq Pq Sq) in H. discriminate.
Qed.

(** [CanCastImplicitly] is the relation of the specification. *)
Lemma can_cast_iff b x y : known x -> known y -> (can_cast b x y = true <-> casts b x y).
Proof.
  intros Kx Ky. unfold Ovl_Model.can_cast. split.
  - destruct (common b (Some x) (Some y)) as [q|] eqn:E; [|discriminate]. intros H. apply qt_eqb_eq in H. subst q.
    apply (common_some b x y y Kx Ky E).
  - intros [<-|(sh & v & sh' & v' & Px & Py & L & M)].
    + rewrite common_eq, qt_eqb_refl. apply qt_eqb_refl.
    + rewrite common_eq. destruct (qt_eqb x y) eqn:E; [exact E|]. apply qt_eqb_neq in E.
      rewrite (proj1 (parts_get _ _ _ Px)), (proj1 (parts_get _ _ _ Py)), (proj2 (parts_get _ _ _ Px)), (proj2 (parts_get _ _ _ Py)). cbn [bind].
      pose proof (common_scalar_spec v v') as Cs. destruct (common_scalar v v') as [u|]; [|exfalso; apply (Cs v'); auto using rt_refl, scalar_le_refl]. cbn [bind].
      pose proof (common_shape_spec b sh sh') as Ch. destruct (common_shape (Some sh) (Some sh') b) as [t|]; [|exfalso; apply (Ch sh'); split; [exact M|constructor]]. cbn [bind].
      destruct Cs as (_ & A2 & A3 & A4). destruct Ch as (_ & B2 & B3 & B4).
      assert (u = v') by (apply scalar_le_antisym; auto using scalar_le_refl). subst u.
      assert (t = sh') by (apply (shape_le_antisym b); auto; apply B3; [exact M|constructor]). subst t.
      rewrite (with_value_known _ _ _ Ky Py); [apply qt_eqb_refl|].
      intros ->. inversion Py; subst. destruct A4 as [[-> _]|(s & -> & _)]; [|reflexivity].
      inversion Px; subst; try reflexivity; try congruence. inversion M.
Qed.

Lemma can_cast_all_iff l l' : Forall known l -> Forall known l' -> (can_cast_all l l' = true <-> Forall2 (casts true) l l').
Proof.
  intros H. revert l'. induction H as [|x l Kx _ IH]; intros l' H'; destruct H' as [|y l' Ky H']; cbn; try (split; [discriminate|intros K; inversion K]).
  - split; [constructor|reflexivity].
  - rewrite andb_true_iff, (can_cast_iff true x y Kx Ky), (IH l' H'). split; [intros [A B]; constructor; auto|intros K; inversion K; auto].
Qed.
End Reg.

Lemma Forall2_casts_refl b l : Forall2 (casts b) l l.
Proof. induction l; constructor; auto using casts_refl. Qed.
Lemma Forall2_casts_trans b l1 l2 l3 : Forall2 (casts b) l1 l2 -> Forall2 (casts b) l2 l3 -> Forall2 (casts b) l1 l3.
Proof.
  intros H. revert l3. induction H as [|x y l l' C _ IH]; intros l3 K; inversion K; subst; constructor; eauto using casts_trans.
Qed.
Lemma Forall2_casts_antisym b l1 l2 : Forall2 (casts b) l1 l2 -> Forall2 (casts b) l2 l1 -> l1 = l2.
Proof.
  induction 1 as [|x y l l' C _ IH]; intros K; inversion K; subst; [reflexivity|]. f_equal; eauto using casts_antisym.
Qed.
