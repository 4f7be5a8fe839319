From Coq Require Import Ascii String.
From Verif Require Import Base Strings_Model Strings_Proofs Repr_Model Repr_Spec Repr_Parse.
Local Open Scope list_scope.

(** ** Equality of nodes *)
Fixpoint dsize (e : dexpr) : nat := match e with DOp _ _ ds => S (list_sum (map dsize ds)) | _ => 1 end.
Lemma dsize_in d ds : In d ds -> dsize d <= list_sum (map dsize ds).
Proof. induction ds as [|x t IH]; intros H; [destruct H|]. cbn [map].
  change (list_sum (dsize x :: map dsize t)) with (dsize x + list_sum (map dsize t)). destruct H as [->|H]; [lia|]. specialize (IH H). lia. Qed.
Lemma dexpr_ind' (P : dexpr -> Prop) : (forall e, (forall d, In d (deps e) -> P d) -> P e) -> forall e, P e.
Proof.
  intros H e. remember (dsize e) as n eqn:E. assert (L : dsize e <= n) by lia. clear E. revert e L.
  induction n as [|n IH]; intros e L; [destruct e; cbn in L; lia|].
  apply H. intros d Hd. apply IH. destruct e; cbn in Hd; try contradiction. cbn [dsize] in L. pose proof (dsize_in d ds Hd). lia.
Qed.
Lemma dexpr_eqb_ok : forall a b, dexpr_eqb a b = true <-> a = b.
Proof.
  induction a as [a IH] using dexpr_ind'. intros b.
  destruct a, b; cbn [dexpr_eqb]; try (split; congruence);
    try (rewrite str_eqb_ok; split; congruence); try (rewrite Nat.eqb_eq; split; congruence).
  rewrite !andb_true_iff, str_eqb_ok, eqb_true_iff.
  assert (K : list_eqb dexpr_eqb ds ds0 = true <-> ds = ds0).
  { clear -IH. cbn in IH. revert ds0. induction ds as [|x t IHt]; intros [|y u]; cbn; try (split; congruence).
    rewrite andb_true_iff, IH by (left; reflexivity). rewrite IHt by (intros d Hd; apply IH; right; exact Hd).
    split; [intros [-> ->]; reflexivity|injection 1; auto]. }
  rewrite K. split; [intros [[-> ->] ->]; reflexivity|injection 1; auto].
Qed.
Lemma dexpr_eqb_refl a : dexpr_eqb a a = true.
Proof. apply dexpr_eqb_ok. reflexivity. Qed.
Lemma dexpr_eqb_neq a b : a <> b -> dexpr_eqb a b = false.
Proof. intros H. destruct (dexpr_eqb a b) eqn:E; [|reflexivity]. apply dexpr_eqb_ok in E. contradiction. Qed.
Lemma memd_ok n l : memd n l = true <-> In n l.
Proof.
  unfold memd. rewrite existsb_exists. split.
  - intros (x & Hx & E). apply dexpr_eqb_ok in E. subst. exact Hx.
  - intros H. exists n. split; [exact H|apply dexpr_eqb_refl].
Qed.
Lemma assoc_in {B} k (l : list (list Z * B)) v : assoc k l = Some v -> In (k, v) l.
Proof.
  induction l as [|[k' v'] t IH]; cbn; [discriminate|]. destruct (str_eqb k k') eqn:E; [|auto].
  apply str_eqb_ok in E. subst. injection 1 as ->. left. reflexivity.
Qed.

(** ** Precedences *)
Definition Lf (l : Z) : nat :=
  (if l <=? 0 then 10%nat else if l <=? 1 then 9%nat else if l <=? 3 then 7%nat else if l <=? 5 then 6%nat else if l <=? 9 then 4%nat else if l <=? 11 then 2%nat else 1%nat)%Z.
Definition Rf (r : Z) : nat :=
  (if r <=? -1 then 10%nat else if r <=? 0 then 9%nat else if r <=? 2 then 7%nat else if r <=? 4 then 6%nat else if r <=? 8 then 4%nat else if r <=? 10 then 2%nat else 0%nat)%Z.
Definition legal : list (Z * Z) :=
  [(-1, -1); (0, 0); (1, 1); (0, -1); (1, 2); (3, 2); (5, 4); (9, 8); (11, 10); (12, 12)]%Z.
Definition good (t : rtok) (a : ast) : Prop := In (r_prec t) legal /\ reads_as (r_str t) (Lf (r_left t)) (Rf (r_right t)) a.

Lemma good_any t a : good t a -> exists L R, reads_as (r_str t) L R a.
Proof. intros [_ H]. eauto. Qed.
Lemma good_atom ts p a : reads_as ts 10 10 a -> In p legal -> good (mkR ts p) a.
Proof.
  intros H Hp. split; [exact Hp|]. cbn. apply (ra_weaken _ _ _ _ _ _ H); unfold Lf, Rf.
  all: repeat match goal with |- context [if ?c then _ else _] => destruct c end; lia.
Qed.
Ltac cases := repeat match goal with H : In _ _ |- _ => cbn [legal In] in H; destruct H as [H|H]; [|] | H : False |- _ => destruct H end.

Lemma good_post x a : good x a -> reads_as (if (r_right x <? 0)%Z then r_str x else paren (r_str x)) 10 10 a.
Proof.
  intros [Hl H]. unfold r_left, r_right in *. destruct (Z.ltb_spec (snd (r_prec x)) 0) as [Hlt|].
  - apply (ra_weaken _ _ _ _ _ _ H); repeat (destruct Hl as [Hl|Hl]; [rewrite <- Hl in *; cbn in *; lia|]); destruct Hl.
  - eapply ra_paren, H.
Qed.

Lemma binary_op name p s : assoc name binary_ops = Some (p, s) -> exists o l, binary_name s = Some o /\ name = bytes o /\ level s = Some l /\
  In p legal /\ Lf (fst p) <= l /\ Rf (snd p) < right_min s l /\ (l = 1 -> Rf (snd p) = 0) /\
  (forall q, In q legal -> (snd q < fst p)%Z -> Lf (fst p) <= Lf (fst q) /\ l <= Rf (snd q)) /\
  (forall q, In q legal -> (fst q < snd p)%Z -> right_min s l <= Lf (fst q) /\ Rf (snd p) <= Rf (snd q)) /\
  Lf (fst p) <= 10 /\ l <= 10 /\ right_min s l <= 10 /\ Rf (snd p) <= 10.
Proof.
  intros H. apply assoc_in in H. unfold binary_ops in H.
  repeat (destruct H as [H|H]; [injection H as <- <- <-; eexists _, _; do 3 (split; [reflexivity|]);
    split; [cbn; tauto|]; repeat split; try (vm_compute; lia);
    try (repeat (destruct H as [H|H]; [subst; vm_compute in H0 |- *; lia || discriminate|]); destruct H)
    |]); try destruct H.
Qed.

Lemma good_left x a (p : Z * Z) s l : good x a -> In p legal ->
  (forall q, In q legal -> (snd q < fst p)%Z -> Lf (fst p) <= Lf (fst q) /\ l <= Rf (snd q)) -> Lf (fst p) <= 10 -> l <= 10 -> level s = Some l ->
  reads_as (if (r_right x <? fst p)%Z then r_str x else paren (r_str x)) (Lf (fst p)) l a.
Proof.
  intros [Hl H] _ K H1 H2 _. unfold r_left, r_right in *. destruct (Z.ltb_spec (snd (r_prec x)) (fst p)) as [Hlt|].
  - destruct (K _ Hl Hlt). apply (ra_weaken _ _ _ _ _ _ H); lia.
  - apply (ra_weaken _ 10 10); [eapply ra_paren, H|lia|lia].
Qed.
Lemma good_right x a (p : Z * Z) L R : good x a ->
  (forall q, In q legal -> (fst q < snd p)%Z -> L <= Lf (fst q) /\ R <= Rf (snd q)) -> L <= 10 -> R <= 10 ->
  reads_as (if (r_left x <? snd p)%Z then r_str x else paren (r_str x)) L R a.
Proof.
  intros [Hl H] K H1 H2. unfold r_left, r_right in *. destruct (Z.ltb_spec (fst (r_prec x)) (snd p)) as [Hlt|].
  - destruct (K _ Hl Hlt). apply (ra_weaken _ _ _ _ _ _ H); lia.
  - apply (ra_weaken _ 10 10); [eapply ra_paren, H|lia|lia].
Qed.

Section Format.
Variable ref : list Z -> dexpr -> Prop.
Variable nt : tokens.
Definition known (d : dexpr) : Prop := exists t a, nt d = Some t /\ good t a /\ reads ref a d.

Lemma deps_known ds : (forall d, In d ds -> known d) -> exists ts l, deps_tokens nt ds = Some ts /\
  Forall2 good ts l /\ reads_all ref l ds.
Proof.
  induction ds as [|d t IH]; intros H.
  - exists [], []. repeat split; constructor.
  - destruct (H d (or_introl eq_refl)) as (x & a & E & G & R). destruct IH as (ts & l & Et & Gt & Rt); [intros; apply H; right; assumption|].
    exists (x :: ts), (a :: l). cbn [deps_tokens]. rewrite E. cbn [bind]. rewrite Et. repeat split; constructor; assumption.
Qed.
Definition fine (n : dexpr) (t : rtok) : Prop := exists a, good t a /\ reads ref a n.

Lemma canonical_fine reg name ds : (forall d, In d ds -> known d) -> exists ts, deps_tokens nt ds = Some ts /\ fine (DOp reg name ds) (format_canonical reg name ts).
Proof.
  intros H. destruct (deps_known ds H) as (ts & l & E & G & R). exists ts. split; [exact E|].
  assert (F : Forall2 (fun t a => exists L R, reads_as t L R a) (map r_str ts) l).
  { clear -G. induction G as [|x a ts l Hx Hl IH]; cbn; constructor; [apply good_any, Hx|exact IH]. }
  unfold format_canonical. destruct reg.
  - destruct (ra_dotted (bytes "M." ++ name)) as (a & D & Ra). exists (ACall a l). split; [|apply rd_mcall; assumption].
    apply good_atom; [|cbn; tauto]. rewrite app_assoc.
    change ([TName (bytes "M"); TDot] ++ name_toks name) with (TName (bytes "M") :: TDot :: name_toks name). rewrite name_toks_M. apply ra_call; assumption.
  - destruct (ra_dotted name) as (a & D & Ra). exists (ACall a l). split; [|apply rd_call; assumption].
    apply good_atom; [|cbn; tauto]. cbn [app]. apply ra_call; assumption.
Qed.

Definition outcome (n : dexpr) (r : option (option rtok)) : Prop := exists o, r = Some o /\ forall t, o = Some t -> fine n t.
Lemma outcome_none n : outcome n (Some None).
Proof. exists None. split; [reflexivity|discriminate]. Qed.
Lemma outcome_some n t : fine n t -> outcome n (Some (Some t)).
Proof. intros H. exists (Some t). split; [reflexivity|]. intros ? [= <-]. exact H. Qed.

Lemma unary_fine name ds : (forall d, In d ds -> known d) -> outcome (DOp true name ds) (unary_repr nt name ds).
Proof.
  intros H. destruct (deps_known ds H) as (ts & l & E & G & R). unfold unary_repr. rewrite E. cbn [bind].
  destruct (assoc name unary_ops) as [[p s]|] eqn:A; [|apply outcome_none].
  destruct ts as [|x [|? ?]]; try apply outcome_none. inversion G as [|? a ? ? Gx Gn]; subst. inversion Gn; subst. inversion R as [|? ? e es Re Rn]; subst. inversion Rn; subst.
  apply outcome_some. exists (AUn s a).
  assert (K : exists o, unary_name s = Some o /\ name = bytes o /\ p = (1, 1)%Z /\ is_prefix s = true).
  { apply assoc_in in A. cbn [unary_ops In] in A. repeat (destruct A as [A|A]; [injection A as <- <- <-; eexists; repeat split; reflexivity|]). destruct A. }
  destruct K as (o & Ho & -> & -> & Hp). split; [|apply (rd_un _ _ _ _ _ Ho Re)].
  split; [cbn; tauto|]. cbn [r_str r_prec r_left r_right fst snd].
  assert (J : reads_as (if (r_left x <? 1)%Z then r_str x else paren (r_str x)) 8 7 a).
  { apply (good_right x a (1, 1)%Z); [exact Gx| |lia|lia]. intros q Hq Hlt. cbn [fst snd] in Hlt.
    cbn [legal In] in Hq. repeat (destruct Hq as [Hq|Hq]; [subst; vm_compute in Hlt |- *; first [lia|discriminate]|]). destruct Hq. }
  apply (ra_weaken _ _ _ _ _ _ (ra_unary s _ _ _ _ Hp J ltac:(lia))); vm_compute; lia.
Qed.

Lemma binary_fine name ds : (forall d, In d ds -> known d) -> outcome (DOp true name ds) (binary_repr nt name ds).
Proof.
  intros H. destruct (deps_known ds H) as (ts & l & E & G & R). unfold binary_repr. rewrite E. cbn [bind].
  destruct (assoc name binary_ops) as [[p s]|] eqn:A; [|apply outcome_none].
  destruct ts as [|x [|y [|? ?]]]; try apply outcome_none.
  inversion G as [|? a ? ? Gx Gn]; subst. inversion Gn as [|? b ? ? Gy Gm]; subst. inversion Gm; subst.
  inversion R as [|? ? e es Re Rn]; subst. inversion Rn as [|? ? e' es' Re' Rm]; subst. inversion Rm; subst.
  apply outcome_some. exists (ABin s a b).
  destruct (binary_op _ _ _ A) as (o & lv & Ho & -> & Hlv & Hp & H1 & H2 & H3 & H4 & H5 & H6 & H7 & H8 & H9).
  split; [|apply (rd_bin _ _ _ _ _ _ _ Ho Re Re')].
  assert (J1 := good_left x a p s lv Gx Hp H4 H6 H7 Hlv).
  assert (J2 := good_right y b p _ _ Gy H5 H8 H9).
  assert (J := ra_binary s lv _ _ _ _ _ _ _ _ _ Hlv J1 J2 (le_n _) (le_n _) (le_n _) H2 H3).
  rewrite Nat.min_l in J by exact H1.
  split; [exact Hp|]. cbn [r_str r_prec].
  destruct (r_right x <? fst p)%Z, (r_left y <? snd p)%Z; exact J.
Qed.

Lemma getattr_fine ds : (forall d, In d ds -> known d) -> outcome (DOp true (bytes "core.getattr") ds) (getattr_repr nt ds).
Proof.
  intros H. unfold getattr_repr. destruct ds as [|d0 [|[| | | |k| | |] [|? ?]]]; try apply outcome_none.
  destruct (is_identifier k); [|apply outcome_none].
  destruct (deps_known _ H) as (ts & l & E & G & R). rewrite E. cbn [bind].
  inversion R as [|a ? e es Re Rn]; subst. inversion G as [|x ? ? ? Gx Gn]; subst.
  inversion Rn as [|b ? e' es' Re' Rm]; subst. inversion Rm; subst. inversion Gn as [|y ? ? ? Gy Gm]; subst. inversion Gm; subst.
  apply outcome_some. exists (AAttr a k). split; [|apply rd_attr, Re].
  apply good_atom; [|cbn; tauto]. apply ra_attr, good_post, Gx.
Qed.
Lemma pin_fine ds : (forall d, In d ds -> known d) -> outcome (DOp true (bytes "annotation.source_location") ds) (source_location_repr nt ds).
Proof.
  intros H. unfold source_location_repr. destruct ds as [|d0 [|d1 [|? ?]]]; try apply outcome_none.
  destruct (H d0) as (x & a & E & G & R); [left; reflexivity|]. rewrite E. cbn [bind].
  apply outcome_some. exists (APin a). split; [|apply rd_pin, R].
  apply good_atom; [|cbn; tauto]. pose proof (good_post _ _ G) as J. cbn [kOpSubscription fst].
  rewrite Z.geb_leb. destruct (Z.ltb_spec (r_right x) 0), (Z.leb_spec 0 (r_right x)); try lia; apply ra_pin, J.
Qed.

Lemma legal_slice q : In q legal -> (fst q <? 13)%Z = true /\ (snd q <? 13)%Z = true.
Proof. intros H. cbn [legal In] in H. repeat (destruct H as [H|H]; [subst; split; reflexivity|]). destruct H. Qed.
Lemma bound_known d t a : good t a -> reads ref a d ->
  exists o, bound (if is_unspecified d then [] else r_str t) o /\ reads_opt ref o d /\ (is_unspecified d = false -> o <> None) /\ (is_unspecified d = true -> o = None).
Proof.
  intros [_ G] R. destruct (is_unspecified d) eqn:U.
  - destruct d; try discriminate. exists None. repeat split; try constructor; congruence.
  - exists (Some a). repeat split; try congruence; econstructor; eassumption.
Qed.

Lemma getitem_fine ds : (forall d, In d ds -> known d) -> (forall d g, In d ds -> In g (deps d) -> known g) ->
  outcome (DOp true (bytes "core.getitem") ds) (getitem_repr nt ds).
Proof.
  intros H HG. unfold getitem_repr. destruct ds as [|d0 [|d1 [|? ?]]]; try apply outcome_none.
  destruct (H d0) as (x & a & E & G & R); [left; reflexivity|]. rewrite E. cbn [bind].
  destruct (H d1) as (y & b & E1 & G1 & R1); [right; left; reflexivity|].
  assert (P : outcome (DOp true (bytes "core.getitem") [d0; d1])
    (Some (Some (mkR ((if (r_right x <? 0)%Z then r_str x else paren (r_str x)) ++ TLBr :: r_str y ++ [TRBr]) (0, -1)%Z)))).
  { apply outcome_some. exists (AIndex a b). split; [|apply rd_index; assumption].
    apply good_atom; [|cbn; tauto]. destruct (good_any _ _ G1) as (L & R' & J). eapply ra_index; [apply good_post, G|exact J]. }
  assert (Q : make_slice_repr nt d1 = Some None -> outcome (DOp true (bytes "core.getitem") [d0; d1])
    (let? sl := make_slice_repr nt d1 in
      let? rhs := match sl with Some s => Some s | None => let? t := nt d1 in Some (r_str t) end in
      Some (Some (mkR ((if (r_right x <? 0)%Z then r_str x else paren (r_str x)) ++ TLBr :: rhs ++ [TRBr]) (0, -1)%Z)))).
  { intros ->. cbn [bind]. rewrite E1. exact P. }
  destruct d1 as [| | | | | | |reg name es]; try (apply Q; reflexivity).
  destruct reg; [|apply Q; reflexivity].
  destruct es as [|e1 [|e2 [|e3 [|? ?]]]]; try (apply Q; reflexivity).
  destruct (str_eqb name (bytes "core.make_slice")) eqn:N; [|apply Q; unfold make_slice_repr; rewrite N; reflexivity].
  clear Q P. unfold make_slice_repr. rewrite N. apply str_eqb_ok in N. subst name.
  destruct (HG _ e1 (or_intror (or_introl eq_refl)) ltac:(cbn; tauto)) as (t1 & a1 & Et1 & Gt1 & Rt1).
  destruct (HG _ e2 (or_intror (or_introl eq_refl)) ltac:(cbn; tauto)) as (t2 & a2 & Et2 & Gt2 & Rt2).
  destruct (HG _ e3 (or_intror (or_introl eq_refl)) ltac:(cbn; tauto)) as (t3 & a3 & Et3 & Gt3 & Rt3).
  rewrite Et1, Et2, Et3. cbn [bind].
  destruct (legal_slice _ (proj1 Gt1)) as [P1 Q1]. destruct (legal_slice _ (proj1 Gt2)) as [P2 Q2]. destruct (legal_slice _ (proj1 Gt3)) as [P3 Q3].
  unfold r_left, r_right at 1 2. cbn [kOpSlice fst snd]. unfold r_right at 1. rewrite Q1, P2, Q2, P3. cbn [andb orb].
  destruct (bound_known e1 t1 a1 Gt1 Rt1) as (o1 & B1 & Ro1 & _ & _).
  destruct (bound_known e2 t2 a2 Gt2 Rt2) as (o2 & B2 & Ro2 & _ & _).
  destruct (bound_known e3 t3 a3 Gt3 Rt3) as (o3 & B3 & Ro3 & U3 & V3).
  apply outcome_some. exists (ASlice a o1 o2 o3). split; [|apply rd_slice; assumption].
  apply good_atom; [|cbn; tauto].
  assert (J := ra_slice _ _ _ _ _ _ _ _ _ (good_post _ _ G) B1 B2 B3).
  match goal with J : reads_as ?u _ _ _ |- reads_as ?v _ _ _ => replace v with u; [exact J|] end.
  unfold r_right. f_equal. f_equal. f_equal.
  destruct (is_unspecified e1), (is_unspecified e2), (is_unspecified e3); cbn [negb app];
    try (rewrite (V3 eq_refl)); try (destruct o3; [|destruct (U3 eq_refl eq_refl)]); rewrite ?app_nil_r, <- ?app_assoc; reflexivity.
Qed.

(** Every node is printed, and its text stands for it. *)
Lemma format_fine n : (forall d, In d (deps n) -> known d) -> (forall d g, In d (deps n) -> In g (deps d) -> known g) ->
  exists t, format_pretty nt n = Some t /\ fine n t.
Proof.
  intros H HG. destruct n as [k|k|i|i|s| |i|reg name ds]; cbn [format_pretty].
  1, 2: eexists; (split; [reflexivity|]); unfold access_toks; destruct (is_identifier k).
  - exists (AAttr (AName (bytes "L")) k). split; [|constructor]. apply good_atom; [|cbn; tauto]. apply (ra_attr [TName (bytes "L")]), ra_name.
  - exists (AIndex (AName (bytes "L")) (AStr k)). split; [|constructor]. apply good_atom; [|cbn; tauto].
    apply (ra_index [TName (bytes "L")] _ _ [TStr k] _ _ _ (ra_name _) (ra_str k)).
  - exists (AAttr (AName (bytes "P")) k). split; [|constructor]. apply good_atom; [|cbn; tauto]. apply (ra_attr [TName (bytes "P")]), ra_name.
  - exists (AIndex (AName (bytes "P")) (AStr k)). split; [|constructor]. apply good_atom; [|cbn; tauto].
    apply (ra_index [TName (bytes "P")] _ _ [TStr k] _ _ _ (ra_name _) (ra_str k)).
  - eexists; split; [reflexivity|]. exists (ANum i). split; [|constructor]. split; [cbn; tauto|]. apply ra_num.
  - eexists; split; [reflexivity|]. exists (AUn SMinus (ANum i)). split; [|constructor]. split; [cbn; tauto|].
    apply (ra_weaken _ _ _ _ _ _ (ra_unary SMinus [TNum i] 10 9 (ANum i) eq_refl (ra_num i) ltac:(lia))); vm_compute; lia.
  - eexists; split; [reflexivity|]. exists (AStr s). split; [|constructor]. apply good_atom; [|cbn; tauto]. apply ra_str.
  - eexists; split; [reflexivity|]. exists (AName (bytes "unspecified")). split; [|apply rd_unspec]. apply good_atom; [|cbn; tauto]. apply ra_name.
  - eexists; split; [reflexivity|]. exists (ALit i). split; [|constructor]. apply good_atom; [|cbn; tauto]. apply ra_lit.
  - cbn [deps] in H, HG. unfold format_operator.
    assert (O : outcome (DOp reg name ds) (if reg then registered_repr nt name ds else Some None)).
    { destruct reg; [|apply outcome_none]. unfold registered_repr.
      destruct (assoc name unary_ops) eqn:A; [apply unary_fine, H|].
      destruct (assoc name binary_ops) eqn:B; [apply binary_fine, H|].
      destruct (str_eqb name (bytes "core.getattr")) eqn:E1; [apply str_eqb_ok in E1; subst; apply getattr_fine, H|].
      destruct (str_eqb name (bytes "core.getitem")) eqn:E2; [apply str_eqb_ok in E2; subst; apply getitem_fine; assumption|].
      destruct (str_eqb name (bytes "annotation.source_location")) eqn:E3; [apply str_eqb_ok in E3; subst; apply pin_fine, H|].
      apply outcome_none. }
    destruct O as (o & -> & O). cbn [bind]. destruct o as [t|]; [exists t; split; [reflexivity|apply O; reflexivity]|].
    destruct (canonical_fine reg name ds H) as (ts & -> & F). eexists. split; [reflexivity|exact F].
Qed.
End Format.
