(** More proofs about annotations and side outputs: what is left, values, errors. *)
From Verif Require Import Base Visit_Model Visit_Spec Visit_Proofs VisitOrder_Proofs SideOut_Model SideOut_Spec SideOut_Proofs.

(** ** Functions which drop some annotations *)
Section Drop.
Context {E : Type}.
Variable infer : nat -> list attr -> E + attr.
Variable f : node -> E + node.
Variable ann : node -> Prop.
Hypothesis Hf : forall m r, f m = inr r -> (r = m /\ ~ ann m) \/ (ann m /\ exists o a ds, m = Op o a (r :: ds)).
Notation bu := (bottom_up (reapply infer f)).
Definition alike (n m : node) : Prop := m = n \/ exists o a a' ds ds', n = Op o a ds /\ m = Op o a' ds'.
Lemma collect_F2 {A B} (g : A -> E + B) ds rs : collect (map g ds) = inr rs -> Forall2 (fun d r => g d = inr r) ds rs.
Proof.
  revert rs. induction ds as [|d ds IH]; intros rs; [cbn; intros H; injection H as <-; constructor|]. cbn [map]. intros H. apply collect_cons_inr in H as (r & rs' & H1 & H2 & ->). constructor; auto.
Qed.
Lemma bu_deps n r : bu n = inr r -> exists m, f m = inr r /\ Forall2 (fun d x => bu d = inr x) (deps n) (deps m) /\ alike n m.
Proof.
  rewrite (bu_eq (reapply infer f) n). destruct (collect (map bu (deps n))) as [e|rs] eqn:C; [discriminate|]. apply collect_F2 in C. unfold reapply. destruct (list_eq_dec node_dec rs (deps n)) as [->|N].
  - intros H. exists n. split; [exact H|]. split; [exact C|left; reflexivity].
  - destruct n as [v|k|k|o a ds]; try (inversion C; subst; elim N; reflexivity). destruct (infer o (map attr_of rs)) as [e|a'] eqn:I; [discriminate|]. intros H. exists (Op o a' rs). split; [exact H|]. split; [exact C|].
    right. exists o, a, a', ds, rs. auto.
Qed.
Lemma F2_in {A B} (R : A -> B -> Prop) l l' y : Forall2 R l l' -> In y l' -> exists x, In x l /\ R x y.
Proof. induction 1 as [|a b l l' H _ IH]; [contradiction|]. intros [<-|I]; [exists a; split; [left; reflexivity|exact H]|]. destruct (IH I) as (x & I' & R'). exists x. split; [right; exact I'|exact R']. Qed.
Lemma bu_none n : forall r x, bu n = inr r -> sub x r -> ~ ann x.
Proof.
  induction n as [n IH] using node_rect'. intros r x H S. apply bu_deps in H as (m & Fm & F & _). rewrite Forall_forall in IH.
  assert (D : forall y z, In y (deps m) -> sub z y -> ~ ann z) by (intros y z I Sy; destruct (F2_in _ _ _ y F I) as (d & Id & Bd); apply (IH d Id y z Bd Sy)).
  destruct (Hf m r Fm) as [[-> NA]|(A & o & a & ds & ->)].
  - inversion S as [|? d Id Sd]; subst; [exact NA|]. apply (D d x Id Sd).
  - apply (D r x); [left; reflexivity|exact S].
Qed.
Section Value.
Context {V : Type}.
Variables (sem : nat -> list V -> V) (lit : nat -> V) (leaf plh : list nat -> V).
Notation val := (value sem lit leaf plh).
Hypothesis Hs : forall o a x ds, ann (Op o a (x :: ds)) -> forall y l, sem o (y :: l) = y.
Lemma alike_val n m : alike n m -> map val (deps n) = map val (deps m) -> val m = val n.
Proof. intros [->|(o & a & a' & ds & ds' & -> & ->)]; [reflexivity|]. cbn [deps value]. intros ->. reflexivity. Qed.
Lemma deps_val (l l' : list node) : Forall (fun d => forall r, bu d = inr r -> val r = val d) l -> Forall2 (fun d x => bu d = inr x) l l' -> map val l = map val l'.
Proof. intros F F2. induction F2 as [|d x l l' H _ IH]; [reflexivity|]. inversion F as [|? ? F1 F3]; subst. cbn [map]. rewrite (F1 x H), (IH F3). reflexivity. Qed.
Lemma bu_val n : forall r, bu n = inr r -> val r = val n.
Proof.
  induction n as [n IH] using node_rect'. intros r H. apply bu_deps in H as (m & Fm & F & A). pose proof (alike_val n m A (deps_val _ _ IH F)) as Vm. rewrite <- Vm.
  destruct (Hf m r Fm) as [[-> _]|(An & o & a & ds & ->)]; [reflexivity|]. cbn [value map]. symmetry. apply (Hs o a r ds An).
Qed.
End Value.
Lemma bu_same n : (forall x, sub x n -> f x = inr x) -> bu n = inr n.
Proof.
  induction n as [n IH] using node_rect'. intros H. rewrite (bu_eq (reapply infer f) n). assert (C : collect (map bu (deps n)) = inr (deps n)).
  { assert (K : forall d, In d (deps n) -> bu d = inr d) by (intros d I; rewrite Forall_forall in IH; apply (IH d I); intros x S; apply H, (sub_dep x n d I S)).
    clear - K. induction (deps n) as [|d ds IHd]; [reflexivity|]. cbn [map]. apply collect_cons_inr. exists d, ds. split; [apply K; left; reflexivity|]. split; [apply IHd; intros; apply K; right; assumption|reflexivity]. }
  rewrite C. unfold reapply. destruct (list_eq_dec node_dec (deps n) (deps n)); [|contradiction]. apply H. apply sub_refl.
Qed.
Lemma bu_err n e : bu n = inl e -> exists o, (exists l, infer o l = inl e) \/ exists m, f m = inl e.
Proof.
  induction n as [n IH] using node_rect'. rewrite (bu_eq (reapply infer f) n). destruct (collect (map bu (deps n))) as [e'|rs] eqn:C.
  - intros H. injection H as ->. induction (deps n) as [|d ds IHd]; [discriminate|]. inversion IH as [|? ? I1 I2]; subst. cbn [map collect] in C. destruct (bu d) as [e'|r] eqn:B; [injection C as ->; apply I1; reflexivity|].
    destruct (collect (map bu ds)); [|discriminate]. injection C as ->. apply IHd; auto.
  - unfold reapply. destruct (list_eq_dec node_dec rs (deps n)); [intros H; exists 0; right; eauto|]. destruct n as [v|k|k|o a ds]; try (intros H; exists 0; right; eauto; fail).
    destruct (infer o (map attr_of rs)) as [e'|a'] eqn:I; [intros H; injection H as ->; exists o; left; eauto|]. intros H. exists 0. right. eauto.
Qed.
End Drop.

Section Side.
Context {E : Type}.
Variable infer : nat -> list attr -> E + attr.
Variable decay : nat -> E + kind.
Variable look_at : nat -> view.

(** ** Side outputs *)
Definition is_exp (n : node) : Prop := exists x t v, exports decay look_at n x t v.
Lemma drop_Hf m r : drop decay look_at m = inr r -> (r = m /\ ~ is_exp m) \/ (is_exp m /\ exists o a ds, m = Op o a (r :: ds)).
Proof.
  unfold drop. destruct (exported decay look_at m) as [[[x t] v]|] eqn:X; intros H; injection H as <-.
  - apply exported_ok in X. right. split; [exists x, t, v; exact X|]. destruct X; eauto.
  - left. split; [reflexivity|]. intros (x & t & v & H). apply exported_ok in H. congruence.
Qed.
Notation cleaned' := (cleaned infer decay look_at).
Notation output' := (output infer decay look_at).
Lemma cleaned_none n r x : cleaned' n r -> sub x r -> ~ is_exp x.
Proof. intros H. apply cleaned_ok in H. apply (bu_none infer (drop decay look_at) is_exp drop_Hf n r x H). Qed.
Lemma redone_deps n m : redone infer decay look_at n m -> Forall2 cleaned' (deps n) (deps m) /\ alike n m.
Proof.
  assert (K : forall l l', cleaneds infer decay look_at l l' -> Forall2 cleaned' l l') by (induction l as [|d l IH]; intros l' H; inversion H; subst; constructor; auto).
  intros [k H|o a ds ds' a' H N I]; cbn [deps]; (split; [apply K, H|]); [left; reflexivity|]. right. exists o, a, a', ds, ds'. auto.
Qed.
Lemma output_none root n t v x : output' root n t v -> sub x v -> ~ is_exp x.
Proof.
  intros (_ & m & y & R & X) S. apply redone_deps in R as [F _]. assert (I : In v (deps m)) by (destruct X; cbn; auto). destruct (F2_in _ _ _ v F I) as (d & _ & C). apply (cleaned_none d v x C S).
Qed.
Lemma sub_ok n : (exists r, cleaned' n r) -> forall x, sub x n -> exists r, cleaned' x r.
Proof.
  intros H x S. induction S as [|n d I _ IH]; [exact H|]. apply IH. destruct H as (r & H). assert (R : exists m, redone infer decay look_at n m) by (destruct H; eauto). destruct R as (m & R). apply redone_deps in R as [F _].
  clear - F I. induction F as [|a b l l' C _ IH]; [contradiction|]. destruct I as [->|I]; [eauto|apply IH, I].
Qed.
Lemma extract_complete root r : cleaned' root r -> (forall n n' t v v', output' root n t v -> output' root n' t v' -> n = n') ->
  exists outs, extract infer decay look_at root = Some (inr (r, outs)).
Proof.
  intros C U. destruct (extract_ok infer decay look_at root) as (res & Q & R). destruct res as [[e|t]|[r' outs]].
  - destruct R as (n & S & B). destruct (sub_ok root (ex_intro _ r C) n S) as (s & D). apply cleaned_ok in D. apply broken_ok in B as [_ P]. rewrite bu_pre, P in D. discriminate.
  - destruct R as (n & n' & v & v' & N & O1 & O2). elim N. apply (U n n' t v v' O1 O2).
  - destruct R as (C' & _). exists outs. apply cleaned_ok in C, C'. rewrite C in C'. injection C' as <-. exact Q.
Qed.
Lemma extract_same root : (forall x, sub x root -> ~ is_exp x) -> extract infer decay look_at root = Some (inr (root, [])).
Proof.
  intros H. assert (K : forall n, sub n root -> bottom_up (reapply infer (drop decay look_at)) n = inr n).
  { intros n S. apply bu_same. intros x Sx. apply drop_keep. intros y t v X. apply (H x (sub_trans x n root Sx S)). exists y, t, v. exact X. }
  assert (O : forall n t v, ~ output' root n t v).
  { intros n t v (S & m & x & R & X). assert (cleaned' n x) by (apply (clean_drop _ _ _ n m x t v R X)). apply cleaned_ok in H0. rewrite (K n S) in H0. injection H0 as <-.
    apply redone_deps in R as [F A]. assert (I : In n (deps m)) by (destruct X; cbn; auto). destruct (F2_in _ _ _ n F I) as (d & Id & Cd). apply cleaned_ok in Cd.
    rewrite (K d) in Cd by (apply (sub_trans d n root); [apply (sub_dep d n d Id), sub_refl|exact S]). injection Cd as ->. apply dep_size in Id. lia. }
  destruct (extract_complete root root) as (outs & Q); [apply cleaned_ok, K, sub_refl|intros n n' t v v' X; elim (O n t v X)|]. rewrite Q.
  destruct (extract_ok infer decay look_at root) as (res & Q' & R). rewrite Q in Q'. injection Q' as <-. destruct R as (_ & _ & R & _).
  destruct outs as [|[t v] outs]; [reflexivity|]. destruct (proj1 (R t v) (or_introl eq_refl)) as (n & X). elim (O n t v X).
Qed.
Section Value.
Context {V : Type}.
Variables (sem : nat -> list V -> V) (lit : nat -> V) (leaf plh : list nat -> V).
Notation val := (value sem lit leaf plh).
Hypothesis Hs : forall o k, decay o = inr k -> k = KExport \/ k = KExportValue -> forall x l, sem o (x :: l) = x.
Lemma exp_sem o a x ds : is_exp (Op o a (x :: ds)) -> forall y l, sem o (y :: l) = y.
Proof. intros (y & t & v & X). inversion X; subst; [apply (Hs o KExport); auto|apply (Hs o KExportValue); auto]. Qed.
Lemma cleaned_val n r : cleaned' n r -> val r = val n.
Proof. intros H. apply cleaned_ok in H. apply (bu_val infer (drop decay look_at) is_exp drop_Hf sem lit leaf plh exp_sem n r H). Qed.
Lemma output_val root n t v : output' root n t v -> exists o a ds i d, n = Op o a ds /\
  (decay o = inr KExport /\ i = 0 \/ decay o = inr KExportValue /\ i = 2) /\ nth_error ds i = Some d /\ val v = val d.
Proof.
  intros (_ & m & x & R & X). apply redone_deps in R as [F A]. assert (K : exists o a ds, n = Op o a ds /\ exists a', m = Op o a' (deps m)).
  { destruct A as [->|(o & a & a' & ds & ds' & -> & ->)]; [destruct X; cbn [deps]; eauto 6|cbn [deps]; eauto 6]. }
  destruct K as (o & a & ds & -> & a' & Em). exists o, a, ds. cbn [deps] in F. destruct X as [o' b x g t D _|o' b x g v t D _]; injection Em as -> ->; cbn [deps] in F;
    repeat match goal with H : Forall2 _ _ (_ :: _) |- _ => inversion H; clear H; subst | H : Forall2 _ _ [] |- _ => inversion H; clear H; subst end.
  - exists 0, x0. split; [reflexivity|]. split; [left; auto|]. split; [reflexivity|]. apply cleaned_val. assumption.
  - match goal with C : cleaned' ?d v |- _ => exists 2, d; split; [reflexivity|]; split; [right; auto|]; split; [reflexivity|apply cleaned_val, C] end.
Qed.
End Value.

End Side.

(** ** Annotations *)
Section Ann.
Context {E : Type}.
Variable decay : nat -> E + kind.
Definition is_ann (n : node) : Prop := exists x, annotates decay n x.
Lemma is_annotation_ok n : match is_annotation decay n with
  | inl e => unknown decay n e
  | inr true => exists x, annotates decay n x /\ rd (deps n) 0 = Some x
  | inr false => ~ is_ann n /\ forall e, ~ unknown decay n e
  end.
Proof.
  unfold is_annotation. destruct n as [v|k|k|o a [|x ds]]; try (split; [intros (y & H); inversion H|intros e H; inversion H]).
  destruct (decay o) as [e|k] eqn:D; [constructor; exact D|]. destruct k; cbn [tagged]; try (exists x; split; [apply (ann decay o a _ x ds D); discriminate|reflexivity]).
  split; [intros (y & H); inversion H; congruence|intros e H; inversion H; congruence].
Qed.
Lemma ann_fun n x y : annotates decay n x -> annotates decay n y -> x = y.
Proof. intros H H'. inversion H; subst. inversion H'. reflexivity. Qed.
Lemma ann_known n x e : annotates decay n x -> ~ unknown decay n e.
Proof. intros H H'. inversion H; subst. inversion H'. congruence. Qed.
Lemma strip_Hf m r : strip_fn decay m = inr r -> (r = m /\ ~ is_ann m) \/ (is_ann m /\ exists o a ds, m = Op o a (r :: ds)).
Proof.
  unfold strip_fn. pose proof (is_annotation_ok m) as A. destruct (is_annotation decay m) as [e|[]]; [discriminate| |].
  - destruct A as (x & A & ->). intros H. injection H as <-. right. split; [exists x; exact A|]. destruct A; eauto.
  - intros H. injection H as <-. left. tauto.
Qed.
Lemma strip_err m e : strip_fn decay m = inl e -> exists o, decay o = inl e.
Proof.
  unfold strip_fn. pose proof (is_annotation_ok m) as A. destruct (is_annotation decay m) as [e'|[]]; [|destruct (rd (deps m) 0); discriminate|discriminate]. intros H. injection H as <-. destruct A; eauto.
Qed.
Lemma strip_keep m : ~ is_ann m -> (forall e, ~ unknown decay m e) -> strip_fn decay m = inr m.
Proof.
  intros NA NU. unfold strip_fn. pose proof (is_annotation_ok m) as A. destruct (is_annotation decay m) as [e|[]]; [elim (NU e A)| |reflexivity]. destruct A as (x & A & _). elim NA. exists x. exact A.
Qed.
Lemma strip_top_ok fuel : forall n, size n <= fuel -> exists res, strip_top_loop decay fuel n = Some res /\
  match res with
  | inr r => under decay n r /\ ~ is_ann r /\ forall e, ~ unknown decay r e
  | inl e => exists m, under decay n m /\ unknown decay m e
  end.
Proof.
  induction fuel as [|fu IH]; intros n L; [rewrite size_deps in L; lia|]. cbn [strip_top_loop]. pose proof (is_annotation_ok n) as A. destruct (is_annotation decay n) as [e|[]].
  - eexists. split; [reflexivity|]. exists n. split; [constructor|exact A].
  - destruct A as (x & A & ->). cbn [bind]. assert (S : size x < size n) by (destruct A; apply dep_size; left; reflexivity). destruct (IH x) as (res & -> & R); [lia|]. exists res. split; [reflexivity|].
    destruct res as [e|r]; [destruct R as (m & U & K); exists m; split; [apply (under_ann decay n x m A U)|exact K]|]. destruct R as (U & K). split; [apply (under_ann decay n x r A U)|exact K].
  - eexists. split; [reflexivity|]. split; [constructor|exact A].
Qed.
End Ann.

(** ** Listeners *)
Section Prep.
Context {E : Type}.
Variable qtype_of : key -> option nat.
Variable cast : node -> nat -> E + node.
Definition prep1 (c : key * node) : E + (key * node) :=
  match qtype_of (fst c) with
  | Some q => match cast (snd c) q with inl e => inl e | inr v => inr (fst c, v) end
  | None => inr c
  end.
Lemma prepare_loop_ok outs : forall res, NoDup (map fst (res ++ outs)) -> prepare_loop qtype_of cast outs res = match collect (map prep1 outs) with inl e => inl e | inr l => inr (res ++ l) end.
Proof.
  induction outs as [|[t v] outs IH]; intros res N; [cbn; rewrite app_nil_r; reflexivity|]. cbn [prepare_loop map]. unfold prep1 at 1. cbn [fst snd].
  assert (Nt : ofind res t = None).
  { apply find_none. rewrite map_app in N. cbn [map fst] in N. apply NoDup_remove_2 in N. intros I. apply N, in_app_iff. left. exact I. }
  assert (N' : forall w, NoDup (map fst ((res ++ [(t, w)]) ++ outs))) by (intros w; rewrite <- app_assoc, map_app; rewrite map_app in N; exact N).
  assert (G : forall w, prepare_loop qtype_of cast outs (emplace res t w) = match collect (map prep1 outs) with inl e => inl e | inr l => inr (res ++ (t, w) :: l) end).
  { intros w. unfold emplace. rewrite Nt, (IH _ (N' w)). destruct (collect (map prep1 outs)); [reflexivity|]. rewrite <- app_assoc. reflexivity. }
  destruct (qtype_of t) as [q|]; [destruct (cast v q) as [e|w]; cbn [collect]; [reflexivity|]|cbn [collect]]; rewrite G; destruct (collect (map prep1 outs)); reflexivity.
Qed.
End Prep.
