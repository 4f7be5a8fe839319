(** Proofs about slot allocation. *)
From Verif Require Import Base Slots_Model Slots_Spec.

Ltac spl := repeat match goal with |- _ /\ _ => split end.
Lemma rd_app1 {A} (l m : list A) i : i < length l -> rd (l ++ m) i = rd l i.
Proof. apply nth_error_app1. Qed.
Lemma rd_snoc {A} (l : list A) x : rd (l ++ [x]) (length l) = Some x.
Proof. unfold rd. rewrite nth_error_app2, Nat.sub_diag by lia. reflexivity. Qed.
Lemma NoDup_app_snoc {A} (l : list A) x : NoDup l -> ~ In x l -> NoDup (l ++ [x]).
Proof. intros H1 H2. apply NoDup_rev in H1. rewrite <- (rev_involutive (l ++ [x])), rev_app_distr. apply NoDup_rev. cbn. constructor; [rewrite <- in_rev; exact H2|exact H1]. Qed.
Lemma keyb_eq a : forall b, keyb a b = true <-> a = b.
Proof.
  induction a as [|x a IH]; intros [|y b]; cbn; try (split; [discriminate|discriminate]); [tauto|]. rewrite andb_true_iff, Nat.eqb_eq, IH.
  split; [intros [-> ->]; reflexivity|intros H; injection H; auto].
Qed.
Lemma tslot_eq a b : tslot_eqb a b = true <-> a = b.
Proof.
  destruct a as [s p], b as [s' p']. unfold tslot_eqb. cbn. rewrite andb_true_iff, Nat.eqb_eq, keyb_eq. split; [intros [-> ->]; reflexivity|intros H; injection H; auto].
Qed.
Lemma rds_ok {T} (rs : list T) is l : rds rs is = Some l <-> Forall2 (fun i x => rd rs i = Some x) is l.
Proof.
  revert l. induction is as [|i is IH]; intros l; cbn [rds].
  - split; [intros H; injection H as <-; constructor|]. inversion 1. reflexivity.
  - destruct (rd rs i) as [x|] eqn:E; cbn [bind].
    + destruct (rds rs is) as [r|]; cbn [bind].
      * split; [intros H; injection H as <-; constructor; [exact E|apply IH; reflexivity]|]. inversion 1 as [|? ? ? ? H1 H2]; subst. apply IH in H2. congruence.
      * split; [discriminate|]. inversion 1 as [|? ? ? ? H1 H2]; subst. apply IH in H2. discriminate.
    + split; [discriminate|]. inversion 1; subst. congruence.
Qed.
Lemma input_in inputs k s : input_of inputs k = Some s -> In (k, s) inputs.
Proof.
  induction inputs as [|[k' s'] l IH]; cbn [input_of]; [discriminate|]. destruct (keyb k' k) eqn:E; [apply keyb_eq in E; subst; intros H; injection H as ->; left; reflexivity|]. intros H. right. apply IH, H.
Qed.

(** ** Usages *)
Lemma put_all_ok js : forall l i r, put_all l js i = Some r -> length r = length l /\ forall j, rd r j = if existsb (Nat.eqb j) js then (if j <? length l then Some i else None) else rd l j.
Proof.
  induction js as [|j0 js IH]; intros l i r H; cbn [put_all] in H; [injection H as <-; split; reflexivity|].
  destruct (upd l j0 i) as [l1|] eqn:E; [|discriminate]. cbn [bind] in H. apply upd_spec in E as (L0 & L1 & R1). destruct (IH l1 i r H) as [L2 R2]. split; [lia|].
  intros j. rewrite R2. cbn [existsb]. rewrite R1, L1. destruct (existsb (Nat.eqb j) js); [rewrite orb_true_r; reflexivity|]. rewrite orb_false_r.
  destruct (j =? j0) eqn:Ej; [|reflexivity]. apply Nat.eqb_eq in Ej. subst. replace (j0 <? length l) with true by lia. reflexivity.
Qed.
Lemma usages_ok nodes : forall i l r, usages nodes i l = Some r -> length r = length l /\
  forall j, (forall u, rd r j = Some u -> (rd l j = Some u \/ i <= u)) /\
    (forall k n u, nth_error nodes k = Some n -> In j (g_deps n) -> rd r j = Some u -> (j < i \/ j < i + k) -> i + k <= u) /\
    (forall k n u, nth_error nodes k = Some n -> j = i + k -> rd r j = Some u -> j <= u).
Proof.
  induction nodes as [|n nodes IH]; intros i l r H; cbn [usages] in H.
  - injection H as <-. split; [reflexivity|]. intros j. split; [auto|]. split; intros [|k]; discriminate.
  - destruct (put_all l (g_deps n) i) as [l1|] eqn:E1; [|discriminate]. cbn [bind] in H. destruct (upd l1 i i) as [l2|] eqn:E2; [|discriminate]. cbn [bind] in H.
    apply put_all_ok in E1 as [L1 R1]. apply upd_spec in E2 as (Li & L2 & R2). destruct (IH (S i) l2 r H) as [L3 R3]. split; [lia|]. intros j. destruct (R3 j) as (A & B & C).
    assert (D : forall u, rd r j = Some u -> j = i \/ In j (g_deps n) -> i <= u).
    { intros u Hu J. destruct (A u Hu) as [Z|Z]; [|lia]. rewrite R2 in Z. destruct (j =? i) eqn:Ej; [injection Z as <-; lia|]. apply Nat.eqb_neq in Ej. destruct J as [J|J]; [contradiction|].
      rewrite R1 in Z. replace (existsb (Nat.eqb j) (g_deps n)) with true in Z by (symmetry; apply existsb_exists; exists j; split; [exact J|apply Nat.eqb_refl]).
      destruct (j <? length l); [injection Z as <-; lia|discriminate]. }
    split; [|split].
    + intros u Hu. destruct (A u Hu) as [Z|Z]; [|right; lia]. rewrite R2 in Z. destruct (j =? i); [injection Z as <-; right; lia|].
      rewrite R1 in Z. destruct (existsb _ _); [|auto]. destruct (j <? length l); [injection Z as <-; right; lia|discriminate].
    + intros [|k] m u Ek Ij Hu Hj; cbn in Ek.
      * injection Ek as <-. rewrite Nat.add_0_r. apply (D u Hu). right. exact Ij.
      * replace (i + S k) with (S i + k) by lia. apply (B k m u Ek Ij Hu). lia.
    + intros [|k] m u Ek Ej Hu; cbn in Ek.
      * injection Ek as <-. rewrite Nat.add_0_r in Ej. rewrite Ej. apply (D u Hu). left. exact Ej.
      * apply (C k m u Ek); [lia|exact Hu].
Qed.
Lemma put_all_some js : forall l i, (forall j, In j js -> j < length l) -> exists r, put_all l js i = Some r.
Proof.
  induction js as [|j js IH]; intros l i H; [exists l; reflexivity|]. cbn [put_all]. destruct (upd_lt l j i (H j (or_introl eq_refl))) as (l1 & E). rewrite E. cbn [bind]. apply upd_spec in E as (_ & L & _).
  apply IH. intros k Hk. rewrite L. apply H. right. exact Hk.
Qed.
Lemma usages_def nodes : forall i l, (forall k n d, nth_error nodes k = Some n -> In d (g_deps n) -> d < i + k) -> i + length nodes <= length l -> exists r, usages nodes i l = Some r.
Proof.
  induction nodes as [|n nodes IH]; intros i l H L; [exists l; reflexivity|]. cbn [usages length] in *.
  destruct (put_all_some (g_deps n) l i) as (l1 & E1); [intros j Hj; specialize (H 0 n j eq_refl Hj); lia|]. rewrite E1. cbn [bind]. apply put_all_ok in E1 as [L1 _].
  destruct (upd_lt l1 i i ltac:(lia)) as (l2 & E2). rewrite E2. cbn [bind]. apply upd_spec in E2 as (_ & L2 & _). apply IH; [|lia].
  intros k m d Ek Hd. specialize (H (S k) m d Ek Hd). lia.
Qed.

Section Bind.
Context {V : Type}.
Variable lit : nat -> V.
Variable opf : nat -> list V -> V.
Variable proj : nat -> V -> V.
Variable leafv : list nat -> V.
Variable vals : nat -> V.
Variable nodes : list gnode.
Variable inputs : list (list nat * nat).
Variable layout0 : list nat.
Variable reuse : bool.
Variables out_idx out_slot : nat.
Variable lu : nat -> nat.
Let N := length nodes.
Definition is_input (s : nat) : Prop := exists k, input_of inputs k = Some s.
(** Slots added by the compilation, or input slots that may be overwritten *)
Definition own (s : nat) : Prop := length layout0 <= s \/ (reuse = true /\ is_input s).
Hypothesis Hac : acyclic nodes.
Hypothesis Hvals : value_ok lit opf proj leafv nodes vals.
Hypothesis Hin : forall k s, input_of inputs k = Some s -> s < length layout0 /\ s <> out_slot.
Hypothesis Hinj : reuse = true -> forall k k' s, input_of inputs k = Some s -> input_of inputs k' = Some s -> k = k'.
Hypothesis Hleaf : forall i j n m k, nth_error nodes i = Some n -> nth_error nodes j = Some m -> g_kind n = GLeaf k -> g_kind m = GLeaf k -> i = j.
Hypothesis Hout : out_slot < length layout0.
Hypothesis Hlu : forall i n d, nth_error nodes i = Some n -> In d (g_deps n) -> i <= lu d.
Hypothesis Hlu' : forall i, i < N -> i <= lu i.

Lemma own_not s : own s -> reuse = false -> ~ is_input s.
Proof. intros [H|[H _]] R (k & Hk); [apply Hin in Hk; lia|congruence]. Qed.
Definition leaf_slot (k : nat) : option (nat * nat) :=
  match nth_error nodes k with
  | Some n => match g_kind n with
              | GLeaf key => if reuse then match input_of inputs key with Some s => match rd layout0 s with Some ty => Some (ty, s) | None => None end | None => None end else None
              | _ => None end
  | None => None
  end.
(** ** The allocator *)
Record ainv (i : nat) (a : alloc) (perm : list nat) : Prop := {
  a_olen : length (a_orig a) = N;
  a_old : forall j o, j < i -> rd (a_orig a) j = Some o -> o <= j /\ rd (a_orig a) o = Some o;
  a_new : forall j, i <= j < N -> rd (a_orig a) j = Some j;
  a_llen : length (a_last a) = N;
  a_lold : forall j o l, j < i -> rd (a_orig a) j = Some o -> rd (a_last a) o = Some l -> lu j <= l;
  a_lnew : forall j, i <= j < N -> rd (a_last a) j = Some (lu j);
  a_slen : length (a_slot a) = N;
  a_held : forall o t s, rd (a_slot a) o = Some (Some (t, s)) -> rd (a_layout a) s = Some t /\ ~ In s perm /\ s <> out_slot /\ own s;
  a_inj : forall o o' t t' s, rd (a_slot a) o = Some (Some (t, s)) -> rd (a_slot a) o' = Some (Some (t', s)) -> o = o';
  a_freed : forall t s, In s (a_free a t) -> rd (a_layout a) s = Some t /\ ~ In s perm /\ s <> out_slot /\ own s;
  a_fdup : forall t, NoDup (a_free a t);
  a_disj : forall o t t' s, rd (a_slot a) o = Some (Some (t, s)) -> ~ In s (a_free a t');
  a_future : forall k, i <= k < N -> rd (a_slot a) k = Some (leaf_slot k);
  a_perm : forall s, In s perm -> length layout0 <= s < length (a_layout a);
  a_lay : exists more, a_layout a = layout0 ++ more
}.
Lemma upd_same {A} (l : list A) i x : rd l i = Some x -> upd l i x = Some l.
Proof.
  revert i. induction l as [|y l IH]; intros [|i] H; try discriminate; [injection H as ->; reflexivity|]. cbn [upd]. rewrite (IH i H). reflexivity.
Qed.
Lemma inherit_self i a perm : ainv i a perm -> i < N -> inherit i i a = Some a.
Proof.
  intros A L. unfold inherit. rewrite (a_new _ _ _ A i ltac:(lia)). cbn [bind]. rewrite (upd_same _ _ _ (a_new _ _ _ A i ltac:(lia))). cbn [bind].
  rewrite (a_lnew _ _ _ A i ltac:(lia)). cbn [bind]. rewrite Nat.max_id, (upd_same _ _ _ (a_lnew _ _ _ A i ltac:(lia))). cbn [bind]. destruct a. reflexivity.
Qed.
Lemma ainv_next i a perm : ainv i a perm -> i < N -> ainv (S i) a perm.
Proof.
  intros A L. pose proof (a_new _ _ _ A i ltac:(lia)) as Oi. pose proof (a_lnew _ _ _ A i ltac:(lia)) as Li. destruct A. constructor; try assumption.
  - intros j o Hj Ho. destruct (Nat.eq_dec j i) as [->|]; [|apply a_old0; [lia|exact Ho]]. rewrite Oi in Ho. injection Ho as <-. auto.
  - intros j Hj. apply a_new0. lia.
  - intros j o l Hj Ho Hl. destruct (Nat.eq_dec j i) as [->|]; [|apply (a_lold0 j o l); [lia|exact Ho|exact Hl]]. rewrite Oi in Ho. injection Ho as <-. rewrite Li in Hl. injection Hl as <-. lia.
  - intros j Hj. apply a_lnew0. lia.
  - intros k Hk. apply a_future0. lia.
Qed.
Lemma add_ok i ty a perm : ainv i a perm -> ainv i (snd (add_slot ty a)) (fst (add_slot ty a) :: perm).
Proof.
  intros []. unfold add_slot. cbn [fst snd]. destruct a_lay0 as (more & El).
  assert (M : forall s t, rd (a_layout a) s = Some t -> s <> length (a_layout a) /\ rd (a_layout a ++ [ty]) s = Some t).
  { intros s t H. pose proof (rd_Some_lt _ _ _ H). split; [lia|]. rewrite rd_app1 by assumption. exact H. }
  constructor; cbn [a_orig a_last a_slot a_free a_layout]; try assumption.
  - intros o t s H. destruct (a_held0 o t s H) as (H1 & H2 & H3 & H4). destruct (M s t H1) as [M1 M2]. spl; try assumption. intros [C|C]; [congruence|contradiction].
  - intros t s H. destruct (a_freed0 t s H) as (H1 & H2 & H3 & H4). destruct (M s t H1) as [M1 M2]. spl; try assumption. intros [C|C]; [congruence|contradiction].
  - intros s [<-|H]; rewrite app_length; cbn [length]; [rewrite El, app_length; lia|]. specialize (a_perm0 s H). lia.
  - exists (more ++ [ty]). rewrite El, <- app_assoc. reflexivity.
Qed.
Lemma ainv_weaken i a s perm : ainv i a (s :: perm) -> ainv i a perm.
Proof.
  intros []. constructor; try assumption.
  - intros o t s' H. destruct (a_held0 o t s' H) as (H1 & H2 & H3). split; [exact H1|]. split; [intros C; apply H2; right; exact C|exact H3].
  - intros t s' H. destruct (a_freed0 t s' H) as (H1 & H2 & H3). split; [exact H1|]. split; [intros C; apply H2; right; exact C|exact H3].
  - intros s' H. apply a_perm0. right. exact H.
Qed.
(** A slot a node may write to: the output, a new one, or a free one *)
Definition writable (i : nat) (a : alloc) (w : nat) : Prop :=
  (w = out_slot /\ i = out_idx) \/ length (a_layout a) <= w \/ exists t, In w (a_free a t).
Lemma alloc_ok i ty a perm : ainv i a perm -> i < N -> leaf_slot i = None ->
  exists s a', alloc_slot i ty a = Some (s, a') /\ ainv (S i) a' perm /\ writable i a s /\ s <> out_slot /\ a_orig a' = a_orig a /\ a_last a' = a_last a /\
    rd (a_slot a') i = Some (Some (ty, s)) /\ (forall o, o < i -> rd (a_slot a') o = rd (a_slot a) o) /\ s < length (a_layout a') /\ (exists more, a_layout a' = a_layout a ++ more) /\
    ~ In s perm /\ own s /\ rd (a_layout a') s = Some ty.
Proof.
  intros A L Ln. unfold alloc_slot.
  assert (K : exists s a1, (match a_free a ty with [] => add_slot ty a | s :: t => (s, mkA (a_last a) (a_orig a) (a_slot a) (fun ty' => if ty' =? ty then t else a_free a ty') (a_layout a)) end) = (s, a1) /\
    ainv i a1 perm /\ writable i a s /\ s <> out_slot /\ a_orig a1 = a_orig a /\ a_last a1 = a_last a /\ a_slot a1 = a_slot a /\ rd (a_layout a1) s = Some ty /\ (exists more, a_layout a1 = a_layout a ++ more) /\
    ~ In s perm /\ own s /\ (forall t, ~ In s (a_free a1 t)) /\ (forall o t, rd (a_slot a) o <> Some (Some (t, s)))).
  { destruct (a_free a ty) as [|s t] eqn:Ef.
    - pose proof (add_ok i ty a perm A) as A1. destruct (a_lay _ _ _ A) as (more & El). unfold add_slot in *. cbn [fst snd] in A1. eexists. eexists. split; [reflexivity|].
      assert (P : ~ In (length (a_layout a)) perm) by (intros C; apply (a_perm _ _ _ A) in C; lia).
      assert (F : forall t, ~ In (length (a_layout a)) (a_free a t)) by (intros t C; apply (a_freed _ _ _ A) in C as [C _]; apply rd_Some_lt in C; lia).
      assert (Hh : forall o t, rd (a_slot a) o <> Some (Some (t, length (a_layout a)))) by (intros o t C; apply (a_held _ _ _ A) in C as [C _]; apply rd_Some_lt in C; lia).
      assert (Hl : length layout0 <= length (a_layout a)) by (rewrite El, app_length; lia).
      cbn [a_orig a_last a_slot a_free a_layout]. spl; try assumption; try reflexivity.
      + apply (ainv_weaken i _ _ _ A1).
      + right. left. lia.
      + lia.
      + apply rd_snoc.
      + eexists. reflexivity.
      + left. exact Hl.
    - assert (Is : In s (a_free a ty)) by (rewrite Ef; left; reflexivity). destruct (a_freed _ _ _ A ty s Is) as (H1 & H2 & H3 & H4).
      pose proof (a_fdup _ _ _ A ty) as Nd. rewrite Ef in Nd. inversion Nd as [|? ? N1 N2]; subst.
      assert (Sub : forall t' s', In s' (if t' =? ty then t else a_free a t') -> In s' (a_free a t')) by (intros t' s'; destruct (t' =? ty) eqn:E; [apply Nat.eqb_eq in E; subst; rewrite Ef; intros C; right; exact C|auto]).
      assert (F : forall t', ~ In s (if t' =? ty then t else a_free a t')).
      { intros t' C. destruct (t' =? ty) eqn:E; [contradiction|]. apply (a_freed _ _ _ A) in C as [C _]. assert (t' = ty) by congruence. lia. }
      assert (Hh : forall o t', rd (a_slot a) o <> Some (Some (t', s))) by (intros o t' C; apply (a_disj _ _ _ A o t' ty s C Is)).
      eexists. eexists. split; [reflexivity|]. cbn [a_orig a_last a_slot a_free a_layout]. spl; try assumption; try reflexivity.
      + destruct A. constructor; try assumption; cbn [a_orig a_last a_slot a_free a_layout].
        * intros t' s' C. apply a_freed0, Sub, C.
        * intros t'. destruct (t' =? ty); [exact N2|apply a_fdup0].
        * intros o t' t'' s' C D. apply (a_disj0 o t' t'' s' C), Sub, D.
      + right. right. exists ty. exact Is.
      + exists []. rewrite app_nil_r. reflexivity. }
  destruct K as (s & a1 & -> & A1 & W & Ns & Eo & El & Es & Ls & Ll & P & Ip & Fr & Hh). rewrite <- Es in Hh.
  destruct (upd_lt (a_slot a1) i (Some (ty, s))) as (slots & Eu); [rewrite (a_slen _ _ _ A1); exact L|]. rewrite Eu. cbn [bind].
  apply upd_spec in Eu as (Li & Lu & Ru). eexists. eexists. split; [reflexivity|]. cbn [a_orig a_last a_slot a_free a_layout].
  pose proof (ainv_next i a1 perm A1 L) as A2. spl; try assumption.
  - destruct A2. constructor; try assumption; cbn [a_orig a_last a_slot a_free a_layout].
    + lia.
    + intros o t' s' H. rewrite Ru in H. destruct (o =? i); [injection H as <- <-; repeat split; assumption|apply (a_held0 o t' s' H)].
    + intros o o' t1 t2 s' H H'. rewrite Ru in H, H'. destruct (o =? i) eqn:E1, (o' =? i) eqn:E2; try lia.
      * injection H as <- <-. exfalso. apply (Hh o' t2 H').
      * injection H' as <- <-. exfalso. apply (Hh o t1 H).
      * apply (a_inj0 o o' t1 t2 s' H H').
    + intros o t1 t2 s' H. rewrite Ru in H. destruct (o =? i); [injection H as <- <-; apply Fr|apply (a_disj0 o t1 t2 s' H)].
    + intros k Hk. rewrite Ru. replace (k =? i) with false by lia. apply a_future0. exact Hk.
  - rewrite Ru, Nat.eqb_refl. reflexivity.
  - intros o Ho. rewrite Ru. replace (o =? i) with false by lia. rewrite Es. reflexivity.
  - apply (rd_Some_lt _ _ _ Ls).
Qed.
Lemma inherit_ok i d a perm : ainv i a perm -> i < N -> d < i -> i <= lu d ->
  exists a' o lo, inherit i d a = Some a' /\ ainv (S i) a' perm /\ rd (a_orig a) d = Some o /\ o <= d /\ rd (a_last a) o = Some lo /\
    rd (a_orig a') i = Some o /\ (forall j, j <> i -> rd (a_orig a') j = rd (a_orig a) j) /\ (forall j, rd (a_last a') j = if j =? o then Some (Nat.max lo (lu i)) else rd (a_last a) j) /\
    i <= lo /\ a_slot a' = a_slot a /\ a_free a' = a_free a /\ a_layout a' = a_layout a.
Proof.
  intros A L Hd Hl. unfold inherit. destruct (rd_lt (a_orig a) d) as (o & Eo); [rewrite (a_olen _ _ _ A); lia|]. rewrite Eo. cbn [bind].
  destruct (a_old _ _ _ A d o Hd Eo) as [Lo Oo].
  destruct (upd_lt (a_orig a) i o) as (orig & Eu); [rewrite (a_olen _ _ _ A); lia|]. rewrite Eu. cbn [bind]. apply upd_spec in Eu as (_ & L1 & R1).
  destruct (rd_lt (a_last a) o) as (lo & Elo); [rewrite (a_llen _ _ _ A); lia|]. rewrite Elo. cbn [bind]. rewrite (a_lnew _ _ _ A i ltac:(lia)). cbn [bind].
  destruct (upd_lt (a_last a) o (Nat.max lo (lu i))) as (last & Eu); [rewrite (a_llen _ _ _ A); lia|]. rewrite Eu. cbn [bind]. apply upd_spec in Eu as (_ & L2 & R2).
  assert (Hlo : i <= lo) by (pose proof (a_lold _ _ _ A d o lo Hd Eo Elo); lia).
  eexists. exists o, lo. split; [reflexivity|]. cbn [a_orig a_last a_slot a_free a_layout]. spl; try assumption; try reflexivity.
  - destruct A. constructor; try assumption; cbn [a_orig a_last a_slot a_free a_layout].
    + lia.
    + intros j o' Hj H. rewrite R1 in H. destruct (j =? i) eqn:Ej.
      * injection H as <-. split; [lia|]. rewrite R1. replace (o =? i) with false by lia. exact Oo.
      * destruct (a_old0 j o' ltac:(lia) H) as [H1 H2]. split; [exact H1|]. rewrite R1. replace (o' =? i) with false by lia. exact H2.
    + intros j Hj. rewrite R1. replace (j =? i) with false by lia. apply a_new0. lia.
    + lia.
    + intros j o' l Hj Ho Hl'. rewrite R1 in Ho. rewrite R2 in Hl'. destruct (j =? i) eqn:Ej.
      * injection Ho as <-. rewrite Nat.eqb_refl in Hl'. injection Hl' as <-. apply Nat.eqb_eq in Ej. subst j. lia.
      * destruct (o' =? o) eqn:E'; [|apply (a_lold0 j o' l); [lia|exact Ho|exact Hl']]. apply Nat.eqb_eq in E'. subst o'. injection Hl' as <-.
        pose proof (a_lold0 j o lo ltac:(lia) Ho Elo). lia.
    + intros j Hj. rewrite R2. replace (j =? o) with false by lia. apply a_lnew0. lia.
    + intros k Hk. apply a_future0. lia.
  - rewrite R1, Nat.eqb_refl. reflexivity.
  - intros j Hj. rewrite R1. replace (j =? i) with false by lia. reflexivity.
Qed.
Lemma release_ok i perm : forall ds a, ainv (S i) a perm -> (forall d, In d ds -> d < N /\ d <= i) -> exists a', release i ds a = Some a' /\ ainv (S i) a' perm /\
  a_orig a' = a_orig a /\ a_last a' = a_last a /\ a_layout a' = a_layout a /\
  (forall o l, rd (a_last a) o = Some l -> S i <= l -> rd (a_slot a') o = rd (a_slot a) o).
Proof.
  induction ds as [|d ds IH]; intros a A H; [exists a; cbn [release]; spl; auto|]. cbn [release]. destruct (H d (or_introl eq_refl)) as [Hd Hdi].
  destruct (rd_lt (a_orig a) d) as (o & Eo); [rewrite (a_olen _ _ _ A); lia|]. rewrite Eo. cbn [bind]. destruct (a_old _ _ _ A d o ltac:(lia) Eo) as [Lo Oo].
  destruct (rd_lt (a_last a) o) as (l & El); [rewrite (a_llen _ _ _ A); lia|]. rewrite El. cbn [bind].
  destruct (rd_lt (a_slot a) o) as (os & Es); [rewrite (a_slen _ _ _ A); lia|]. rewrite Es. cbn [bind].
  assert (H' : forall d, In d ds -> d < N /\ d <= i) by (intros; apply H; right; assumption).
  destruct os as [[ty s]|]; [|apply (IH a A H')]. destruct (l =? i) eqn:Eli; [|apply (IH a A H')].
  destruct (upd_lt (a_slot a) o None) as (slots & Eu); [rewrite (a_slen _ _ _ A); lia|]. rewrite Eu. cbn [bind]. apply upd_spec in Eu as (_ & L1 & R1).
  set (a1 := mkA _ _ _ _ _). assert (A1 : ainv (S i) a1 perm).
  { assert (Sub : forall t s', In s' (a_free a1 t) -> (t = ty /\ s' = s) \/ In s' (a_free a t)).
    { unfold a1. cbn [a_free]. intros t s'. destruct (t =? ty) eqn:E; [apply Nat.eqb_eq in E; intros [<-|C]; auto|auto]. }
    assert (Hs : forall o' t s', rd slots o' = Some (Some (t, s')) -> o' <> o /\ rd (a_slot a) o' = Some (Some (t, s'))).
    { intros o' t s' C. rewrite R1 in C. destruct (o' =? o) eqn:E; [discriminate|]. split; [lia|exact C]. }
    pose proof (a_held _ _ _ A o ty s Es) as Hh. pose proof (fun t => a_disj _ _ _ A o ty t s Es) as Hd'. destruct A. constructor; try assumption; cbn [a1 a_orig a_last a_slot a_layout].
    - lia.
    - intros o' t s' C. apply Hs in C as [_ C]. apply (a_held0 o' t s' C).
    - intros o1 o2 t1 t2 s' C1 C2. apply Hs in C1 as [_ C1]. apply Hs in C2 as [_ C2]. apply (a_inj0 o1 o2 t1 t2 s' C1 C2).
    - intros t s' C. destruct (Sub t s' C) as [[-> ->]|C']; [exact Hh|apply (a_freed0 t s' C')].
    - intros t. unfold a1. cbn [a_free]. destruct (t =? ty) eqn:E; [|apply a_fdup0]. constructor; [apply Hd'|apply a_fdup0].
    - intros o' t t' s' C D. apply Hs in C as [C1 C]. destruct (Sub t' s' D) as [[-> ->]|D']; [apply C1, (a_inj0 o' o t ty s C Es)|apply (a_disj0 o' t t' s' C D')].
    - intros k Hk. rewrite R1. replace (k =? o) with false by lia. apply a_future0. exact Hk. }
  destruct (IH a1 A1 H') as (a' & E1 & E2 & E3 & E4 & E5 & E6). exists a'. split; [exact E1|]. split; [exact E2|]. split; [exact E3|]. split; [exact E4|]. split; [exact E5|].
  intros o' l' Hl' Hi. rewrite (E6 o' l' Hl' Hi). unfold a1. cbn [a_slot]. rewrite R1. destruct (o' =? o) eqn:E; [|reflexivity]. apply Nat.eqb_eq in E. subst o'. rewrite El in Hl'. injection Hl' as <-. lia.
Qed.

(** ** Running *)
Notation exec := (exec opf proj).
Notation exec1 := (exec1 opf proj).
Notation read := (read proj).
Notation view := (view proj).
Lemma exec_app p q fr : exec (p ++ q) fr = exec q (exec p fr).
Proof. apply fold_left_app. Qed.
Lemma exec1_keep ins (fr : nat -> V) s : s <> dst ins -> exec1 fr ins s = fr s.
Proof. intros H. destruct ins; cbn in *; unfold put; rewrite (proj2 (Nat.eqb_neq s out) H); reflexivity. Qed.
Lemma exec_keep p s : (forall ins, In ins p -> dst ins <> s) -> forall fr : nat -> V, exec p fr s = fr s.
Proof.
  induction p as [|ins p IH]; intros H fr; [reflexivity|]. change (exec p (exec1 fr ins) s = fr s). rewrite IH by (intros; apply H; right; assumption).
  apply exec1_keep. intros C. apply (H ins (or_introl eq_refl)). symmetry. exact C.
Qed.
Lemma view_app p q v : view (p ++ q) v = view q (view p v).
Proof. apply fold_left_app. Qed.

Definition safe (a : alloc) (perm : list nat) (o s : nat) : Prop :=
  In s perm \/ (reuse = false /\ is_input s) \/ exists t, rd (a_slot a) o = Some (Some (t, s)).
Definition good (c : cst) (fr : nat -> V) : Prop :=
  (forall s v, In (s, v) (c_init c) -> fr s = lit v) /\ (forall n k s, In n nodes -> g_kind n = GLeaf k -> input_of inputs k = Some s -> fr s = leafv k).
Definition res_ok (i : nat) (c : cst) (j : nat) (r : tslot) : Prop :=
  (t_slot r = out_slot /\ out_idx < i /\ vals j = view (t_path r) (vals out_idx)) \/
  (t_slot r <> out_slot /\ exists o ro, rd (a_orig (c_al c)) j = Some o /\ rd (c_res c) o = Some ro /\ t_slot ro = t_slot r /\ t_path ro = [] /\ vals j = view (t_path r) (vals o)).
(** The origins whose values are needed at [i] or later *)
Definition live (i : nat) (c : cst) (o : nat) (r : tslot) : Prop :=
  o < i /\ rd (a_orig (c_al c)) o = Some o /\ (exists l, rd (a_last (c_al c)) o = Some l /\ i <= l) /\ rd (c_res c) o = Some r /\ t_slot r <> out_slot.
Definition frame_ok (i : nat) (c : cst) (fr : nat -> V) : Prop :=
  (out_idx < i -> fr out_slot = vals out_idx) /\ (forall o r, live i c o r -> fr (t_slot r) = vals o) /\
  (forall k n key s, i <= k -> nth_error nodes k = Some n -> g_kind n = GLeaf key -> input_of inputs key = Some s -> fr s = leafv key).
Record inv (i : nat) (c : cst) (perm : list nat) : Prop := {
  r_al : ainv i (c_al c) perm;
  r_len : length (c_res c) = i;
  r_out : out_idx < i -> rd (c_res c) out_idx = Some (mkT out_slot []);
  r_res : forall j r, rd (c_res c) j = Some r -> res_ok i c j r;
  r_live : forall o r, live i c o r -> safe (c_al c) perm o (t_slot r);
  r_type : forall j n r, rd (c_res c) j = Some r -> nth_error nodes j = Some n -> j <> out_idx -> computed n -> t_path r = [] /\ rd (a_layout (c_al c)) (t_slot r) = Some (g_ty n);
  r_idup : NoDup (map fst (c_init c));
  r_init : forall s v, In (s, v) (c_init c) -> In s perm;
  r_prog : forall ins, In ins (c_prog c) -> dst ins < length (a_layout (c_al c)) /\ (dst ins = out_slot \/ (~ In (dst ins) (map fst (c_init c)) /\ own (dst ins)));
  r_alias : forall ins s, In ins (c_prog c) -> In s (srcs ins) -> t_slot s <> dst ins;
  r_exec : forall fr, good c fr -> frame_ok i c (exec (c_prog c) fr)
}.
Lemma layout_len i a perm : ainv i a perm -> length layout0 <= length (a_layout a).
Proof. intros A. destruct (a_lay _ _ _ A) as (m & ->). rewrite app_length. lia. Qed.
Lemma safe_ne i c perm o r w : inv i c perm -> live i c o r -> writable i (c_al c) w -> t_slot r <> w.
Proof.
  intros I Lv W <-. pose proof (r_live _ _ _ I o r Lv) as S. pose proof (r_al _ _ _ I) as A. destruct Lv as (_ & _ & _ & _ & No). pose proof (layout_len _ _ _ A) as Ll.
  destruct W as [[W _]|[W|(t & W)]]; [contradiction| |].
  - destruct S as [S|[[_ (k & S)]|(t & S)]]; [apply (a_perm _ _ _ A) in S; lia|apply Hin in S; lia|apply (a_held _ _ _ A) in S as [S _]; apply rd_Some_lt in S; lia].
  - destruct (a_freed _ _ _ A t _ W) as (F1 & F2 & F3 & F4). destruct S as [S|[[R S]|(t' & S)]]; [contradiction|apply (own_not _ F4 R S)|apply (a_disj _ _ _ A o t' t _ S W)].
Qed.
Lemma leaf_ne i c perm k n key s w : inv i c perm -> S i <= k -> nth_error nodes k = Some n -> g_kind n = GLeaf key -> input_of inputs key = Some s -> writable i (c_al c) w -> s <> w.
Proof.
  intros I Lk En Ek Es W <-. pose proof (r_al _ _ _ I) as A. pose proof (layout_len _ _ _ A) as Ll. destruct (Hin _ _ Es) as [H1 H2]. destruct W as [[W _]|[W|(t & W)]]; [contradiction|lia|].
  destruct (a_freed _ _ _ A t _ W) as (F1 & F2 & F3 & F4). destruct (bool_dec reuse true) as [Er|Er]; [|apply not_true_is_false in Er; apply (own_not _ F4 Er); exists key; exact Es].
  assert (Lk' : k < N) by (apply nth_error_Some; congruence). pose proof (a_future _ _ _ A k ltac:(lia)) as Fu. unfold leaf_slot in Fu. rewrite En, Ek, Er, Es in Fu.
  destruct (rd_lt layout0 s H1) as (ty & Ety). rewrite Ety in Fu. apply (a_disj _ _ _ A k ty t s Fu W).
Qed.
Lemma lay_same {A} (l : list A) : exists more, l = l ++ more.
Proof. exists []. rewrite app_nil_r. reflexivity. Qed.
Lemma snoc i c perm c' perm' r p : inv i c perm -> i < N -> ainv (S i) (c_al c') perm' ->
  c_res c' = c_res c ++ [r] -> c_prog c' = c_prog c ++ p -> incl (c_init c) (c_init c') -> incl perm perm' ->
  (forall s v, In (s, v) (c_init c') -> In s perm') ->
  (forall s, In s (map fst (c_init c')) -> In s (map fst (c_init c)) \/ length (a_layout (c_al c)) <= s) ->
  (exists more, a_layout (c_al c') = a_layout (c_al c) ++ more) ->
  NoDup (map fst (c_init c')) ->
  (forall n, nth_error nodes i = Some n -> i <> out_idx -> computed n -> t_path r = [] /\ rd (a_layout (c_al c')) (t_slot r) = Some (g_ty n)) ->
  (forall j, j < i -> rd (a_orig (c_al c')) j = rd (a_orig (c_al c)) j) ->
  (forall o l, o < i -> rd (a_last (c_al c')) o = Some l -> S i <= l -> exists l0, rd (a_last (c_al c)) o = Some l0 /\ i <= l0) ->
  (forall o, o < i -> rd (a_slot (c_al c')) o = rd (a_slot (c_al c)) o) ->
  (i = out_idx -> r = mkT out_slot []) ->
  res_ok (S i) c' i r ->
  (rd (a_orig (c_al c')) i = Some i -> t_slot r <> out_slot -> safe (c_al c') perm' i (t_slot r)) ->
  (p = [] \/ exists ins, p = [ins] /\ (forall s, In s (srcs ins) -> t_slot s <> dst ins) /\ writable i (c_al c) (dst ins) /\ dst ins < length (a_layout (c_al c')) /\ (dst ins = out_slot \/ (~ In (dst ins) (map fst (c_init c')) /\ own (dst ins)))) ->
  (forall fr, good c' fr -> good c fr -> frame_ok i c (exec (c_prog c) fr) -> let fr' := exec p (exec (c_prog c) fr) in
     (i = out_idx -> fr' out_slot = vals i) /\ (rd (a_orig (c_al c')) i = Some i -> t_slot r <> out_slot -> fr' (t_slot r) = vals i)) ->
  inv (S i) c' perm'.
Proof.
  intros I Li A' Er Ep Ii Ipm Hi Hi' (more & Elay) Hdup Hty Ho Hl Hs Hout' Hres Hsafe Hp Hval. pose proof (r_len _ _ _ I) as Len. assert (Hlay : length (a_layout (c_al c)) <= length (a_layout (c_al c'))) by (rewrite Elay, app_length; lia).
  assert (Rold : forall j, j < i -> rd (c_res c') j = rd (c_res c) j) by (intros j Hj; rewrite Er; apply rd_app1; lia).
  assert (Rnew : rd (c_res c') i = Some r) by (rewrite Er, <- Len; apply rd_snoc).
  assert (Lv : forall o r', o < i -> live (S i) c' o r' -> live i c o r').
  { intros o r' Hoi (H1 & H2 & (l & H3 & H4) & H5 & H6). rewrite Ho in H2 by assumption. rewrite Rold in H5 by assumption. destruct (Hl o l Hoi H3 H4) as (l0 & E1 & E2). repeat split; try assumption. exists l0. auto. }
  assert (G : forall fr, good c' fr -> good c fr) by (intros fr [G1 G2]; split; [intros s v H; apply G1, Ii, H|exact G2]).
  constructor; try assumption.
  - rewrite Er, app_length, Len. cbn. lia.
  - intros H. destruct (Nat.eq_dec out_idx i) as [E|]; [rewrite E, Rnew, Hout' by congruence; reflexivity|]. rewrite Rold by lia. apply (r_out _ _ _ I). lia.
  - intros j r' H. assert (Hj : j < S i) by (apply rd_Some_lt in H; rewrite Er, app_length in H; cbn in H; lia).
    destruct (Nat.eq_dec j i) as [->|]; [rewrite Rnew in H; injection H as <-; exact Hres|].
    rewrite Rold in H by lia. destruct (r_res _ _ _ I j r' H) as [(H1 & H2 & H3)|(H1 & o & ro & H2 & H3 & H4)]; [left; repeat split; try assumption; lia|].
    right. split; [exact H1|]. exists o, ro. rewrite Ho by lia. pose proof (a_old _ _ _ (r_al _ _ _ I) j o ltac:(lia) H2) as [H5 _]. rewrite Rold by lia. auto.
  - intros o r' H. destruct (Nat.eq_dec o i) as [->|Ne].
    + destruct H as (_ & H2 & _ & H5 & H6). rewrite Rnew in H5. injection H5 as <-. apply Hsafe; assumption.
    + assert (Hoi : o < i) by (destruct H as [H _]; lia). destruct (r_live _ _ _ I o r' (Lv o r' Hoi H)) as [S|[S|(t & S)]]; [left; apply Ipm, S|right; left; exact S|].
      right. right. exists t. rewrite Hs by assumption. exact S.
  - intros j n r' H En Hj Hc. assert (Hj' : j < S i) by (apply rd_Some_lt in H; rewrite Er, app_length in H; cbn in H; lia).
    destruct (Nat.eq_dec j i) as [->|]; [rewrite Rnew in H; injection H as <-; apply (Hty n); assumption|].
    rewrite Rold in H by lia. destruct (r_type _ _ _ I j n r' H En Hj Hc) as [T1 T2]. split; [exact T1|]. rewrite Elay, rd_app1 by (apply (rd_Some_lt _ _ _ T2)). exact T2.
  - intros ins H. rewrite Ep in H. apply in_app_or in H as [H|H].
    + destruct (r_prog _ _ _ I ins H) as [P1 P2]. split; [lia|]. destruct P2 as [P2|[P2 P3]]; [left; exact P2|right; split; [|exact P3]]. intros C. destruct (Hi' _ C) as [C'|C']; [contradiction|lia].
    + destruct Hp as [->|(w & -> & _ & W1 & W2 & W3)]; [destruct H|]. destruct H as [<-|[]]. split; assumption.
  - intros ins s H Hsrc. rewrite Ep in H. apply in_app_or in H as [H|H]; [apply (r_alias _ _ _ I ins s H Hsrc)|].
    destruct Hp as [->|(w & -> & W0 & _)]; [destruct H|]. destruct H as [<-|[]]. apply W0. exact Hsrc.
  - intros fr Gd. pose proof (r_exec _ _ _ I fr (G fr Gd)) as F. destruct (Hval fr Gd (G fr Gd) F) as [V1 V2]. destruct F as (F1 & F2 & F3). rewrite Ep, exec_app.
    assert (K : forall s, (forall w, writable i (c_al c) w -> s <> w) -> exec p (exec (c_prog c) fr) s = exec (c_prog c) fr s).
    { intros s H. apply exec_keep. intros ins Hins. destruct Hp as [->|(w & -> & _ & W1 & _)]; [destruct Hins|]. destruct Hins as [<-|[]]. intros C. apply (H _ W1). congruence. }
    split; [|split].
    + intros H. destruct (Nat.eq_dec i out_idx) as [E|Ne]; [rewrite <- E; apply V1; exact E|].
      rewrite K; [apply F1; lia|]. intros w W C. subst w. destruct W as [[_ W]|[W|(t & W)]]; [contradiction|pose proof (layout_len _ _ _ (r_al _ _ _ I)); lia|]. apply (a_freed _ _ _ (r_al _ _ _ I)) in W as (_ & _ & W & _). contradiction.
    + intros o r' H. destruct (Nat.eq_dec o i) as [->|Ne].
      * destruct H as (_ & H2 & _ & H5 & H6). rewrite Rnew in H5. injection H5 as <-. apply V2; assumption.
      * assert (Hoi : o < i) by (destruct H as [H _]; lia). rewrite K; [apply F2, Lv; assumption|]. intros w W. apply (safe_ne i c perm o r' w I (Lv o r' Hoi H) W).
    + intros k n key s Hk En Ek Es. rewrite K; [apply (F3 k n key s); [lia|assumption..]|]. intros w W. apply (leaf_ne i c perm k n key s w I Hk En Ek Es W).
Qed.
(** Reading a dependency *)
Lemma read_dep i n c perm d r fr : inv i c perm -> nth_error nodes i = Some n -> In d (g_deps n) -> rd (c_res c) d = Some r -> frame_ok i c fr -> read fr r = vals d.
Proof.
  intros I En Hd Er (F1 & F2 & F3). unfold Slots_Model.read. destruct (r_res _ _ _ I d r Er) as [(H1 & H2 & H3)|(H1 & o & ro & H2 & H3 & H4 & H5 & H6)].
  - rewrite H3, H1, (F1 H2). reflexivity.
  - rewrite H6, <- H4. rewrite (F2 o ro); [reflexivity|]. pose proof (Hac i n d En Hd) as Ld. destruct (a_old _ _ _ (r_al _ _ _ I) d o Ld H2) as [L1 L2].
    assert (i < N) by (apply nth_error_Some; congruence). destruct (rd_lt (a_last (c_al c)) o) as (l & El); [rewrite (a_llen _ _ _ (r_al _ _ _ I)); lia|].
    repeat split; try assumption; [lia| |congruence]. exists l. split; [exact El|]. pose proof (a_lold _ _ _ (r_al _ _ _ I) d o l Ld H2 El). pose proof (Hlu i n d En Hd). lia.
Qed.
Lemma dep_ne i n c perm d r w : inv i c perm -> nth_error nodes i = Some n -> In d (g_deps n) -> rd (c_res c) d = Some r -> writable i (c_al c) w -> t_slot r <> w.
Proof.
  intros I En Hd Er W. pose proof (Hac i n d En Hd) as Ld. destruct (r_res _ _ _ I d r Er) as [(H1 & H2 & H3)|(H1 & o & ro & H2 & H3 & H4 & H5 & H6)].
  - rewrite H1. intros <-. pose proof (layout_len _ _ _ (r_al _ _ _ I)). destruct W as [[_ W]|[W|(t & W)]]; [lia|lia|]. apply (a_freed _ _ _ (r_al _ _ _ I)) in W as (_ & _ & W & _). contradiction.
  - rewrite <- H4. apply (safe_ne i c perm o ro w I); [|exact W]. destruct (a_old _ _ _ (r_al _ _ _ I) d o Ld H2) as [L1 L2].
    assert (i < N) by (apply nth_error_Some; congruence). destruct (rd_lt (a_last (c_al c)) o) as (l & El); [rewrite (a_llen _ _ _ (r_al _ _ _ I)); lia|].
    repeat split; try assumption; [lia| |congruence]. exists l. split; [exact El|]. pose proof (a_lold _ _ _ (r_al _ _ _ I) d o l Ld H2 El). pose proof (Hlu i n d En Hd). lia.
Qed.
Lemma deps_ne i n c perm ins w : inv i c perm -> nth_error nodes i = Some n -> rds (c_res c) (g_deps n) = Some ins -> writable i (c_al c) w -> forall s, In s ins -> t_slot s <> w.
Proof.
  intros I En Er W s Hsi. apply rds_ok in Er. assert (K : exists d, In d (g_deps n) /\ rd (c_res c) d = Some s).
  { induction Er as [|d x ds xs H1 H2 IH]; [destruct Hsi|]. destruct Hsi as [->|Hsi]; [exists d; split; [left; reflexivity|exact H1]|]. destruct (IH Hsi) as (d' & H3 & H4). exists d'. split; [right; exact H3|exact H4]. }
  destruct K as (d & Hd & Rd). apply (dep_ne i n c perm d s w I En Hd Rd W).
Qed.
Lemma read_deps i n c perm ins fr : inv i c perm -> nth_error nodes i = Some n -> rds (c_res c) (g_deps n) = Some ins -> frame_ok i c fr -> map (read fr) ins = map vals (g_deps n).
Proof.
  intros I En Er F. apply rds_ok in Er. assert (D : forall d, In d (g_deps n) -> In d (g_deps n)) by auto. revert D Er. generalize (g_deps n) at 1 3 4 as ds. intros ds D Er. induction Er as [|d r ds rs H1 H2 IH]; [reflexivity|].
  cbn [map]. rewrite (read_dep i n c perm d r fr I En (D d (or_introl eq_refl)) H1 F), IH; [reflexivity|]. intros; apply D; right; assumption.
Qed.
Lemma rds_some {T} (rs : list T) is : (forall i, In i is -> i < length rs) -> exists l, rds rs is = Some l.
Proof.
  induction is as [|i is IH]; intros H; [exists []; reflexivity|]. cbn [rds]. destruct (rd_lt rs i (H i (or_introl eq_refl))) as (x & ->). cbn [bind]. destruct IH as (l & ->); [intros; apply H; right; assumption|]. eexists; reflexivity.
Qed.

Hypothesis Hwf : forall i n, nth_error nodes i = Some n -> match g_kind n with GLeaf k => exists s, input_of inputs k = Some s | GRoot => exists t, g_deps n = out_idx :: t | _ => True end.

Lemma out_res i c j : out_idx < i -> vals j = vals out_idx -> res_ok i c j (mkT out_slot []).
Proof. intros H E. left. cbn. auto. Qed.
Lemma lnew i c perm : inv i c perm -> i < N -> rd (a_last (c_al c)) i = Some (lu i).
Proof. intros I L. apply (a_lnew _ _ _ (r_al _ _ _ I)). lia. Qed.
Lemma last_same i (a : alloc) : forall o l, o < i -> rd (a_last a) o = Some l -> S i <= l -> exists l0, rd (a_last a) o = Some l0 /\ i <= l0.
Proof. intros o l _ H1 H2. exists l. split; [exact H1|lia]. Qed.
(** Nodes with the given output slot *)
Lemma forced i n c perm ins : inv i c perm -> nth_error nodes i = Some n -> i = out_idx -> dst ins = out_slot -> (forall s, In s (srcs ins) -> t_slot s <> out_slot) ->
  (forall fr, good c fr -> frame_ok i c (exec (c_prog c) fr) -> exec1 (exec (c_prog c) fr) ins out_slot = vals i) ->
  inv (S i) (mkC (c_al c) (c_res c ++ [mkT out_slot []]) (c_init c) (c_prog c ++ [ins])) perm.
Proof.
  intros I En Ei Ed Hsr Hv. assert (Li : i < N) by (apply nth_error_Some; congruence). pose proof (r_al _ _ _ I) as A.
  eapply (snoc i c perm _ perm (mkT out_slot []) [ins] I Li); cbn [c_al c_res c_prog c_init t_slot]; try reflexivity.
  - apply ainv_next; assumption.
  - apply incl_refl.
  - apply incl_refl.
  - apply (r_init _ _ _ I).
  - auto.
  - apply lay_same.
  - apply (r_idup _ _ _ I).
  - congruence.
  - apply last_same.
  - apply out_res; [lia|congruence].
  - congruence.
  - right. exists ins. split; [reflexivity|]. split; [rewrite Ed; exact Hsr|]. split; [left; auto|]. rewrite Ed. split; [pose proof (layout_len _ _ _ A); lia|left; reflexivity].
  - intros fr Gd _ F. cbn. split; [intros _; apply Hv; assumption|congruence].
Qed.
(** Nodes that share the slot of an earlier one *)
Lemma shared i n c perm d r p : inv i c perm -> nth_error nodes i = Some n -> i <> out_idx -> In d (g_deps n) -> rd (c_res c) d = Some r -> vals i = proj p (vals d) -> ~ computed n ->
  exists a', inherit i d (c_al c) = Some a' /\ inv (S i) (mkC a' (c_res c ++ [mkT (t_slot r) (t_path r ++ [p])]) (c_init c) (c_prog c)) perm.
Proof.
  intros I En Ei Hd Er Ev Hnc. assert (Li : i < N) by (apply nth_error_Some; congruence). pose proof (r_al _ _ _ I) as A. pose proof (Hac i n d En Hd) as Ld.
  destruct (inherit_ok i d (c_al c) perm A Li Ld (Hlu i n d En Hd)) as (a' & o & lo & E & A' & Eo & Lo & El & Oi & Oj & La & Llo & Es & Ef & Elay). exists a'. split; [exact E|].
  assert (No : rd (a_orig a') i <> Some i) by (rewrite Oi; intros C; injection C; lia).
  eapply (snoc i c perm _ perm _ [] I Li); cbn [c_al c_res c_prog c_init t_slot t_path].
  - exact A'.
  - reflexivity.
  - rewrite app_nil_r. reflexivity.
  - apply incl_refl.
  - apply incl_refl.
  - apply (r_init _ _ _ I).
  - auto.
  - rewrite Elay. apply lay_same.
  - apply (r_idup _ _ _ I).
  - intros m Em _ Hc. exfalso. rewrite En in Em. injection Em as <-. contradiction.
  - intros j Hj. apply Oj. lia.
  - intros o' l Ho H1 H2. rewrite La in H1. destruct (o' =? o) eqn:E'; [apply Nat.eqb_eq in E'; subst o'; exists lo; auto|]. exists l. split; [exact H1|lia].
  - intros o' _. rewrite Es. reflexivity.
  - contradiction.
  - destruct (r_res _ _ _ I d r Er) as [(H1 & H2 & H3)|(H1 & o' & ro & H2 & H3 & H4 & H5 & H6)].
    + left. cbn [t_slot t_path]. split; [exact H1|]. split; [lia|]. rewrite Ev, H3, view_app. reflexivity.
    + right. cbn [t_slot t_path]. split; [exact H1|]. exists o, ro. cbn [c_al c_res]. rewrite Eo in H2. injection H2 as <-. split; [exact Oi|]. split; [rewrite rd_app1 by (rewrite (r_len _ _ _ I); lia); exact H3|].
      split; [exact H4|]. split; [exact H5|]. rewrite Ev, H6, view_app. reflexivity.
  - contradiction.
  - left. reflexivity.
  - intros fr _ _ _. cbn. split; [contradiction|]. contradiction.
Qed.
Lemma init_notin c perm i s : inv i c perm -> length (a_layout (c_al c)) <= s -> ~ In s (map fst (c_init c)).
Proof. intros I L C. apply in_map_iff in C as ((s' & v) & E & C). cbn in E. subst s'. apply (r_init _ _ _ I) in C. apply (a_perm _ _ _ (r_al _ _ _ I)) in C. lia. Qed.
Lemma step i n c perm : inv i c perm -> nth_error nodes i = Some n -> exists ins c1 perm', rds (c_res c) (g_deps n) = Some ins /\ construct inputs out_idx out_slot i n ins c = Some c1 /\ inv (S i) c1 perm'.
Proof.
  intros I En. assert (Li : i < N) by (apply nth_error_Some; congruence). pose proof (r_al _ _ _ I) as A. pose proof (r_len _ _ _ I) as Len.
  destruct (rds_some (c_res c) (g_deps n)) as (ins & Eins); [intros d Hd; pose proof (Hac i n d En Hd); lia|]. exists ins.
  pose proof (fun fr => read_deps i n c perm ins fr I En Eins) as Rd. pose proof (Hvals i n En) as Hv. pose proof (Hwf i n En) as Hw. pose proof (layout_len _ _ _ A) as Ll.
  assert (Oi : rd (a_orig (c_al c)) i = Some i) by (apply (a_new _ _ _ A); lia).
  unfold construct. destruct (g_kind n) as [k|v|o|o|p|] eqn:Ek.
  - (* leaf *)
    destruct Hw as (s & Es). rewrite Es. cbn [bind]. unfold maybe_copy. destruct (i =? out_idx) eqn:Eo.
    + eexists. exists perm. split; [exact Eins|]. split; [reflexivity|]. apply Nat.eqb_eq in Eo. eapply (forced i n c perm); try assumption; [reflexivity|intros s' [<-|[]]; apply (Hin _ _ Es)|].
      intros fr Gd (F1 & F2 & F3). cbn. unfold put. rewrite Nat.eqb_refl, Hv. unfold Slots_Model.read. cbn. apply (F3 i n k s); auto.
    + rewrite (inherit_self i _ perm A Li). cbn [bind]. eexists. exists perm. split; [exact Eins|]. split; [reflexivity|]. destruct (Hin _ _ Es) as [H1 H2].
      eapply (snoc i c perm _ perm _ [] I Li); cbn [c_al c_res c_prog c_init t_slot t_path]; try reflexivity.
      * apply ainv_next; assumption.
      * rewrite app_nil_r. reflexivity.
      * apply incl_refl.
      * apply incl_refl.
      * apply (r_init _ _ _ I).
      * auto.
      * apply lay_same.
      * apply (r_idup _ _ _ I).
      * intros m Em _ Hc. exfalso. rewrite En in Em. injection Em as <-. unfold computed in Hc. rewrite Ek in Hc. exact Hc.
      * exact (last_same i (c_al c)).
      * lia.
      * right. split; [exact H2|]. exists i, (mkT s []). cbn [c_al c_res t_slot t_path]. split; [exact Oi|]. split; [rewrite <- Len at 1; apply rd_snoc|]. auto.
      * intros _ _. unfold safe. destruct reuse eqn:Er; [|right; left; split; [reflexivity|exists k; exact Es]]. right. right.
        destruct (rd_lt layout0 s H1) as (ty & Ety). exists ty. rewrite (a_future _ _ _ A i ltac:(lia)). unfold leaf_slot. rewrite En, Ek, Er, Es, Ety. reflexivity.
      * left. reflexivity.
      * intros fr _ _ (F1 & F2 & F3). cbn. split; [lia|]. intros _ _. rewrite Hv. apply (F3 i n k s); auto.
  - (* literal *)
    unfold alloc_permanent, add_slot. set (s := length (a_layout (c_al c))). pose proof (add_ok i (g_ty n) _ perm A) as A1. unfold add_slot in A1. cbn [fst snd] in A1. fold s in A1.
    set (a1 := mkA _ _ _ _ _) in *. set (c0 := mkC a1 (c_res c) (c_init c ++ [(s, v)]) (c_prog c)).
    assert (Gs : forall fr, good c0 fr -> exec (c_prog c) fr s = lit v).
    { intros fr [G _]. rewrite exec_keep; [apply G; apply in_or_app; right; left; reflexivity|]. intros ins' H. apply (r_prog _ _ _ I) in H as [H _]. unfold s. lia. }
    assert (Ii : incl (c_init c) (c_init c0)) by (intros x Hx; apply in_or_app; left; exact Hx).
    assert (Hi : forall s' v', In (s', v') (c_init c0) -> In s' (s :: perm)) by (intros s' v' H; apply in_app_or in H as [H|[H|[]]]; [right; apply (r_init _ _ _ I s' v' H)|injection H as <- <-; left; reflexivity]).
    assert (Hi' : forall s', In s' (map fst (c_init c0)) -> In s' (map fst (c_init c)) \/ s <= s') by (intros s' H; unfold c0 in H; cbn [c_init] in H; rewrite map_app in H; apply in_app_or in H as [H|[H|[]]]; [left; exact H|right; cbn in H; lia]).
    assert (Lay : s <= length (a_layout a1)) by (unfold a1; cbn [a_layout]; rewrite app_length; unfold s; lia).
    assert (Dup : NoDup (map fst (c_init c0))).
    { unfold c0. cbn [c_init]. rewrite map_app. cbn [map fst]. apply NoDup_app_snoc; [apply (r_idup _ _ _ I)|apply (init_notin c perm i s I); unfold s; lia]. }
    unfold maybe_copy. destruct (i =? out_idx) eqn:Eo.
    + apply Nat.eqb_eq in Eo. eexists. exists (s :: perm). split; [exact Eins|]. split; [reflexivity|].
      eapply (snoc i c perm _ (s :: perm) (mkT out_slot []) [_] I Li); cbn [c_al c_res c_prog c_init t_slot]; try reflexivity; try assumption.
      * apply ainv_next; assumption.
      * intros x Hx. right. exact Hx.
      * eexists. reflexivity.
      * congruence.
      * exact (last_same i (c_al c)).
      * apply out_res; [lia|congruence].
      * cbn. congruence.
      * right. eexists. split; [reflexivity|]. cbn [dst srcs]. split; [intros s' [<-|[]]; cbn [t_slot]; unfold s; lia|]. split; [left; auto|]. split; [fold s in Ll; change (out_slot < length (a_layout a1)); lia|left; reflexivity].
      * intros fr Gd _ F. cbn. split; [|congruence]. intros _. unfold put. rewrite Nat.eqb_refl. unfold Slots_Model.read. cbn. rewrite Hv. apply Gs. exact Gd.
    + change (c_al c0) with a1; rewrite (inherit_self i _ (s :: perm) A1 Li). cbn [bind]. eexists. exists (s :: perm). split; [exact Eins|]. split; [reflexivity|].
      eapply (snoc i c perm _ (s :: perm) _ [] I Li); cbn [c_al c_res c_prog c_init t_slot]; try reflexivity; try assumption.
      * apply ainv_next; assumption.
      * rewrite app_nil_r. reflexivity.
      * intros x Hx. right. exact Hx.
      * eexists. reflexivity.
      * intros m Em _ _. rewrite En in Em. injection Em as <-. split; [reflexivity|]. apply rd_snoc.
      * exact (last_same i (c_al c)).
      * lia.
      * right. cbn [t_slot t_path c_al c_res]. split; [unfold s; lia|]. exists i, (mkT s []). split; [exact Oi|]. split; [rewrite <- Len at 1; apply rd_snoc|]. auto.
      * intros _ _. left. left. reflexivity.
      * left. reflexivity.
      * intros fr Gd _ F. cbn. split; [lia|]. intros _ _. rewrite Hv. apply Gs. exact Gd.
  - (* operator *)
    destruct (i =? out_idx) eqn:Eo.
    + apply Nat.eqb_eq in Eo. eexists. exists perm. split; [exact Eins|]. split; [reflexivity|]. apply (forced i n c perm); try assumption; [reflexivity|apply (deps_ne i n c perm ins out_slot I En Eins); left; auto|].
      intros fr Gd F. cbn. unfold put. rewrite Nat.eqb_refl, Hv, (Rd _ F). reflexivity.
    + destruct (alloc_ok i (g_ty n) (c_al c) perm A Li) as (s & a' & E & A' & W & Ns & Eor & El & Ei & Eold & Ls & Lay & Np & Nin & Ety); [unfold leaf_slot; rewrite En, Ek; reflexivity|].
      rewrite E. cbn [bind fst snd]. eexists. exists perm. split; [exact Eins|]. split; [reflexivity|].
      eapply (snoc i c perm _ perm _ [_] I Li); cbn [c_al c_res c_prog c_init t_slot]; try reflexivity; try assumption.
      * apply incl_refl.
      * apply incl_refl.
      * apply (r_init _ _ _ I).
      * auto.
      * apply (r_idup _ _ _ I).
      * intros m Em _ _. rewrite En in Em. injection Em as <-. split; [reflexivity|exact Ety].
      * intros j _. rewrite Eor. reflexivity.
      * rewrite El. exact (last_same i (c_al c)).
      * lia.
      * right. cbn [t_slot t_path c_al c_res]. split; [exact Ns|]. exists i, (mkT s []). rewrite Eor. split; [exact Oi|]. split; [rewrite <- Len at 1; apply rd_snoc|]. auto.
      * intros _ _. right. right. exists (g_ty n). exact Ei.
      * right. eexists. split; [reflexivity|]. cbn [dst srcs]. split; [apply (deps_ne i n c perm ins s I En Eins W)|]. split; [exact W|]. split; [exact Ls|]. right. split; [|exact Nin]. intros C. apply Np. apply in_map_iff in C as ((s' & v) & C1 & C2). cbn in C1. subst s'. apply (r_init _ _ _ I s v C2).
      * intros fr Gd _ F. cbn. split; [lia|]. intros _ _. unfold put. rewrite Nat.eqb_refl, Hv, (Rd _ F). reflexivity.
  - (* operator with a permanent slot *)
    destruct (i =? out_idx) eqn:Eo.
    + apply Nat.eqb_eq in Eo. eexists. exists perm. split; [exact Eins|]. split; [reflexivity|]. apply (forced i n c perm); try assumption; [reflexivity|apply (deps_ne i n c perm ins out_slot I En Eins); left; auto|].
      intros fr Gd F. cbn. unfold put. rewrite Nat.eqb_refl, Hv, (Rd _ F). reflexivity.
    + unfold alloc_permanent, add_slot. set (s := length (a_layout (c_al c))). pose proof (add_ok i (g_ty n) _ perm A) as A1. unfold add_slot in A1. cbn [fst snd] in A1. fold s in A1.
      set (a1 := mkA _ _ _ _ _) in *.
      assert (Lay : s < length (a_layout a1)) by (unfold a1; cbn [a_layout]; rewrite app_length; unfold s; cbn; lia).
      eexists. exists (s :: perm). split; [exact Eins|]. split; [reflexivity|].
      eapply (snoc i c perm _ (s :: perm) _ [_] I Li); cbn [c_al c_res c_prog c_init t_slot]; try reflexivity; try assumption.
      * apply ainv_next; assumption.
      * apply incl_refl.
      * intros x Hx. right. exact Hx.
      * intros s' v' H. right. apply (r_init _ _ _ I s' v' H).
      * auto.
      * eexists. reflexivity.
      * apply (r_idup _ _ _ I).
      * intros m Em _ _. rewrite En in Em. injection Em as <-. split; [reflexivity|apply rd_snoc].
      * exact (last_same i (c_al c)).
      * lia.
      * right. cbn [t_slot t_path c_al c_res]. split; [unfold s; lia|]. exists i, (mkT s []). split; [exact Oi|]. split; [rewrite <- Len at 1; apply rd_snoc|]. auto.
      * intros _ _. left. left. reflexivity.
      * right. eexists. split; [reflexivity|]. cbn [dst srcs]. split; [apply (deps_ne i n c perm ins s I En Eins); right; left; unfold s; lia|]. split; [right; left; unfold s; lia|]. split; [exact Lay|]. right. split; [apply (init_notin c perm i s I); unfold s; lia|]. left. unfold s. lia.
      * intros fr Gd _ F. cbn. split; [lia|]. intros _ _. unfold put. rewrite Nat.eqb_refl, Hv, (Rd _ F). reflexivity.
  - (* view *)
    destruct Hv as (d & Ed & Hv). pose proof Eins as E1. rewrite Ed in E1. cbn [rds] in E1. destruct (rd (c_res c) d) as [r|] eqn:Er; [|discriminate]. cbn [bind] in E1. injection E1 as <-. rewrite Ed.
    assert (Hd : In d (g_deps n)) by (rewrite Ed; left; reflexivity). unfold maybe_copy. destruct (i =? out_idx) eqn:Eo.
    + apply Nat.eqb_eq in Eo. eexists. exists perm. split; [cbn [rds]; rewrite Er; reflexivity|]. split; [reflexivity|]. apply (forced i n c perm); try assumption; [reflexivity|intros s' [<-|[]]; apply (dep_ne i n c perm d r out_slot I En Hd Er); left; auto|].
      intros fr Gd F. pose proof (read_dep i n c perm d r _ I En Hd Er F) as R. unfold Slots_Model.exec1, put. rewrite Nat.eqb_refl, Hv, <- R. unfold Slots_Model.read. cbn [t_slot t_path]. rewrite view_app. reflexivity.
    + destruct (shared i n c perm d r p I En ltac:(lia) Hd Er Hv ltac:(unfold computed; rewrite Ek; auto)) as (a' & -> & I'). cbn [bind]. eexists. exists perm. split; [cbn [rds]; rewrite Er; reflexivity|]. split; [reflexivity|exact I'].
  - (* root *)
    destruct Hw as (t & Ed). destruct Hv as (d & t' & Ed' & Hv). rewrite Ed in Ed'. injection Ed' as <- <-. pose proof (Hac i n out_idx En ltac:(rewrite Ed; left; reflexivity)) as Ld.
    pose proof Eins as E1. rewrite Ed in E1. cbn [rds] in E1. rewrite (r_out _ _ _ I Ld) in E1. cbn [bind] in E1. destruct (rds (c_res c) t) as [rs|]; [|discriminate]. cbn [bind] in E1. injection E1 as <-.
    change (rd (mkT out_slot [] :: rs) 0) with (Some (mkT out_slot [])). cbn [bind]. replace (tslot_eqb (mkT out_slot []) (mkT out_slot [])) with true by (symmetry; apply tslot_eq; reflexivity).
    eexists. exists perm. split; [exact Eins|]. split; [reflexivity|].
    eapply (snoc i c perm _ perm (mkT out_slot []) [] I Li); cbn [c_al c_res c_prog c_init t_slot]; try reflexivity; try assumption.
    + apply ainv_next; assumption.
    + rewrite app_nil_r. reflexivity.
    + apply incl_refl.
    + apply incl_refl.
    + apply (r_init _ _ _ I).
    + auto.
    + apply lay_same.
    + apply (r_idup _ _ _ I).
    + intros m Em _ Hc. exfalso. rewrite En in Em. injection Em as <-. unfold computed in Hc. rewrite Ek in Hc. exact Hc.
    + apply last_same.
    + apply out_res; [lia|exact Hv].
    + cbn. congruence.
    + left. reflexivity.
    + intros fr _ _ _. cbn. split; [lia|congruence].
Qed.
Lemma bind_node_ok i n c perm : inv i c perm -> nth_error nodes i = Some n -> exists c' perm', bind_node inputs out_idx out_slot i n c = Some c' /\ inv (S i) c' perm'.
Proof.
  intros I En. assert (Li : i < N) by (apply nth_error_Some; congruence). destruct (step i n c perm I En) as (ins & c1 & perm' & E1 & E2 & I'). unfold bind_node. rewrite E1. cbn [bind]. rewrite E2. cbn [bind].
  destruct (release_ok i perm' (g_deps n) (c_al c1) (r_al _ _ _ I')) as (a' & E3 & A' & Eo & El & Elay & Es); [intros d Hd; pose proof (Hac i n d En Hd); lia|]. rewrite E3. cbn [bind]. eexists. exists perm'. split; [reflexivity|].
  assert (Lv : forall o r, live (S i) (mkC a' (c_res c1) (c_init c1) (c_prog c1)) o r -> live (S i) c1 o r) by (unfold live; cbn [c_al c_res]; rewrite Eo, El; auto).
  destruct I'. constructor; cbn [c_al c_res c_init c_prog]; try assumption.
  - unfold res_ok in *. cbn [c_al c_res]. rewrite Eo. exact r_res0.
  - intros o r H. destruct (r_live0 o r (Lv o r H)) as [S|[S|(t & S)]]; [left; exact S|right; left; exact S|]. right. right. exists t. destruct (Lv o r H) as (_ & _ & (l & H1 & H2) & _). rewrite (Es o l H1 H2). exact S.
  - rewrite Elay. exact r_type0.
  - rewrite Elay. exact r_prog0.
  - intros fr G. destruct (r_exec0 fr G) as (F1 & F2 & F3). split; [exact F1|]. split; [|exact F3]. intros o r H. apply F2, Lv, H.
Qed.
Lemma bind_loop_ok ns : forall i c perm, inv i c perm -> skipn i nodes = ns -> i + length ns = N -> exists c' perm', bind_loop inputs out_idx out_slot i ns c = Some c' /\ inv N c' perm' /\
  (forall pre n, ns = pre ++ [n] -> exists c1 perm1, inv (i + length pre) c1 perm1 /\ bind_loop inputs out_idx out_slot i pre c = Some c1 /\ bind_node inputs out_idx out_slot (i + length pre) n c1 = Some c').
Proof.
  induction ns as [|n ns IH]; intros i c perm I E L; cbn [bind_loop length] in *.
  - exists c, perm. split; [reflexivity|]. replace N with i by lia. split; [exact I|]. intros [|? ?] ?; discriminate.
  - assert (En : nth_error nodes i = Some n).
    { rewrite <- (firstn_skipn i nodes), E. assert (length (firstn i nodes) = i) by (rewrite firstn_length; unfold N in *; lia). rewrite nth_error_app2, H, Nat.sub_diag by lia. reflexivity. }
    destruct (bind_node_ok i n c perm I En) as (c1 & perm1 & E1 & I1). rewrite E1. cbn [bind].
    assert (E' : skipn (S i) nodes = ns) by (clear -E; revert nodes E; induction i as [|i IHi]; intros [|x l] E; cbn in *; try discriminate; [congruence|apply IHi, E]).
    destruct (IH (S i) c1 perm1 I1 E' ltac:(lia)) as (c' & perm' & E2 & I2 & P). exists c', perm'. split; [exact E2|]. split; [exact I2|].
    intros [|x pre] m Em; cbn [app length] in *.
    + injection Em as -> ->. exists c, perm. rewrite Nat.add_0_r. cbn [bind_loop] in *. injection E2 as <-. split; [exact I|]. split; [reflexivity|exact E1].
    + injection Em as <- Em. destruct (P pre m Em) as (c2 & perm2 & I3 & E3 & E4). exists c2, perm2. replace (i + S (length pre)) with (S i + length pre) by lia. split; [exact I3|]. split; [|exact E4]. cbn [bind_loop]. rewrite E1. exact E3.
Qed.

Lemma leaf_slots_ok ns r : leaf_slots inputs layout0 ns = Some r -> length r = length ns /\
  forall j n, nth_error ns j = Some n -> rd r j = Some (match g_kind n with GLeaf key => match input_of inputs key with Some s => match rd layout0 s with Some ty => Some (ty, s) | None => None end | None => None end | _ => None end).
Proof using.
  revert r. induction ns as [|n ns IH]; intros r H; cbn [leaf_slots] in H; [injection H as <-; split; [reflexivity|intros [|j]; discriminate]|].
  destruct (leaf_slots inputs layout0 ns) as [r'|]; [|discriminate]. cbn [bind] in H. destruct (IH r' eq_refl) as [L R].
  destruct (g_kind n) as [k| | | | |] eqn:Ek.
  2-6: injection H as <-; split; [cbn; rewrite L; reflexivity|]; intros [|j] m Em; [injection Em as <-; rewrite Ek; reflexivity|apply R; exact Em].
  destruct (input_of inputs k) as [s|] eqn:Es; [|discriminate]. cbn [bind] in H. destruct (rd layout0 s) as [ty|] eqn:Et; [|discriminate]. cbn [bind] in H. injection H as <-. split; [cbn; rewrite L; reflexivity|].
  intros [|j] m Em; [injection Em as <-; rewrite Ek, Es, Et; reflexivity|apply R; exact Em].
Qed.
Lemma leaf_slots_def ns : (forall n k, In n ns -> g_kind n = GLeaf k -> exists s, input_of inputs k = Some s) -> exists r, leaf_slots inputs layout0 ns = Some r.
Proof.
  induction ns as [|n ns IH]; intros H; [exists []; reflexivity|]. cbn [leaf_slots]. destruct IH as (r & ->); [intros m k Hm; apply H; right; exact Hm|]. cbn [bind].
  destruct (g_kind n) as [k| | | | |] eqn:Ek; try (eexists; reflexivity). destruct (H n k (or_introl eq_refl) Ek) as (s & Es). rewrite Es. cbn [bind]. destruct (Hin _ _ Es) as [H1 _]. destruct (rd_lt layout0 s H1) as (ty & ->). eexists. reflexivity.
Qed.
Lemma init_inv a : new_alloc nodes inputs layout0 reuse = Some a -> (forall j, j < N -> rd (a_last a) j = Some (lu j)) -> inv 0 (mkC a [] [] []) [].
Proof.
  intros H Hl. unfold new_alloc in H. destruct (usages nodes 0 (repeat 0 (length nodes))) as [last|] eqn:Eu; [|discriminate]. cbn [bind] in H. apply usages_ok in Eu as [Lu _]. rewrite repeat_length in Lu.
  assert (S : exists slots, a = mkA last (seq 0 N) slots (fun _ => []) layout0 /\ length slots = N /\ forall k, k < N -> rd slots k = Some (leaf_slot k)).
  { destruct reuse eqn:Er.
    - destruct (leaf_slots inputs layout0 nodes) as [r|] eqn:E; [|discriminate]. cbn [bind] in H. injection H as <-. exists r. split; [reflexivity|]. destruct (leaf_slots_ok nodes r E) as [L R]. split; [exact L|].
      intros k Hk. destruct (nth_error nodes k) as [n|] eqn:En; [|apply nth_error_None in En; unfold N in Hk; lia]. rewrite (R k n En). unfold leaf_slot. rewrite En, Er. reflexivity.
    - cbn [bind] in H. injection H as <-. eexists. split; [reflexivity|]. rewrite repeat_length. split; [reflexivity|]. intros k Hk. transitivity (Some (@None (nat * nat))); [apply nth_error_repeat; exact Hk|]. unfold leaf_slot. rewrite Er.
      destruct (nth_error nodes k) as [n|]; [|reflexivity]. destruct (g_kind n); reflexivity. }
  destruct S as (slots & -> & Ls & Rs). cbn [a_last] in Hl.
  assert (Hs : forall o t s, rd slots o = Some (Some (t, s)) -> reuse = true /\ exists n k, nth_error nodes o = Some n /\ g_kind n = GLeaf k /\ input_of inputs k = Some s /\ rd layout0 s = Some t).
  { intros o t s Ho. assert (Lo : o < N) by (rewrite <- Ls; apply (rd_Some_lt _ _ _ Ho)). rewrite (Rs o Lo) in Ho. unfold leaf_slot in Ho. destruct (nth_error nodes o) as [n|] eqn:En; [|discriminate].
    destruct (g_kind n) as [k| | | | |] eqn:Ek; try discriminate. destruct reuse; [|discriminate]. split; [reflexivity|]. destruct (input_of inputs k) as [s'|] eqn:Es; [|discriminate]. destruct (rd layout0 s') as [ty|] eqn:Et; [|discriminate].
    injection Ho as <- <-. exists n, k. auto. }
  constructor; cbn [c_al c_res c_init c_prog].
  - constructor; cbn [a_orig a_last a_slot a_free a_layout].
    + apply seq_length.
    + intros j o Hj. lia.
    + intros j Hj. unfold rd. rewrite (nth_error_nth' (seq 0 N) 0) by (rewrite seq_length; lia). rewrite seq_nth by lia. reflexivity.
    + exact Lu.
    + intros j o l Hj. lia.
    + intros j Hj. apply Hl. lia.
    + exact Ls.
    + intros o t s Ho. destruct (Hs o t s Ho) as (Er & n & k & E1 & E2 & E3 & E4). split; [exact E4|]. split; [auto|]. split; [apply (Hin _ _ E3)|]. right. split; [exact Er|exists k; exact E3].
    + intros o o' t t' s H1 H2. destruct (Hs _ _ _ H1) as (Er & n & k & E1 & E2 & E3 & E4). destruct (Hs _ _ _ H2) as (_ & n' & k' & E1' & E2' & E3' & E4'). pose proof (Hinj Er k k' s E3 E3'). subst k'. apply (Hleaf o o' n n' k E1 E1' E2 E2').
    + intros t s [].
    + constructor.
    + intros o t t' s _ [].
    + intros k Hk. apply Rs. lia.
    + intros s [].
    + exists []. rewrite app_nil_r. reflexivity.
  - reflexivity.
  - lia.
  - intros [|j] r; discriminate.
  - intros o r (C & _). lia.
  - intros [|j] n r; discriminate.
  - constructor.
  - intros s v [].
  - intros ins [].
  - intros ins s [].
  - intros fr [_ G]. split; [lia|]. split; [intros o r (C & _); lia|]. intros k n key s _ En Ek Es. cbn. apply (G n key s); [apply (nth_error_In _ _ En)|exact Ek|exact Es].
Qed.
End Bind.

(** ** The bound expression *)
Lemma input_some inputs k s : NoDup (map fst inputs) -> In (k, s) inputs -> input_of inputs k = Some s.
Proof.
  induction inputs as [|[k' s'] l IH]; intros Nd H; [destruct H|]. cbn [input_of map fst] in *. inversion Nd as [|? ? N1 N2]; subst. destruct H as [H|H].
  - injection H as -> ->. replace (keyb k k) with true by (symmetry; apply keyb_eq; reflexivity). reflexivity.
  - destruct (keyb k' k) eqn:E; [|apply IH; assumption]. apply keyb_eq in E. subst. exfalso. apply N1. apply in_map_iff. exists (k, s). auto.
Qed.
Lemma nodup_snd (inputs : list (list nat * nat)) k k' s : NoDup (map snd inputs) -> In (k, s) inputs -> In (k', s) inputs -> k = k'.
Proof.
  induction inputs as [|[k0 s0] l IH]; intros Nd H H'; [destruct H|]. cbn [map snd] in Nd. inversion Nd as [|? ? N1 N2]; subst. destruct H as [H|H], H' as [H'|H'].
  - congruence.
  - injection H as -> ->. exfalso. apply N1. apply in_map_iff. exists (k', s). auto.
  - injection H' as -> ->. exfalso. apply N1. apply in_map_iff. exists (k, s). auto.
  - apply IH; assumption.
Qed.
Section All.
Variable nodes : list gnode.
Variable inputs : list (list nat * nat).
Variable layout : list nat.
Variable reuse : bool.
Variables out_idx out_slot : nat.
Hypothesis W : well_formed nodes inputs layout reuse out_idx out_slot.
Lemma alloc_def : exists a, new_alloc nodes inputs layout reuse = Some a /\ exists lu, (forall j, j < length nodes -> rd (a_last a) j = Some (lu j)) /\
  (forall i n d, nth_error nodes i = Some n -> In d (g_deps n) -> i <= lu d) /\ (forall i, i < length nodes -> i <= lu i).
Proof.
  unfold new_alloc. destruct (usages_def nodes 0 (repeat 0 (length nodes))) as (last & Eu); [intros k n d Ek Hd; apply (wf_acyclic _ _ _ _ _ _ W k n d Ek Hd)|rewrite repeat_length; lia|]. rewrite Eu. cbn [bind].
  apply usages_ok in Eu as [L R]. rewrite repeat_length in L.
  assert (S : exists slots, (if reuse then leaf_slots inputs layout nodes else Some (repeat None (length nodes))) = Some slots).
  { destruct reuse; [|eexists; reflexivity]. apply (leaf_slots_def inputs layout out_slot).
    - intros k s H. apply input_in in H. destruct (wf_inputs _ _ _ _ _ _ W k s H) as [H1 H2]. auto.
    - intros n k Hn Ek. pose proof (wf_args _ _ _ _ _ _ W n Hn) as A. rewrite Ek in A. destruct A as (s & A). exists s. apply input_some; [apply (wf_keys _ _ _ _ _ _ W)|exact A]. }
  destruct S as (slots & ->). cbn [bind]. eexists. split; [reflexivity|]. cbn [a_last]. exists (fun j => nth j last 0).
  assert (Rl : forall j, j < length nodes -> rd last j = Some (nth j last 0)) by (intros j Hj; apply nth_error_nth'; lia).
  split; [exact Rl|]. split.
  - intros i n d En Hd. assert (i < length nodes) by (apply nth_error_Some; congruence). pose proof (wf_acyclic _ _ _ _ _ _ W i n d En Hd) as Ld. destruct (R d) as (_ & B & _).
    specialize (B i n (nth d last 0) En Hd (Rl d ltac:(lia)) ltac:(lia)). lia.
  - intros i Hi. destruct (nth_error nodes i) as [n|] eqn:En; [|apply nth_error_None in En; lia]. destruct (R i) as (_ & _ & C). apply (C i n _ En); [reflexivity|]. apply Rl. exact Hi.
Qed.
Lemma all_inv {V} (lit : nat -> V) opf proj leafv vals : value_ok lit opf proj leafv nodes vals ->
  exists c lu perm, bind_all nodes inputs layout reuse out_idx out_slot = Some c /\
   inv lit opf proj leafv vals nodes inputs layout reuse out_idx out_slot lu (length nodes) c perm /\
   (forall pre n, nodes = pre ++ [n] -> exists c1 perm1, inv lit opf proj leafv vals nodes inputs layout reuse out_idx out_slot lu (length pre) c1 perm1 /\
      bind_node inputs out_idx out_slot (length pre) n c1 = Some c /\
      forall ins fr, rds (c_res c1) (g_deps n) = Some ins -> frame_ok leafv vals nodes inputs out_idx out_slot (length pre) c1 fr -> map (read proj fr) ins = map vals (g_deps n)).
Proof.
  intros Hv. destruct alloc_def as (a & Ea & lu & L1 & L2 & L3).
  assert (Hin : forall k s, input_of inputs k = Some s -> s < length layout /\ s <> out_slot) by (intros k s H; apply input_in in H; apply (wf_inputs _ _ _ _ _ _ W k s H)).
  assert (Hinj : reuse = true -> forall k k' s, input_of inputs k = Some s -> input_of inputs k' = Some s -> k = k') by (intros Er k k' s H H'; apply input_in in H, H'; apply (nodup_snd inputs k k' s); [apply (wf_distinct _ _ _ _ _ _ W Er)|assumption..]).
  assert (Hwf : forall i n, nth_error nodes i = Some n -> match g_kind n with GLeaf k => exists s, input_of inputs k = Some s | GRoot => exists t, g_deps n = out_idx :: t | _ => True end).
  { intros i n En. pose proof (wf_args _ _ _ _ _ _ W n (nth_error_In _ _ En)) as A. destruct (g_kind n) as [k| | | | |]; auto. destruct A as (s & A). exists s. apply input_some; [apply (wf_keys _ _ _ _ _ _ W)|exact A]. }
  pose proof (init_inv lit opf proj leafv vals nodes inputs layout reuse out_idx out_slot lu Hin Hinj (wf_leaves _ _ _ _ _ _ W) (wf_out _ _ _ _ _ _ W) L2 L3 Hwf a Ea L1) as I0.
  destruct (bind_loop_ok lit opf proj leafv vals nodes inputs layout reuse out_idx out_slot lu (wf_acyclic _ _ _ _ _ _ W) Hv Hin Hinj (wf_leaves _ _ _ _ _ _ W) (wf_out _ _ _ _ _ _ W) L2 L3 Hwf nodes 0 _ [] I0 eq_refl eq_refl) as (c & perm & Ec & I & P).
  exists c, lu, perm. unfold bind_all. rewrite Ea. cbn [bind]. rewrite Ec. cbn [bind].
  assert (Hlast : rd (c_res c) (length nodes - 1) = Some (mkT out_slot [])).
  { destruct (wf_last _ _ _ _ _ _ W) as (n & En & Hn). assert (Ln : length nodes - 1 < length nodes) by (apply nth_error_Some; congruence).
    destruct Hn as [Hn|Hn]; [rewrite <- Hn; apply (r_out _ _ _ _ _ _ _ _ _ _ _ _ _ _ _ I); lia|].
    destruct (rd_lt (c_res c) (length nodes - 1)) as (r & Er); [rewrite (r_len _ _ _ _ _ _ _ _ _ _ _ _ _ _ _ I); lia|]. 
    pose proof (wf_args _ _ _ _ _ _ W n (nth_error_In _ _ En)) as A. rewrite Hn in A. destruct A as (t & Ed).
    destruct (exists_last (l := nodes)) as (pre & m & Em); [intros ->; cbn in Ln; lia|]. destruct (P pre m Em) as (c1 & perm1 & I1 & _ & E1). cbn [plus] in *.
    assert (Lp : length nodes - 1 = length pre) by (rewrite Em, app_length; cbn; lia). rewrite Lp in *. assert (m = n) by (rewrite Em, nth_error_app2, Nat.sub_diag in En by lia; injection En; auto). subst m.
    unfold bind_node in E1. destruct (rds (c_res c1) (g_deps n)) as [ins|] eqn:Eins; [|discriminate]. cbn [bind] in E1. unfold construct in E1. rewrite Hn in E1.
    destruct (rd ins 0) as [s0|] eqn:E0; [|discriminate]. cbn [bind] in E1. destruct (tslot_eqb s0 (mkT out_slot [])) eqn:E2; [|discriminate]. cbn [bind] in E1. apply tslot_eq in E2. subst s0.
    destruct (release _ _ _) as [a'|]; [|discriminate]. cbn [bind] in E1. injection E1 as <-. cbn [c_res]. rewrite <- (r_len _ _ _ _ _ _ _ _ _ _ _ _ _ _ _ I1). apply rd_snoc. }
  rewrite Hlast. cbn [bind]. replace (tslot_eqb _ _) with true by (symmetry; apply tslot_eq; reflexivity). split; [reflexivity|]. split; [exact I|].
  intros pre n En. destruct (P pre n En) as (c1 & perm1 & I1 & _ & E1). exists c1, perm1. split; [exact I1|]. split; [exact E1|]. intros ins fr Ei F.
  refine (read_deps lit opf proj leafv vals nodes inputs layout reuse out_idx out_slot lu (wf_acyclic _ _ _ _ _ _ W) Hin Hinj (wf_leaves _ _ _ _ _ _ W) (wf_out _ _ _ _ _ _ W) L2 L3 (length pre) n c1 perm1 ins fr I1 _ Ei F).
  rewrite En, nth_error_app2, Nat.sub_diag by lia. reflexivity.
Qed.
Lemma rds_more (rs : list tslot) x is l : rds rs is = Some l -> rds (rs ++ [x]) is = Some l.
Proof.
  rewrite !rds_ok. intros H. induction H; constructor; [|assumption]. unfold rd in *. rewrite nth_error_app1; [assumption|]. apply nth_error_Some. congruence.
Qed.
Lemma run_ok {V} (lit : nat -> V) opf proj leafv vals c fr : value_ok lit opf proj leafv nodes vals -> bind_all nodes inputs layout reuse out_idx out_slot = Some c ->
  holds_inputs leafv inputs fr -> holds_literals lit (c_init c) fr ->
  exec opf proj (c_prog c) fr out_slot = vals (length nodes - 1) /\
  holds_literals lit (c_init c) (exec opf proj (c_prog c) fr) /\
  (forall s, s < length layout -> s <> out_slot -> (reuse = true -> ~ In s (map snd inputs)) -> exec opf proj (c_prog c) fr s = fr s) /\
  (forall n ins, nth_error nodes (length nodes - 1) = Some n -> g_kind n = GRoot -> rds (c_res c) (g_deps n) = Some ins -> map (read proj (exec opf proj (c_prog c) fr)) ins = map vals (g_deps n)).
Proof.
  intros Hv Ec Hi Hl. destruct (all_inv lit opf proj leafv vals Hv) as (c' & lu & perm & Ec' & I & P). rewrite Ec in Ec'. injection Ec' as <-.
  assert (G : good lit leafv nodes inputs c fr) by (split; [exact Hl|]; intros n k s _ _ Es; apply Hi, input_in, Es).
  destruct (wf_last _ _ _ _ _ _ W) as (m & Em & Hm). assert (Ln : length nodes - 1 < length nodes) by (apply nth_error_Some; congruence).
  assert (Ho : out_idx < length nodes /\ vals (length nodes - 1) = vals out_idx).
  { destruct Hm as [Hm|Hm]; [rewrite Hm; auto|]. pose proof (wf_args _ _ _ _ _ _ W m (nth_error_In _ _ Em)) as A. rewrite Hm in A. destruct A as (t & Ed).
    pose proof (wf_acyclic _ _ _ _ _ _ W _ m out_idx Em ltac:(rewrite Ed; left; reflexivity)). split; [lia|]. pose proof (Hv _ m Em) as Z. rewrite Hm in Z. destruct Z as (d & t' & E1 & E2). rewrite Ed in E1. injection E1 as <- _. exact E2. }
  destruct Ho as [Lo Eo]. pose proof (r_exec _ _ _ _ _ _ _ _ _ _ _ _ _ _ _ I fr G) as F.
  split; [rewrite Eo; apply F; exact Lo|]. split; [|split].
  - intros s v Hs. rewrite (exec_keep opf proj); [apply (Hl s v Hs)|]. intros ins Hins E. destruct (r_prog _ _ _ _ _ _ _ _ _ _ _ _ _ _ _ I ins Hins) as [_ [C|[C _]]].
    + apply (r_init _ _ _ _ _ _ _ _ _ _ _ _ _ _ _ I) in Hs. apply (a_perm _ _ _ _ _ _ _ _ _ (r_al _ _ _ _ _ _ _ _ _ _ _ _ _ _ _ I)) in Hs. pose proof (wf_out _ _ _ _ _ _ W). lia.
    + apply C. rewrite E. apply in_map_iff. exists (s, v). auto.
  - intros s Ls Ns Hr. apply (exec_keep opf proj). intros ins Hins E. destruct (r_prog _ _ _ _ _ _ _ _ _ _ _ _ _ _ _ I ins Hins) as [_ [C|[_ [C|[C (k & C')]]]]]; [congruence|lia|].
    apply (Hr C). apply in_map_iff. exists (k, dst ins). split; [exact E|]. apply input_in, C'.
  - intros n ins En Ek Ei. destruct (exists_last (l := nodes)) as (pre & x & Ex); [intros C; rewrite C in Ln; cbn in Ln; lia|]. destruct (P pre x Ex) as (c1 & perm1 & I1 & E1 & R).
    assert (Lp : length nodes - 1 = length pre) by (rewrite Ex, app_length; cbn; lia). assert (x = n) by (rewrite Lp, Ex, nth_error_app2, Nat.sub_diag in En by lia; injection En; auto). subst x.
    unfold bind_node in E1. destruct (rds (c_res c1) (g_deps n)) as [ins1|] eqn:Eins; [|discriminate]. cbn [bind] in E1. unfold construct in E1. rewrite Ek in E1.
    destruct (rd ins1 0) as [s0|]; [|discriminate]. cbn [bind] in E1. destruct (tslot_eqb s0 (mkT out_slot [])); [|discriminate]. cbn [bind] in E1. destruct (release _ _ _) as [a'|]; [|discriminate]. cbn [bind] in E1. injection E1 as <-. cbn [c_res c_prog c_init] in *.
    rewrite (rds_more _ _ _ _ Eins) in Ei. injection Ei as <-. apply (R ins1 _ eq_refl). apply (r_exec _ _ _ _ _ _ _ _ _ _ _ _ _ _ _ I1). exact G.
Qed.
Lemma wf_values : exists vals, value_ok (fun _ => tt) (fun _ _ => tt) (fun _ _ => tt) (fun _ => tt) nodes vals.
Proof.
  exists (fun _ => tt). intros i n En. pose proof (wf_args _ _ _ _ _ _ W n (nth_error_In _ _ En)) as A. destruct (g_kind n); try reflexivity; [destruct A as (d & A); exists d; auto|destruct A as (t & A); exists out_idx, t; auto].
Qed.
Lemma binds : exists c, bind_all nodes inputs layout reuse out_idx out_slot = Some c.
Proof. destruct wf_values as (vals & Hv). destruct (all_inv _ _ _ _ _ Hv) as (c & _ & _ & E & _). exists c. exact E. Qed.
Lemma static c : bind_all nodes inputs layout reuse out_idx out_slot = Some c ->
  NoDup (map fst (c_init c)) /\ (forall s v, In (s, v) (c_init c) -> length layout <= s < length (a_layout (c_al c))) /\ (exists more, a_layout (c_al c) = layout ++ more) /\
  (forall ins, In ins (c_prog c) -> dst ins < length (a_layout (c_al c)) /\ forall s, In s (srcs ins) -> t_slot s <> dst ins) /\
  (forall j n, nth_error nodes j = Some n -> j <> out_idx -> computed n -> exists s, rd (c_res c) j = Some (mkT s []) /\ rd (a_layout (c_al c)) s = Some (g_ty n)).
Proof.
  intros Ec. destruct wf_values as (vals & Hv). destruct (all_inv _ _ _ _ _ Hv) as (c' & lu & perm & E & I & _). rewrite Ec in E. injection E as <-.
  split; [apply (r_idup _ _ _ _ _ _ _ _ _ _ _ _ _ _ _ I)|]. split; [|split; [|split]].
  - intros s v H. apply (a_perm _ _ _ _ _ _ _ _ _ (r_al _ _ _ _ _ _ _ _ _ _ _ _ _ _ _ I)). apply (r_init _ _ _ _ _ _ _ _ _ _ _ _ _ _ _ I s v H).
  - apply (a_lay _ _ _ _ _ _ _ _ _ (r_al _ _ _ _ _ _ _ _ _ _ _ _ _ _ _ I)).
  - intros ins H. split; [apply (r_prog _ _ _ _ _ _ _ _ _ _ _ _ _ _ _ I ins H)|]. intros s Hs. apply (r_alias _ _ _ _ _ _ _ _ _ _ _ _ _ _ _ I ins s H Hs).
  - intros j n En Hj Hc. destruct (rd_lt (c_res c) j) as ([s p] & Er); [rewrite (r_len _ _ _ _ _ _ _ _ _ _ _ _ _ _ _ I); apply nth_error_Some; congruence|].
    destruct (r_type _ _ _ _ _ _ _ _ _ _ _ _ _ _ _ I j n _ Er En Hj Hc) as [T1 T2]. cbn in T1, T2. subst p. exists s. auto.
Qed.
Lemma init_frame_ok {V} (lit : nat -> V) l : NoDup (map fst l) -> forall fr, holds_literals lit l (init_frame lit l fr) /\ forall s, ~ In s (map fst l) -> init_frame lit l fr s = fr s.
Proof.
  clear. induction l as [|[s v] l IH]; intros Nd fr; [split; [intros s v []|auto]|]. cbn [map fst] in *. inversion Nd as [|? ? N1 N2]; subst. destruct (IH N2 (put fr s (lit v))) as [H1 H2].
  change (init_frame lit ((s, v) :: l) fr) with (init_frame lit l (put fr s (lit v))). split.
  - intros s' v' [H|H]; [|apply H1; exact H]. injection H as <- <-. rewrite H2 by assumption. unfold put. rewrite Nat.eqb_refl. reflexivity.
  - intros s' Hs. rewrite H2 by (intros C; apply Hs; right; exact C). unfold put. replace (s' =? s) with false; [reflexivity|]. symmetry. apply Nat.eqb_neq. intros ->. apply Hs. left. reflexivity.
Qed.
End All.
