(** Proofs for [OpPick_Spec]: the operators. *)
From Verif Require Import Base Visit_Model Visit_Proofs Lambda_Model Lambda_Spec Lambda_Proofs OpPick_Model OpPick_Spec OpPick_Proofs OpPick_Main.

Lemma type_sequence_spec type_of l : forall seq, type_sequence type_of l = Some seq <-> types_as type_of l seq.
Proof.
  induction l as [|a t IH]; intros seq; cbn [type_sequence].
  - split; [intros [= <-]; constructor|intros H; inversion H; reflexivity].
  - split.
    + destruct (qtype type_of a) as [[|x]|] eqn:Ea; [discriminate| |]; destruct (type_sequence type_of t) as [r|] eqn:Et; try discriminate;
        cbn [bind]; intros [= <-]; constructor; try (apply IH; reflexivity); rewrite Ea; auto.
    + intros H. inversion H as [|? y ? r Hy Hr]; subst. apply IH in Hr. rewrite Hr. destruct (qtype type_of a) as [[|x]|]; cbn [bind].
      * destruct Hy as [_ X]. contradiction.
      * destruct Hy as [-> _]. reflexivity.
      * subst y. reflexivity.
Qed.
Lemma type_sequence_none type_of l : type_sequence type_of l = None <-> exists a, In a l /\ qtype type_of a = Some 0.
Proof.
  induction l as [|a t IH]; cbn [type_sequence].
  - split; [discriminate|intros [a [[] _]]].
  - destruct (qtype type_of a) as [[|x]|] eqn:Ea.
    + split; [|reflexivity]. intros _. exists a. split; [left; reflexivity|exact Ea].
    + destruct (type_sequence type_of t) as [r|]; cbn [bind]; (split; [|]).
      * discriminate.
      * intros [b [[<-|Hb] Eb]]; [congruence|]. assert (X : exists a, In a t /\ qtype type_of a = Some 0) by eauto. apply IH in X. discriminate.
      * intros _. destruct (proj1 IH eq_refl) as [b [Hb Eb]]. exists b. split; [right; exact Hb|exact Eb].
      * reflexivity.
    + destruct (type_sequence type_of t) as [r|]; cbn [bind]; (split; [|]).
      * discriminate.
      * intros [b [[<-|Hb] Eb]]; [congruence|]. assert (X : exists a, In a t /\ qtype type_of a = Some 0) by eauto. apply IH in X. discriminate.
      * intros _. destruct (proj1 IH eq_refl) as [b [Hb Eb]]. exists b. split; [right; exact Hb|exact Eb].
      * reflexivity.
Qed.

Section Lookup.
Variable type_of : nat -> nat.
Variable infer : nat -> list attr -> oerr + attr.
Notation lookup := (lookup type_of infer).
Notation accepts := (accepts type_of infer).
Notation cannot_tell := (cannot_tell type_of infer).
Notation rejects := (rejects infer).
Lemma lookup_spec ops l :
  match lookup ops l with
  | inl Invalid => forall o, In o ops -> rejects l o
  | inl (Other x) => exists pre o post, ops = pre ++ o :: post /\ (forall p, In p pre -> rejects l p) /\ infer o l = inl (Other x)
  | inr (None, a) => a = ANone /\ exists pre o post, ops = pre ++ o :: post /\ (forall p, In p pre -> rejects l p) /\ cannot_tell l o
  | inr (Some o, a) => exists pre post, ops = pre ++ o :: post /\ (forall p, In p pre -> rejects l p) /\ accepts l o a
  end.
Proof.
  induction ops as [|o t IH]; cbn [OpPick_Model.lookup]; [intros o []|].
  destruct (infer o l) as [[|x]|a] eqn:Eo.
  - destruct (lookup t l) as [[|y]|[[p|] a]].
    + intros q [<-|Hq]; [exact Eo|auto].
    + destruct IH as [pre [q [post [-> [H1 H2]]]]]. exists (o :: pre), q, post. split; [reflexivity|]. split; [|exact H2]. intros z [<-|Hz]; [exact Eo|auto].
    + destruct IH as [pre [post [-> [H1 H2]]]]. exists (o :: pre), post. split; [reflexivity|]. split; [|exact H2]. intros z [<-|Hz]; [exact Eo|auto].
    + destruct IH as [-> [pre [q [post [-> [H1 H2]]]]]]. split; [reflexivity|]. exists (o :: pre), q, post. split; [reflexivity|]. split; [|exact H2]. intros z [<-|Hz]; [exact Eo|auto].
  - exists [], o, t. split; [reflexivity|]. split; [intros p []|exact Eo].
  - destruct (qtype type_of a) as [ty|] eqn:Ea.
    + exists [], t. split; [reflexivity|]. split; [intros p []|]. split; [exact Eo|eauto].
    + split; [reflexivity|]. exists [], o, t. split; [reflexivity|]. split; [intros p []|]. exists a. auto.
Qed.
Lemma lookup_skip pre o post l : (forall p, In p pre -> rejects l p) -> lookup (pre ++ o :: post) l = lookup (o :: post) l.
Proof.
  induction pre as [|p pre IH]; intros H; [reflexivity|]. cbn [app OpPick_Model.lookup]. assert (X := H p (or_introl eq_refl)). unfold OpPick_Spec.rejects in X. rewrite X. apply IH. intros q Hq. apply H. right. exact Hq.
Qed.
Lemma lookup_accept pre o post l a : (forall p, In p pre -> rejects l p) -> accepts l o a -> lookup (pre ++ o :: post) l = inr (Some o, a).
Proof. intros H [H1 [t H2]]. rewrite lookup_skip by exact H. cbn [OpPick_Model.lookup]. rewrite H1, H2. reflexivity. Qed.
Lemma lookup_stable ops l l' : settled type_of infer -> Forall2 (below type_of) l l' ->
  (forall o a, lookup ops l = inr (Some o, a) -> exists a', lookup ops l' = inr (Some o, a') /\ below type_of a a') /\
  (lookup ops l = inl Invalid -> lookup ops l' = inl Invalid).
Proof.
  intros Hs Hb. split.
  - intros o a H. assert (S := lookup_spec ops l). rewrite H in S. destruct S as [pre [post [-> [H1 H2]]]].
    destruct (proj2 (Hs o l l' Hb) a H2) as [a' [H3 H4]]. exists a'. split; [|exact H4]. apply lookup_accept; [|exact H3].
    intros p Hp. apply (proj1 (Hs p l l' Hb)). apply H1, Hp.
  - intros H. assert (S := lookup_spec ops l). rewrite H in S. clear H. induction ops as [|o t IH]; [reflexivity|]. cbn [OpPick_Model.lookup].
    rewrite (proj1 (Hs o l l' Hb) (S o (or_introl eq_refl))). apply IH. intros p Hp. apply S. right. exact Hp.
Qed.
End Lookup.

Section Ops.
Context {E : Type}.
Variable I : nat -> list val -> E + val.
Variable tuple_type : list nat -> nat.
Variable type_of : nat -> nat.
Variable infer : nat -> list attr -> oerr + attr.
Variable lower : nat -> node -> option (oerr + node).
Lemma dispatch_lower_same d self a ds t : dispatch_infer I tuple_type type_of infer d (map attr_of ds) = Some (inr a) -> qtype type_of a = Some t ->
  exists i o, nth_error (d_ops d) i = Some o /\ infer o (map attr_of ds) = inr a /\
    dispatch_lower I tuple_type type_of lower d self a ds = match lower o (Op o a ds) with Some (inl e) => Some (inl (Inner e)) | Some (inr m) => Some (inr m) | None => None end.
Proof.
  unfold dispatch_infer, dispatch_lower. rewrite map_length. intros H Ha. rewrite Ha.
  destruct (negb (count_ok (d_sig d) (length ds))); [discriminate|]. destruct (type_sequence type_of (map attr_of ds)) as [seq|]; [|discriminate].
  destruct (get_overload I tuple_type (length (d_ops d)) (d_prep d) seq) as [[e|[i|]]|]; cbn [bind] in *; [discriminate| | |discriminate].
  - unfold rd in *. destruct (nth_error (d_ops d) i) as [o|] eqn:Eo; cbn [bind] in *; [|discriminate]. exists i, o. split; [exact Eo|].
    destruct (infer o (map attr_of ds)) as [e|a'] eqn:Ei; [discriminate|]. injection H as <-. split; [reflexivity|].
    destruct (lower o (Op o a' ds)) as [[e|m]|]; reflexivity.
  - injection H as <-. discriminate.
Qed.
End Ops.
