(** Proofs for [Object_Spec]: fingerprints and serialization. *)
From Coq Require Import Sorted Permutation.
From Verif Require Import Base Object_Model Object_Spec Object_Proofs.

Section M.
Context {V F : Type}.
Variable fp : V -> F.
Variable veq : V -> V -> Prop.
Variable srt : list (key * V) -> list (key * V).
Hypothesis Hs : sorts srt.
Notation attr_tokens := (attr_tokens fp).
Notation tokens := (tokens fp srt).

Definition level_tokens (L : list (list (key * V))) : list (@token F) := flat_map (fun a => TStr obj_tag :: attr_tokens (srt a)) L.
Lemma tokens_levels o : tokens o = level_tokens (levels o).
Proof.
  induction o as [|a|a p IH]; unfold level_tokens; cbn [Object_Model.tokens levels flat_map app]; unfold sorted_attributes; cbn [attributes]; [reflexivity|reflexivity|].
  rewrite IH. reflexivity.
Qed.
Definition start (r : list (@token F)) : Prop :=
  match r with [] => True | TStr _ :: TFp _ :: _ => False | TStr _ :: _ => True | TFp _ :: _ => False end.
Lemma level_start L : start (level_tokens L).
Proof.
  unfold level_tokens. destruct L as [|a L]; [exact Logic.I|]. cbn [flat_map app start].
  destruct (srt a) as [|[k v] t]; cbn; [|exact Logic.I]. destruct L; cbn; exact Logic.I.
Qed.
Definition g (p : key * V) : key * F := (fst p, fp (snd p)).
Lemma split_attrs l : forall m r r', start r -> start r' -> attr_tokens l ++ r = attr_tokens m ++ r' -> map g l = map g m /\ r = r'.
Proof.
  unfold Object_Model.attr_tokens. induction l as [|[k v] l IH]; intros [|[k' v'] m] r r' Hr Hr' H; cbn [flat_map app fst snd] in H.
  - auto.
  - subst r. destruct Hr.
  - subst r'. destruct Hr'.
  - injection H as <- E H. destruct (IH m r r' Hr Hr' H) as [H1 H2]. split; [|exact H2]. cbn [map]. rewrite H1. unfold g at 1 3. cbn [fst snd]. rewrite E. reflexivity.
Qed.
Section Eq.
Hypothesis Hfp : forall v w, fp v = fp w <-> veq v w.
Lemma g_same a b : is_map a -> is_map b -> map g (srt a) = map g (srt b) <-> same_map veq a b.
Proof.
  intros Ha Hb. destruct (srt_strict srt a Hs Ha) as [P1 [S1 _]]. destruct (srt_strict srt b Hs Hb) as [P2 [S2 _]].
  assert (I1 : forall x, In x (srt a) <-> In x a) by (intros x; split; apply Permutation_in; [exact P1|apply Permutation_sym, P1]).
  assert (I2 : forall x, In x (srt b) <-> In x b) by (intros x; split; apply Permutation_in; [exact P2|apply Permutation_sym, P2]).
  split.
  - intros E. split; intros k v H.
    + apply I1 in H. apply (in_map g) in H. rewrite E in H. apply in_map_iff in H. destruct H as [[k' w] [H1 H2]]. injection H1 as -> H1. exists w. split; [apply I2, H2|apply Hfp; auto].
    + apply I2 in H. apply (in_map g) in H. rewrite <- E in H. apply in_map_iff in H. destruct H as [[k' w] [H1 H2]]. injection H1 as -> H1. exists w. split; [apply I1, H2|apply Hfp; auto].
  - intros [A B].
    assert (S : forall l : list (key * V), StronglySorted before l -> StronglySorted before (map g l)).
    { induction 1 as [|x l H1 IH H2]; cbn; [constructor|]. constructor; [exact IH|]. apply Forall_forall. intros y Hy. apply in_map_iff in Hy. destruct Hy as [z [<- Hz]].
      rewrite Forall_forall in H2. apply (H2 z Hz). }
    apply sorted_ext; [apply S, S1|apply S, S2|]. intros [k f]. rewrite !in_map_iff. split.
    + intros [[k' v] [[= -> E] H]]. apply I1 in H. destruct (A k v H) as [w [H1 H2]]. exists (k, w). split; [|apply I2, H1]. unfold g. cbn [fst snd]. apply Hfp in H2. congruence.
    + intros [[k' v] [[= -> E] H]]. apply I2 in H. destruct (B k v H) as [w [H1 H2]]. exists (k, w). split; [|apply I1, H1]. unfold g. cbn [fst snd]. apply Hfp in H2. congruence.
Qed.
Lemma attr_tokens_g l m : map g l = map g m -> attr_tokens l = attr_tokens m.
Proof.
  revert m. induction l as [|[k v] l IH]; intros [|[k' v'] m] H; try discriminate; [reflexivity|]. cbn [map] in H. injection H as -> E H. cbn. rewrite E. unfold Object_Model.attr_tokens in IH. rewrite (IH m H). reflexivity.
Qed.
Theorem tokens_same o o' : well o -> well o' -> tokens o = tokens o' <-> same veq o o'.
Proof.
  unfold well, same. rewrite !tokens_levels. revert o'. intros o'. generalize (levels o), (levels o'). clear o o'. unfold level_tokens.
  induction l as [|a l IH]; intros [|b m] Hl Hm; cbn [flat_map app].
  - split; [constructor|reflexivity].
  - split; [discriminate|intros H; inversion H].
  - split; [discriminate|intros H; inversion H].
  - inversion Hl as [|? ? La Ll]; subst. inversion Hm as [|? ? Mb Mm]; subst. split.
    + intros [= H]. destruct (split_attrs (srt a) (srt b) _ _ (level_start l) (level_start m) H) as [H1 H2]. constructor; [apply g_same; assumption|]. apply IH; assumption.
    + intros H. inversion H as [|? ? ? ? H1 H2]; subst. apply g_same in H1; [|assumption..]. apply IH in H2; [|assumption..]. rewrite (attr_tokens_g _ _ H1), H2. reflexivity.
Qed.
End Eq.

Lemma same_attr o o' : well o -> well o' -> same veq o o' -> forall k,
  (forall v, attr_is o k v -> exists w, attr_is o' k w /\ veq v w) /\ (forall w, attr_is o' k w -> exists v, attr_is o k v /\ veq v w).
Proof.
  unfold same, attr_is, well. generalize (levels o), (levels o'). intros L M _ _ H k.
  assert (N : forall i a, nth_error L i = Some a -> exists b, nth_error M i = Some b /\ same_map veq a b).
  { clear - H. induction H as [|x y L M Hxy H IH]; intros [|i] a Ha; try discriminate; [injection Ha as <-; exists y; split; [reflexivity|exact Hxy]|exact (IH i a Ha)]. }
  assert (N' : forall i b, nth_error M i = Some b -> exists a, nth_error L i = Some a /\ same_map veq a b).
  { clear - H. induction H as [|x y L M Hxy H IH]; intros [|i] a Ha; try discriminate; [injection Ha as <-; exists x; split; [reflexivity|exact Hxy]|exact (IH i a Ha)]. }
  split.
  - intros v [i [a [Ha [Hv Hn]]]]. destruct (N i a Ha) as [b [Hb [S1 S2]]]. destruct (S1 k v Hv) as [w [Hw E]]. exists w. split; [|exact E]. exists i, b. split; [exact Hb|]. split; [exact Hw|].
    intros j c x Hj Hc Hx. destruct (N' j c Hc) as [d [Hd [_ T2]]]. destruct (T2 k x Hx) as [y [Hy _]]. exact (Hn j d y Hj Hd Hy).
  - intros v [i [a [Ha [Hv Hn]]]]. destruct (N' i a Ha) as [b [Hb [S1 S2]]]. destruct (S2 k v Hv) as [w [Hw E]]. exists w. split; [|exact E]. exists i, b. split; [exact Hb|]. split; [exact Hw|].
    intros j c x Hj Hc Hx. destruct (N j c Hc) as [d [Hd [T1 _]]]. destruct (T1 k x Hx) as [y [Hy _]]. exact (Hn j d y Hj Hd Hy).
Qed.

End M.
Section D.
Context {V : Type}.
Variable as_obj : V -> option (obj V).
Lemma in_combine_nth {A B} (l : list A) : forall (m : list B) x y, In (x, y) (combine l m) <-> exists i, nth_error l i = Some x /\ nth_error m i = Some y.
Proof.
  induction l as [|a l IH]; intros m x y; cbn [combine].
  - split; [intros []|intros [[|i] [H _]]; discriminate].
  - destruct m as [|b m]; [split; [intros []|intros [[|i] [_ H]]; discriminate]|]. cbn [In]. rewrite IH. split.
    + intros [[= -> ->]|[i H]]; [exists 0; auto|exists (S i); exact H].
    + intros [[|i] [H1 H2]]; [left; cbn in H1, H2; congruence|right; exists i; auto].
Qed.
Theorem decode_spec keys inputs :
  match decode as_obj keys inputs with
  | None => False
  | Some (inl WrongSize) => length inputs <> length keys /\ length inputs <> S (length keys)
  | Some (inl (DuplicateKey k)) => In k keys /\ ~ NoDup keys
  | Some (inl NotAnObject) => NoDup keys /\ exists v, nth_error inputs (length keys) = Some v /\ as_obj v = None
  | Some (inr o) => NoDup keys /\ is_map (attributes o) /\
      (forall k v, maps (attributes o) k v <-> exists i, nth_error keys i = Some k /\ nth_error inputs i = Some v) /\
      match prototype o with
      | None => length inputs = length keys
      | Some p => length inputs = S (length keys) /\ exists v, nth_error inputs (length keys) = Some v /\ as_obj v = Some p
      end
  end.
Proof.
  unfold decode. destruct (negb (length inputs =? length keys) && negb (length inputs =? length keys + 1)) eqn:El.
  - apply andb_true_iff in El. rewrite !negb_true_iff, !Nat.eqb_neq in El. lia.
  - assert (L : length inputs = length keys \/ length inputs = S (length keys)).
    { apply andb_false_iff in El. rewrite !negb_false_iff, !Nat.eqb_eq in El. lia. }
    assert (P := put_all_spec inputs keys [] 0 (NoDup_nil _) ltac:(cbn; lia)).
    destruct (put_all [] keys inputs 0) as [[[|k|]|a]|]; try contradiction; cbn [bind].
    + destruct P as [P1 [[]|P2]]. auto.
    + destruct P as [_ [P1 P2]]. rewrite app_nil_r in P2. cbn [skipn] in P2.
      assert (A : forall k v, maps a k v <-> exists i, nth_error keys i = Some k /\ nth_error inputs i = Some v).
      { intros k v. unfold maps. rewrite <- in_combine_nth. split; apply Permutation_in; [exact P2|apply Permutation_sym, P2]. }
      assert (M : is_map a).
      { unfold is_map. apply (Permutation_NoDup (l := map fst (combine keys inputs))); [apply Permutation_map, Permutation_sym, P2|].
        assert (map fst (combine keys inputs) = keys) as ->; [|exact P1]. clear - L. assert (L' : length keys <= length inputs) by lia. clear L. revert inputs L'.
        induction keys as [|k t IH]; intros [|v l] H; cbn in *; [reflexivity|reflexivity|lia|]. rewrite IH by lia. reflexivity. }
      destruct (length keys <? length inputs) eqn:Eb.
      * apply Nat.ltb_lt in Eb. unfold rd. replace (length inputs - 1) with (length keys) by lia.
        destruct (nth_error inputs (length keys)) as [v|] eqn:Ev; [|apply nth_error_None in Ev; lia]. cbn [bind]. destruct (as_obj v) as [p|] eqn:Ep.
        -- cbn [attributes prototype]. split; [exact P1|]. split; [exact M|]. split; [exact A|]. split; [lia|]. eauto.
        -- split; [exact P1|]. eauto.
      * apply Nat.ltb_ge in Eb. cbn [attributes prototype]. split; [exact P1|]. split; [exact M|]. split; [exact A|]. lia.
Qed.
End D.
Lemma F2_nth {A B} (R : A -> B -> Prop) l m : Forall2 R l m -> forall i x, nth_error l i = Some x -> exists y, nth_error m i = Some y /\ R x y.
Proof. induction 1 as [|a b l m Hab H IH]; intros [|i] x Hx; try discriminate; [injection Hx as <-; exists b; split; [reflexivity|exact Hab]|exact (IH i x Hx)]. Qed.
Lemma F2_nth' {A B} (R : A -> B -> Prop) l m : Forall2 R l m -> forall i y, nth_error m i = Some y -> exists x, nth_error l i = Some x /\ R x y.
Proof. induction 1 as [|a b l m Hab H IH]; intros [|i] x Hx; try discriminate; [injection Hx as <-; exists a; split; [reflexivity|exact Hab]|exact (IH i x Hx)]. Qed.
Lemma F2_len {A B} (R : A -> B -> Prop) l m : Forall2 R l m -> length l = length m.
Proof. induction 1; cbn; congruence. Qed.
Section R.
Context {V : Type}.
Variable veq : V -> V -> Prop.
Variable srt : list (key * V) -> list (key * V).
Hypothesis Hs : sorts srt.
Variable of_obj : obj V -> V.
Variable as_obj : V -> option (obj V).
Theorem decode_encode o inputs : well o ->
  (forall p w, veq (of_obj p) w -> exists p', as_obj w = Some p' /\ same veq p p') ->
  Forall2 veq (snd (encode of_obj srt o)) inputs ->
  exists o', decode as_obj (fst (encode of_obj srt o)) inputs = Some (inr o') /\ is_map (attributes o') /\ same veq o o'.
Proof.
  intros Hw Ho Hi. assert (Hm := well_attrs o Hw). destruct (srt_strict srt (attributes o) Hs Hm) as [P [_ M]].
  unfold encode, sorted_attributes in *. cbn [fst snd] in *. set (l := srt (attributes o)) in *.
  assert (I1 : forall x, In x l <-> In x (attributes o)) by (intros x; split; apply Permutation_in; [exact P|apply Permutation_sym, P]).
  assert (L := F2_len _ _ _ Hi). rewrite app_length, map_length in L.
  assert (D := decode_spec as_obj (map fst l) inputs). rewrite map_length in D.
  assert (Last : forall p, prototype o = Some p -> exists w, nth_error inputs (length l) = Some w /\ veq (of_obj p) w).
  { intros p Hp. rewrite Hp in Hi. apply (F2_nth _ _ _ Hi). rewrite nth_error_app2 by (rewrite map_length; lia). rewrite map_length, Nat.sub_diag. reflexivity. }
  destruct (decode as_obj (map fst l) inputs) as [[[|k|]|o']|] eqn:Ed.
  - exfalso. destruct (prototype o); cbn [length] in L; lia.
  - destruct D as [_ D]. contradiction.
  - exfalso. destruct D as [_ [v [Hv Hn]]]. assert (length l < length inputs) by (apply nth_error_Some; congruence).
    destruct (prototype o) as [p|] eqn:Ep; [|cbn [length] in L; lia]. destruct (Last p eq_refl) as [w [Hw1 Hw2]]. destruct (Ho p w Hw2) as [p' [Hp' _]]. congruence.
  - exists o'. split; [reflexivity|]. destruct D as [_ [Hm' [A B]]]. split; [exact Hm'|].
    assert (SM : same_map veq (attributes o) (attributes o')).
    { split; intros k v H.
      - apply I1 in H. apply In_nth_error in H. destruct H as [i H].
        assert (X : nth_error (map snd l ++ match prototype o with Some p => [of_obj p] | None => [] end) i = Some v).
        { rewrite nth_error_app1 by (rewrite map_length; apply nth_error_Some; congruence). rewrite (map_nth_error snd _ _ H). reflexivity. }
        destruct (F2_nth _ _ _ Hi i v X) as [w [H1 H2]]. exists w. split; [|exact H2]. apply A. exists i. split; [rewrite (map_nth_error fst _ _ H); reflexivity|exact H1].
      - apply A in H. destruct H as [i [H1 H2]]. destruct (F2_nth' _ _ _ Hi i v H2) as [x [H3 H4]]. exists x. split; [|exact H4]. apply I1.
        assert (Li : i < length l) by (rewrite <- (map_length fst); apply nth_error_Some; congruence).
        rewrite nth_error_app1 in H3 by (rewrite map_length; exact Li). destruct (nth_error l i) as [[k' v']|] eqn:El; [|apply nth_error_None in El; lia].
        rewrite (map_nth_error fst _ _ El) in H1. rewrite (map_nth_error snd _ _ El) in H3. cbn in H1, H3. injection H1 as ->. injection H3 as ->. apply nth_error_In in El. exact El. }
    unfold same. destruct (prototype o) as [p|] eqn:Ep.
    + destruct (Last p eq_refl) as [w [Hw1 Hw2]]. destruct (Ho p w Hw2) as [p' [Hp1 Hp2]]. cbn [length] in L. destruct (prototype o') as [q|] eqn:Eq; [|lia].
      destruct B as [_ [v [Hv Hq]]]. assert (q = p') as -> by congruence.
      destruct o as [|a|a p0]; try discriminate. destruct o' as [|a'|a' p1]; try discriminate. cbn in Ep, Eq. injection Ep as ->. injection Eq as ->. cbn [levels]. constructor; [exact SM|exact Hp2].
    + cbn [length] in L. destruct (prototype o') as [q|] eqn:Eq; [destruct B; lia|].
      destruct o as [|a|a p0]; try discriminate; destruct o' as [|a'|a' p1]; try discriminate; cbn [levels attributes] in *; repeat constructor; apply SM.
  - contradiction.
Qed.
End R.
