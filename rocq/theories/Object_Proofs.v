(** Proofs for [Object_Spec]. *)
From Coq Require Import Sorted Permutation.
From Verif Require Import Base Object_Model Object_Spec.

Lemma kq a : forall b, key_eqb a b = true <-> a = b.
Proof.
  induction a as [|x a IH]; intros [|y b]; cbn [key_eqb]; try (split; congruence).
  rewrite andb_true_iff, Nat.eqb_eq, IH. split; [intros [-> ->]; reflexivity|intros [= -> ->]; auto].
Qed.
Lemma klt a : forall b, key_ltb a b = true <-> key_lt a b.
Proof.
  induction a as [|x a IH]; intros [|y b]; cbn [key_ltb].
  - split; [discriminate|intros H; inversion H].
  - split; [constructor|reflexivity].
  - split; [discriminate|intros H; inversion H].
  - rewrite orb_true_iff, andb_true_iff, Nat.ltb_lt, Nat.eqb_eq, IH. split.
    + intros [H|[-> H]]; [apply lt_head|apply lt_tail]; exact H.
    + intros H. inversion H; subst; auto.
Qed.
Lemma klt_irrefl a : ~ key_lt a a.
Proof. induction a as [|x a IH]; intros H; inversion H; subst; [lia|auto]. Qed.
Lemma klt_trans a b c : key_lt a b -> key_lt b c -> key_lt a c.
Proof.
  intros H. revert c. induction H as [x b|x y a b L|x a b L IH]; intros c Hc; inversion Hc; subst; first [apply lt_nil|apply lt_head; lia|apply lt_tail, IH; assumption].
Qed.
Lemma klt_total a : forall b, key_lt a b \/ a = b \/ key_lt b a.
Proof.
  induction a as [|x a IH]; intros [|y b]; [auto|left; constructor|right; right; constructor|].
  destruct (Nat.lt_trichotomy x y) as [H|[->|H]]; [left; constructor; exact H| |right; right; constructor; exact H].
  destruct (IH b) as [H|[->|H]]; [left; apply lt_tail; exact H|auto|right; right; apply lt_tail; exact H].
Qed.

Section P.
Context {V : Type}.
Lemma find_spec (a : list (key * V)) : is_map a -> forall k v, find a k = Some v <-> maps a k v.
Proof.
  unfold is_map, maps. induction a as [|[x w] t IH]; intros Hn k v; cbn [find].
  - split; [discriminate|intros []].
  - inversion Hn as [|? ? Hx Ht]; subst. destruct (key_eqb x k) eqn:E.
    + apply kq in E. subst k. split; [intros [= ->]; left; reflexivity|]. intros [[= ->]|H]; [reflexivity|]. exfalso. apply Hx. apply (in_map fst) in H. exact H.
    + rewrite (IH Ht). split; [intros H; right; exact H|]. intros [[= -> ->]|H]; [|exact H]. rewrite (proj2 (kq k k) eq_refl) in E. discriminate.
Qed.
Lemma find_none (a : list (key * V)) k : find a k = None <-> ~ In k (map fst a).
Proof.
  induction a as [|[x w] t IH]; cbn [find map In fst].
  - split; [intros _ []|reflexivity].
  - destruct (key_eqb x k) eqn:E.
    + apply kq in E. subst. split; [discriminate|]. intros H. exfalso. auto.
    + rewrite IH. split; [|tauto]. intros H [->|Hk]; [rewrite (proj2 (kq k k) eq_refl) in E; discriminate|auto].
Qed.
Lemma get_attr_spec (o : obj V) : well o -> forall k v, get_attr o k = Some v <-> attr_is o k v.
Proof.
  unfold well, attr_is. induction o as [|a|a p IH]; cbn [levels get_attr]; intros Hw k v.
  - split; [discriminate|]. intros [[|[|i]] [a [Ha [H _]]]]; [injection Ha as <-; destruct H|discriminate|discriminate].
  - inversion Hw; subst. rewrite find_spec by assumption. split.
    + intros H. exists 0, a. split; [reflexivity|]. split; [exact H|]. intros; lia.
    + intros [[|[|i]] [b [Hb [H _]]]]; [injection Hb as <-; exact H|discriminate|discriminate].
  - inversion Hw as [|? ? Ha Hp]; subst. specialize (IH Hp k v). destruct (find a k) as [w|] eqn:Ef.
    + apply (find_spec a Ha) in Ef. split.
      * intros [= ->]. exists 0, a. split; [reflexivity|]. split; [exact Ef|]. intros; lia.
      * intros [[|i] [b [Hb [H Hn]]]].
        -- injection Hb as <-. apply (find_spec a Ha) in Ef, H. congruence.
        -- exfalso. apply (Hn 0 a w); [lia|reflexivity|exact Ef].
    + rewrite IH. assert (N : forall w, ~ maps a k w) by (intros w H; apply (find_spec a Ha) in H; congruence). split.
      * intros [i [b [Hb [H Hn]]]]. exists (S i), b. split; [exact Hb|]. split; [exact H|]. intros [|j] c w Hj Hc; [injection Hc as <-; apply N|].
        apply (Hn j); [lia|exact Hc].
      * intros [[|i] [b [Hb [H Hn]]]]; [injection Hb as <-; destruct (N v H)|]. exists i, b. split; [exact Hb|]. split; [exact H|].
        intros j c w Hj Hc. apply (Hn (S j)); [lia|exact Hc].
Qed.
Lemma well_attrs (o : obj V) : well o -> is_map (attributes o).
Proof. unfold well. destruct o; cbn; intros H; inversion H; subst; [constructor|assumption|assumption]. Qed.

(** sorting *)
Definition before (x y : key * V) : Prop := key_lt (fst x) (fst y).
Lemma srt_strict srt (a : list (key * V)) : sorts srt -> is_map a -> Permutation (srt a) a /\ StronglySorted before (srt a) /\ is_map (srt a).
Proof.
  intros Hs Hm. destruct (Hs a) as [P S]. split; [exact P|].
  assert (M : is_map (srt a)) by (apply (Permutation_NoDup (l := map fst a)); [apply Permutation_map, Permutation_sym, P|exact Hm]).
  split; [|exact M]. clear P Hm. revert S M. unfold is_map. induction (srt a) as [|x l IH]; intros S M; [constructor|].
  inversion S as [|? ? S1 S2]; subst. inversion M as [|? ? M1 M2]; subst. constructor; [auto|]. rewrite Forall_forall in *. intros y Hy. unfold before.
  destruct (klt_total (fst x) (fst y)) as [H|[H|H]]; [exact H| |].
  - exfalso. apply M1. rewrite H. apply in_map. exact Hy.
  - apply klt in H. rewrite (S2 y Hy) in H. discriminate.
Qed.
Lemma sorted_ext (l m : list (key * V)) : StronglySorted before l -> StronglySorted before m -> (forall x, In x l <-> In x m) -> l = m.
Proof.
  revert m. induction l as [|x l IH]; intros m Hl Hm H.
  - destruct m as [|y m]; [reflexivity|]. destruct (proj2 (H y) (or_introl eq_refl)).
  - destruct m as [|y m]; [destruct (proj1 (H x) (or_introl eq_refl))|].
    inversion Hl as [|? ? L1 L2]; subst. inversion Hm as [|? ? M1 M2]; subst. rewrite Forall_forall in L2, M2.
    assert (x = y) as <-.
    { destruct (proj1 (H x) (or_introl eq_refl)) as [->|A]; [reflexivity|]. destruct (proj2 (H y) (or_introl eq_refl)) as [->|B]; [reflexivity|].
      exfalso. apply (klt_irrefl (fst x)). apply (klt_trans _ (fst y)); [apply L2, B|apply M2, A]. }
    f_equal. apply IH; [exact L1|exact M1|]. intros z. split; intros Hz.
    + destruct (proj1 (H z) (or_intror Hz)) as [<-|A]; [|exact A]. exfalso. apply (klt_irrefl (fst x)). apply L2, Hz.
    + destruct (proj2 (H z) (or_intror Hz)) as [<-|A]; [|exact A]. exfalso. apply (klt_irrefl (fst x)). apply M2, Hz.
Qed.

Lemma emplace_spec (a : list (key * V)) k v : is_map a -> is_map (fst (emplace a k v)) /\
  (snd (emplace a k v) = true <-> ~ In k (map fst a)) /\
  (forall x, find (fst (emplace a k v)) x = match find a x with Some w => Some w | None => if key_eqb k x then Some v else None end).
Proof.
  intros Hm. unfold emplace. destruct (find a k) as [w|] eqn:E; cbn [fst snd].
  - split; [exact Hm|]. split.
    + split; [discriminate|]. intros H. apply find_none in H. congruence.
    + intros x. destruct (find a x) eqn:Ex; [reflexivity|]. destruct (key_eqb k x) eqn:Ek; [|reflexivity]. apply kq in Ek. subst. congruence.
  - apply find_none in E. split; [constructor; [exact E|exact Hm]|]. split; [tauto|]. intros x. cbn [find]. destruct (key_eqb k x) eqn:Ek; [|destruct (find a x); reflexivity].
    apply kq in Ek. subst. rewrite (proj2 (find_none a x) E). reflexivity.
Qed.
Lemma put_fields_spec (fields : list (key * V)) : forall a, is_map a -> is_map (put_fields a fields) /\
  forall x, find (put_fields a fields) x = match find a x with Some w => Some w | None => find fields x end.
Proof.
  induction fields as [|[k v] t IH]; intros a Hm; cbn [put_fields].
  - split; [exact Hm|]. intros x. destruct (find a x); reflexivity.
  - destruct (emplace_spec a k v Hm) as [E1 [_ E3]]. destruct (IH _ E1) as [I1 I2]. split; [exact I1|]. intros x. rewrite I2, E3. cbn [find].
    destruct (find a x); [reflexivity|]. destruct (key_eqb k x); reflexivity.
Qed.
Lemma put_all_spec (inputs : list V) : forall keys a i, is_map a -> i + length keys <= length inputs ->
  match put_all a keys inputs i with
  | None => False
  | Some (inr a') => (forall k, In k keys -> ~ In k (map fst a)) /\ NoDup keys /\ Permutation a' (combine keys (skipn i inputs) ++ a)
  | Some (inl (DuplicateKey k)) => In k keys /\ (In k (map fst a) \/ ~ NoDup keys)
  | Some (inl _) => False
  end.
Proof.
  induction keys as [|k t IH]; intros a i Hm Hl; cbn [put_all].
  - split; [intros k []|]. split; [constructor|]. reflexivity.
  - cbn [length] in Hl. unfold rd. destruct (nth_error inputs i) as [v|] eqn:Ei; [|apply nth_error_None in Ei; lia]. cbn [bind].
    assert (K : skipn i inputs = v :: skipn (S i) inputs).
    { clear - Ei. revert i Ei. induction inputs as [|y l IH]; intros [|i] Ei; try discriminate; [injection Ei as ->; reflexivity|]. cbn [nth_error] in Ei. cbn [skipn]. rewrite (IH i Ei). reflexivity. }
    destruct (emplace_spec a k v Hm) as [E1 [E2 _]]. unfold emplace in *. destruct (find a k) as [w|] eqn:Ef; cbn [fst snd] in *.
    + split; [left; reflexivity|]. left. destruct (in_dec (list_eq_dec Nat.eq_dec) k (map fst a)) as [X|X]; [exact X|]. apply find_none in X. congruence.
    + apply find_none in Ef. specialize (IH ((k, v) :: a) (S i) E1 ltac:(lia)). destruct (put_all ((k, v) :: a) t inputs (S i)) as [[[|x|]|a']|]; try contradiction.
      * destruct IH as [H1 H2]. split; [right; exact H1|]. cbn [map fst In] in H2. destruct H2 as [[<-|H2]|H2]; [right|left; exact H2|right].
        -- intros N. inversion N. contradiction.
        -- intros N. inversion N. contradiction.
      * destruct IH as [H1 [H2 H3]]. split; [|split].
        -- intros x [<-|Hx]; [exact Ef|]. intros X. apply (H1 x Hx). right. exact X.
        -- constructor; [|exact H2]. intros X. apply (H1 k X). left. reflexivity.
        -- rewrite H3, K. cbn [combine app]. symmetry. apply Permutation_middle.
Qed.
End P.
