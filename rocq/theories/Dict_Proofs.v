From Coq Require Import ZArith Permutation.
From Verif Require Import Base Dict_Model Dict_Spec.
Local Open Scope Z_scope.

Section Dict.
Variable K : Type.
Variable eqb : K -> K -> bool.
Hypothesis eqb_ok : forall a b, eqb a b = true <-> a = b.
Notation lookup := (lookup K eqb).
Notation make_loop := (make_loop K eqb).

Lemma lookup_none k m : lookup k m = None <-> ~ In k (map fst m).
Proof.
  induction m as [|(x, r) m IH]; cbn [Dict_Model.lookup map fst In]; [tauto|].
  destruct (eqb x k) eqn:E.
  - apply eqb_ok in E; subst. split; [discriminate|tauto].
  - rewrite IH. split; [|tauto]. intros H [->|G]; [|auto]. rewrite (proj2 (eqb_ok k k) eq_refl) in E. discriminate.
Qed.
Lemma lookup_in k m r : NoDup (map fst m) -> lookup k m = Some r <-> In (k, r) m.
Proof.
  induction m as [|(x, q) m IH]; cbn [Dict_Model.lookup map fst In]; intros D; [split; [discriminate|tauto]|].
  inversion D as [|? ? N D']; subst. destruct (eqb x k) eqn:E.
  - apply eqb_ok in E; subst. split; [intros [= ->]; auto|]. intros [[= ->]|H]; [reflexivity|].
    exfalso. apply N. apply (in_map fst) in H. exact H.
  - rewrite (IH D'). split; [auto|]. intros [[= -> ->]|H]; [|exact H].
    rewrite (proj2 (eqb_ok k k) eq_refl) in E. discriminate.
Qed.

(** The rows of [pre] are in the map. *)
Definition covers (pre : list (option K)) (m : dict K) : Prop :=
  NoDup (map fst m) /\ (forall k r, In (k, r) m -> key_at pre r k) /\
  (forall k r, key_at pre r k -> In k (map fst m)).
Lemma key_at_app pre t r (k : K) : key_at pre r k -> key_at (pre ++ t) r k.
Proof.
  intros (A & B). split; [exact A|]. rewrite nth_error_app1; [exact B|]. apply nth_error_Some. congruence.
Qed.
Lemma key_at_snoc pre x r (k : K) : key_at (pre ++ [x]) r k -> key_at pre r k \/ (r = Z.of_nat (length pre) /\ x = Some k).
Proof.
  intros (A & B). destruct (Nat.lt_ge_cases (Z.to_nat r) (length pre)) as [L|L].
  - left. split; [exact A|]. rewrite nth_error_app1 in B; assumption.
  - right. rewrite nth_error_app2 in B by exact L.
    destruct (Z.to_nat r - length pre)%nat as [|j] eqn:E; cbn [nth_error] in B; [|destruct j; discriminate].
    split; [lia|congruence].
Qed.
Lemma key_at_last pre t (k : K) : key_at (pre ++ Some k :: t) (Z.of_nat (length pre)) k.
Proof. split; [lia|]. rewrite Nat2Z.id, nth_error_app2, Nat.sub_diag by lia. reflexivity. Qed.
Lemma covers_none pre m : covers pre m -> covers (pre ++ [None]) m.
Proof.
  intros (D & A & B). split; [exact D|]. split.
  - intros k r I. apply key_at_app, A, I.
  - intros k r I. apply key_at_snoc in I. destruct I as [I|(_ & I)]; [apply (B _ _ I)|discriminate].
Qed.
Lemma covers_dup pre m k : covers pre m -> In k (map fst m) -> covers (pre ++ [Some k]) m.
Proof.
  intros (D & A & B) H. split; [exact D|]. split.
  - intros x r I. apply key_at_app, A, I.
  - intros x r I. apply key_at_snoc in I. destruct I as [I|(_ & I)]; [apply (B _ _ I)|congruence].
Qed.
Lemma covers_new pre m k : covers pre m -> ~ In k (map fst m) ->
  covers (pre ++ [Some k]) (m ++ [(k, Z.of_nat (length pre))]).
Proof.
  intros (D & A & B) H. split; [|split].
  - rewrite map_app. cbn [map fst]. rewrite <- (rev_involutive (map fst m ++ [k])). apply NoDup_rev.
    rewrite rev_app_distr. cbn [rev app]. constructor; [rewrite <- in_rev; exact H|apply NoDup_rev, D].
  - intros x r I. apply in_app_iff in I. destruct I as [I|[[= <- <-]|[]]]; [apply key_at_app, A, I|apply key_at_last].
  - intros x r I. rewrite map_app, in_app_iff. apply key_at_snoc in I.
    destruct I as [I|(_ & I)]; [left; apply (B _ _ I)|right; left; cbn; congruence].
Qed.
Lemma key_at_lt pre r (k : K) : key_at pre r k -> 0 <= r < Z.of_nat (length pre).
Proof. intros (A & B). assert (Z.to_nat r < length pre)%nat by (apply nth_error_Some; congruence). lia. Qed.
Lemma distinct_pre pre t : @distinct K (pre ++ t) -> distinct pre.
Proof. intros D k r r' A B. apply (D k); apply key_at_app; assumption. Qed.
Lemma distinct_none pre : @distinct K (pre ++ [None]) <-> distinct pre.
Proof.
  split; [apply distinct_pre|]. intros D k r r' A B. apply key_at_snoc in A, B.
  destruct A as [A|(_ & A)]; [|discriminate]. destruct B as [B|(_ & B)]; [|discriminate]. apply (D k); assumption.
Qed.
Lemma distinct_dup pre m k : covers pre m -> In k (map fst m) -> ~ distinct (pre ++ [Some k]).
Proof.
  intros (_ & A & _) H D. apply in_map_iff in H. destruct H as ((k', r) & E & I). cbn in E; subst k'. apply A in I.
  pose proof (D k r (Z.of_nat (length pre)) (key_at_app _ _ _ _ I) (key_at_last _ _ _)). apply key_at_lt in I. lia.
Qed.
Lemma distinct_new pre m k : covers pre m -> ~ In k (map fst m) -> distinct (pre ++ [Some k]) <-> distinct pre.
Proof.
  intros (_ & _ & B) H. split; [apply distinct_pre|]. intros D x r r' P Q. apply key_at_snoc in P, Q.
  destruct P as [P|(P & EP)], Q as [Q|(Q & EQ)].
  - apply (D x); assumption.
  - exfalso. apply H. injection EQ as ->. apply (B _ _ P).
  - exfalso. apply H. injection EP as ->. apply (B _ _ Q).
  - congruence.
Qed.
Lemma make_loop_ok keys : forall pre m ok m' ok', covers pre m -> (ok = true <-> distinct pre) ->
  make_loop keys (Z.of_nat (length pre)) m ok = (m', ok') ->
  covers (pre ++ keys) m' /\ (ok' = true <-> distinct (pre ++ keys)).
Proof.
  induction keys as [|x t IH]; intros pre m ok m' ok' C O; cbn [Dict_Model.make_loop].
  { intros [= <- <-]. rewrite app_nil_r. split; assumption. }
  replace (pre ++ x :: t) with ((pre ++ [x]) ++ t) by (rewrite <- app_assoc; reflexivity).
  assert (L : Z.of_nat (length pre) + 1 = Z.of_nat (length (pre ++ [x]))) by (rewrite app_length; cbn [length]; lia).
  rewrite L. destruct x as [k|].
  - destruct (lookup k m) as [r|] eqn:E.
    + assert (I : In k (map fst m)).
      { destruct C as (D & _). apply (lookup_in _ _ _ D) in E. apply (in_map fst) in E. exact E. }
      apply IH; [apply covers_dup; assumption|]. split; [discriminate|]. intros D. exfalso.
      apply (distinct_dup _ _ _ C I D).
    + apply lookup_none in E. apply IH; [apply covers_new; assumption|]. rewrite (distinct_new _ _ _ C E). exact O.
  - apply IH; [apply covers_none, C|]. rewrite distinct_none. exact O.
Qed.
Lemma make_ok keys : match make_dict K eqb keys with
  | inr m => distinct keys /\ NoDup (map fst m) /\ forall k r, In (k, r) m <-> key_at keys r k
  | inl e => e = EDuplicate /\ ~ distinct keys
  end.
Proof.
  unfold make_dict. destruct (Dict_Model.make_loop K eqb keys 0 [] true) as (m, ok) eqn:E.
  destruct (make_loop_ok keys [] [] true m ok) as (C & O).
  - split; [constructor|]. split; [intros k r []|]. intros k r (_ & H). destruct (Z.to_nat r); discriminate.
  - split; [|reflexivity]. intros _ k r r' (_ & H). destruct (Z.to_nat r); discriminate.
  - exact E.
  - cbn [app] in C, O. destruct ok.
    + pose proof (proj1 O eq_refl) as D. destruct C as (N & A & B). split; [exact D|]. split; [exact N|].
      intros k r. split; [apply A|]. intros H. pose proof (B _ _ H) as I. apply in_map_iff in I.
      destruct I as ((k', r') & Ek & I). cbn in Ek; subst k'. rewrite (D k r r' H (A _ _ I)). exact I.
    + split; [reflexivity|]. intros D. apply O in D. discriminate.
Qed.
End Dict.

Section Keys.
Variable K : Type.
Lemma nth_error_same {A} (a : list A) : forall b, (forall i, nth_error a i = nth_error b i) -> a = b.
Proof.
  induction a as [|x a IH]; intros [|y b] H; [reflexivity|specialize (H 0%nat); discriminate|specialize (H 0%nat); discriminate|].
  pose proof (H 0%nat) as E. cbn [nth_error] in E. injection E as ->. f_equal. apply IH. intros i. apply (H (S i)).
Qed.
Lemma put_length (l : list (option K)) : forall i k, length (put K l i k) = length l.
Proof. induction l as [|x l IH]; intros [|i] k; cbn [put length]; auto. Qed.
Lemma put_same (l : list (option K)) : forall i k, (i < length l)%nat -> nth_error (put K l i k) i = Some (Some k).
Proof. induction l as [|x l IH]; intros [|i] k H; cbn [put length nth_error] in *; try lia; [reflexivity|]. apply IH; lia. Qed.
Lemma put_other (l : list (option K)) : forall i j k, i <> j -> nth_error (put K l i k) j = nth_error l j.
Proof. induction l as [|x l IH]; intros [|i] [|j] k H; cbn [put nth_error]; try reflexivity; [lia|]. apply IH; lia. Qed.
Lemma set_rows_ok n es : forall acc acc', length acc = n -> set_rows K n es acc = Some acc' ->
  length acc' = n /\ Forall (fun e => 0 <= snd e < Z.of_nat n) es /\
  (forall i k, nth_error acc' i = Some (Some k) -> In (k, Z.of_nat i) es \/ nth_error acc i = Some (Some k)) /\
  (forall i, (exists k, nth_error acc i = Some (Some k)) \/ (exists k, In (k, Z.of_nat i) es) ->
     exists k, nth_error acc' i = Some (Some k)).
Proof.
  induction es as [|(k, r) es IH]; intros acc acc' L; cbn [set_rows].
  - intros [= <-]. split; [exact L|]. split; [constructor|]. split; [auto|]. intros i [H|(k & [])]; exact H.
  - destruct (Z.ltb_spec r 0) as [|R0]; cbn [orb]; [discriminate|].
    destruct (Z.leb_spec (Z.of_nat n) r) as [|R1]; [discriminate|]. intros H.
    apply IH in H; [|rewrite put_length; exact L]. destruct H as (A & B & C & D).
    split; [exact A|]. split; [constructor; [cbn; lia|exact B]|]. split.
    + intros i x H. apply C in H. destruct H as [H|H]; [left; right; exact H|].
      destruct (Nat.eq_dec (Z.to_nat r) i) as [<-|N].
      * rewrite put_same in H by lia. injection H as ->. left; left. f_equal. lia.
      * rewrite put_other in H by exact N. right; exact H.
    + intros i H. apply D. destruct (Nat.eq_dec (Z.to_nat r) i) as [<-|N].
      * left. exists k. apply put_same. lia.
      * destruct H as [(x & H)|(x & [[= -> ->]|H])].
        -- left. exists x. rewrite put_other by exact N. exact H.
        -- exfalso. apply N. lia.
        -- right. exists x. exact H.
Qed.
Lemma set_rows_some n es : forall acc, Forall (fun e => 0 <= snd e < Z.of_nat n) es -> exists acc', set_rows K n es acc = Some acc'.
Proof.
  induction es as [|(k, r) es IH]; intros acc F; cbn [set_rows]; [eexists; reflexivity|].
  inversion F as [|? ? H F']; subst. cbn in H.
  destruct (Z.ltb_spec r 0); [lia|]. destruct (Z.leb_spec (Z.of_nat n) r); [lia|]. cbn [orb]. apply IH, F'.
Qed.
Lemma all_present_ok l : forall ks, all_present K l = Some ks <-> l = map Some ks.
Proof.
  induction l as [|[k|] l IH]; intros ks; cbn [all_present].
  - destruct ks; cbn; split; intros; congruence.
  - destruct (all_present K l) as [t|] eqn:E; cbn [option_map].
    + pose proof (proj1 (IH t) eq_refl) as ->. destruct ks as [|x ks]; cbn [map]; split; try discriminate.
      * intros [= <- <-]. reflexivity.
      * intros [= <- H]. f_equal. pose proof (proj2 (IH ks) H) as G. congruence.
    + split; [discriminate|]. destruct ks as [|x ks]; cbn [map]; [discriminate|]. intros [= <- H].
      pose proof (proj2 (IH ks) H). discriminate.
  - destruct ks; cbn; split; discriminate.
Qed.
Definition entries (ks : list K) : list (K * Z) := combine ks (map Z.of_nat (seq 0 (length ks))).
Lemma combine_in (ks : list K) : forall n k z, In (k, z) (combine ks (map Z.of_nat (seq n (length ks)))) <->
  Z.of_nat n <= z /\ nth_error ks (Z.to_nat z - n) = Some k.
Proof.
  induction ks as [|x ks IH]; intros n k z; cbn [length seq map combine In].
  - split; [tauto|]. intros (_ & H). destruct (Z.to_nat z - n)%nat; discriminate.
  - rewrite IH. split.
    + intros [[= -> <-]|(A & B)].
      * split; [lia|]. rewrite Nat2Z.id, Nat.sub_diag. reflexivity.
      * split; [lia|]. replace (Z.to_nat z - n)%nat with (S (Z.to_nat z - S n)) by lia. exact B.
    + intros (A & B). destruct (Z.to_nat z - n)%nat as [|j] eqn:E.
      * left. cbn [nth_error] in B. injection B as ->. f_equal. lia.
      * right. split; [lia|]. replace (Z.to_nat z - S n)%nat with j by lia. exact B.
Qed.
Lemma entries_in ks k z : In (k, z) (entries ks) <-> 0 <= z /\ nth_error ks (Z.to_nat z) = Some k.
Proof. unfold entries. rewrite combine_in. rewrite Nat.sub_0_r. reflexivity. Qed.
Lemma NoDup_combine (ks : list K) : forall n, NoDup (combine ks (map Z.of_nat (seq n (length ks)))).
Proof.
  induction ks as [|x ks IH]; intros n; cbn [length seq map combine]; constructor; [|apply IH].
  rewrite combine_in. lia.
Qed.
Lemma entries_length ks : length (entries ks) = length ks.
Proof. unfold entries. rewrite combine_length, map_length, seq_length. lia. Qed.
Lemma nth_map_some (ks : list K) i k : nth_error (map Some ks) i = Some (Some k) <-> nth_error ks i = Some k.
Proof. rewrite nth_error_map. destruct (nth_error ks i); cbn; split; intros; congruence. Qed.
Lemma nth_repeat_none n i (k : K) : nth_error (repeat None n) i <> Some (Some k).
Proof. intros H. apply nth_error_In, repeat_spec in H. discriminate. Qed.
Lemma dict_keys_ok es ks : NoDup es -> dict_keys K es = inr ks <-> lists es ks.
Proof.
  intros N. unfold dict_keys, lists. split.
  - destruct (set_rows K (length es) es _) as [acc|] eqn:S; [|discriminate].
    destruct (all_present K acc) as [ks'|] eqn:P; [|discriminate]. intros [= ->].
    apply all_present_ok in P. subst acc. apply set_rows_ok in S; [|apply repeat_length].
    destruct S as (L & _ & B & _). rewrite map_length in L.
    assert (I1 : incl (entries ks) es).
    { intros (k, z) H. apply entries_in in H. destruct H as (Z0 & H). apply nth_map_some in H. apply B in H.
      destruct H as [H|H]; [rewrite Z2Nat.id in H by exact Z0; exact H|]. apply nth_repeat_none in H. destruct H. }
    assert (I2 : incl es (entries ks)).
    { apply NoDup_length_incl; [apply NoDup_combine|rewrite entries_length; lia|exact I1]. }
    intros k r. rewrite <- entries_in. split; [apply I2|apply I1].
  - intros H. assert (P : Permutation es (entries ks)).
    { apply NoDup_Permutation; [exact N|apply NoDup_combine|]. intros (k, z). rewrite entries_in. apply H. }
    assert (L : length es = length ks) by (rewrite (Permutation_length P); apply entries_length).
    destruct (set_rows_some (length es) es (repeat None (length es))) as (acc & S).
    { apply Forall_forall. intros (k, r) I. apply H in I. destruct I as (A & B). cbn [snd].
      assert (Z.to_nat r < length ks)%nat by (apply nth_error_Some; congruence). lia. }
    rewrite S. apply set_rows_ok in S; [|apply repeat_length]. destruct S as (LA & _ & B & C).
    replace (all_present K acc) with (Some ks); [reflexivity|]. symmetry. apply all_present_ok.
    apply nth_error_same. intros i. destruct (nth_error ks i) as [k|] eqn:E.
    + rewrite nth_error_map, E. cbn [option_map]. destruct (C i) as (k' & G).
      { right. exists k. apply H. rewrite Nat2Z.id. split; [lia|exact E]. }
      rewrite G. apply B in G. destruct G as [G|G]; [|apply nth_repeat_none in G; destruct G].
      apply H in G. rewrite Nat2Z.id, E in G. destruct G as (_ & G). congruence.
    + rewrite nth_error_map, E. apply nth_error_None in E. apply nth_error_None. lia.
Qed.
Lemma tail_missing (ks : list K) : forall keys,
  (forall i k, nth_error keys i = Some (Some k) <-> nth_error ks i = Some k) <-> exists n, keys = map Some ks ++ repeat None n.
Proof.
  induction ks as [|x ks IH]; intros keys; split.
  - intros H. exists (length keys). cbn [map app]. apply nth_error_same. intros i.
    destruct (nth_error keys i) as [[k|]|] eqn:E.
    + apply H in E. destruct i; discriminate.
    + symmetry. rewrite (nth_error_nth' _ None) by (rewrite repeat_length; apply nth_error_Some; congruence).
      rewrite nth_repeat. reflexivity.
    + symmetry. apply nth_error_None. rewrite repeat_length. apply nth_error_None, E.
  - intros (n & ->) i k. cbn [map app]. split; [intros H; apply nth_repeat_none in H; destruct H|destruct i; discriminate].
  - intros H. pose proof (proj2 (H 0%nat x) eq_refl) as E. destruct keys as [|y keys]; [discriminate|].
    cbn [nth_error] in E. injection E as ->. destruct (proj1 (IH keys)) as (n & ->).
    { intros i k. apply (H (S i) k). }
    exists n. reflexivity.
  - intros (n & ->) [|i] k; cbn [map app nth_error]; [split; congruence|].
    apply (proj2 (IH (map Some ks ++ repeat None n))). exists n. reflexivity.
Qed.
End Keys.
