(** Lemmas for C67: expressions, maps and names. *)
From Verif Require Import Base While_Model While_Spec Text_Model Text_Spec Text_Edit.

Section MapOptL.
Context {A B : Type}.
Lemma map_opt_ext (f g : A -> option B) l : (forall x, In x l -> f x = g x) -> map_opt f l = map_opt g l.
Proof.
  induction l as [|x t IH]; intros H; [reflexivity|]. cbn [map_opt]. rewrite (H x) by (left; reflexivity).
  rewrite IH by (intros y Y; apply H; right; exact Y). reflexivity.
Qed.
Lemma map_opt_map {C} (f : A -> option B) (g : C -> A) l : map_opt f (map g l) = map_opt (fun x => f (g x)) l.
Proof. induction l as [|x t IH]; [reflexivity|]. cbn [map map_opt]. rewrite IH. reflexivity. Qed.
Lemma map_opt_Some (f : A -> option B) l r : map_opt f l = Some r <-> Forall2 (fun x y => f x = Some y) l r.
Proof.
  revert r; induction l as [|x t IH]; intros r; cbn [map_opt].
  - split; [intros E; injection E as <-; constructor|intros F; inversion F; reflexivity].
  - split.
    + destruct (f x) eqn:E; [|discriminate]. cbn. destruct (map_opt f t) as [r'|] eqn:E'; [|discriminate]. cbn.
      intros I; injection I as <-. constructor; [exact E|]. apply IH; reflexivity.
    + intros F; inversion F as [|? y ? t' Hx Ht]; subst. rewrite Hx. cbn. apply IH in Ht. rewrite Ht. reflexivity.
Qed.
Lemma map_opt_None (f : A -> option B) l : map_opt f l = None <-> exists x, In x l /\ f x = None.
Proof.
  induction l as [|x t IH]; cbn [map_opt].
  - split; [discriminate|intros (x & [] & _)].
  - destruct (f x) eqn:E; cbn.
    + destruct (map_opt f t) eqn:E'; cbn.
      * split; [discriminate|]. intros (y & [->|Y] & N); [congruence|]. enough (Some l = None) by discriminate. apply IH; eauto.
      * split; [|reflexivity]. intros _. destruct (proj1 IH eq_refl) as (y & Y & N). eauto.
    + split; [|reflexivity]. intros _. exists x. auto.
Qed.
Lemma map_opt_length (f : A -> option B) l r : map_opt f l = Some r -> length r = length l.
Proof. intros H. apply map_opt_Some in H. induction H; cbn; congruence. Qed.
Lemma map_opt_nth (f : A -> option B) l r i : map_opt f l = Some r ->
  nth_error r i = match nth_error l i with Some x => f x | None => None end.
Proof.
  intros H. apply map_opt_Some in H. revert i; induction H as [|x y t t' E F IH]; intros [|i]; cbn; auto.
Qed.
End MapOptL.

(** ** Maps *)
Lemma get_nil {A} k : get (@nil (key * A)) k = None. Proof. reflexivity. Qed.
Lemma get_cons {A} c (m : list (key * A)) k : get (c :: m) k = if key_dec (fst c) k then Some (snd c) else get m k.
Proof. unfold get. cbn [List.find]. destruct (key_dec (fst c) k); reflexivity. Qed.
Lemma get_app {A} (m1 m2 : list (key * A)) k : get (m1 ++ m2) k = match get m1 k with Some x => Some x | None => get m2 k end.
Proof.
  induction m1 as [|c t IH]; [reflexivity|]. cbn [app]. rewrite !get_cons. destruct (key_dec (fst c) k); [reflexivity|exact IH].
Qed.
Lemma get_In {A} (m : list (key * A)) k x : get m k = Some x -> In (k, x) m.
Proof.
  induction m as [|c t IH]; [discriminate|]. rewrite get_cons. destruct (key_dec (fst c) k) as [E|N].
  - intros I; injection I as <-. left. destruct c; cbn in *; congruence.
  - intros H; right; auto.
Qed.
Lemma get_None {A} (m : list (key * A)) k : get m k = None <-> ~ In k (keys m).
Proof.
  induction m as [|c t IH]; [cbn; tauto|]. rewrite get_cons. unfold keys in *. cbn [map In]. destruct (key_dec (fst c) k) as [E|N].
  - split; [discriminate|tauto].
  - rewrite IH. tauto.
Qed.
Lemma get_Some_keys {A} (m : list (key * A)) k : In k (keys m) <-> exists x, get m k = Some x.
Proof.
  split.
  - intros H. destruct (get m k) as [x|] eqn:E; [eauto|]. apply get_None in E. tauto.
  - intros (x & H). apply get_In in H. apply in_map_iff. exists (k, x). auto.
Qed.
Lemma In_get {A} (m : list (key * A)) k x : NoDup (keys m) -> In (k, x) m -> get m k = Some x.
Proof.
  induction m as [|c t IH]; [intros _ []|]. unfold keys. cbn [map]. intros N. inversion N as [|? ? X N']; subst. rewrite get_cons.
  intros [->|H].
  - cbn [fst snd]. destruct (key_dec k k); [reflexivity|contradiction].
  - destruct (key_dec (fst c) k) as [E|_]; [|apply IH; auto]. exfalso. apply X. rewrite E. apply in_map_iff. exists (k, x). auto.
Qed.
Lemma get_filter {A} f (m : list (key * A)) k : (forall c, In c m -> fst c = k -> f c = true) -> get (filter f m) k = get m k.
Proof.
  induction m as [|c t IH]; [reflexivity|]. intros H. cbn [filter]. rewrite get_cons.
  destruct (key_dec (fst c) k) as [E|N].
  - rewrite (H c) by (cbn; auto). rewrite get_cons. destruct (key_dec (fst c) k); [reflexivity|contradiction].
  - rewrite <- IH by (intros; apply H; cbn; auto). destruct (f c); [|reflexivity]. rewrite get_cons.
    destruct (key_dec (fst c) k); [contradiction|reflexivity].
Qed.
Lemma get_merge m1 m2 k : get (merge m1 m2) k = match get m1 k with Some x => Some x | None => get m2 k end.
Proof.
  unfold merge. rewrite get_app. destruct (get m1 k) eqn:E; [reflexivity|]. apply get_filter. intros c _ Hc. rewrite Hc, E. reflexivity.
Qed.
Lemma keys_app {A} (m1 m2 : list (key * A)) : keys (m1 ++ m2) = keys m1 ++ keys m2. Proof. apply map_app. Qed.
Lemma NoDup_app_intro {A} (l1 l2 : list A) : NoDup l1 -> NoDup l2 -> (forall x, In x l1 -> ~ In x l2) -> NoDup (l1 ++ l2).
Proof.
  induction l1 as [|x t IH]; [auto|]. intros N1 N2 D. inversion N1 as [|? ? X N]; subst. cbn. constructor.
  - rewrite in_app_iff. intros [H|H]; [auto|]. apply (D x); cbn; auto.
  - apply IH; auto. intros y Y. apply D. right; exact Y.
Qed.
Lemma merge_nodup m1 m2 : NoDup (keys m1) -> NoDup (keys m2) -> NoDup (keys (merge m1 m2)).
Proof.
  intros N1 N2. unfold merge. rewrite keys_app. apply NoDup_app_intro; [exact N1| |].
  - clear N1. induction m2 as [|c t IH]; [constructor|]. unfold keys in N2. cbn [map] in N2. inversion N2 as [|? ? X N]; subst. cbn [filter].
    destruct (get m1 (fst c)); [apply IH; exact N|]. unfold keys in *. cbn [map]. constructor; [|apply IH; exact N].
    intros H. apply X. apply in_map_iff in H. destruct H as (d & E & H). apply filter_In in H. apply in_map_iff. exists d. tauto.
  - intros k K H. apply in_map_iff in H. destruct H as (c & <- & H). apply filter_In in H. destruct H as [_ H].
    apply get_Some_keys in K. destruct K as (x & K). rewrite K in H. discriminate.
Qed.
Lemma emplace_get {A} (m : list (key * A)) k x k' : get (emplace m k x) k' = match get m k' with Some y => Some y | None => if key_dec k k' then Some x else None end.
Proof.
  unfold emplace. destruct (get m k) eqn:E.
  - destruct (get m k') eqn:E'; [reflexivity|]. destruct (key_dec k k'); [congruence|reflexivity].
  - rewrite get_app. destruct (get m k'); [reflexivity|]. rewrite get_cons. reflexivity.
Qed.
Lemma emplace_nodup {A} (m : list (key * A)) k x : NoDup (keys m) -> NoDup (keys (emplace m k x)).
Proof.
  intros N. unfold emplace. destruct (get m k) eqn:E; [exact N|]. rewrite keys_app. apply NoDup_app_intro; [exact N|repeat constructor; intros []|].
  intros y Y [<-|[]]. apply get_None in E. tauto.
Qed.
Lemma combine_get {A} (ks : list key) (vs : list A) k : NoDup ks -> length vs = length ks -> forall i, nth_error ks i = Some k -> get (combine ks vs) k = nth_error vs i.
Proof.
  revert vs; induction ks as [|x t IH]; intros [|v vs] N L i H; try discriminate L; try (destruct i; discriminate H).
  cbn [combine]. rewrite get_cons. cbn [fst snd]. inversion N as [|? ? X N']; subst. destruct i as [|i]; cbn in H |- *.
  - injection H as ->. destruct (key_dec k k); [reflexivity|contradiction].
  - destruct (key_dec x k) as [->|_].
    + exfalso. apply X. eapply nth_error_In; exact H.
    + apply IH; auto.
Qed.
Lemma combine_keys {A} (ks : list key) (vs : list A) : length vs = length ks -> keys (combine ks vs) = ks.
Proof. revert vs; induction ks as [|x t IH]; intros [|v vs] L; try discriminate L; [reflexivity|]. unfold keys in *. cbn. f_equal. apply IH. cbn in L; lia. Qed.
Lemma memk_iff k l : memk k l = true <-> In k l.
Proof.
  unfold memk. rewrite existsb_exists. split.
  - intros (x & X & H). destruct (key_dec x k); [congruence|discriminate].
  - intros H. exists k. split; [exact H|]. destruct (key_dec k k); [reflexivity|contradiction].
Qed.
Lemma nodupb_iff l : nodupb l = true <-> NoDup l.
Proof.
  induction l as [|x t IH]; cbn [nodupb]; [split; [constructor|reflexivity]|].
  rewrite andb_true_iff, IH, negb_true_iff, <- not_true_iff_false, memk_iff. split.
  - intros [A B]. constructor; auto.
  - intros N. inversion N; auto.
Qed.

(** ** Sorting *)
Lemma kle_total a b : kle a b = true \/ kle b a = true.
Proof.
  revert b; induction a as [|x a IH]; intros [|y b]; cbn; auto. rewrite (Z.eqb_sym y x). destruct (x =? y)%Z eqn:E; [apply IH|].
  apply Z.eqb_neq in E. rewrite !Z.ltb_lt. lia.
Qed.
Lemma kle_trans a b c : kle a b = true -> kle b c = true -> kle a c = true.
Proof.
  revert b c; induction a as [|x a IH]; intros [|y b] [|z c]; cbn; try discriminate; auto.
  destruct (x =? y)%Z eqn:E1; destruct (y =? z)%Z eqn:E2; destruct (x =? z)%Z eqn:E3;
    rewrite ?Z.eqb_eq, ?Z.eqb_neq in *; rewrite ?Z.ltb_lt; try lia; eauto.
Qed.
Lemma insert_In k l x : In x (insert k l) <-> x = k \/ In x l.
Proof.
  induction l as [|y t IH]; cbn; [intuition|]. destruct (kle k y); cbn; [intuition|]. rewrite IH. intuition.
Qed.
Lemma sort_In l x : In x (sort_keys l) <-> In x l.
Proof. induction l as [|y t IH]; cbn; [tauto|]. rewrite insert_In, IH. intuition. Qed.
Lemma insert_nodup k l : NoDup l -> ~ In k l -> NoDup (insert k l).
Proof.
  induction l as [|y t IH]; intros N X; cbn; [repeat constructor; intros []|]. destruct (kle k y); [constructor; auto|].
  inversion N; subst. constructor.
  - rewrite insert_In. intros [->|H]; [apply X; left; reflexivity|contradiction].
  - apply IH; auto. intros H; apply X; right; exact H.
Qed.
Lemma sort_nodup l : NoDup l -> NoDup (sort_keys l).
Proof. induction 1; cbn; [constructor|]. apply insert_nodup; auto. rewrite sort_In. auto. Qed.
Inductive srt : list key -> Prop := srt_nil : srt [] | srt_cons x l : (forall y, In y l -> kle x y = true) -> srt l -> srt (x :: l).
Lemma insert_srt k l : srt l -> srt (insert k l).
Proof.
  induction 1 as [|x l H S IH]; cbn; [constructor; [intros y []|constructor]|]. destruct (kle k x) eqn:E.
  - constructor; [|constructor; auto]. intros y [<-|Y]; [exact E|]. eapply kle_trans; [exact E|auto].
  - constructor; [|exact IH]. intros y Y. apply insert_In in Y. destruct Y as [->|Y]; [|auto].
    destruct (kle_total k x); [congruence|assumption].
Qed.
Lemma sort_srt l : srt (sort_keys l).
Proof. induction l; cbn; [constructor|]. apply insert_srt; auto. Qed.
Lemma srt_nth l : srt l -> forall i j, i < j < length l -> kle (nth i l []) (nth j l []) = true.
Proof.
  induction 1 as [|x l H S IH]; intros i j B; [cbn in B; lia|]. destruct j as [|j]; [lia|]. cbn [length] in B. destruct i as [|i]; cbn [nth].
  - apply H. apply nth_In. lia.
  - apply IH. lia.
Qed.
Lemma kle_antisym a b : kle a b = true -> kle b a = true -> a = b.
Proof.
  revert b; induction a as [|x a IH]; intros [|y b]; cbn; try discriminate; auto. rewrite (Z.eqb_sym y x).
  destruct (x =? y)%Z eqn:E; [intros; f_equal; [apply Z.eqb_eq; exact E|auto]|]. apply Z.eqb_neq in E. rewrite !Z.ltb_lt. lia.
Qed.
(** The order of the fields is determined by the names of the body. *)
Lemma fields_unique body n1 n2 : fields_of body n1 -> fields_of body n2 -> n1 = n2.
Proof.
  intros (I1 & D1 & S1) (I2 & D2 & S2).
  assert (E : forall x, In x n1 <-> In x n2) by (intros x; rewrite I1, I2; tauto). clear I1 I2 body.
  revert n2 D2 S2 E; induction n1 as [|x t IH]; intros n2 D2 S2 E.
  - destruct n2 as [|y u]; [reflexivity|]. exfalso. apply (E y). left; reflexivity.
  - destruct n2 as [|y u]; [exfalso; apply (E x); left; reflexivity|].
    inversion D1 as [|? ? X1 D1']; inversion D2 as [|? ? X2 D2']; subst.
    assert (HD : forall (z w : key) l, (forall i j, i < j < length (z :: l) -> kle (nth i (z :: l) []) (nth j (z :: l) []) = true) -> In w l -> kle z w = true).
    { intros z w l H W. destruct (In_nth l w [] W) as (i & Hi & <-). apply (H 0 (S i)). cbn. lia. }
    assert (x = y) as ->.
    { destruct (proj1 (E x) (or_introl eq_refl)) as [<-|H1]; [reflexivity|]. destruct (proj2 (E y) (or_introl eq_refl)) as [->|H2]; [reflexivity|].
      apply kle_antisym; [apply (HD x y t); auto|apply (HD y x u); auto]. }
    f_equal. apply IH; auto.
    + intros i j B. apply (S1 (S i) (S j)). cbn. lia.
    + intros i j B. apply (S2 (S i) (S j)). cbn. lia.
    + intros z. split; intros Z.
      * destruct (proj1 (E z) (or_intror Z)) as [<-|H]; [contradiction|exact H].
      * destruct (proj2 (E z) (or_intror Z)) as [<-|H]; [contradiction|exact H].
Qed.
Lemma names_fields body : NoDup (keys body) -> fields_of body (names_of body).
Proof.
  intros N. split; [|split].
  - intros k. apply sort_In.
  - apply sort_nodup, N.
  - apply srt_nth, sort_srt.
Qed.

(** ** Reserved names *)
Lemma int_text_range z : exists bits, (- 2 ^ (bits - 1) <= z < 2 ^ (bits - 1))%Z /\ forall b, (bits <= b)%Z -> (- 2 ^ (b - 1) <= z < 2 ^ (b - 1))%Z.
Proof.
  assert (H : forall b, (Z.abs z + 1 <= b)%Z -> (- 2 ^ (b - 1) <= z < 2 ^ (b - 1))%Z).
  { intros b B. assert (b - 1 < 2 ^ (b - 1))%Z by (apply Z.pow_gt_lin_r; lia). lia. }
  exists (Z.abs z + 1)%Z. split; [apply H; lia|exact H].
Qed.
Lemma as_text_inj a b : as_text a = as_text b -> a = b.
Proof.
  intros E. destruct (int_text_range a) as (n & _ & Ha). destruct (int_text_range b) as (m & _ & Hb).
  assert (A : parse_int (Z.max n m) (as_text a) = Some a) by (apply parse_int_ok; split; [apply as_text_ok|apply Ha; lia]).
  assert (B : parse_int (Z.max n m) (as_text b) = Some b) by (apply parse_int_ok; split; [apply as_text_ok|apply Hb; lia]).
  rewrite E in A. congruence.
Qed.
Lemma imm_name_inj i j : imm_name i = imm_name j -> i = j.
Proof. unfold imm_name. intros E. apply app_inv_head in E. injection E as E. apply as_text_inj in E. lia. Qed.
Lemma starts_with_app p s : starts_with p (p ++ s) = true.
Proof. induction p as [|x p IH]; [reflexivity|]. cbn [app starts_with]. rewrite Z.eqb_refl. exact IH. Qed.
Lemma imm_name_starts i : starts_with imm_prefix (imm_name i) = true.
Proof. apply starts_with_app. Qed.

(** ** Expressions *)
Section Fold.
Context {X : Type} (lv : nat -> X) (ov : oper -> list X -> option X).
Fixpoint fold (L P : key -> option X) (e : expr) : option X :=
  match e with
  | Leaf k => L k
  | Plc k => P k
  | Lit n => Some (lv n)
  | Op o args => let? vs := map_opt (fold L P) args in ov o vs
  end.
Lemma fold_ext L P L' P' e : (forall k, In k (leaves e) -> L k = L' k) -> (forall k, In k (plcs e) -> P k = P' k) -> fold L P e = fold L' P' e.
Proof.
  induction e as [k|k|n|o args IH] using expr_ind2; intros HL HP; cbn [fold].
  - apply HL; left; reflexivity.
  - apply HP; left; reflexivity.
  - reflexivity.
  - rewrite (map_opt_ext (fold L P) (fold L' P') args); [reflexivity|]. intros x Hx. rewrite Forall_forall in IH. apply IH; auto.
    + intros k K. apply HL. cbn [leaves]. apply in_flat_map. eauto.
    + intros k K. apply HP. cbn [plcs]. apply in_flat_map. eauto.
Qed.
Lemma fold_sub L P x e : sub x e -> fold L P e <> None -> fold L P x <> None.
Proof.
  induction 1 as [|o args y Y S IH]; [auto|]. cbn [fold]. intros H. apply IH. intros N. apply H.
  replace (map_opt (fold L P) args) with (@None (list X)); [reflexivity|]. symmetry. apply map_opt_None. eauto.
Qed.
Lemma fold_subst L P all s e e' : subst all s e = Some e' ->
  fold L P e' = fold L (fun k => match get s k with Some x => fold L P x | None => P k end) e.
Proof.
  revert e'; induction e as [k|k|n|o args IH] using expr_ind2; intros e'; cbn [subst fold].
  - intros E; injection E as <-. reflexivity.
  - destruct (get s k); [intros E; injection E as <-; reflexivity|]. destruct all; [discriminate|]. intros E; injection E as <-. reflexivity.
  - intros E; injection E as <-. reflexivity.
  - destruct (map_opt (subst all s) args) as [l|] eqn:E; [|discriminate]. cbn. intros I; injection I as <-. cbn [fold].
    replace (map_opt (fold L P) l) with (map_opt (fold L (fun k => match get s k with Some x => fold L P x | None => P k end)) args); [reflexivity|].
    apply map_opt_Some in E. induction E as [|x y t t' H F IHF]; [reflexivity|]. inversion IH as [|? ? H1 H2]; subst.
    cbn [map_opt]. rewrite (H1 _ H). rewrite IHF by exact H2. reflexivity.
Qed.
End Fold.
Lemma ety_fold G L P e : @ety G L P e = fold (fun n => ty G (lit G n)) (op_ty G) L P e.
Proof. reflexivity. Qed.
Lemma plain_arg o args x : plain (Op o args) -> In x args -> plain x.
Proof. intros H X a S. apply (H a). eapply sub_arg; eauto. Qed.
Lemma eval_fold G LT PT L P e : plain e -> @eval G LT PT L P e = fold (lit G) (op_val G) L P e.
Proof.
  induction e as [k|k|n|o args IH] using expr_ind2; intros H; cbn [eval fold]; try reflexivity.
  destruct o as [n|fs|i|]; try (exfalso; apply (H args); constructor);
    (rewrite (map_opt_ext (eval LT PT L P) (fold (lit G) (op_val G) L P) args); [reflexivity|]);
    intros x X; rewrite Forall_forall in IH; apply IH; auto; eapply plain_arg; eauto.
Qed.
Lemma sub_trans x y z : sub x y -> sub y z -> sub x z.
Proof. intros A B. revert A. induction B as [|o args w W B IH]; [auto|]. intros A. eapply sub_arg; eauto. Qed.
Lemma sub_plcs x e : sub x e -> incl (plcs x) (plcs e).
Proof. induction 1 as [|o args y Y S IH]; [apply incl_refl|]. intros k K. cbn [plcs]. apply in_flat_map. eauto. Qed.
Lemma sub_plain x e : sub x e -> plain e -> plain x.
Proof. intros S H a A. apply (H a). eapply sub_trans; eauto. Qed.
