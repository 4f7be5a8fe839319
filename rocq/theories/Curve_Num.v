From Coq Require Import QArith Lqa.
From Verif Require Import Base Curve_Model Curve_Spec.
Local Open Scope nat_scope.
Local Open Scope list_scope.

(** ** Numbers *)
Lemma qlt_ok a b : qlt a b = true <-> (a < b)%Q.
Proof. unfold qlt. rewrite negb_true_iff. destruct (Qle_bool b a) eqn:E; [apply Qle_bool_iff in E|]; split; intros H; try discriminate; try reflexivity; [lra|]. apply Qnot_le_lt. intros K. apply Qle_bool_iff in K. congruence. Qed.
Lemma num_lt_ok a b : num_lt a b = true <-> nlt a b.
Proof. destruct a, b; cbn; rewrite ?qlt_ok; intuition discriminate. Qed.
Lemma num_eq_ok a b : num_eq a b = true <-> same a b.
Proof. destruct a, b; cbn; rewrite ?Qeq_bool_iff; intuition discriminate. Qed.
Lemma num_le_ok a b : num_le a b = true <-> nle a b.
Proof. unfold num_le, nle. rewrite orb_true_iff, num_lt_ok, num_eq_ok. reflexivity. Qed.
Lemma isinf_ok a : isinf a = true <-> infinite a.
Proof. unfold infinite. destruct a; cbn; intuition (congruence || discriminate). Qed.
Ltac nums := repeat match goal with x : num |- _ => destruct x end; unfold nle in *; cbn in *; try tauto; try congruence; try lra; try (intuition (try congruence; lra)).
Lemma nle_refl a : a <> NaN -> nle a a.
Proof. nums. Qed.
Lemma same_refl a : a <> NaN -> same a a.
Proof. nums. Qed.
Lemma same_sym a b : same a b -> same b a.
Proof. nums. Qed.
Lemma same_trans a b c : same a b -> same b c -> same a c.
Proof. nums. Qed.
Lemma same_le a b : same a b -> nle a b.
Proof. right. assumption. Qed.
Lemma nlt_le a b : nlt a b -> nle a b.
Proof. left. assumption. Qed.
Lemma nle_trans a b c : nle a b -> nle b c -> nle a c.
Proof. nums. Qed.
Lemma nlt_le_trans a b c : nlt a b -> nle b c -> nlt a c.
Proof. nums. Qed.
Lemma nle_lt_trans a b c : nle a b -> nlt b c -> nlt a c.
Proof. nums. Qed.
Lemma nlt_trans a b c : nlt a b -> nlt b c -> nlt a c.
Proof. nums. Qed.
Lemma nlt_irrefl a b : nlt a b -> nle b a -> False.
Proof. nums. Qed.
Lemma nle_antisym a b : nle a b -> nle b a -> same a b.
Proof. nums. Qed.
Lemma nle_or_lt a b : a <> NaN -> b <> NaN -> nle a b \/ nlt b a.
Proof. nums. Qed.
Lemma nle_cases a b : nle a b -> nlt a b \/ same a b.
Proof. auto. Qed.
Lemma nlt_nan a b : nlt a b -> a <> NaN /\ b <> NaN.
Proof. nums. Qed.
Lemma nle_nan a b : nle a b -> a <> NaN /\ b <> NaN.
Proof. nums. Qed.
Lemma same_fin a q : same (Fin q) a -> exists r, a = Fin r /\ (q == r)%Q.
Proof. destruct a; cbn; try tauto. eauto. Qed.
Lemma same_inf a b : same a b -> infinite a -> infinite b.
Proof. unfold infinite. nums. Qed.
Lemma not_inf a : a <> NaN -> ~ infinite a -> exists q, a = Fin q.
Proof. unfold infinite. destruct a; eauto; intuition congruence. Qed.

(** ** Lines *)
Lemma line_flat a c b d t : (c == d)%Q -> (line a c b d t == c)%Q.
Proof. intros H. unfold line. assert ((d - c) * (t - a) / (b - a) == 0)%Q as ->; [|lra]. unfold Qdiv. rewrite <- H. ring. Qed.
Lemma line_left a c b d t : (t == a)%Q -> (line a c b d t == c)%Q.
Proof. intros H. unfold line. assert ((d - c) * (t - a) / (b - a) == 0)%Q as ->; [|lra]. unfold Qdiv. rewrite H. ring. Qed.
Lemma line_right a c b d t : (a < b)%Q -> (t == b)%Q -> (line a c b d t == d)%Q.
Proof. intros H1 H. unfold line. rewrite H. field. lra. Qed.
Lemma line_swap a c b d t : (a < b)%Q -> (line a c b d t == line b d a c t)%Q.
Proof. intros H. unfold line. field. lra. Qed.
Lemma line_eq a c b d t : (a < b)%Q -> ((d - c) / (b - a) * t + (c - (d - c) / (b - a) * a) == line a c b d t)%Q.
Proof. intros H. unfold line. field. lra. Qed.

(** ** Interior points: lists of (a, c) *)
Definition pt (p : Q * Q) : point := mkPt (Fin (fst p)) (Fin (snd p)).
Definition ln (p q : Q * Q) (t : Q) : Q := line (fst p) (snd p) (fst q) (snd q) t.
Fixpoint pwl (l : list (Q * Q)) (t : Q) : Q :=
  match l with
  | p :: (q :: r) as l' => match r with [] => ln p q t | _ => if Qle_bool t (fst q) then ln p q t else pwl l' t end
  | _ => 0%Q
  end.
Fixpoint sorted (l : list (Q * Q)) : Prop :=
  match l with p :: (q :: _) as t => (fst p < fst q)%Q /\ sorted t | _ => True end.

Lemma seg_eq p q : (fst p < fst q)%Q -> exists m b, segments [pt p; pt q] = [mkCoef (Fin (fst q)) (Fin m) (Fin b)] /\ forall t, (m * t + b == ln p q t)%Q.
Proof.
  intros H. cbn. destruct (Qeq_bool _ 0) eqn:E.
  - apply Qeq_bool_iff in E. lra.
  - eexists _, _. split; [reflexivity|]. intros t. unfold ln, line. field. lra.
Qed.
Lemma segments_cons2 a b l : segments (a :: b :: l) = segments [a; b] ++ segments (b :: l).
Proof. reflexivity. Qed.
Lemma segments_length l : List.length (segments l) = List.length l - 1.
Proof. induction l as [|a [|b l] IH]; [reflexivity|reflexivity|]. rewrite segments_cons2, app_length, IH. cbn [List.length segments]. lia. Qed.
Lemma segments_max : forall l, sorted l -> map (fun c => c_max c) (segments (map pt l)) = map (fun p => Fin (fst p)) (tl l).
Proof.
  induction l as [|p [|q l] IH]; intros S; [reflexivity|reflexivity|]. cbn [map]. rewrite segments_cons2. destruct S as [S1 S2].
  destruct (seg_eq p q S1) as (m & b & -> & _). cbn [app map tl c_max]. f_equal. apply (IH S2).
Qed.

(** Where the search stops. *)
Fixpoint first_ge (l : list Q) (t : Q) : nat := match l with [] => 0 | a :: r => if qlt a t then S (first_ge r t) else 0 end.
Fixpoint qsorted (l : list Q) : Prop := match l with a :: (b :: _) as t => (a < b)%Q /\ qsorted t | _ => True end.
Lemma qsorted_ge l a t : qsorted (a :: l) -> (t <= a)%Q -> map (fun q => qlt q t) l = repeat false (List.length l).
Proof.
  revert a. induction l as [|b l IH]; intros a S H; [reflexivity|]. destruct S as [S1 S2]. cbn [map repeat List.length]. f_equal.
  - destruct (qlt b t) eqn:E; [apply qlt_ok in E; lra|reflexivity].
  - apply (IH b S2). lra.
Qed.
Lemma partitioned l t : qsorted l -> map (fun q => qlt q t) l = repeat true (first_ge l t) ++ repeat false (List.length l - first_ge l t).
Proof.
  induction l as [|a l IH]; intros S; [reflexivity|]. cbn [map first_ge]. destruct (qlt a t) eqn:E.
  - cbn [repeat app List.length Nat.sub]. f_equal. apply IH. destruct l; [exact I|apply S].
  - cbn [repeat app List.length Nat.sub]. f_equal. apply qsorted_ge with (a := a); [exact S|]. destruct (Qlt_le_dec a t) as [K|K]; [apply qlt_ok in K; congruence|exact K].
Qed.

Definition value (c : coef) (t : Q) : num := add (mul (c_m c) (Fin t)) (c_b c).
Lemma find_value : forall l t, sorted l -> 2 <= List.length l ->
  exists c y, rd (segments (map pt l)) (first_ge (map fst (removelast (tl l))) t) = Some c /\ value c t = Fin y /\ (y == pwl l t)%Q.
Proof.
  induction l as [|p [|q [|r l]] IH]; intros t S L; cbn [List.length] in L; try lia.
  - destruct S as [S1 _]. destruct (seg_eq p q S1) as (m & b & E & V). cbn [map]. rewrite E. cbn [removelast tl map first_ge].
    eexists _, _. split; [reflexivity|]. split; [reflexivity|]. apply V.
  - destruct S as [S1 S2]. destruct (seg_eq p q S1) as (m & b & E & V).
    change (map pt (p :: q :: r :: l)) with (pt p :: pt q :: map pt (r :: l)). rewrite segments_cons2, E.
    change (removelast (tl (p :: q :: r :: l))) with (q :: removelast (tl (q :: r :: l))). cbn [map first_ge].
    change (pwl (p :: q :: r :: l) t) with (if Qle_bool t (fst q) then ln p q t else pwl (q :: r :: l) t).
    unfold qlt at 1. destruct (Qle_bool t (fst q)); cbn [negb].
    + eexists _, _. split; [reflexivity|]. split; [reflexivity|]. apply V.
    + cbn [app]. destruct (IH t S2) as (c & y & H); [cbn; lia|]. exists c, y. exact H.
Qed.
Lemma sorted_qsorted l : sorted l -> qsorted (map fst (removelast l)).
Proof.
  induction l as [|p [|q l] IH]; intros S; [exact I|exact I|]. destruct S as [S1 S2]. destruct l as [|r l]; [exact I|].
  change (removelast (p :: q :: r :: l)) with (p :: removelast (q :: r :: l)). specialize (IH S2).
  change (removelast (q :: r :: l)) with (q :: removelast (r :: l)) in *. cbn [map] in *. split; [exact S1|exact IH].
Qed.
Lemma map_removelast {A B} (f : A -> B) l : map f (removelast l) = removelast (map f l).
Proof. induction l as [|a [|b l] IH]; [reflexivity|reflexivity|]. change (removelast (a :: b :: l)) with (a :: removelast (b :: l)). cbn [map] in *. rewrite IH. reflexivity. Qed.
Lemma sorted_tl l : sorted l -> sorted (tl l).
Proof. destruct l as [|p [|q l]]; [intros; exact I|intros; exact I|]. intros [_ S]. exact S. Qed.
Lemma segments_value lb l t : lower_bound_ok lb -> sorted l -> 2 <= List.length l ->
  exists c y, find_coefficients lb (segments (map pt l)) (Fin t) = Some c /\ value c t = Fin y /\ (y == pwl l t)%Q.
Proof.
  intros LB S L. destruct (find_value l t S L) as (c & y & H1 & H2). exists c, y. split; [|exact H2]. rewrite <- H1.
  unfold find_coefficients. pose proof (segments_length (map pt l)) as SL. rewrite map_length in SL.
  destruct (segments (map pt l)) as [|c0 cs] eqn:E; [cbn in SL; lia|]. rewrite <- E. f_equal.
  rewrite <- (map_map c_max (fun m => num_lt m (Fin t))), (map_removelast c_max), segments_max by exact S.
  rewrite <- (map_map fst Fin), <- (map_removelast Fin), <- (map_removelast fst), map_map. cbn [num_lt].
  rewrite partitioned by (apply sorted_qsorted, sorted_tl, S). apply LB.
Qed.

(** ** The interpolation *)
Lemma sorted_all l : sorted l -> forall i j p q, i < j -> rd l i = Some p -> rd l j = Some q -> (fst p < fst q)%Q.
Proof.
  induction l as [|a l IH]; intros S i j p q L Hp Hq; [destruct i; discriminate|]. destruct j as [|j]; [lia|]. cbn in Hq.
  assert (S' : sorted l) by (destruct l; [exact I|apply S]). destruct i as [|i].
  - injection Hp as <-. destruct l as [|b l]; [destruct j; discriminate|]. destruct S as [S1 _]. destruct j as [|j].
    + injection Hq as <-. exact S1.
    + specialize (IH S' 0 (S j) b q ltac:(lia) eq_refl Hq). lra.
  - apply (IH S' i j); [lia|exact Hp|exact Hq].
Qed.
Lemma pwl_left l p q t : rd l 0 = Some p -> rd l 1 = Some q -> (t <= fst q)%Q -> pwl l t = ln p q t.
Proof.
  destruct l as [|a [|b l]]; try discriminate. injection 1 as <-. injection 1 as <-. intros H. cbn [pwl]. destruct l; [reflexivity|].
  apply Qle_bool_iff in H. rewrite H. reflexivity.
Qed.
Lemma pwl_segment : forall l i p q t, sorted l -> rd l i = Some p -> rd l (S i) = Some q -> (fst p <= t)%Q -> (t <= fst q)%Q -> (pwl l t == ln p q t)%Q.
Proof.
  induction l as [|a l IH]; intros i p q t S Hp Hq H1 H2; [destruct i; discriminate|]. destruct i as [|i].
  - rewrite (pwl_left _ p q) by assumption. reflexivity.
  - cbn in Hp, Hq. destruct l as [|b l]; [destruct i; discriminate|]. destruct l as [|c l]; [destruct i as [|[|]]; discriminate|].
    change (pwl (a :: b :: c :: l) t) with (if Qle_bool t (fst b) then ln a b t else pwl (b :: c :: l) t).
    destruct (Qle_bool t (fst b)) eqn:E; [|apply (IH i); [apply S|exact Hp|exact Hq|exact H1|exact H2]].
    apply Qle_bool_iff in E. destruct S as [S1 S2]. destruct i as [|i].
    + injection Hp as <-. assert (K : (t == fst b)%Q) by lra. unfold ln. rewrite line_right by assumption. rewrite line_left by exact K. reflexivity.
    + pose proof (sorted_all _ S2 0 (S i) b p ltac:(lia) eq_refl Hp). lra.
Qed.
Lemma pwl_right : forall l p q t, sorted l -> 2 <= List.length l -> rd l (List.length l - 2) = Some p -> rd l (List.length l - 1) = Some q -> (fst p <= t)%Q -> (pwl l t == ln p q t)%Q.
Proof.
  induction l as [|a l IH]; intros p q t S L Hp Hq H; [cbn in L; lia|]. destruct l as [|b l]; [cbn in L; lia|]. destruct l as [|c l].
  - injection Hp as <-. injection Hq as <-. reflexivity.
  - change (pwl (a :: b :: c :: l) t) with (if Qle_bool t (fst b) then ln a b t else pwl (b :: c :: l) t).
    cbn [List.length Nat.sub] in Hp, Hq. rewrite ?Nat.sub_0_r in Hp, Hq.
    assert (Hp' : rd (b :: c :: l) (List.length (b :: c :: l) - 2) = Some p) by (cbn [List.length Nat.sub]; rewrite ?Nat.sub_0_r; exact Hp).
    assert (Hq' : rd (b :: c :: l) (List.length (b :: c :: l) - 1) = Some q) by exact Hq.
    destruct (Qle_bool t (fst b)) eqn:E; [|apply (IH p q); [apply S|cbn; lia|exact Hp'|exact Hq'|exact H]].
    apply Qle_bool_iff in E. destruct S as [S1 S2]. destruct l as [|d l].
    + injection Hp as <-. injection Hq as <-. assert (K : (t == fst b)%Q) by lra. unfold ln. rewrite line_right by assumption. rewrite line_left by exact K. reflexivity.
    + pose proof (sorted_all _ S2 0 (S (List.length l)) b p ltac:(lia) eq_refl) as K. specialize (K Hp). lra.
Qed.
