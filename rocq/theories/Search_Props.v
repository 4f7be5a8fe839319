(** C21: the search functions return the exact bound and read only the array. *)
From Verif Require Import Base Search_Model Search_Spec Search_Proofs.

Theorem C21_lower_bound_int : forall v a, sorted a ->
  lower_bound_int v a = Some (count (fun x => (x <? v)%Z) a).
Proof. exact lower_int_ok. Qed.
Print Assumptions C21_lower_bound_int.

Theorem C21_upper_bound_int : forall v a, sorted a ->
  upper_bound_int v a = Some (count (fun x => (x <=? v)%Z) a).
Proof. exact upper_int_ok. Qed.
Print Assumptions C21_upper_bound_int.

Definition ex21 : list Z := [1; 2; 2; 2; 5; 7; 7; 9; 11]%Z.
Example C21_int_hyp : sorted ex21.
Proof.
  intros i j x y Hij Hx Hy. do 9 (destruct i as [|i]; [injection Hx as <-; do 9 (destruct j as [|j]; [injection Hy as <-; lia|]); destruct j; discriminate|]).
  destruct i; discriminate.
Qed.
Example C21_int_ex : lower_bound_int 2 ex21 = Some 1 /\ upper_bound_int 2 ex21 = Some 4 /\ lower_bound_int 100 ex21 = Some 9.
Proof. repeat split; reflexivity. Qed.

(** Floating point arrays without NaN elements: any value, including NaN, for which
    no element counts as smaller and every element as not greater. *)
Theorem C21_lower_bound_float : forall v a, sorted a ->
  lower_bound_flt v (map Num a) = Some (count (fun x => flt_lt (Num x) v) a).
Proof.
  intros v a S. rewrite (lower_flt_ok v (map Num a) (sorted_nums v a S)). f_equal. unfold count.
  induction a as [|x t IH] in |- *; [reflexivity|]. cbn [map filter]. destruct (flt_lt (Num x) v); cbn [length]; rewrite IH; reflexivity.
Qed.
Print Assumptions C21_lower_bound_float.
Theorem C21_upper_bound_float : forall v a, sorted a ->
  upper_bound_flt v (map Num a) = Some (count (fun x => negb (flt_lt v (Num x))) a).
Proof.
  intros v a S. rewrite (upper_flt_ok v (map Num a)).
  - f_equal. unfold count. induction a as [|x t IH] in |- *; [reflexivity|]. cbn [map filter]. destruct (flt_lt v (Num x)); cbn [negb length]; rewrite IH; reflexivity.
  - apply Forall_forall. intros x Hx. apply in_map_iff in Hx as (y & <- & _). discriminate.
  - apply sorted_nums_ge, S.
Qed.
Print Assumptions C21_upper_bound_float.
Example C21_float_ex : upper_bound_flt NaN (map Num ex21) = Some 9 /\ lower_bound_flt NaN (map Num ex21) = Some 0 /\
  upper_bound_flt (Num 7) (map Num ex21) = Some 7.
Proof. repeat split; reflexivity. Qed.

(** LowerBound agrees with std::lower_bound on every partitioned array, NaN elements
    included.  UpperBound does not: on [1; 1; NaN], where no element is greater than 2,
    std::upper_bound returns 3; on the two-element array it does agree. *)
Theorem C21_lower_bound_float_nan : forall v a, partitioned (fun x => flt_lt x v) a 0 (length a) ->
  exists k, lower_bound_flt v a = Some k /\ is_bound (fun x => flt_lt x v) a 0 (length a) k.
Proof.
  intros v a P. unfold lower_bound_flt.
  destruct (search_two (fun x => negb (flt_lt x v)) (fun x => negb (flt_lt x v)) a) as (r & E & B).
  - reflexivity.
  - revert P. apply part_ext. intros x. unfold nlt. rewrite negb_involutive. reflexivity.
  - exists r. split; [exact E|]. revert B. apply is_bound_ext. intros x. apply negb_involutive.
Qed.
Print Assumptions C21_lower_bound_float_nan.
Theorem C21_upper_bound_float_nan_refuted : exists v a,
  partitioned (fun x => negb (flt_lt v x)) a 0 (length a) /\ is_bound (fun x => negb (flt_lt v x)) a 0 (length a) 3 /\
  upper_bound_flt v a = Some 2 /\ upper_bound_flt v (tl a) = Some 2.
Proof.
  exists (Num 2), [Num 1; Num 1; NaN]. split; [|split; [|split; reflexivity]].
  - intros i j x y _ _ Hj Hx _ _. do 3 (destruct i as [|i]; [injection Hx as <-; reflexivity|]). destruct i; discriminate.
  - split; [cbn; lia|]. split.
    + intros i x Hi Hx. do 3 (destruct i as [|i]; [injection Hx as <-; reflexivity|]). lia.
    + cbn [length]. intros; lia.
Qed.
Print Assumptions C21_upper_bound_float_nan_refuted.

(** GallopingLowerBound on any sub-range; an inverted range gives its end. *)
Theorem C21_galloping : forall A (lt : A -> bool) a b e, e <= length a -> partitioned lt a b e ->
  exists k, galloping_lower_bound lt a b e = Some k /\
    if e <=? b then k = e else is_bound lt a b e k.
Proof.
  intros A lt a b e He P. destruct (Nat.leb_spec e b) as [L|L].
  - exists (min b e). unfold galloping_lower_bound. replace (e <=? b) with true by (symmetry; apply Nat.leb_le; lia). split; [reflexivity|lia].
  - apply gallop_ok; [exact He|exact P|lia].
Qed.
Print Assumptions C21_galloping.

(** The bound is unique, so this is std::lower_bound. *)
Theorem C21_bound_unique : forall A (lt : A -> bool) a b e k k', e <= length a ->
  is_bound lt a b e k -> is_bound lt a b e k' -> k = k'.
Proof. intros A. exact (bound_unique). Qed.
Print Assumptions C21_bound_unique.
Example C21_galloping_ex : galloping_lower_bound (fun x => (x <? 8)%Z) ex21 1 9 = Some 7.
Proof. reflexivity. Qed.

(** exp_lower_bound: every dereference is inside the range and the result is the
    bound; but the iterator itself is moved past the end. *)
Theorem C21_exp_lower_bound : forall A (lt : A -> bool) a b e, b <= e -> e <= length a -> partitioned lt a b e ->
  exists k, exp_lower_bound false lt a b e = Some k /\ is_bound lt a b e k.
Proof. intros A lt a b e Hb He P. apply exp_ok; assumption. Qed.
Print Assumptions C21_exp_lower_bound.
Theorem C21_exp_lower_bound_advance_refuted : exists (a : list Z),
  partitioned (fun x => (x <? 9)%Z) a 0 4 /\ length a = 4 /\
  exp_lower_bound true (fun x => (x <? 9)%Z) a 0 4 = None /\ exp_lower_bound false (fun x => (x <? 9)%Z) a 0 4 = Some 4.
Proof.
  exists [1; 2; 3; 4]%Z. split; [|repeat split; reflexivity].
  intros i j x y _ _ Hj Hx _ _. do 4 (destruct i as [|i]; [injection Hx as <-; reflexivity|]). destruct i; discriminate.
Qed.
Print Assumptions C21_exp_lower_bound_advance_refuted.
Example C21_exp_ex : exp_lower_bound false (fun x => (x <? 8)%Z) ex21 1 9 = Some 7.
Proof. reflexivity. Qed.
