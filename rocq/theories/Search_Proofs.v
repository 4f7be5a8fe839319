From Verif Require Import Base Search_Model Search_Spec.

Section S.
  Context {A : Type} (p : A -> bool) (a : list A).
  Definition nlt (x : A) : bool := negb (p x).

  Lemma fast_loop_ok base : forall m fuel off,
    m <= fuel -> base + off + (2 ^ m - 1) <= length a -> partitioned nlt a (base + off) (base + off + (2 ^ m - 1)) ->
    exists r, fast_loop p a base fuel (2 ^ m - 1) off = Some r /\
      is_bound nlt a (base + off) (base + off + (2 ^ m - 1)) (base + r).
  Proof.
    induction m as [|m IH]; intros fuel off Hf Hl P.
    - cbn [Nat.pow]. exists off. split; [destruct fuel; reflexivity|]. split; [lia|]. split; intros; lia.
    - destruct fuel as [|fuel]; [lia|]. cbn [fast_loop].
      assert (H2 : 2 ^ S m = 2 * 2 ^ m) by reflexivity.
      assert (Hp : 1 <= 2 ^ m) by (pose proof (Nat.pow_nonzero 2 m); lia).
      replace (2 ^ S m - 1 =? 0) with false by (symmetry; apply Nat.eqb_neq; lia).
      replace ((2 ^ S m - 1) / 2) with (2 ^ m - 1).
      2:{ rewrite H2. apply Nat.div_unique with 1; lia. }
      destruct (rd_lt a (base + (off + (2 ^ m - 1)))) as [x Ex]; [lia|]. rewrite Ex. cbn [bind].
      destruct (p x) eqn:Ep.
      + destruct (IH fuel off) as (r & Er & B1 & B2 & B3); [lia|lia| |].
        { intros i j u v Hi Hij Hj. apply P; lia. }
        exists r. split; [exact Er|]. split; [lia|]. split; [exact B2|].
        intros i y Hi Hy. destruct (Nat.lt_ge_cases i (base + off + (2 ^ m - 1))) as [L|L]; [apply (B3 i y); [lia|exact Hy]|].
        destruct (nlt y) eqn:Ey; [|reflexivity].
        assert (N : nlt x = true).
        { apply (P (base + (off + (2 ^ m - 1))) i x y); [lia|lia|lia|exact Ex|exact Hy|exact Ey]. }
        unfold nlt in N. rewrite Ep in N. discriminate.
      + destruct (IH fuel (off + (2 ^ m - 1) + 1)) as (r & Er & B1 & B2 & B3); [lia|lia| |].
        { intros i j u v Hi Hij Hj. apply P; lia. }
        exists r. split; [exact Er|]. split; [lia|]. split.
        * intros i y Hi Hy. destruct (Nat.lt_ge_cases i (base + (off + (2 ^ m - 1) + 1))) as [L|L]; [|apply (B2 i y); [lia|exact Hy]].
          apply (P i (base + (off + (2 ^ m - 1))) y x); [lia|lia|lia|exact Hy|exact Ex|unfold nlt; rewrite Ep; reflexivity].
        * intros i y Hi Hy. apply (B3 i y); [lia|exact Hy].
  Qed.

  Lemma binary_search_ok : a <> [] -> partitioned nlt a 0 (length a) ->
    exists r, binary_search p a = Some r /\ is_bound nlt a 0 (length a) r.
  Proof.
    intros Ne P. unfold binary_search.
    assert (Hn : 0 < length a) by (destruct a; [congruence|cbn; lia]).
    replace (length a =? 0) with false by (symmetry; apply Nat.eqb_neq; lia). cbn [negb guard bind].
    destruct (Nat.log2_spec (length a) Hn) as [L1 L2]. set (m := Nat.log2 (length a)) in *.
    assert (H2 : 2 ^ S m = 2 * 2 ^ m) by reflexivity.
    assert (Hp : 1 <= 2 ^ m) by (pose proof (Nat.pow_nonzero 2 m); lia).
    destruct (rd_lt a (2 ^ m - 1)) as [x Ex]; [lia|]. rewrite Ex. cbn [bind].
    assert (Hm : m <= 2 ^ m - 1) by (pose proof (Nat.pow_gt_lin_r 2 m); lia).
    destruct (p x) eqn:Ep; unfold fast_search.
    - destruct (fast_loop_ok 0 m (2 ^ m - 1) 0) as (r & Er & B1 & B2 & B3); [lia|lia|intros i j u v Hi Hij Hj; apply P; lia|].
      rewrite Er. cbn [bind]. exists (0 + r). split; [reflexivity|]. cbn [Nat.add] in *. split; [lia|]. split; [exact B2|].
      intros i y Hi Hy. destruct (Nat.lt_ge_cases i (2 ^ m - 1)) as [L|L]; [apply (B3 i y); [lia|exact Hy]|].
      destruct (nlt y) eqn:Ey; [|reflexivity].
      assert (N : nlt x = true) by (apply (P (2 ^ m - 1) i x y); [lia|lia|lia|exact Ex|exact Hy|exact Ey]).
      unfold nlt in N. rewrite Ep in N. discriminate.
    - destruct (fast_loop_ok (length a - (2 ^ m - 1)) m (2 ^ m - 1) 0) as (r & Er & B1 & B2 & B3);
        [lia|lia|intros i j u v Hi Hij Hj; apply P; lia|].
      rewrite Er. cbn [bind]. eexists. split; [reflexivity|]. split; [lia|]. split.
      + intros i y Hi Hy. destruct (Nat.lt_ge_cases i (length a - (2 ^ m - 1))) as [L|L]; [|apply (B2 i y); [lia|exact Hy]].
        apply (P i (2 ^ m - 1) y x); [lia|lia|lia|exact Hy|exact Ex|unfold nlt; rewrite Ep; reflexivity].
      + intros i y Hi Hy. apply (B3 i y); [lia|exact Hy].
  Qed.

  Lemma small_ok : partitioned nlt a 0 (length a) -> length a <= 2 ->
    exists r, small_search p a = Some (Some r) /\ is_bound nlt a 0 (length a) r.
  Proof.
    intros P H. unfold small_search. replace (length a <=? 2) with true by (symmetry; apply Nat.leb_le; lia).
    destruct a as [|x [|y [|z t]]]; cbn [length] in *; [| | |lia].
    - exists 0. split; [reflexivity|]. split; [lia|]. split; intros; lia.
    - cbn. destruct (p x) eqn:Ep; [exists 0|exists 1]; (split; [reflexivity|split; [lia|split]]); intros i w Hi Hw; try lia;
        destruct i as [|i]; try lia; injection Hw as <-; unfold nlt; rewrite Ep; reflexivity.
    - cbn. destruct (p x) eqn:Ep; [exists 0|destruct (p y) eqn:Ey; [exists 1|exists 2]]; (split; [reflexivity|split; [lia|split]]); intros i w Hi Hw; try lia;
        destruct i as [|[|i]]; try lia; injection Hw as <-; unfold nlt; rewrite ?Ep, ?Ey; try reflexivity.
      destruct (nlt y) eqn:Ny; unfold nlt in Ny; rewrite ?Ny; [|destruct (p y); [reflexivity|discriminate]].
      assert (N : nlt x = true) by (apply (P 0 1 x y); [lia|lia|lia|reflexivity|reflexivity|exact Ny]).
      unfold nlt in N. rewrite Ep in N. discriminate.
  Qed.
  Lemma small_none : 2 < length a -> small_search p a = Some None.
  Proof. intros H. unfold small_search. replace (length a <=? 2) with false by (symmetry; apply Nat.leb_gt; lia). reflexivity. Qed.
End S.

Lemma is_bound_ext {A} (f g : A -> bool) a b e k : (forall x, f x = g x) -> is_bound f a b e k -> is_bound g a b e k.
Proof.
  intros H (H1 & H2 & H3). split; [exact H1|]. split; intros i x Hi Hx; rewrite <- H; [apply (H2 i x Hi Hx)|apply (H3 i x Hi Hx)].
Qed.
Lemma part_ext {A} (f g : A -> bool) a b e : (forall x, f x = g x) -> partitioned f a b e -> partitioned g a b e.
Proof. intros H P i j x y Hi Hij Hj Ex Ey. rewrite <- !H. apply (P i j x y Hi Hij Hj Ex Ey). Qed.

Lemma bound_unique {A} (lt : A -> bool) a b e k k' : e <= length a -> is_bound lt a b e k -> is_bound lt a b e k' -> k = k'.
Proof.
  intros He (B1 & B2 & B3) (C1 & C2 & C3).
  destruct (Nat.lt_trichotomy k k') as [L|[L|L]]; [|exact L|]; exfalso.
  - destruct (rd_lt a k) as [x Ex]; [lia|]. specialize (B3 k x). specialize (C2 k x). rewrite B3 in C2; [discriminate C2; [lia|exact Ex]|lia|exact Ex].
  - destruct (rd_lt a k') as [x Ex]; [lia|]. specialize (B2 k' x). specialize (C3 k' x). rewrite B2 in C3; [discriminate C3; [lia|exact Ex]|lia|exact Ex].
Qed.

Lemma bound_count {A} (lt : A -> bool) (a : list A) : forall k, is_bound lt a 0 (length a) k -> count lt a = k.
Proof.
  unfold count. induction a as [|x t IH]; intros k (B1 & B2 & B3); cbn [length filter] in *; [lia|].
  destruct k as [|k].
  - rewrite (B3 0 x) by (try reflexivity; lia). apply IH. split; [lia|]. split; [intros; lia|].
    intros i y Hi Hy. apply (B3 (S i) y); [lia|exact Hy].
  - rewrite (B2 0 x) by (try reflexivity; lia). cbn [length]. f_equal. apply IH. split; [lia|]. split.
    + intros i y Hi Hy. apply (B2 (S i) y); [lia|exact Hy].
    + intros i y Hi Hy. apply (B3 (S i) y); [lia|exact Hy].
Qed.

Lemma search_two {A} (p q : A -> bool) a : (forall x, In x a -> p x = q x) -> partitioned (nlt p) a 0 (length a) ->
  exists r, (let? s := small_search p a in match s with Some r => Some r | None => binary_search q a end) = Some r
    /\ is_bound (nlt p) a 0 (length a) r.
Proof.
  intros H P. destruct (Nat.le_gt_cases (length a) 2) as [L|L].
  - destruct (small_ok p a P L) as (r & E & B). exists r. rewrite E. auto.
  - rewrite (small_none p a L). cbn [bind].
    assert (K : forall i x, nth_error a i = Some x -> nlt p x = nlt q x).
    { intros i x Hx. unfold nlt. rewrite H; [reflexivity|]. eapply nth_error_In; eauto. }
    destruct (binary_search_ok q a) as (r & E & B1 & B2 & B3).
    + intros ->. cbn in L. lia.
    + intros i j x y Hi Hij Hj Ex Ey. rewrite <- (K i x Ex), <- (K j y Ey). apply (P i j x y Hi Hij Hj Ex Ey).
    + exists r. split; [exact E|]. split; [exact B1|]. split; intros i x Hi Hx; rewrite (K i x Hx); [apply (B2 i x Hi Hx)|apply (B3 i x Hi Hx)].
Qed.

(** Galloping. *)
Section G.
  Context {A : Type} (lt : A -> bool) (a : list A) (b e : nat).
  Hypothesis He : e <= length a.
  Hypothesis P : partitioned lt a b e.

  Lemma up_ok : forall fuel i d, e - b < i + fuel -> 1 <= d -> d <= S i -> b + i < e -> (exists x, rd a (b + i) = Some x /\ lt x = true) ->
    (exists j, d = 2 ^ j) ->
    exists i' d', gallop_up lt a b (e - b) fuel i d = Some (i', d') /\ (exists j, d' = 2 ^ j) /\ b + i' < e /\
      (exists x, rd a (b + i') = Some x /\ lt x = true) /\
      (e <= b + (i' + d') \/ exists x, rd a (b + (i' + d')) = Some x /\ lt x = false).
  Proof.
    induction fuel as [|fuel IH]; intros i d Hf Hd Hdi Hi Hx Hj; [lia|]. cbn [gallop_up].
    destruct (Nat.ltb_spec (i + d) (e - b)) as [L|L].
    - destruct (rd_lt a (b + (i + d))) as [x Ex]; [lia|]. rewrite Ex. cbn [bind]. destruct (lt x) eqn:Ex'.
      + apply IH; [lia|lia|lia|lia|exists x; auto|]. destruct Hj as [j ->]. exists (S j). reflexivity.
      + exists i, d. split; [reflexivity|]. split; [exact Hj|]. split; [lia|]. split; [exact Hx|]. right. exists x. auto.
    - exists i, d. split; [reflexivity|]. split; [exact Hj|]. split; [lia|]. split; [exact Hx|]. left. lia.
  Qed.
  Lemma down_ok : forall j fuel i, j < fuel -> b + i < e -> (exists x, rd a (b + i) = Some x /\ lt x = true) ->
      (e <= b + (i + 2 ^ j) \/ exists x, rd a (b + (i + 2 ^ j)) = Some x /\ lt x = false) ->
    exists i', gallop_down lt a b (e - b) fuel i (2 ^ j) = Some i' /\ b + i' < e /\
      (exists x, rd a (b + i') = Some x /\ lt x = true) /\
      (e <= b + (i' + 1) \/ exists x, rd a (b + (i' + 1)) = Some x /\ lt x = false).
  Proof.
    induction j as [|j IH]; intros fuel i Hf Hi Hx Hn; (destruct fuel as [|fuel]; [lia|]); cbn [gallop_down].
    - exists i. split; [reflexivity|]. auto.
    - assert (H2 : 2 ^ S j = 2 * 2 ^ j) by reflexivity.
      assert (Hp : 1 <= 2 ^ j) by (pose proof (Nat.pow_nonzero 2 j); lia).
      replace (1 <? 2 ^ S j) with true by (symmetry; apply Nat.ltb_lt; lia).
      replace (2 ^ S j / 2) with (2 ^ j) by (rewrite H2; apply Nat.div_unique with 0; lia).
      destruct (Nat.ltb_spec (i + 2 ^ j) (e - b)) as [L|L].
      + destruct (rd_lt a (b + (i + 2 ^ j))) as [x Ex]; [lia|]. rewrite Ex. cbn [bind]. destruct (lt x) eqn:Ex'.
        * apply IH; [lia|lia|exists x; auto|]. replace (b + (i + 2 ^ j + 2 ^ j)) with (b + (i + 2 ^ S j)) by lia. exact Hn.
        * apply IH; [lia|lia|exact Hx|]. right. exists x. auto.
      + apply IH; [lia|lia|exact Hx|]. left. lia.
  Qed.
  Lemma gallop_ok : b <= e -> exists r, galloping_lower_bound lt a b e = Some r /\ is_bound lt a b e r.
  Proof.
    intros Hbe. unfold galloping_lower_bound. destruct (Nat.leb_spec e b) as [L|L].
    - exists (min b e). split; [reflexivity|]. split; [lia|]. split; intros; lia.
    - destruct (rd_lt a b) as [x Ex]; [lia|]. rewrite Ex. cbn [bind]. destruct (lt x) eqn:Ex'; cbn [negb].
      + assert (X : exists x, rd a (b + 0) = Some x /\ lt x = true) by (exists x; rewrite Nat.add_0_r; auto).
        destruct (up_ok (S (e - b)) 0 1) as (i & d & E & [j ->] & Hi & Hx & Hn); [lia|lia|lia|lia|exact X|exists 0; reflexivity|].
        rewrite E. cbn [bind].
        assert (Hj : j < 2 ^ j) by (apply Nat.pow_gt_lin_r; lia).
        destruct (down_ok j (S (2 ^ j)) i) as (i' & E' & Hi' & (y & Ey & Ly) & Hn'); [lia|exact Hi|exact Hx|exact Hn|].
        rewrite E'. cbn [bind]. exists (b + i' + 1). split; [reflexivity|]. split; [lia|]. split.
        * intros k z Hk Hz. apply (P k (b + i') z y); [lia|lia|lia|exact Hz|exact Ey|exact Ly].
        * intros k z Hk Hz. destruct Hn' as [Hn'|(w & Ew & Lw)]; [lia|].
          destruct (lt z) eqn:Lz; [|reflexivity].
          rewrite (P (b + (i' + 1)) k w z) in Lw; [discriminate|lia|lia|lia|exact Ew|exact Hz|exact Lz].
      + exists (min b e). split; [reflexivity|]. split; [lia|]. split; [intros; lia|].
        intros k z Hk Hz. destruct (lt z) eqn:Lz; [|reflexivity].
        rewrite (P b k x z) in Ex'; [discriminate|lia|lia|lia|exact Ex|exact Hz|exact Lz].
  Qed.

  Lemma std_ok : forall n f, b <= f -> f + n <= e -> exists r, std_lower_bound lt a f n = Some r /\ is_bound lt a f (f + n) r.
  Proof.
    induction n as [|n IH]; intros f Hb Hf.
    - exists f. split; [reflexivity|]. split; [lia|]. split; intros; lia.
    - cbn [std_lower_bound]. destruct (rd_lt a f) as [x Ex]; [lia|]. rewrite Ex. cbn [bind]. destruct (lt x) eqn:Lx.
      + destruct (IH (S f)) as (r & E & B1 & B2 & B3); [lia|lia|]. exists r. split; [exact E|]. split; [lia|]. split.
        * intros i y Hi Hy. destruct (Nat.eq_dec i f) as [->|N]; [|apply (B2 i y); [lia|exact Hy]].
          unfold rd in Ex. congruence.
        * intros i y Hi Hy. apply (B3 i y); [lia|exact Hy].
      + exists f. split; [reflexivity|]. split; [lia|]. split; [intros; lia|].
        intros i y Hi Hy. destruct (lt y) eqn:Ly; [|reflexivity].
        rewrite (P f i x y) in Lx; [discriminate|lia|lia|lia|exact Ex|exact Hy|exact Ly].
  Qed.

  (** The narrowed range still holds the bound.  [it] stays below the last element
      while the loop runs because the remaining count never exceeds the distance
      from [first] to [last] and [it - first] is below the step. *)
  Lemma narrow_ok : forall fuel f l it step c, (c <= Z.of_nat (l - f))%Z -> (0 <= c < Z.of_nat fuel)%Z ->
      f <= it -> it < f + step -> 1 <= step -> f <= l -> l <= e -> b <= f ->
      (forall i x, b <= i < f -> nth_error a i = Some x -> lt x = true) ->
      (forall i x, l <= i < e -> nth_error a i = Some x -> lt x = false) ->
    exists f' l', exp_narrow false lt a fuel f l it step c = Some (f', l') /\ f' <= l' /\ l' <= e /\ b <= f' /\
      (forall i x, b <= i < f' -> nth_error a i = Some x -> lt x = true) /\
      (forall i x, l' <= i < e -> nth_error a i = Some x -> lt x = false).
  Proof.
    induction fuel as [|fuel IH]; intros f l it step c Hc Hfu Hi Hs H1 Hfl Hle Hbf HL HR; cbn [exp_narrow]; [lia|].
    destruct (Z.ltb_spec (Z.of_nat step) c) as [L|L].
    - destruct (rd_lt a it) as [x Ex]; [lia|]. rewrite Ex. cbn [bind]. destruct (lt x) eqn:Lx.
      + cbn [negb orb guard bind]. apply IH; [lia|lia|lia|lia|lia|lia|lia|lia| |exact HR].
        intros i y Hiy Hy. apply (P i it y x); [lia|lia|lia|exact Hy|exact Ex|exact Lx].
      + exists f, it. split; [reflexivity|]. split; [lia|]. split; [lia|]. split; [lia|]. split; [exact HL|].
        intros i y Hiy Hy. destruct (lt y) eqn:Ly; [|reflexivity].
        rewrite (P it i x y) in Lx; [discriminate|lia|lia|lia|exact Ex|exact Hy|exact Ly].
    - exists f, l. split; [reflexivity|]. auto 10.
  Qed.
  Lemma exp_ok : b <= e -> exists r, exp_lower_bound false lt a b e = Some r /\ is_bound lt a b e r.
  Proof.
    intros Hbe. unfold exp_lower_bound.
    destruct (narrow_ok (S (e - b)) b e b 1 (Z.of_nat (e - b))) as (f & l & E & H1 & H2 & H3 & HL & HR);
      [lia|lia|lia|lia|lia|lia|lia|lia|intros; lia|intros; lia|].
    rewrite E. cbn [bind]. destruct (std_ok (l - f) f) as (r & Er & B1 & B2 & B3); [lia|lia|].
    exists r. split; [exact Er|]. split; [lia|]. split; intros i x Hi Hx.
    - destruct (Nat.lt_ge_cases i f); [apply (HL i x); [lia|exact Hx]|apply (B2 i x); [lia|exact Hx]].
    - destruct (Nat.lt_ge_cases i l); [apply (B3 i x); [lia|exact Hx]|apply (HR i x); [lia|exact Hx]].
  Qed.
End G.

Lemma sorted_lt v l : sorted l -> partitioned (fun x => (x <? v)%Z) l 0 (length l).
Proof. intros S i j x y _ Hij _ Ex Ey L. specialize (S i j x y Hij Ex Ey). lia. Qed.
Lemma sorted_le v l : sorted l -> partitioned (fun x => (x <=? v)%Z) l 0 (length l).
Proof. intros S i j x y _ Hij _ Ex Ey L. specialize (S i j x y Hij Ex Ey). lia. Qed.

Lemma lower_int_ok v l : sorted l -> lower_bound_int v l = Some (count (fun x => (x <? v)%Z) l).
Proof.
  intros S. unfold lower_bound_int.
  destruct (search_two (fun x => negb (x <? v)%Z) (fun x => (v <=? x)%Z) l) as (r & E & B).
  - intros x _. lia.
  - apply (part_ext (fun x => (x <? v)%Z)); [intros x; unfold nlt; rewrite negb_involutive; reflexivity|apply sorted_lt, S].
  - rewrite E. f_equal. symmetry. apply bound_count. revert B. apply is_bound_ext. intros x. apply negb_involutive.
Qed.
Lemma upper_int_ok v l : sorted l -> upper_bound_int v l = Some (count (fun x => (x <=? v)%Z) l).
Proof.
  intros S. unfold upper_bound_int.
  destruct (search_two (fun x => (v <? x)%Z) (fun x => (v <? x)%Z) l) as (r & E & B).
  - reflexivity.
  - apply (part_ext (fun x => (x <=? v)%Z)); [intros x; unfold nlt; lia|apply sorted_le, S].
  - rewrite E. f_equal. symmetry. apply bound_count. revert B. apply is_bound_ext. intros x. unfold nlt. lia.
Qed.

Lemma lower_flt_ok v l : partitioned (fun x => flt_lt x v) l 0 (length l) ->
  lower_bound_flt v l = Some (count (fun x => flt_lt x v) l).
Proof.
  intros P. unfold lower_bound_flt.
  destruct (search_two (fun x => negb (flt_lt x v)) (fun x => negb (flt_lt x v)) l) as (r & E & B).
  - reflexivity.
  - revert P. apply part_ext. intros x. unfold nlt. rewrite negb_involutive. reflexivity.
  - rewrite E. f_equal. symmetry. apply bound_count. revert B. apply is_bound_ext. intros x. apply negb_involutive.
Qed.
(** Elements not greater than the value in the sense of [std::upper_bound]. *)
Lemma upper_flt_ok v l : Forall (fun x => x <> NaN) l -> partitioned (fun x => negb (flt_lt v x)) l 0 (length l) ->
  upper_bound_flt v l = Some (count (fun x => negb (flt_lt v x)) l).
Proof.
  intros F P. unfold upper_bound_flt. destruct v as [|z].
  - assert (C : count (fun x => negb (flt_lt NaN x)) l = length l).
    { unfold count. clear. induction l as [|x t IH]; [reflexivity|]. cbn [filter flt_lt negb length]. f_equal. exact IH. }
    rewrite C. destruct (Nat.le_gt_cases (length l) 2) as [L|L].
    + destruct l as [|x [|y [|w t]]]; cbn [length] in L; try lia; reflexivity.
    + rewrite (small_none _ l L). reflexivity.
  - destruct (search_two (fun x => flt_lt (Num z) x) (fun x => negb (flt_le x (Num z))) l) as (r & E & B).
    + intros x Hx. rewrite Forall_forall in F. specialize (F x Hx). destruct x as [|y]; [congruence|]. cbn. lia.
    + exact P.
    + cbn [flt_nan]. rewrite E. f_equal. symmetry. apply bound_count. exact B.
Qed.

Lemma sorted_nums z l : sorted l -> partitioned (fun x => flt_lt x z) (map Num l) 0 (length (map Num l)).
Proof.
  intros S i j x y _ Hij _ Ex Ey L. rewrite nth_error_map in Ex, Ey.
  destruct (nth_error l i) as [u|] eqn:Eu; [|discriminate]. destruct (nth_error l j) as [w|] eqn:Ew; [|discriminate].
  cbn in Ex, Ey. injection Ex as <-. injection Ey as <-. specialize (S i j u w Hij Eu Ew). destruct z; [discriminate|]. cbn in *. lia.
Qed.
Lemma sorted_nums_ge z l : sorted l -> partitioned (fun x => negb (flt_lt z x)) (map Num l) 0 (length (map Num l)).
Proof.
  intros S i j x y _ Hij _ Ex Ey L. rewrite nth_error_map in Ex, Ey.
  destruct (nth_error l i) as [u|] eqn:Eu; [|discriminate]. destruct (nth_error l j) as [w|] eqn:Ew; [|discriminate].
  cbn in Ex, Ey. injection Ex as <-. injection Ey as <-. specialize (S i j u w Hij Eu Ew). destruct z; [reflexivity|]. cbn in *. lia.
Qed.
