From Coq Require Import QArith Lqa.
From Verif Require Import Base Curve_Model Curve_Spec Curve_Num Curve_Build.
Local Open Scope nat_scope.
Local Open Scope list_scope.

Lemma lift_map {A B} (f : A -> point) (g : B -> point) (l : list A) : (forall x, In x l -> exists y, g y = f x) -> exists m, map g m = map f l.
Proof.
  induction l as [|x l IH]; intros H; [exists []; reflexivity|]. destruct (H x (or_introl eq_refl)) as (y & E).
  destruct IH as (m & Em); [intros z Hz; apply H; right; exact Hz|]. exists (y :: m). cbn. rewrite E, Em. reflexivity.
Qed.

Section Built.
  Context (h : hook) (ps : list point) (NN : no_nan ps) (HK : hook_ok h) (SP : spread h ps) (lb : list bool -> nat) (LB : lower_bound_ok lb).
  Context (Inc : forall i p q, rd ps i = Some p -> rd ps (S i) = Some q -> nlt (px p) (px q)).
  Context (b e b' e' : nat) (first last front back : point) (B : built h ps b e b' e' first last front back).
  Let n := List.length ps.
  Let c : curve := Pwl front back (coefficients_for (num_lt (py front) (py back)) (map (transform h) (slice b' e' ps))).

  Lemma lt_x i j p q : i < j -> rd ps i = Some p -> rd ps j = Some q -> nlt (px p) (px q).
  Proof. apply (chain px ps Inc j i p q). Qed.
  Lemma nan_x i p : rd ps i = Some p -> px p <> NaN.
  Proof. intros H. apply NN, (nth_error_In _ _ H). Qed.
  Lemma nan_y i p : rd ps i = Some p -> py p <> NaN.
  Proof. intros H. apply NN, (nth_error_In _ _ H). Qed.
  Lemma le_x i j p q : i <= j -> rd ps i = Some p -> rd ps j = Some q -> nle (px p) (px q).
  Proof.
    intros L Hp Hq. destruct (Nat.eq_dec i j) as [->|N]; [|apply nlt_le, (lt_x i j); [lia|exact Hp|exact Hq]].
    rewrite Hp in Hq. injection Hq as ->. apply nle_refl, (nan_x j), Hp.
  Qed.
  Lemma index_lt i j p q : rd ps i = Some p -> rd ps j = Some q -> nle (px p) (px q) -> i <= j.
  Proof. intros Hp Hq L. destruct (Nat.le_gt_cases i j) as [K|K]; [exact K|]. destruct (nlt_irrefl _ _ (lt_x j i q p K Hq Hp) L). Qed.
  Lemma first_le i p : rd ps i = Some p -> nle (px first) (px p).
  Proof. intros H. apply (le_x 0 i); [lia|apply (bt_first _ _ _ _ _ _ _ _ _ _ B)|exact H]. Qed.
  Lemma in_le x y : nle (px first) x -> nle x y -> nle (h_in h x) (h_in h y).
  Proof. apply (proj1 (HK _ (bt_valid _ _ _ _ _ _ _ _ _ _ B))). Qed.
  Lemma in_fin x y : nlt (px first) x -> nlt x y -> exists q, h_in h x = Fin q.
  Proof. apply (proj2 (HK _ (bt_valid _ _ _ _ _ _ _ _ _ _ B))). Qed.
  Lemma front_back : nlt (px front) (px back).
  Proof. destruct B as [[R1 R2] _ _ Hf Hb]. apply (lt_x b (e - 1)); [lia|exact Hf|exact Hb]. Qed.
  Lemma in_q x y t u : nle (px first) x -> nle x y -> h_in h x = Fin t -> h_in h y = Fin u -> (t <= u)%Q.
  Proof. intros H1 H2 E1 E2. pose proof (in_le x y H1 H2) as K. rewrite E1, E2 in K. destruct K as [K|K]; cbn in K; lra. Qed.
  Lemma in_same i p x t a : rd ps i = Some p -> same (px p) x -> h_in h x = Fin t -> h_in h (px p) = Fin a -> (t == a)%Q.
  Proof.
    intros Hp S E1 E2. pose proof (first_le i p Hp) as F. pose proof (in_q (px p) x a t F (same_le _ _ S) E2 E1).
    pose proof (in_q x (px p) t a (nle_trans _ _ _ F (same_le _ _ S)) (same_le _ _ (same_sym _ _ S)) E1 E2). lra.
  Qed.

  (** Interior points are finite. *)
  Lemma inner_fin i p : b' <= i -> i < e' -> rd ps i = Some p -> exists a d, finite (h_in h) p a d.
  Proof.
    intros L1 L2 Hp. destruct B as [[R1 R2] H0 Hl Hf Hb _ _ _ _ _ Hb' He' _ Hfin _ _ _ _].
    assert (Ly : exists d, py p = Fin d) by (apply not_inf; [apply (nan_y i), Hp|apply (Hfin i); assumption]). destruct Ly as (d & Ed).
    assert (La : exists a, h_in h (px p) = Fin a).
    { assert (K : infinite (h_in h (px p)) -> False).
      { intros K. destruct (Nat.eq_dec i 0) as [->|N0].
        - destruct Hb' as [(-> & I1 & _)|(-> & _)]; [|lia]. assert (b = 0) as -> by lia. rewrite Hf in Hp. injection Hp as <-. contradiction.
        - destruct (Nat.eq_dec i (n - 1)) as [->|N1].
          + destruct He' as [(-> & I1 & _)|(E & _)]; [|unfold n in *; lia]. assert (e - 1 = n - 1) as Ee by (unfold n in *; lia). rewrite Ee in Hb. unfold n in *. rewrite Hp in Hb. injection Hb as <-. contradiction.
          + destruct (in_fin (px p) (px last)) as (q & E).
            * apply (lt_x 0 i); [lia|exact H0|exact Hp].
            * apply (lt_x i (n - 1)); [apply rd_Some_lt in Hp; unfold n in *; lia|exact Hp|exact Hl].
            * rewrite E in K. destruct K; discriminate. }
      apply not_inf; [|exact K]. pose proof (in_le _ _ (first_le i p Hp) (nle_refl _ (nan_x i p Hp))) as M. apply (nle_nan _ _ M). }
    destruct La as (a & Ea). exists a, d. split; assumption.
  Qed.
  Lemma inner : exists L, map pt L = map (transform h) (slice b' e' ps) /\ List.length L = e' - b' /\ sorted L /\
    forall i p a d, b' <= i -> i < e' -> rd ps i = Some p -> finite (h_in h) p a d -> rd L (i - b') = Some (a, d).
  Proof.
    assert (Le : e' <= n). { destruct B as [[R1 R2] _ _ _ _ _ _ _ _ _ _ He' _ _ _ _ _ _]. unfold n. destruct He' as [(-> & _)|(E & _)]; lia. }
    destruct (lift_map (transform h) pt (slice b' e' ps)) as (L & EL).
    { intros p Hp. destruct (In_nth_error _ _ Hp) as (k & Hk). change (@nth_error point) with (@rd point) in Hk. pose proof (rd_Some_lt _ _ _ Hk) as Lk.
      rewrite slice_length in Lk by exact Le. rewrite rd_slice in Hk by exact Lk. destruct (inner_fin (b' + k) p ltac:(lia) ltac:(lia) Hk) as (a & d & E1 & E2).
      exists (a, d). unfold transform, pt. rewrite E1, E2. reflexivity. }
    assert (R : forall i p a d, b' <= i -> i < e' -> rd ps i = Some p -> finite (h_in h) p a d -> rd L (i - b') = Some (a, d)).
    { intros i p a d L1 L2 Hp (E1 & E2). assert (K : rd (map pt L) (i - b') = Some (mkPt (Fin a) (Fin d))).
      { rewrite EL. unfold rd. rewrite nth_error_map. change (@nth_error point) with (@rd point). rewrite rd_slice by lia. replace (b' + (i - b')) with i by lia. rewrite Hp. cbn. unfold transform. rewrite E1, E2. reflexivity. }
      unfold rd in *. rewrite nth_error_map in K. destruct (nth_error L (i - b')) as [[a' d']|]; [|discriminate]. cbn in K. unfold pt in K. cbn in K. injection K as -> ->. reflexivity. }
    assert (LL : List.length L = e' - b') by (rewrite <- (map_length pt), EL, map_length; apply slice_length, Le).
    exists L. split; [exact EL|]. split; [exact LL|]. split; [|exact R].
    assert (A : forall i p q, rd L i = Some p -> rd L (S i) = Some q -> (fst p < fst q)%Q).
    { intros i p q Hp Hq. pose proof (rd_Some_lt _ _ _ Hq) as Lq. rewrite LL in Lq.
      destruct (rd_lt ps (b' + i)) as (p1 & Hp1); [unfold n in *; lia|]. destruct (rd_lt ps (b' + S i)) as (q1 & Hq1); [unfold n in *; lia|].
      destruct (inner_fin (b' + i) p1 ltac:(lia) ltac:(lia) Hp1) as (a1 & d1 & F1). destruct (inner_fin (b' + S i) q1 ltac:(lia) ltac:(lia) Hq1) as (a2 & d2 & F2).
      pose proof (R (b' + i) p1 a1 d1 ltac:(lia) ltac:(lia) Hp1 F1) as K1. pose proof (R (b' + S i) q1 a2 d2 ltac:(lia) ltac:(lia) Hq1 F2) as K2.
      replace (b' + i - b') with i in K1 by lia. replace (b' + S i - b') with (S i) in K2 by lia. rewrite Hp in K1. rewrite Hq in K2. injection K1 as ->. injection K2 as ->. cbn.
      replace (b' + S i) with (S (b' + i)) in Hq1 by lia. pose proof (SP _ _ _ Hp1 Hq1) as S1. destruct F1 as [F1 _], F2 as [F2 _]. rewrite F1, F2 in S1. exact S1. }
    clear - A. induction L as [|p [|q L] IH]; [exact I|exact I|]. split; [apply (A 0); reflexivity|]. apply IH. intros i p1 q1 H1 H2. apply (A (S i)); assumption.
  Qed.

  (** The three cases of evaluation. *)
  Lemma ev_left x : nle x (px front) -> eval lb h c x = Some (py front).
  Proof. intros H. unfold eval, c. apply num_le_ok in H. rewrite H. reflexivity. Qed.
  Lemma ev_right x : nle (px back) x -> eval lb h c x = Some (py back).
  Proof.
    intros H. unfold eval, c. destruct (num_le x (px front)) eqn:E.
    - apply num_le_ok in E. destruct (nlt_irrefl _ _ front_back (nle_trans _ _ _ H E)).
    - apply num_le_ok in H. rewrite H. reflexivity.
  Qed.
  Lemma mid_t x : nlt (px front) x -> nlt x (px back) -> exists t, h_in h x = Fin t.
  Proof.
    intros H1 H2. apply (in_fin x (px back)); [|exact H2]. apply nle_lt_trans with (px front); [|exact H1]. apply (first_le b), (bt_front _ _ _ _ _ _ _ _ _ _ B).
  Qed.
  Lemma ev_mid x t : nlt (px front) x -> nlt x (px back) -> h_in h x = Fin t ->
    eval lb h c x = let? k := find_coefficients lb (coefficients_for (num_lt (py front) (py back)) (map (transform h) (slice b' e' ps))) (Fin t) in Some (value k t).
  Proof.
    intros H1 H2 E. unfold eval, c. destruct (num_le x (px front)) eqn:E1; [apply num_le_ok in E1; destruct (nlt_irrefl _ _ H1 E1)|].
    destruct (num_le (px back) x) eqn:E2; [apply num_le_ok in E2; destruct (nlt_irrefl _ _ H2 E2)|]. rewrite E. reflexivity.
  Qed.
  Lemma ev_pwl L x t : map pt L = map (transform h) (slice b' e' ps) -> sorted L -> 2 <= List.length L -> nlt (px front) x -> nlt x (px back) -> h_in h x = Fin t ->
    exists y, eval lb h c x = Some (Fin y) /\ (y == pwl L t)%Q.
  Proof.
    intros EL S LL H1 H2 E. rewrite (ev_mid x t H1 H2 E), <- EL. destruct (segments_value lb L t LB S LL) as (k & y & F & V & Y).
    exists y. split; [|exact Y]. assert (coefficients_for (num_lt (py front) (py back)) (map pt L) = segments (map pt L)) as -> by (destruct L as [|? [|? ?]]; [cbn in LL; lia|cbn in LL; lia|reflexivity]).
    rewrite F. cbn [bind]. rewrite V. reflexivity.
  Qed.
  Lemma ev_unit x t p a d : S b' = e' -> rd ps b' = Some p -> finite (h_in h) p a d -> nlt (px front) x -> nlt x (px back) -> h_in h x = Fin t ->
    exists y, eval lb h c x = Some (Fin y) /\ (y == unit_line (num_lt (py front) (py back)) a d t)%Q.
  Proof.
    intros Ee Hp (F1 & F2) H1 H2 E. rewrite (ev_mid x t H1 H2 E).
    assert (Es : map (transform h) (slice b' e' ps) = [mkPt (Fin a) (Fin d)]).
    { assert (Le : e' <= n) by (apply rd_Some_lt in Hp; unfold n; lia). pose proof (slice_length b' e' ps Le) as SL. pose proof (rd_slice b' e' ps 0 ltac:(lia)) as SR. rewrite Nat.add_0_r, Hp in SR.
      destruct (slice b' e' ps) as [|p0 [|? ?]]; [discriminate| |cbn in SL; lia]. injection SR as ->. cbn. unfold transform. rewrite F1, F2. reflexivity. }
    rewrite Es. unfold coefficients_for, find_coefficients. cbn [removelast map]. pose proof (LB 0 0) as L0. cbn in L0. rewrite L0. cbn [rd nth_error bind].
    unfold value. cbn. eexists. split; [reflexivity|]. unfold unit_line. destruct (num_lt (py front) (py back)); lra.
  Qed.
  Lemma ev_cases x : x <> NaN -> nle x (px front) \/ nle (px back) x \/ nlt (px front) x /\ nlt x (px back).
  Proof.
    intros N. pose proof front_back as FB. destruct (nle_or_lt x (px front) N (proj1 (nlt_nan _ _ FB))); [auto|]. destruct (nle_or_lt (px back) x (proj2 (nlt_nan _ _ FB)) N); auto.
  Qed.

  Definition gives (x y : num) : Prop := exists v, eval lb h c x = Some v /\ same v y.

  Lemma front_same i p : i <= b -> rd ps i = Some p -> same (py front) (py p).
  Proof.
    intros L Hp. destruct (Nat.eq_dec i b) as [->|N].
    - rewrite (bt_front _ _ _ _ _ _ _ _ _ _ B) in Hp. injection Hp as <-. apply same_refl, (nan_y b), (bt_front _ _ _ _ _ _ _ _ _ _ B).
    - apply same_sym, (bt_pre _ _ _ _ _ _ _ _ _ _ B i); [lia|exact Hp].
  Qed.
  Lemma back_same i p : e - 1 <= i -> rd ps i = Some p -> same (py back) (py p).
  Proof.
    intros L Hp. destruct (Nat.eq_dec i (e - 1)) as [->|N].
    - rewrite (bt_back _ _ _ _ _ _ _ _ _ _ B) in Hp. injection Hp as <-. apply same_refl, (nan_y (e - 1)), (bt_back _ _ _ _ _ _ _ _ _ _ B).
    - apply same_sym, (bt_post _ _ _ _ _ _ _ _ _ _ B i); [lia|exact Hp].
  Qed.

  Lemma rule_left p x : rd ps 0 = Some p -> nle x (px p) -> gives x (py p).
  Proof.
    intros Hp Hx. exists (py front). split; [|apply (front_same 0); [lia|exact Hp]]. apply ev_left, nle_trans with (px p); [exact Hx|].
    apply (le_x 0 b); [lia|exact Hp|apply (bt_front _ _ _ _ _ _ _ _ _ _ B)].
  Qed.
  Lemma rule_right p x : rd ps (n - 1) = Some p -> nle (px p) x -> gives x (py p).
  Proof.
    pose proof (bt_range _ _ _ _ _ _ _ _ _ _ B) as R. intros Hp Hx. exists (py back). split; [|apply (back_same (n - 1)); [unfold n; lia|exact Hp]]. apply ev_right, nle_trans with (px p); [|exact Hx].
    apply (le_x (e - 1) (n - 1)); [unfold n; lia|apply (bt_back _ _ _ _ _ _ _ _ _ _ B)|exact Hp].
  Qed.
  (** Which interval [x] is in decides which case of evaluation it is. *)
  Lemma interval i p q x : rd ps i = Some p -> rd ps (S i) = Some q -> nle (px p) x -> nle x (px q) ->
    (i < b /\ eval lb h c x = Some (py front)) \/ (e - 1 <= i /\ eval lb h c x = Some (py back)) \/
    (b <= i /\ S i <= e - 1 /\
     ((p = front /\ same (px p) x /\ eval lb h c x = Some (py front)) \/ (q = back /\ same (px q) x /\ eval lb h c x = Some (py back)) \/
      (nlt (px front) x /\ nlt x (px back)))).
  Proof.
    intros Hp Hq H1 H2. pose proof (bt_front _ _ _ _ _ _ _ _ _ _ B) as Hf. pose proof (bt_back _ _ _ _ _ _ _ _ _ _ B) as Hb.
    destruct (Nat.lt_ge_cases i b) as [L|L].
    { left. split; [exact L|]. apply ev_left, nle_trans with (px q); [exact H2|]. apply (le_x (S i) b); [lia|exact Hq|exact Hf]. }
    right. destruct (Nat.le_gt_cases (e - 1) i) as [L2|L2].
    { left. split; [exact L2|]. apply ev_right, nle_trans with (px p); [|exact H1]. apply (le_x (e - 1) i); [lia|exact Hb|exact Hp]. }
    right. split; [exact L|]. split; [lia|]. destruct (ev_cases x (proj2 (nle_nan _ _ H1))) as [K|[K|K]].
    - left. assert (i = b) as ->. { pose proof (index_lt i b p front Hp Hf (nle_trans _ _ _ H1 K)). lia. }
      rewrite Hf in Hp. injection Hp as <-. split; [reflexivity|]. split; [apply nle_antisym; assumption|apply ev_left, K].
    - right. left. assert (Ei : S i = e - 1). { pose proof (index_lt (e - 1) (S i) back q Hb Hq (nle_trans _ _ _ K H2)). lia. }
      rewrite Ei, Hb in Hq. injection Hq as <-. split; [reflexivity|]. split; [apply nle_antisym; [exact K|exact H2]|apply ev_right, K].
    - right. right. exact K.
  Qed.
  Lemma ends_b i p : b <= i -> rd ps i = Some p -> ~ infinite (py p) -> b' <= i.
  Proof.
    intros L Hp N. destruct (bt_b _ _ _ _ _ _ _ _ _ _ B) as [(-> & _)|(-> & _ & I2)]; [exact L|]. destruct (Nat.eq_dec i b) as [->|Ni]; [|lia].
    rewrite (bt_front _ _ _ _ _ _ _ _ _ _ B) in Hp. injection Hp as <-. contradiction.
  Qed.
  Lemma ends_e i p : i <= e - 1 -> rd ps i = Some p -> ~ infinite (py p) -> i < e'.
  Proof.
    pose proof (bt_range _ _ _ _ _ _ _ _ _ _ B) as R. intros L Hp N. destruct (bt_e _ _ _ _ _ _ _ _ _ _ B) as [(-> & _)|(Ee & _ & I2)]; [lia|]. destruct (Nat.eq_dec i (e - 1)) as [->|Ni]; [|lia].
    rewrite (bt_back _ _ _ _ _ _ _ _ _ _ B) in Hp. injection Hp as <-. contradiction.
  Qed.
  Lemma fin_not q : ~ infinite (Fin q).
  Proof. intros [K|K]; discriminate. Qed.
  Lemma rule_segment i p q a a2 d d2 t x : rd ps i = Some p -> rd ps (S i) = Some q -> nle (px p) x -> nle x (px q) ->
    finite (h_in h) p a d -> finite (h_in h) q a2 d2 -> h_in h x = Fin t -> gives x (Fin (line a d a2 d2 t)).
  Proof.
    intros Hp Hq H1 H2 (Fp1 & Fp2) (Fq1 & Fq2) Et. destruct (interval i p q x Hp Hq H1 H2) as [(L & E)|[(L & E)|(L1 & L2 & [(-> & Sx & E)|[(-> & Sx & E)|(M1 & M2)]])]].
    - exists (py front). split; [exact E|]. pose proof (front_same i p ltac:(lia) Hp) as K1. pose proof (front_same (S i) q ltac:(lia) Hq) as K2.
      rewrite Fp2 in K1. rewrite Fq2 in K2. apply same_trans with (Fin d); [exact K1|]. cbn. rewrite line_flat; [lra|]. pose proof (same_trans _ _ _ (same_sym _ _ K1) K2) as K. exact K.
    - exists (py back). split; [exact E|]. pose proof (back_same i p ltac:(lia) Hp) as K1. pose proof (back_same (S i) q ltac:(lia) Hq) as K2.
      rewrite Fp2 in K1. rewrite Fq2 in K2. apply same_trans with (Fin d); [exact K1|]. cbn. rewrite line_flat; [lra|]. pose proof (same_trans _ _ _ (same_sym _ _ K1) K2) as K. exact K.
    - exists (py front). split; [exact E|]. rewrite Fp2. cbn. rewrite line_left; [lra|]. apply (in_same i front x); assumption.
    - exists (py back). split; [exact E|]. rewrite Fq2. cbn. pose proof (SP i p back Hp Hq) as K. rewrite Fp1, Fq1 in K. rewrite line_right; [lra|exact K|]. apply (in_same (S i) back x); assumption.
    - destruct inner as (L & EL & LL & SL & RL). assert (b' <= i) by (apply (ends_b i p L1 Hp); rewrite Fp2; apply fin_not).
      assert (S i < e') by (apply (ends_e (S i) q L2 Hq); rewrite Fq2; apply fin_not).
      destruct (ev_pwl L x t EL SL ltac:(lia) M1 M2 Et) as (y & E & Y). exists (Fin y). split; [exact E|]. cbn. rewrite Y.
      apply (pwl_segment L (i - b') (a, d) (a2, d2) t SL).
      + apply (RL i p); [lia|lia|exact Hp|split; assumption].
      + replace (S (i - b')) with (S i - b') by lia. apply (RL (S i) q); [lia|lia|exact Hq|split; assumption].
      + apply (in_q (px p) x); [apply (first_le i), Hp|exact H1|exact Fp1|exact Et].
      + apply (in_q x (px q)); [apply nle_trans with (px p); [apply (first_le i), Hp|exact H1]|exact H2|exact Et|exact Fq1].
  Qed.
  Lemma rule_flat i p q x : rd ps i = Some p -> rd ps (S i) = Some q -> nle (px p) x -> nle x (px q) -> same (py p) (py q) -> gives x (py p).
  Proof.
    intros Hp Hq H1 H2 S0. destruct (interval i p q x Hp Hq H1 H2) as [(L & E)|[(L & E)|(L1 & L2 & [(-> & Sx & E)|[(-> & Sx & E)|(M1 & M2)]])]].
    - exists (py front). split; [exact E|]. apply (front_same i); [lia|exact Hp].
    - exists (py back). split; [exact E|]. apply (back_same i); [lia|exact Hp].
    - exists (py front). split; [exact E|]. apply same_refl, (nan_y i), Hp.
    - exists (py back). split; [exact E|]. apply same_sym, S0.
    - assert (b' <= i).
      { destruct (bt_b _ _ _ _ _ _ _ _ _ _ B) as [(-> & _)|(-> & _ & I2)]; [exact L1|]. destruct (Nat.eq_dec i b) as [->|Ni]; [|lia].
        rewrite (bt_front _ _ _ _ _ _ _ _ _ _ B) in Hp. injection Hp as <-. destruct (bt_step1 _ _ _ _ _ _ _ _ _ _ B q Hq S0). }
      assert (S i < e').
      { pose proof (bt_range _ _ _ _ _ _ _ _ _ _ B) as R. destruct (bt_e _ _ _ _ _ _ _ _ _ _ B) as [(-> & _)|(Ee & _ & I2)]; [lia|]. destruct (Nat.eq_dec (S i) (e - 1)) as [Ei|Ni]; [|lia].
        rewrite Ei, (bt_back _ _ _ _ _ _ _ _ _ _ B) in Hq. injection Hq as <-. exfalso. apply (bt_step2 _ _ _ _ _ _ _ _ _ _ B p); [rewrite <- Hp; f_equal; lia|apply same_sym, S0]. }
      destruct (inner_fin i p ltac:(lia) ltac:(lia) Hp) as (a & d & Fp). destruct (inner_fin (S i) q ltac:(lia) ltac:(lia) Hq) as (a2 & d2 & Fq).
      destruct (mid_t x M1 M2) as (t & Et). destruct (rule_segment i p q a a2 d d2 t x Hp Hq H1 H2 Fp Fq Et) as (v & E & V). exists v. split; [exact E|].
      apply same_trans with (Fin (line a d a2 d2 t)); [exact V|]. destruct Fp as [_ Fp], Fq as [_ Fq]. rewrite Fp. rewrite Fp, Fq in S0. cbn in *. apply line_flat, S0.
  Qed.

  (** An infinite end is not trimmed. *)
  Lemma left_end p0 p : rd ps 0 = Some p0 -> rd ps 1 = Some p -> infinite (py p0) -> ~ infinite (py p) -> b = 0 /\ front = p0 /\ b' = 1.
  Proof.
    intros H0 H1 I0 I1. assert (b = 0) as Eb.
    { destruct (Nat.eq_dec b 0) as [E|N]; [exact E|]. exfalso. apply I1. apply same_inf with (py p0); [|exact I0].
      apply same_trans with (py front); [apply same_sym, (front_same 0); [lia|exact H0]|apply (front_same 1); [lia|exact H1]]. }
    pose proof (bt_front _ _ _ _ _ _ _ _ _ _ B) as Hf. rewrite Eb, H0 in Hf. injection Hf as <-. split; [exact Eb|]. split; [reflexivity|].
    destruct (bt_b _ _ _ _ _ _ _ _ _ _ B) as [(_ & _ & K)|(-> & _)]; [contradiction|lia].
  Qed.
  Lemma right_end p0 p : 2 <= n -> rd ps (n - 1) = Some p0 -> rd ps (n - 2) = Some p -> infinite (py p0) -> ~ infinite (py p) -> e = n /\ back = p0 /\ e' = n - 1.
  Proof.
    intros L2 H0 H1 I0 I1. pose proof (bt_range _ _ _ _ _ _ _ _ _ _ B) as R. assert (e = n) as Ee.
    { destruct (Nat.eq_dec e n) as [E|N]; [exact E|]. exfalso. apply I1. apply same_inf with (py p0); [|exact I0].
      apply same_trans with (py back); [apply same_sym, (back_same (n - 1)); [unfold n in *; lia|exact H0]|apply (back_same (n - 2)); [unfold n in *; lia|exact H1]]. }
    pose proof (bt_back _ _ _ _ _ _ _ _ _ _ B) as Hf. rewrite Ee, H0 in Hf. injection Hf as <-. split; [exact Ee|]. split; [reflexivity|].
    destruct (bt_e _ _ _ _ _ _ _ _ _ _ B) as [(_ & _ & K)|(E & _)]; [contradiction|lia].
  Qed.
  Lemma rule_left_ray p0 p q a a2 d d2 t x : rd ps 0 = Some p0 -> rd ps 1 = Some p -> rd ps 2 = Some q -> nlt (px p0) x -> nle x (px p) ->
    infinite (py p0) -> finite (h_in h) p a d -> finite (h_in h) q a2 d2 -> ~ (d == d2)%Q -> h_in h x = Fin t -> gives x (Fin (line a d a2 d2 t)).
  Proof.
    intros H0 Hp Hq X1 X2 I0 (Fp1 & Fp2) (Fq1 & Fq2) Nd Et. destruct (left_end p0 p H0 Hp I0) as (Eb & Ef & Eb'); [rewrite Fp2; apply fin_not|].
    pose proof (bt_range _ _ _ _ _ _ _ _ _ _ B) as R. pose proof (bt_back _ _ _ _ _ _ _ _ _ _ B) as Hb.
    assert (E3 : 3 <= e).
    { destruct (Nat.le_gt_cases 3 e) as [K|K]; [exact K|]. exfalso. assert (e = 2) as E2 by lia. apply Nd.
      pose proof (back_same 1 p ltac:(lia) Hp) as K1. pose proof (back_same 2 q ltac:(lia) Hq) as K2. pose proof (same_trans _ _ _ (same_sym _ _ K1) K2) as K3. rewrite Fp2, Fq2 in K3. exact K3. }
    assert (E3' : 2 < e') by (apply (ends_e 2 q); [lia|exact Hq|rewrite Fq2; apply fin_not]).
    assert (M2 : nlt x (px back)) by (apply nle_lt_trans with (px p); [exact X2|apply (lt_x 1 (e - 1)); [lia|exact Hp|exact Hb]]).
    destruct inner as (L & EL & LL & SL & RL). destruct (ev_pwl L x t EL SL ltac:(lia)) as (y & E & Y); [rewrite Ef; exact X1|exact M2|exact Et|]. exists (Fin y). split; [exact E|]. cbn. rewrite Y.
    rewrite (pwl_left L (a, d) (a2, d2)); [reflexivity| | |].
    - replace 0 with (1 - b') by lia. apply (RL 1 p); [lia|lia|exact Hp|split; assumption].
    - replace 1 with (2 - b') by lia. apply (RL 2 q); [lia|lia|exact Hq|split; assumption].
    - apply (in_q x (px q)); [apply nlt_le, nle_lt_trans with (px p0); [apply (first_le 0), H0|exact X1]| |exact Et|exact Fq1].
      apply nle_trans with (px p); [exact X2|apply (le_x 1 2); [lia|exact Hp|exact Hq]].
  Qed.
  Lemma rule_right_ray p0 p q a a2 d d2 t x : 3 <= n -> rd ps (n - 3) = Some q -> rd ps (n - 2) = Some p -> rd ps (n - 1) = Some p0 -> nlt x (px p0) -> nle (px p) x ->
    infinite (py p0) -> finite (h_in h) p a d -> finite (h_in h) q a2 d2 -> ~ (d == d2)%Q -> h_in h x = Fin t -> gives x (Fin (line a d a2 d2 t)).
  Proof.
    intros L3 Hq Hp H0 X1 X2 I0 (Fp1 & Fp2) (Fq1 & Fq2) Nd Et. destruct (right_end p0 p ltac:(lia) H0 Hp I0) as (Ee & Ef & Ee'); [rewrite Fp2; apply fin_not|].
    pose proof (bt_range _ _ _ _ _ _ _ _ _ _ B) as R. pose proof (bt_front _ _ _ _ _ _ _ _ _ _ B) as Hf.
    assert (E3 : b <= n - 3).
    { destruct (Nat.le_gt_cases b (n - 3)) as [K|K]; [exact K|]. exfalso. assert (b = n - 2) as E2 by lia. apply Nd.
      pose proof (front_same (n - 2) p ltac:(lia) Hp) as K1. pose proof (front_same (n - 3) q ltac:(lia) Hq) as K2. pose proof (same_trans _ _ _ (same_sym _ _ K1) K2) as K3. rewrite Fp2, Fq2 in K3. exact K3. }
    assert (E3' : b' <= n - 3) by (apply (ends_b (n - 3) q); [lia|exact Hq|rewrite Fq2; apply fin_not]).
    assert (M1 : nlt (px front) x) by (apply nlt_le_trans with (px p); [apply (lt_x b (n - 2)); [lia|exact Hf|exact Hp]|exact X2]).
    destruct inner as (L & EL & LL & SL & RL). destruct (ev_pwl L x t EL SL ltac:(lia)) as (y & E & Y); [exact M1|rewrite Ef; exact X1|exact Et|]. exists (Fin y). split; [exact E|]. cbn. rewrite Y.
    pose proof (RL (n - 3) q a2 d2 ltac:(lia) ltac:(lia) Hq (conj Fq1 Fq2)) as K1. pose proof (RL (n - 2) p a d ltac:(lia) ltac:(lia) Hp (conj Fp1 Fp2)) as K2.
    assert (Lt : (a2 < a)%Q). { pose proof (lt_x (n - 3) (n - 2) q p ltac:(lia) Hq Hp) as _. pose proof (SP (n - 3) q p Hq) as S1. replace (S (n - 3)) with (n - 2) in S1 by lia. specialize (S1 Hp). rewrite Fp1, Fq1 in S1. exact S1. }
    rewrite (pwl_right L (a2, d2) (a, d) t SL); [|lia| | |].
    - unfold ln. cbn [fst snd]. apply line_swap, Lt.
    - rewrite <- K1. f_equal. lia.
    - rewrite <- K2. f_equal. lia.
    - cbn. assert (a <= t)%Q; [|lra]. apply (in_q (px p) x); [apply (first_le (n - 2)), Hp|exact X2|exact Fp1|exact Et].
  Qed.
  Lemma rule_left_unit p0 p a d t x : rd ps 0 = Some p0 -> rd ps 1 = Some p -> nlt (px p0) x -> nle x (px p) -> infinite (py p0) -> finite (h_in h) p a d ->
    (flat ps 1 n \/ n = 3 /\ exists q, rd ps 2 = Some q /\ infinite (py q)) -> h_in h x = Fin t -> gives x (Fin (unit_line (upward (py p0) (Fin 0)) a d t)).
  Proof.
    intros H0 Hp X1 X2 I0 (Fp1 & Fp2) C Et. destruct (left_end p0 p H0 Hp I0) as (Eb & Ef & Eb'); [rewrite Fp2; apply fin_not|].
    pose proof (bt_range _ _ _ _ _ _ _ _ _ _ B) as R. pose proof (bt_back _ _ _ _ _ _ _ _ _ _ B) as Hb.
    assert (Fe : ~ infinite (py p)) by (rewrite Fp2; apply fin_not).
    assert (D : (e = 2 /\ e' = 2 /\ back = p) \/ (e = 3 /\ e' = 2 /\ nlt (px p) (px back) /\ upward (py p0) (Fin 0) = num_lt (py p0) (py back))).
    { destruct C as [Fl|(E3 & q & Hq & Iq)].
      - left. assert (e = 2) as Ee.
        { destruct (Nat.eq_dec e 2) as [K|K]; [exact K|]. exfalso. destruct (rd_lt ps (e - 2)) as (r & Hr); [lia|].
          apply (bt_step2 _ _ _ _ _ _ _ _ _ _ B r Hr), same_sym. apply (Fl (e - 2)); [lia|unfold n; lia|exact Hr|rewrite <- Hb; f_equal; lia]. }
        pose proof Hb as Hb2. rewrite Ee in Hb2. change (2 - 1) with 1 in Hb2. rewrite Hp in Hb2. injection Hb2 as <-. split; [exact Ee|]. split; [|reflexivity].
        destruct (bt_e _ _ _ _ _ _ _ _ _ _ B) as [(-> & _)|(_ & _ & K)]; [exact Ee|contradiction].
      - right. assert (e = 3) as Ee.
        { destruct (Nat.eq_dec e 3) as [K|K]; [exact K|]. exfalso. assert (e = 2) by (unfold n in *; lia). apply Fe. apply same_inf with (py q); [|exact Iq].
          apply same_trans with (py back); [apply same_sym, (back_same 2); [lia|exact Hq]|apply (back_same 1); [lia|exact Hp]]. }
        pose proof Hb as Hb2. rewrite Ee in Hb2. change (3 - 1) with 2 in Hb2. rewrite Hq in Hb2. injection Hb2 as <-. split; [exact Ee|]. split; [|split].
        + destruct (bt_e _ _ _ _ _ _ _ _ _ _ B) as [(_ & _ & K)|(E & _)]; [contradiction|lia].
        + apply (lt_x 1 2); [lia|exact Hp|exact Hq].
        + assert (I0' : infinite (py front)) by (rewrite Ef; exact I0). assert (Hp' : rd ps (S b) = Some p) by (rewrite Eb; exact Hp). assert (Hq' : rd ps (S (S b)) = Some q) by (rewrite Eb; exact Hq).
          pose proof (bt_mono1 _ _ _ _ _ _ _ _ _ _ B ltac:(lia) I0' p q Hp' Hq') as Mo. rewrite Fp2, Ef in Mo.
          destruct I0 as [E0|E0], Iq as [Eq|Eq]; rewrite E0, Eq in *; cbn in *; tauto || reflexivity. }
    destruct D as [(Ee & Ee' & Eback)|(Ee & Ee' & Lt & Up)].
    - destruct (ev_cases x) as [K|[K|(M1 & M2)]]; [apply (nle_nan _ _ X2)| | |].
      + rewrite Ef in K. destruct (nlt_irrefl _ _ X1 K).
      + exists (py back). split; [apply ev_right, K|]. rewrite Eback, Fp2. cbn. assert (t == a)%Q by (apply (in_same 1 p x); [exact Hp|apply nle_antisym; [rewrite <- Eback; exact K|exact X2]|exact Et|exact Fp1]).
        destruct I0 as [E0|E0]; rewrite E0; cbn; lra.
      + destruct (ev_unit x t p a d ltac:(lia)) as (y & E & Y); [rewrite Eb'; exact Hp|split; assumption|exact M1|exact M2|exact Et|]. exists (Fin y). split; [exact E|]. cbn. rewrite Y, Ef, Eback, Fp2.
        destruct I0 as [E0|E0]; rewrite E0; reflexivity.
    - destruct (ev_unit x t p a d ltac:(lia)) as (y & E & Y); [rewrite Eb'; exact Hp|split; assumption|rewrite Ef; exact X1|apply nle_lt_trans with (px p); assumption|exact Et|].
      exists (Fin y). split; [exact E|]. cbn. rewrite Y, Ef, Up. reflexivity.
  Qed.
  Lemma rule_right_unit p0 p a d t x : 2 <= n -> rd ps (n - 2) = Some p -> rd ps (n - 1) = Some p0 -> nlt x (px p0) -> nle (px p) x -> infinite (py p0) -> finite (h_in h) p a d ->
    (flat ps 0 (n - 1) \/ n = 3 /\ exists q, rd ps 0 = Some q /\ infinite (py q)) -> h_in h x = Fin t -> gives x (Fin (unit_line (upward (Fin 0) (py p0)) a d t)).
  Proof.
    intros L2 Hp H0 X1 X2 I0 (Fp1 & Fp2) C Et. destruct (right_end p0 p L2 H0 Hp I0) as (Ee & Ef & Ee'); [rewrite Fp2; apply fin_not|].
    pose proof (bt_range _ _ _ _ _ _ _ _ _ _ B) as R. pose proof (bt_front _ _ _ _ _ _ _ _ _ _ B) as Hf.
    assert (Fe : ~ infinite (py p)) by (rewrite Fp2; apply fin_not).
    assert (D : (b = n - 2 /\ b' = n - 2 /\ front = p) \/ (b = 0 /\ n = 3 /\ b' = 1 /\ nlt (px front) (px p) /\ upward (Fin 0) (py p0) = num_lt (py front) (py p0))).
    { destruct C as [Fl|(E3 & q & Hq & Iq)].
      - left. assert (b = n - 2) as Eb.
        { destruct (Nat.eq_dec b (n - 2)) as [K|K]; [exact K|]. exfalso. destruct (rd_lt ps (S b)) as (r & Hr); [lia|].
          apply (bt_step1 _ _ _ _ _ _ _ _ _ _ B r Hr). apply (Fl b); [lia|unfold n in *; lia|exact Hf|exact Hr]. }
        pose proof Hf as Hf2. rewrite Eb, Hp in Hf2. injection Hf2 as <-. split; [exact Eb|]. split; [|reflexivity].
        destruct (bt_b _ _ _ _ _ _ _ _ _ _ B) as [(-> & _)|(_ & _ & K)]; [exact Eb|contradiction].
      - right. rewrite E3 in *. change (3 - 2) with 1 in *. change (3 - 1) with 2 in *. assert (b = 0) as Eb.
        { destruct (Nat.eq_dec b 0) as [K|K]; [exact K|]. exfalso. apply Fe. apply same_inf with (py q); [|exact Iq].
          apply same_trans with (py front); [apply same_sym, (front_same 0); [lia|exact Hq]|apply (front_same 1); [lia|exact Hp]]. }
        pose proof Hf as Hf2. rewrite Eb, Hq in Hf2. injection Hf2 as <-. split; [exact Eb|]. split; [reflexivity|]. split; [|split].
        + destruct (bt_b _ _ _ _ _ _ _ _ _ _ B) as [(_ & _ & K)|(E & _)]; [contradiction|lia].
        + apply (lt_x 0 1); [lia|exact Hq|exact Hp].
        + assert (Hp' : rd ps (S b) = Some p) by (rewrite Eb; exact Hp). assert (Hq' : rd ps (S (S b)) = Some p0) by (rewrite Eb; exact H0).
          pose proof (bt_mono1 _ _ _ _ _ _ _ _ _ _ B ltac:(lia) Iq p p0 Hp' Hq') as Mo. rewrite Fp2 in Mo.
          destruct I0 as [E0|E0], Iq as [Eq|Eq]; rewrite E0, Eq in *; cbn in *; tauto || reflexivity. }
    destruct D as [(Eb & Eb' & Efr)|(Eb & E3 & Eb' & Lt & Up)].
    - destruct (ev_cases x) as [K|[K|(M1 & M2)]]; [apply (nle_nan _ _ X2)| | |].
      + exists (py front). split; [apply ev_left, K|]. rewrite Efr, Fp2. cbn. assert (t == a)%Q by (apply (in_same (n - 2) p x); [exact Hp|apply nle_antisym; [exact X2|rewrite <- Efr; exact K]|exact Et|exact Fp1]).
        destruct I0 as [E0|E0]; rewrite E0; cbn; lra.
      + rewrite Ef in K. destruct (nlt_irrefl _ _ X1 K).
      + destruct (ev_unit x t p a d ltac:(lia)) as (y & E & Y); [rewrite Eb'; exact Hp|split; assumption|exact M1|exact M2|exact Et|]. exists (Fin y). split; [exact E|]. cbn. rewrite Y, Ef, Efr, Fp2.
        destruct I0 as [E0|E0]; rewrite E0; reflexivity.
    - destruct (ev_unit x t p a d ltac:(lia)) as (y & E & Y); [rewrite Eb', <- Hp; f_equal; lia|split; assumption|apply nlt_le_trans with (px p); assumption|rewrite Ef; exact X1|exact Et|].
      exists (Fin y). split; [exact E|]. change (y == unit_line (upward (Fin 0) (py p0)) a d t)%Q. rewrite Up, Y, Ef. reflexivity.
  Qed.

  Theorem rules x y : on_curve (h_in h) ps x y -> gives x y.
  Proof.
    intros [p|p|i p q|i p q a b0 c0 d t|p0 p q a b0 c0 d t|p0 p q a b0 c0 d t|p0 p a c0 t|p0 p a c0 t]; intros.
    - apply rule_left; assumption.
    - apply rule_right; assumption.
    - apply (rule_flat i p q); assumption.
    - apply (rule_segment i p q); assumption.
    - apply (rule_left_ray p0 p q); assumption.
    - apply (rule_right_ray p0 p q); assumption.
    - apply (rule_left_unit p0 p); assumption.
    - apply (rule_right_unit p0 p); assumption.
  Qed.

  (** Every number is on some part of the curve. *)
  Lemma covered x : x <> NaN -> exists y, on_curve (h_in h) ps x y.
  Proof.
    intros Nx. pose proof (bt_range _ _ _ _ _ _ _ _ _ _ B) as R. pose proof (bt_first _ _ _ _ _ _ _ _ _ _ B) as H0. pose proof (bt_last _ _ _ _ _ _ _ _ _ _ B) as Hl.
    pose proof (bt_front _ _ _ _ _ _ _ _ _ _ B) as Hf. pose proof (bt_back _ _ _ _ _ _ _ _ _ _ B) as Hb.
    destruct (nle_or_lt x (px first) Nx (nan_x 0 _ H0)) as [K|K1]; [eexists; eapply oc_left; eassumption|].
    destruct (nle_or_lt (px last) x (nan_x _ _ Hl) Nx) as [K|K2]; [eexists; eapply oc_right; eassumption|].
    assert (EX : exists i p q, rd ps i = Some p /\ rd ps (S i) = Some q /\ nle (px p) x /\ nle x (px q)).
    { assert (G : forall j q, rd ps j = Some q -> nle x (px q) -> exists i p q', rd ps i = Some p /\ rd ps (S i) = Some q' /\ nle (px p) x /\ nle x (px q')).
      { induction j as [|j IH]; intros q Hq Lq; [rewrite H0 in Hq; injection Hq as <-; destruct (nlt_irrefl _ _ K1 Lq)|].
        destruct (rd_lt ps j) as (r & Hr); [apply rd_Some_lt in Hq; lia|]. destruct (nle_or_lt x (px r) Nx (nan_x _ _ Hr)) as [K|K]; [apply (IH r Hr K)|].
        exists j, r, q. repeat split; try assumption. apply nlt_le, K. }
      apply (G _ last Hl), nlt_le, K2. }
    destruct EX as (i & p & q & Hp & Hq & X1 & X2). destruct (in_fin x (px last) K1 K2) as (t & Et).
    destruct (Nat.lt_ge_cases i b) as [L|L].
    { eexists. eapply (oc_flat _ _ _ i p q); try eassumption. apply same_trans with (py front); [apply same_sym, (front_same i); [lia|exact Hp]|apply (front_same (S i)); [lia|exact Hq]]. }
    destruct (Nat.le_gt_cases (e - 1) i) as [L2|L2].
    { eexists. eapply (oc_flat _ _ _ i p q); try eassumption. apply same_trans with (py back); [apply same_sym, (back_same i); [lia|exact Hp]|apply (back_same (S i)); [lia|exact Hq]]. }
    pose proof (bt_ne _ _ _ _ _ _ _ _ _ _ B) as Ne.
    assert (FI : infinite (h_in h (px front)) -> b = 0).
    { intros I. destruct (Nat.eq_dec b 0) as [E|N]; [exact E|]. destruct (in_fin (px front) (px back)) as (z & Ez); [apply (lt_x 0 b); [lia|exact H0|exact Hf]|apply front_back|]. rewrite Ez in I. destruct (fin_not z I). }
    assert (BI : infinite (h_in h (px back)) -> e = n).
    { intros I. destruct (Nat.eq_dec e n) as [E|N]; [exact E|]. destruct (in_fin (px back) (px last)) as (z & Ez); [apply (lt_x 0 (e - 1)); [lia|exact H0|exact Hb]|apply (lt_x (e - 1) (n - 1)); [unfold n in *; lia|exact Hb|exact Hl]|]. rewrite Ez in I. destruct (fin_not z I). }
    destruct (Nat.lt_ge_cases i b') as [Li|Li].
    - (* next to an infinite left end *)
      destruct (bt_b _ _ _ _ _ _ _ _ _ _ B) as [(Eb' & _)|(Eb' & I1 & I2)]; [lia|]. specialize (FI I1). assert (i = 0) as -> by lia. rewrite H0 in Hp. injection Hp as <-.
      assert (Ef : front = first) by (rewrite FI, H0 in Hf; congruence). assert (I2' : infinite (py first)) by (rewrite <- Ef; exact I2). destruct (inner_fin 1 q ltac:(lia) ltac:(lia) Hq) as (a & d & Fq).
      destruct (Nat.le_gt_cases 3 e') as [L3|L3].
      + destruct (rd_lt ps 2) as (r & Hr); [destruct (bt_e _ _ _ _ _ _ _ _ _ _ B) as [(-> & _)|(Ee' & _)]; lia|]. destruct (inner_fin 2 r ltac:(lia) ltac:(lia) Hr) as (a2 & d2 & Fr).
        eexists. eapply (oc_left_ray _ _ _ first q r a a2 d d2 t); try eassumption. intros Ed.
        apply (bt_flat1 _ _ _ _ _ _ _ _ _ _ B) with (p := q) (q := r); [destruct (bt_e _ _ _ _ _ _ _ _ _ _ B) as [(-> & _)|(Ee' & _)]; lia|right; exact I2'|rewrite FI; exact Hq|rewrite FI; exact Hr|].
        rewrite (proj2 Fq), (proj2 Fr). exact Ed.
      + eexists. eapply (oc_left_unit _ _ _ first q a d t); try eassumption. destruct (bt_e _ _ _ _ _ _ _ _ _ _ B) as [(Ee' & _)|(Ee' & I3 & I4)].
        * left. intros k p1 q1 Lk1 Lk2 Hp1 Hq1. apply same_trans with (py back); [apply same_sym, (back_same k); [lia|exact Hp1]|apply (back_same (S k)); [lia|exact Hq1]].
        * right. specialize (BI I3). split; [unfold n in *; lia|]. exists back. split; [rewrite <- Hb; f_equal; lia|exact I4].
    - destruct (Nat.lt_ge_cases (S i) e') as [Le|Le].
      + destruct (inner_fin i p ltac:(lia) ltac:(lia) Hp) as (a & d & Fp). destruct (inner_fin (S i) q ltac:(lia) ltac:(lia) Hq) as (a2 & d2 & Fq).
        eexists. eapply (oc_segment _ _ _ i p q a a2 d d2 t); eassumption.
      + destruct (bt_e _ _ _ _ _ _ _ _ _ _ B) as [(Ee' & _)|(Ee' & I1 & I2)]; [lia|]. specialize (BI I1). assert (Ei : S i = n - 1) by lia.
        pose proof Hq as Hq0. rewrite Ei in Hq0. unfold n in Hq0. rewrite Hl in Hq0. injection Hq0 as <-. assert (back = last) as Eback by (rewrite BI in Hb; unfold n in Hb; congruence). assert (I2' : infinite (py last)) by (rewrite <- Eback; exact I2).
        destruct (inner_fin i p ltac:(lia) ltac:(lia) Hp) as (a & d & Fp). assert (Hp2 : rd ps (n - 2) = Some p) by (rewrite <- Hp; f_equal; lia).
        destruct (Nat.lt_ge_cases b' i) as [Lb|Lb].
        * destruct (rd_lt ps (n - 3)) as (r & Hr); [unfold n in *; lia|]. destruct (inner_fin (n - 3) r ltac:(lia) ltac:(lia) Hr) as (a2 & d2 & Fr).
          eexists. eapply (oc_right_ray _ _ _ last p r a a2 d d2 t); try eassumption; [unfold n in *; lia|]. intros Ed.
          apply (bt_flat2 _ _ _ _ _ _ _ _ _ _ B) with (p := r) (q := p); [destruct (bt_b _ _ _ _ _ _ _ _ _ _ B) as [(-> & _)|(-> & _)]; lia|right; exact I2'|rewrite BI; exact Hr|rewrite BI; exact Hp2|].
          rewrite (proj2 Fp), (proj2 Fr). cbn. lra.
        * eexists. eapply (oc_right_unit _ _ _ last p a d t); try eassumption; [unfold n in *; lia|]. destruct (bt_b _ _ _ _ _ _ _ _ _ _ B) as [(Eb' & _)|(Eb' & I3 & I4)].
          -- left. intros k p1 q1 Lk1 Lk2 Hp1 Hq1. apply same_trans with (py front); [apply same_sym, (front_same k); [unfold n in *; lia|exact Hp1]|apply (front_same (S k)); [unfold n in *; lia|exact Hq1]].
          -- right. specialize (FI I3). split; [unfold n in *; lia|]. exists front. split; [rewrite FI in Hf; exact Hf|exact I4].
  Qed.
End Built.

(** ** Constant curves *)
Section Const.
  Context (h : hook) (ps : list point) (NN : no_nan ps) (lb : list bool -> nat) (y : num) (Ny : y <> NaN) (Fl : forall i p, rd ps i = Some p -> same (py p) y).
  Context (Inc : forall i p q, rd ps i = Some p -> rd ps (S i) = Some q -> nlt (px p) (px q)).
  Lemma const_rules x v : spread h ps -> on_curve (h_in h) ps x v -> exists w, eval lb h (Constant y) x = Some w /\ same w v.
  Proof.
    intros SP H. exists y. split; [reflexivity|]. destruct H as [p Hp _|p Hp _|i p q Hp _ _ _ _|i p q a b c d t Hp Hq _ _ Fp Fq _|p0 p q a b c d t H0 Hp Hq _ _ I0 Fp Fq _ _|p0 p q a b c d t _ Hq Hp H0 _ _ I0 Fp Fq _ _|p0 p a c t H0 Hp _ _ I0 Fp _ _|p0 p a c t _ Hp H0 _ _ I0 Fp _ _].
    - apply same_sym, (Fl _ _ Hp).
    - apply same_sym, (Fl _ _ Hp).
    - apply same_sym, (Fl _ _ Hp).
    - pose proof (Fl _ _ Hp) as K1. pose proof (Fl _ _ Hq) as K2. rewrite (proj2 Fp) in K1. rewrite (proj2 Fq) in K2.
      apply same_trans with (Fin c); [apply same_sym, K1|]. cbn. rewrite line_flat; [lra|]. exact (same_trans _ _ _ K1 (same_sym _ _ K2)).
    - exfalso. pose proof (same_inf _ _ (same_trans _ _ _ (Fl _ _ H0) (same_sym _ _ (Fl _ _ Hp))) I0) as K. rewrite (proj2 Fp) in K. destruct K; discriminate.
    - exfalso. pose proof (same_inf _ _ (same_trans _ _ _ (Fl _ _ H0) (same_sym _ _ (Fl _ _ Hp))) I0) as K. rewrite (proj2 Fp) in K. destruct K; discriminate.
    - exfalso. pose proof (same_inf _ _ (same_trans _ _ _ (Fl _ _ H0) (same_sym _ _ (Fl _ _ Hp))) I0) as K. rewrite (proj2 Fp) in K. destruct K; discriminate.
    - exfalso. pose proof (same_inf _ _ (same_trans _ _ _ (Fl _ _ H0) (same_sym _ _ (Fl _ _ Hp))) I0) as K. rewrite (proj2 Fp) in K. destruct K; discriminate.
  Qed.
  Lemma const_covered x : ps <> [] -> x <> NaN -> exists v, on_curve (h_in h) ps x v.
  Proof.
    intros Ne Nx. assert (NX : forall i p, rd ps i = Some p -> px p <> NaN) by (intros i p Hp; apply NN, (nth_error_In _ _ Hp)).
    destruct (rd_lt ps 0) as (first & H0); [destruct ps; [congruence|cbn; lia]|]. destruct (rd_last ps Ne) as (last & Hl).
    destruct (nle_or_lt x (px first) Nx (NX _ _ H0)) as [K|K1]; [eexists; eapply oc_left; eassumption|].
    destruct (nle_or_lt (px last) x (NX _ _ Hl) Nx) as [K|K2]; [eexists; eapply oc_right; eassumption|].
    assert (G : forall j q, rd ps j = Some q -> nle x (px q) -> exists i p q', rd ps i = Some p /\ rd ps (S i) = Some q' /\ nle (px p) x /\ nle x (px q')).
    { induction j as [|j IH]; intros q Hq Lq; [rewrite H0 in Hq; injection Hq as <-; destruct (nlt_irrefl _ _ K1 Lq)|].
      destruct (rd_lt ps j) as (r & Hr); [apply rd_Some_lt in Hq; lia|]. destruct (nle_or_lt x (px r) Nx (NX _ _ Hr)) as [K|K]; [apply (IH r Hr K)|].
      exists j, r, q. repeat split; try assumption. apply nlt_le, K. }
    destruct (G _ last Hl (nlt_le _ _ K2)) as (i & p & q & Hp & Hq & X1 & X2).
    eexists. eapply (oc_flat _ _ _ i p q); try eassumption. apply same_trans with y; [apply (Fl _ _ Hp)|apply same_sym, (Fl _ _ Hq)].
  Qed.
End Const.
