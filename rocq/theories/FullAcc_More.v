(** Dense ranks, inverse mappings and array.take. *)
From Coq Require Import Permutation.
From Verif Require Import Base Dense_Model Dense_Spec DenseOps_Spec GroupOps_Model GroupOps_Spec GroupOps_Proofs ArrGroup_Spec
  Accum_Model Accum_Spec Accum_Lift Accum_Proofs Accum_Sort FullAcc_Model FullAcc_Spec FullAcc_Proofs.

Section DenseRank.
Context {T : Type}.
Variable o : ord T.
Variable sort : (T * nat -> T * nat -> bool) -> list (T * nat) -> list (T * nat).
Variable partition : (T * nat -> bool) -> list (T * nat) -> list (T * nat) * list (T * nat).
Variables (descending : bool) (oob : Z) (ub : rank_st (T * nat)).
Hypothesis Ho : ord_ok o.
Hypothesis Hsort : std_sort sort.
Hypothesis Hpart : std_partition partition.
Let better := dir o descending.
Let lt := if descending then pair_gt o else pair_lt o.
Let k (a b : T * nat) := if descending then snd b <? snd a else snd a <? snd b.
Lemma pair_order a b : nan o (fst a) = false -> nan o (fst b) = false ->
  lt a b = better (fst a) (fst b) || (negb (better (fst b) (fst a)) && k a b).
Proof.
  intros Na Nb. destruct (not_nan_cmp o Ho _ _ Na Nb) as (c & E). unfold lt, better, dir, pair_lt, pair_gt, o_lt, k.
  destruct descending; rewrite (cmp_opp o Ho _ _ _ E), E; destruct c; reflexivity.
Qed.
Lemma dk_asym a b : k a b = true -> k b a = false. Proof. unfold k. destruct descending; lia. Qed.
Lemma dk_ntrans a b c : k a b = false -> k b c = false -> k a c = false. Proof. unfold k. destruct descending; lia. Qed.

Definition num : list T -> list (T * nat) := numbered (fun x i => (x, i)).
Definition d_head xs := fst (partition (fun e => negb (nan o (fst e))) (num xs)).
Definition d_tail xs := snd (partition (fun e => negb (nan o (fst e))) (num xs)).
Definition d_order xs := sort lt (d_head xs) ++ d_tail xs.
Lemma head_nan xs e : In e (d_head xs) -> nan o (fst e) = false.
Proof. intros H. apply Hpart in H. apply negb_true_iff in H. exact H. Qed.
Lemma tail_nan xs e : In e (d_tail xs) -> nan o (fst e) = true.
Proof. intros H. apply Hpart in H. apply negb_false_iff in H. exact H. Qed.
Lemma head_sort xs : Permutation (sort lt (d_head xs)) (d_head xs) /\ ascending lt (sort lt (d_head xs)).
Proof.
  apply (lex_sort o better fst k lt (direction_dir o descending Ho) dk_asym dk_ntrans pair_order sort); [exact Hsort|]. apply head_nan.
Qed.
Lemma d_order_perm xs : Permutation (d_order xs) (num xs).
Proof. apply (perm_trans (Permutation_app_tail _ (proj1 (head_sort xs)))). apply Hpart. Qed.
Lemma d_order_pos xs : Permutation (map snd (d_order xs)) (seq 0 (length xs)).
Proof.
  rewrite <- numbered_pos. change (fun (_ : T) (i : nat) => i) with (fun (x : T) (i : nat) => snd (x, i)). rewrite <- numbered_map. apply Permutation_map, d_order_perm.
Qed.

(** [x] may stand before [y]. *)
Definition may (x y : T * nat) : Prop := nan o (fst y) = true \/ (nan o (fst x) = false /\ nan o (fst y) = false /\ better (fst y) (fst x) = false).
Lemma order_may xs : ForallOrdPairs may (d_order xs).
Proof.
  unfold d_order. destruct (head_sort xs) as [P As].
  assert (N : forall y, In y (sort lt (d_head xs)) -> nan o (fst y) = false) by (intros y Hy; apply (head_nan xs), (Permutation_in _ P), Hy).
  pose proof (tail_nan xs) as N2. clear P. induction (sort lt (d_head xs)) as [|x l IH]; cbn [app].
  - clear - N2. induction (d_tail xs) as [|x t IH]; constructor; [|apply IH; intros e He; apply N2; right; exact He].
    apply Forall_forall. intros y Hy. left. apply N2. right. exact Hy.
  - destruct As as [A1 A2]. constructor; [|apply IH; [exact A2|intros y Hy; apply N; right; exact Hy]].
    apply Forall_forall. intros y Hy. apply in_app_or in Hy. destruct Hy as [Hy|Hy]; [|left; apply N2, Hy].
      right. assert (nan o (fst x) = false) by (apply N; left; reflexivity). assert (nan o (fst y) = false) by (apply N; right; exact Hy).
      split; [assumption|]. split; [assumption|]. apply A1 in Hy. rewrite pair_order in Hy by assumption. apply orb_false_iff in Hy. apply Hy.
Qed.

Fixpoint ann (prev : T) (vs : list (T * nat)) (cur : Z) : list (T * nat * Z) :=
  match vs with
  | [] => []
  | e :: t => let r := if negb (o_eq o (fst e) prev) then (cur + 1)%Z else cur in (e, r) :: ann (fst e) t r
  end.
Definition ann_all (vs : list (T * nat)) : list (T * nat * Z) := match vs with [] => [] | e :: t => (e, 0%Z) :: ann (fst e) t 0%Z end.
Definition to_pair (x : T * nat * Z) : nat * Z := (snd (fst x), snd x).
Lemma ann_fst vs : forall prev cur, map fst (ann prev vs cur) = vs.
Proof. induction vs as [|e t IH]; intros; [reflexivity|]. cbn [ann map fst]. rewrite IH. reflexivity. Qed.
Lemma dense_assign vs : forall prev cur l, dense_ranks o prev vs cur l = assign (map to_pair (ann prev vs cur)) l.
Proof.
  induction vs as [|[v p] t IH]; intros; [reflexivity|]. cbn [dense_ranks ann map to_pair assign fst snd].
  destruct (upd l p _) as [l1|]; [|reflexivity]. cbn [bind]. apply IH.
Qed.
Lemma eq_swap a b : o_eq o a b = o_eq o b a.
Proof. 
  unfold o_eq. destruct (cmp o a b) as [c|] eqn:E; [rewrite (cmp_opp o Ho _ _ _ E); destruct c; reflexivity|].
  apply (cmp_nan o Ho) in E. assert (cmp o b a = None) by (apply (cmp_nan o Ho); tauto). rewrite H. reflexivity.
Qed.
Lemma eq_nan a b : o_eq o a b = true -> nan o a = false /\ nan o b = false.
Proof. intros H. apply (le_nan o Ho). unfold o_eq, o_le in *. destruct (cmp o a b) as [[]|]; congruence. Qed.
Lemma eq_better a b : o_eq o a b = true -> better a b = false /\ better b a = false.
Proof.
  intros H. destruct (eq_nan _ _ H). rewrite (o_eq_dir o descending Ho) in H by assumption. apply andb_true_iff in H. destruct H as [A B].
  apply negb_true_iff in A, B. auto.
Qed.
Lemma better_eq a b : nan o a = false -> nan o b = false -> better a b = false -> better b a = false -> o_eq o a b = true.
Proof. intros Na Nb A B. rewrite (o_eq_dir o descending Ho) by assumption. fold better. rewrite A, B. reflexivity. Qed.
Lemma nt a b c : nan o a = false -> nan o b = false -> nan o c = false -> better a b = false -> better b c = false -> better a c = false.
Proof. apply (direction_dir o descending Ho). Qed.
Lemma eq_trans a b c : o_eq o a b = true -> o_eq o b c = true -> o_eq o a c = true.
Proof.
  intros H1 H2. destruct (eq_nan _ _ H1), (eq_nan _ _ H2), (eq_better _ _ H1), (eq_better _ _ H2). apply better_eq; try assumption; eapply nt; [| | |eassumption|eassumption| | | |eassumption|eassumption]; assumption.
Qed.

Lemma ann_props vs : forall p cur, ForallOrdPairs may (p :: vs) ->
  (forall e r, In (e, r) (ann (fst p) vs cur) -> (cur <= r)%Z /\ (r = cur <-> o_eq o (fst e) (fst p) = true)) /\
  (forall e r q, In (e, r) (ann (fst p) vs cur) -> (cur < q <= r)%Z -> exists e', In (e', q) (ann (fst p) vs cur)) /\
  ForallOrdPairs (fun x y => may (fst x) (fst y) /\ (snd x <= snd y)%Z /\ (snd y = snd x <-> o_eq o (fst (fst y)) (fst (fst x)) = true)) ((p, cur) :: ann (fst p) vs cur).
Proof.
  induction vs as [|e t IH]; intros p cur F; [split; [intros ? ? []|split; [intros ? ? ? []|constructor; constructor]]|].
  inversion F as [|? ? F1 F2]; subst. specialize (IH e (if negb (o_eq o (fst e) (fst p)) then (cur + 1)%Z else cur) F2). destruct IH as (I1 & I2 & I3).
  cbn [ann]. set (r0 := if negb (o_eq o (fst e) (fst p)) then (cur + 1)%Z else cur) in *.
  pose proof (Forall_inv F1) as M1. apply Forall_inv_tail in F1. rename F1 into M2. rewrite Forall_forall in M2.
  assert (A1 : forall e0 r, In (e0, r) ((e, r0) :: ann (fst e) t r0) -> (cur <= r)%Z /\ (r = cur <-> o_eq o (fst e0) (fst p) = true)).
  { intros e1 r [H|H].
    - injection H as <- <-. unfold r0. destruct (o_eq o (fst e) (fst p)); cbn; [split; [lia|tauto]|split; [lia|split; intros; [lia|discriminate]]].
    - specialize (I1 _ _ H). destruct I1 as [B1 B2]. destruct (o_eq o (fst e) (fst p)) eqn:E; unfold r0 in *; cbn in *.
      + split; [lia|]. rewrite B2. split; intros H1; [apply (eq_trans _ _ _ H1 E)|]. apply (eq_trans _ _ _ H1). rewrite eq_swap. exact E.
      + split; [lia|]. split; [intros; lia|]. intros H1. exfalso.
        assert (In e1 t) as Hin by (rewrite <- (ann_fst t (fst e) (cur + 1)%Z); apply (in_map fst) in H; exact H).
        destruct (eq_nan _ _ H1) as [Ne1 Np]. destruct (eq_better _ _ H1) as [Q1 Q2].
        inversion F2 as [|? ? G1 _]; subst. rewrite Forall_forall in G1. specialize (G1 _ Hin). destruct G1 as [G1|(G1 & G2 & G3)]; [congruence|].
        destruct M1 as [M1|(M1 & M3 & M4)]; [congruence|].
        rewrite better_eq in E; [discriminate|assumption|assumption|exact M4|]. apply (nt _ (fst e1)); assumption. }
  split; [exact A1|]. split.
  - intros e1 r q [H|H] Hq.
    + injection H as <- <-. exists e. left. f_equal. unfold r0 in *. destruct (negb (o_eq o (fst e) (fst p))); lia.
    + destruct (Z.eq_dec q r0) as [->|Hn]; [exists e; left; reflexivity|]. destruct (I2 _ _ q H) as (e' & He'); [|exists e'; right; exact He'].
      unfold r0 in *. destruct (negb (o_eq o (fst e) (fst p))); lia.
  - constructor; [|exact I3]. apply Forall_forall. intros [e1 r] H. cbn [fst snd].
    split; [|destruct (A1 _ _ H) as [B1 B2]; split; [exact B1|exact B2]].
    destruct H as [H|H]; [injection H as <- <-; exact M1|]. apply M2. rewrite <- (ann_fst t (fst e) r0). apply (in_map fst) in H. exact H.
Qed.
Lemma dense_is xs l : (forall e r, In (e, r) (ann_all (d_order xs)) -> rd l (snd e) = Some r) -> length l = length xs -> is_dense_rank o better xs l.
Proof.
  intros Hl Ln. pose proof (order_may xs) as Om. pose proof (d_order_perm xs) as P.
  assert (Hin : forall i v, nth_error xs i = Some v -> In (v, i) (d_order xs)).
  { intros i v E. apply (Permutation_in _ (Permutation_sym P)), numbered_in. eauto. }
  assert (Hr : forall i v r, nth_error xs i = Some v -> nth_error l i = Some r -> In ((v, i), r) (ann_all (d_order xs))).
  { intros i v r E1 E2. specialize (Hin _ _ E1). assert (M : In (v, i) (map fst (ann_all (d_order xs)))).
    { unfold ann_all. destruct (d_order xs) as [|e t]; [destruct Hin|]. cbn [map fst]. rewrite ann_fst. exact Hin. }
    apply in_map_iff in M. destruct M as ([e q] & E3 & M). cbn in E3. subst e. pose proof (Hl _ _ M) as E4. unfold rd in E4. cbn [snd] in E4.
    assert (q = r) by congruence. subst. exact M. }
  assert (Q : ForallOrdPairs (fun x y => may (fst x) (fst y) /\ (snd x <= snd y)%Z /\ (snd y = snd x <-> o_eq o (fst (fst y)) (fst (fst x)) = true)) (ann_all (d_order xs))).
  { unfold ann_all. destruct (d_order xs) as [|e t]; [constructor|]. apply ann_props, Om. }
  assert (Z0 : forall e r, In (e, r) (ann_all (d_order xs)) -> (0 <= r)%Z).
  { intros e r H. unfold ann_all in H. destruct (d_order xs) as [|e0 t]; [destruct H|]. destruct H as [H|H]; [injection H as <- <-; lia|].
    apply (ann_props t e0 0%Z Om) in H. lia. }
  assert (Ct : forall e r q, In (e, r) (ann_all (d_order xs)) -> (0 <= q <= r)%Z -> exists e', In (e', q) (ann_all (d_order xs))).
  { intros e r q H Hq. unfold ann_all in *. destruct (d_order xs) as [|e0 t]; [destruct H|]. destruct (Z.eq_dec q 0) as [->|Hn]; [exists e0; left; reflexivity|].
    destruct H as [H|H]; [injection H as <- <-; lia|]. destruct (ann_props t e0 0%Z Om) as (_ & A & _). destruct (A _ _ q H) as (e' & He'); [lia|]. exists e'. right. exact He'. }
  assert (Ex : forall r, In r l -> exists i v, nth_error xs i = Some v /\ nth_error l i = Some r).
  { intros r H. apply In_nth_error in H. destruct H as (i & H). assert (i < length l) by (apply nth_error_Some; congruence).
    destruct (nth_error xs i) as [v|] eqn:E; [eauto|]. apply nth_error_None in E. lia. }
  split; [exact Ln|]. split; [|split].
  - intros i j v w r q E1 E2 E3 E4. pose proof (Hr _ _ _ E1 E3) as A. pose proof (Hr _ _ _ E2 E4) as B.
    destruct (ForallOrdPairs_In Q _ _ A B) as [E|[(M & L & Eq)|(M & L & Eq)]]; cbn [fst snd] in *.
    + injection E as -> -> ->. destruct (direction_dir o descending Ho) as (_ & Ir & _). fold better in Ir. rewrite Ir. repeat split; intros; try lia; congruence.
    + split; [|split].
      * intros Nv Nw. destruct M as [M|(_ & _ & M)]; cbn [fst] in *; [congruence|]. split; intros H.
        -- destruct (better v w) eqn:Eb; [reflexivity|]. exfalso. assert (q = r) by (apply Eq, better_eq; assumption). lia.
        -- destruct (Z.eq_dec q r) as [Hq|Hq]; [|lia]. apply Eq in Hq. apply eq_better in Hq. destruct Hq. congruence.
      * intros Nv Nw. destruct (Z.eq_dec q r) as [Hq|Hq]; [|lia]. apply Eq, eq_nan in Hq. destruct Hq. congruence.
      * intros Nv Nw E. symmetry in E. apply Eq, eq_nan in E. destruct E. congruence.
    + split; [|split].
      * intros Nv Nw. destruct M as [M|(_ & _ & M)]; cbn [fst] in *; [congruence|]. split; intros H; [lia|congruence].
      * intros Nv Nw. destruct M as [M|(M & _ & _)]; cbn [fst] in *; congruence.
      * intros Nv Nw E. apply Eq, eq_nan in E. destruct E. congruence.
  - intros i r q E Hq. destruct (Ex r (nth_error_In _ _ E)) as (i1 & v & E1 & E2). destruct (Ct _ _ q (Hr _ _ _ E1 E2) Hq) as (e' & He'). apply Hl in He'. apply nth_error_In in He'. exact He'.
  - intros r H. destruct (Ex r H) as (i & v & E1 & E2). apply (Z0 _ _ (Hr _ _ _ E1 E2)).
Qed.

(** What FinalizeFullGroup leaves in ranks_. *)
Definition dense_fn (xs : list T) : list Z :=
  match assign (map to_pair (ann_all (d_order xs))) (repeat 0%Z (length xs)) with Some l => l | None => [] end.
Lemma ann_all_fst vs : map fst (ann_all vs) = vs.
Proof. destruct vs as [|e t]; [reflexivity|]. cbn [ann_all map fst]. rewrite ann_fst. reflexivity. Qed.
Lemma dense_final s xs : rk_elems s = num xs -> let t := dense_finalize o sort partition descending ub s in
  rk_ret t = rk_ret s /\ rk_ranks t = dense_fn xs /\ length (dense_fn xs) = length xs /\ is_dense_rank o better xs (dense_fn xs).
Proof.
  intros I. unfold dense_finalize. cbv zeta. rewrite !I.
  assert (P : Permutation (map fst (map to_pair (ann_all (d_order xs)))) (seq 0 (length xs))).
  { rewrite map_map. cbn [to_pair fst]. rewrite <- (map_map fst snd), ann_all_fst. apply d_order_pos. }
  destruct (assign_all _ _ P (repeat 0%Z (length xs)) (repeat_length _ _)) as (l & El & Ll & Rl & Al).
  assert (Ef : dense_fn xs = l) by (unfold dense_fn; rewrite El; reflexivity).
  assert (Hd : is_dense_rank o better xs l).
  { apply dense_is; [|exact Ll]. intros e r H. apply Rl. apply (in_map to_pair) in H. exact H. }
  specialize (Al (resize (length (num xs)) 0%Z (rk_ranks s))). rewrite resize_length in Al. unfold num at 1 in Al. rewrite numbered_length in Al. specialize (Al eq_refl).
  rewrite Ef. destruct (partition (fun e => negb (nan o (fst e))) (num xs)) as [h t] eqn:Ep.
  change (if descending then pair_gt o else pair_lt o) with lt.
  assert (Eo : sort lt h ++ t = d_order xs) by (unfold d_order, d_head, d_tail; rewrite Ep; reflexivity). rewrite Eo.
  assert (Ea : match d_order xs with
    | [] => Some (resize (length (num xs)) 0%Z (rk_ranks s))
    | (v, p) :: t0 => let? ranks' := upd (resize (length (num xs)) 0%Z (rk_ranks s)) p 0%Z in dense_ranks o v t0 0 ranks'
    end = Some l).
  { rewrite <- Al. destruct (d_order xs) as [|[v p] t0]; [reflexivity|]. cbn [ann_all map to_pair assign fst snd].
    destruct (upd _ p 0%Z); [|reflexivity]. cbn [bind]. apply dense_assign. }
  rewrite Ea. cbn [rk_ret rk_ranks]. auto.
Qed.
Lemma dense_fn_ok xs : is_dense_rank o better xs (dense_fn xs).
Proof. apply (dense_final (mkRank 0 (num xs) []) xs eq_refl). Qed.
Lemma dense_computes : computes (dense_rank_acc o sort partition descending oob ub) (addn_default dense_add) required1
  (fun xs => Some (map Some (dense_fn xs))).
Proof.
  apply (full_computes _ _ _ _ _ _ _ _ (fun s i => Some (nth (rk_ret s + i) (rk_ranks s) oob))
    (fun s s' => rk_ret s = rk_ret s' /\ rk_elems s = rk_elems s' /\ exists xs, rk_elems s = num xs)
    (fun s s' => rk_ret s = rk_ret s' /\ rk_ranks s = rk_ranks s')).
  - apply dec_required1.
  - intros s. cbn [rank_result fst snd rk_ret rk_ranks]. split; [rewrite Nat.add_0_r; reflexivity|]. intros i. rewrite Nat.add_succ_r. reflexivity.
  - intros s s'. split; [reflexivity|]. split; [reflexivity|]. exists []. reflexivity.
  - intros r s s' (E1 & E2 & xs & I). unfold dense_add.
    destruct r as [|[v|] [|? ?]]; cbn [rk_ret rk_elems]; try (split; [assumption|]; split; [assumption|]; exists xs; exact I).
    split; [exact E1|]. split; [congruence|]. exists (xs ++ [v]). unfold num in *. rewrite numbered_snoc, I, numbered_length. reflexivity.
  - intros s s' (E1 & E2 & xs & I). destruct (dense_final s xs I) as (A1 & A3 & _). assert (I' : rk_elems s' = num xs) by congruence.
    destruct (dense_final s' xs I') as (B1 & B3 & _). split; congruence.
  - intros s s' (E1 & E2). unfold rank_result. cbn. rewrite E1, E2. auto.
  - intros rs xs E. apply rows_required1 in E. subst rs.
    assert (I : rk_elems (fold_left (fun s r => dense_add r s) (map (fun x => [Some x]) xs) (mkRank 0 [] [])) = num xs).
    { rewrite fold_map. apply (fold_numbered (fun x i => (x, i)) (@rk_elems _)); [|reflexivity]. intros s x. reflexivity. }
    assert (R0 : forall (rs : list (list (option T))) s, rk_ret (fold_left (fun s r => dense_add r s) rs s) = rk_ret s).
    { clear. induction rs as [|r t IH]; intros s; [reflexivity|]. cbn [fold_left]. rewrite IH. destruct r as [|[v|] [|? ?]]; reflexivity. }
    cbn [rk_ranks]. cbv zeta. destruct (dense_final _ xs I) as (A1 & A3 & A4 & _). split; [exact A4|].
    intros i z Hz. rewrite A1, R0, A3. f_equal. apply nth_error_nth. exact Hz.
Qed.
End DenseRank.

(** ** Inverse mapping. *)
Definition inverse_fn (xs : list (option Z)) : option (list (option Z)) :=
  match im_loop (length xs) xs 0 (repeat None (length xs)) with (inv, None) => Some inv | _ => None end.
(** [inv] inverts the first [i] values [pre]. *)
Definition inverts (n : nat) (pre : list (option Z)) (inv : list (option Z)) : Prop :=
  length inv = n /\ (forall v, In (Some v) pre -> (0 <= v < Z.of_nat n)%Z) /\
  (forall i j v, nth_error pre i = Some (Some v) -> nth_error pre j = Some (Some v) -> i = j) /\
  forall j, j < n -> match nth j inv None with
    | Some i => (0 <= i)%Z /\ nth_error pre (Z.to_nat i) = Some (Some (Z.of_nat j))
    | None => ~ In (Some (Z.of_nat j)) pre
    end.
Lemma loop_ok n suf : forall pre inv, inverts n pre inv -> 
  match im_loop n suf (length pre) inv with
  | (inv', None) => inverts n (pre ++ suf) inv'
  | (_, Some _) => ~ ((forall v, In (Some v) (pre ++ suf) -> (0 <= v < Z.of_nat n)%Z) /\
       (forall i j v, nth_error (pre ++ suf) i = Some (Some v) -> nth_error (pre ++ suf) j = Some (Some v) -> i = j))
  end.
Proof.
  induction suf as [|x suf IH]; intros pre inv H; [cbn [im_loop]; rewrite app_nil_r; exact H|]. destruct H as (L & Rg & Un & In').
  destruct x as [v|]; cbn [im_loop].
  - destruct ((v <? 0)%Z || (Z.of_nat n <=? v)%Z) eqn:Eb.
    { intros [A _]. specialize (A v ltac:(apply in_or_app; right; left; reflexivity)). lia. }
    apply orb_false_iff in Eb. destruct Eb as [Eb1 Eb2]. apply Z.ltb_ge in Eb1. apply Z.leb_gt in Eb2.
    assert (Hv : Z.to_nat v < n) by lia. pose proof (In' _ Hv) as Iv. rewrite Z2Nat.id in Iv by lia.
    destruct (nth (Z.to_nat v) inv None) as [i|].
    { intros [_ B]. destruct Iv as [I1 I2]. assert (Hi : Z.to_nat i < length pre) by (apply nth_error_Some; congruence).
      specialize (B (Z.to_nat i) (length pre) v). rewrite nth_error_app1, nth_error_app2, Nat.sub_diag in B by lia. specialize (B I2 eq_refl). lia. }
    replace (S (length pre)) with (length (pre ++ [Some v])) by (rewrite app_length; cbn; lia).
    replace (pre ++ Some v :: suf) with ((pre ++ [Some v]) ++ suf) by (rewrite <- app_assoc; reflexivity).
    apply IH. split; [rewrite app_length, firstn_length_le by lia; cbn [length]; rewrite skipn_length; lia|]. split; [|split].
    + intros w Hw. apply in_app_or in Hw. destruct Hw as [Hw|[[= <-]|[]]]; [apply Rg, Hw|lia].
    + intros i j w Hi Hj. assert (Hlast : forall i w, nth_error (pre ++ [Some v]) i = Some (Some w) -> (i < length pre /\ nth_error pre i = Some (Some w)) \/ (i = length pre /\ w = v)).
      { clear. intros i w H. destruct (Nat.lt_ge_cases i (length pre)); [left; rewrite nth_error_app1 in H by assumption; auto|].
        rewrite nth_error_app2 in H by assumption. destruct (i - length pre) eqn:E; [cbn in H; injection H as ->; right; split; [lia|reflexivity]|destruct n; discriminate]. }
      destruct (Hlast _ _ Hi) as [[A1 A2]|[A1 ->]], (Hlast _ _ Hj) as [[B1 B2]|[B1 B3]].
      * apply (Un _ _ w); assumption.
      * subst w. exfalso. apply Iv. apply nth_error_In in A2. exact A2.
      * exfalso. apply Iv. apply nth_error_In in B2. exact B2.
      * lia.
    + intros j Hj. destruct (Nat.eq_dec j (Z.to_nat v)) as [->|Hn].
      * rewrite app_nth2; rewrite firstn_length_le by lia; [|lia]. rewrite Nat.sub_diag. cbn [nth]. rewrite Nat2Z.id. split; [lia|].
        rewrite nth_error_app2, Nat.sub_diag by lia. rewrite Z2Nat.id by lia. reflexivity.
      * assert (En : nth j (firstn (Z.to_nat v) inv ++ Some (Z.of_nat (length pre)) :: skipn (S (Z.to_nat v)) inv) None = nth j inv None).
        { destruct (Nat.lt_ge_cases j (Z.to_nat v)).
          - rewrite app_nth1 by (rewrite firstn_length_le; lia). rewrite <- (firstn_skipn (Z.to_nat v) inv) at 2. rewrite app_nth1 by (rewrite firstn_length_le; lia). reflexivity.
          - rewrite app_nth2; rewrite firstn_length_le by lia; [|lia]. destruct (j - Z.to_nat v) as [|q] eqn:Eq; [lia|]. cbn [nth].
            rewrite <- (firstn_skipn (S (Z.to_nat v)) inv) at 2. rewrite app_nth2; rewrite firstn_length_le by lia; [|lia]. f_equal. lia. }
        rewrite En. pose proof (In' j Hj) as Ij. destruct (nth j inv None) as [i|].
        -- destruct Ij as [I1 I2]. split; [exact I1|]. rewrite nth_error_app1; [exact I2|]. apply nth_error_Some. congruence.
        -- intros Hin. apply in_app_or in Hin. destruct Hin as [Hin|[[= E]|[]]]; [apply Ij, Hin|]. lia.
  - replace (S (length pre)) with (length (pre ++ [@None Z])) by (rewrite app_length; cbn; lia).
    replace (pre ++ None :: suf) with ((pre ++ [@None Z]) ++ suf) by (rewrite <- app_assoc; reflexivity).
    assert (Hn : forall i w, nth_error (pre ++ [None]) i = Some (Some w) -> nth_error pre i = Some (Some w)).
    { clear. intros i w H. destruct (Nat.lt_ge_cases i (length pre)); [rewrite nth_error_app1 in H by assumption; exact H|].
      rewrite nth_error_app2 in H by assumption. destruct (i - length pre) as [|[|]]; discriminate. }
    apply IH. split; [exact L|]. split; [|split].
    + intros w Hw. apply in_app_or in Hw. destruct Hw as [Hw|[Hw|[]]]; [apply Rg, Hw|discriminate].
    + intros i j w Hi Hj. apply (Un _ _ w); apply Hn; assumption.
    + intros j Hj. pose proof (In' j Hj) as Ij. destruct (nth j inv None) as [i|].
      * destruct Ij as [I1 I2]. split; [exact I1|]. rewrite nth_error_app1; [exact I2|]. apply nth_error_Some. congruence.
      * intros Hin. apply in_app_or in Hin. destruct Hin as [Hin|[Hin|[]]]; [apply Ij, Hin|discriminate].
Qed.
Lemma inverse_fn_ok xs : match inverse_fn xs with Some rs => permutation_ok xs /\ is_inverse xs rs | None => ~ permutation_ok xs end.
Proof.
  pose proof (loop_ok (length xs) xs [] (repeat None (length xs))) as H. unfold inverse_fn.
  assert (I0 : inverts (length xs) [] (repeat None (length xs))).
  { split; [apply repeat_length|]. split; [intros v []|]. split; [intros [|i] j v H1; discriminate|]. intros j Hj. rewrite nth_repeat. intros []. }
  specialize (H I0). cbn [length app] in H. destruct (im_loop (length xs) xs 0 (repeat None (length xs))) as [inv [e|]]; [exact H|].
  destruct H as (L & Rg & Un & In'). split; [split; assumption|]. split; [exact L|]. intros j r Hr.
  assert (Hj : j < length xs) by (rewrite <- L; apply nth_error_Some; congruence). specialize (In' j Hj). rewrite (nth_error_nth _ _ _ Hr) in In'. exact In'.
Qed.
Lemma inverse_mapping_computes : computes inverse_mapping (addn_default (a_add inverse_mapping None)) optional1 inverse_fn.
Proof.
  apply lift; try reflexivity.
  - apply dec_optional1.
  - apply (full_runs inverse_mapping _ _ eq_refl (fun s i => nth (im_ret s + i) (im_inv s) None)).
    + intros s. cbn. split; [rewrite Nat.add_0_r; reflexivity|]. split; [|reflexivity]. intros i. rewrite Nat.add_succ_r. reflexivity.
    + intros rs xs E. apply rows_optional1 in E. subst rs. cbv zeta.
      assert (F : forall l s, let t := fold_left (addr_ inverse_mapping) (map (fun x => [x]) l) s in im_perm t = im_perm s ++ l /\ im_status t = im_status s).
      { clear. induction l as [|x l IH]; intros s; cbv zeta; [rewrite app_nil_r; auto|]. cbn [map fold_left]. destruct (IH (addr_ inverse_mapping s [x])) as [A B].
        rewrite A, B. cbn. rewrite <- app_assoc. auto. }
      destruct (F xs (a_reset inverse_mapping [] (a_empty inverse_mapping))) as [A B].
      set (t := fold_left (addr_ inverse_mapping) _ _) in *. unfold inverse_fn. cbn in A, B. cbn. rewrite A.
      pose proof (inverse_fn_ok xs) as K. unfold inverse_fn in K. destruct (im_loop (length xs) xs 0 (repeat None (length xs))) as [inv [e|]]; cbn; [discriminate|].
      split; [exact B|]. destruct K as [_ [K _]]. split; [exact K|]. reflexivity.
  - split.
    + intros s Hs. unfold ok in *. cbn in *. destruct s as [ret perm inv [e|]]; cbn in *; [|congruence].
      repeat split; try discriminate; intros; try discriminate. destruct (im_loop _ _ _ _) as [inv' [e'|]]; discriminate.
    + exists (fun s s' => im_perm s = im_perm s'), (fun s s' => im_ret s = im_ret s' /\ im_inv s = im_inv s').
      unfold alike, same_result, ok. cbn. repeat split.
      * intros _ s s' H1 H2. left. cbn. auto.
      * intros _ r s s' H1 H2 H3. left. cbn. rewrite H3. auto.
      * congruence.
      * congruence.
      * intros _ s s' H1 H2 H3. rewrite H3. destruct (im_loop _ _ _ _) as [inv' [e'|]]; cbn; [right; split; discriminate|left; cbn; auto].
      * left. cbn. destruct H2 as [-> ->]. auto.
      * intros _. cbn. destruct H2 as [-> ->]. reflexivity.
  - intros _ n r s _ _. reflexivity.
Qed.

(** ** array.take over one edge. *)
Section Take.
Context {C T : Type}.
Variables (val : C -> T) (off : C -> Z) (junk : Z) (oob : option T).
Definition take_row (x : option C * option C) : option T * option Z := (option_map val (fst x), option_map off (snd x)).
Definition take_fn (xs : list (option C * option C)) : option (list (option T)) := take_spec (map take_row xs).
Definition flag (i : option Z) : bool * Z := match i with Some i => (true, i) | None => (false, junk) end.
Lemma take_computes : computes (take_over_acc val off junk oob) (addn_default (take_add val off junk)) optional2 take_fn.
Proof.
  apply lift; try reflexivity.
  - apply dec_optional2.
  - apply (full_runs (take_over_acc val off junk oob) _ _ eq_refl (fun s i => fst (take_result oob (mkTake (tk_ret s + i) (tk_values s) (tk_offsets s) (tk_status s))))).
    + intros s. cbn. split; [rewrite Nat.add_0_r; reflexivity|]. split; [|reflexivity]. intros i. rewrite Nat.add_succ_r. reflexivity.
    + intros rs xs E. apply rows_optional2 in E. subst rs. cbv zeta.
      assert (F : forall l s, let t := fold_left (addr_ (take_over_acc val off junk oob)) (map (fun x => [fst x; snd x]) l) s in
        t = mkTake (tk_ret s) (tk_values s ++ map fst (map take_row l)) (tk_offsets s ++ map flag (map snd (map take_row l))) (tk_status s)).
      { clear. induction l as [|x l IH]; intros s; cbv zeta; [rewrite !app_nil_r; destruct s; reflexivity|]. cbn [map fold_left]. rewrite IH. cbn.
        rewrite <- !app_assoc. destruct x as [a [b|]]; reflexivity. }
      specialize (F xs (a_reset (take_over_acc val off junk oob) [] (a_empty (take_over_acc val off junk oob)))). cbv zeta in F.
      cbn [a_reset a_empty take_over_acc with_status tk_ret tk_values tk_offsets tk_status app] in F.
      cbn [a_reset a_empty take_over_acc with_status tk_ret tk_values tk_offsets tk_status app].
      rewrite F. clear F. unfold take_fn, take_spec. set (ys := map take_row xs). replace (length xs) with (length ys) by apply map_length.
      cbn [a_finalize a_status with_status take_over_acc]. unfold take_finalize. cbn [tk_ret tk_values tk_offsets tk_status]. rewrite !map_length.
      assert (Eb : existsb (fun i : bool * Z => fst i && ((snd i <? 0)%Z || (Z.of_nat (length ys) <=? snd i)%Z)) (map flag (map snd ys)) =
        existsb (fun x => match snd x with Some k => (k <? 0)%Z || (Z.of_nat (length ys) <=? k)%Z | None => false end) ys).
      { generalize (length ys). clear. intros n. induction ys as [|[a [b|]] t IH]; [reflexivity| |]; cbn [map existsb]; rewrite IH; reflexivity. }
      rewrite Eb. destruct (existsb _ ys) eqn:Ex; [discriminate|]. split; [reflexivity|]. split; [first [reflexivity|rewrite map_length; reflexivity]|].
      intros i Hi. cbn [take_result fst tk_ret tk_values tk_offsets Nat.add].
      destruct (rd_lt ys i Hi) as (y & Ey). unfold rd in Ey. rewrite !nth_error_map, Ey. cbn [option_map].
      rewrite (nth_error_nth _ i _ (x := match snd y with Some k => match nth_error ys (Z.to_nat k) with Some y => fst y | None => None end | None => None end))
        by (rewrite nth_error_map, Ey; reflexivity).
      destruct y as [a [b|]]; cbn [snd flag fst].
      * pose proof (nth_error_In _ _ Ey) as Hy. assert (Bb : (b <? 0)%Z || (Z.of_nat (length ys) <=? b)%Z = false).
        { destruct ((b <? 0)%Z || (Z.of_nat (length ys) <=? b)%Z) eqn:E1; [|reflexivity]. exfalso. assert (existsb (fun x : option T * option Z => match snd x with Some k => (k <? 0)%Z || (Z.of_nat (length ys) <=? k)%Z | None => false end) ys = true) as X; [|congruence].
          apply existsb_exists. exists (a, Some b). auto. }
        rewrite Bb. cbn [andb orb negb snd]. apply orb_false_iff in Bb. destruct Bb as [B1 B2]. rewrite B1. apply Z.ltb_ge in B1. apply Z.leb_gt in B2.
        assert (Hb : Z.to_nat b < length ys) by lia. destruct (rd_lt ys _ Hb) as (z & Ez). unfold rd in Ez. rewrite Ez.
        symmetry. apply nth_error_nth. rewrite nth_error_app1 by (rewrite map_length; exact Hb). rewrite nth_error_map, Ez. reflexivity.
      * cbn [andb orb negb snd]. destruct (Z.ltb_spec (Z.of_nat (length ys)) 0); [lia|]. rewrite Nat2Z.id, app_nth2; rewrite map_length; [|lia]. rewrite Nat.sub_diag. reflexivity.
  - split.
    + intros s Hs. unfold ok in *. cbn in *. destruct (tk_status s) eqn:E; [|congruence]. repeat split; intros; try discriminate.
      * unfold take_add. destruct r as [|? [|? [|? ?]]]; cbn; rewrite E; discriminate.
      * destruct (existsb _ _); discriminate.
    + exists (fun s s' => tk_ret s = tk_ret s' /\ tk_values s = tk_values s' /\ tk_offsets s = tk_offsets s'),
             (fun s s' => tk_ret s = tk_ret s' /\ tk_values s = tk_values s' /\ tk_offsets s = tk_offsets s').
      unfold alike, same_result, ok. cbn [a_status take_over_acc with_status a_reset a_add a_finalize a_result a_kind].
      split; [intros r s s' H1 H2; left; cbn; auto|]. split; [|split; [|split]].
      * intros _ r s s' H1 H2 (A & B & D). left. unfold take_add. destruct r as [|? [|? [|? ?]]]; cbn; rewrite ?A, ?B, ?D; auto.
      * congruence.
      * intros _ s s' H1 H2 (A & B & D). unfold take_finalize. rewrite A, B, D, H1, H2. cbn [tk_status tk_ret tk_values tk_offsets].
        destruct (existsb _ _); [right; split; discriminate|left; auto].
      * intros _ s s' H1 H2 (A & B & D). unfold take_result. cbn [fst snd tk_status tk_ret tk_values tk_offsets]. rewrite A, B, D, H1, H2. split; [left; repeat split|reflexivity].
  - intros _ n r s _ _. reflexivity.
Qed.
End Take.
