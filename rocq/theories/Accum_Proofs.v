From Coq Require Import Permutation.
From Verif Require Import Base Dense_Model Dense_Spec DenseOps_Spec GroupOps_Model GroupOps_Spec ArrGroup_Spec
  Accum_Model Accum_Spec Accum_Lift.

Lemma dec_required1 {C} : forall r : list (option C), length r = length [false] -> row_defined [false] r = is_some (required1 r).
Proof. intros [|x [|y t]] H; try discriminate. destruct x; reflexivity. Qed.
Lemma dec_optional1 {C} : forall r : list (option C), length r = length [true] -> row_defined [true] r = is_some (optional1 r).
Proof. intros [|x [|y t]] H; try discriminate. reflexivity. Qed.
Lemma rows_required1 {C} (rs : list (list (option C))) xs : map required1 rs = map Some xs -> rs = map (fun x => [Some x]) xs.
Proof.
  revert xs. induction rs as [|r t IH]; intros [|x xs] H; try discriminate; [reflexivity|]. injection H as H1 H2. cbn [map].
  rewrite <- (IH _ H2). destruct r as [|y [|z t']]; try discriminate. cbn in H1. rewrite H1. reflexivity.
Qed.
Lemma rows_optional1 {C} (rs : list (list (option C))) xs : map optional1 rs = map Some xs -> rs = map (fun x => [x]) xs.
Proof.
  revert xs. induction rs as [|r t IH]; intros [|x xs] H; try discriminate; [reflexivity|]. injection H as H1 H2. cbn [map].
  rewrite <- (IH _ H2). destruct r as [|y [|z t']]; try discriminate. injection H1 as ->. reflexivity.
Qed.
Lemma fold_map {A B D} (f : A -> D -> A) (g : B -> D) l : forall s, fold_left f (map g l) s = fold_left (fun s x => f s (g x)) l s.
Proof. induction l as [|x t IH]; intros s; [reflexivity|]. cbn [map fold_left]. apply IH. Qed.

Section Plain.
Context {S C R X : Type}.
Variables (k : kind) (copts : list bool) (empty : S) (reset : S -> S) (add : list (option C) -> S -> S)
  (finalize : S -> S) (result : S -> option R * S).
Let acc := plain k copts empty reset add finalize result.
Variables (addn : nat -> list (option C) -> S -> S) (dec : list (option C) -> option X) (f : list X -> option R).

Lemma plain_contract (sim : S -> S -> Prop) : k <> Full ->
  (forall s s', sim (reset s) (reset s')) -> (forall r s s', sim s s' -> sim (add r s) (add r s')) ->
  (forall s s', sim s s' -> sim (snd (result s)) (snd (result s')) /\ fst (result s) = fst (result s')) -> contract acc.
Proof.
  intros Hk H1 H2 H3. split; [intros s H; exfalso; apply H; reflexivity|].
  exists sim, eq. unfold alike, same_result, alike, ok. cbn [acc plain a_status a_reset a_add a_result a_kind].
  split; [intros; left; auto|]. split; [intros; left; auto|]. split; [intros _ s s' _ _ Hs; destruct (H3 _ _ Hs); auto|].
  split; intros E; congruence.
Qed.
Lemma plain_runs : k <> Full -> (k = Partial -> forall s, snd (result s) = s) ->
  (forall rs xs, map dec rs = map Some xs -> fst (result (fold_left (fun s r => add r s) rs (reset empty))) = f xs) ->
  runs acc dec (by_kind k f).
Proof.
  intros Hk Hp Hf rs xs E. unfold run_group. cbn [acc plain a_kind a_reset a_empty a_status a_result].
  destruct k; [| |congruence].
  - pose proof (Hf rs xs E) as H. change (fold_left (addr_ acc) rs (reset empty)) with (fold_left (fun s r => add r s) rs (reset empty)).
    destruct (result (fold_left (fun s r => add r s) rs (reset empty))) as [x s1]. cbn [by_kind fst] in *. subst x. auto.
  - specialize (Hp eq_refl). destruct (partial_run _ _ _) as [out s] eqn:Er. cbn [by_kind]. split; [reflexivity|].
    assert (L : length rs = length xs) by (apply (f_equal (@length _)) in E; rewrite !map_length in E; exact E).
    assert (G : forall rs s0, fst (partial_run acc s0 rs) = map (fun i => fst (result (fold_left (fun s r => add r s) (firstn (Datatypes.S i) rs) s0))) (seq 0 (length rs))).
    { clear - Hp. induction rs as [|r t IH]; intros s0; [reflexivity|]. cbn [partial_run length]. rewrite <- cons_seq, <- seq_shift. cbn [map]. rewrite map_map.
      change (a_result acc (addr_ acc s0 r)) with (result (add r s0)). pose proof (Hp (add r s0)) as Hs.
      cbn [firstn fold_left]. destruct (result (add r s0)) as [x s1]. cbn [fst snd] in Hs |- *. subst s1.
      specialize (IH (add r s0)). destruct (partial_run acc (add r s0) t) as [ys s2]. cbn [fst] in IH |- *. f_equal. exact IH. }
    apply (f_equal fst) in Er. cbn [fst] in Er. subst out. fold acc. rewrite G, L. apply map_ext. intros i. apply Hf.
    rewrite <- !firstn_map, E. reflexivity.
Qed.
Lemma plain_computes (sim : S -> S -> Prop) : k <> Full ->
  (forall r : list (option C), length r = length copts -> row_defined copts r = is_some (dec r)) ->
  (forall s s', sim (reset s) (reset s')) -> (forall r s s', sim s s' -> sim (add r s) (add r s')) ->
  (forall s s', sim s s' -> sim (snd (result s)) (snd (result s')) /\ fst (result s) = fst (result s')) ->
  (k = Partial -> forall s, snd (result s) = s) ->
  (forall rs xs, map dec rs = map Some xs -> fst (result (fold_left (fun s r => add r s) rs (reset empty))) = f xs) ->
  (forall n r s, row_defined copts r = true -> 0 < n \/ copts = [] -> addn n r s = Nat.iter n (add r) s) ->
  computes acc addn dec (by_kind k f).
Proof.
  intros Hk Hd H1 H2 H3 Hp Hf Hl. apply lift; auto; try reflexivity.
  - apply plain_runs; assumption.
  - apply (plain_contract sim); assumption.
  - intros _. exact Hl.
Qed.
End Plain.

Lemma row1 {C} (r : list (option C)) : row_defined [false] r = true -> (exists v, r = [Some v]) \/ length r <> 1.
Proof. destruct r as [|[v|] [|y t]]; cbn; intros H; try discriminate; try (right; cbn; lia). left. eauto. Qed.
Lemma iter_same {S} (g : S -> S) n s : (forall s, g s = s) -> Nat.iter n g s = s.
Proof. intros H. induction n as [|n IH]; [reflexivity|]. cbn [Nat.iter nat_rect]. rewrite H. exact IH. Qed.
Lemma iter_succ_r {S} (g : S -> S) n s : Nat.iter (Datatypes.S n) g s = Nat.iter n g (g s).
Proof. induction n as [|n IH]; [reflexivity|]. change (g (Nat.iter (Datatypes.S n) g s) = g (Nat.iter n g (g s))). rewrite IH. reflexivity. Qed.
(** Adding twice is adding once. *)
Lemma iter_idem {S} (g : S -> S) n s : 0 < n -> (forall s, g (g s) = g s) -> g s = Nat.iter n g s.
Proof.
  intros Hn H. destruct n as [|n]; [lia|]. clear Hn. induction n as [|n IH]; [reflexivity|].
  change (g s = g (Nat.iter (Datatypes.S n) g s)). rewrite <- IH, H. reflexivity.
Qed.

(** ** Count, any, all, logical. *)
Lemma count_computes k : k <> Full -> computes (count_acc k) count_addn required1 (by_kind k count_spec).
Proof.
  intros Hk. apply (plain_computes k [false] 0%Z _ _ _ _ count_addn _ count_spec eq); try assumption; try (intros; subst; auto; fail).
  - exact dec_required1.
  - intros rs xs E. apply (f_equal (@length _)) in E. rewrite !map_length in E. unfold count_spec. cbn [fst]. f_equal. rewrite <- E. clear.
    assert (G : forall (l : list (list (option unit))) s, fold_left (fun (s : Z) _ => (s + 1)%Z) l s = (s + Z.of_nat (length l))%Z).
    { induction l as [|r t IH]; intros s; cbn [fold_left length]; [lia|]. rewrite IH. lia. }
    rewrite G. lia.
  - intros n r s _ _. unfold count_addn. induction n as [|n IH]; [change (s + 0 = s)%Z; lia|].
    change (s + Z.of_nat (S n) = Nat.iter n (fun s => s + 1) s + 1)%Z. rewrite <- IH. lia.
Qed.
Lemma any_computes k i : k <> Full -> computes (any_acc k i) any_addn required1 (by_kind k any_spec).
Proof.
  intros Hk. apply (plain_computes k [false] i _ _ _ _ any_addn _ any_spec eq); try assumption; try (intros; subst; auto; fail).
  - exact dec_required1.
  - intros rs xs E. assert (G : forall (l : list (list (option unit))) s, fold_left (fun (s : bool) _ => true) l s = s || negb (length l =? 0)).
    { clear. induction l as [|r t IH]; intros s; cbn [fold_left length]; [destruct s; reflexivity|]. rewrite IH. destruct s; reflexivity. }
    rewrite G. apply (f_equal (@length _)) in E. rewrite !map_length in E. destruct xs as [|x xs]; rewrite E; reflexivity.
  - intros n r s _ [Hn|Hn]; [|discriminate]. destruct n; [lia|]. reflexivity.
Qed.
Lemma all_computes k i : k <> Full -> computes (all_acc k i) all_addn optional1 (by_kind k all_spec).
Proof.
  intros Hk. apply (plain_computes k [true] i _ _ _ _ all_addn _ all_spec eq); try assumption; try (intros; subst; auto; fail).
  - exact dec_optional1.
  - intros rs xs E. apply rows_optional1 in E. subst rs. rewrite fold_map. unfold all_spec.
    assert (G : forall xs s, fold_left (fun (s : bool) (x : option unit) => all_add [x] s) xs s = s && negb (existsb (fun x => negb (is_some x)) xs)).
    { clear. induction xs as [|x t IH]; intros s; cbn [fold_left existsb]; [destruct s; reflexivity|]. rewrite IH. cbn [all_add].
      destruct s, x, (existsb (fun x => negb (is_some x)) t); reflexivity. }
    rewrite G. destruct (existsb _ xs); reflexivity.
  - intros n r s _ [Hn|Hn]; [|discriminate]. unfold all_addn. apply (iter_idem (all_add r)); [exact Hn|]. intros t. unfold all_add.
    destruct r as [|[v|] [|y q]]; try reflexivity; destruct t; reflexivity.
Qed.
Lemma logical_all_computes k i : k <> Full -> computes (logical_all_acc k i) logical_all_addn optional1 (by_kind k logical_all_spec).
Proof.
  intros Hk. apply (plain_computes k [true] i _ _ _ _ logical_all_addn _ logical_all_spec eq); try assumption; try (intros; subst; auto; fail).
  - exact dec_optional1.
  - intros rs xs E. apply rows_optional1 in E. subst rs. rewrite fold_map. unfold logical_all_spec.
    assert (G : forall xs s, fold_left (fun s (x : option bool) => logical_all_add [x] s) xs s =
      (fst s || existsb (fun x => match x with Some false => true | _ => false end) xs, snd s || existsb (fun x => negb (is_some x)) xs)).
    { clear. induction xs as [|x t IH]; intros [a b]; cbn [fold_left existsb]; [destruct a, b; reflexivity|]. rewrite IH. cbn [logical_all_add fst snd].
      destruct x as [[|]|], a, b; reflexivity. }
    rewrite G. cbn [fst snd orb]. destruct (existsb _ xs), (existsb _ xs); reflexivity.
  - intros n r s _ [Hn|Hn]; [|discriminate]. unfold logical_all_addn. apply (iter_idem (logical_all_add r)); [exact Hn|]. intros [a b]. unfold logical_all_add.
    destruct r as [|[[|]|] [|y q]]; try reflexivity; destruct a, b; reflexivity.
Qed.
Lemma logical_any_computes k i : k <> Full -> computes (logical_any_acc k i) logical_any_addn optional1 (by_kind k logical_any_spec).
Proof.
  intros Hk. apply (plain_computes k [true] i _ _ _ _ logical_any_addn _ logical_any_spec eq); try assumption; try (intros; subst; auto; fail).
  - exact dec_optional1.
  - intros rs xs E. apply rows_optional1 in E. subst rs. rewrite fold_map. unfold logical_any_spec.
    assert (G : forall xs s, fold_left (fun s (x : option bool) => logical_any_add [x] s) xs s =
      (fst s || existsb (fun x => match x with Some true => true | _ => false end) xs, snd s || existsb (fun x => negb (is_some x)) xs)).
    { clear. induction xs as [|x t IH]; intros [a b]; cbn [fold_left existsb]; [destruct a, b; reflexivity|]. rewrite IH. cbn [logical_any_add fst snd].
      destruct x as [[|]|], a, b; reflexivity. }
    rewrite G. cbn [fst snd orb]. destruct (existsb _ xs), (existsb _ xs); reflexivity.
  - intros n r s _ [Hn|Hn]; [|discriminate]. unfold logical_any_addn. apply (iter_idem (logical_any_add r)); [exact Hn|]. intros [a b]. unfold logical_any_add.
    destruct r as [|[[|]|] [|y q]]; try reflexivity; destruct a, b; reflexivity.
Qed.

(** ** Sum and product of fixed-width integers. *)
Section Int.
Variable w : Z.
Hypothesis Hw : (0 < w)%Z.
Open Scope Z_scope.
Lemma pow_pos : 0 < 2 ^ w. Proof. apply Z.pow_pos_nonneg; lia. Qed.
Lemma pow_half : 2 ^ w = 2 * 2 ^ (w - 1).
Proof. rewrite <- Z.pow_succ_r by lia. f_equal. lia. Qed.
Lemma sw_congruent z : congruent w z (sw w z).
Proof.
  unfold congruent, sw. pose proof pow_pos. pose proof pow_half. pose proof (Z.mod_pos_bound (z + 2 ^ (w - 1)) (2 ^ w) ltac:(lia)). split; [lia|].
  exists ((z + 2 ^ (w - 1)) / 2 ^ w). pose proof (Z.div_mod (z + 2 ^ (w - 1)) (2 ^ w) ltac:(lia)). lia.
Qed.
Lemma congruent_eq z z' r r' : congruent w z r -> congruent w z' r' -> (exists q, z - z' = q * 2 ^ w) -> r = r'.
Proof.
  intros (B & q1 & E1) (B' & q2 & E2) (q & E). pose proof pow_half. pose proof pow_pos.
  assert (r - r' = (q + q2 - q1) * 2 ^ w) as D by lia. assert (q + q2 - q1 = 0) as Z0 by nia. nia.
Qed.
Lemma sw_eq a b : (exists q, a - b = q * 2 ^ w) -> sw w a = sw w b.
Proof. intros H. exact (congruent_eq _ _ _ _ (sw_congruent a) (sw_congruent b) H). Qed.
Lemma sw_off z : exists q, sw w z = z - q * 2 ^ w.
Proof. destruct (sw_congruent z) as (_ & q & E). exists q. lia. Qed.
Lemma sw_add_l a b : sw w (sw w a + b) = sw w (a + b).
Proof. destruct (sw_off a) as (q & E). apply sw_eq. exists (- q). rewrite E. lia. Qed.
Lemma sw_mul_l a b : sw w (sw w a * b) = sw w (a * b).
Proof. destruct (sw_off a) as (q & E). apply sw_eq. exists (- q * b). rewrite E. lia. Qed.
Lemma sw_add_r a b : sw w (a + sw w b) = sw w (a + b).
Proof. rewrite Z.add_comm, sw_add_l, Z.add_comm. reflexivity. Qed.
Lemma sw_mul_r a b : sw w (a * sw w b) = sw w (a * b).
Proof. rewrite Z.mul_comm, sw_mul_l, Z.mul_comm. reflexivity. Qed.

Definition sum_fn (initial : option Z) (xs : list Z) : option Z :=
  match xs with [] => initial | _ => Some (sw w (match initial with Some i => i | None => 0 end + fold_right Z.add 0 xs)) end.
Lemma sum_fn_ok initial xs : is_sum w initial xs (sum_fn initial xs).
Proof. destruct xs; [reflexivity|]. eexists. split; [reflexivity|apply sw_congruent]. Qed.

Lemma sum_fold xs : forall b a, fold_left (fun s x => sum_add (int_arith w) [Some x] s) xs (b, a) =
  match xs with [] => (b, a) | _ => (true, sw w (a + fold_right Z.add 0 xs)) end.
Proof.
  induction xs as [|x t IH]; intros b a; [reflexivity|]. cbn [fold_left sum_add int_arith r_add r_wide snd]. rewrite IH. cbn [fold_right].
  destruct t as [|y t']; [cbn [fold_right]; f_equal; f_equal; lia|]. f_equal. rewrite sw_add_l. f_equal. lia.
Qed.
Lemma sum_lawful n r s : (0 < n)%nat -> row_defined [false] r = true -> sum_addn (int_arith w) n r s = Nat.iter n (sum_add (int_arith w) r) s.
Proof.
  intros Hn Hr. destruct (row1 r Hr) as [(v & ->)|L].
  - destruct n as [|n]; [lia|]. clear Hn Hr. induction n as [|n IH].
    + cbn [Nat.iter nat_rect sum_add sum_addn]. f_equal. cbn [int_arith r_add r_mul r_count r_wide]. rewrite sw_add_r, Z.mul_comm.
      rewrite <- (sw_add_r _ (sw w _ * _)), sw_mul_l, sw_add_r. f_equal. lia.
    + change (Nat.iter (S (S n)) (sum_add (int_arith w) [Some v]) s) with (sum_add (int_arith w) [Some v] (Nat.iter (S n) (sum_add (int_arith w) [Some v]) s)).
      rewrite <- IH. cbn [sum_add sum_addn snd int_arith r_add r_mul r_count r_wide]. f_equal.
      assert (E : forall k, sw w (snd s + sw w (v * sw w k)) = sw w (snd s + v * k)).
      { intros k. rewrite sw_mul_r, sw_add_r. reflexivity. }
      rewrite !E, sw_add_l. f_equal. lia.
  - assert (sum_addn (int_arith w) n r s = s) as -> by (destruct r as [|[v|] [|y t]]; cbn in L; try reflexivity; lia).
    symmetry. apply iter_same. intros s0. destruct r as [|[v|] [|y t]]; cbn in L; try reflexivity; lia.
Qed.
Lemma sum_computes k initial i : k <> Full ->
  computes (sum_acc (int_arith w) k initial i) (sum_addn (int_arith w)) required1 (by_kind k (sum_fn initial)).
Proof.
  intros Hk. apply (plain_computes k [false] i _ _ _ _ (sum_addn (int_arith w)) _ (sum_fn initial) eq); try assumption; try (intros; subst; auto; fail).
  - exact dec_required1.
  - intros rs xs E. apply rows_required1 in E. subst rs. rewrite fold_map. unfold sum_fn. cbn [int_arith r_wide r_zero r_narrow].
    destruct initial as [v|]; rewrite sum_fold; destruct xs; reflexivity.
  - intros n r s Hr [Hn|Hn]; [|discriminate]. apply sum_lawful; assumption.
Qed.

Definition prod_fn (xs : list Z) : option Z :=
  match xs with [] => None | [x] => Some x | _ => Some (sw w (fold_right Z.mul 1 xs)) end.
Lemma prod_fn_ok xs : is_prod w xs (prod_fn xs).
Proof. destruct xs as [|x [|y t]]; [reflexivity|reflexivity|]. eexists. split; [reflexivity|apply sw_congruent]. Qed.
Lemma prod_fold xs : forall a, fold_left (fun s x => functor_add (r_mul (int_arith w)) (r_wide (int_arith w)) [Some x] s) xs (Some a) =
  match xs with [] => Some a | _ => Some (sw w (a * fold_right Z.mul 1 xs)) end.
Proof.
  induction xs as [|x t IH]; intros a; [reflexivity|]. cbn [fold_left functor_add int_arith r_mul r_wide].
  change (fun a b => sw w (a * b)) with (r_mul (int_arith w)). change (fun v : Z => v) with (r_wide (int_arith w)). rewrite IH.
  destruct t as [|y t']; [cbn [fold_right]; f_equal; f_equal; lia|]. f_equal. rewrite sw_mul_l. f_equal. cbn [fold_right]. lia.
Qed.
Lemma prod_computes k i : k <> Full -> computes (prod_acc (int_arith w) k i) (prod_addn (int_arith w)) required1 (by_kind k prod_fn).
Proof.
  intros Hk. apply (plain_computes k [false] i _ _ _ _ (prod_addn (int_arith w)) _ prod_fn eq); try assumption; try (intros; subst; auto; fail).
  - exact dec_required1.
  - intros rs xs E. apply rows_required1 in E. subst rs. rewrite fold_map. unfold prod_fn. cbn [option_map].
    destruct xs as [|x xs]; [reflexivity|]. cbn [fold_left functor_add]. fold (functor_add (r_mul (int_arith w)) (r_wide (int_arith w))).
    rewrite prod_fold. cbn [int_arith r_wide]. destruct xs; reflexivity.
Qed.
End Int.

(** Sums and products in any arithmetic, such as floating point, with the default
    AddN or on dense arrays: left to right. *)

(** ** Orders. *)
Section Ord.
Context {T : Type}.
Variable o : ord T.
Hypothesis Ho : ord_ok o.
Lemma cmp_nan a b : cmp o a b = None <-> nan o a = true \/ nan o b = true. Proof. apply Ho. Qed.
Lemma cmp_opp a b c : cmp o a b = Some c -> cmp o b a = Some (CompOpp c). Proof. apply Ho. Qed.
Lemma le_trans a b c : o_le o a b = true -> o_le o b c = true -> o_le o a c = true. Proof. apply Ho. Qed.
Lemma le_refl a : nan o a = false -> o_le o a a = true.
Proof. intros H. destruct Ho as (_ & H1 & _). unfold o_le. rewrite (H1 a H). reflexivity. Qed.
Lemma not_nan_cmp a b : nan o a = false -> nan o b = false -> exists c, cmp o a b = Some c.
Proof. intros H1 H2. destruct (cmp o a b) eqn:E; [eauto|]. apply cmp_nan in E. destruct E; congruence. Qed.
Lemma le_not_lt a b : nan o a = false -> nan o b = false -> o_le o a b = negb (o_lt o b a).
Proof.
  intros H1 H2. destruct (not_nan_cmp a b H1 H2) as (c & E). unfold o_le, o_lt. rewrite (cmp_opp _ _ _ E), E. destruct c; reflexivity.
Qed.
Lemma lt_le a b : o_lt o a b = true -> o_le o a b = true.
Proof. unfold o_lt, o_le. destruct (cmp o a b) as [[]|]; congruence. Qed.
Lemma lt_nan a b : o_lt o a b = true -> nan o a = false /\ nan o b = false.
Proof.
  unfold o_lt. destruct (cmp o a b) as [c|] eqn:E; [|congruence]. intros _.
  destruct (nan o a) eqn:E1; [assert (cmp o a b = None) by (apply cmp_nan; auto); congruence|].
  destruct (nan o b) eqn:E2; [assert (cmp o a b = None) by (apply cmp_nan; auto); congruence|]. auto.
Qed.
Lemma le_nan a b : o_le o a b = true -> nan o a = false /\ nan o b = false.
Proof.
  unfold o_le. destruct (cmp o a b) as [c|] eqn:E; [|congruence]. intros _.
  destruct (nan o a) eqn:E1; [assert (cmp o a b = None) by (apply cmp_nan; auto); congruence|].
  destruct (nan o b) eqn:E2; [assert (cmp o a b = None) by (apply cmp_nan; auto); congruence|]. auto.
Qed.
Lemma lt_le_trans a b c : o_lt o a b = true -> o_le o b c = true -> o_lt o a c = true.
Proof.
  intros H1 H2. destruct (lt_nan _ _ H1), (le_nan _ _ H2). destruct (o_lt o a c) eqn:E; [reflexivity|exfalso].
  assert (L : o_le o c a = true) by (rewrite le_not_lt by assumption; rewrite E; reflexivity).
  pose proof (le_trans _ _ _ H2 L) as L2. rewrite le_not_lt in L2 by assumption. rewrite H1 in L2. discriminate.
Qed.
Lemma le_lt_trans a b c : o_le o a b = true -> o_lt o b c = true -> o_lt o a c = true.
Proof.
  intros H1 H2. destruct (lt_nan _ _ H2), (le_nan _ _ H1). destruct (o_lt o a c) eqn:E; [reflexivity|exfalso].
  assert (L : o_le o c a = true) by (rewrite le_not_lt by assumption; rewrite E; reflexivity).
  pose proof (le_trans _ _ _ L H1) as L2. rewrite le_not_lt in L2 by assumption. rewrite H2 in L2. discriminate.
Qed.
Lemma lt_trans a b c : o_lt o a b = true -> o_lt o b c = true -> o_lt o a c = true.
Proof. intros H1 H2. apply (lt_le_trans _ b); [exact H1|apply lt_le, H2]. Qed.

(** A comparison in one of the two directions. *)
Definition direction (better : T -> T -> bool) : Prop :=
  (forall a b, better a b = true -> nan o a = false /\ nan o b = false) /\
  (forall a, better a a = false) /\
  (forall a b c, better a b = true -> better b c = true -> better a c = true) /\
  (forall a b c, nan o a = false -> nan o b = false -> nan o c = false -> better a b = false -> better b c = false -> better a c = false).
Lemma lt_irrefl a : o_lt o a a = false.
Proof. destruct (o_lt o a a) eqn:E; [|reflexivity]. destruct (lt_nan _ _ E) as [N _]. pose proof (le_refl a N) as L. rewrite le_not_lt, E in L by assumption. discriminate. Qed.
Lemma nlt_trans a b c : nan o a = false -> nan o b = false -> nan o c = false -> o_lt o a b = false -> o_lt o b c = false -> o_lt o a c = false.
Proof.
  intros A B D H1 H2. assert (L1 : o_le o b a = true) by (rewrite le_not_lt, H1; auto). assert (L2 : o_le o c b = true) by (rewrite le_not_lt, H2; auto).
  pose proof (le_trans _ _ _ L2 L1) as L. rewrite le_not_lt in L by assumption. apply negb_true_iff in L. exact L.
Qed.
Lemma direction_lt : direction (o_lt o).
Proof. split; [apply lt_nan|]. split; [apply lt_irrefl|]. split; [apply lt_trans|apply nlt_trans]. Qed.
Lemma direction_gt : direction (fun a b => o_lt o b a).
Proof.
  split; [intros a b H; apply lt_nan in H; tauto|]. split; [apply lt_irrefl|]. split; [intros a b c H1 H2; apply (lt_trans _ _ _ H2 H1)|].
  intros a b c A B D H1 H2. apply (nlt_trans c b a); assumption.
Qed.
Lemma min_op_ok a b : min_op o a b = if negb (nan o a) && (nan o b || o_lt o b a) then b else a.
Proof.
  unfold min_op. destruct (nan o a) eqn:E1; [reflexivity|]. cbn [orb negb andb]. destruct (nan o b) eqn:E2; cbn [orb].
  - destruct (o_le o a b) eqn:E; [|reflexivity]. apply le_nan in E. destruct E; congruence.
  - rewrite le_not_lt by assumption. destruct (o_lt o b a); reflexivity.
Qed.
Lemma max_op_ok a b : max_op o a b = if negb (nan o a) && (nan o b || o_lt o a b) then b else a.
Proof.
  unfold max_op. destruct (nan o a) eqn:E1; [reflexivity|]. cbn [orb negb andb]. destruct (nan o b) eqn:E2; cbn [orb].
  - destruct (o_le o b a) eqn:E; [|reflexivity]. apply le_nan in E. destruct E; congruence.
  - rewrite le_not_lt by assumption. destruct (o_lt o a b); reflexivity.
Qed.

Section Best.
Variables (better : T -> T -> bool) (f : T -> T -> T).
Hypothesis Hd : direction better.
Hypothesis Hf : forall a b, f a b = if negb (nan o a) && (nan o b || better b a) then b else a.
Definition best_fn (xs : list T) : option T := fold_left (fun s x => functor_add f (fun v => v) [Some x] s) xs None.
Lemma best_snoc before v after x : 
  (forall y, In y before -> nan o y = false /\ (nan o v = true \/ better v y = true)) ->
  (nan o v = true \/ forall y, In y after -> nan o y = false /\ better y v = false) ->
  is_best o better (before ++ v :: after ++ [x]) (Some (f v x)).
Proof.
  destruct Hd as (D1 & D2 & D3 & D4). intros H1 H2. rewrite Hf. destruct (nan o v) eqn:Ev; cbn [negb andb].
  - exists before, (after ++ [x]). split; [reflexivity|]. split; [|left; exact Ev]. intros y Hy. destruct (H1 y Hy) as [A _]. auto.
  - destruct H2 as [H2|H2]; [discriminate|]. destruct (nan o x || better x v) eqn:Ex.
    + exists (before ++ v :: after), []. rewrite <- app_assoc. split; [reflexivity|]. split; [|right; intros y []].
      assert (Hx : nan o x = true \/ better x v = true) by (apply orb_true_iff in Ex; exact Ex).
      intros y Hy. apply in_app_or in Hy. destruct Hy as [Hy|[<-|Hy]].
      * destruct (H1 y Hy) as [A [B|B]]; [congruence|]. split; [exact A|]. destruct Hx as [Hx|Hx]; [auto|right]. exact (D3 _ _ _ Hx B).
      * split; [exact Ev|exact Hx].
      * destruct (H2 y Hy) as [A B]. split; [exact A|]. destruct Hx as [Hx|Hx]; [auto|right]. destruct (D1 _ _ Hx) as [Nx _].
        destruct (better x y) eqn:E; [reflexivity|]. rewrite (D4 x y v Nx A Ev E B) in Hx. discriminate.
    + apply orb_false_iff in Ex. destruct Ex as [Nx Bx]. exists before, (after ++ [x]). split; [reflexivity|]. split; [rewrite Ev; exact H1|]. right.
      intros y Hy. apply in_app_or in Hy. destruct Hy as [Hy|[<-|[]]]; auto.
Qed.
Lemma best_fn_ok xs : is_best o better xs (best_fn xs).
Proof.
  unfold best_fn. induction xs as [|x xs IH] using rev_ind; [reflexivity|]. rewrite fold_left_app. cbn [fold_left functor_add].
  destruct (fold_left _ xs None) as [v|].
  - destruct IH as (before & after & -> & H1 & H2). rewrite <- app_assoc. cbn [app]. apply best_snoc; assumption.
  - cbn [is_best] in IH. subst xs. exists [], []. split; [reflexivity|]. split; [intros y []|right; intros y []].
Qed.
Lemma best_idem v s : functor_add f (fun v => v) [Some v] (functor_add f (fun v => v) [Some v] s) = functor_add f (fun v => v) [Some v] s.
Proof.
  cbn [functor_add]. f_equal. destruct Hd as (_ & D2 & _). assert (E : f v v = v) by (rewrite Hf; destruct (negb (nan o v) && (nan o v || better v v)); reflexivity).
  destruct s as [a|]; [|exact E]. rewrite (Hf a v). destruct (negb (nan o a) && (nan o v || better v a)) eqn:C; [exact E|]. rewrite Hf, C. reflexivity.
Qed.
Lemma best_computes k i : k <> Full ->
  computes (functor_acc f (fun v => v) (fun v => v) k None i) (functor_addn f (fun v => v) true) required1 (by_kind k best_fn).
Proof.
  intros Hk. apply (plain_computes k [false] i _ _ _ _ (functor_addn f (fun v => v) true) _ best_fn eq); try assumption; try (intros; subst; auto; fail).
  - exact dec_required1.
  - intros rs xs E. apply rows_required1 in E. subst rs. rewrite fold_map. cbn [option_map fst]. unfold best_fn.
    destruct (fold_left _ xs None); reflexivity.
  - intros n r s Hr [Hn|Hn]; [|discriminate]. unfold functor_addn. apply (iter_idem (functor_add f (fun v => v) r)); [exact Hn|].
    intros t. destruct (row1 r Hr) as [(v & ->)|L]; [apply best_idem|]. destruct r as [|[v|] [|y q]]; cbn in L; try reflexivity; lia.
Qed.
End Best.

(** ** Argmin, argmax. *)
Section Arg.
Variable better : T -> T -> bool.
Hypothesis Hd : direction better.
Variable x0 : T.
Definition arg_run (xs : list (option T)) : arg_st T := fold_left (fun s x => arg_add o better [x] s) xs (mkArg 0%Z x0 None).
Definition arg_fn (xs : list (option T)) : option Z := ag_arg (arg_run xs).
Lemma arg_inv xs : ag_index (arg_run xs) = Z.of_nat (length xs) /\
  match ag_arg (arg_run xs) with
  | None => forall x, In x xs -> x = None
  | Some i => exists before after, xs = before ++ Some (ag_best (arg_run xs)) :: after /\ i = Z.of_nat (length before) /\
      (forall x, In (Some x) before -> nan o x = false /\ (nan o (ag_best (arg_run xs)) = true \/ better (ag_best (arg_run xs)) x = true)) /\
      (nan o (ag_best (arg_run xs)) = true \/ forall x, In (Some x) after -> nan o x = false /\ better x (ag_best (arg_run xs)) = false)
  end.
Proof.
  destruct Hd as (D1 & D2 & D3 & D4).
  induction xs as [|x xs [IH1 IH2]] using rev_ind; [split; [reflexivity|intros x []]|]. unfold arg_run in *. rewrite fold_left_app. cbn [fold_left].
  set (s := fold_left (fun s x => arg_add o better [x] s) xs (mkArg 0%Z x0 None)) in *. rewrite app_length. cbn [length].
  destruct x as [x|]; cbn [arg_add].
  2: { cbn [ag_index ag_best ag_arg]. split; [lia|]. destruct (ag_arg s) as [i|].
    - destruct IH2 as (b & a & E0 & E & H1 & H2). exists b, (a ++ [None]). rewrite E0, <- app_assoc. split; [reflexivity|]. split; [exact E|]. split; [exact H1|].
      destruct H2 as [H2|H2]; [left; exact H2|right]. intros y Hy. apply in_app_or in Hy. destruct Hy as [Hy|[Hy|[]]]; [auto|discriminate].
    - intros y Hy. apply in_app_or in Hy. destruct Hy as [Hy|[<-|[]]]; auto. }
  destruct (ag_arg s) as [i|] eqn:Ea; cbn [orb].
  - destruct IH2 as (b & a & E0 & E & H1 & H2). set (v := ag_best s) in *. destruct (nan o v) eqn:Ev; cbn [negb andb].
    + cbn [ag_index ag_best ag_arg]. split; [lia|]. fold v. exists b, (a ++ [Some x]). rewrite E0, <- app_assoc. split; [reflexivity|]. split; [exact E|].
      rewrite Ev. split; [intros y Hy; destruct (H1 y Hy); auto|auto].
    + destruct H2 as [H2|H2]; [discriminate|]. destruct (nan o x || better x v) eqn:Ex; cbn [ag_index ag_best ag_arg].
      * split; [lia|]. exists xs, []. split; [reflexivity|]. split; [exact IH1|]. split; [|right; intros y []].
        assert (Hx : nan o x = true \/ better x v = true) by (apply orb_true_iff in Ex; exact Ex).
        intros y Hy. rewrite E0 in Hy. apply in_app_or in Hy. destruct Hy as [Hy|[Hy|Hy]].
        -- destruct (H1 y Hy) as [A [B|B]]; [congruence|]. split; [exact A|]. destruct Hx as [Hx|Hx]; [auto|right]. exact (D3 _ _ _ Hx B).
        -- injection Hy as <-. split; [exact Ev|exact Hx].
        -- destruct (H2 y Hy) as [A B]. split; [exact A|]. destruct Hx as [Hx|Hx]; [auto|right]. destruct (D1 _ _ Hx) as [Nx _].
           destruct (better x y) eqn:Exy; [reflexivity|]. rewrite (D4 x y v Nx A Ev Exy B) in Hx. discriminate.
      * split; [lia|]. fold v. apply orb_false_iff in Ex. destruct Ex as [Nx Bx]. exists b, (a ++ [Some x]). rewrite E0, <- app_assoc. split; [reflexivity|].
        split; [exact E|]. split; [rewrite Ev; exact H1|]. right. intros y Hy. apply in_app_or in Hy. destruct Hy as [Hy|[Hy|[]]]; [auto|]. injection Hy as <-. auto.
  - cbn [ag_index ag_best ag_arg]. split; [lia|]. exists xs, []. split; [reflexivity|]. split; [exact IH1|]. split; [|right; intros y []].
    intros y Hy. specialize (IH2 _ Hy). discriminate.
Qed.
Lemma arg_fn_ok xs : is_arg_best o better xs (arg_fn xs).
Proof.
  unfold arg_fn. destruct (arg_inv xs) as [_ H]. destruct (ag_arg (arg_run xs)); [|exact H].
  destruct H as (b & a & H). exists b, (ag_best (arg_run xs)), a. exact H.
Qed.
Definition arg_sim (a b : arg_st T) : Prop := ag_index a = ag_index b /\ ag_arg a = ag_arg b /\ (ag_arg a <> None -> ag_best a = ag_best b).
Lemma arg_addn_ok n r s : 0 < n -> arg_addn o better n r s = Nat.iter n (arg_add o better r) s.
Proof.
  intros Hn. destruct Hd as (_ & D2 & _).
  (* once added, adding the same again only moves the index *)
  assert (A : forall j s, Nat.iter j (arg_add o better r) (arg_add o better r s) =
    let s' := arg_add o better r s in mkArg (ag_index s' + Z.of_nat j)%Z (ag_best s') (ag_arg s')).
  { induction j as [|j IH]; intros t; [cbn [Nat.iter nat_rect]; cbv zeta; destruct (arg_add o better r t); cbn; f_equal; lia|].
    change (arg_add o better r (Nat.iter j (arg_add o better r) (arg_add o better r t)) = let s' := arg_add o better r t in mkArg (ag_index s' + Z.of_nat (S j))%Z (ag_best s') (ag_arg s')).
    rewrite IH. cbv zeta. unfold arg_add.
    destruct r as [|[v|] [|y q]]; cbn [ag_index ag_best ag_arg]; try (f_equal; lia).
    destruct ((match ag_arg t with None => true | Some _ => false end) || (negb (nan o (ag_best t)) && (nan o v || better v (ag_best t)))) eqn:C; cbn [ag_index ag_best ag_arg].
    - cbn [orb]. rewrite D2. destruct (nan o v); cbn [negb andb orb]; f_equal; lia.
    - rewrite C. f_equal; lia. }
  destruct n as [|n]; [lia|]. unfold arg_addn. rewrite iter_succ_r. rewrite A. cbv zeta. f_equal. lia.
Qed.
Lemma arg_computes : computes (arg_acc o better x0) (arg_addn o better) optional1 (by_kind Aggregator arg_fn).
Proof.
  apply (plain_computes Aggregator [true] _ _ _ _ _ (arg_addn o better) _ arg_fn arg_sim); try discriminate.
  - exact dec_optional1.
  - intros s s'. split; [reflexivity|]. split; [reflexivity|]. cbn. congruence.
  - intros r s s' (E1 & E2 & E3). unfold arg_add. rewrite <- E1, <- E2. destruct r as [|[v|] [|y q]]; cbn; try (split; [reflexivity|split; [reflexivity|exact E3]]).
    destruct (ag_arg s) as [i|]; cbn [orb]; [|split; [reflexivity|split; reflexivity]]. rewrite <- E3 by discriminate.
    destruct (negb (nan o (ag_best s)) && (nan o v || better v (ag_best s))); cbn; split; [reflexivity|split; reflexivity|reflexivity|split; [reflexivity|congruence]].
  - intros s s' H. split; [exact H|]. destruct H as (_ & E & _). exact E.
  - intros rs xs E. apply rows_optional1 in E. subst rs. rewrite fold_map. reflexivity.
  - intros n r s _ [Hn|Hn]; [|discriminate]. apply arg_addn_ok, Hn.
Qed.
End Arg.

(** ** Collapse. *)
Lemma collapse_fold x0 : forall xs, fold_left (fun s x => collapse_add o [Some x] s) xs x0 =
  match cl_present x0 with
  | true => mkCol (cl_value x0) true (cl_equal x0 && forallb (fun y => (cl_nan x0 && nan o y) || (negb (cl_nan x0) && o_eq o y (cl_value x0))) xs) (cl_nan x0)
  | false => match xs with [] => x0 | x :: t => mkCol x true (forallb (fun y => (nan o x && nan o y) || (negb (nan o x) && o_eq o y x)) t) (nan o x) end
  end.
Proof.
  assert (G : forall xs v e nn, fold_left (fun s x => collapse_add o [Some x] s) xs (mkCol v true e nn) =
    mkCol v true (e && forallb (fun y => (nn && nan o y) || (negb nn && o_eq o y v)) xs) nn).
  { induction xs as [|x t IH]; intros v e nn; cbn [fold_left forallb]; [rewrite andb_true_r; reflexivity|]. cbn [collapse_add cl_present negb cl_value cl_equal cl_nan].
    rewrite IH, andb_assoc. reflexivity. }
  intros xs. destruct x0 as [v p e nn]. cbn [cl_present cl_value cl_equal cl_nan]. destruct p; [apply G|]. destruct xs as [|x t]; [reflexivity|].
  cbn [fold_left collapse_add cl_present negb]. rewrite G. reflexivity.
Qed.
Definition col_sim (a b : collapse_st T) : Prop := cl_present a = cl_present b /\ (cl_present a = true -> a = b).
Lemma o_eq_refl v : nan o v = false -> o_eq o v v = true.
Proof. intros H. destruct Ho as (_ & H1 & _). unfold o_eq. rewrite (H1 v H). reflexivity. Qed.
Lemma collapse_computes x0 : computes (collapse_acc o x0) (collapse_addn o) required1 (by_kind Aggregator (collapse_spec o)).
Proof.
  apply (plain_computes Aggregator [false] _ _ _ _ _ (collapse_addn o) _ (collapse_spec o) col_sim); try discriminate.
  - exact dec_required1.
  - intros s s'. split; [reflexivity|]. cbn. discriminate.
  - intros r s s' (E1 & E2). unfold collapse_add. destruct r as [|[v|] [|y q]]; try (split; assumption).
    destruct (cl_present s) eqn:P; cbn [negb]; rewrite <- E1; cbn [negb]; [rewrite (E2 eq_refl)|]; split; reflexivity.
  - intros s s' H. split; [exact H|]. destruct H as (E & H). destruct (cl_present s) eqn:P; [rewrite (H eq_refl) in *; rewrite <- E; reflexivity|]. rewrite <- E. reflexivity.
  - intros rs xs E. apply rows_required1 in E. subst rs. rewrite fold_map, collapse_fold. cbn [cl_present]. destruct xs as [|x t]; reflexivity.
  - intros n r s Hr [Hn|Hn]; [|discriminate]. unfold collapse_addn. apply (iter_idem (collapse_add o r)); [exact Hn|]. intros t.
    destruct (row1 r Hr) as [(v & ->)|L]; [|destruct r as [|[v|] [|y q]]; cbn in L; try reflexivity; lia].
    unfold collapse_add. destruct t as [v0 [|] e nn]; cbn [cl_present negb cl_value cl_equal cl_nan].
    + f_equal. destruct e; [|reflexivity]. cbn [andb]. apply andb_diag.
    + f_equal. destruct (nan o v) eqn:N; [reflexivity|]. cbn. apply o_eq_refl, N.
Qed.

(** ** Selection. *)
Section Sel.
Variables (nth_el : list T -> nat -> list T) (oob : T).
Hypothesis Hn : nth_element o nth_el.
Lemma filter_perm {A} (p : A -> bool) l l' : Permutation l l' -> length (filter p l) = length (filter p l').
Proof. intros H. induction H; cbn; try congruence; [destruct (p x); cbn; congruence|destruct (p x), (p y); cbn; congruence]. Qed.
Lemma find_none l : find (nan o) l = None -> forall x, In x l -> nan o x = false.
Proof. intros H x Hx. apply (find_none _ _ H x Hx). Qed.
Lemma filter_len_le {A} (p : A -> bool) l : length (filter p l) <= length l.
Proof. induction l as [|x t IH]; cbn; [lia|]. destruct (p x); cbn; lia. Qed.
Lemma filter_all {A} (p : A -> bool) l : (forall x, In x l -> p x = true) -> filter p l = l.
Proof. intros H. induction l as [|x t IH]; [reflexivity|]. cbn. rewrite (H x) by (left; reflexivity). f_equal. apply IH. intros y Hy. apply H. right. exact Hy. Qed.
Lemma filter_none {A} (p : A -> bool) l : (forall x, In x l -> p x = false) -> filter p l = [].
Proof. intros H. induction l as [|x t IH]; [reflexivity|]. cbn. rewrite (H x) by (left; reflexivity). apply IH. intros y Hy. apply H. right. exact Hy. Qed.
Lemma select_kth l k : find (nan o) l = None -> k < length l -> is_kth o k l (Some (nth k (nth_el l k) oob)).
Proof.
  intros Hf Hk. pose proof (find_none l Hf) as N. destruct (Hn l k N Hk) as (P & b & v & a & E & Eb & Hb & Ha).
  assert (Ev : nth k (nth_el l k) oob = v) by (rewrite E, app_nth2 by lia; rewrite Eb, Nat.sub_diag; reflexivity). rewrite Ev.
  assert (Iv : In v l) by (apply (Permutation_in _ P); rewrite E; apply in_or_app; right; left; reflexivity).
  split; [exact Iv|]. right. split; [exact Hf|].
  assert (Nin : forall x, In x (b ++ v :: a) -> nan o x = false) by (intros x Hx; apply N; apply (Permutation_in _ P); rewrite E; exact Hx).
  rewrite <- !(filter_perm _ _ _ P), E, !filter_app, !app_length. cbn [filter].
  rewrite lt_irrefl, (le_refl v (N v Iv)). rewrite (filter_none (fun x => o_lt o x v) a) by exact Ha. cbn [length].
  pose proof (filter_len_le (fun x => o_lt o x v) b).
  rewrite (filter_all (fun x => o_le o x v) b); [lia|].
  intros x Hx. rewrite le_not_lt; [rewrite Hb by exact Hx; reflexivity|apply Nin, in_or_app; left; exact Hx|exact (N v Iv)].
Qed.
Lemma find_in l x : find (nan o) l = Some x -> In x l. Proof. intros H. apply find_some in H. tauto. Qed.
Lemma push_fold xs : forall s : list T, fold_left (fun s x => push1 [Some x] s) xs s = s ++ xs.
Proof. induction xs as [|x t IH]; intros s; cbn [fold_left push1]; [rewrite app_nil_r; reflexivity|]. rewrite IH, <- app_assoc. reflexivity. Qed.

Definition median_fn (xs : list T) : option T := fst (median_result o nth_el oob xs).
Lemma median_fn_ok xs : is_kth o ((length xs - 1) / 2) xs (median_fn xs).
Proof.
  unfold median_fn, median_result. destruct xs as [|x t] eqn:E; [reflexivity|]. rewrite <- E.
  destruct (find (nan o) xs) as [v|] eqn:F; [split; [apply find_in, F|left; exact F]|]. apply select_kth; [exact F|].
  assert (0 < length xs) by (rewrite E; cbn; lia). pose proof (Nat.div_lt_upper_bound (length xs - 1) 2 (length xs)). lia.
Qed.
Lemma median_computes init : computes (median_acc o nth_el oob init) (addn_default push1) required1 (by_kind Aggregator median_fn).
Proof.
  apply (plain_computes Aggregator [false] init _ _ _ _ (addn_default push1) _ median_fn eq); try discriminate; try (intros; subst; auto; fail).
  - exact dec_required1.
  - intros rs xs E. apply rows_required1 in E. subst rs. rewrite fold_map, push_fold. reflexivity.
Qed.
Definition inverse_cdf_fn ceil_pos (xs : list T) : option T := fst (inverse_cdf_result o nth_el oob ceil_pos xs).
Lemma inverse_cdf_fn_ok ceil_pos xs :
  is_kth o (Z.to_nat (Z.max 0 (Z.min (ceil_pos (length xs)) (Z.of_nat (length xs) - 1)))) xs (inverse_cdf_fn ceil_pos xs).
Proof.
  unfold inverse_cdf_fn, inverse_cdf_result. destruct (find (nan o) xs) as [v|] eqn:F; [split; [apply find_in, F|left; exact F]|].
  destruct xs as [|x t] eqn:E; [reflexivity|]. rewrite <- E in *. apply select_kth; [exact F|].
  assert (0 < length xs) by (rewrite E; cbn; lia). lia.
Qed.
Lemma inverse_cdf_computes ceil_pos init :
  computes (inverse_cdf_acc o nth_el oob ceil_pos init) (addn_default push1) required1 (by_kind Aggregator (inverse_cdf_fn ceil_pos)).
Proof.
  apply (plain_computes Aggregator [false] init _ _ _ _ (addn_default push1) _ (inverse_cdf_fn ceil_pos) eq); try discriminate; try (intros; subst; auto; fail).
  - exact dec_required1.
  - intros rs xs E. apply rows_required1 in E. subst rs. rewrite fold_map, push_fold. reflexivity.
Qed.
End Sel.
End Ord.

(** ** String join. *)
Lemma join_fold sep xs : forall b s, fold_left (fun s x => join_add sep [Some x] s) xs (b, s) =
  match join_spec sep xs with None => (b, s) | Some j => (true, if b then s ++ sep ++ j else s ++ j) end.
Proof.
  induction xs as [|x t IH]; intros b s; [reflexivity|]. cbn [fold_left join_add join_spec fst snd].
  destruct b; rewrite IH; destruct (join_spec sep t); rewrite <- ?app_assoc; reflexivity.
Qed.
Lemma join_computes sep : computes (join_acc sep) (addn_default (join_add sep)) required1 (by_kind Aggregator (join_spec sep)).
Proof.
  apply (plain_computes Aggregator [false] _ _ _ _ _ (addn_default (join_add sep)) _ (join_spec sep) eq); try discriminate; try (intros; subst; auto; fail).
  - exact dec_required1.
  - intros rs xs E. apply rows_required1 in E. subst rs. rewrite fold_map, join_fold. destruct (join_spec sep xs); reflexivity.
Qed.

(** ** The orders. *)
Lemma int_ord_ok : ord_ok int_ord.
Proof.
  split; [|split; [|split]].
  - intros a b. cbn. split; [discriminate|intros [H|H]; discriminate].
  - intros a _. cbn. rewrite Z.compare_refl. reflexivity.
  - intros a b c H. cbn in *. injection H as <-. rewrite Z.compare_antisym. reflexivity.
  - intros a b c. unfold o_le. cbn. destruct (Z.compare_spec a b), (Z.compare_spec b c), (Z.compare_spec a c); try congruence; lia.
Qed.
Lemma fp_ord_ok w inf : ord_ok (fp_ord w inf).
Proof.
  split; [|split; [|split]].
  - intros a b. cbn. destruct (fp_nan w inf a), (fp_nan w inf b); cbn; split; auto; try discriminate; intros [H|H]; discriminate.
  - intros a H. cbn in *. rewrite H. cbn. rewrite Z.compare_refl. reflexivity.
  - intros a b c H. cbn in *. rewrite orb_comm. destruct (fp_nan w inf a || fp_nan w inf b); [discriminate|]. injection H as <-. rewrite Z.compare_antisym. reflexivity.
  - intros a b c. unfold o_le. cbn. destruct (fp_nan w inf a), (fp_nan w inf b), (fp_nan w inf c); cbn; try congruence.
    destruct (Z.compare_spec (fp_key w a) (fp_key w b)), (Z.compare_spec (fp_key w b) (fp_key w c)), (Z.compare_spec (fp_key w a) (fp_key w c)); try congruence; lia.
Qed.
Lemma bytes_cmp_refl a : bytes_cmp a a = Eq.
Proof. induction a as [|x a IH]; [reflexivity|]. cbn. rewrite N.compare_refl. exact IH. Qed.
Lemma bytes_cmp_opp a : forall b, bytes_cmp b a = CompOpp (bytes_cmp a b).
Proof.
  induction a as [|x a IH]; intros [|y b]; try reflexivity. cbn. rewrite N.compare_antisym. destruct (x ?= y)%N; cbn; auto.
Qed.
Lemma bytes_cmp_eq a : forall b, bytes_cmp a b = Eq -> a = b.
Proof.
  induction a as [|x a IH]; intros [|y b]; try discriminate; [reflexivity|]. cbn. destruct (N.compare_spec x y); try discriminate.
  intros E. rewrite (IH _ E). congruence.
Qed.
Lemma bytes_cmp_trans a : forall b c, bytes_cmp a b = Lt -> bytes_cmp b c = Lt -> bytes_cmp a c = Lt.
Proof.
  induction a as [|x a IH]; intros [|y b] [|z c]; cbn; try congruence.
  destruct (N.compare_spec x y), (N.compare_spec y z), (N.compare_spec x z); try congruence; try lia. apply IH.
Qed.
Lemma bytes_ord_ok : ord_ok bytes_ord.
Proof.
  split; [|split; [|split]].
  - intros a b. cbn. split; [discriminate|intros [H|H]; discriminate].
  - intros a _. cbn. rewrite bytes_cmp_refl. reflexivity.
  - intros a b c H. cbn in *. injection H as <-. rewrite bytes_cmp_opp. reflexivity.
  - intros a b c. unfold o_le. cbn. destruct (bytes_cmp a b) eqn:E1; try congruence; destruct (bytes_cmp b c) eqn:E2; try congruence; intros _ _.
    + apply bytes_cmp_eq in E1, E2. subst. rewrite bytes_cmp_refl. reflexivity.
    + apply bytes_cmp_eq in E1. subst. rewrite E2. reflexivity.
    + apply bytes_cmp_eq in E2. subst. rewrite E1. reflexivity.
    + rewrite (bytes_cmp_trans _ _ _ E1 E2). reflexivity.
Qed.

(** ** Any arithmetic, from left to right. *)
Section AnyArith.
Context {V A : Type}.
Variable ar : arith V A.
Lemma sum_any_fold xs : forall b a, fold_left (fun s x => sum_add ar [Some x] s) xs (b, a) =
  (b || negb (length xs =? 0), fold_left (fun a v => r_add ar a (r_wide ar v)) xs a).
Proof.
  induction xs as [|x t IH]; intros b a; [destruct b; reflexivity|]. cbn [fold_left sum_add snd]. rewrite IH. cbn [length Nat.eqb negb].
  destruct b; reflexivity.
Qed.
Lemma sum_any_computes k initial i : k <> Full ->
  computes (sum_acc ar k initial i) (addn_default (sum_add ar)) required1 (by_kind k (left_sum ar initial)).
Proof.
  intros Hk. apply (plain_computes k [false] i _ _ _ _ (addn_default (sum_add ar)) _ (left_sum ar initial) eq); try assumption; try (intros; subst; auto; fail).
  - exact dec_required1.
  - intros rs xs E. apply rows_required1 in E. subst rs. rewrite fold_map. unfold left_sum.
    destruct initial as [v|]; rewrite sum_any_fold; destruct xs; reflexivity.
Qed.
Lemma prod_any_computes k i : k <> Full -> computes (prod_acc ar k i) (prod_addn ar) required1 (by_kind k (left_prod ar)).
Proof.
  intros Hk. apply (plain_computes k [false] i _ _ _ _ (prod_addn ar) _ (left_prod ar) eq); try assumption; try (intros; subst; auto; fail).
  - exact dec_required1.
  - intros rs xs E. apply rows_required1 in E. subst rs. rewrite fold_map. unfold left_prod. cbn [option_map].
    destruct xs as [|x xs]; [reflexivity|]. cbn [fold_left functor_add].
    assert (G : forall l a, fold_left (fun s x => functor_add (r_mul ar) (r_wide ar) [Some x] s) l (Some a) = Some (fold_left (fun a v => r_mul ar a (r_wide ar v)) l a)).
    { clear. induction l as [|y t IH]; intros a; [reflexivity|]. cbn [fold_left functor_add]. apply IH. }
    rewrite G. reflexivity.
Qed.
End AnyArith.
