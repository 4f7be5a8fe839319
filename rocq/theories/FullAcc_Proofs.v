From Coq Require Import Permutation.
From Verif Require Import Base Dense_Model Dense_Spec DenseOps_Spec GroupOps_Model GroupOps_Spec GroupOps_Proofs ArrGroup_Spec
  Accum_Model Accum_Spec Accum_Lift Accum_Proofs Accum_Sort FullAcc_Model FullAcc_Spec.

Lemma dec_required2 {C} : forall r : list (option C), length r = length [false; false] -> row_defined [false; false] r = is_some (required2 r).
Proof. intros [|x [|y [|z t]]] H; try discriminate. destruct x, y; reflexivity. Qed.
Lemma dec_optional2 {C} : forall r : list (option C), length r = length [true; true] -> row_defined [true; true] r = is_some (optional2 r).
Proof. intros [|x [|y [|z t]]] H; try discriminate. reflexivity. Qed.
Lemma rows_required2 {C} (rs : list (list (option C))) xs : map required2 rs = map Some xs -> rs = map (fun x => [Some (fst x); Some (snd x)]) xs.
Proof.
  revert xs. induction rs as [|r t IH]; intros [|x xs] H; try discriminate; [reflexivity|]. injection H as H1 H2. cbn [map].
  rewrite <- (IH _ H2). destruct r as [|y [|z [|u t']]]; try discriminate; destruct y; try discriminate; destruct z; try discriminate.
  cbn in H1. injection H1 as <-. reflexivity.
Qed.
Lemma rows_optional2 {C} (rs : list (list (option C))) xs : map optional2 rs = map Some xs -> rs = map (fun x => [fst x; snd x]) xs.
Proof.
  revert xs. induction rs as [|r t IH]; intros [|x xs] H; try discriminate; [reflexivity|]. injection H as H1 H2. cbn [map].
  rewrite <- (IH _ H2). destruct r as [|y [|z [|u t']]]; try discriminate. injection H1 as <-. reflexivity.
Qed.

(** ** Any accumulator with one result per row of the group. *)
Section FullLift.
Context {S C R Err X : Type}.
Variables (acc : accum S C C R Err) (dec : list (option C) -> option X) (G : list X -> option (list (option R))).
Hypothesis Hk : a_kind acc = Full.
(** After FinalizeFullGroup: what the next i-th GetResult gives. *)
Variable out : S -> nat -> option R.
Hypothesis Hres : forall s, fst (a_result acc s) = out s 0 /\
  (forall i, out (snd (a_result acc s)) i = out s (Datatypes.S i)) /\ a_status acc (snd (a_result acc s)) = a_status acc s.
Lemma draw_out n : forall s, fst (draw_run acc s n) = map (out s) (seq 0 n) /\ a_status acc (snd (draw_run acc s n)) = a_status acc s.
Proof.
  induction n as [|n IH]; intros s; [split; reflexivity|]. cbn [draw_run]. pose proof (Hres s) as (H1 & H3 & H4).
  destruct (a_result acc s) as [x s1]. cbn [fst snd] in *. specialize (IH s1). destruct (draw_run acc s1 n) as [xs s2]. cbn [fst snd] in *.
  destruct IH as [I1 I2]. split; [|congruence]. rewrite I1. cbn [seq map]. f_equal; [exact H1|]. rewrite <- seq_shift, map_map. apply map_ext. exact H3.
Qed.
Lemma full_runs : (forall rs xs, map dec rs = map Some xs ->
    let s := a_finalize acc (fold_left (addr_ acc) rs (a_reset acc [] (a_empty acc))) in
    match G xs with None => a_status acc s <> None
                  | Some want => a_status acc s = None /\ length want = length xs /\ (forall i, i < length xs -> nth i want None = out s i) end) ->
  runs acc dec G.
Proof.
  intros H rs xs E. specialize (H rs xs E). cbv zeta in H. unfold run_group. rewrite Hk.
  destruct (draw_run acc _ (length rs)) as [o s2] eqn:Ed.
  pose proof (draw_out (length rs) (a_finalize acc (fold_left (addr_ acc) rs (a_reset acc [] (a_empty acc))))) as [D1 D2].
  rewrite Ed in D1, D2. cbn [fst snd] in D1, D2. destruct (G xs) as [want|]; [|congruence].
  destruct H as (H1 & H3 & H4). split; [congruence|]. rewrite D1.
  assert (L : length rs = length xs) by (apply (f_equal (@length _)) in E; rewrite !map_length in E; exact E). rewrite L.
  apply nth_ext with (d := None) (d' := None); [rewrite map_length, seq_length; auto|]. intros i Hi. rewrite map_length, seq_length in Hi.
  rewrite nth_indep with (d' := out (a_finalize acc (fold_left (addr_ acc) rs (a_reset acc [] (a_empty acc)))) 0) by (rewrite map_length, seq_length; exact Hi).
  rewrite map_nth, seq_nth by exact Hi. cbn [Nat.add]. symmetry. apply H4, Hi.
Qed.
End FullLift.

(** Without errors. *)
Section FullPlain.
Context {S C R X : Type}.
Variables (copts : list bool) (empty : S) (reset : S -> S) (add : list (option C) -> S -> S)
  (finalize : S -> S) (result : S -> option R * S).
Let acc := plain Full copts empty reset add finalize result.
Variables (dec : list (option C) -> option X) (f : list X -> list R).
Variables (out : S -> nat -> option R) (sim fin : S -> S -> Prop).
Lemma full_computes :
  (forall r : list (option C), length r = length copts -> row_defined copts r = is_some (dec r)) ->
  (forall s, fst (result s) = out s 0 /\ (forall i, out (snd (result s)) i = out s (Datatypes.S i))) ->
  (forall s s', sim (reset s) (reset s')) -> (forall r s s', sim s s' -> sim (add r s) (add r s')) ->
  (forall s s', sim s s' -> fin (finalize s) (finalize s')) ->
  (forall s s', fin s s' -> fin (snd (result s)) (snd (result s')) /\ fst (result s) = fst (result s')) ->
  (forall rs xs, map dec rs = map Some xs ->
    let s := finalize (fold_left (fun s r => add r s) rs (reset empty)) in
    length (f xs) = length xs /\ (forall i x, nth_error (f xs) i = Some x -> out s i = Some x)) ->
  computes acc (addn_default add) dec (fun xs => Some (map Some (f xs))).
Proof.
  intros Hd Hr H1 H2 H3 H4 H5. apply lift; auto; try reflexivity.
  - apply (full_runs acc dec _ eq_refl out).
    + intros s. destruct (Hr s) as (A & B). auto.
    + intros rs xs E. specialize (H5 rs xs E). cbv zeta in *. destruct H5 as (B & D). split; [reflexivity|].
      rewrite map_length. split; [exact B|]. intros i Hi. destruct (nth_error (f xs) i) as [x|] eqn:E1.
      * rewrite (nth_error_nth (map Some (f xs)) i None (x := Some x)) by (rewrite nth_error_map, E1; reflexivity). symmetry. apply D, E1.
      * apply nth_error_None in E1. lia.
  - split; [intros s H; exfalso; apply H; reflexivity|]. exists sim, fin. unfold alike, same_result, alike, ok.
    cbn [acc plain a_status a_reset a_add a_result a_kind a_finalize].
    split; [intros; left; auto|]. split; [intros; left; auto|]. split; [congruence|]. split; [intros; left; auto|].
    intros _ s s' _ _ Hs. destruct (H4 _ _ Hs). auto.
  - intros _ n r s _ _. reflexivity.
Qed.
End FullPlain.

(** ** Writing ranks. *)
Fixpoint assign {A} (ps : list (nat * A)) (l : list A) : option (list A) :=
  match ps with [] => Some l | (p, x) :: t => let? l' := upd l p x in assign t l' end.
Lemma resize_length {A} n (x : A) l : length (resize n x l) = n.
Proof. unfold resize. rewrite app_length, firstn_length, repeat_length. lia. Qed.
Lemma assign_spec {A} (ps : list (nat * A)) : forall l, NoDup (map fst ps) -> (forall p, In p (map fst ps) -> p < length l) ->
  exists l', assign ps l = Some l' /\ length l' = length l /\ (forall p x, In (p, x) ps -> rd l' p = Some x) /\
    (forall p, ~ In p (map fst ps) -> rd l' p = rd l p).
Proof.
  induction ps as [|[p x] t IH]; intros l N H; [exists l; repeat split; contradiction|]. cbn [assign map fst] in *. inversion N as [|? ? N1 N2]; subst.
  destruct (upd_lt l p x) as (l1 & E1); [apply H; left; reflexivity|]. rewrite E1. cbn [bind]. destruct (upd_spec _ _ _ _ E1) as (_ & L1 & R1).
  destruct (IH l1 N2) as (l2 & E2 & L2 & R2 & O2); [intros q Hq; rewrite L1; apply H; right; exact Hq|].
  exists l2. split; [exact E2|]. split; [congruence|]. split.
  - intros q y [E|Hq]; [|apply R2, Hq]. injection E as <- <-. rewrite O2, R1, Nat.eqb_refl by exact N1. reflexivity.
  - intros q Hq. rewrite O2, R1 by (intros A1; apply Hq; right; exact A1). destruct (Nat.eqb_spec q p); [|reflexivity]. exfalso. apply Hq. left. auto.
Qed.
(** All positions are written: what was there before does not matter. *)
Lemma assign_all {A} (ps : list (nat * A)) n : Permutation (map fst ps) (seq 0 n) -> forall l, length l = n ->
  exists l', assign ps l = Some l' /\ length l' = n /\ (forall p x, In (p, x) ps -> rd l' p = Some x) /\
    (forall m, length m = n -> assign ps m = Some l').
Proof.
  intros P l L. assert (N : NoDup (map fst ps)) by (apply (Permutation_NoDup (Permutation_sym P)), seq_NoDup).
  assert (I : forall p, In p (map fst ps) <-> p < n).
  { intros p. split; intros H; [apply (Permutation_in _ P), in_seq in H; lia|apply (Permutation_in _ (Permutation_sym P)), in_seq; lia]. }
  destruct (assign_spec ps l N) as (l' & E & L' & R & O); [intros p Hp; apply I in Hp; lia|].
  exists l'. split; [exact E|]. split; [lia|]. split; [exact R|]. intros m Lm.
  destruct (assign_spec ps m N) as (m' & E' & Lm' & R' & O'); [intros p Hp; apply I in Hp; lia|]. rewrite E'. f_equal.
  apply list_eq_rd. intros i. destruct (in_dec Nat.eq_dec i (map fst ps)) as [Hi|Hi].
  - apply in_map_iff in Hi. destruct Hi as ([q x] & <- & Hq). cbn [fst]. rewrite (R _ _ Hq), (R' _ _ Hq). reflexivity.
  - assert (~ i < n) by (intros A1; apply Hi, I, A1). rewrite (proj2 (rd_None_ge l' i)), (proj2 (rd_None_ge m' i)) by lia. reflexivity.
Qed.

(** ** Elements numbered by position. *)
Definition numbered {X E} (f : X -> nat -> E) (xs : list X) : list E := map (fun i => f (fst i) (snd i)) (combine xs (seq 0 (length xs))).
Lemma combine_snoc {A B} (a : list A) (b : list B) x y : length a = length b -> combine (a ++ [x]) (b ++ [y]) = combine a b ++ [(x, y)].
Proof. revert b. induction a as [|u a IH]; intros [|v b] L; cbn in *; try lia; [reflexivity|]. rewrite IH by lia. reflexivity. Qed.
Lemma numbered_snoc {X E} (f : X -> nat -> E) xs x : numbered f (xs ++ [x]) = numbered f xs ++ [f x (length xs)].
Proof.
  unfold numbered. rewrite app_length. cbn [length]. rewrite Nat.add_1_r, seq_S, combine_snoc, map_app by (rewrite seq_length; reflexivity). reflexivity.
Qed.
Lemma numbered_length {X E} (f : X -> nat -> E) xs : length (numbered f xs) = length xs.
Proof. unfold numbered. rewrite map_length, combine_length, seq_length. lia. Qed.
Lemma combine_nth_seq {X} (xs : list X) : forall k i, nth_error (combine xs (seq k (length xs))) i = option_map (fun x => (x, k + i)) (nth_error xs i).
Proof.
  induction xs as [|x t IH]; intros k [|i]; try reflexivity; cbn [combine length seq nth_error option_map].
  - rewrite Nat.add_0_r. reflexivity.
  - rewrite IH. destruct (nth_error t i); [|reflexivity]. cbn. do 2 f_equal. lia.
Qed.
Lemma numbered_nth {X E} (f : X -> nat -> E) xs i : nth_error (numbered f xs) i = option_map (fun x => f x i) (nth_error xs i).
Proof. unfold numbered. rewrite nth_error_map, combine_nth_seq. destruct (nth_error xs i); reflexivity. Qed.
Lemma numbered_in {X E} (f : X -> nat -> E) xs e : In e (numbered f xs) <-> exists i x, nth_error xs i = Some x /\ e = f x i.
Proof.
  split.
  - intros H. apply In_nth_error in H. destruct H as (i & H). rewrite numbered_nth in H. destruct (nth_error xs i) as [x|] eqn:E1; [|discriminate].
    injection H as <-. eauto.
  - intros (i & x & E1 & ->). apply nth_error_In with (n := i). rewrite numbered_nth, E1. reflexivity.
Qed.
Lemma numbered_map {X E F} (f : X -> nat -> E) (g : E -> F) xs : map g (numbered f xs) = numbered (fun x i => g (f x i)) xs.
Proof. unfold numbered. rewrite map_map. reflexivity. Qed.
Lemma numbered_pos {X} (xs : list X) : numbered (fun _ i => i) xs = seq 0 (length xs).
Proof.
  apply list_eq_rd. intros i. unfold rd. rewrite numbered_nth. destruct (nth_error xs i) eqn:E1; cbn [option_map].
  - assert (i < length xs) by (apply nth_error_Some; congruence). symmetry. rewrite nth_error_nth' with (d := 0) by (rewrite seq_length; exact H).
    rewrite seq_nth by exact H. reflexivity.
  - symmetry. apply nth_error_None. rewrite seq_length. apply nth_error_None in E1. exact E1.
Qed.
Lemma fold_numbered {X E St} (f : X -> nat -> E) (get : St -> list E) (add : St -> X -> St) :
  (forall s x, get (add s x) = get s ++ [f x (length (get s))]) -> forall xs s, get s = [] -> get (fold_left add xs s) = numbered f xs.
Proof.
  intros H xs s E0. induction xs as [|x t IH] using rev_ind; [exact E0|]. rewrite fold_left_app. cbn [fold_left]. rewrite H, IH, numbered_snoc, numbered_length. reflexivity.
Qed.

(** In a list ordered by a total strict order, a position is the number of
    elements before. *)
Lemma count_before {E} (lt : E -> E -> bool) a e b : (forall y, In y a -> lt y e = true) -> lt e e = false -> (forall y, In y b -> lt y e = false) ->
  length (filter (fun y => lt y e) (a ++ e :: b)) = length a.
Proof.
  intros Ha He Hb. rewrite filter_app. cbn [filter]. rewrite He, (filter_all _ a Ha), (filter_none _ b Hb), app_nil_r. reflexivity.
Qed.
Lemma ascending_split {E} (lt : E -> E -> bool) a : forall x b, ascending lt (a ++ x :: b) ->
  (forall y, In y a -> lt x y = false) /\ (forall y, In y b -> lt y x = false).
Proof.
  induction a as [|z a IH]; intros x b H; cbn in H; destruct H as [H1 H2]; [split; [intros y []|exact H1]|].
  destruct (IH _ _ H2) as [A B]. split; [|exact B]. intros y [<-|Hy]; [apply H1, in_or_app; right; left; reflexivity|apply A, Hy].
Qed.
Lemma filter_split_perm {E} (p : E -> bool) (l : list E) : Permutation (filter p l ++ filter (fun x => negb (p x)) l) l.
Proof.
  induction l as [|x t IH]; [constructor|]. cbn. destruct (p x); cbn; [constructor; exact IH|]. apply Permutation_sym, Permutation_cons_app, Permutation_sym, IH.
Qed.

(** ** Comparing first by value, in one of the directions, then by [k]. *)
Section Lex.
Context {T E : Type}.
Variables (o : ord T) (better : T -> T -> bool) (v : E -> T) (pos : E -> nat) (k lt : E -> E -> bool).
Hypothesis Hb : direction o better.
Hypothesis k_asym : forall a b, k a b = true -> k b a = false.
Hypothesis k_ntrans : forall a b c, k a b = false -> k b c = false -> k a c = false.
Hypothesis k_total : forall a b, k a b = false -> k b a = false -> pos a = pos b.
Hypothesis Hlt : forall a b, nan o (v a) = false -> nan o (v b) = false ->
  lt a b = better (v a) (v b) || (negb (better (v b) (v a)) && k a b).

Lemma b_asym x y : better x y = true -> better y x = false.
Proof.
  destruct Hb as (_ & I & Tr & _). intros H. destruct (better y x) eqn:E1; [|reflexivity]. pose proof (Tr _ _ _ H E1) as H2. rewrite I in H2. discriminate.
Qed.
Lemma lex_asym a b : nan o (v a) = false -> nan o (v b) = false -> lt a b = true -> lt b a = false.
Proof.
  intros Na Nb. rewrite !Hlt by assumption. intros H. destruct (better (v a) (v b)) eqn:E1; cbn in H |- *.
  - rewrite (b_asym _ _ E1). reflexivity.
  - apply andb_true_iff in H. destruct H as [H1 H2]. apply negb_true_iff in H1. rewrite H1. cbn. apply k_asym, H2.
Qed.
Lemma lex_ntrans a b c : nan o (v a) = false -> nan o (v b) = false -> nan o (v c) = false -> lt a b = false -> lt b c = false -> lt a c = false.
Proof.
  intros Na Nb Nc. rewrite !Hlt by assumption. intros H1 H2. apply orb_false_iff in H1, H2. destruct H1 as [A1 A2], H2 as [B1 B2].
  destruct Hb as (_ & I & Tr & Nt). rewrite (Nt _ _ _ Na Nb Nc A1 B1). cbn.
  destruct (better (v c) (v a)) eqn:E1; [reflexivity|]. cbn.
  destruct (better (v b) (v a)) eqn:E2; cbn in A2.
  - rewrite (Nt _ _ _ Nb Nc Na B1 E1) in E2. discriminate.
  - destruct (better (v c) (v b)) eqn:E3; cbn in B2.
    + rewrite (Nt _ _ _ Nc Na Nb E1 A1) in E3. discriminate.
    + apply (k_ntrans a b c A2 B2).
Qed.
Lemma lex_total a b : nan o (v a) = false -> nan o (v b) = false -> pos a <> pos b -> lt a b = false -> lt b a = true.
Proof.
  intros Na Nb Hp. rewrite !Hlt by assumption. intros H. apply orb_false_iff in H. destruct H as [H1 H2]. rewrite H1.
  destruct (better (v b) (v a)); [reflexivity|]. cbn in *. destruct (k b a) eqn:E1; [reflexivity|]. exfalso. apply Hp, k_total; assumption.
Qed.
Lemma lex_irrefl a : nan o (v a) = false -> lt a a = false.
Proof. intros N. destruct (lt a a) eqn:E1; [|reflexivity]. rewrite (lex_asym a a N N E1) in E1. discriminate. Qed.

(** What std::sort does with it. *)
Lemma lex_sort sort l : std_sort sort -> (forall e, In e l -> nan o (v e) = false) ->
  Permutation (sort lt l) l /\ ascending lt (sort lt l).
Proof.
  intros Hs N. apply Hs; intros; [apply lex_asym; auto|]. eapply lex_ntrans; [| | |eassumption|eassumption]; auto.
Qed.
Lemma lex_split l a e b : l = a ++ e :: b -> ascending lt l -> NoDup (map pos l) -> (forall x, In x l -> nan o (v x) = false) ->
  (forall y, In y a -> lt y e = true) /\ (forall y, In y b -> lt y e = false).
Proof.
  intros -> As Nd N. destruct (ascending_split _ _ _ _ As) as [A B]. split; [|exact B]. intros y Hy.
  apply lex_total; [apply N, in_or_app; right; left; reflexivity|apply N, in_or_app; left; exact Hy| |apply A, Hy].
  rewrite map_app in Nd. cbn [map] in Nd. apply NoDup_remove_2 in Nd. intros Ep. apply Nd. rewrite Ep. apply in_or_app. left. apply in_map, Hy.
Qed.
End Lex.

Lemma o_eq_better {T} (o : ord T) (Ho : ord_ok o) a b : nan o a = false -> nan o b = false -> o_eq o a b = negb (o_lt o a b) && negb (o_lt o b a).
Proof.
  intros Na Nb. destruct (not_nan_cmp o Ho a b Na Nb) as (c & E). unfold o_eq, o_lt. rewrite (cmp_opp o Ho _ _ _ E), E. destruct c; reflexivity.
Qed.
Definition dir {T} (o : ord T) (descending : bool) : T -> T -> bool := if descending then fun a b => o_lt o b a else o_lt o.
Lemma direction_dir {T} (o : ord T) d : ord_ok o -> direction o (dir o d).
Proof. intros Ho. destruct d; [apply direction_gt, Ho|apply direction_lt, Ho]. Qed.
Lemma o_eq_dir {T} (o : ord T) d (Ho : ord_ok o) a b : nan o a = false -> nan o b = false -> o_eq o a b = negb (dir o d a b) && negb (dir o d b a).
Proof. intros Na Nb. rewrite (o_eq_better o Ho) by assumption. destruct d; cbn; [apply andb_comm|reflexivity]. Qed.

Lemma nodup_app_l {A} (a b : list A) : NoDup (a ++ b) -> NoDup a.
Proof. induction b as [|x b IH]; [rewrite app_nil_r; auto|]. intros H. apply IH. apply NoDup_remove_1 in H. exact H. Qed.

(** ** Ordinal rank. *)
Section Ordinal.
Context {C T : Type}.
Variables (o : ord T) (val : C -> T) (tie : C -> Z).
Variable sort : (elem T -> elem T -> bool) -> list (elem T) -> list (elem T).
Variables (descending : bool) (oob : Z) (ub : rank_st (elem T)).
Hypothesis Ho : ord_ok o.
Hypothesis Hsort : std_sort sort.
Let better := dir o descending.
Let lt := if descending then desc_lt o else asc_lt o.
Let k (a b : elem T) := (el_tie a <? el_tie b)%Z || ((el_tie a =? el_tie b)%Z && (el_pos a <? el_pos b)).
Lemma ord_lt a b : nan o (el_val a) = false -> nan o (el_val b) = false ->
  lt a b = better (el_val a) (el_val b) || (negb (better (el_val b) (el_val a)) && k a b).
Proof.
  intros Na Nb. destruct (not_nan_cmp o Ho _ _ Na Nb) as (c & E). unfold lt, better, dir, asc_lt, desc_lt, o_lt, k.
  destruct descending; rewrite (cmp_opp o Ho _ _ _ E), E; destruct c; cbn; try reflexivity.
  - destruct (Z.compare_spec (el_tie b) (el_tie a)); lia.
  - destruct (Z.compare_spec (el_tie a) (el_tie b)); lia.
Qed.
Lemma ok_asym a b : k a b = true -> k b a = false. Proof. unfold k. lia. Qed.
Lemma ok_ntrans a b c : k a b = false -> k b c = false -> k a c = false. Proof. unfold k. lia. Qed.
Lemma ok_total a b : k a b = false -> k b a = false -> el_pos a = el_pos b. Proof. unfold k. lia. Qed.

Definition el (x : C * C) (i : nat) : elem T := mkEl (val (fst x)) (tie (snd x)) i.
Definition keys (xs : list (C * C)) : list (T * Z) := map (fun x => (val (fst x), tie (snd x))) xs.
Definition order (xs : list (C * C)) : list (elem T) :=
  sort lt (filter (fun e => negb (nan o (el_val e))) (numbered el xs)) ++ filter (fun e => nan o (el_val e)) (numbered el xs).
Lemma order_perm xs : Permutation (order xs) (numbered el xs).
Proof.
  unfold order. destruct (lex_sort o better el_val k lt (direction_dir o descending Ho) ok_asym ok_ntrans ord_lt sort
    (filter (fun e => negb (nan o (el_val e))) (numbered el xs)) Hsort) as [P _]; [intros e He; apply filter_In in He; destruct (nan o (el_val e)); [destruct He; discriminate|reflexivity]|].
  apply (perm_trans (Permutation_app_tail _ P)).
  pose proof (filter_split_perm (fun e => negb (nan o (el_val e))) (numbered el xs)) as Q.
  rewrite (filter_ext (fun x => negb (negb (nan o (el_val x)))) (fun e => nan o (el_val e))) in Q by (intros; apply negb_involutive). exact Q.
Qed.
Lemma order_pos xs : Permutation (map el_pos (order xs)) (seq 0 (length xs)).
Proof. rewrite <- numbered_pos. change (fun (_ : C * C) (i : nat) => i) with (fun (x : C * C) i => el_pos (el x i)). rewrite <- numbered_map. apply Permutation_map, order_perm. Qed.

(** Of two elements, the one that comes first. *)
Definition bef (a b : elem T) : bool :=
  if nan o (el_val b) then negb (nan o (el_val a)) || (el_pos a <? el_pos b)
  else negb (nan o (el_val a)) && (better (el_val a) (el_val b) || (o_eq o (el_val a) (el_val b) && k a b)).
Lemma bef_lt a b : nan o (el_val a) = false -> nan o (el_val b) = false -> bef a b = lt a b.
Proof.
  intros Na Nb. unfold bef. rewrite Na, Nb, ord_lt, (o_eq_dir o descending Ho) by assumption. fold better. cbn.
  destruct (better (el_val a) (el_val b)); [reflexivity|]. cbn. reflexivity.
Qed.
Lemma filter_numbered_asc (p : elem T -> bool) xs : forall a e b, filter p (numbered el xs) = a ++ e :: b ->
  (forall y, In y a -> el_pos y < el_pos e) /\ (forall y, In y b -> el_pos e < el_pos y).
Proof.
  induction xs as [|x t IH] using rev_ind; intros a e b H; [destruct a; discriminate|]. rewrite numbered_snoc, filter_app in H. cbn [filter] in H.
  destruct (p (el x (length t))); [|rewrite app_nil_r in H; apply IH, H].
  assert (Lt : forall y, In y (filter p (numbered el t)) -> el_pos y < length t).
  { intros y Hy. apply filter_In in Hy. destruct Hy as [Hy _]. apply numbered_in in Hy. destruct Hy as (i & z & E1 & ->). apply nth_error_Some. cbn. congruence. }
  destruct (exists_last (l := e :: b)) as (b' & z & Eb); [discriminate|]. rewrite Eb, app_assoc in H. apply app_inj_tail in H. destruct H as [H Ez].
  destruct b' as [|e' b'].
  - injection Eb as -> ->. rewrite app_nil_r in H. split; [|intros y []]. intros y Hy. rewrite <- Ez. cbn. apply Lt. rewrite H. exact Hy.
  - injection Eb as <- ->. destruct (IH _ _ _ H) as [A B]. split; [exact A|]. intros y Hy. apply in_app_or in Hy. destruct Hy as [Hy|[<-|[]]]; [apply B, Hy|].
    rewrite <- Ez. cbn. apply Lt. rewrite H. apply in_or_app. right. left. reflexivity.
Qed.
Lemma app_split {A} (p q a b : list A) e : p ++ q = a ++ e :: b ->
  (exists b', p = a ++ e :: b' /\ b = b' ++ q) \/ (exists a', q = a' ++ e :: b /\ a = p ++ a').
Proof.
  revert a. induction p as [|x p IH]; intros a H; [right; exists a; auto|]. destruct a as [|y a]; cbn in H; injection H as -> H.
  - left. exists p. auto.
  - destruct (IH _ H) as [(b' & -> & ->)|(a' & -> & ->)]; [left; exists b'; auto|right; exists a'; auto].
Qed.
Lemma order_split xs a e b : order xs = a ++ e :: b -> length (filter (fun y => bef y e) (numbered el xs)) = length a.
Proof.
  intros H. rewrite <- (filter_perm _ _ _ (order_perm xs)), H.
  pose proof (order_pos xs) as Pp. apply Permutation_sym in Pp. pose proof (Permutation_NoDup Pp (seq_NoDup _ _)) as Nd. clear Pp.
  destruct (lex_sort o better el_val k lt (direction_dir o descending Ho) ok_asym ok_ntrans ord_lt sort
    (filter (fun e => negb (nan o (el_val e))) (numbered el xs)) Hsort) as [P As]; [intros y He; apply filter_In in He; destruct (nan o (el_val y)); [destruct He; discriminate|reflexivity]|].
  unfold order in H, Nd. set (s1 := sort lt _) in *. set (s2 := filter (fun e => nan o (el_val e)) _) in *.
  assert (N1 : forall y, In y s1 -> nan o (el_val y) = false).
  { intros y Hy. apply (Permutation_in _ P), filter_In in Hy. destruct (nan o (el_val y)); [destruct Hy; discriminate|reflexivity]. }
  assert (N2 : forall y, In y s2 -> nan o (el_val y) = true) by (intros y Hy; apply filter_In in Hy; tauto).
  apply app_split in H. destruct H as [(b' & E1 & ->)|(a' & E2 & ->)].
  - assert (Ne : nan o (el_val e) = false) by (apply N1; rewrite E1; apply in_or_app; right; left; reflexivity).
    rewrite map_app in Nd. apply nodup_app_l in Nd.
    destruct (lex_split o better el_val el_pos k lt (ok_total) ord_lt s1 a e b' E1 As Nd N1) as [A B].
    apply (count_before bef a e (b' ++ s2)).
    + intros y Hy. rewrite bef_lt; [apply A, Hy| |exact Ne]. apply N1. rewrite E1. apply in_or_app. left. exact Hy.
    + rewrite bef_lt by assumption. apply (lex_irrefl o better el_val k lt (direction_dir o descending Ho) ok_asym ord_lt). exact Ne.
    + intros y Hy. apply in_app_or in Hy. destruct Hy as [Hy|Hy].
      * rewrite bef_lt; [apply B, Hy| |exact Ne]. apply N1. rewrite E1. apply in_or_app. right. right. exact Hy.
      * unfold bef. rewrite Ne, (N2 y Hy). reflexivity.
  - assert (Ne : nan o (el_val e) = true) by (apply N2; rewrite E2; apply in_or_app; right; left; reflexivity).
    destruct (filter_numbered_asc _ _ _ _ _ E2) as [A B].
    apply (count_before bef (s1 ++ a') e b).
    + intros y Hy. unfold bef. rewrite Ne. apply in_app_or in Hy. destruct Hy as [Hy|Hy]; [rewrite (N1 y Hy); reflexivity|].
      apply A in Hy. apply orb_true_iff. right. apply Nat.ltb_lt. exact Hy.
    + unfold bef. rewrite Ne. cbn. apply Nat.ltb_irrefl.
    + intros y Hy. unfold bef. rewrite Ne. assert (nan o (el_val y) = true) by (apply N2; rewrite E2; apply in_or_app; right; right; exact Hy).
      rewrite H. cbn. apply B in Hy. apply Nat.ltb_ge. lia.
Qed.
Lemma bef_before xs i x : nth_error xs i = Some x ->
  length (filter (fun y => bef y (el x i)) (numbered el xs)) = length (filter (fun j => comes_before o better (keys xs) j i) (seq 0 (length xs))).
Proof.
  intros Ex. transitivity (length (map el_pos (filter (fun y => bef y (el x i)) (numbered el xs)))); [rewrite map_length; reflexivity|]. f_equal.
  assert (G : forall ys, (forall j y, nth_error ys j = Some y -> nth_error xs j = Some y) ->
    map el_pos (filter (fun y => bef y (el x i)) (numbered el ys)) = filter (fun j => comes_before o better (keys xs) j i) (seq 0 (length ys))).
  { induction ys as [|y ys IH] using rev_ind; intros Hy; [reflexivity|]. rewrite numbered_snoc, filter_app, map_app, app_length. cbn [length]. rewrite Nat.add_1_r, seq_S, filter_app.
    rewrite IH. 2: { intros j z Hz. apply Hy. rewrite nth_error_app1; [exact Hz|]. apply nth_error_Some. congruence. }
    f_equal. cbn [filter Nat.add].
    assert (E1 : bef (el y (length ys)) (el x i) = comes_before o better (keys xs) (length ys) i).
    { unfold comes_before, keys. rewrite !nth_error_map, Ex, (Hy (length ys) y) by (rewrite nth_error_app2, Nat.sub_diag by lia; reflexivity). reflexivity. }
    rewrite E1. destruct (comes_before o better (keys xs) (length ys) i); reflexivity. }
  apply G. auto.
Qed.

Lemma ordinal_assign (es : list (elem T)) : forall c l, ordinal_ranks es c l = assign (map (fun i => (el_pos (fst i), (c + Z.of_nat (snd i))%Z)) (combine es (seq 0 (length es)))) l.
Proof.
  induction es as [|e t IH]; intros c l; [reflexivity|]. cbn [ordinal_ranks length seq combine map assign fst snd]. rewrite Z.add_0_r.
  destruct (upd l (el_pos e) c) as [l1|]; [|reflexivity]. cbn [bind]. rewrite IH. f_equal. rewrite <- seq_shift.
  clear. generalize (seq 0 (length t)). induction t as [|x t IH]; intros [|i q]; try reflexivity. cbn [map combine fst snd]. rewrite IH. f_equal. f_equal. lia.
Qed.
Lemma combine_fst {A B} (a : list A) : forall b : list B, length a = length b -> map fst (combine a b) = a.
Proof. induction a as [|x a IH]; intros [|y b] L; cbn in *; try lia; [reflexivity|]. rewrite IH by lia. reflexivity. Qed.
Definition invr (s : rank_st (elem T)) (xs : list (C * C)) : Prop := rk_elems s = numbered el xs.
Lemma ordinal_final s xs : invr s xs -> let t := ordinal_finalize o sort descending ub s in
  rk_ret t = rk_ret s /\ rk_elems t = order xs /\ rk_ranks t = ordinal_rank o better (keys xs).
Proof.
  intros I. unfold invr in I. unfold ordinal_finalize. cbv zeta. rewrite !I. change (if descending then desc_lt o else asc_lt o) with lt. fold (order xs).
  rewrite ordinal_assign. cbn [Z.add].
  destruct (assign_all (map (fun i => (el_pos (fst i), Z.of_nat (snd i))) (combine (order xs) (seq 0 (length (order xs))))) (length xs)) with (l := resize (length (numbered el xs)) 0%Z (rk_ranks s))
    as (l & El & Ll & Rl & _).
  - rewrite map_map. cbn [fst]. rewrite <- (map_map fst el_pos), combine_fst by (rewrite seq_length; reflexivity). apply order_pos.
  - rewrite resize_length, numbered_length. reflexivity.
  - rewrite El. split; [reflexivity|]. split; [reflexivity|]. cbn [rk_ranks].
    assert (Lk : length (ordinal_rank o better (keys xs)) = length xs) by (unfold ordinal_rank, keys; rewrite map_length, seq_length, map_length; reflexivity).
    apply list_eq_rd. intros i. destruct (Nat.lt_ge_cases i (length xs)) as [Hi|Hi].
    + destruct (rd_lt xs i Hi) as (x & Ex). unfold rd in Ex.
      assert (In (el x i) (order xs)) as Hin by (apply (Permutation_in _ (Permutation_sym (order_perm xs))), numbered_in; eauto).
      apply in_split in Hin. destruct Hin as (a & b & Eo).
      rewrite (Rl i (Z.of_nat (length a))).
      2: { apply in_map_iff. exists (el x i, length a). split; [reflexivity|]. apply nth_error_In with (n := length a). rewrite combine_nth_seq.
           rewrite Eo, nth_error_app2, Nat.sub_diag by lia. reflexivity. }
      rewrite <- (order_split xs a (el x i) b Eo), (bef_before xs i x Ex).
      unfold rd, ordinal_rank. rewrite nth_error_map. assert (Kl : length (keys xs) = length xs) by apply map_length. rewrite Kl.
      rewrite nth_error_nth' with (d := 0) by (rewrite seq_length; exact Hi). rewrite seq_nth by exact Hi. cbn [option_map Nat.add]. reflexivity.
    + rewrite (proj2 (rd_None_ge l i)), (proj2 (rd_None_ge (ordinal_rank o better (keys xs)) i)) by lia. reflexivity.
Qed.
Lemma ordinal_computes :
  computes (ordinal_rank_acc o val tie sort descending oob ub) (addn_default (ordinal_add val tie)) required2
    (fun xs => Some (map Some (ordinal_rank o better (keys xs)))).
Proof.
  apply (full_computes _ _ _ _ _ _ _ _ (fun s i => Some (nth (rk_ret s + i) (rk_ranks s) oob))
    (fun s s' => rk_ret s = rk_ret s' /\ rk_elems s = rk_elems s' /\ exists xs, invr s xs)
    (fun s s' => rk_ret s = rk_ret s' /\ rk_ranks s = rk_ranks s')).
  - apply dec_required2.
  - intros s. cbn [rank_result fst snd rk_ret rk_ranks]. split; [rewrite Nat.add_0_r; reflexivity|]. intros i. rewrite Nat.add_succ_r. reflexivity.
  - intros s s'. split; [reflexivity|]. split; [reflexivity|]. exists []. reflexivity.
  - intros r s s' (E1 & E2 & xs & I). unfold ordinal_add.
    destruct r as [|[v|] [|[t|] [|? ?]]]; cbn [rk_ret rk_elems]; try (split; [assumption|]; split; [assumption|]; exists xs; exact I).
    split; [exact E1|]. split; [congruence|]. exists (xs ++ [(v, t)]). unfold invr in *. cbn [rk_elems]. rewrite I, numbered_snoc, numbered_length. reflexivity.
  - intros s s' (E1 & E2 & xs & I). destruct (ordinal_final s xs I) as (A1 & _ & A3). assert (I' : invr s' xs) by (unfold invr in *; congruence).
    destruct (ordinal_final s' xs I') as (B1 & _ & B3). split; congruence.
  - intros s s' (E1 & E2). unfold rank_result. cbn. rewrite E1, E2. auto.
  - intros rs xs E. apply rows_required2 in E. subst rs.
    assert (I : invr (fold_left (fun s r => ordinal_add val tie r s) (map (fun x => [Some (fst x); Some (snd x)]) xs) (mkRank 0 [] [])) xs).
    { unfold invr. rewrite fold_map. apply (fold_numbered el (@rk_elems _)); [|reflexivity]. intros s x. reflexivity. }
    assert (R0 : forall rs s, rk_ret (fold_left (fun s r => ordinal_add val tie r s) rs s) = rk_ret s).
    { clear. induction rs as [|r t IH]; intros s; [reflexivity|]. cbn [fold_left]. rewrite IH. unfold ordinal_add. destruct r as [|[v|] [|[u|] [|? ?]]]; reflexivity. }
    cbn [rk_ranks]. cbv zeta. destruct (ordinal_final _ xs I) as (A1 & _ & A3). 
    split; [unfold ordinal_rank, keys; rewrite map_length, seq_length, map_length; reflexivity|].
    intros i z Hz. rewrite A1, R0, A3. f_equal. apply nth_error_nth. exact Hz.
Qed.
End Ordinal.
