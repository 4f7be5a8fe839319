(** Weighted cumulative distributions and means. *)
From Coq Require Import Permutation.
From Verif Require Import Base Dense_Model Dense_Spec DenseOps_Spec GroupOps_Model GroupOps_Spec GroupOps_Proofs ArrGroup_Spec
  Accum_Model Accum_Spec Accum_Lift Accum_Proofs Accum_Sort FullAcc_Model FullAcc_Spec FullAcc_Proofs.

Section Cdf.
Context {C T W A R : Type}.
Variables (o : ord T) (val : C -> T) (weight : C -> W).
Variables (zero : A) (add : A -> W -> A) (to_ret : A -> R) (div : R -> A -> R) (nan_ret : T -> R).
Variable sort : (T * nat * W -> T * nat * W -> bool) -> list (T * nat * W) -> list (T * nat * W).
Variables (oob zero_ret : R) (ub : cdf_st T W R).
Hypothesis Ho : ord_ok o.
Hypothesis Hsort : std_sort sort.
Let E := (T * nat * W)%type.
Let k (a b : E) := cp a <? cp b.
Lemma tuple_order (a b : E) : nan o (cv a) = false -> nan o (cv b) = false ->
  tuple_lt o a b = o_lt o (cv a) (cv b) || (negb (o_lt o (cv b) (cv a)) && k a b).
Proof.
  intros Na Nb. destruct (not_nan_cmp o Ho _ _ Na Nb) as (c & Ec). unfold tuple_lt, o_lt, k.
  rewrite (cmp_opp o Ho _ _ _ Ec), Ec; destruct c; reflexivity.
Qed.
Lemma ck_asym a b : k a b = true -> k b a = false. Proof. unfold k. lia. Qed.
Lemma ck_ntrans a b c : k a b = false -> k b c = false -> k a c = false. Proof. unfold k. lia. Qed.
Lemma ck_total a b : k a b = false -> k b a = false -> cp a = cp b. Proof. unfold k. lia. Qed.

(** ** The sorted list [vs] of a group without NaN. *)
Section Sorted.
Variable vs : list E.
Hypothesis Hnan : forall e, In e vs -> nan o (cv e) = false.
Hypothesis Hasc : ascending (tuple_lt o) vs.
Hypothesis Hnd : NoDup (map cp vs).
Definition total := sum_weights zero add (map snd vs).
Definition upto (l : list E) : A := sum_weights zero add (map snd l).
Definition fin (e : E) : R := div (to_ret (upto (filter (fun y => o_le o (cv y) (cv e)) vs))) total.
Definition pfx (l : list E) : R := div (to_ret (upto l)) total.

Lemma running_spec (l : list E) : forall run cdf, NoDup (map cp l) -> (forall e, In e l -> cp e < length cdf) ->
  exists cdf', cdf_running add to_ret l run cdf = Some (fold_left add (map snd l) run, cdf') /\ length cdf' = length cdf /\
    (forall a e b, l = a ++ e :: b -> rd cdf' (cp e) = Some (to_ret (fold_left add (map snd (a ++ [e])) run))) /\
    (forall p, ~ In p (map cp l) -> rd cdf' p = rd cdf p).
Proof.
  induction l as [|x t IH]; intros run cdf Nd Rg.
  - exists cdf. split; [reflexivity|]. split; [reflexivity|]. split; [|auto]. intros a e b H; destruct a; discriminate.
  - cbn [cdf_running map fold_left]. destruct (upd_lt cdf (cp x) (to_ret (add run (snd x)))) as (c1 & E1); [apply Rg; left; reflexivity|].
    rewrite E1. cbn [bind]. destruct (upd_spec _ _ _ _ E1) as (_ & L1 & R1). inversion Nd as [|? ? N1 N2]; subst.
    destruct (IH (add run (snd x)) c1 N2) as (c2 & E2 & L2 & R2 & O2); [intros e He; rewrite L1; apply Rg; right; exact He|].
    exists c2. split; [exact E2|]. split; [congruence|]. split.
    + intros [|y a] e b H; cbn [app] in H; injection H as -> H.
      * cbn [map app fold_left]. rewrite O2, R1, Nat.eqb_refl by exact N1. reflexivity.
      * cbn [map app fold_left]. apply (R2 a e b H).
    + intros p Hp. cbn [map] in Hp. rewrite O2, R1 by (intros X; apply Hp; right; exact X). destruct (Nat.eqb_spec p (cp x)); [|reflexivity].
      exfalso. apply Hp. left. auto.
Qed.
Lemma le_of_lt_false (a b : E) : In a vs -> In b vs -> tuple_lt o b a = false -> o_le o (cv a) (cv b) = true.
Proof.
  intros Ha Hb H. rewrite tuple_order in H by auto. apply orb_false_iff in H. destruct H as [H _]. rewrite (le_not_lt o Ho), H by auto. reflexivity.
Qed.
Lemma filter_eq_ext (e e' : E) : In e vs -> In e' vs -> o_eq o (cv e) (cv e') = true -> fin e = fin e'.
Proof.
  intros H1 H2 Eq. unfold fin. do 3 f_equal. apply filter_ext_in. intros y Hy.
  assert (A1 : o_le o (cv e) (cv e') = true) by (unfold o_eq, o_le in *; destruct (cmp o (cv e) (cv e')) as [[]|]; congruence).
  assert (A2 : o_le o (cv e') (cv e) = true).
  { unfold o_eq, o_le in *. destruct (cmp o (cv e) (cv e')) as [c|] eqn:Ec; [|discriminate]. rewrite (cmp_opp o Ho _ _ _ Ec). destruct c; try discriminate. reflexivity. }
  destruct (o_le o (cv y) (cv e)) eqn:B1, (o_le o (cv y) (cv e')) eqn:B2; try reflexivity.
  - rewrite (le_trans o Ho _ _ _ B1 A1) in B2. discriminate.
  - rewrite (le_trans o Ho _ _ _ B2 A2) in B1. discriminate.
Qed.
Lemma fin_pfx a e b : vs = a ++ e :: b -> match b with [] => True | n :: _ => o_eq o (cv e) (cv n) = false end -> fin e = pfx (a ++ [e]).
Proof.
  intros Ev Hb. unfold fin, pfx. do 2 f_equal. f_equal. rewrite Ev at 1. rewrite filter_app. cbn [filter].
  assert (He : In e vs) by (rewrite Ev; apply in_or_app; right; left; reflexivity).
  assert (As : (forall y, In y a -> tuple_lt o e y = false) /\ (forall y, In y b -> tuple_lt o y e = false)).
  { apply ascending_split. rewrite <- Ev. exact Hasc. }
  destruct As as [A1 A2]. rewrite (le_refl o Ho) by (apply Hnan, He). f_equal.
  - apply filter_all. intros y Hy. apply le_of_lt_false; [rewrite Ev; apply in_or_app; left; exact Hy|exact He|apply A1, Hy].
  - f_equal. apply filter_none. intros y Hy.
    assert (Iy : In y vs) by (rewrite Ev; apply in_or_app; right; right; exact Hy).
    destruct b as [|n t]; [destruct Hy|].
    assert (In' : In n vs) by (rewrite Ev; apply in_or_app; right; right; left; reflexivity).
    destruct (o_le o (cv y) (cv e)) eqn:L; [|reflexivity]. exfalso.
    assert (Len : o_le o (cv e) (cv n) = true) by (apply le_of_lt_false; [exact He|exact In'|apply A2; left; reflexivity]).
    assert (Lny : o_le o (cv n) (cv y) = true).
    { destruct Hy as [<-|Hy]; [apply (le_refl o Ho), Hnan, In'|]. apply le_of_lt_false; [exact In'|exact Iy|].
      assert (As' : ascending (tuple_lt o) ((a ++ [e]) ++ n :: t)) by (rewrite <- app_assoc; cbn [app]; rewrite <- Ev; exact Hasc).
      apply ascending_split in As'. apply As', Hy. }
    pose proof (le_trans o Ho _ _ _ Lny L) as Lne. rewrite (o_eq_better o Ho) in Hb by auto. rewrite (le_not_lt o Ho) in Len, Lne by auto.
    destruct (o_lt o (cv n) (cv e)), (o_lt o (cv e) (cv n)); discriminate.
Qed.
Lemma equal_spec (t : list E) : forall prev b cdf, rev t ++ prev :: b = vs -> (forall y, In y (prev :: b) -> rd cdf (cp y) = Some (fin y)) ->
  (forall a e c, rev t = a ++ e :: c -> rd cdf (cp e) = Some (pfx (a ++ [e]))) ->
  exists cdf', cdf_equal o prev t cdf = Some cdf' /\ length cdf' = length cdf /\ forall y, In y vs -> rd cdf' (cp y) = Some (fin y).
Proof.
  induction t as [|e t IH]; intros prev b cdf Ev Hf Hp.
  - exists cdf. split; [reflexivity|]. split; [reflexivity|]. rewrite <- Ev. exact Hf.
  - cbn [rev] in Ev, Hp. assert (Ev2 : rev t ++ e :: prev :: b = vs) by (rewrite <- Ev, <- app_assoc; reflexivity).
    assert (Ie : In e vs) by (rewrite <- Ev2; apply in_or_app; right; left; reflexivity).
    assert (Ip : In prev vs) by (rewrite <- Ev2; apply in_or_app; right; right; left; reflexivity).
    pose proof (Hp (rev t) e [] eq_refl) as Pe.
    assert (Step : exists c1, (if o_eq o (cv e) (cv prev) then let? x := rd cdf (cp prev) in upd cdf (cp e) x else Some cdf) = Some c1 /\
      length c1 = length cdf /\ rd c1 (cp e) = Some (fin e) /\ (forall p, p <> cp e -> rd c1 p = rd cdf p)).
    { destruct (o_eq o (cv e) (cv prev)) eqn:Eq.
      - rewrite (Hf prev) by (left; reflexivity). cbn [bind]. destruct (upd_lt cdf (cp e) (fin prev)) as (c1 & E1); [apply rd_Some_lt in Pe; exact Pe|].
        destruct (upd_spec _ _ _ _ E1) as (_ & L1 & R1). exists c1. split; [exact E1|]. split; [exact L1|].
        split; [rewrite R1, Nat.eqb_refl; f_equal; symmetry; apply filter_eq_ext; assumption|]. intros p Hp1. rewrite R1. destruct (Nat.eqb_spec p (cp e)); [contradiction|reflexivity].
      - exists cdf. split; [reflexivity|]. split; [reflexivity|]. split; [|auto]. rewrite Pe. f_equal. symmetry. apply (fin_pfx (rev t) e (prev :: b)); [auto|exact Eq]. }
    destruct Step as (c1 & E1 & L1 & R1 & O1). cbn [cdf_equal]. rewrite E1. cbn [bind].
    assert (Npos : forall y, In y (rev t ++ prev :: b) -> cp y <> cp e).
    { intros y Hy He. pose proof Hnd as N. rewrite <- Ev2, map_app in N. cbn [map] in N. apply NoDup_remove_2 in N. apply N. rewrite <- He. change (cp prev :: map cp b) with (map cp (prev :: b)). rewrite <- map_app. apply in_map, Hy. }
    destruct (IH e (prev :: b) c1 Ev2) as (c2 & E2 & L2 & R2).
    + intros y [<-|Hy]; [exact R1|]. rewrite O1 by (apply Npos, in_or_app; right; exact Hy). apply Hf, Hy.
    + intros a y c Et. rewrite O1 by (apply Npos, in_or_app; left; rewrite Et; apply in_or_app; right; left; reflexivity).
      apply (Hp a y (c ++ [e])). rewrite Et, <- app_assoc. reflexivity.
    + exists c2. split; [exact E2|]. split; [congruence|exact R2].
Qed.
Lemma sorted_spec cdf : (forall e, In e vs -> cp e < length cdf) ->
  exists cdf', (let? rc := cdf_running add to_ret vs zero cdf in
     let '(tot, cdf1) := rc in
     let cdf2 := map (fun x => div x tot) cdf1 in
     match rev vs with [] => Some cdf2 | last :: t => cdf_equal o last t cdf2 end) = Some cdf' /\
    length cdf' = length cdf /\ forall y, In y vs -> rd cdf' (cp y) = Some (fin y).
Proof.
  intros Rg. destruct (running_spec vs zero cdf Hnd Rg) as (c1 & E1 & L1 & R1 & _). rewrite E1. cbn [bind].
  destruct (rev vs) as [|last t] eqn:Er.
  - exists (map (fun x => div x (fold_left add (map snd vs) zero)) c1). split; [reflexivity|]. split; [rewrite map_length; exact L1|].
    apply (f_equal (@rev _)) in Er. rewrite rev_involutive in Er. rewrite Er. intros y [].
  - assert (Ev : rev t ++ [last] = vs) by (apply (f_equal (@rev _)) in Er; rewrite rev_involutive in Er; exact (eq_sym Er)).
    assert (R2 : forall a e b, vs = a ++ e :: b -> rd (map (fun x => div x (fold_left add (map snd vs) zero)) c1) (cp e) = Some (pfx (a ++ [e]))).
    { intros a e b Es. unfold rd. rewrite nth_error_map. fold (rd c1 (cp e)). rewrite (R1 a e b Es). reflexivity. }
    destruct (equal_spec t last [] (map (fun x => div x (fold_left add (map snd vs) zero)) c1) Ev) as (c2 & E2 & L2 & R3).
    + intros y [<-|[]]. rewrite (R2 (rev t) last []) by auto. f_equal. symmetry. apply (fin_pfx (rev t) last []); auto.
    + intros a e c Et. apply (R2 a e (c ++ [last])). rewrite <- Ev, Et, <- app_assoc. reflexivity.
    + exists c2. split; [exact E2|]. split; [rewrite L2, map_length; exact L1|exact R3].
Qed.
End Sorted.

(** ** One group. *)
Definition item (x : C * C) : T * W := (val (fst x), weight (snd x)).
Definition tri (x : T * W) (i : nat) : E := (fst x, i, snd x).
Definition c_order (ys : list (T * W)) : list E := sort (tuple_lt o) (numbered tri ys).
Definition cdf_fn (ys : list (T * W)) : list R :=
  match find (fun x => nan o (fst x)) ys with
  | Some x => map (fun _ => nan_ret (fst x)) ys
  | None => map (fun x => fin (c_order ys) (tri x 0)) ys
  end.
Lemma find_numbered ys : find (fun e => nan o (cv e)) (numbered tri ys) = None <-> find (fun x => nan o (fst x)) ys = None.
Proof.
  split; intros H.
  - destruct (find (fun x => nan o (fst x)) ys) as [x|] eqn:Ef; [|reflexivity]. apply find_some in Ef. destruct Ef as [E1 E2]. apply In_nth_error in E1. destruct E1 as (i & E1).
    pose proof (List.find_none _ _ H (tri x i)) as N. cbn in N. rewrite N in E2; [discriminate|]. apply numbered_in. eauto.
  - destruct (find (fun e => nan o (cv e)) (numbered tri ys)) as [e|] eqn:Ef; [|reflexivity]. apply find_some in Ef. destruct Ef as [E1 E2]. apply numbered_in in E1. destruct E1 as (i & x & E1 & ->).
    pose proof (List.find_none _ _ H x) as N. cbn in N, E2. rewrite N in E2; [discriminate|]. apply nth_error_In in E1. exact E1.
Qed.
Lemma find_numbered_some ys x : find (fun x => nan o (fst x)) ys = Some x -> exists e, find (fun e => nan o (cv e)) (numbered tri ys) = Some e /\ cv e = fst x.
Proof.
  unfold numbered. generalize 0. induction ys as [|y t IH]; intros n H; [discriminate|]. cbn [find] in H. cbn [length seq combine map find fst snd].
  change (cv (tri y n)) with (fst y). destruct (nan o (fst y)); [injection H as <-; eexists; split; [reflexivity|reflexivity]|]. apply IH, H.
Qed.
Section NoNan.
Variable ys : list (T * W).
Hypothesis Hf : find (fun x => nan o (fst x)) ys = None.
Lemma num_nan e : In e (numbered tri ys) -> nan o (cv e) = false.
Proof. intros H. apply (List.find_none (fun e => nan o (cv e)) (numbered tri ys)); [apply find_numbered, Hf|exact H]. Qed.
Lemma c_sort : Permutation (c_order ys) (numbered tri ys) /\ ascending (tuple_lt o) (c_order ys).
Proof. apply (lex_sort o (o_lt o) cv k (tuple_lt o) (direction_lt o Ho) ck_asym ck_ntrans tuple_order sort); [exact Hsort|apply num_nan]. Qed.
Lemma c_nan e : In e (c_order ys) -> nan o (cv e) = false.
Proof. intros H. apply num_nan, (Permutation_in _ (proj1 c_sort)), H. Qed.
Lemma c_pos : Permutation (map cp (c_order ys)) (seq 0 (length ys)).
Proof.
  rewrite <- numbered_pos. change (fun (_ : T * W) (i : nat) => i) with (fun (x : T * W) (i : nat) => cp (tri x i)). rewrite <- numbered_map. apply Permutation_map, c_sort.
Qed.
Lemma c_nodup : NoDup (map cp (c_order ys)).
Proof. apply (Permutation_NoDup (Permutation_sym c_pos)), seq_NoDup. Qed.
Lemma c_in e : In e (c_order ys) <-> exists i x, nth_error ys i = Some x /\ e = tri x i.
Proof. rewrite <- numbered_in. split; apply Permutation_in; [|apply Permutation_sym]; apply c_sort. Qed.
Lemma weights_order l : (forall e, In e l -> In e (c_order ys)) -> weights_at ys (map cp l) = map snd l.
Proof.
  induction l as [|e t IH]; intros H; [reflexivity|]. cbn [map weights_at flat_map].
  destruct (proj1 (c_in e) (H e (or_introl eq_refl))) as (i & x & Ex & ->). unfold cp at 1. cbn [tri fst snd]. rewrite Ex. cbn [app]. f_equal.
  apply IH. intros y Hy. apply H. right. exact Hy.
Qed.
Lemma filter_ids x l : (forall e, In e l -> In e (c_order ys)) ->
  filter (fun j => match nth_error ys j with Some y => o_le o (fst y) x | None => false end) (map cp l) = map cp (filter (fun y => o_le o (cv y) x) l).
Proof.
  induction l as [|e t IH]; intros H; [reflexivity|]. cbn [map filter].
  destruct (proj1 (c_in e) (H e (or_introl eq_refl))) as (i & y & Ey & ->). unfold cp at 1, cv at 1. cbn [tri fst snd]. rewrite Ey.
  rewrite IH by (intros z Hz; apply H; right; exact Hz). destruct (o_le o (fst y) x); reflexivity.
Qed.
Lemma c_increasing : increasing o ys (map cp (c_order ys)).
Proof.
  split; [apply c_pos|]. intros before i after j x y Ei Hj Ex Ey.
  apply map_eq_app in Ei. destruct Ei as (a & r & Eo & Ea & Er). destruct r as [|e b]; [discriminate|]. cbn [map] in Er. injection Er as Ee Eb.
  rewrite <- Eb in Hj. apply in_map_iff in Hj. destruct Hj as (e2 & E2 & He2).
  assert (I1 : In e (c_order ys)) by (rewrite Eo; apply in_or_app; right; left; reflexivity).
  assert (I2 : In e2 (c_order ys)) by (rewrite Eo; apply in_or_app; right; right; exact He2).
  pose proof (proj2 c_sort) as As. rewrite Eo in As. apply ascending_split in As. destruct As as [_ As]. specialize (As _ He2).
  assert (Hlt : tuple_lt o e e2 = true).
  { apply (lex_total o (o_lt o) cv cp k (tuple_lt o) ck_total tuple_order e2 e); [apply c_nan, I2|apply c_nan, I1| |exact As].
    pose proof c_nodup as N. rewrite Eo, map_app in N. cbn [map] in N. apply NoDup_remove_2 in N. intros Ec. apply N. rewrite <- Ec. apply in_or_app. right. apply in_map, He2. }
  destruct (proj1 (c_in e) I1) as (i1 & x1 & Ex1 & ->). destruct (proj1 (c_in e2) I2) as (j1 & y1 & Ey1 & ->). cbn in Ee, E2. subst i1 j1.
  assert (x1 = x) by congruence. assert (y1 = y) by congruence. subst. rewrite tuple_order in Hlt by (apply c_nan; assumption).
  destruct (o_lt o (cv (tri x i)) (cv (tri y j))) eqn:L; [left; exact L|]. cbn [orb] in Hlt. apply andb_true_iff in Hlt. destruct Hlt as [L1 L2]. right.
  split; [|apply Nat.ltb_lt in L2; exact L2]. change (o_eq o (cv (tri x i)) (cv (tri y j)) = true). rewrite (o_eq_better o Ho) by (apply c_nan; assumption). rewrite L, L1. reflexivity.
Qed.
Lemma c_final cdf : length cdf = length ys -> exists cdf', (let? rc := cdf_running add to_ret (c_order ys) zero cdf in
     let '(tot, cdf1) := rc in
     let cdf2 := map (fun x => div x tot) cdf1 in
     match rev (c_order ys) with [] => Some cdf2 | last :: t => cdf_equal o last t cdf2 end) = Some cdf' /\ cdf' = map (fun x => fin (c_order ys) (tri x 0)) ys.
Proof.
  intros L. destruct (sorted_spec (c_order ys) c_nan (proj2 c_sort) c_nodup cdf) as (c & E1 & L1 & R1).
  { intros e He. rewrite L. apply (in_map cp) in He. apply (Permutation_in _ c_pos), in_seq in He. lia. }
  exists c. split; [exact E1|]. apply list_eq_rd. intros i. destruct (Nat.lt_ge_cases i (length ys)) as [Hi|Hi].
  - destruct (rd_lt ys i Hi) as (x & Ex). unfold rd in Ex. specialize (R1 (tri x i)). change (cp (tri x i)) with i in R1. rewrite R1 by (apply c_in; eauto). unfold rd. rewrite nth_error_map, Ex. reflexivity.
  - rewrite (proj2 (rd_None_ge c i)) by lia. symmetry. apply rd_None_ge. rewrite map_length. exact Hi.
Qed.
End NoNan.
Lemma cdf_fn_ok ys : is_cdf o zero add to_ret div nan_ret ys (cdf_fn ys).
Proof.
  unfold is_cdf, cdf_fn. destruct (find (fun x => nan o (fst x)) ys) as [x|] eqn:Ef; [reflexivity|].
  exists (map cp (c_order ys)). split; [apply c_increasing, Ef|]. apply map_ext. intros x. unfold fin, upto, total.
  rewrite (weights_order ys Ef (c_order ys)) by auto. rewrite (filter_ids ys Ef (fst x) (c_order ys)) by auto. rewrite (weights_order ys Ef).
  - reflexivity.
  - intros e He. apply filter_In in He. tauto.
Qed.
Lemma cdf_length ys : length (cdf_fn ys) = length ys.
Proof. unfold cdf_fn. destruct (find _ ys); apply map_length. Qed.

Definition c_inv (s : cdf_st T W R) (xs : list (C * C)) : Prop := cd_values s = numbered tri (map item xs) /\ cd_nan s = None /\ cd_ret s = 0.
Lemma cdf_final s xs : c_inv s xs -> let t := cdf_finalize o zero add to_ret div nan_ret sort zero_ret ub s in
  cd_ret t = 0 /\ match find (fun x => nan o (fst x)) (map item xs) with
                  | Some x => cd_nan t = Some (nan_ret (fst x))
                  | None => cd_nan t = None /\ cd_cdf t = cdf_fn (map item xs) end.
Proof.
  intros (I1 & I2 & I3). unfold cdf_finalize. cbv zeta. rewrite !I1. destruct (find (fun x => nan o (fst x)) (map item xs)) as [x|] eqn:Ef.
  - destruct (find_numbered_some _ _ Ef) as (e & Ee & Ev). rewrite Ee. cbn [cd_ret cd_nan]. rewrite Ev. auto.
  - rewrite (proj2 (find_numbered _) Ef). fold (c_order (map item xs)).
    destruct (c_final (map item xs) Ef (resize (length (numbered tri (map item xs))) zero_ret (cd_cdf s))) as (c & Ec & Hc); [rewrite resize_length, numbered_length; reflexivity|].
    match goal with |- context [match ?e with Some _ => _ | None => ub end] => replace e with (Some c) by (symmetry; exact Ec) end. cbn [cd_ret cd_nan cd_cdf]. split; [exact I3|]. split; [exact I2|]. unfold cdf_fn. rewrite Ef. exact Hc.
Qed.
Lemma cdf_computes : computes (weighted_cdf_acc o val weight zero add to_ret div nan_ret sort oob zero_ret ub) (addn_default (cdf_add val weight)) required2
  (fun xs => Some (map Some (cdf_fn (map item xs)))).
Proof.
  apply (full_computes _ _ _ _ _ _ _ (fun xs => cdf_fn (map item xs))
    (fun s i => match cd_nan s with Some x => Some x | None => Some (nth (cd_ret s + i) (cd_cdf s) oob) end)
    (fun s s' => exists xs, c_inv s xs /\ c_inv s' xs)
    (fun s s' => cd_ret s = cd_ret s' /\ cd_nan s = cd_nan s' /\ (cd_nan s = None -> cd_cdf s = cd_cdf s'))).
  - apply dec_required2.
  - intros s. unfold cdf_result. destruct (cd_nan s) eqn:En; cbn [fst snd cd_nan cd_ret cd_cdf]; rewrite ?En.
    + split; [reflexivity|]. reflexivity.
    + split; [rewrite Nat.add_0_r; reflexivity|]. intros i. rewrite Nat.add_succ_r. reflexivity.
  - intros s s'. exists []. split; (split; [reflexivity|split; reflexivity]).
  - intros r s s' (xs & I & I'). unfold cdf_add. destruct r as [|[v|] [|[w|] [|? ?]]]; try (exists xs; split; assumption).
    exists (xs ++ [(v, w)]). destruct I as (A1 & A2 & A3), I' as (B1 & B2 & B3). unfold c_inv. cbn [cd_values cd_nan cd_ret].
    rewrite map_app. cbn [map]. rewrite numbered_snoc, A1, B1, numbered_length. cbn [item fst snd tri]. auto.
  - intros s s' (xs & I & I'). pose proof (cdf_final s xs I) as F. pose proof (cdf_final s' xs I') as F'. cbv zeta in F, F'. destruct F as [F1 F2], F' as [F1' F2'].
    split; [congruence|]. destruct (find _ (map item xs)); [split; [congruence|intros; congruence]|]. destruct F2, F2'. split; [congruence|intros; congruence].
  - intros s s' (E1 & E2 & E3). unfold cdf_result. rewrite <- E2. destruct (cd_nan s) eqn:En; cbn [fst snd cd_ret cd_nan cd_cdf].
    + split; [|reflexivity]. split; [exact E1|]. split; [congruence|intros; congruence].
    + rewrite (E3 eq_refl), E1. split; [|reflexivity]. split; [reflexivity|]. split; [reflexivity|]. reflexivity.
  - intros rs xs Er. apply rows_required2 in Er. subst rs. cbv zeta.
    assert (I : c_inv (fold_left (fun s r => cdf_add val weight r s) (map (fun x => [Some (fst x); Some (snd x)]) xs) (mkCdf 0 [] [] None)) xs).
    { clear. induction xs as [|x xs IH] using rev_ind; [split; [reflexivity|split; reflexivity]|]. rewrite map_app, fold_left_app. cbn [map fold_left].
      destruct IH as (A1 & A2 & A3). unfold c_inv. cbn [cdf_add cd_values cd_nan cd_ret]. rewrite A1, A2, A3, map_app. cbn [map]. rewrite numbered_snoc, numbered_length. auto. }
    split; [rewrite cdf_length, map_length; reflexivity|]. intros i x Hx. cbn [cd_cdf]. pose proof (cdf_final _ xs I) as F. cbv zeta in F. destruct F as [F1 F2].
    unfold cdf_fn in *. destruct (find (fun x => nan o (fst x)) (map item xs)) as [y|].
    + rewrite F2. rewrite nth_error_map in Hx. destruct (nth_error (map item xs) i); [|discriminate]. cbn in Hx. exact Hx.
    + destruct F2 as [F2 F3]. rewrite F2, F1, F3. cbn [Nat.add]. f_equal. apply nth_error_nth, Hx.
Qed.
End Cdf.

(** ** Means. *)
Section Mean.
Context {V A : Type}.
Variables (ar : arith V A) (count : Z -> V) (div : V -> V -> V) (diva : A -> A -> A).
Let madd (r : list (option V)) (s : A * Z) := match r with [Some v] => (r_add ar (fst s) (r_wide ar v), (snd s + 1)%Z) | _ => s end.
Lemma mean_fold xs : forall s, fold_left (fun s x => madd [Some x] s) xs s = (fold_left (fun a v => r_add ar a (r_wide ar v)) xs (fst s), (snd s + Z.of_nat (length xs))%Z).
Proof.
  induction xs as [|x t IH]; intros s; [cbn; rewrite Z.add_0_r; destruct s; reflexivity|]. cbn [fold_left]. rewrite IH. cbn [madd fst snd length]. f_equal. lia.
Qed.
Lemma mean_computes kd init : kd <> Full -> computes (mean_acc ar count div kd init) (addn_default madd) required1 (by_kind kd (left_mean ar count div)).
Proof.
  intros Hk. apply (plain_computes kd [false] init _ _ _ _ (addn_default madd) _ (left_mean ar count div) eq); try assumption; try (intros; subst; auto; fail).
  - exact dec_required1.
  - intros rs xs E. apply rows_required1 in E. subst rs. rewrite fold_map, mean_fold. cbn [fst snd]. rewrite Z.add_0_l. destruct xs; [reflexivity|].
    destruct (Z.eqb_spec (Z.of_nat (length (v :: xs))) 0); [cbn [length] in *; lia|]. reflexivity.
Qed.
Lemma mean_exact kd init : kd <> Full ->
  (forall a v n, r_add ar a (r_mul ar (r_wide ar v) (r_count ar (Z.of_nat n))) = Nat.iter n (fun x => r_add ar x (r_wide ar v)) a) ->
  computes (mean_acc ar count div kd init) (mean_addn ar) required1 (by_kind kd (left_mean ar count div)).
Proof.
  clear diva. intros Hk Hm. apply (plain_computes kd [false] init _ _ _ _ (mean_addn ar) _ (left_mean ar count div) eq); try assumption; try (intros; subst; auto; fail).
  - exact dec_required1.
  - intros rs xs E. apply rows_required1 in E. subst rs. rewrite fold_map, mean_fold. cbn [fst snd]. rewrite Z.add_0_l. destruct xs; [reflexivity|].
    destruct (Z.eqb_spec (Z.of_nat (length (v :: xs))) 0); [cbn [length] in *; lia|]. reflexivity.
  - intros n r [a z] _ _. destruct r as [|[v|] [|y t]]; cbn [mean_addn]; try (symmetry; induction n as [|n IH]; [reflexivity|]; exact IH).
    cbn [fst snd]. rewrite Hm. induction n as [|n IH]; [cbn [Nat.iter nat_rect]; rewrite Z.add_0_r; reflexivity|].
    transitivity (let s := Nat.iter n (fun s : A * Z => (r_add ar (fst s) (r_wide ar v), (snd s + 1)%Z)) (a, z) in (r_add ar (fst s) (r_wide ar v), (snd s + 1)%Z)); [|reflexivity].
    rewrite <- IH. cbn [fst snd]. f_equal. lia.
Qed.
Let wadd (r : list (option V)) (s : A * A) := match r with
  | [Some v; Some w] => (r_add ar (fst s) (r_mul ar (r_wide ar v) (r_wide ar w)), r_add ar (snd s) (r_wide ar w)) | _ => s end.
Lemma wavg_fold xs : forall s, fold_left (fun s x => wadd [Some (fst x); Some (snd x)] s) xs s =
  (fold_left (fun a x => r_add ar a (r_mul ar (r_wide ar (fst x)) (r_wide ar (snd x)))) xs (fst s), fold_left (fun a x => r_add ar a (r_wide ar (snd x))) xs (snd s)).
Proof. induction xs as [|x t IH]; intros s; [destruct s; reflexivity|]. cbn [fold_left]. rewrite IH. reflexivity. Qed.
Lemma wavg_computes init : computes (wavg_acc ar diva init) (addn_default wadd) required2 (by_kind Aggregator (left_wavg ar diva)).
Proof.
  apply (plain_computes Aggregator [false; false] init _ _ _ _ (addn_default wadd) _ (left_wavg ar diva) eq); try congruence; try (intros; subst; auto; fail).
  - exact dec_required2.
  - intros rs xs E. apply rows_required2 in E. subst rs. rewrite fold_map, wavg_fold. reflexivity.
Qed.
End Mean.

(** ** Ordinal ranks are a permutation. *)
Section OrdPerm.
Context {T : Type}.
Variables (o : ord T) (descending : bool).
Hypothesis Ho : ord_ok o.
Let better := dir o descending.
Variable xs : list (T * Z).
Let cb := comes_before o better xs.
Lemma cb_facts a b : better a b = true -> better b a = false /\ nan o a = false /\ nan o b = false.
Proof.
  intros H. destruct (direction_dir o descending Ho) as (D1 & D2 & D3 & _). split; [|apply D1, H].
  destruct (better b a) eqn:E; [|reflexivity]. pose proof (D3 _ _ _ H E) as X. rewrite D2 in X. discriminate.
Qed.
Lemma cb_irrefl i : cb i i = false.
Proof.
  unfold cb, comes_before. destruct (nth_error xs i) as [[v t]|]; [|reflexivity]. destruct (direction_dir o descending Ho) as (_ & D2 & _). fold better in D2.
  rewrite D2. destruct (nan o v); cbn [negb orb andb]; [apply Nat.ltb_irrefl|]. rewrite Z.ltb_irrefl, Nat.ltb_irrefl, andb_false_r. cbn. apply andb_false_r.
Qed.
Lemma cb_total i j : i < length xs -> j < length xs -> i <> j -> cb i j = true \/ cb j i = true.
Proof.
  intros Hi Hj Hne. unfold cb, comes_before. destruct (rd_lt xs i Hi) as ([v t] & Ei), (rd_lt xs j Hj) as ([w u] & Ej). unfold rd in *. rewrite Ei, Ej.
  destruct (nan o v) eqn:Nv, (nan o w) eqn:Nw; cbn [negb orb andb]; try lia.
  rewrite !(o_eq_dir o descending Ho) by assumption. fold better. destruct (better v w), (better w v); cbn [negb orb andb]; lia.
Qed.
Lemma cb_trans i j l : cb i j = true -> cb j l = true -> cb i l = true.
Proof.
  unfold cb, comes_before. destruct (nth_error xs i) as [[v t]|]; [|discriminate]. destruct (nth_error xs j) as [[w u]|]; [|discriminate].
  destruct (nth_error xs l) as [[x y]|]; [|discriminate].
  destruct (nan o v) eqn:Nv, (nan o w) eqn:Nw, (nan o x) eqn:Nx; cbn [negb orb andb]; try discriminate; try lia; try reflexivity.
  rewrite !(o_eq_dir o descending Ho) by assumption. fold better.
  destruct (direction_dir o descending Ho) as (_ & D2 & D3 & D4). fold better in D2, D3, D4.
  pose proof (D3 v w x) as T1. pose proof (D4 v x w Nv Nx Nw) as U1. pose proof (D4 v w x Nv Nw Nx) as U2. pose proof (D4 x w v Nx Nw Nv) as U3.
  pose proof (D4 w v x Nw Nv Nx) as U4. pose proof (D4 w x v Nw Nx Nv) as U5. pose proof (D4 x v w Nx Nv Nw) as U6.
  pose proof (cb_facts v w) as F1. pose proof (cb_facts w v) as F2. pose proof (cb_facts w x) as F3. pose proof (cb_facts x w) as F4. pose proof (cb_facts v x) as F5.
  destruct (better v w), (better w v), (better w x), (better x w), (better v x), (better x v); cbn [negb orb andb]; try lia; exfalso; intuition discriminate.
Qed.
Lemma cb_range i j : cb i j = true -> i < length xs /\ j < length xs.
Proof.
  unfold cb, comes_before. destruct (nth_error xs i) as [[? ?]|] eqn:Ei; [|discriminate]. destruct (nth_error xs j) as [[? ?]|] eqn:Ej; [|discriminate]. intros _.
  split; apply nth_error_Some; congruence.
Qed.
Let rank i := length (filter (fun j => cb j i) (seq 0 (length xs))).
Lemma filter_le {A} (p q : A -> bool) l : (forall x, In x l -> p x = true -> q x = true) -> length (filter p l) <= length (filter q l).
Proof.
  induction l as [|x t IH]; intros H; [auto|]. cbn [filter]. specialize (IH (fun y Hy => H y (or_intror Hy))). pose proof (H x (or_introl eq_refl)).
  destruct (p x), (q x); cbn [length]; lia.
Qed.
Lemma filter_lt {A} (p q : A -> bool) l z : (forall x, In x l -> p x = true -> q x = true) -> In z l -> p z = false -> q z = true -> length (filter p l) < length (filter q l).
Proof.
  induction l as [|x t IH]; intros H Hz P Q; [destruct Hz|]. cbn [filter].
  pose proof (filter_le p q t (fun y Hy => H y (or_intror Hy))). destruct Hz as [->|Hz].
  - rewrite P, Q. cbn [length]. lia.
  - specialize (IH (fun y Hy => H y (or_intror Hy)) Hz P Q). pose proof (H x (or_introl eq_refl)) as Hx. destruct (p x), (q x); cbn [length]; lia.
Qed.
Lemma rank_mono i j : cb i j = true -> rank i < rank j.
Proof.
  intros H. destruct (cb_range _ _ H) as [Hi Hj]. unfold rank. apply (filter_lt _ _ _ i).
  - intros x _ Hx. apply (cb_trans _ _ _ Hx H).
  - apply in_seq. lia.
  - apply cb_irrefl.
  - exact H.
Qed.
Lemma rank_bound i : i < length xs -> rank i < length xs.
Proof.
  intros Hi. unfold rank. rewrite <- (seq_length (length xs) 0) at 2. rewrite <- (filter_all (fun _ : nat => true) (seq 0 (length xs))) at 2 by auto.
  apply (filter_lt _ _ _ i); auto. - apply in_seq. lia. - apply cb_irrefl.
Qed.
Lemma ordinal_rank_perm : Permutation (ordinal_rank o (dir o descending) xs) (map Z.of_nat (seq 0 (length xs))).
Proof.
  unfold ordinal_rank. change (Permutation (map (fun i => Z.of_nat (rank i)) (seq 0 (length xs))) (map Z.of_nat (seq 0 (length xs)))).
  rewrite <- (map_map rank Z.of_nat). apply Permutation_map. apply NoDup_Permutation_bis.
  - assert (G : forall l, NoDup l -> (forall i, In i l -> i < length xs) -> NoDup (map rank l)).
    { induction l as [|x t IH]; intros Nd Rg; [constructor|]. inversion Nd as [|? ? N1 N2]; subst. cbn [map]. constructor; [|apply IH; [exact N2|intros i Hi; apply Rg; right; exact Hi]].
      intros Hx. apply in_map_iff in Hx. destruct Hx as (y & Ey & Hy). destruct (cb_total x y) as [C|C].
      - apply Rg. left. reflexivity. - apply Rg. right. exact Hy. - intros ->. contradiction.
      - apply rank_mono in C. lia. - apply rank_mono in C. lia. }
    apply G; [apply seq_NoDup|]. intros i Hi. apply in_seq in Hi. lia.
  - rewrite map_length. auto.
  - intros r Hr. apply in_map_iff in Hr. destruct Hr as (i & <- & Hi). apply in_seq in Hi. apply in_seq. pose proof (rank_bound i). lia.
Qed.
End OrdPerm.
