From Coq Require Import ZArith.
From Verif Require Import Base Flat_Model Flat_Spec.
Local Open Scope nat_scope.

Fixpoint sums {A} (a : nat) (ls : list (list A)) : list nat :=
  match ls with [] => [a] | l :: t => a :: sums (a + length l) t end.
Lemma sums_cons {A} a (ls : list (list A)) : exists t, sums a ls = a :: t.
Proof. destruct ls; eexists; reflexivity. Qed.
Lemma parts_sums {A} (ls : list (list A)) : forall pre, parts (sums (length pre) ls) (pre ++ concat ls) = ls.
Proof.
  induction ls as [|l ls IH]; intros pre; [reflexivity|]. cbn [sums concat].
  specialize (IH (pre ++ l)). rewrite app_length, <- app_assoc in IH.
  destruct (sums_cons (length pre + length l) ls) as (t & E). rewrite E in IH |- *.
  cbn [parts]. cbn [parts] in IH. rewrite IH. f_equal.
  rewrite skipn_app, skipn_all, Nat.sub_diag. cbn [skipn app].
  replace (length pre + length l - length pre) with (length l) by lia.
  rewrite firstn_app, firstn_all, Nat.sub_diag. cbn [firstn]. apply app_nil_r.
Qed.
Lemma last_sums {A} (ls : list (list A)) : forall a d, last (sums a ls) d = a + length (concat ls).
Proof.
  induction ls as [|l ls IH]; intros a d; cbn [sums concat length]; [cbn; lia|].
  rewrite app_length. destruct (sums_cons (a + length l) ls) as (t & E).
  specialize (IH (a + length l) d). rewrite E in IH |- *. cbn [last] in IH |- *. rewrite IH. lia.
Qed.
Lemma ascending_sums {A} (ls : list (list A)) : forall a, ascending (sums a ls) = true.
Proof.
  induction ls as [|l ls IH]; intros a; [reflexivity|]. cbn [sums]. specialize (IH (a + length l)).
  destruct (sums_cons (a + length l) ls) as (t & E). rewrite E in IH |- *. cbn [ascending] in IH |- *. rewrite IH.
  rewrite andb_true_r. apply Nat.leb_le. lia.
Qed.
Lemma sums_snoc {A} (ls : list (list A)) l : forall a, sums a (ls ++ [l]) = sums a ls ++ [last (sums a ls) 0 + length l].
Proof.
  induction ls as [|x ls IH]; intros a; [reflexivity|]. cbn [app sums]. rewrite IH.
  destruct (sums_cons (a + length x) ls) as (t & E). rewrite E. reflexivity.
Qed.
Lemma sums_uniform {A} g (ls : list (list A)) : Forall (fun l => length l = g) ls -> forall k,
  sums (k * g) ls = map (fun i => i * g) (seq k (length ls + 1)).
Proof.
  induction 1 as [|l ls E F IH]; intros k; cbn [sums length Nat.add seq map]; [reflexivity|].
  f_equal. rewrite E. replace (k * g + g) with (S k * g) by lia. apply IH.
Qed.

Section Findall.
Variables T X : Type.
Variable find : T -> list (list X).
Variable ngroups : nat.
Definition matches (r : option T) : list (list X) := match r with Some v => find v | None => [] end.
Lemma on_matches ms : forall s k flat,
  fold_left (on_match X) ms (s ++ [k], flat) = (s ++ [k + length ms], flat ++ concat ms).
Proof.
  induction ms as [|m ms IH]; intros s k flat; cbn [fold_left concat length].
  - rewrite Nat.add_0_r, app_nil_r. reflexivity.
  - cbn [on_match]. rewrite removelast_last, last_last, IH, <- app_assoc.
    replace (k + 1 + length ms) with (k + S (length ms)) by lia. reflexivity.
Qed.
Lemma on_row_ok done r : on_row T X find (sums 0 (map matches done), concat (concat (map matches done))) r =
  (sums 0 (map matches (done ++ [r])), concat (concat (map matches (done ++ [r])))).
Proof.
  rewrite map_app. cbn [map]. rewrite sums_snoc, !concat_app. cbn [concat]. rewrite app_nil_r. cbn [on_row].
  destruct r as [v|]; cbn [matches].
  - rewrite on_matches. reflexivity.
  - cbn [length concat]. rewrite Nat.add_0_r, app_nil_r. reflexivity.
Qed.
Lemma rows_ok rows : forall done,
  fold_left (on_row T X find) rows (sums 0 (map matches done), concat (concat (map matches done))) =
  (sums 0 (map matches (done ++ rows)), concat (concat (map matches (done ++ rows)))).
Proof.
  induction rows as [|r rows IH]; intros done; cbn [fold_left]; [rewrite app_nil_r; reflexivity|].
  rewrite on_row_ok, IH, <- app_assoc. reflexivity.
Qed.
Lemma findall_ok rows : findall T X find ngroups rows =
  Some (concat (concat (map matches rows)), sums 0 (map matches rows),
        from_uniform (length (concat (map matches rows))) ngroups).
Proof.
  unfold findall. pose proof (rows_ok rows []) as R. cbn [map concat app sums] in R. rewrite R.
  unfold from_split_points. pose proof (ascending_sums (map matches rows) 0) as A.
  pose proof (last_sums (map matches rows) 0 0) as L.
  destruct (sums_cons 0 (map matches rows)) as (t & E). rewrite E in A, L |- *. rewrite A. cbn [bind].
  rewrite L. reflexivity.
Qed.
End Findall.

Section Interleave.
Variable V : Type.
Lemma put_app (pre : list (option V)) x t v : put V (pre ++ x :: t) (length pre) v = pre ++ v :: t.
Proof. induction pre as [|y pre IH]; cbn [app length put]; [reflexivity|]. rewrite IH. reflexivity. Qed.
Lemma set_row_ok row : forall pre rest, 
  set_row V row (length pre) (pre ++ repeat None (length row) ++ rest) =
    if (Z.of_nat (length pre + length row) <? 2147483648)%Z || (length row =? 0)
    then Some (length pre + length row, pre ++ row ++ rest) else None.
Proof.
  induction row as [|v row IH]; intros pre rest; cbn [set_row length repeat app].
  - rewrite orb_true_r, Nat.add_0_r. reflexivity.
  - cbn [Nat.eqb]. rewrite orb_false_r. unfold next_id.
    destruct (Z.ltb_spec (Z.of_nat (length pre) + 1) 2147483648) as [L|L]; cbn [bind].
    + rewrite put_app. specialize (IH (pre ++ [v]) rest). rewrite app_length in IH. cbn [length] in IH.
      rewrite <- !app_assoc in IH. cbn [app] in IH. rewrite IH.
      replace (length pre + 1 + length row) with (length pre + S (length row)) by lia.
      destruct (Nat.eqb_spec (length row) 0) as [E|E].
      * rewrite orb_true_r. destruct (Z.ltb_spec (Z.of_nat (length pre + S (length row))) 2147483648) as [|G]; [reflexivity|lia].
      * rewrite orb_false_r. reflexivity.
    + destruct (Z.ltb_spec (Z.of_nat (length pre + S (length row))) 2147483648) as [G|]; [lia|reflexivity].
Qed.
Lemma set_rows_ok rows : forall pre,
  set_rows V rows (length pre) (pre ++ repeat None (length (concat rows))) =
    if (Z.of_nat (length pre + length (concat rows)) <? 2147483648)%Z || (length (concat rows) =? 0)
    then Some (pre ++ concat rows) else None.
Proof.
  induction rows as [|r rows IH]; intros pre; cbn [set_rows concat].
  - cbn [length repeat Nat.eqb]. rewrite orb_true_r. reflexivity.
  - rewrite app_length, repeat_app, set_row_ok.
    destruct (Z.ltb_spec (Z.of_nat (length pre + length r)) 2147483648) as [L|L]; cbn [orb].
    + cbn [bind fst snd]. specialize (IH (pre ++ r)). rewrite app_length, <- !app_assoc in IH. rewrite IH.
      rewrite Nat.add_assoc.
      destruct (Z.ltb_spec (Z.of_nat (length pre + length r + length (concat rows))) 2147483648) as [G|G]; cbn [orb]; [reflexivity|].
      destruct (Nat.eqb_spec (length (concat rows)) 0) as [E|E].
      * lia.
      * destruct (Nat.eqb_spec (length r + length (concat rows)) 0); [lia|reflexivity].
    + destruct (Nat.eqb_spec (length r) 0) as [E|E].
      * destruct r; [|discriminate]. cbn [bind fst snd app length Nat.add]. specialize (IH pre).
        rewrite Nat.add_0_r. rewrite IH. reflexivity.
      * cbn [bind]. destruct (Z.ltb_spec (Z.of_nat (length pre + (length r + length (concat rows)))) 2147483648); [lia|].
        destruct (Nat.eqb_spec (length r + length (concat rows)) 0); [lia|reflexivity].
Qed.
Lemma concat_uniform {A} n (rows : list (list A)) : Forall (fun r => length r = n) rows ->
  length (concat rows) = length rows * n /\
  forall i j, j < n -> nth_error (concat rows) (i * n + j) = match nth_error rows i with Some r => nth_error r j | None => None end.
Proof.
  induction 1 as [|r rows E F (L & IH)]; cbn [concat length].
  - split; [reflexivity|]. intros i j _. destruct (i * n + j), i; reflexivity.
  - split; [rewrite app_length, L, E; lia|]. intros [|i] j J; cbn [nth_error].
    + rewrite nth_error_app1 by lia. reflexivity.
    + rewrite nth_error_app2 by lia. rewrite <- IH by exact J. f_equal. lia.
Qed.
End Interleave.
