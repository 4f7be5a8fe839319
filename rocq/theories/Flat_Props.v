(** C82: arrays of arrays as one flat array: all matches of a regular expression, and arrays interleaved. *)
From Coq Require Import ZArith.
From Verif Require Import Base Flat_Model Flat_Spec Flat_Proofs.
Local Open Scope nat_scope.

(** The flat array split by the two edges is, for every row, the list of matches, each the list of
    its groups; none for a missing row. *)
Theorem C82_findall T X (find : T -> list (list X)) ngroups rows :
  (forall v m, In m (find v) -> length m = ngroups) ->
  exists flat per_row per_match, findall T X find ngroups rows = Some (flat, per_row, per_match) /\
    parts per_row (parts per_match flat) = map (fun r => match r with Some v => find v | None => [] end) rows.
Proof.
  intros G. rewrite findall_ok. do 3 eexists. split; [reflexivity|].
  set (ms := map (matches T X find) rows).
  assert (F : Forall (fun l : list X => length l = ngroups) (concat ms)).
  { apply Forall_forall. intros m I. apply in_concat in I. destruct I as (l & I & J). apply in_map_iff in I.
    destruct I as ([v|] & <- & _); [apply (G v m J)|destruct J]. }
  unfold from_uniform. rewrite <- (sums_uniform ngroups (concat ms) F 0). cbn [Nat.mul].
  pose proof (parts_sums (concat ms) []) as P. cbn [length app] in P. rewrite P.
  pose proof (parts_sums ms []) as Q. cbn [length app] in Q. rewrite Q. reflexivity.
Qed.
Print Assumptions C82_findall.

(** Both edges fit the arrays: the first has a group for every row and its elements are the groups of
    the second, whose elements are those of the flat array. *)
Theorem C82_findall_sizes T X (find : T -> list (list X)) ngroups rows flat per_row per_match :
  (forall v m, In m (find v) -> length m = ngroups) ->
  findall T X find ngroups rows = Some (flat, per_row, per_match) ->
  length per_row = length rows + 1 /\ length per_match = last per_row 0 + 1 /\ last per_match 0 = length flat.
Proof.
  intros G. rewrite findall_ok. intros [= <- <- <-]. set (ms := map (matches T X find) rows).
  assert (F : Forall (fun l : list X => length l = ngroups) (concat ms)).
  { apply Forall_forall. intros m I. apply in_concat in I. destruct I as (l & I & J). apply in_map_iff in I.
    destruct I as ([v|] & <- & _); [apply (G v m J)|destruct J]. }
  assert (L : forall (A : Type) (ls : list (list A)) a, length (sums a ls) = length ls + 1).
  { intros A ls. induction ls as [|l ls IH]; intros a; cbn [sums length]; [reflexivity|]. rewrite IH. lia. }
  unfold from_uniform. rewrite <- (sums_uniform ngroups (concat ms) F 0). cbn [Nat.mul].
  rewrite !L, !last_sums. split; [unfold ms; rewrite map_length; reflexivity|]. split; reflexivity.
Qed.
Print Assumptions C82_findall_sizes.

(** Interleaving n arrays: the element j of row i is the element i of the array j.  It is defined
    exactly if there are fewer than 2^31 elements, and an error exactly if the sizes differ. *)
Theorem C82_interleave V (c0 : list (option V)) cols :
  let all := c0 :: cols in
  (Exists (fun c => length c <> length c0) cols -> interleave V all = Some (inl tt)) /\
  (Forall (fun c => length c = length c0) cols ->
   ((Z.of_nat (length c0 * length all) < 2 ^ 31)%Z ->
    exists out, interleave V all = Some (inr out) /\ length out = length c0 * length all /\
      forall i j c, i < length c0 -> nth_error all j = Some c ->
        nth_error out (i * length all + j) = nth_error c i) /\
   ((2 ^ 31 <= Z.of_nat (length c0 * length all))%Z -> interleave V all = None)).
Proof.
  intros all. unfold interleave. change (hd [] all) with c0.
  assert (S : same_size V all (length c0) = true <-> Forall (fun c => length c = length c0) cols).
  { unfold same_size, all. cbn [forallb]. rewrite Nat.eqb_refl. cbn [andb]. rewrite forallb_forall, Forall_forall.
    split; intros H c I; specialize (H c I); apply Nat.eqb_eq; assumption. }
  split.
  - intros E. destruct (same_size V all (length c0)); [|reflexivity]. exfalso.
    apply Exists_exists in E. destruct E as (c & I & N). apply N.
    pose proof (proj1 S eq_refl) as F. rewrite Forall_forall in F. apply F, I.
  - intros F. rewrite (proj2 S F).
    set (row := fun i => map (fun c => nth i c None) all). set (rows := map row (seq 0 (length c0))).
    assert (U : Forall (fun r => length r = length all) rows).
    { apply Forall_forall. intros r I. apply in_map_iff in I. destruct I as (i & <- & _). apply map_length. }
    destruct (concat_uniform _ _ U) as (L & N). unfold rows in L at 2. rewrite map_length, seq_length in L.
    pose proof (set_rows_ok V rows []) as R. cbn [length app Nat.add] in R. rewrite L in R. rewrite R.
    change (2 ^ 31)%Z with 2147483648%Z. split.
    + intros B. destruct (Z.ltb_spec (Z.of_nat (length c0 * length all)) 2147483648) as [_|]; [|lia]. cbn [orb bind].
      exists (concat rows). split; [reflexivity|]. split; [exact L|]. intros i j c I J.
      rewrite N by (apply nth_error_Some; congruence). unfold rows. rewrite nth_error_map.
      replace (nth_error (seq 0 (length c0)) i) with (Some i).
      2: { symmetry. rewrite (nth_error_nth' _ 0) by (rewrite seq_length; exact I). rewrite seq_nth by exact I. reflexivity. }
      cbn [option_map]. unfold row. rewrite nth_error_map, J. cbn [option_map]. symmetry. apply nth_error_nth'.
      destruct j as [|j]; cbn in J; [injection J as <-; exact I|]. apply nth_error_In in J.
      rewrite Forall_forall in F. rewrite (F _ J). exact I.
    + intros B. destruct (Z.ltb_spec (Z.of_nat (length c0 * length all)) 2147483648) as [|_]; [lia|]. cbn [orb].
      destruct (Nat.eqb_spec (length c0 * length all) 0) as [E|]; [rewrite E in B; cbn in B; lia|]. reflexivity.
Qed.
Print Assumptions C82_interleave.

Definition demo_find (v : nat) : list (list nat) := map (fun i => [v; i]) (seq 0 v).
Example ex_hyp : forall v m, In m (demo_find v) -> length m = 2.
Proof. intros v m I. apply in_map_iff in I. destruct I as (i & <- & _). reflexivity. Qed.
Example ex_findall : findall nat nat demo_find 2 [Some 2; None; Some 0; Some 1] =
  Some ([2; 0; 2; 1; 1; 0], [0; 2; 2; 2; 3], [0; 2; 4; 6]).
Proof. reflexivity. Qed.
Example ex_parts : parts [0; 2; 2; 2; 3] (parts [0; 2; 4; 6] [2; 0; 2; 1; 1; 0]) = [[[2; 0]; [2; 1]]; []; []; [[1; 0]]].
Proof. reflexivity. Qed.
Example ex_interleave : interleave nat [[Some 1; None; Some 3]; [Some 4; Some 5; Some 6]] =
  Some (inr [Some 1; Some 4; None; Some 5; Some 3; Some 6]).
Proof. reflexivity. Qed.
Example ex_sizes : interleave nat [[Some 1]; []] = Some (inl tt). Proof. reflexivity. Qed.
