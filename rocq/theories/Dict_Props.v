(** C81: dicts from keys to rows. *)
From Coq Require Import ZArith Permutation.
From Verif Require Import Base Dict_Model Dict_Spec Dict_Proofs.
Local Open Scope Z_scope.

(** A dict is made exactly if no key is at two rows; missing keys are allowed and left out. *)
Theorem C81_make K eqb (eqb_ok : forall a b : K, eqb a b = true <-> a = b) keys :
  ((exists m, make_dict K eqb keys = inr m) <-> distinct keys) /\
  (~ distinct keys -> make_dict K eqb keys = inl EDuplicate).
Proof.
  pose proof (make_ok K eqb eqb_ok keys) as H. destruct (make_dict K eqb keys) as [e|m].
  - destruct H as (-> & H). split; [|reflexivity]. split; [intros (m & X); discriminate|contradiction].
  - destruct H as (D & _). split; [|contradiction]. split; [intros _; exact D|]. intros _. exists m; reflexivity.
Qed.
Print Assumptions C81_make.

(** Looking up a key gives the row it is at, and missing if it is at none; in whatever order the map
    keeps its entries. *)
Theorem C81_get_row K eqb (eqb_ok : forall a b : K, eqb a b = true <-> a = b) keys m m' k :
  make_dict K eqb keys = inr m -> Permutation m m' ->
  (forall r, get_row K eqb m' k = Some r <-> key_at keys r k) /\
  (get_row K eqb m' k = None <-> ~ In (Some k) keys) /\
  (contains K eqb m' k = true <-> In (Some k) keys).
Proof.
  intros M P. pose proof (make_ok K eqb eqb_ok keys) as H. rewrite M in H. destruct H as (D & N & E).
  assert (N' : NoDup (map fst m')) by (apply (Permutation_NoDup (Permutation_map fst P)), N).
  assert (G : forall r, lookup K eqb k m' = Some r <-> key_at keys r k).
  { intros r. rewrite (lookup_in K eqb eqb_ok _ _ _ N'), <- E. split; intros I;
      [apply (Permutation_in _ (Permutation_sym P) I)|apply (Permutation_in _ P I)]. }
  assert (I : (exists r, lookup K eqb k m' = Some r) <-> In (Some k) keys).
  { split.
    - intros (r & L). apply G in L. destruct L as (_ & L). eapply nth_error_In; eassumption.
    - intros L. apply In_nth_error in L. destruct L as (i & L). exists (Z.of_nat i). apply G. split; [lia|].
      rewrite Nat2Z.id. exact L. }
  unfold get_row, contains. split; [exact G|]. rewrite <- I.
  destruct (lookup K eqb k m') as [r|]; split; split; intros H; try discriminate; try reflexivity.
  - exfalso. apply H. exists r; reflexivity.
  - exists r; reflexivity.
  - intros (r & X); discriminate.
  - destruct H as (r & X); discriminate.
Qed.
Print Assumptions C81_get_row.

(** The keys of any dict: if the rows are exactly the positions 0, 1, ... then the keys in this order,
    otherwise an error; in whatever order the map keeps its entries. *)
Theorem C81_keys K (es : dict K) ks : NoDup (map fst es) -> (dict_keys K es = inr ks <-> lists es ks).
Proof. intros N. apply dict_keys_ok. apply NoDup_map_inv in N. exact N. Qed.
Print Assumptions C81_keys.

(** For a dict made of an array of keys, that is the array without missing keys at its end; a key
    after a missing one makes the operator fail. *)
Theorem C81_keys_made K eqb (eqb_ok : forall a b : K, eqb a b = true <-> a = b) keys m m' ks :
  make_dict K eqb keys = inr m -> Permutation m m' ->
  (dict_keys K m' = inr ks <-> exists n, keys = map Some ks ++ repeat None n).
Proof.
  intros M P. pose proof (make_ok K eqb eqb_ok keys) as H. rewrite M in H. destruct H as (D & N & E).
  assert (N' : NoDup (map fst m')) by (apply (Permutation_NoDup (Permutation_map fst P)), N).
  rewrite (C81_keys K m' ks N'), <- tail_missing. unfold lists.
  assert (G : forall k r, In (k, r) m' <-> key_at keys r k).
  { intros k r. rewrite <- E. split; intros I;
      [apply (Permutation_in _ (Permutation_sym P) I)|apply (Permutation_in _ P I)]. }
  split.
  - intros H i k. specialize (H k (Z.of_nat i)). rewrite G in H. unfold key_at in H. rewrite Nat2Z.id in H.
    assert (0 <= Z.of_nat i) by lia. tauto.
  - intros H k r. rewrite G. unfold key_at. rewrite H. reflexivity.
Qed.
Print Assumptions C81_keys_made.

(** So it is not true that the keys of every dict that can be made can be listed. *)
Theorem C81_keys_refuted :
  exists m, make_dict Z Z.eqb [None; Some 7] = inr m /\ get_row Z Z.eqb m 7 = Some 1 /\ dict_keys Z m = inl ERows.
Proof. exists [(7, 1)]. repeat split. Qed.
Print Assumptions C81_keys_refuted.

Example ex_make : make_dict Z Z.eqb [Some 5; Some 3; Some 8; None] = inr [(5, 0); (3, 1); (8, 2)]. Proof. reflexivity. Qed.
Example ex_order : Permutation [(5, 0); (3, 1); (8, 2)] [(3, 1); (8, 2); (5, 0)].
Proof. apply (Permutation_cons_append [(3, 1); (8, 2)] (5, 0)). Qed.
Example ex_row : get_row Z Z.eqb [(3, 1); (8, 2); (5, 0)] 8 = Some 2. Proof. reflexivity. Qed.
Example ex_keys : dict_keys Z [(3, 1); (8, 2); (5, 0)] = inr [5; 3; 8]. Proof. reflexivity. Qed.
Example ex_dup : make_dict Z Z.eqb [Some 5; None; Some 5; Some 6] = inl EDuplicate. Proof. reflexivity. Qed.
Example ex_incomplete : dict_keys Z [(3, 0); (8, 0)] = inl EIncomplete. Proof. reflexivity. Qed.
Example ex_eqb : forall a b : Z, (a =? b) = true <-> a = b. Proof. exact Z.eqb_eq. Qed.
