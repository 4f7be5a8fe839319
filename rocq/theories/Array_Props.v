(** C12, C13, C14, C39: Array. *)
From Coq Require Import Floats.SpecFloat.
From Verif Require Import Base Bits_Model Bitmap_Model Dense_Model Dense_Spec Dense_Proofs
  IdFilter_Model IdFilter_Spec IdFilter_Proofs Array_Model Array_Spec Array_Proofs ArrayIter_Proofs.

(** An array of 6 elements in sparse form: ids 1, 3, 4 with default 7; the element
    with id 3 is missing. *)
Definition ex_l : list (option nat) := [Some 7; Some 5; Some 7; None; Some 8; Some 7].
Definition ex_a : arr nat := mkArr 6 (FPartial 100 [1; 3; 4] 0) (mkD [5; 9; 8] [5%N] 0) (Some 7).
Definition ex_alloc (n : nat) : list nat := repeat 42 n.
Definition ex_allocw (n : nat) : list N := repeat 3%N n.
Lemma ex_alloc_ok : alloc_sz ex_alloc.
Proof. intros n. apply repeat_length. Qed.
Lemma ex_allocw_ok : allocw_ok ex_allocw.
Proof.
  intros n. split; [apply repeat_length|]. apply Forall_forall. intros x Hx. apply repeat_spec in Hx. subst x. reflexivity.
Qed.
Lemma asc3 a b c : a < b -> b < c -> ascending [a; b; c].
Proof.
  intros H1 H2 i j H. cbn [length] in H.
  destruct i as [|[|[|i]]], j as [|[|[|j]]]; cbn [nth]; lia.
Qed.
Example C12_ex_rep : ar_rep ex_a ex_l.
Proof.
  split; [split; [|split; [|split]]|split; [reflexivity|]].
  - cbn. split; [discriminate|]. split; [lia|]. split; [apply asc3; lia|]. repeat constructor.
  - split; [cbn; lia|]. split; [repeat constructor|]. right. reflexivity.
  - reflexivity.
  - discriminate.
  - intros i Hi. do 6 (destruct i; [reflexivity|]). cbn in Hi. lia.
Qed.

(** ** C12 *)
Theorem C12_with_ids {A} alloc allocw (a : arr A) l ids m :
  alloc_sz alloc -> allocw_ok allocw -> ar_rep a l -> fwf (length l) ids ->
  exists r l', with_ids alloc allocw a ids m = Some r /\ ar_rep r l' /\ length l' = length l /\
    (forall i, i < length l -> nth i l' None = if mem i (fids (length l) ids) then nth i l None else m) /\
    (0 < length l -> ar_ids r = ids) /\ (ar_ids r <> FFull -> ar_miss r = m).
Proof.
  intros HA HW R Wf. destruct (with_ids_ok alloc allocw HA HW a l ids m R Wf) as (r & E & Rr & Ei & Em).
  eexists r, _. split; [exact E|]. split; [exact Rr|]. split; [apply select_len|].
  split; [intros i Hi; rewrite select_nth by exact Hi; reflexivity|]. split; [|exact Em].
  intros L. rewrite Ei. replace (length l =? 0) with false by lia. reflexivity.
Qed.
Print Assumptions C12_with_ids.
Example C12_ex_with_ids :
  match with_ids ex_alloc ex_allocw ex_a (FPartial 7 [12; 13; 15] 10) (Some 1) with
  | Some r => map (ar_get r) (seq 0 6)
  | None => []
  end = map Some [Some 1; Some 1; Some 7; None; Some 1; Some 7].
Proof. vm_compute. reflexivity. Qed.

Theorem C12_to_dense {A} alloc allocw (a : arr A) l :
  alloc_sz alloc -> allocw_ok allocw -> ar_rep a l ->
  exists r, to_dense_form alloc allocw a = Some r /\ ar_rep r l /\
    (0 < length l -> is_dense_form r = true).
Proof.
  intros HA HW R. destruct (to_dense_ok alloc allocw HA HW a l R) as (r & E & Rr & Ei).
  exists r. split; [exact E|]. split; [exact Rr|]. intros L. unfold is_dense_form. rewrite Ei.
  replace (length l =? 0) with false by lia. reflexivity.
Qed.
Print Assumptions C12_to_dense.
Example C12_ex_to_dense :
  match to_dense_form ex_alloc ex_allocw ex_a with
  | Some r => (map (ar_get r) (seq 0 6), is_dense_form r)
  | None => ([], false)
  end = (map Some ex_l, true).
Proof. vm_compute. reflexivity. Qed.

Lemma spurious_iff {A} eqb (a : arr A) l m : spurious_bitmap eqb a l m <-> null_case eqb a l m.
Proof.
  split.
  - intros (x & y & -> & Em & E & H1 & H2 & H3 & i & v & H4 & H5 & H6). exists x. split; [reflexivity|].
    rewrite Em. split; [exact E|]. split; [exact H1|]. split; [exact H2|]. split; [exact H3|].
    exists i. split; [exact H4|]. rewrite H5. cbn [keptv]. rewrite H6. reflexivity.
  - intros (x & -> & E & H1 & H2 & H3 & i & H4 & H5).
    destruct (ar_miss a) as [y|] eqn:Em; [|discriminate]. exists x, y. split; [reflexivity|].
    split; [exact Em|]. split; [exact E|]. split; [exact H1|]. split; [exact H2|]. split; [exact H3|].
    exists i. specialize (H3 i H4). destruct (nth i l None) as [v|] eqn:Ev; [|congruence]. exists v.
    split; [exact H4|]. split; [reflexivity|]. cbn [keptv] in H5. destruct (eqb v x); [discriminate|reflexivity].
Qed.

(** For any operator==. *)
Theorem C12_to_sparse {A} (eqb : A -> A -> bool) alloc allocw addr (a : arr A) l m :
  alloc_sz alloc -> allocw_ok allocw -> ar_rep a l -> ~ spurious_bitmap eqb a l m ->
  exists r l', to_sparse eqb alloc allocw addr a m = Some r /\ ar_rep r l' /\ length l' = length l /\
    (forall i, i < length l -> same_up_to eqb m (nth i l' None) (nth i l None)) /\
    (ar_ids r <> FFull -> ar_miss r = m) /\
    (forall i, In i (fids (length l) (ar_ids r)) ->
       opt_eqb eqb m (nth i l None) = false \/ opt_eqb eqb (nth i l None) m = false).
Proof. intros HA HW R N. apply to_sparse_ok; auto. intros C. apply N. apply spurious_iff. exact C. Qed.
Print Assumptions C12_to_sparse.

(** When operator== is equality the elements are unchanged. *)
Theorem C12_to_sparse_exact {A} (eqb : A -> A -> bool) alloc allocw addr (a : arr A) l m :
  (forall x y, eqb x y = true <-> x = y) ->
  alloc_sz alloc -> allocw_ok allocw -> ar_rep a l -> ~ spurious_bitmap eqb a l m ->
  exists r, to_sparse eqb alloc allocw addr a m = Some r /\ ar_rep r l /\
    (ar_ids r <> FFull -> ar_miss r = m) /\
    (forall i, In i (fids (length l) (ar_ids r)) -> nth i l None <> m).
Proof.
  intros He HA HW R N. destruct (C12_to_sparse eqb alloc allocw addr a l m HA HW R N) as (r & l' & E & Rr & L & S & Mr & D).
  exists r. split; [exact E|]. split; [|split; [exact Mr|]].
  - replace l with l'; [exact Rr|]. apply (nth_ext _ _ None None); [exact L|]. rewrite L. intros i Hi.
    destruct (S i Hi) as [H|(x & y & _ & -> & -> & [H|H])]; [exact H| |]; apply He in H; congruence.
  - intros i Hi C. specialize (D i Hi). rewrite C in D.
    assert (opt_eqb eqb m m = true) as Q by (apply (opt_eqb_ok eqb He); reflexivity). destruct D; congruence.
Qed.
Print Assumptions C12_to_sparse_exact.
Example C12_ex_to_sparse :
  match to_sparse Nat.eqb ex_alloc ex_allocw 9 ex_a (Some 8) with
  | Some r => (map (ar_get r) (seq 0 6), ar_ids r, ar_miss r)
  | None => ([], FEmpty, None)
  end = (map Some ex_l, FPartial 9 [0; 1; 2; 3; 5] 0, Some 8).
Proof. vm_compute. reflexivity. Qed.
Example C12_ex_not_spurious : ~ spurious_bitmap Nat.eqb ex_a ex_l (Some 7).
Proof.
  intros (x & y & _ & _ & _ & _ & _ & H & _). apply (H 3); [cbn; tauto|reflexivity].
Qed.

(** The excluded case is really undefined: the new bitmap claims words although no
    buffer was allocated for it. *)
Theorem C12_to_sparse_spurious {A} (eqb : A -> A -> bool) alloc allocw addr (a : arr A) l m :
  alloc_sz alloc -> allocw_ok allocw -> ar_rep a l -> spurious_bitmap eqb a l m ->
  to_sparse eqb alloc allocw addr a m = None.
Proof. intros HA HW R N. apply (to_sparse_null alloc allocw HA HW eqb addr a l); [exact R|]. apply spurious_iff. exact N. Qed.
Print Assumptions C12_to_sparse_spurious.
Theorem C12_to_sparse_refuted :
  exists (a : arr nat) l m, ar_rep a l /\
    forall alloc allocw addr, alloc_sz alloc -> allocw_ok allocw ->
      to_sparse Nat.eqb alloc allocw addr a m = None.
Proof.
  exists (mkArr 5 (FPartial 100 [1; 3] 0) (mkD [7; 8] [3%N] 0) (Some 0)), [Some 0; Some 7; Some 0; Some 8; Some 0], (Some 0).
  assert (R : ar_rep (mkArr 5 (FPartial 100 [1; 3] 0) (mkD [7; 8] [3%N] 0) (Some 0)) [Some 0; Some 7; Some 0; Some 8; Some 0]).
  { split; [split; [|split; [|split]]|split; [reflexivity|]].
    - cbn. split; [discriminate|]. split; [lia|]. split.
      + intros i j H. cbn [length] in H. destruct i as [|[|i]], j as [|[|j]]; cbn [nth]; lia.
      + repeat constructor.
    - split; [cbn; lia|]. split; [repeat constructor|]. right. reflexivity.
    - reflexivity.
    - discriminate.
    - intros i Hi. do 5 (destruct i; [reflexivity|]). cbn in Hi. lia. }
  split; [exact R|]. intros alloc allocw addr HA HW. eapply C12_to_sparse_spurious; eauto.
  exists 0, 0. split; [reflexivity|]. split; [reflexivity|]. split; [reflexivity|]. split; [reflexivity|].
  split; [discriminate|]. split.
  - intros i Hi. cbn in Hi. destruct Hi as [<-|[<-|[]]]; discriminate.
  - exists 1, 7. split; [cbn; tauto|]. split; reflexivity.
Qed.
Print Assumptions C12_to_sparse_refuted.

(** With an operator== that is not equality elements can change: -0.0 becomes 0.0. *)
Theorem C12_to_sparse_negative_zero_refuted :
  exists (a r : arr spec_float) l, ar_rep a l /\
    to_sparse SFeqb (fun n => repeat S754_nan n) (fun n => repeat 0%N n) 0 a (Some (S754_zero false)) = Some r /\
    ar_get a 1 = Some (Some (S754_zero true)) /\ ar_get r 1 = Some (Some (S754_zero false)).
Proof.
  exists (ar_dense (mkD [S754_infinity false; S754_zero true] [] 0)).
  eexists _, [Some (S754_infinity false); Some (S754_zero true)]. split; [|split; [vm_compute; reflexivity|split; reflexivity]].
  apply ar_dense_rep. split; [split; [cbn; lia|split; [constructor|left; reflexivity]]|]. split; [reflexivity|].
  intros i Hi. do 2 (destruct i; [reflexivity|]). cbn in Hi. lia.
Qed.
Print Assumptions C12_to_sparse_negative_zero_refuted.

(** ** C13 *)
Theorem C13_slice {A} (a : arr A) l start_id row_count : ar_rep a l -> start_id + row_count <= length l ->
  exists r, ar_slice a start_id row_count = Some r /\ ar_rep r (firstn row_count (skipn start_id l)).
Proof. apply slice_ok. Qed.
Print Assumptions C13_slice.
Example C13_ex_slice :
  match ar_slice ex_a 2 3 with Some r => (map (ar_get r) (seq 0 3), ar_ids r) | None => ([], FEmpty) end
  = ([Some (Some 7); Some None; Some (Some 8)], FPartial 101 [3; 4] 2).
Proof. vm_compute. reflexivity. Qed.

Theorem C13_present_count {A} (a : arr A) l : ar_rep a l -> ar_present_count a = Some (length (filter is_some l)).
Proof. apply present_count_ok. Qed.
Print Assumptions C13_present_count.
Example C13_ex_present_count : ar_present_count ex_a = Some 5.
Proof. vm_compute. reflexivity. Qed.

(** Each call of [fn] covers one index, each call of [repeated_fn] covers [count]
    indices; together, in order, they list every index with its element. *)
Theorem C13_for_each {A} (a : arr A) l : ar_rep a l ->
  exists cs, ar_for_each a = Some cs /\ flat_map expand cs = combine (seq 0 (length l)) l.
Proof. apply for_each_ok. Qed.
Print Assumptions C13_for_each.
Theorem C13_for_each_fn {A} (a : arr A) l : ar_rep a l ->
  ar_for_each_fn a = Some (combine (seq 0 (length l)) l).
Proof.
  intros R. destruct (for_each_ok a l R) as (cs & E & H). unfold ar_for_each_fn. rewrite E. cbn [bind]. rewrite H. reflexivity.
Qed.
Print Assumptions C13_for_each_fn.
Example C13_ex_for_each : ar_for_each ex_a =
  Some [Many 0 1 (Some 7); One 1 (Some 5); Many 2 1 (Some 7); One 3 None; One 4 (Some 8); Many 5 1 (Some 7)].
Proof. vm_compute. reflexivity. Qed.

Theorem C13_for_each_present {A} (a : arr A) l : ar_rep a l ->
  exists cs, ar_for_each_present a = Some cs /\
    flat_map expand cs = filter (fun c => is_some (snd c)) (combine (seq 0 (length l)) l).
Proof. apply for_each_present_ok. Qed.
Print Assumptions C13_for_each_present.
Theorem C13_for_each_present_fn {A} (a : arr A) l : ar_rep a l ->
  ar_for_each_present_fn a = Some (filter (fun c => is_some (snd c)) (combine (seq 0 (length l)) l)).
Proof.
  intros R. destruct (for_each_present_ok a l R) as (cs & E & H). unfold ar_for_each_present_fn. rewrite E. cbn [bind].
  rewrite H. reflexivity.
Qed.
Print Assumptions C13_for_each_present_fn.
Example C13_ex_for_each_present : ar_for_each_present_fn ex_a =
  Some [(0, Some 7); (1, Some 5); (2, Some 7); (4, Some 8); (5, Some 7)].
Proof. vm_compute. reflexivity. Qed.

(** ** C14 *)
Theorem C14_equivalent {A} (eqb : A -> A -> bool) alloc allocw addr (a b : arr A) l m :
  (forall x y, eqb x y = true <-> x = y) ->
  alloc_sz alloc -> allocw_ok allocw -> ar_rep a l -> ar_rep b m -> 0 < length l \/ 0 < length m ->
  exists r, ar_equivalent eqb alloc allocw addr a b = Some r /\ (r = true <-> l = m).
Proof.
  intros He HA HW Ra Rb L. destruct (equivalent_ok alloc allocw HA HW eqb addr a b l m He Ra Rb) as (r & E & H & _).
  exists r. split; [exact E|]. apply H. exact L.
Qed.
Print Assumptions C14_equivalent.
Example C14_ex_equivalent :
  match to_dense_form ex_alloc ex_allocw ex_a with
  | Some d => ar_equivalent Nat.eqb ex_alloc ex_allocw 0 ex_a d
  | None => None
  end = Some true /\
  ar_equivalent Nat.eqb ex_alloc ex_allocw 0 ex_a (ar_const 6 (Some 7)) = Some false.
Proof. vm_compute. split; reflexivity. Qed.

(** Empty arrays: two of them can be reported different. *)
Theorem C14_empty {A} (eqb : A -> A -> bool) alloc allocw addr (a b : arr A) :
  (forall x y, eqb x y = true <-> x = y) ->
  alloc_sz alloc -> allocw_ok allocw -> ar_rep a [] -> ar_rep b [] ->
  exists r, ar_equivalent eqb alloc allocw addr a b = Some r /\
    (r = true <-> (is_dense_form a = true /\ is_dense_form b = true) \/ ar_miss a = ar_miss b).
Proof.
  intros He HA HW Ra Rb. destruct (equivalent_ok alloc allocw HA HW eqb addr a b [] [] He Ra Rb) as (r & E & _ & H).
  exists r. split; [exact E|]. apply H; reflexivity.
Qed.
Print Assumptions C14_empty.
Theorem C14_empty_refuted : exists a b : arr nat, ar_rep a [] /\ ar_rep b [] /\
  ar_equivalent Nat.eqb ex_alloc ex_allocw 0 a b = Some false.
Proof.
  exists (ar_const 0 (Some 5)), (ar_const 0 None). split; [apply (ar_const_rep 0)|]. split; [apply (ar_const_rep 0)|].
  vm_compute. reflexivity.
Qed.
Print Assumptions C14_empty_refuted.

(** ** C39 *)
Theorem C39_create_array {A} (d : A) mem data :
  length mem = bitmap_size (length data) -> Forall (fun x => x < 2 ^ 32)%N mem ->
  exists r, create_array d mem data = Some r /\ ar_rep r data /\ is_dense_form r = true.
Proof.
  intros L F. destruct (rep_create d mem data L F) as (r & E & R). unfold create_array. rewrite E. cbn [bind].
  eexists; split; [reflexivity|]. split; [apply ar_dense_rep; exact R|reflexivity].
Qed.
Print Assumptions C39_create_array.
Example C39_ex_create_array :
  match create_array 0 [7%N] [Some 3; None; Some 4] with Some r => map (ar_get r) (seq 0 3) | None => [] end
  = [Some (Some 3); Some None; Some (Some 4)].
Proof. vm_compute. reflexivity. Qed.

(** CreateArray(size, ids, values) for either choice of form. *)
Theorem C39_create_array_ids {A} (alloc : nat -> list A) addr size ids vs :
  alloc_sz alloc -> ascending ids -> Forall (fun i => i < size) ids -> length ids = length vs ->
  exists r, create_array_ids alloc addr size ids vs = Some r /\ ar_rep r (map (at_id ids vs) (seq 0 size)).
Proof. apply create_ids_ok. Qed.
Print Assumptions C39_create_array_ids.
Example C39_ex_create_array_ids :
  option_map (fun r => (map (ar_get r) (seq 0 9), is_dense_form r)) (create_array_ids ex_alloc 0 9 [2; 6] [Some 1; None])
  = Some (map Some [None; None; Some 1; None; None; None; None; None; None], false) /\
  option_map (fun r => (map (ar_get r) (seq 0 4), is_dense_form r)) (create_array_ids ex_alloc 0 4 [1; 3] [Some 1; Some 2])
  = Some (map Some [None; Some 1; None; Some 2], true).
Proof. vm_compute. split; reflexivity. Qed.

Theorem C39_sparse_builder {A} (alloc : nat -> list A) addr size max (ops : list (nat * option A)) :
  alloc_sz alloc -> ascending (map fst ops) -> Forall (fun c => fst c < size) ops -> length ops <= max ->
  exists b r, sb_adds (sb_init alloc size max) ops = Some b /\ sb_build addr b = Some r /\
    ar_rep r (map (at_id (map fst ops) (map snd ops)) (seq 0 size)).
Proof. apply sparse_builder_ok. Qed.
Print Assumptions C39_sparse_builder.
Example C39_ex_sparse_builder :
  match sb_adds (sb_init ex_alloc 6 3) [(1, Some 5); (4, None); (5, Some 8)] with
  | Some b => option_map (fun r => map (ar_get r) (seq 0 6)) (sb_build 0 b)
  | None => None
  end = Some (map Some [None; Some 5; None; None; None; Some 8]).
Proof. vm_compute. reflexivity. Qed.
