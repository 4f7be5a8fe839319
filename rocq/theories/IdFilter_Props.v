(** C11: IdFilter lookup and set operations. *)
From Verif Require Import Base IdFilter_Model IdFilter_Spec IdFilter_Proofs.

(** The constructor: same ids, and the type agrees with their number. *)
Theorem C11_constructor : forall size addr ids off, ids_in size off ids ->
  let f := mk_filter size addr ids off in
  fwf size f /\ fids size f = map (fun x => x - off) ids /\
  (f = FEmpty <-> ids = []) /\ (f = FFull <-> ids <> [] /\ length ids = size).
Proof.
  exact (fun size addr ids off H =>
    conj (proj1 (mk_filter_ok size addr ids off H))
      (conj (proj2 (mk_filter_ok size addr ids off H)) (mk_filter_type size addr ids off H))).
Qed.
Print Assumptions C11_constructor.
Example C11_ex_constructor :
  ids_in 4 10 [10; 12; 13] /\ mk_filter 4 0 [10; 12; 13] 10 = FPartial 0 [10; 12; 13] 10 /\
  mk_filter 3 0 [10; 11; 12] 10 = FFull /\ mk_filter 0 7 [] 10 = FEmpty.
Proof.
  split; [|repeat split; reflexivity]. split; [|repeat constructor].
  intros i j H. simpl in H.
  destruct i as [|[|[|i]]], j as [|[|[|j]]]; simpl; lia.
Qed.

(** The ids of a well-formed filter are ascending and below the size. *)
Theorem C11_ids_ascending : forall n f, fwf n f ->
  ascending (fids n f) /\ Forall (fun x => x < n) (fids n f).
Proof. exact fids_asc. Qed.
Print Assumptions C11_ids_ascending.

(** IdToOffset gives the position of the id, and nothing iff it is absent. *)
Theorem C11_id_to_offset : forall n f id, fwf n f -> id < n ->
  id_to_offset f id = index_of id (fids n f).
Proof. exact id_to_offset_ok. Qed.
Print Assumptions C11_id_to_offset.
(** [index_of] is the position: *)
Theorem C11_index_of : forall x l o,
  (index_of x l = Some o -> o < length l /\ nth o l 0 = x) /\
  (index_of x l = None <-> ~ In x l).
Proof. exact (fun x l o => conj (index_of_some x l o) (index_of_none x l)). Qed.
Print Assumptions C11_index_of.
Example C11_ex_id_to_offset :
  map (id_to_offset (FPartial 0 [12; 15; 16] 10)) [0; 2; 3; 5; 6; 9] =
  [None; Some 0; None; Some 1; Some 2; None].
Proof. reflexivity. Qed.

(** IdsOffsetToId and IdToOffset are inverse to each other. *)
Theorem C11_offset_round_trip : forall n f o x, fwf n f ->
  (exists a i p, f = FPartial a i p) -> nth_error (fids n f) o = Some x ->
  ids_offset_to_id f o = Some x /\ id_to_offset f x = Some o.
Proof. exact ids_offset_to_id_ok. Qed.
Print Assumptions C11_offset_round_trip.
Example C11_ex_round_trip : ids_offset_to_id (FPartial 0 [12; 15; 16] 10) 1 = Some 5.
Proof. reflexivity. Qed.

(** ForEachCommonId never reads outside the two spans, and calls [fn] exactly for
    the common ids, in increasing order, with the offsets in both. *)
Theorem C11_for_each_common : forall n1 n2 f1 f2 off1 off2,
  ids_in n1 off1 f1 -> ids_in n2 off2 f2 -> f1 <> [] -> f2 <> [] ->
  exists calls, for_each_common f1 off1 f2 off2 = Some calls /\
    ascending (map (fun c => fst (fst c)) calls) /\
    forall x o1 o2, In (x, o1, o2) calls <->
      o1 < length f1 /\ nth o1 f1 0 - off1 = x /\ o2 < length f2 /\ nth o2 f2 0 - off2 = x.
Proof.
  intros n1 n2 f1 f2 off1 off2 I1 I2 N1 N2.
  exists (common (zb off1 f1) (zb off2 f2)).
  split; [exact (for_each_common_ok n1 n2 f1 f2 off1 off2 I1 I2 N1 N2)|].
  split; [exact (common_asc _ _ (zb_asc n1 off1 f1 I1))|].
  intros x o1 o2. rewrite <- (zb_len off1 f1), <- (zb_len off2 f2), <- !zb_nth.
  exact (common_in _ _ x o1 o2 (zb_asc n1 off1 f1 I1) (zb_asc n2 off2 f2 I2)).
Qed.
Print Assumptions C11_for_each_common.
Example C11_ex_common :
  for_each_common [10; 12; 13; 17; 18] 10 [100; 101; 103; 104; 108; 109] 100 =
    Some [(0, 0, 0); (3, 2, 2); (8, 4, 4)].
Proof. reflexivity. Qed.

(** UpperBoundMerge: the result is well formed, contains every id of every
    argument, and contains nothing else unless it is the full filter. *)
Theorem C11_merge : forall addr n f fs, Forall (fwf n) (f :: fs) ->
  exists r, merge_all addr n f fs = Some r /\ fwf n r /\
    (forall g x, In g (f :: fs) -> In x (fids n g) -> In x (fids n r)) /\
    (r = FFull \/ forall x, In x (fids n r) -> exists g, In g (f :: fs) /\ In x (fids n g)).
Proof.
  intros addr n f fs H. destruct (merge_all_ok addr n fs f H) as (r & R & Wr & U).
  exists r. split; [exact R|]. split; [exact Wr|].
  split; [intros g x Hg Hx; exact (merge_contains addr n f fs r g x H R Hg Hx)|].
  destruct U as [U|U]; [left; exact U|right; intros x Hx; exact (proj1 (U x) Hx)].
Qed.
Print Assumptions C11_merge.
Example C11_ex_merge :
  merge_all (fun _ => 9) 20 (FPartial 0 [12; 15] 10) [FEmpty; FPartial 1 [0; 5; 7] 0] =
    Some (FPartial 9 [0; 2; 5; 7] 0) /\
  merge_all (fun _ => 9) 12 (FPartial 0 [12; 15] 10) [FPartial 1 [0; 5; 7] 0] = Some FFull.
Proof. split; reflexivity. Qed.

(** UpperBoundIntersect: one of the arguments, none of them is smaller, and it
    contains every id contained in all of them. *)
Theorem C11_intersect : forall n f fs, Forall (fwf n) (f :: fs) ->
  In (intersect_all f fs) (f :: fs) /\
  (forall g, In g (f :: fs) -> length (fids n (intersect_all f fs)) <= length (fids n g)) /\
  forall x, (forall g, In g (f :: fs) -> In x (fids n g)) -> In x (fids n (intersect_all f fs)).
Proof. exact (fun n f fs => intersect_all_ok n fs f). Qed.
Print Assumptions C11_intersect.
Example C11_ex_intersect :
  intersect_all FFull [FPartial 0 [2; 5] 0; FPartial 1 [15] 10] = FPartial 1 [15] 10.
Proof. reflexivity. Qed.
