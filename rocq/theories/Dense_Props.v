(** C05: DenseArray views and derived data; C06: DenseArrayBuilder; C38: concatenation. *)
From Verif Require Import Base Bits_Model Bitmap_Model Algo_Model Dense_Model Dense_Spec Dense_Proofs.

(** Used in the examples: 5 values, elements 1 and 4 missing, bits start at bit 30. *)
Definition ex_arr : darr nat := mkD [10; 11; 12; 13; 14] [1073741824; 3]%N 30.
Definition ex_list : list (option nat) := [Some 10; None; Some 12; Some 13; None].
Example ex_represents : represents ex_arr ex_list.
Proof.
  split; [|split; [reflexivity|]].
  - split; [cbn; lia|]. split; [repeat constructor|right; reflexivity].
  - intros i Hi. cbn [length ex_list] in Hi. do 5 (destruct i as [|i]; [reflexivity|]). lia.
Qed.

(** A well-formed array denotes exactly one list of optional values. *)
Theorem C05_denotes : forall A (a : darr A), da_valid a ->
  exists l, represents a l /\ forall m, represents a m -> m = l.
Proof.
  exact (fun A a H => match represents_total a H with
    | ex_intro _ l R => ex_intro _ l (conj R (fun m M => represents_unique a m l M R)) end).
Qed.
Print Assumptions C05_denotes.
Example C05_denotes_ex : da_valid ex_arr.
Proof. exact (proj1 ex_represents). Qed.

Theorem C05_slice : forall A (a : darr A) l start count,
  represents a l -> start + count <= length l ->
  exists r, da_slice a start count = Some r /\ represents r (firstn count (skipn start l)).
Proof. exact (fun A => @rep_slice A). Qed.
Print Assumptions C05_slice.
Example C05_slice_ex : da_slice ex_arr 1 3 = Some (mkD [11; 12; 13] [1073741824; 3]%N 31) /\
  da_slice ex_arr 2 0 = Some (mkD [] [] 0) /\ da_slice ex_arr 3 2 = Some (mkD [13; 14] [3]%N 1).
Proof. repeat split. Qed.

Theorem C05_force_no_offset : forall A (a : darr A) l, represents a l ->
  exists r, da_force_no_offset a = Some r /\ boff r = 0 /\ represents r l.
Proof. exact (fun A => @rep_force A). Qed.
Print Assumptions C05_force_no_offset.
Example C05_force_ex : da_force_no_offset ex_arr = Some (mkD [10; 11; 12; 13; 14] [13]%N 0).
Proof. reflexivity. Qed.

Theorem C05_present_count : forall A (a : darr A) l, represents a l ->
  da_present_count a = Some (length (filter is_some l)).
Proof. exact (fun A => @rep_count A). Qed.
Print Assumptions C05_present_count.
Example C05_present_count_ex : da_present_count ex_arr = Some 3.
Proof. reflexivity. Qed.

Theorem C05_flags : forall A (a : darr A) l, represents a l ->
  exists all_missing full all_present,
    da_is_all_missing a = Some all_missing /\ da_is_full a = Some full /\
    da_is_all_present a = Some all_present /\
    (all_missing = true <-> Forall (fun o => o = None) l) /\
    (full = true <-> Forall (fun o => o <> None) l) /\
    (all_present = true <-> Forall (fun o => o <> None) l).
Proof. exact (fun A => @rep_flags A). Qed.
Print Assumptions C05_flags.

Theorem C05_to_mask : forall A (a : darr A) l, represents a l ->
  represents (da_to_mask a) (map (option_map (fun _ => tt)) l).
Proof. exact (fun A => @rep_mask A). Qed.
Print Assumptions C05_to_mask.

(** ForEach calls the callback once per index, in order. *)
Theorem C05_for_each : forall A (a : darr A) l, represents a l ->
  exists calls, da_for_each a = Some calls /\
    map (fun c : nat * bool * A => (fst (fst c), if snd (fst c) then Some (snd c) else None)) calls =
    combine (seq 0 (length l)) l.
Proof. exact (fun A => @rep_for_each A). Qed.
Print Assumptions C05_for_each.

Theorem C05_for_each_present : forall A (a : darr A) l, represents a l ->
  da_for_each_present a = Some (present_pairs l).
Proof. exact (fun A => @rep_for_each_present A). Qed.
Print Assumptions C05_for_each_present.
Example C05_for_each_ex : da_for_each_present ex_arr = Some [(0, 10); (2, 12); (3, 13)].
Proof. reflexivity. Qed.

(** ArraysAreEquivalent does not depend on the representation. *)
Theorem C05_equivalent : forall A (eqb : A -> A -> bool) a b l m,
  (forall x y, eqb x y = true <-> x = y) -> represents a l -> represents b m ->
  exists r, da_equivalent eqb a b = Some r /\ (r = true <-> l = m).
Proof. exact (fun A => @rep_equivalent A). Qed.
Print Assumptions C05_equivalent.
Example C05_equivalent_ex :
  da_equivalent Nat.eqb ex_arr (mkD [10; 99; 12; 13; 98] [13]%N 0) = Some true /\
  da_equivalent Nat.eqb ex_arr (mkD [10; 99; 12; 13; 98] [15]%N 0) = Some false.
Proof. split; reflexivity. Qed.

(** CreateDenseArray, CreateConstDenseArray, CreateEmptyDenseArray. *)
Theorem C05_create : forall A (d : A) mem data,
  length mem = bitmap_size (length data) -> Forall (fun x => x < 2 ^ 32)%N mem ->
  exists r, create_dense_array d mem data = Some r /\ represents r data.
Proof. exact (fun A => @rep_create A). Qed.
Print Assumptions C05_create.
Example C05_create_ex : create_dense_array 0 [12345%N] ex_list = Some (mkD [10; 0; 12; 13; 0] [13]%N 0).
Proof. reflexivity. Qed.

Theorem C05_create_const_empty : forall A n (x : A) (mem : list A),
  represents (create_const n x) (repeat (Some x) n) /\
  represents (create_empty mem) (repeat None (length mem)).
Proof. exact (fun A n x mem => conj (rep_const n x) (rep_empty mem)). Qed.
Print Assumptions C05_create_const_empty.

(** DenseArrayBuilder: after any in-range history of Set / Add / SetNConst the
    built array holds the last present value written to each index and is missing
    elsewhere, and Build(size) is its prefix. *)
Theorem C06_builder : forall A (mem : list A) ws,
  Forall (wr_in (length mem)) ws ->
  exists b, wr_runs (db_init mem) ws = Some b /\
    represents (db_build b) (fold_left list_wr ws (repeat None (length mem))) /\
    forall size, size <= length mem -> exists r, db_build_size b size = Some r /\
      represents r (firstn size (fold_left list_wr ws (repeat None (length mem)))).
Proof. exact (fun A => @rep_builder A). Qed.
Print Assumptions C06_builder.
Example C06_builder_ex :
  let ws := [WSetN 1 3 (Some 7); WSet 2 (Some 8); WSet 2 None; WSetN 0 2 None; WSet 4 None] in
  Forall (wr_in 5) ws /\
  fold_left list_wr ws (repeat None 5) = [None; Some 7; Some 8; Some 7; None].
Proof. split; [repeat constructor; cbn; lia|reflexivity]. Qed.

(** Concatenation of arrays with arbitrary bit offsets. *)
Theorem C38_concat : forall A (a b : darr A) l m, represents a l -> represents b m ->
  exists r, da_concat a b = Some r /\ represents r (l ++ m).
Proof. exact (fun A => @rep_concat A). Qed.
Print Assumptions C38_concat.
Example C38_concat_ex : da_concat ex_arr ex_arr =
  Some (mkD [10; 11; 12; 13; 14; 10; 11; 12; 13; 14] [4294966701]%N 0).
Proof. reflexivity. Qed.
