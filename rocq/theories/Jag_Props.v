(** C35, C36: jagged shapes, their concatenation and stacking. *)
From Verif Require Import Base Bits_Model Bitmap_Model Dense_Model Dense_Spec Dense_Proofs Edge_Model Edge_Spec Edge_Proofs
  IdFilter_Model IdFilter_Spec IdFilter_Proofs Array_Model Array_Spec Array_Proofs ArrayIter_Proofs
  Jag_Model Jag_Spec Jag_Proofs JagConcat_Proofs.

(** ** C35 *)
(** Edges of any kind make a shape exactly when the first has one parent, each next one
    has as many parents as the previous has children, and every edge sends each child to
    a parent, in order. *)
Theorem C35_from_edges alloc es pms : alloc_ok alloc -> Forall2 (fun e pm => edge_rep e (fst pm) (snd pm)) es pms ->
  (chain_ok 1 pms -> exists s, from_edges alloc es = Some (inr s) /\ shape_rep s (map sizes_of pms)) /\
  (~ chain_ok 1 pms -> exists err, from_edges alloc es = Some (inl err)).
Proof. apply from_edges_ok. Qed.
Print Assumptions C35_from_edges.
Theorem C35_add_dims alloc s szs es pms : alloc_ok alloc -> shape_rep s szs -> Forall2 (fun e pm => edge_rep e (fst pm) (snd pm)) es pms ->
  (chain_ok (total 1 szs) pms -> exists r, add_dims alloc s es = Some (inr r) /\ shape_rep r (szs ++ map sizes_of pms)) /\
  (~ chain_ok (total 1 szs) pms -> exists err, add_dims alloc s es = Some (inl err)).
Proof. apply add_dims_ok. Qed.
Print Assumptions C35_add_dims.
Theorem C35_flat_from_size n : (Z.of_nat n < 2 ^ 63)%Z -> exists s, flat_from_size (Z.of_nat n) = Some s /\ shape_rep s [[n]].
Proof. apply flat_from_size_ok. Qed.
Print Assumptions C35_flat_from_size.
Theorem C35_size s szs : shape_rep s szs -> sh_size s = Z.of_nat (total 1 szs).
Proof. apply sh_size_ok. Qed.
Print Assumptions C35_size.
Theorem C35_remove_dims s szs from : shape_rep s szs -> from <= length szs ->
  exists r, remove_dims s from = Some r /\ shape_rep r (firstn from szs).
Proof. apply remove_dims_ok. Qed.
Print Assumptions C35_remove_dims.
(** Flattening replaces a range of dimensions by one, whose rows count the elements below
    the rows of the first of them; the number of elements stays. *)
Theorem C35_flatten alloc s szs from to : alloc_ok alloc -> shape_rep s szs -> fits szs -> from <= to <= length szs ->
  exists r, flatten_dims alloc s from to = Some r /\ shape_rep r (flatten_spec szs from to) /\ sh_size r = sh_size s.
Proof.
  intros Ha R Hf H. destruct (flatten_dims_ok alloc s szs from to Ha R Hf H) as (r & E & Rr). exists r. split; [exact E|]. split; [exact Rr|].
  rewrite (sh_size_ok _ _ Rr), (sh_size_ok _ _ R). f_equal. apply flatten_spec_ok; [apply R|exact H].
Qed.
Print Assumptions C35_flatten.
(** The answer does not depend on whether the two shapes share their representation. *)
Theorem C35_equivalent alloc same a sa b sb : alloc_ok alloc -> (same = true -> a = b) -> shape_rep a sa -> shape_rep b sb ->
  exists r, is_equiv alloc same a b = Some r /\ (r = true <-> sa = sb).
Proof. apply is_equiv_ok. Qed.
Print Assumptions C35_equivalent.
Theorem C35_fast_check same a sa b sb : (same = true -> a = b) -> shape_rep a sa -> shape_rep b sb ->
  match fast_equiv same a b with
  | NotEq => sa <> sb
  | Eq => sa = sb
  | SizesEq => length sa = length sb /\ map list_sum sa = map list_sum sb
  end.
Proof. apply fast_equiv_ok. Qed.
Print Assumptions C35_fast_check.
Theorem C35_broadcastable alloc same a sa b sb : alloc_ok alloc -> (same = true -> a = b) -> shape_rep a sa -> shape_rep b sb ->
  exists r, is_broadcastable alloc same a b = Some r /\ (r = true <-> exists rest, sb = sa ++ rest).
Proof. apply is_broadcastable_ok. Qed.
Print Assumptions C35_broadcastable.
Theorem C35_broadcast_edge alloc a sa b rest : alloc_ok alloc -> shape_rep a sa -> shape_rep b (sa ++ rest) -> fits sa ->
  exists e, broadcast_edge alloc a b = Some e /\ dim_rep e (flat (total 1 sa) rest).
Proof. apply broadcast_edge_ok. Qed.
Print Assumptions C35_broadcast_edge.
(** The operators read negative and too large bounds as Python does. *)
Theorem C35_op_remove_dims s szs from : shape_rep s szs ->
  exists r, op_remove_dims s from = Some r /\ shape_rep r (firstn (py_bound from (length szs)) szs).
Proof. apply op_remove_dims_ok. Qed.
Print Assumptions C35_op_remove_dims.
Theorem C35_op_flatten alloc s szs from to : alloc_ok alloc -> shape_rep s szs -> fits szs ->
  let f := py_bound from (length szs) in let t := py_bound to (length szs) in
  exists r, op_flatten alloc s from to = Some r /\ shape_rep r (flatten_spec szs f (Nat.max f t)).
Proof. apply op_flatten_ok. Qed.
Print Assumptions C35_op_flatten.
Theorem C35_op_edge_at s szs dim : shape_rep s szs -> (- 2 ^ 63 < dim < 2 ^ 63)%Z ->
  let n := Z.of_nat (length szs) in
  ((- n <= dim < n)%Z -> exists e, op_edge_at s dim = Some (inr e) /\
     dim_rep e (nth (Z.to_nat (if (dim <? 0)%Z then dim + n else dim)) szs [])) /\
  (~ (- n <= dim < n)%Z -> exists err, op_edge_at s dim = Some (inl err)).
Proof. apply op_edge_at_ok. Qed.
Print Assumptions C35_op_edge_at.
(** For the least int64 the error message negates it: signed overflow. *)
Theorem C35_op_edge_at_refuted : exists s szs dim, shape_rep s szs /\ (- 2 ^ 63 <= dim < 2 ^ 63)%Z /\ op_edge_at s dim = None.
Proof.
  exists [], [], (- 2 ^ 63)%Z. split; [split; constructor|]. split; [lia|]. vm_compute. reflexivity.
Qed.
Print Assumptions C35_op_edge_at_refuted.

(** Two rows: three and zero elements; below them 1, 2, 0 elements. *)
Definition al (n : nat) : list Z := repeat 7%Z n.
Definition ds (zs : list Z) : darr Z := mkD zs [] 0.
Definition ex_edges : list edge :=
  match from_uniform_groups 1 2, unsafe_from_split_points (ds [0; 3; 3]%Z), unsafe_from_mapping (mkD [0; 1; 1]%Z [] 0) 3 with
  | Some (inr a), Some b, c => [a; b; c]
  | _, _, _ => []
  end.
Definition sizes (s : shape) : list (list nat) := map (fun e => map (fun i => match split_size e i with Some z => Z.to_nat z | None => 99 end) (seq 0 (Z.to_nat (e_parent e)))) s.
Example C35_ex : option_map (fun r => match r with inr s => (sizes s, sh_size s, option_map sizes (flatten_dims al s 1 3),
     option_map sizes (op_flatten al s (-2) 2), option_map sizes (flatten_dims al s 2 2), option_map sizes (op_remove_dims s (-1)),
     option_map (fun e => sizes [e]) (broadcast_edge al (firstn 1 s) s)) | inl _ => ([], 0%Z, None, None, None, None, None) end) (from_edges al ex_edges)
  = Some ([[2]; [3; 0]; [1; 2; 0]], 3%Z, Some [[2]; [3; 0]], Some [[2]; [3; 0]; [1; 2; 0]], Some [[2]; [3; 0]; [1; 1; 1]; [1; 2; 0]], Some [[2]; [3; 0]], Some [[3; 0]]).
Proof. vm_compute. reflexivity. Qed.
Example C35_ex_equiv : match from_edges al ex_edges with
  | Some (inr s) => (is_equiv al false s s, is_broadcastable al false (firstn 2 s) s, is_broadcastable al false s (firstn 2 s), is_equiv al false s (firstn 2 s))
  | _ => (None, None, None, None) end = (Some true, Some true, Some false, Some false).
Proof. vm_compute. reflexivity. Qed.

(** ** C36 *)
(** Every sound shape with data of its size is that of one nested list. *)
Theorem C36_nested {A} szs (data : list A) : sizes_ok 1 szs -> length data = total 1 szs ->
  exists x : nest A (length szs), shape_of (length szs) [x] = szs /\ data_of (length szs) [x] = data.
Proof. apply nested_ok. Qed.
Print Assumptions C36_nested.
(** And the nested list is determined by them. *)
Lemma cut_unique {X} : forall (c c' : list (list X)), map (@length X) c = map (@length X) c' -> concat c = concat c' -> c = c'.
Proof.
  induction c as [|x c IH]; intros [|x' c'] L E; try discriminate; [reflexivity|]. cbn [map concat] in *. injection L as L1 L2.
  assert (K : x = x' /\ concat c = concat c').
  { revert x' L1 E. clear. induction x as [|y x IHx]; intros [|y' x'] L1 E; try discriminate; [auto|]. cbn in E. injection E as -> E.
    destruct (IHx x') as [-> K]; [cbn in L1; lia|exact E|auto]. }
  destruct K as [-> K]. f_equal. apply IH; assumption.
Qed.
Lemma forest_unique {A} r : forall F G : list (nest A r), length F = length G -> shape_of r F = shape_of r G -> data_of r F = data_of r G -> F = G.
Proof.
  induction r as [|r IH]; intros F G L S D; [exact D|]. cbn [shape_of data_of] in *. injection S as S1 S2.
  apply (@cut_unique (nest A r)); [exact S1|]. apply IH; [|exact S2|exact D].
  rewrite <- !sum_lengths. f_equal. exact S1.
Qed.
Theorem C36_nested_unique {A} r (x y : nest A r) : shape_of r [x] = shape_of r [y] -> data_of r [x] = data_of r [y] -> x = y.
Proof. intros S D. assert (E : [x] = [y]) by (apply (forest_unique r); [reflexivity|exact S|exact D]). injection E. auto. Qed.
Print Assumptions C36_nested_unique.

(** Inputs are [d + S r] deep nested lists whose first [d] levels have the same sizes. *)
Theorem C36_concat_dense {T} (mem : nat -> list T) alloc r d pre (arrays : list (darr T)) shapes (xs : list (nest (option T) (d + S r))) :
  (forall n, length (mem n) = n) -> alloc_ok alloc -> xs <> [] ->
  Forall2 (fun s x => shape_rep s (shape_of (A := option T) (d + S r) [x])) shapes xs ->
  Forall2 (fun a x => represents a (data_of (A := option T) (d + S r) [x])) arrays xs ->
  Forall (fun x => firstn d (shape_of (A := option T) (d + S r) [x]) = pre) xs ->
  exists a s, concat_dense mem alloc arrays shapes (Z.of_nat d) false = Some (inr (a, s)) /\
    shape_rep s (shape_of (A := option T) (d + S r) [concat_at r d xs]) /\
    represents a (data_of (A := option T) (d + S r) [concat_at r d xs]).
Proof.
  intros Hm. apply (jagged_concat_ok (fun a : darr T => Z.of_nat (da_size a)) d_each (d_build mem) represents).
  - apply dense_size.
  - apply dense_each.
  - intros arrs ls res F L _. apply (dense_build mem arrs ls res Hm F L).
Qed.
Print Assumptions C36_concat_dense.
Theorem C36_concat_array {T} (mem : nat -> list T) addr alloc r d pre (arrays : list (arr T)) shapes (xs : list (nest (option T) (d + S r))) :
  (forall n, length (mem n) = n) -> alloc_ok alloc -> xs <> [] ->
  Forall2 (fun s x => shape_rep s (shape_of (A := option T) (d + S r) [x])) shapes xs ->
  Forall2 (fun a x => ar_rep a (data_of (A := option T) (d + S r) [x])) arrays xs ->
  Forall (fun x => firstn d (shape_of (A := option T) (d + S r) [x]) = pre) xs ->
  exists a s, concat_sparse mem addr alloc arrays shapes (Z.of_nat d) false = Some (inr (a, s)) /\
    shape_rep s (shape_of (A := option T) (d + S r) [concat_at r d xs]) /\
    ar_rep a (data_of (A := option T) (d + S r) [concat_at r d xs]).
Proof.
  intros Hm. apply (jagged_concat_ok (fun a : arr T => Z.of_nat (ar_size a)) s_each (s_build mem addr) ar_rep).
  - apply sparse_size.
  - apply sparse_each.
  - intros arrs ls res. apply (sparse_build mem addr arrs ls res Hm).
Qed.
Print Assumptions C36_concat_array.
(** Stacking: the number of rows and of rows times inputs fit in 64 bits. *)
Theorem C36_stack_dense {T} (mem : nat -> list T) alloc r d pre (arrays : list (darr T)) shapes (xs : list (nest (option T) (d + r))) :
  (forall n, length (mem n) = n) -> alloc_ok alloc -> xs <> [] ->
  Forall2 (fun s x => shape_rep s (shape_of (A := option T) (d + r) [x])) shapes xs ->
  Forall2 (fun a x => represents a (data_of (A := option T) (d + r) [x])) arrays xs ->
  Forall (fun x => firstn d (shape_of (A := option T) (d + r) [x]) = pre) xs ->
  (Z.of_nat (total 1 pre) < 2 ^ 63 - 1)%Z -> (Z.of_nat (total 1 pre) * Z.of_nat (length xs) < 2 ^ 63)%Z ->
  exists a s, concat_dense mem alloc arrays shapes (Z.of_nat d) true = Some (inr (a, s)) /\
    shape_rep s (shape_of (A := option T) (d + S r) [stack_at r d xs]) /\
    represents a (data_of (A := option T) (d + S r) [stack_at r d xs]).
Proof.
  intros Hm. apply (jagged_stack_ok (fun a : darr T => Z.of_nat (da_size a)) d_each (d_build mem) represents).
  - apply dense_size.
  - apply dense_each.
  - intros arrs ls res F L _. apply (dense_build mem arrs ls res Hm F L).
Qed.
Print Assumptions C36_stack_dense.
Theorem C36_stack_array {T} (mem : nat -> list T) addr alloc r d pre (arrays : list (arr T)) shapes (xs : list (nest (option T) (d + r))) :
  (forall n, length (mem n) = n) -> alloc_ok alloc -> xs <> [] ->
  Forall2 (fun s x => shape_rep s (shape_of (A := option T) (d + r) [x])) shapes xs ->
  Forall2 (fun a x => ar_rep a (data_of (A := option T) (d + r) [x])) arrays xs ->
  Forall (fun x => firstn d (shape_of (A := option T) (d + r) [x]) = pre) xs ->
  (Z.of_nat (total 1 pre) < 2 ^ 63 - 1)%Z -> (Z.of_nat (total 1 pre) * Z.of_nat (length xs) < 2 ^ 63)%Z ->
  exists a s, concat_sparse mem addr alloc arrays shapes (Z.of_nat d) true = Some (inr (a, s)) /\
    shape_rep s (shape_of (A := option T) (d + S r) [stack_at r d xs]) /\
    ar_rep a (data_of (A := option T) (d + S r) [stack_at r d xs]).
Proof.
  intros Hm. apply (jagged_stack_ok (fun a : arr T => Z.of_nat (ar_size a)) s_each (s_build mem addr) ar_rep).
  - apply sparse_size.
  - apply sparse_each.
  - intros arrs ls res. apply (sparse_build mem addr arrs ls res Hm).
Qed.
Print Assumptions C36_stack_array.

(** Sound shapes are rejected with an error when there are none, when the dimension is
    out of range, or when ranks or the first [dim] dimensions differ. *)
Theorem C36_rejects alloc (shapes : list shape) (zs : list (list (list nat))) (dim : Z) (insert : bool) : alloc_ok alloc -> Forall2 shape_rep shapes zs ->
  (shapes = [] \/ (exists z0 zs', zs = z0 :: zs' /\
    (~ (0 <= dim < Z.of_nat (length z0 + (if insert then 1 else 0)))%Z \/
     ~ Forall (fun z => length z = length z0 /\ firstn (Z.to_nat dim) z = firstn (Z.to_nat dim) z0) zs))) ->
  (exists e, concat_shapes alloc shapes dim insert = Some (inl e)) /\
  (forall T (mem : nat -> list T) arrays, exists e, concat_dense mem alloc arrays shapes dim insert = Some (inl e)) /\
  (forall T (mem : nat -> list T) addr arrays, exists e, concat_sparse mem addr alloc arrays shapes dim insert = Some (inl e)).
Proof.
  intros Ha F H. destruct (concat_rejects alloc shapes zs dim insert Ha F H) as (e & E). split; [exists e; exact E|].
  split; intros; unfold concat_dense, concat_sparse, concat_arrays; (destruct (negb _); [eexists; reflexivity|]); rewrite E; eexists; reflexivity.
Qed.
Print Assumptions C36_rejects.
Theorem C36_count_mismatch alloc (shapes : list shape) (dim : Z) (insert : bool) T (mem : nat -> list T) addr :
  (forall arrays, length arrays <> length shapes -> exists e, concat_dense mem alloc arrays shapes dim insert = Some (inl e)) /\
  (forall arrays, length arrays <> length shapes -> exists e, concat_sparse mem addr alloc arrays shapes dim insert = Some (inl e)).
Proof.
  split; intros arrays H; unfold concat_dense, concat_sparse, concat_arrays; (replace (length arrays =? length shapes) with false by lia); eexists; reflexivity.
Qed.
Print Assumptions C36_count_mismatch.
(** Two or more arrays, one of which has not the size of its shape. *)
Definition good_rows (alloc : nat -> list Z) (shapes : list shape) (dim : Z) (insert : bool) : Prop := exists r, concat_shapes alloc shapes dim insert = Some (inr r).
Theorem C36_size_mismatch_dense {T} (mem : nat -> list T) alloc (arrays : list (darr T)) ls shapes dim insert : Forall2 represents arrays ls ->
  length shapes = length arrays -> 2 <= length arrays -> good_rows alloc shapes dim insert ->
  ~ Forall2 (fun s l => sh_size s = Z.of_nat (length l)) shapes ls ->
  exists e, concat_dense mem alloc arrays shapes dim insert = Some (inl e).
Proof.
  intros F L N (r & G) H. assert (Q := size_mismatch (fun a : darr T => Z.of_nat (da_size a)) d_each (d_build mem) represents dense_size alloc arrays ls shapes dim insert F L ltac:(lia) H).
  rewrite G in Q. exact Q.
Qed.
Print Assumptions C36_size_mismatch_dense.
Theorem C36_size_mismatch_array {T} (mem : nat -> list T) addr alloc (arrays : list (arr T)) ls shapes dim insert : Forall2 ar_rep arrays ls ->
  length shapes = length arrays -> 2 <= length arrays -> good_rows alloc shapes dim insert ->
  ~ Forall2 (fun s l => sh_size s = Z.of_nat (length l)) shapes ls ->
  exists e, concat_sparse mem addr alloc arrays shapes dim insert = Some (inl e).
Proof.
  intros F L N (r & G) H. assert (Q := size_mismatch (fun a : arr T => Z.of_nat (ar_size a)) s_each (s_build mem addr) ar_rep sparse_size alloc arrays ls shapes dim insert F L ltac:(lia) H).
  rewrite G in Q. exact Q.
Qed.
Print Assumptions C36_size_mismatch_array.
(** A single array is returned without looking at its size: here two elements for a
    shape with three. *)
Theorem C36_one_array_refuted : exists (a : darr nat) s l szs, represents a l /\ shape_rep s szs /\ total 1 szs <> length l /\
  exists s', concat_dense (fun n => repeat 0 n) al [a] [s] 0 false = Some (inr (a, s')) /\ shape_rep s' szs.
Proof.
  destruct (flat_from_size_ok 3) as (s & E & R); [lia|]. assert (Ha : alloc_ok al) by (intros n; apply repeat_length).
  exists (mkD [4; 5] [] 0), s, [Some 4; Some 5], [[3]]. split; [apply (rep_plain [4; 5])|]. split; [exact R|]. split; [discriminate|].
  destruct (concat_shapes_ok (A := nat) al 0 0 [[4; 5; 6]] [s] [] Ha) as (s' & E' & R' & _); [discriminate|constructor; [exact R|constructor]|constructor; [reflexivity|constructor]|].
  exists s'. split; [|exact R']. unfold concat_dense, concat_arrays. cbn [length Nat.eqb negb]. change (Z.of_nat 0) with 0%Z in E'. rewrite E'. reflexivity.
Qed.
Print Assumptions C36_one_array_refuted.

(** [[1, _], []] and [[3], [4, 5]] along dimension 1; and along 0; and stacked. *)
Definition fe (es : list edge) : shape := match from_edges al es with Some (inr s) => s | _ => [] end.
Definition sp (zs : list Z) : edge := match unsafe_from_split_points (ds zs) with Some e => e | None => mkE true 0 0 (ds []) end.
Definition sh1 := fe [sp [0; 2]; sp [0; 2; 2]]%Z.
Definition sh2 := fe [sp [0; 2]; sp [0; 1; 3]]%Z.
Definition da1 : darr nat := mkD [1; 9] [1%N] 0.
Definition da2 : darr nat := mkD [3; 4; 5] [] 0.
Definition show (r : option (jerr + (darr nat * shape))) :=
  match r with
  | Some (inr (a, s)) => inr (map (fun i => da_get a i) (seq 0 (da_size a)), sizes s)
  | Some (inl e) => inl (Some e)
  | None => inl None
  end.
Definition ex_mem (n : nat) : list nat := repeat 7 n.
Example C36_ex : show (concat_dense ex_mem al [da1; da2] [sh1; sh2] 1 false) = inr (map Some [Some 1; None; Some 3; Some 4; Some 5], [[2]; [3; 2]]) /\
  show (concat_dense ex_mem al [da1; da2] [sh1; sh2] 0 false) = inr (map Some [Some 1; None; Some 3; Some 4; Some 5], [[4]; [2; 0; 1; 2]]) /\
  show (concat_dense ex_mem al [da1; da2; da1] [sh1; sh2; sh1] 1 true) = inr (map Some [Some 1; None; Some 3; Some 1; None; Some 4; Some 5], [[2]; [3; 3]; [2; 1; 2; 0; 2; 0]]) /\
  show (concat_dense ex_mem al [da1; da2] [sh1; sh2] 2 true) = inl (Some JPrefix) /\
  show (concat_dense ex_mem al [da1; da1] [sh1; sh2] 1 true) = inl (Some (JSize 1)).
Proof. vm_compute. repeat split; reflexivity. Qed.
Example C36_ex_spec : concat_at 0 1 [[[1; 2]; []]; [[3]; [4; 5]]] = [[1; 2; 3]; [4; 5]] /\ concat_at 1 0 [[[1; 2]; []]; [[3]; [4; 5]]] = [[1; 2]; []; [3]; [4; 5]] /\
  stack_at 1 1 [[[1; 2]; []]; [[3]; [4; 5]]] = [[[1; 2]; [3]]; [[]; [4; 5]]].
Proof. repeat split; reflexivity. Qed.
(** The same with arrays in sparse form: 2 elements of which the second is missing. *)
Definition ar1 : arr nat := mkArr 2 (FPartial 0 [0] 0) (mkD [1] [] 0) None.
Definition ar2 : arr nat := mkArr 3 FFull (mkD [3; 4; 5] [] 0) None.
Example C36_ex_array : match concat_sparse ex_mem 0 al [ar1; ar2] [sh1; sh2] 1 false with
  | Some (inr (a, s)) => (map (fun i => ar_get a i) (seq 0 (ar_size a)), sizes s, is_dense_form a)
  | _ => ([], [], true)
  end = (map Some [Some 1; None; Some 3; Some 4; Some 5], [[2]; [3; 2]], false).
Proof. vm_compute. reflexivity. Qed.
