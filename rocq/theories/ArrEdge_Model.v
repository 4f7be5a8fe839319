(** Model of arolla/array/edge.h and edge.cc (ArrayEdge).  [alloc] and [allocw] are
    new buffers of values and bitmap words, [addr] the address of a new buffer of
    ids. *)
From Verif Require Import Base Bits_Model Bitmap_Model Dense_Model IdFilter_Model Array_Model Edge_Model.

(** edge.h:148-151 *)
Record aedge := mkAE { ae_split : bool; ae_parent : Z; ae_child : Z; ae_vals : arr Z }.

Section M.
Variables (alloc : nat -> list Z) (allocw : nat -> list N) (addr : nat).

(** edge.cc:35-58 [FromSplitPoints] *)
Definition ae_from_split_points (a : arr Z) : option (edge_err + aedge) :=
  let? s := to_dense_form alloc allocw a in
  if ar_size s =? 0 then Some (inl SplitEmpty) else
  let? bad := if negb (ar_size s =? da_size (ar_data s)) then Some true
              else let? full := da_is_full (ar_data s) in Some (negb full) in
  if (bad : bool) then Some (inl SplitNotFull) else
  let? x0 := rd (vals (ar_data s)) 0 in
  if negb (x0 =? 0)%Z then Some (inl SplitFirst) else
  let? c := back (vals (ar_data s)) in
  if negb (is_sorted (vals (ar_data s))) then Some (inl SplitUnsorted) else
  Some (inr (mkAE true (Z.of_nat (ar_size s) - 1) c s)).

(** edge.cc:60-66 [UnsafeFromSplitPoints] *)
Definition ae_unsafe_from_split_points (a : arr Z) : option aedge :=
  let? s := to_dense_form alloc allocw a in
  let? c := back (vals (ar_data s)) in
  Some (mkAE true (Z.of_nat (ar_size s) - 1) c s).

(** edge.cc:97-102 [UnsafeFromMapping] *)
Definition ae_unsafe_from_mapping (a : arr Z) (parent_size : Z) : aedge :=
  mkAE false parent_size (Z.of_nat (ar_size a)) a.

(** edge.cc:73-78: max_value and negative; ForEachPresent calls back for present
    elements only *)
Definition ae_scan (calls : list (nat * option Z)) : Z * bool :=
  fold_left (fun (s : Z * bool) (c : nat * option Z) =>
    match snd c with
    | Some v => (Z.max (fst s) v, if (v <? 0)%Z then true else snd s)
    | None => s
    end) calls (-1, false)%Z.
(** edge.cc:68-87 [FromMapping] *)
Definition ae_from_mapping (a : arr Z) (parent_size : Z) : option (edge_err + aedge) :=
  if (parent_size <? 0)%Z then Some (inl NegParent) else
  let? calls := ar_for_each_present_fn a in
  let '(max_value, negative) := ae_scan calls in
  if (negative : bool) then Some (inl NegValue) else
  if (parent_size <=? max_value)%Z then Some (inl ParentTooSmall) else
  Some (inr (ae_unsafe_from_mapping a parent_size)).

(** edge.h:110-114 [ToDenseArrayEdge] *)
Definition ae_to_dense (e : aedge) : option edge :=
  let? a := to_dense_form alloc allocw (ae_vals e) in
  Some (mkE (ae_split e) (ae_parent e) (ae_child e) (ar_data a)).
(** edge.h:117-120 [FromDenseArrayEdge] *)
Definition ae_from_dense (e : edge) : aedge :=
  mkAE (e_split e) (e_parent e) (e_child e) (ar_dense (e_vals e)).

(** edge.cc:89-95 [FromUniformGroups] *)
Definition ae_from_uniform_groups (parent_size group_size : Z) : option (edge_err + aedge) :=
  let? r := from_uniform_groups parent_size group_size in
  Some (match r with inl e => inl e | inr e => inr (ae_from_dense e) end).

(** edge.cc:104-108 [ToMappingEdge] *)
Definition ae_to_mapping (e : aedge) : option aedge :=
  if ae_split e then
    let? d := ae_to_dense e in
    let? r := to_mapping alloc d in
    Some (ae_from_dense r)
  else Some e.
(** edge.cc:110-117 [ToSplitPointsEdge] *)
Definition ae_to_split_points (e : aedge) : option (edge_err + aedge) :=
  if ae_split e then Some (inr e) else
  let? d := ae_to_dense e in
  let? r := to_split_points alloc d in
  Some (match r with inl x => inl x | inr r => inr (ae_from_dense r) end).

(** edge.cc:119-131 [ComposeEdges] *)
Fixpoint ae_to_dense_all (es : list aedge) : option (list edge) :=
  match es with
  | [] => Some []
  | e :: t => let? d := ae_to_dense e in let? ds := ae_to_dense_all t in Some (d :: ds)
  end.
Definition ae_compose (es : list aedge) : option (edge_err + aedge) :=
  let? ds := ae_to_dense_all es in
  let? r := compose_edges alloc ds in
  Some (match r with inl x => inl x | inr r => inr (ae_from_dense r) end).

(** edge.cc:133-149 [IsEquivalentTo] *)
Definition ae_equivalent (a b : aedge) : option bool :=
  if negb (ae_parent a =? ae_parent b)%Z || negb (ae_child a =? ae_child b)%Z then Some false else
  if Bool.eqb (ae_split a) (ae_split b)
  then ar_equivalent Z.eqb alloc allocw addr (ae_vals a) (ae_vals b) else
  let? x := ae_to_split_points a in
  match x with
  | inl _ => Some false
  | inr a' =>
      let? y := ae_to_split_points b in
      match y with
      | inl _ => Some false
      | inr b' => ar_equivalent Z.eqb alloc allocw addr (ae_vals a') (ae_vals b')
      end
  end.

(** edge.h:100-107 [split_size] *)
Definition ae_split_size (e : aedge) (i : nat) : option Z :=
  let? b := rd (vals (ar_data (ae_vals e))) (i + 1) in
  let? a := rd (vals (ar_data (ae_vals e))) i in
  Some (b - a)%Z.
End M.
