(** Model of arolla/dense_array/edge.h and edge.cc (DenseArrayEdge).
    int64_t values are [Z]; overflow is only modelled where the code checks it
    (FromUniformGroups).  Buffers obtained from the factory have arbitrary
    content: [alloc n] is the content of a new buffer of [n] elements. *)
From Verif Require Import Base Bits_Model Bitmap_Model Dense_Model.
Local Open Scope Z_scope.

(** edge.h:133-136 *)
Record edge := mkE { e_split : bool; e_parent : Z; e_child : Z; e_vals : darr Z }.

Inductive edge_err :=
  | SplitNotFull | SplitEmpty | SplitFirst | SplitUnsorted
  | NegParent | NegValue | ParentTooSmall
  | NegArgs | MulOverflow
  | MapNotFull | MapUnsorted
  | NoEdges | Incompatible.

(** An array access with a signed index. *)
Definition rdz {A} (l : list A) (i : Z) : option A :=
  if i <? 0 then None else rd l (Z.to_nat i).

(** values.back(): undefined on an empty buffer *)
Definition back {A} (l : list A) : option A :=
  match l with [] => None | _ => rd l (length l - 1)%nat end.

(** std::is_sorted *)
Fixpoint is_sorted (l : list Z) : bool :=
  match l with
  | x :: ((y :: _) as t) => if y <? x then false else is_sorted t
  | _ => true
  end.

(** edge.cc:143-149 *)
Definition unsafe_from_split_points (a : darr Z) : option edge :=
  let? c := back (vals a) in
  Some (mkE true (Z.of_nat (da_size a) - 1) c a).
(** edge.cc:136-141 *)
Definition unsafe_from_mapping (a : darr Z) (parent_size : Z) : edge :=
  mkE false parent_size (Z.of_nat (da_size a)) a.

(** edge.cc:76-96 [FromSplitPoints] *)
Definition from_split_points (a : darr Z) : option (edge_err + edge) :=
  let? full := da_is_full a in
  if negb full then Some (inl SplitNotFull) else
  if (da_size a =? 0)%nat then Some (inl SplitEmpty) else
  let? x0 := rd (vals a) 0 in
  if negb (x0 =? 0) then Some (inl SplitFirst) else
  let? c := back (vals a) in
  if negb (is_sorted (vals a)) then Some (inl SplitUnsorted) else
  Some (inr (mkE true (Z.of_nat (da_size a) - 1) c a)).

(** edge.cc:103-110: max_value and negative *)
Definition scan_mapping (calls : list (nat * bool * Z)) : Z * bool :=
  fold_left (fun (s : Z * bool) (c : nat * bool * Z) => let '(_, p, v) := c in
    if p then (Z.max (fst s) v, if v <? 0 then true else snd s) else s) calls (-1, false).
(** edge.cc:98-119 [FromMapping] *)
Definition from_mapping (a : darr Z) (parent_size : Z) : option (edge_err + edge) :=
  if parent_size <? 0 then Some (inl NegParent) else
  let? calls := da_for_each a in
  let '(max_value, negative) := scan_mapping calls in
  if (negative : bool) then Some (inl NegValue) else
  if parent_size <=? max_value then Some (inl ParentTooSmall) else
  Some (inr (unsafe_from_mapping a parent_size)).

(** util/overflow.h SafeMul<int64_t> *)
Definition int64_min : Z := - 2 ^ 63.
Definition int64_max : Z := 2 ^ 63 - 1.
Definition fits_int64 (z : Z) : bool := (int64_min <=? z) && (z <=? int64_max).

(** edge.cc:121-134 [FromUniformGroups]; parent_size + 1 (line 130) is undefined
    on int64 overflow. *)
Definition from_uniform_groups (parent_size group_size : Z) : option (edge_err + edge) :=
  if (parent_size <? 0) || (group_size <? 0) then Some (inl NegArgs) else
  if negb (fits_int64 (parent_size * group_size)) then Some (inl MulOverflow) else
  let? _ := guard (fits_int64 (parent_size + 1)) in
  let? e := unsafe_from_split_points
    (mkD (map (fun i => Z.of_nat i * group_size) (seq 0 (Z.to_nat (parent_size + 1)))) [] 0) in
  Some (inr e).

(** edge.cc:160-163: [n] parents from [p]; std::fill over a range *)
Fixpoint fill_parents (splits : list Z) (m : list Z) (p n : nat) : option (list Z) :=
  match n with
  | O => Some m
  | S n' =>
      let? a := rd splits p in
      let? b := rd splits (S p) in
      let? _ := guard ((0 <=? a) && (a <=? b)) in
      let? m' := fill m (Z.to_nat a) (Z.to_nat (b - a)) (Z.of_nat p) in
      fill_parents splits m' (S p) n'
  end.
(** edge.cc:151-169 [ToMappingEdge] *)
Definition to_mapping (alloc : nat -> list Z) (e : edge) : option edge :=
  if e_split e then
    let? m := fill_parents (vals (e_vals e)) (alloc (Z.to_nat (e_child e))) 0 (Z.to_nat (e_parent e)) in
    Some (unsafe_from_mapping (mkD m [] 0) (e_parent e))
  else Some e.

(** edge.cc:181-191: [i] index of the value, [bin] current_bin, [pos] the
    inserter's position; [None] inside is the error. *)
Fixpoint split_loop (vs : list Z) (i : nat) (bin : Z) (m : list Z) (pos : nat)
  : option (option (Z * list Z * nat)) :=
  match vs with
  | [] => Some (Some (bin, m, pos))
  | v :: t =>
      if v <? bin then Some None else
      let k := Z.to_nat (v - bin) in
      let? m' := fill m pos k (Z.of_nat i) in
      split_loop t (S i) v m' (pos + k)%nat
  end.
(** edge.cc:171-197 [ToSplitPointsEdge] *)
Definition to_split_points (alloc : nat -> list Z) (e : edge) : option (edge_err + edge) :=
  if e_split e then Some (inr e) else
  let? full := da_is_full (e_vals e) in
  if negb full then Some (inl MapNotFull) else
  let mem := alloc (Z.to_nat (e_parent e + 1)) in
  let? m0 := upd mem 0 0 in
  let? r := split_loop (vals (e_vals e)) 0 0 m0 1 in
  match r with
  | None => Some (inl MapUnsorted)
  | Some (bin, m1, pos) =>
      let? m2 := fill m1 pos (Z.to_nat (e_parent e - bin)) (Z.of_nat (da_size (e_vals e))) in
      let? s := unsafe_from_split_points (mkD m2 [] 0) in
      Some (inr s)
  end.

(** edge.cc:199-215 [IsEquivalentTo] *)
Definition is_equivalent (alloc : nat -> list Z) (a b : edge) : option bool :=
  if negb (e_parent a =? e_parent b) || negb (e_child a =? e_child b) then Some false else
  if Bool.eqb (e_split a) (e_split b) then da_equivalent Z.eqb (e_vals a) (e_vals b) else
  let? x := to_split_points alloc a in
  match x with
  | inl _ => Some false
  | inr a' =>
      let? y := to_split_points alloc b in
      match y with
      | inl _ => Some false
      | inr b' => da_equivalent Z.eqb (e_vals a') (e_vals b')
      end
  end.

(** edge.h:105-110 [split_size] *)
Definition split_size (e : edge) (i : nat) : option Z :=
  let? b := rd (vals (e_vals e)) (i + 1) in
  let? a := rd (vals (e_vals e)) i in
  Some (b - a).

(** edge.cc:66-68; [prev = None] means that previous_split_points is the output
    buffer itself *)
Fixpoint compose_row (split : list Z) (prev : option (list Z)) (out : list Z) (j n : nat)
  : option (list Z) :=
  match n with
  | O => Some out
  | S n' =>
      let? k := match prev with Some p => rd p j | None => rd out j end in
      let? v := rdz split k in
      let? out' := upd out j v in
      compose_row split prev out' (S j) n'
  end.
(** edge.cc:64-70 *)
Fixpoint compose_rows (es : list edge) (prev : option (list Z)) (out : list Z) : option (list Z) :=
  match es with
  | [] => Some out
  | e :: t => let? out' := compose_row (vals (e_vals e)) prev out 0 (length out) in
              compose_rows t None out'
  end.
(** edge.cc:57-72 [ComposeSplitPointsEdge] *)
Definition compose_split_points (alloc : nat -> list Z) (e : edge) (es : list edge) : option edge :=
  let? out := compose_rows es (Some (vals (e_vals e))) (alloc (da_size (e_vals e))) in
  unsafe_from_split_points (mkD out [] 0).

(** edge.cc:48-50 *)
Fixpoint set_all (b : dbuilder Z) (m : darr Z) (ps : list (nat * Z)) : option (dbuilder Z) :=
  match ps with
  | [] => Some b
  | (id, value) :: t =>
      let? o := if value <? 0 then None else da_get m (Z.to_nat value) in
      let? b' := db_set b id o in
      set_all b' m t
  end.
(** edge.cc:45-52; [es] are the remaining edges, last one first *)
Fixpoint compose_mapping_loop (alloc : nat -> list Z) (child_size : nat) (es : list edge) (m : darr Z)
  : option (darr Z) :=
  match es with
  | [] => Some m
  | e :: t =>
      let? me := to_mapping alloc e in
      let? ps := da_for_each_present m in
      let? b := set_all (db_init (alloc child_size)) (e_vals me) ps in
      compose_mapping_loop alloc child_size t (db_build b)
  end.
(** edge.cc:40-55 [ComposeMappingEdge] *)
Definition compose_mapping (alloc : nat -> list Z) (es : list edge) : option edge :=
  match rev es, es with
  | last :: before, first :: _ =>
      let? lm := to_mapping alloc last in
      let? m := compose_mapping_loop alloc (Z.to_nat (e_child last)) before (e_vals lm) in
      Some (unsafe_from_mapping m (e_parent first))
  | _, _ => None
  end.

(** edge.cc:223-232 *)
Fixpoint compatible (prior : Z) (es : list edge) : bool :=
  match es with
  | [] => true
  | e :: t => if negb (e_parent e =? prior) then false else compatible (e_child e) t
  end.
(** edge.cc:240-245: the run of leading split point edges and the rest *)
Fixpoint split_run (es : list edge) : list edge * list edge :=
  match es with
  | e :: t => if e_split e then let '(r, rest) := split_run t in (e :: r, rest) else ([], es)
  | [] => ([], [])
  end.
(** edge.cc:237-260; fuel: every iteration consumes an edge *)
Fixpoint transform_edges (alloc : nat -> list Z) (fuel : nat) (es : list edge) : option (list edge) :=
  match fuel, es with
  | _, [] => Some []
  | O, _ => None
  | S f, e :: t =>
      match split_run es with
      | (a :: b :: run, rest) =>
          let? c := compose_split_points alloc a (b :: run) in
          let? r := transform_edges alloc f rest in
          Some (c :: r)
      | _ => let? r := transform_edges alloc f t in Some (e :: r)
      end
  end.
(** edge.cc:217-266 [ComposeEdges] *)
Definition compose_edges (alloc : nat -> list Z) (es : list edge) : option (edge_err + edge) :=
  match es with
  | [] => Some (inl NoEdges)
  | [e] => Some (inr e)
  | e :: _ =>
      if negb (compatible (e_parent e) es) then Some (inl Incompatible) else
      let? ts := transform_edges alloc (length es) es in
      match ts with
      | [t] => Some (inr t)
      | _ => let? r := compose_mapping alloc ts in Some (inr r)
      end
  end.
