(** Model of arolla/array/id_filter.h and id_filter.cc.
    Ids and offsets are [nat]; 64-bit overflow of [id + ids_offset] is not
    modelled.  A buffer of ids carries the address of its first element, because
    [IsSame] compares addresses. *)
From Verif Require Import Base Dense_Model.

(** id_filter.h:41-42, 183-186 *)
Inductive idf := FEmpty | FFull | FPartial (addr : nat) (ids : list nat) (off : nat).

(** id_filter.h:65-84: constructor from size and ids.  The checks of lines 76-82
    are DCHECKs and have no effect in a release build. *)
Definition mk_filter (size addr : nat) (ids : list nat) (off : nat) : idf :=
  match ids with
  | [] => FEmpty
  | _ => if length ids =? size then FFull else FPartial addr ids off
  end.

(** std::lower_bound on a sorted range: index of the first element [>= v]. *)
Fixpoint lower_bound (l : list nat) (v : nat) : nat :=
  match l with
  | [] => 0
  | x :: t => if x <? v then S (lower_bound t v) else 0
  end.

(** id_filter.h:86-102 [IdToOffset] *)
Definition id_to_offset (f : idf) (id : nat) : option nat :=
  match f with
  | FFull => Some id
  | FPartial _ ids off =>
      let o := lower_bound ids (id + off) in
      match rd ids o with
      | Some x => if x =? id + off then Some o else None
      | None => None
      end
  | FEmpty => None
  end.

(** Reading an id and making it zero based; a negative id is outside the domain
    of the class and is reported as undefined. *)
Definition rd_id (ids : list nat) (off i : nat) : option nat :=
  let? x := rd ids i in if off <=? x then Some (x - off) else None.

(** id_filter.h:104-109 [IdsOffsetToId] *)
Definition ids_offset_to_id (f : idf) (o : nat) : option nat :=
  match f with FPartial _ ids off => rd_id ids off o | _ => None end.

(** id_filter.h:113-121 [IsSame].  The comparison of contents is implied by the
    comparison of addresses (buffers are immutable) and makes the function
    meaningful for pairs that no execution can produce. *)
Definition is_same (f g : idf) : bool :=
  match f, g with
  | FEmpty, FEmpty => true
  | FFull, FFull => true
  | FPartial a i o, FPartial b j p => (a =? b) && (o =? p) && list_eqb Nat.eqb i j
  | _, _ => false
  end.

(** id_filter.h:214-216, 222-227: advance an iterator while its id is below
    [bound]; returns the iterator and the id under it. *)
Fixpoint advance (fuel : nat) (ids : list nat) (off bound i id : nat) : option (nat * nat) :=
  match fuel with
  | O => None
  | S k => if id <? bound
           then let? x := rd_id ids off (S i) in advance k ids off bound (S i) x
           else Some (i, id)
  end.

(** id_filter.h:205-221: the main loop.  State: iterators with their ids, calls so far. *)
Fixpoint common_loop (fuel : nat) (f1 : list nat) (off1 : nat) (f2 : list nat) (off2 : nat)
    (max i1 id1 i2 id2 : nat) (acc : list (nat * nat * nat))
  : option (nat * nat * nat * nat * list (nat * nat * nat)) :=
  match fuel with
  | O => None
  | S k =>
      if (id1 <? max) && (id2 <? max) then
        let? s := (if id1 =? id2 then
                     let? x := rd_id f1 off1 (S i1) in
                     let? y := rd_id f2 off2 (S i2) in
                     Some (S i1, x, S i2, y, acc ++ [(id1, i1, i2)])
                   else Some (i1, id1, i2, id2, acc)) in
        let '(i1, id1, i2, id2, acc) := s in
        let? s1 := advance (S (length f1)) f1 off1 (Nat.min max id2) i1 id1 in
        let '(i1, id1) := s1 in
        let? s2 := (if id2 <? Nat.min max id1 then
                      let? y := rd_id f2 off2 (S i2) in Some (S i2, y)
                    else Some (i2, id2)) in
        let '(i2, id2) := s2 in
        common_loop k f1 off1 f2 off2 max i1 id1 i2 id2 acc
      else Some (i1, id1, i2, id2, acc)
  end.

(** id_filter.h:188-231 [ForEachCommonId]: the sequence of calls
    (id, offset in f1, offset in f2). *)
Definition for_each_common (f1 : list nat) (off1 : nat) (f2 : list nat) (off2 : nat)
  : option (list (nat * nat * nat)) :=
  let? id1 := rd_id f1 off1 0 in
  let? id2 := rd_id f2 off2 0 in
  let? b1 := rd_id f1 off1 (length f1 - 1) in
  let? b2 := rd_id f2 off2 (length f2 - 1) in
  let max := Nat.min b1 b2 in
  let? s := common_loop (S (length f1 + length f2)) f1 off1 f2 off2 max 0 id1 0 id2 [] in
  let '(i1, id1, i2, id2, acc) := s in
  let? s1 := advance (S (length f1)) f1 off1 max i1 id1 in
  let '(i1, id1) := s1 in
  let? s2 := advance (S (length f2)) f2 off2 max i2 id2 in
  let '(i2, id2) := s2 in
  Some (if id1 =? id2 then acc ++ [(id1, i1, i2)] else acc).

(** id_filter.h:148-155 [IntersectPartial_ForEach] *)
Definition intersect_partial (f1 f2 : idf) : option (list (nat * nat * nat)) :=
  match f1, f2 with
  | FPartial _ i1 o1, FPartial _ i2 o2 => for_each_common i1 o1 i2 o2
  | _, _ => None
  end.

(** id_filter.cc:44-53: the merge loop and the two tails.  An id smaller than the
    offset is outside the domain. *)
Fixpoint tail_ids (l : list nat) (off : nat) : option (list nat) :=
  match l with
  | [] => Some []
  | x :: t => let? r := tail_ids t off in if off <=? x then Some (x - off :: r) else None
  end.
Fixpoint merge_loop (fuel : nat) (a : list nat) (oa : nat) (b : list nat) (ob : nat)
  : option (list nat) :=
  match fuel with
  | O => None
  | S k =>
      match a, b with
      | x :: ta, y :: tb =>
          if (oa <=? x) && (ob <=? y) then
            let va := x - oa in
            let vb := y - ob in
            let v := Nat.min va vb in
            let? r := merge_loop k (if va =? v then ta else a) oa (if vb =? v then tb else b) ob in
            Some (v :: r)
          else None
      | a, [] => tail_ids a oa
      | [], b => tail_ids b ob
      end
  end.

(** id_filter.cc:26-56 [UpperBoundMergeImpl]; [addr] is the address of the new
    buffer.  [size * kDenseSparsityLimit] is computed in doubles; the multiplication
    by 0.25 is exact and sizes above 2^53 are not considered. *)
Definition merge_impl (addr size : nat) (a b : idf) : option idf :=
  match a, b with
  | FEmpty, _ => Some b
  | _, FFull => Some b
  | _, FEmpty => Some a
  | FFull, _ => Some a
  | FPartial _ ia oa, FPartial _ ib ob =>
      if is_same a b then Some a
      else if size <=? 4 * Nat.max (length ia) (length ib) then Some FFull
      else let? ids := merge_loop (S (length ia + length ib)) ia oa ib ob in
           Some (mk_filter size addr ids 0)
  end.

(** id_filter.h:233-245 [UpperBoundMerge]; the filter pack is never empty. *)
Fixpoint merge_all (addr : nat -> nat) (size : nat) (f : idf) (fs : list idf) : option idf :=
  match fs with
  | [] => Some f
  | g :: t => let? r := merge_all addr size g t in merge_impl (addr (length t)) size f r
  end.

(** id_filter.h:257-262 [UpperBoundIntersectImpl] *)
Definition intersect_impl (a b : idf) : idf :=
  match a, b with
  | FEmpty, _ => a
  | _, FFull => a
  | _, FEmpty => b
  | FFull, _ => b
  | FPartial _ ia _, FPartial _ ib _ => if length ia <? length ib then a else b
  end.
(** id_filter.h:247-255 [UpperBoundIntersect] *)
Fixpoint intersect_all (f : idf) (fs : list idf) : idf :=
  match fs with [] => f | g :: t => intersect_impl f (intersect_all g t) end.
