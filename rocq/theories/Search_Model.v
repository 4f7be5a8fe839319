(** Model of arolla/util/binary_search.{h,cc} and exp_lower_bound in
    arolla/util/algorithms.h.  Arrays are lists; a read outside is [None].
    [size_t] arithmetic is in [nat]: every sum computed is below twice the size. *)
From Verif Require Import Base.

(** SmallLinearSearch, binary_search.h:85-96; the outer [None] is undefined
    behaviour, the inner one [std::nullopt]. *)
Definition small_search {A} (p : A -> bool) (a : list A) : option (option nat) :=
  if length a <=? 2 then
    if length a =? 0 then Some (Some 0) else
    let? x := rd a 0 in
    if p x then Some (Some 0) else
    if length a =? 1 then Some (Some 1) else
    let? y := rd a 1 in
    if p y then Some (Some 1) else Some (Some 2)
  else Some None.

(** FastBinarySearchT<kArraySize>, binary_search.cc:47-58, on the sub-array that
    starts at [base]; the first argument bounds the number of iterations. *)
Fixpoint fast_loop {A} (p : A -> bool) (a : list A) (base fuel k offset : nat) : option nat :=
  match fuel with
  | 0 => if k =? 0 then Some offset else None
  | S fuel =>
      if k =? 0 then Some offset else
      let k := k / 2 in
      let? x := rd a (base + (offset + k)) in
      fast_loop p a base fuel k (if p x then offset else offset + k + 1)
  end.
Definition fast_search {A} (p : A -> bool) (a : list A) (base size : nat) : option nat :=
  fast_loop p a base size size 0.

(** BinarySearchT, binary_search.cc:63-93.  BitScanReverse of a non-zero size is
    its base-two logarithm; switch_index only turns it into a constant. *)
Definition binary_search {A} (p : A -> bool) (a : list A) : option nat :=
  let? _ := guard (negb (length a =? 0)) in
  let size := 2 ^ Nat.log2 (length a) - 1 in
  let? x := rd a size in
  let offset := if p x then 0 else length a - size in
  let? r := fast_search p a offset size in
  Some (offset + r).

(** int32_t / int64_t: binary_search.h:108-128, .cc:105-111, 136-142. *)
Definition lower_bound_int (v : Z) (a : list Z) : option nat :=
  let? s := small_search (fun x => negb (x <? v)%Z) a in
  match s with Some r => Some r | None => binary_search (fun x => (v <=? x)%Z) a end.
Definition upper_bound_int (v : Z) (a : list Z) : option nat :=
  let? s := small_search (fun x => (v <? x)%Z) a in
  match s with Some r => Some r | None => binary_search (fun x => (v <? x)%Z) a end.

(** Floating point numbers are seen through their comparisons only: the values of a
    format other than NaN form a finite total preorder, so integers stand for them
    (equal integers for -0.0 and 0.0); comparisons with NaN are false. *)
Inductive flt := NaN | Num (z : Z).
Definition flt_lt (x y : flt) : bool :=
  match x, y with Num a, Num b => (a <? b)%Z | _, _ => false end.
Definition flt_le (x y : flt) : bool :=
  match x, y with Num a, Num b => (a <=? b)%Z | _, _ => false end.
Definition flt_nan (x : flt) : bool := match x with NaN => true | Num _ => false end.

(** float / double: binary_search.h:108-128, .cc:97-103, 122-134. *)
Definition lower_bound_flt (v : flt) (a : list flt) : option nat :=
  let? s := small_search (fun x => negb (flt_lt x v)) a in
  match s with Some r => Some r | None => binary_search (fun x => negb (flt_lt x v)) a end.
Definition upper_bound_flt (v : flt) (a : list flt) : option nat :=
  let? s := small_search (fun x => flt_lt v x) a in
  match s with
  | Some r => Some r
  | None => if flt_nan v then Some (length a) else binary_search (fun x => negb (flt_le x v)) a
  end.

(** GallopingLowerBound(begin, end, value), binary_search.h:164-195; iterators are
    positions in [a], [lt x] is [x < value]. *)
Fixpoint gallop_up {A} (lt : A -> bool) (a : list A) (begin size fuel i d : nat) : option (nat * nat) :=
  match fuel with
  | 0 => None
  | S fuel =>
      if i + d <? size then
        let? x := rd a (begin + (i + d)) in
        if lt x then gallop_up lt a begin size fuel (i + d) (2 * d) else Some (i, d)
      else Some (i, d)
  end.
Fixpoint gallop_down {A} (lt : A -> bool) (a : list A) (begin size fuel i d : nat) : option nat :=
  match fuel with
  | 0 => None
  | S fuel =>
      if 1 <? d then
        let d := d / 2 in
        if i + d <? size then
          let? x := rd a (begin + (i + d)) in
          gallop_down lt a begin size fuel (if lt x then i + d else i) d
        else gallop_down lt a begin size fuel i d
      else Some i
  end.
Definition galloping_lower_bound {A} (lt : A -> bool) (a : list A) (begin end_ : nat) : option nat :=
  if end_ <=? begin then Some (min begin end_) else
  let? x := rd a begin in
  if negb (lt x) then Some (min begin end_) else
  let size := end_ - begin in
  let? (i, d) := gallop_up lt a begin size (S size) 0 1 in
  let? i := gallop_down lt a begin size (S d) i d in
  Some (begin + i + 1).

(** exp_lower_bound, algorithms.h:34-57.  [count] is signed.  If [strict], moving the
    iterator beyond [last] is undefined behaviour, as the standard has it; otherwise
    only dereferencing is checked.  Returns the narrowed range. *)
Fixpoint exp_narrow {A} (strict : bool) (lt : A -> bool) (a : list A) (fuel : nat)
    (first last it step : nat) (count : Z) : option (nat * nat) :=
  match fuel with
  | 0 => None
  | S fuel =>
      if (Z.of_nat step <? count)%Z then
        let? x := rd a it in
        if lt x then
          let? _ := guard (negb strict || (it + 1 + step <=? last)) in
          exp_narrow strict lt a fuel (it + 1) last (it + 1 + step) (2 * step) (count - Z.of_nat step)
        else Some (first, it)
      else Some (first, last)
  end.
(** std::lower_bound on [first, last): its contract for a partitioned range, here as
    a scan (a simplification: the library is not modelled). *)
Fixpoint std_lower_bound {A} (lt : A -> bool) (a : list A) (first n : nat) : option nat :=
  match n with
  | 0 => Some first
  | S n => let? x := rd a first in if lt x then std_lower_bound lt a (S first) n else Some first
  end.
Definition exp_lower_bound {A} (strict : bool) (lt : A -> bool) (a : list A) (first last : nat) : option nat :=
  let? (f, l) := exp_narrow strict lt a (S (last - first)) first last first 1 (Z.of_nat (last - first)) in
  std_lower_bound lt a f (l - f).
