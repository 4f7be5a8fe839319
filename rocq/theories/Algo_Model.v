(** Model of the word-vector algorithms of arolla/util/algorithms.h.
    [w] is bits_per_word; pointer increments are explicit indices. *)
From Verif Require Import Base Bits_Model.

(** algorithms.h:105-141 [InPlaceLogicalAnd] (the 8-fold unrolling is modelled
    as a plain loop over [n] words from [i]). *)
Fixpoint and_words (src dest : list N) (i n : nat) : option (list N) :=
  match n with
  | O => Some dest
  | S n' => let? s := rd src i in
            let? d := rd dest i in
            let? dest' := upd dest i (N.land d s) in
            and_words src dest' (S i) n'
  end.

(** algorithms.h:170-173 *)
Fixpoint and_right_loop (w : nat) (rhs lhs : list N) (a i n : nat) : option (list N) :=
  match n with
  | O => Some lhs
  | S n' => let? x := rd rhs i in
            let? x' := wshr w x a in
            let? y := rd rhs (i + 1) in
            let? y' := wshl w y (w - a) in
            let? l := rd lhs i in
            let? lhs' := upd lhs i (N.land l (N.lor x' y')) in
            and_right_loop w rhs lhs' a (S i) n'
  end.
(** algorithms.h:182-184 *)
Fixpoint and_left_loop (w : nat) (rhs lhs : list N) (a i n : nat) : option (list N) :=
  match n with
  | O => Some lhs
  | S n' => let? x := rd rhs (i - 1) in
            let? x' := wshr w x (w - a) in
            let? y := rd rhs i in
            let? y' := wshl w y a in
            let? l := rd lhs i in
            let? lhs' := upd lhs i (N.land l (N.lor x' y')) in
            and_left_loop w rhs lhs' a (S i) n'
  end.

(** algorithms.h:146-189 [InplaceLogicalAndWithOffsets] *)
Definition inplace_and_with_offsets (w n : nat) (rhs : list N) (rhs_skip : nat)
  (lhs : list N) (lhs_skip : nat) : option (list N) :=
  let rhs_words := (n + rhs_skip + w - 1) / w in
  let lhs_words := (n + lhs_skip + w - 1) / w in
  if lhs_skip =? rhs_skip then and_words rhs lhs 0 rhs_words
  else if lhs_skip <? rhs_skip then
    let a := rhs_skip - lhs_skip in
    let? lhs1 := and_right_loop w rhs lhs a 0 (rhs_words - 1) in
    let i := rhs_words - 1 in
    if i <? lhs_words then
      let? x := rd rhs i in
      let? x' := wshr w x a in
      let? l := rd lhs1 i in
      upd lhs1 i (N.land l x')
    else Some lhs1
  else
    let a := lhs_skip - rhs_skip in
    let? x := rd rhs 0 in
    let? x' := wshl w x a in
    let? l := rd lhs 0 in
    let? lhs0 := upd lhs 0 (N.land l x') in
    let? lhs1 := and_left_loop w rhs lhs0 a 1 (rhs_words - 1) in
    let i := Nat.max 1 rhs_words in
    if i <? lhs_words then
      let? y := rd rhs (i - 1) in
      let? y' := wshr w y (w - a) in
      let? l := rd lhs1 i in
      upd lhs1 i (N.land l y')
    else Some lhs1.

(** algorithms.h:235-236, 240-241, 283-284: ( *lhs & ~mask) | (val & mask) *)
Definition merge_word (w : nat) (lhs : list N) (p : nat) (v mask : N) : option (list N) :=
  let? l := rd lhs p in
  upd lhs p (N.lor (N.land l (wnot w mask)) (N.land v mask)).

(** algorithms.h:259-261 *)
Fixpoint copy_words (rhs lhs : list N) (rp lp n : nat) : option (list N) :=
  match n with
  | O => Some lhs
  | S n' => let? x := rd rhs rp in
            let? lhs' := upd lhs lp x in
            copy_words rhs lhs' (S rp) (S lp) n'
  end.
(** algorithms.h:264-267 *)
Fixpoint copy_shift_loop (w : nat) (rhs lhs : list N) (s rp lp n : nat) : option (list N) :=
  match n with
  | O => Some lhs
  | S n' => let? x := rd rhs rp in
            let? x' := wshr w x s in
            let? y := rd rhs (rp + 1) in
            let? y' := wshl w y (w - s) in
            let? lhs' := upd lhs lp (N.lor x' y') in
            copy_shift_loop w rhs lhs' s (S rp) (S lp) n'
  end.

(** algorithms.h:214-229: the value for the first, partial output word *)
Definition copy_first_val (w : nat) (rhs : list N) (rhs_words rhs_skip lhs_skip : nat)
  : option N :=
  let? x := rd rhs 0 in
  if lhs_skip =? rhs_skip then Some x
  else if lhs_skip <? rhs_skip then
    let a := rhs_skip - lhs_skip in
    let? x' := wshr w x a in
    if 1 <? rhs_words then
      let? y := rd rhs 1 in
      let? y' := wshl w y (w - a) in
      Some (N.lor x' y')
    else Some x'
  else wshl w x (lhs_skip - rhs_skip).

(** algorithms.h:253-286: the part with [lhs_skip = 0]; [lp], [rp] are the
    advanced pointers. *)
Definition copy_aligned (w : nat) (rhs lhs : list N) (lp lhs_words rp rhs_words rhs_skip lhs_tail : nat)
  : option (list N) :=
  let full := if lhs_tail =? 0 then lhs_words else lhs_words - 1 in
  let? lhs1 :=
    if 0 <? full then
      if rhs_skip =? 0 then copy_words rhs lhs rp lp full
      else
        let m := Nat.min (rhs_words - 1) full in
        let? l1 := copy_shift_loop w rhs lhs rhs_skip rp lp m in
        if m <? full then
          let? x := rd rhs (rp + m) in
          let? x' := wshr w x rhs_skip in
          upd l1 (lp + m) x'
        else Some l1
    else Some lhs in
  let lp := lp + full in
  let rp := rp + full in
  let rhs_words := rhs_words - full in
  if negb (lhs_tail =? 0) then
    let? x := rd rhs rp in
    let? x' := wshr w x rhs_skip in
    let? v :=
      if rhs_words =? 2 then
        let? y := rd rhs (rp + 1) in
        let? y' := wshl w y (w - rhs_skip) in
        Some (N.lor x' y')
      else Some x' in
    let? mask := wshr w (wones w) lhs_tail in
    merge_word w lhs1 lp v mask
  else Some lhs1.

(** algorithms.h:195-287 [CopyBits] *)
Definition copy_bits (w n : nat) (rhs : list N) (rhs_skip : nat)
  (lhs : list N) (lhs_skip : nat) : option (list N) :=
  if n =? 0 then Some lhs else
  let rhs_words := (n + rhs_skip + w - 1) / w in
  let lhs_words := (n + lhs_skip + w - 1) / w in
  let lhs_tail := lhs_words * w - (n + lhs_skip) in
  if negb (lhs_skip =? 0) then
    let? v := copy_first_val w rhs rhs_words rhs_skip lhs_skip in
    let? m := wshl w (wones w) lhs_skip in
    if lhs_words =? 1 then
      let? m2 := wshr w (wones w) lhs_tail in
      merge_word w lhs 0 v (N.land m m2)
    else
      let? lhs1 := merge_word w lhs 0 v m in
      if rhs_skip <? lhs_skip then
        copy_aligned w rhs lhs1 1 (lhs_words - 1) 0 rhs_words
          (rhs_skip + (w - lhs_skip)) lhs_tail
      else
        copy_aligned w rhs lhs1 1 (lhs_words - 1) 1 (rhs_words - 1)
          (rhs_skip - lhs_skip) lhs_tail
  else copy_aligned w rhs lhs 0 lhs_words 0 rhs_words rhs_skip lhs_tail.
