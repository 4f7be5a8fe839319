(** Model of arolla/memory/strings_buffer.h and strings_buffer.cc.  Characters are
    integers.  Lifetimes of the underlying memory are not modelled. *)
From Verif Require Import Base GroupOps_Model Arena_Model.
Local Open Scope Z_scope.

Definition zlen {A} (l : list A) : Z := Z.of_nat (length l).
(** [n] elements from position [off]; [None]: outside of the memory.  An empty range
    is not dereferenced, so its position does not matter. *)
Definition zslice {A} (l : list A) (off n : Z) : option (list A) :=
  if n =? 0 then Some [] else
  if (0 <=? off) && (0 <=? n) && (off + n <=? zlen l)
  then Some (firstn (Z.to_nat n) (skipn (Z.to_nat off) l)) else None.

(** strings_buffer.h:349-361 *)
Record sbuf := mkS { s_offs : list (Z * Z); s_chars : list Z; s_base : Z }.
(** strings_buffer.h:64, default constructor *)
Definition s_empty : sbuf := mkS [] [] 0.
(** strings_buffer.h:286-293 [operator[]] *)
Definition s_get (b : sbuf) (i : nat) : option (list Z) :=
  let? (st, en) := rd (s_offs b) i in
  zslice (s_chars b) (st - s_base b) (en - st).
(** strings_buffer.cc:141-147: what the constructor checks in debug builds *)
Definition s_ok (b : sbuf) : bool :=
  forallb (fun o => (s_base b <=? fst o) && (fst o <=? snd o) && (snd o <=? s_base b + zlen (s_chars b))) (s_offs b).

Fixpoint zeqb (a b : list Z) : bool :=
  match a, b with
  | [], [] => true
  | x :: a', y :: b' => (x =? y) && zeqb a' b'
  | _, _ => false
  end.
(** strings_buffer.cc:150-161 (for two different objects) *)
Fixpoint eq_from (a b : sbuf) (i n : nat) : option bool :=
  match n with
  | O => Some true
  | S n' => let? x := s_get a i in
            let? y := s_get b i in
            if zeqb x y then eq_from a b (S i) n' else Some false
  end.
Definition s_eq (a b : sbuf) : option bool :=
  if Nat.eqb (length (s_offs a)) (length (s_offs b)) then eq_from a b 0 (length (s_offs a)) else Some false.

(** strings_buffer.cc:163-179 [Slice] *)
Definition s_slice (b : sbuf) (off n : Z) : option sbuf :=
  if n =? 0 then Some s_empty else
  let? o := zslice (s_offs b) off n in
  Some (mkS o (s_chars b) (s_base b)).
(** strings_buffer.cc:186-207 [DeepCopy] *)
Definition s_deep_copy (b : sbuf) : option sbuf :=
  match s_offs b with
  | [] => Some s_empty
  | (st, en) :: t =>
      let '(mn, mx) := fold_left (fun a o => (Z.min (fst a) (fst o), Z.max (snd a) (snd o))) t (st, en) in
      let? cs := zslice (s_chars b) (mn - s_base b) (mx - mn) in
      Some (mkS (s_offs b) cs mn)
  end.
(** strings_buffer.h:218-234 *)
Definition s_uninit (n : nat) : sbuf := mkS (repeat (0, 0) n) [] 0.

(** ** Builder (strings_buffer.h:89-160) *)
Record bld := mkBld { b_offs : list (Z * Z); b_chars : list Z; b_num : Z }.
Section B.
(** Contents of memory that was not written. *)
Variable junk : nat -> Z.

(** strings_buffer.cc:38-54 *)
Definition b_new (max_size : nat) (init_chars : nat) : bld :=
  mkBld (repeat (0, 0) max_size) (map junk (seq 0 init_chars)) 0.
(** strings_buffer.cc:93-95, the loop; [None]: out of fuel *)
Fixpoint double (fuel : nat) (need new_size : Z) : option Z :=
  if new_size <? need then
    match fuel with
    | O => None
    | S f => double f need (p64 (new_size * 2))
    end
  else Some new_size.
(** strings_buffer.cc:88-109 [EstimateRequiredCharactersSize] *)
Definition estimate (b : bld) (add : Z) : option Z :=
  let? n := double 64 (p64 (add + b_num b)) (Z.max (p64 (zlen (b_chars b) * 2)) (p64 (zlen (b_offs b) * 16))) in
  if n <? 4194304 then
    let v := p64 (add * zlen (b_offs b)) in
    Some (if v <? n then n else if 4194304 <? v then 4194304 else v)
  else Some n.
(** strings_buffer.cc:111-119: the raw buffer is reallocated; the common prefix is
    kept (C20), the rest is not initialized *)
Definition resize (b : bld) (n : Z) : bld :=
  mkBld (b_offs b) (firstn (Z.to_nat n) (b_chars b) ++ map junk (seq (length (b_chars b)) (Z.to_nat n - length (b_chars b)))) (b_num b).
Fixpoint write_at (l : list Z) (i : nat) (v : list Z) : option (list Z) :=
  match v with
  | [] => Some l
  | c :: t => let? l' := upd l i c in write_at l' (S i) t
  end.
(** strings_buffer.h:106-117 [Set] *)
Definition b_set (b : bld) (i : nat) (v : list Z) : option bld :=
  let? b1 := if zlen (b_chars b) <? p64 (zlen v + b_num b) then let? n := estimate b (zlen v) in Some (resize b n) else Some b in
  let? cs := write_at (b_chars b1) (Z.to_nat (b_num b1)) v in
  let num := b_num b1 + zlen v in
  let? o := upd (b_offs b1) i (b_num b1, num) in
  Some (mkBld o cs num).
(** strings_buffer.h:123-125 *)
Definition b_copy (b : bld) (from to : nat) : option bld :=
  let? o := rd (b_offs b) from in
  let? os := upd (b_offs b) to o in
  Some (mkBld os (b_chars b) (b_num b)).
(** std::fill over positions i .. i+n-1 *)
Fixpoint fill {A} (l : list A) (i n : nat) (x : A) : option (list A) :=
  match n with
  | O => Some l
  | S n' => let? l' := upd l i x in fill l' (S i) n' x
  end.
(** strings_buffer.h:133-143 *)
Definition b_set_n_const (b : bld) (i : nat) (count : Z) (v : list Z) : option bld :=
  if count <=? 0 then Some b else
  let? b1 := b_set b i v in
  let? d := rd (b_offs b1) i in
  let? os := fill (b_offs b1) (i + 1) (Z.to_nat count - 1) d in
  Some (mkBld os (b_chars b1) (b_num b1)).
(** strings_buffer.cc:77-86 [Build] *)
Definition b_build (b : bld) (size : nat) : option sbuf :=
  let b1 := if negb (b_num b =? zlen (b_chars b)) then resize b (b_num b) else b in
  let? o := zslice (b_offs b1) 0 (Z.of_nat size) in
  let? c := zslice (b_chars b1) 0 (b_num b1) in
  Some (mkS o c 0).

Inductive bop :=
| BSet (i : nat) (v : list Z)
| BCopy (from to : nat)
| BConst (i : nat) (n : Z) (v : list Z).
Definition b_step (b : bld) (o : bop) : option bld :=
  match o with
  | BSet i v => b_set b i v
  | BCopy f t => b_copy b f t
  | BConst i n v => b_set_n_const b i n v
  end.
End B.

(** ** ReshuffleBuilder (strings_buffer.h:164-214) *)
Record rbld := mkR { r_offs : list (Z * Z); r_old : list (Z * Z); r_chars : list Z; r_base : Z }.
(** strings_buffer.cc:56-81 *)
Definition r_new (max_size : nat) (b : sbuf) (def : option (list Z)) : rbld :=
  match def with
  | Some (c :: t) =>
      let d := c :: t in
      mkR (repeat (zlen (s_chars b), zlen d + zlen (s_chars b)) max_size) (s_offs b) (s_chars b ++ d) (s_base b)
  | _ => mkR (repeat (0, 0) max_size) (s_offs b) (s_chars b) (s_base b)
  end.
(** strings_buffer.h:171-173 *)
Definition r_copy (r : rbld) (new old : nat) : option rbld :=
  let? o := rd (r_old r) old in
  let? os := upd (r_offs r) new o in
  Some (mkR os (r_old r) (r_chars r) (r_base r)).
(** strings_buffer.h:175-181 *)
Definition r_copy_range (r : rbld) (from to old : nat) : option rbld :=
  let? o := rd (r_old r) old in
  let? os := fill (r_offs r) from (to - from) o in
  Some (mkR os (r_old r) (r_chars r) (r_base r)).
(** strings_buffer.h:183-194 *)
Definition r_build (r : rbld) (size : nat) : option sbuf :=
  let? o := zslice (r_offs r) 0 (Z.of_nat size) in
  Some (mkS o (r_chars r) (r_base r)).
Inductive rop := RCopy (new old : nat) | RRange (from to old : nat).
Definition r_step (r : rbld) (o : rop) : option rbld :=
  match o with
  | RCopy n i => r_copy r n i
  | RRange f t i => r_copy_range r f t i
  end.

(** strings_buffer.cc:209-221, strings_buffer.h:330-343: what is hashed by the
    fingerprint and by AbslHashValue: the size, the offsets, the characters *)
Definition s_stream (b : sbuf) : list Z :=
  zlen (s_offs b) :: match s_offs b with
                     | [] => []
                     | os => flat_map (fun o => [fst o; snd o]) os ++ zlen (s_chars b) :: s_chars b
                     end.
