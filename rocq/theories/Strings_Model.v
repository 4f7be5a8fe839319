(** Model of arolla/util/string.h and string.cc.  A string is the list of its
    chars; the code of a char may have any value. *)
From Verif Require Import Base.
Local Open Scope Z_scope.

Definition ch_dot := 46. Definition ch_us := 95.
(** string.h:29-31 *)
Definition is_alpha (c : Z) : bool := ((65 <=? c) && (c <=? 90)) || ((97 <=? c) && (c <=? 122)).
(** string.h:34 *)
Definition is_digit (c : Z) : bool := (48 <=? c) && (c <=? 57).
(** string.h:37 *)
Definition is_alnum (c : Z) : bool := is_alpha c || is_digit c.

(** string.h:46-50 *)
Fixpoint ident_tail (s : list Z) : bool :=
  match s with
  | [] => true
  | c :: t => if negb (c =? ch_us) && negb (is_alnum c) then false else ident_tail t
  end.
(** string.h:40-52 [IsIdentifier] *)
Definition is_identifier (s : list Z) : bool :=
  match s with
  | [] => false
  | c :: t => if negb (c =? ch_us) && negb (is_alpha c) then false else ident_tail t
  end.
(** string.h:58-72: fail_flag, ends_with_token_flag *)
Definition qual_step (st : bool * bool) (c : Z) : bool * bool :=
  let '(fail, tok) := st in
  if tok then
    if c =? ch_dot then (fail, false)
    else if negb (c =? ch_us) && negb (is_alnum c) then (true, tok)
    else (fail, tok)
  else (if negb (c =? ch_us) && negb (is_alpha c) then true else fail, true).
(** string.h:55-74 [IsQualifiedIdentifier] *)
Definition is_qualified (s : list Z) : bool :=
  let '(fail, tok) := fold_left qual_step s (false, false) in negb fail && tok.

Fixpoint str_eqb (a b : list Z) : bool :=
  match a, b with
  | [], [] => true
  | x :: a', y :: b' => (x =? y) && str_eqb a' b'
  | _, _ => false
  end.
(** string.h:77-79 *)
Definition starts_with (text prefix : list Z) : bool := str_eqb (firstn (length prefix) text) prefix.
(** string.h:83-86: returned text and the new value of the flag *)
Definition non_first_comma (first : bool) (delim : list Z) : list Z * bool :=
  if first then ([], false) else (delim, first).
(** How the callers use it (e.g. qtype/tuple_qtype.cc): one call before every part. *)
Fixpoint comma_loop (first : bool) (delim : list Z) (parts : list (list Z)) : list Z :=
  match parts with
  | [] => []
  | p :: t => let '(d, first') := non_first_comma first delim in d ++ p ++ comma_loop first' delim t
  end.
(** string.h:94-102; [esc] stands for absl::Utf8SafeCHexEscape *)
Definition container_access (esc : list Z -> list Z) (key : list Z) : list Z :=
  if is_identifier key then ch_dot :: key else [91; 39] ++ esc key ++ [39; 93].

(** string.cc:26-33 [Truncate]; the DCHECK is not part of optimised builds.
    [None]: [max_length - 3] is not a position (std::out_of_range). *)
Definition truncate (s : list Z) (max_length : nat) : option (list Z) :=
  if (max_length <? length s)%nat then
    let s := firstn max_length s in
    if (max_length <? 3)%nat then None
    else Some (firstn (max_length - 3) s ++ [ch_dot; ch_dot; ch_dot])
  else Some s.

(** std::mismatch over two ranges: number of equal leading elements *)
Fixpoint mismatch (a b : list Z) : nat :=
  match a, b with
  | x :: a', y :: b' => if x =? y then S (mismatch a' b') else O
  | _, _ => O
  end.
(** size_t subtraction; [None] if it would wrap *)
Definition sub_sz (a b : nat) : option nat := if (b <=? a)%nat then Some (a - b)%nat else None.
(** string.cc:35-54 [IsWithinOneTypo] *)
Definition is_within_one_typo (lhs rhs : list Z) : option bool :=
  let n := length lhs in
  let m := length rhs in
  let l := mismatch lhs rhs in
  let r := mismatch (firstn (n - l) (rev lhs)) (firstn (m - l) (rev rhs)) in
  let? nl := sub_sz n l in let? nlr := sub_sz nl r in
  let? small := if (nlr <=? 1)%nat
                then let? ml := sub_sz m l in let? mlr := sub_sz ml r in Some (mlr <=? 1)%nat
                else Some false in
  if (small : bool) then Some true else
  if (l + r + 2 =? n)%nat && (n =? m)%nat then
    let? a := rd lhs l in let? b := rd rhs (l + 1) in
    if a =? b then
      let? c := rd lhs (l + 1) in let? d := rd rhs l in Some (c =? d)
    else Some false
  else Some false.
