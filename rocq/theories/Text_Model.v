(** Model of the operators on byte strings and texts:
    arolla/qexpr/operators/strings/{find.h,find.cc,strings.h,strings.cc,split.h,
    join.h,join.cc}.
    A string is a list of bytes (0..255); a text holds UTF-8.  [None] is undefined
    behaviour or a thrown exception unless a comment says otherwise.  ICU and
    utf8_range are modelled on well-formed UTF-8 only, except in [parse_utf8]. *)
From Verif Require Import Base.
Local Open Scope Z_scope.

Definition bytes := list Z.
Definition size {A} (s : list A) : Z := Z.of_nat (length s).

(** ** std::string_view *)
Fixpoint starts (sub s : bytes) : bool :=
  match sub, s with [], _ => true | x :: sub', y :: s' => (x =? y) && starts sub' s' | _ :: _, [] => false end.
(** find(sub); [None] is npos *)
Fixpoint find (sub s : bytes) : option nat :=
  if starts sub s then Some O else match s with [] => None | _ :: t => match find sub t with Some i => Some (S i) | None => None end end.
(** rfind(sub) *)
Fixpoint rfind (sub s : bytes) : option nat :=
  match s with
  | [] => if starts sub s then Some O else None
  | _ :: t => match rfind sub t with Some i => Some (S i) | None => if starts sub s then Some O else None end
  end.
(** substr(pos, n): throws unless pos <= size; [n] is never negative here *)
Definition sub_view (s : bytes) (pos n : Z) : option bytes :=
  if (pos <? 0) || (size s <? pos) || (n <? 0) then None else Some (firstn (Z.to_nat n) (skipn (Z.to_nat pos) s)).

(** ** find.cc *)
(** 39-57 [AdjustIndexes]: start, end, validity *)
Definition adjust (n : Z) (st en : option Z) : Z * Z * bool :=
  let s := match st with None => 0 | Some v => if v <? 0 then Z.max (v + n) 0 else v end in
  let e := match en with None => n | Some v => if v <? 0 then v + n else Z.min v n end in
  (s, e, s <=? e).
(** 60-62 [UTF8CharLen] *)
Definition charlen (c : Z) : Z := nth (Z.to_nat (c / 16)) [1; 1; 1; 1; 1; 1; 1; 1; 1; 1; 1; 1; 2; 2; 3; 4] 0.
(** 75-78 *)
Fixpoint index_loop (fuel : nat) (s : bytes) (offset : Z) (index : list Z) : option (list Z * Z) :=
  match fuel with
  | O => None
  | S k =>
      if offset <? size s
      then let? c := rd s (Z.to_nat offset) in index_loop k s (offset + charlen c) (index ++ [offset])
      else Some (index, offset)
  end.
(** 68-88 [UTF8StringIndex] *)
Definition utf8_index (s : bytes) : option (list Z) :=
  let? (index, offset) := index_loop (S (length s)) s 0 [] in
  Some ((if size s <? offset then removelast index else index) ++ [size s]).
(** std::lower_bound in a sorted range, as a position *)
Fixpoint lower_bound (l : list Z) (x : Z) : nat := match l with [] => O | y :: t => if y <? x then S (lower_bound t x) else O end.

(** 92-95 *)
Definition contains (s sub : bytes) : bool := match find sub s with Some _ => true | None => false end.
(** find(sub, pos) *)
Definition find_from (sub s : bytes) (pos : nat) : option nat := match find sub (skipn pos s) with Some i => Some (pos + i)%nat | None => None end.
Definition int_max : Z := 2147483647.
(** 104-107; [count] is an int: overflow is undefined *)
Fixpoint count_loop (fuel : nat) (sub s : bytes) (curr : nat) (count : Z) : option Z :=
  match fuel with
  | O => None
  | S k =>
      match find_from sub s curr with
      | None => Some count
      | Some p => if count =? int_max then None else count_loop k sub s (S p) (count + 1)
      end
  end.
(** 97-109 *)
Definition bytes_count (s sub : bytes) : option Z :=
  match sub with [] => Some (size s + 1) | _ => count_loop (2 + length s) sub s 0 0 end.

(** 123-134 [FindSubstring]; the inner option: no occurrence *)
Definition find_sub (s sub : bytes) (start end_ : Z) : option (option Z) :=
  let? w := sub_view s start (end_ - start) in
  Some (match find sub w with
        | Some p => Some (Z.of_nat p + start)
        | None => match sub with [] => Some start | _ => None end
        end).
(** 137-145 *)
Definition bytes_find (s sub : bytes) (st en : option Z) : option (option Z) :=
  let '(a, b, ok) := adjust (size s) st en in
  if ok then find_sub s sub a b else Some None.
(** 153-167; 206-220 with [rfind] *)
Definition text_find_with (fs : bytes -> bytes -> Z -> Z -> option (option Z)) (s sub : bytes) (st en : option Z) : option (option Z) :=
  let? index := utf8_index s in
  let '(a, b, ok) := adjust (size index - 1) st en in
  if ok then
    let? ba := rd index (Z.to_nat a) in
    let? bb := rd index (Z.to_nat b) in
    let? r := fs s sub ba bb in
    Some (match r with Some o => Some (Z.of_nat (lower_bound index o)) | None => None end)
  else Some None.
Definition text_find := text_find_with find_sub.
(** 176-187 [FindLastSubstring] *)
Definition rfind_sub (s sub : bytes) (start end_ : Z) : option (option Z) :=
  let? w := sub_view s start (end_ - start) in
  Some (match rfind sub w with
        | Some p => Some (Z.of_nat p + start)
        | None => match sub with [] => Some start | _ => None end
        end).
(** 190-198 *)
Definition bytes_rfind (s sub : bytes) (st en : option Z) : option (option Z) :=
  let '(a, b, ok) := adjust (size s) st en in
  if ok then rfind_sub s sub a b else Some None.
Definition text_rfind := text_find_with rfind_sub.
(** 237-245 *)
Definition bytes_substr (s : bytes) (st en : option Z) : option bytes :=
  let '(a, b, ok) := adjust (size s) st en in
  if ok then sub_view s a (b - a) else Some [].
(** 253-263 *)
Definition text_substr (s : bytes) (st en : option Z) : option bytes :=
  let? index := utf8_index s in
  let '(a, b, ok) := adjust (size index - 1) st en in
  if ok then
    let? ba := rd index (Z.to_nat a) in
    let? bb := rd index (Z.to_nat b) in
    sub_view s ba (bb - ba)
  else Some [].

(** ** UTF-8 *)
Definition trail (b : Z) : bool := (128 <=? b) && (b <? 192).
(** One well-formed code point and what follows it (Unicode, table 3-7): what
    U8_NEXT reads.  [None]: the string is empty or does not start with one. *)
Definition decode1 (s : bytes) : option (Z * bytes) :=
  match s with
  | [] => None
  | b :: t =>
      if b <? 128 then Some (b, t)
      else if b <? 192 then None
      else if b <? 224 then
        match t with
        | b1 :: t => let c := (b - 192) * 64 + (b1 - 128) in if trail b1 && (128 <=? c) then Some (c, t) else None
        | _ => None
        end
      else if b <? 240 then
        match t with
        | b1 :: b2 :: t =>
            let c := (b - 224) * 4096 + (b1 - 128) * 64 + (b2 - 128) in
            if trail b1 && trail b2 && (2048 <=? c) && negb ((55296 <=? c) && (c <? 57344)) then Some (c, t) else None
        | _ => None
        end
      else if b <? 248 then
        match t with
        | b1 :: b2 :: b3 :: t =>
            let c := (b - 240) * 262144 + (b1 - 128) * 4096 + (b2 - 128) * 64 + (b3 - 128) in
            if trail b1 && trail b2 && trail b3 && (65536 <=? c) && (c <? 1114112) then Some (c, t) else None
        | _ => None
        end
      else None
  end.
Fixpoint decode (fuel : nat) (s : bytes) : option (list Z) :=
  match fuel with
  | O => None
  | S k => match s with [] => Some [] | _ => let? (c, t) := decode1 s in let? r := decode k t in Some (c :: r) end
  end.
(** icu::UnicodeString::fromUTF8(s).countChar32(); [None]: ill-formed, not modelled *)
Definition text_length (s : bytes) : option Z := let? r := decode (S (length s)) s in Some (size r).
(** find.cc:111-120 *)
Definition text_count (s sub : bytes) : option Z :=
  match sub with [] => let? n := text_length s in Some (n + 1) | _ => bytes_count s sub end.
(** utf8_range::SpanStructurallyValid: the well-formed prefix *)
Fixpoint span (fuel : nat) (s : bytes) : nat :=
  match fuel with
  | O => O
  | S k => match decode1 s with Some (_, t) => (length s - length t) + span k t | None => O end
  end.
Definition valid_span (s : bytes) : nat := span (length s) s.

Inductive decode_errors := Strict | Ignore | Replace | OtherErrors.
Inductive derr := BadErrorsArg | InvalidAt (n : nat).
Definition replacement : bytes := [239; 191; 189].
Section Decode.
(** How far U8_NEXT moves over an ill-formed sequence of at most four bytes. *)
Variable skip : bytes -> nat.
(** strings.cc:62-87 [ParseUtf8]; [s]: the bytes from [offset] on *)
Fixpoint parse_utf8 (fuel : nat) (repl : bool) (s : bytes) (result : bytes) : option bytes :=
  match fuel with
  | O => None
  | S k =>
      match s with
      | [] => Some result
      | _ =>
          let v := valid_span s in
          let result := result ++ firstn v s in
          match skipn v s with
          | [] => Some result
          | rest => parse_utf8 k repl (skipn (skip (firstn 4 rest)) rest) (if repl then result ++ replacement else result)
          end
      end
  end.
(** strings.cc:54-60, 163-177 [DecodeOp] *)
Definition decode_op (s : bytes) (e : decode_errors) : option (derr + bytes) :=
  match e with
  | OtherErrors => Some (inl BadErrorsArg)
  | Strict => if (valid_span s =? length s)%nat then Some (inr s) else Some (inl (InvalidAt (valid_span s)))
  | Ignore | Replace => let? r := parse_utf8 (S (length s)) (match e with Replace => true | _ => false end) s [] in Some (inr r)
  end.
End Decode.

(** ** strings.replace *)
Definition int64_max : Z := 9223372036854775807.
(** strings.cc:111-118; [s]: from [offset] on; the result is [res] and the rest *)
Fixpoint fence_loop (clen : bytes -> nat) (fuel : nat) (new s : bytes) (count : Z) (res : bytes) : option (bytes * bytes) :=
  match fuel with
  | O => None
  | S k =>
      if (0 <? count) && negb (size s =? 0)
      then fence_loop clen k new (skipn (clen s) s) (count - 1) (res ++ firstn (clen s) s ++ new)
      else Some (res, s)
  end.
(** 120-125 *)
Fixpoint replace_loop (fuel : nat) (old new s : bytes) (count : Z) (res : bytes) : option (bytes * bytes) :=
  match fuel with
  | O => None
  | S k =>
      if 0 <? count then
        match find old s with
        | None => Some (res, s)
        | Some i => replace_loop k old new (skipn (i + length old) s) (count - 1) (res ++ firstn i s ++ new)
        end
      else Some (res, s)
  end.
(** 90-129 [ReplaceImpl] *)
Definition replace_with (clen : bytes -> nat) (s old new : bytes) (max_subs : option Z) : option bytes :=
  let count := match max_subs with Some m => if 0 <=? m then m else int64_max | None => int64_max end in
  let? (res, rest) :=
    match old with
    | [] => if 0 <? count then fence_loop clen (S (length s)) new s (count - 1) new else Some ([], s)
    | _ => replace_loop (S (length s)) old new s count []
    end in
  Some (res ++ rest).
Definition bytes_replace := replace_with (fun _ => 1%nat).
(** U8_FWD_1 at the start of [s] *)
Definition u8_fwd (s : bytes) : nat := match decode1 s with Some (_, t) => (length s - length t)%nat | None => 1%nat end.
Definition text_replace := replace_with u8_fwd.

(** ** strings.lstrip, rstrip, strip *)
Section Strip.
(** Is [char] unsigned?  Implementation-defined; signed on x86. *)
Variable uchar : bool.
Definition as_index (c : Z) : Z := if uchar || (c <? 128) then c else c - 256.
(** strings.h:129-132: the bits of a [std::bitset<256>], initialised with the
    number 256; [set] and [test] throw for an index that is not below 256 *)
Definition bit_set (l : list Z) (c : Z) : option (list Z) := if as_index c <? 0 then None else Some (as_index c :: l).
Definition bit_test (l : list Z) (c : Z) : option bool := if as_index c <? 0 then None else Some (existsb (Z.eqb (as_index c)) l).
Definition bitset_256 : list Z := filter (fun i => Z.testbit 256 i) (map Z.of_nat (seq 0 256)).
Fixpoint char_set (l : list Z) (chars : bytes) : option (list Z) :=
  match chars with [] => Some l | c :: t => let? l := bit_set l c in char_set l t end.
(** 120-127: [b] moves forward *)
Fixpoint strip_front (test : Z -> option bool) (s : bytes) : option bytes :=
  match s with [] => Some [] | c :: t => let? b := test c in if b then strip_front test t else Some s end.
(** 175-182: [e] moves backward *)
Definition strip_back (test : Z -> option bool) (s : bytes) : option bytes := let? r := strip_front test (rev s) in Some (rev r).
(** absl::ascii_isspace *)
Definition ascii_space (c : Z) : bool := (c =? 32) || ((9 <=? c) && (c <=? 13)).
Definition bytes_test (chars : option bytes) : option (Z -> option bool) :=
  match chars with
  | Some cs => let? l := char_set bitset_256 cs in Some (bit_test l)
  | None => Some (fun c => Some (ascii_space c))
  end.
(** 118-138, 173-193, 228-231 *)
Definition bytes_lstrip (s : bytes) (chars : option bytes) : option bytes := let? t := bytes_test chars in strip_front t s.
Definition bytes_rstrip (s : bytes) (chars : option bytes) : option bytes := let? t := bytes_test chars in strip_back t s.
Definition bytes_strip (s : bytes) (chars : option bytes) : option bytes := let? r := bytes_lstrip s chars in bytes_rstrip r chars.
End Strip.
Section TextStrip.
(** u_isUWhiteSpace *)
Variable white : Z -> bool.
Definition text_test (chars : option bytes) : option (Z -> bool) :=
  match chars with
  | Some cs => let? l := decode (S (length cs)) cs in Some (fun c => existsb (Z.eqb c) l)
  | None => Some white
  end.
(** 141-152 *)
Fixpoint text_front (fuel : nat) (test : Z -> bool) (s : bytes) : bytes :=
  match fuel with
  | O => s
  | S k => match decode1 s with Some (c, t) => if test c then text_front k test t else s | None => s end
  end.
(** U8_PREV at the end of [s]: the code point and what precedes it *)
Fixpoint prev (k : nat) (s : bytes) : option (Z * bytes) :=
  match k with
  | O => None
  | S k' =>
      match prev k' s with
      | Some r => Some r
      | None => if (k <=? length s)%nat
                then match decode1 (skipn (length s - k) s) with Some (c, []) => Some (c, firstn (length s - k) s) | _ => None end
                else None
      end
  end.
(** 196-207 *)
Fixpoint text_back (fuel : nat) (test : Z -> bool) (s : bytes) : bytes :=
  match fuel with
  | O => s
  | S k => match prev 4 s with Some (c, t) => if test c then text_back k test t else s | None => s end
  end.
(** 140-167, 195-222, 233-236 *)
Definition text_lstrip (s : bytes) (chars : option bytes) : option bytes := let? t := text_test chars in Some (text_front (length s) t s).
Definition text_rstrip (s : bytes) (chars : option bytes) : option bytes := let? t := text_test chars in Some (text_back (length s) t s).
Definition text_strip (s : bytes) (chars : option bytes) : option bytes := let? r := text_lstrip s chars in text_rstrip r chars.
End TextStrip.

(** ** strings.parse_int32, parse_int64 and strings.as_text of integers *)
Definition is_digit (c : Z) : bool := (48 <=? c) && (c <=? 57).
Fixpoint digits (s : bytes) : bytes * bytes :=
  match s with [] => ([], []) | c :: t => if is_digit c then let (d, r) := digits t in (c :: d, r) else ([], s) end.
Definition value (ds : bytes) : Z := fold_left (fun acc c => 10 * acc + (c - 48)) ds 0.
(** std::from_chars(..., 10) for a signed type of [bits] bits: the value, unless
    there is an error, and the rest *)
Definition from_chars (bits : Z) (s : bytes) : option Z * bytes :=
  let '(neg, t) := match s with c :: t => if c =? 45 then (true, t) else (false, s) | [] => (false, s) end in
  match digits t with
  | ([], _) => (None, s)
  | (ds, r) => let v := if neg : bool then - value ds else value ds in
               (if (- 2 ^ (bits - 1) <=? v) && (v <? 2 ^ (bits - 1)) then Some v else None, r)
  end.
(** strings.h:419-430 [ParseIntT] *)
Definition parse_int (bits : Z) (s : bytes) : option Z :=
  let go s := match from_chars bits s with (Some v, []) => Some v | _ => None end in
  match s with
  | c :: t => if c =? 43 then match t with d :: _ => if d =? 45 then None else go t | [] => go t end else go s
  | [] => go s
  end.
(** absl::StrFormat("%d", x) *)
Fixpoint show_nat (fuel : nat) (n : Z) : bytes :=
  match fuel with O => [] | S k => if n <? 10 then [48 + n] else show_nat k (n / 10) ++ [48 + n mod 10] end.
Definition as_text (z : Z) : bytes :=
  if z <? 0 then 45 :: show_nat (S (Z.to_nat (Z.log2 (- z)))) (- z) else show_nat (S (Z.to_nat (Z.log2 z))) z.

(** ** strings.split, strings.join *)
(** absl::StrSplit by a string; by an empty one: into single bytes *)
Fixpoint split_by (fuel : nat) (sep s : bytes) : option (list bytes) :=
  match fuel with
  | O => None
  | S k =>
      match sep with
      | [] => match s with [] => Some [[]] | _ => Some (map (fun c => [c]) s) end
      | _ => match find sep s with
             | None => Some [s]
             | Some i => let? r := split_by k sep (skipn (i + length sep) s) in Some (firstn i s :: r)
             end
      end
  end.
(** absl::StrSplit by any white space, absl::SkipEmpty *)
Fixpoint split_space (s : bytes) (cur : bytes) : list bytes :=
  match s with
  | [] => match cur with [] => [] | _ => [cur] end
  | c :: t => if ascii_space c then match cur with [] => split_space t [] | _ => cur :: split_space t [] end else split_space t (cur ++ [c])
  end.
Definition pieces (sep : option bytes) (s : bytes) : option (list bytes) :=
  match sep with Some sep => split_by (S (length s)) sep s | None => Some (split_space s []) end.
(** split.h:50-71: [splits_per_string] and [splits] *)
Fixpoint split_loop (sep : option bytes) (array : list (option bytes)) (points : list Z) (splits : list bytes) : option (list bytes * list Z) :=
  match array with
  | [] => Some (splits, points)
  | None :: t => split_loop sep t (points ++ [last points 0]) splits
  | Some s :: t => let? ps := pieces sep s in split_loop sep t (points ++ [last points 0 + size ps]) (splits ++ ps)
  end.
Definition split_op (array : list (option bytes)) (sep : option bytes) : option (list bytes * list Z) := split_loop sep array [0] [].

(** absl::StrJoin *)
Fixpoint join (d : bytes) (parts : list bytes) : bytes :=
  match parts with [] => [] | [p] => p | p :: t => p ++ d ++ join d t end.
(** join.cc:63-75; bound_operators.h [WhereAllBoundOperator]; here [None] is a
    missing value *)
Definition join_op (d : bytes) (parts : list (option bytes)) : option bytes :=
  if forallb (fun p => match p with Some _ => true | None => false end) parts
  then Some (join d (map (fun p => match p with Some s => s | None => [] end) parts)) else None.
