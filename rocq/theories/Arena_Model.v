(** Model of [UnsafeArenaBufferFactory] (arolla/memory/raw_buffer_factory.h:109-161,
    raw_buffer_factory.cc:87-156).  Addresses and sizes are integers, pointer
    arithmetic is modulo 2^64.  The base factory is the environment: every call
    carries the address it would return, if it is asked.  The holders are not
    modelled: a region is owned from its allocation until [Reset] clears
    [big_allocs_] (pages are never released). *)
From Verif Require Import Base.
Local Open Scope Z_scope.

Definition p64 (x : Z) : Z := x mod 2 ^ 64.
(** raw_buffer_factory.h:146-159.  [pages] and [bigs] hold addresses; the sizes of
    the big allocations are kept for the specification. *)
Record arena := mkA { page_size : Z; page_id : Z; current : Z; end_ : Z; pages : list Z; bigs : list (Z * Z) }.
Definition a_init (ps : Z) : arena := mkA ps (-1) 8 8 [] [].

(** raw_buffer_factory.cc:144-155 [NextPage]; also tells the size asked from the
    base factory, which answers [f].  [page_id_] is not negative here, and no arena
    has 2^63 pages. *)
Definition next_page (a : arena) (f : Z) : option (arena * option Z) :=
  let id := page_id a + 1 in
  if id =? Z.of_nat (length (pages a)) then
    Some (mkA (page_size a) id f (p64 (f + page_size a)) (pages a ++ [f]) (bigs a), Some (page_size a))
  else
    let? p := rd (pages a) (Z.to_nat id) in
    Some (mkA (page_size a) id p (p64 (p + page_size a)) (pages a) (bigs a), None).
(** raw_buffer_factory.cc:128-142 [SlowAlloc]: [nbytes > page_size_] compares
    unsigned numbers *)
Definition slow_alloc (a : arena) (n f : Z) : option (arena * Z * option Z) :=
  if (p64 (page_size a) <? n) || (Z.quot (page_size a) 2 <=? end_ a - current a) then
    Some (mkA (page_size a) (page_id a) (current a) (end_ a) (pages a) (bigs a ++ [(f, n)]), f, Some n)
  else
    let? (a1, ask) := next_page a f in
    let last := current a1 in
    Some (mkA (page_size a1) (page_id a1) (p64 (last + n)) (end_ a1) (pages a1) (bigs a1), last, ask).
Definition set_current (a : arena) (c : Z) : arena := mkA (page_size a) (page_id a) c (end_ a) (pages a) (bigs a).
(** raw_buffer_factory.cc:87-96 [CreateRawBuffer]: [& ~7] is rounding down to a
    multiple of 8 *)
Definition create (a : arena) (n f : Z) : option (arena * Z * option Z) :=
  let last := p64 (current a + 7) / 8 * 8 in
  if end_ a <? p64 (last + n) then slow_alloc a n f
  else Some (set_current a (p64 (last + n)), last, None).
(** raw_buffer_factory.cc:98-115 [ReallocRawBuffer]; the last component is true if
    the bytes have to be copied *)
Definition realloc (a : arena) (data old new f : Z) : option (arena * Z * option Z * bool) :=
  let last := p64 (current a - old) in
  if negb (data =? last) || (end_ a <? p64 (last + new)) then
    if new <=? old then Some (a, data, None, false) else
    let a1 := if data =? last then set_current a last else a in
    let? (a2, d, ask) := slow_alloc a1 new f in
    Some (a2, d, ask, true)
  else Some (set_current a (p64 (last + new)), last, None, false).
(** raw_buffer_factory.cc:117-125 *)
Definition reset (a : arena) : option arena :=
  if 0 <=? page_id a then
    let? p := rd (pages a) 0%nat in
    Some (mkA (page_size a) 0 p (p64 (p + page_size a)) (pages a) [])
  else Some (mkA (page_size a) (page_id a) (current a) (end_ a) (pages a) []).

(** The arena with its clients: the buffers they hold (address and size; a
    reallocated buffer keeps its number) and the memory. *)
Record world := mkW { ar : arena; mem : Z -> Z; live : list (Z * Z) }.
Inductive op :=
| Create (n f : Z)
| Realloc (k : nat) (n f : Z)
| Write (k : nat) (i v : Z)
| Reset.
Definition poke (m : Z -> Z) (a v : Z) : Z -> Z := fun x => if x =? a then v else m x.
Definition memcpy (m : Z -> Z) (dst src n : Z) : Z -> Z := fun x => if (dst <=? x) && (x <? dst + n) then m (src + (x - dst)) else m x.
(** memcpy has no behaviour for overlapping ranges *)
Definition overlap (a b n : Z) : bool := (0 <? n) && (a <? b + n) && (b <? a + n).
Definition step (w : world) (o : op) : option world :=
  match o with
  | Create n f => let? (a, d, _) := create (ar w) n f in
                  Some (mkW a (mem w) (live w ++ [(d, n)]))
  | Realloc k n f => let? (d, s) := rd (live w) k in
                     let? (a, d', _, copy) := realloc (ar w) d s n f in
                     let? l := upd (live w) k (d', n) in
                     if (copy : bool) then
                       let c := Z.min s n in
                       if overlap d' d c then None else Some (mkW a (memcpy (mem w) d' d c) l)
                     else Some (mkW a (mem w) l)
  | Write k i v => let? (d, s) := rd (live w) k in
                   if (0 <=? i) && (i <? s) then Some (mkW (ar w) (poke (mem w) (d + i) v) (live w)) else None
  | Reset => let? a := reset (ar w) in Some (mkW a (mem w) [])
  end.
(** The size that an operation asks from the base factory, if any. *)
Definition asks (w : world) (o : op) : option Z :=
  match o with
  | Create n f => let? (_, _, ask) := create (ar w) n f in ask
  | Realloc k n f => let? (d, s) := rd (live w) k in
                     let? (_, _, ask, _) := realloc (ar w) d s n f in ask
  | _ => None
  end.
Definition w_init (ps : Z) (m : Z -> Z) : world := mkW (a_init ps) m [].
