(** Model of arolla/util/lru_cache.h.  List nodes have an identity (their address);
    the index is the set of the identities it points to.  [size_t] wraps at 2^64. *)
From Verif Require Import Base.

Section M.
Context {K V : Type}.
Variable eqb : K -> K -> bool.

(** lru_cache.h:99-107 [Entry] *)
Record node := mkNode { nd_id : nat; nd_key : K; nd_val : V; nd_weight : N }.
(** lru_cache.h:140-150 *)
Record cache := mkCache { c_cap : N; c_used : N; c_entries : list node; c_index : list nat; c_next : nat }.

Definition wrap64 (x : N) : N := (x mod 2 ^ 64)%N.
Definition add64 (x y : N) : N := wrap64 (x + y).
Definition sub64 (x y : N) : N := wrap64 (x + 2 ^ 64 - y).

(** lru_cache.h:43-46 *)
Definition lru_init (cap : N) : cache := mkCache cap 0 [] [] 0.

Definition node_of (l : list node) (i : nat) : option node := find (fun n => nd_id n =? i) l.
(** The hash set compares keys through the iterators (lru_cache.h:112-135); a dangling
    iterator is undefined behaviour. *)
Fixpoint index_find (l : list node) (idx : list nat) (k : K) : option (option nat) :=
  match idx with
  | [] => Some None
  | i :: t => let? n := node_of l i in
              if eqb (nd_key n) k then Some (Some i) else index_find l t k
  end.
(** std::list::splice of one node to the front *)
Definition to_front (l : list node) (i : nat) : option (list node) :=
  let? n := node_of l i in Some (n :: filter (fun m => negb (nd_id m =? i)) l).

(** lru_cache.h:56-63 *)
Definition lookup (c : cache) (k : K) : option (cache * option V) :=
  let? r := index_find (c_entries c) (c_index c) k in
  match r with
  | None => Some (c, None)
  | Some i =>
      let? l := to_front (c_entries c) i in
      let? n := node_of l i in
      Some (mkCache (c_cap c) (c_used c) l (c_index c) (c_next c), Some (nd_val n))
  end.

(** lru_cache.h:84-88 *)
Fixpoint evict (fuel : nat) (c : cache) : option cache :=
  if (c_cap c <? c_used c)%N && (1 <? length (c_entries c)) then
    match fuel with
    | 0 => None
    | S fuel =>
        let? back := rd (c_entries c) (length (c_entries c) - 1) in
        let? r := index_find (c_entries c) (c_index c) (nd_key back) in
        let idx := match r with Some i => filter (fun j => negb (j =? i)) (c_index c) | None => c_index c end in
        evict fuel (mkCache (c_cap c) (sub64 (c_used c) (nd_weight back)) (removelast (c_entries c)) idx (c_next c))
    end
  else Some c.

Definition set_node (i : nat) (v : V) (w : N) (n : node) : node :=
  if nd_id n =? i then mkNode i (nd_key n) v w else n.

(** lru_cache.h:70-91; returns the front value *)
Definition put (c : cache) (k : K) (v : V) (w : N) : option (cache * option V) :=
  let l := mkNode (c_next c) k v w :: c_entries c in
  let used := add64 (c_used c) w in
  let? r := index_find l (c_index c) k in
  let? c' :=
    match r with
    | None => Some (mkCache (c_cap c) used l (c_next c :: c_index c) (S (c_next c)))
    | Some i =>
        let? n := node_of l i in
        let used := sub64 used (nd_weight n) in
        let? l2 := to_front (tl (map (set_node i v w) l)) i in
        Some (mkCache (c_cap c) used l2 (c_index c) (S (c_next c)))
    end in
  let? c' := evict (length (c_entries c')) c' in
  let? f := rd (c_entries c') 0 in
  Some (c', Some (nd_val f)).

(** lru_cache.h:94-98 *)
Definition clear (c : cache) : cache := mkCache (c_cap c) 0 [] [] (c_next c).

Inductive op := Put (k : K) (v : V) (w : N) | Lookup (k : K) | Clear.
Definition step (c : cache) (o : op) : option (cache * option V) :=
  match o with
  | Put k v w => put c k v w
  | Lookup k => lookup c k
  | Clear => Some (clear c, None)
  end.
(** Runs a history; returns the value returned by every call. *)
Fixpoint run (c : cache) (h : list op) : option (cache * list (option V)) :=
  match h with
  | [] => Some (c, [])
  | o :: t => let? (c', x) := step c o in
              let? (c'', xs) := run c' t in
              Some (c'', x :: xs)
  end.
End M.
Arguments cache K V : clear implicits.
Arguments op K V : clear implicits.
Arguments node K V : clear implicits.
