(** Model of strings._findall_regex, arolla/qexpr/operators/strings/findall_regex.h, and of
    array._interleave_to_dense_array, arolla/qexpr/operators/dense_array/interleave.cc.  An array is
    the list of its optional values; an edge is the list of its split points. *)
From Coq Require Import ZArith.
From Verif Require Import Base.
Local Open Scope nat_scope.

Section Findall.
(** [find]: the matches of Regex::FindAll in a text, each the list of its groups;
    [ngroups]: NumberOfCapturingGroups *)
Variables T S : Type.
Variable find : T -> list (list S).
Variable ngroups : nat.
(** findall_regex.h:52-56: one call of the callback *)
Definition on_match (st : list nat * list S) (groups : list S) : list nat * list S :=
  let '(splits, flat) := st in (removelast splits ++ [last splits 0 + 1], flat ++ groups).
(** findall_regex.h:49-58, one row *)
Definition on_row (st : list nat * list S) (row : option T) : list nat * list S :=
  let '(splits, flat) := st in
  let st := (splits ++ [last splits 0], flat) in
  match row with Some v => fold_left on_match (find v) st | None => st end.
(** DenseArrayEdge::FromSplitPoints: starts with 0, does not decrease (modelled in full for C08) *)
Fixpoint ascending (l : list nat) : bool :=
  match l with
  | a :: t => match t with b :: _ => (a <=? b) && ascending t | [] => true end
  | [] => true
  end.
Definition from_split_points (l : list nat) : option (list nat) :=
  match l with 0 :: _ => if ascending l then Some l else None | _ => None end.
(** FromUniformGroups *)
Definition from_uniform (parents group : nat) : list nat := map (fun i => i * group) (seq 0 (parents + 1)).
(** findall_regex.h:43-77: the groups of all matches, the matches of every row, the groups of every match *)
Definition findall (rows : list (option T)) : option (list S * list nat * list nat) :=
  let '(splits, flat) := fold_left on_row rows ([0], []) in
  let? e := from_split_points splits in
  Some (flat, e, from_uniform (last e 0) ngroups).
End Findall.

Section Interleave.
Variable V : Type.
(** DenseArrayBuilder::Set *)
Fixpoint put (l : list (option V)) (i : nat) (v : option V) : list (option V) :=
  match l, i with
  | [], _ => []
  | _ :: t, O => v :: t
  | x :: t, S i => x :: put t i v
  end.
(** [id++] for an int; [None]: overflow *)
Definition next_id (id : nat) : option nat :=
  if (Z.of_nat id + 1 <? 2147483648)%Z then Some (id + 1) else None.
(** interleave.cc:121-123, one row *)
Fixpoint set_row (row : list (option V)) (id : nat) (acc : list (option V)) : option (nat * list (option V)) :=
  match row with
  | [] => Some (id, acc)
  | v :: t => let? id' := next_id id in set_row t id' (put acc id v)
  end.
(** interleave.cc:119-124 *)
Fixpoint set_rows (rows : list (list (option V))) (id : nat) (acc : list (option V)) : option (list (option V)) :=
  match rows with
  | [] => Some acc
  | r :: t => let? st := set_row r id acc in set_rows t (fst st) (snd st)
  end.
(** The rows that FrameIterator visits (modelled for C54): [inl]: arrays of different sizes *)
Definition same_size (cols : list (list (option V))) (n : nat) : bool := forallb (fun c => length c =? n) cols.
(** interleave.cc:107-125.  There is at least one array. *)
Definition interleave (cols : list (list (option V))) : option (unit + list (option V)) :=
  let n := length (hd [] cols) in
  if same_size cols n then
    let rows := map (fun i => map (fun c => nth i c None) cols) (seq 0 n) in
    let? out := set_rows rows 0 (repeat None (n * length cols)) in Some (inr out)
  else Some (inl tt).
End Interleave.
