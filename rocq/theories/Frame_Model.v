(** Model of arolla/memory/frame.h and frame.cc.  Types are numbers (std::type_index);
    [T] tells what the templates know about them.  Sizes are natural numbers: a
    frame of 2^64 bytes is not considered. *)
From Verif Require Import Base GroupOps_Model.

(** A type: sizeof, alignof, is_bzero_constructible, is_trivially_destructible, and
    the struct fields of the type, with the fields of the fields (recursively), in
    the order of their registration (frame.h:486-508). *)
Record tinfo := mkT { t_size : nat; t_align : nat; t_bzero : bool; t_trivial : bool; t_sub : list (nat * nat) }.

Section M.
Variable T : nat -> tinfo.

(** frame.h:256-356 [FieldFactory]: its type and offsets *)
Record fac := mkFac { f_ty : nat; f_offs : list nat }.
(** frame.h:515-520 and 107-160: Builder and FrameLayout have the same data.
    [b_map] is type2factory, [b_reg] registered_fields_ (debug builds only). *)
Record builder := mkB { b_size : nat; b_align : nat; b_fac : list fac; b_map : list (nat * nat); b_reg : list (nat * nat) }.
Definition b_init : builder := mkB 0 1 [] [] [].

(** util/algorithms.h:290-293 *)
Definition round_up (v d : nat) : nat := (v + d - 1) / d * d.

Fixpoint assoc (k : nat) (m : list (nat * nat)) : option nat :=
  match m with
  | [] => None
  | (k', v) :: t => if k =? k' then Some v else assoc k t
  end.
(** frame.cc:34-36 *)
Definition f_add (f : fac) (o : nat) : fac := mkFac (f_ty f) (f_offs f ++ [o]).
(** frame.cc:38-44 *)
Definition f_add_derived (f d : fac) : fac := mkFac (f_ty f) (f_offs f ++ f_offs d).
(** frame.cc:46-53 *)
Definition f_derive (f : fac) (o : nat) : fac := mkFac (f_ty f) (map (fun x => x + o) (f_offs f)).

(** frame.cc:55-68 [AddOffsetToFactory] *)
Definition add_offset (fs : list fac) (m : list (nat * nat)) (o t : nat) : option (list fac * list (nat * nat)) :=
  let '(i, fs1, m1) := match assoc t m with
                       | Some i => (i, fs, m)
                       | None => (length fs, fs ++ [mkFac t []], m ++ [(t, length fs)])
                       end in
  if i <? length fs1 then
    let? f := rd fs1 i in
    let? fs2 := upd fs1 i (f_add f o) in
    Some (fs2, m1)
  else Some (fs1, m1).
(** frame.cc:72-81, one entry of the map of the derived initializers *)
Definition derived_step (o : nat) (dfs : list fac) (st : list fac * list (nat * nat)) (c : nat * nat)
  : option (list fac * list (nat * nat)) :=
  let '(fs, m) := st in
  let '(t, id) := c in
  let? d := rd dfs id in
  match assoc t m with
  | Some i => let? f := rd fs i in
              let? fs' := upd fs i (f_add_derived f (f_derive d o)) in
              Some (fs', m)
  | None => Some (fs ++ [f_derive d o], m ++ [(t, length fs)])
  end.

Definition reg_mem (x : nat * nat) (r : list (nat * nat)) : bool :=
  existsb (fun y => (fst x =? fst y) && (snd x =? snd y)) r.
Definition reg_add (r : list (nat * nat)) (x : nat * nat) : list (nat * nat) := if reg_mem x r then r else x :: r.
(** frame.cc:106-128 [RegisterSlot]: new state and success; kUninitializedOffset
    is the largest size_t, which [nat] offsets do not have *)
Definition register (b : builder) (o sz t : nat) (dup : bool) : builder * bool :=
  if (b_size b <? o) || (b_size b - o <? sz) then (b, false) else
  (mkB (b_size b) (b_align b) (b_fac b) (b_map b) (reg_add (b_reg b) (o, t)),
   negb (reg_mem (o, t) (b_reg b)) || dup).
(** frame.h:486-508 [RegisterSubslots]; stops at the first error *)
Fixpoint register_all (b : builder) (o : nat) (subs : list (nat * nat)) : builder * bool :=
  match subs with
  | [] => (b, true)
  | (so, st) :: t => let '(b', ok) := register b (o + so) (t_size (T st)) st false in
                     if (ok : bool) then register_all b' o t else (b', false)
  end.
(** frame.h:404-427 [AddSlot]; returns the offset and the statuses that are
    checked by DCHECK *)
Definition add_slot (b : builder) (t : nat) : option (builder * nat * bool) :=
  let o := round_up (b_size b) (t_align (T t)) in
  let size := o + t_size (T t) in
  let align := Nat.max (b_align b) (t_align (T t)) in
  let? r := if negb (t_bzero (T t)) || negb (t_trivial (T t)) then add_offset (b_fac b) (b_map b) o t
            else Some (b_fac b, b_map b) in
  let '(fs, m) := r in
  let '(b1, ok1) := register (mkB size align fs m (b_reg b)) o (t_size (T t)) t false in
  let '(b2, ok2) := register_all b1 o (t_sub (T t)) in
  Some (b2, o, ok1 && ok2).
(** frame.h:474-477 *)
Definition build (b : builder) : builder :=
  mkB (round_up (b_size b) (b_align b)) (b_align b) (b_fac b) (b_map b) (b_reg b).
(** frame.cc:84-98 [AddSubFrame]; [ord] is the iteration order of the hash map of
    the subframe *)
Definition add_subframe (ord : list (nat * nat) -> list (nat * nat)) (b l : builder) : option (builder * nat) :=
  let o := round_up (b_size b) (b_align l) in
  let size := o + b_size l in
  let align := Nat.max (b_align b) (b_align l) in
  let? r := fold_opt (derived_step o (b_fac l)) (ord (b_map l)) (b_fac b, b_map b) in
  let reg := fold_left (fun r x => reg_add r (o + fst x, snd x)) (b_reg l) (b_reg b) in
  Some (mkB size align (fst r) (snd r) reg, o).

(** frame.h:365-378 and 395-400: constructor and destructor calls *)
Definition constructs (l : builder) : list (nat * nat) :=
  flat_map (fun f => if t_bzero (T (f_ty f)) then [] else map (fun o => (o, f_ty f)) (f_offs f)) (b_fac l).
Definition destroys (l : builder) : list (nat * nat) :=
  flat_map (fun f => if t_trivial (T (f_ty f)) then [] else map (fun o => (o, f_ty f)) (f_offs f)) (b_fac l).
(** frame.h:277-286, 381-393: the same for [n] blocks *)
Definition constructs_n (l : builder) (n : nat) : list (nat * nat) :=
  flat_map (fun f => if t_bzero (T (f_ty f)) then [] else
    flat_map (fun i => map (fun o => (o + i * b_size l, f_ty f)) (f_offs f)) (seq 0 n)) (b_fac l).
Definition destroys_n (l : builder) (n : nat) : list (nat * nat) :=
  flat_map (fun f => if t_trivial (T (f_ty f)) then [] else
    flat_map (fun i => map (fun o => (o + i * b_size l, f_ty f)) (f_offs f)) (seq 0 n)) (b_fac l).
(** frame.h:594-597 (debug builds) *)
Definition has_field (l : builder) (o t : nat) : bool := reg_mem (o, t) (b_reg l).

(** A program that builds a frame: every subframe is built by a program of its own. *)
Inductive op :=
| OSlot (t : nat)
| OSub (ord : list (nat * nat) -> list (nat * nat)) (ops : list op)
| OReg (o sz t : nat) (dup : bool).
(** What the calls return: an offset; for a subframe also its size, alignment and
    what its own program returned. *)
Inductive slot :=
| SSlot (o t : nat)
| SSub (o size align : nat) (inner : list slot).
Fixpoint exec (p : op) (b : builder) : option (builder * list slot) :=
  match p with
  | OSlot t => let? (b', o, _) := add_slot b t in Some (b', [SSlot o t])
  | OSub ord ops =>
      let? r := (fix go (ops : list op) (b : builder) : option (builder * list slot) :=
                   match ops with
                   | [] => Some (b, [])
                   | q :: r => let? (b', s) := exec q b in
                               let? (b'', s') := go r b' in
                               Some (b'', s ++ s')
                   end) ops b_init in
      let '(b0, inner) := r in
      let l := build b0 in
      let? (b', o) := add_subframe ord b l in
      Some (b', [SSub o (b_size l) (b_align l) inner])
  | OReg o sz t dup => Some (fst (register b o sz t dup), [])
  end.
Fixpoint exec_all (ops : list op) (b : builder) : option (builder * list slot) :=
  match ops with
  | [] => Some (b, [])
  | q :: r => let? (b', s) := exec q b in
              let? (b'', s') := exec_all r b' in
              Some (b'', s ++ s')
  end.
Definition run (ops : list op) : option (builder * list slot) :=
  let? (b, s) := exec_all ops b_init in Some (build b, s).
End M.
