(** Model of arolla/dense_array/dense_array.h.
    Buffers are lists; buffer ownership and allocation are not modelled. *)
From Verif Require Import Base Bits_Model Bitmap_Model Algo_Model.

(** dense_array.h:51-64 *)
Record darr (A : Type) := mkD { vals : list A; bmp : list N; boff : nat }.
Arguments mkD {A}. Arguments vals {A}. Arguments bmp {A}. Arguments boff {A}.

Section D.
Context {A : Type}.

Definition da_size (a : darr A) : nat := length (vals a).

(** dense_array.h:80-86 [present] *)
Definition da_present (a : darr A) (i : nat) : option bool :=
  bm_get_bit (bmp a) (i + boff a).

(** dense_array.h:89-97 [operator[]]: the outer option is undefined behaviour,
    the inner one is the optional value. *)
Definition da_get (a : darr A) (i : nat) : option (option A) :=
  let? p := da_present a i in
  if p then let? v := rd (vals a) i in Some (Some v) else Some None.

(** dense_array.h:237-241 [CheckBitmapMatchesValues], the offset range of line
    48 and 32-bit words. *)
Definition da_valid (a : darr A) : Prop :=
  boff a < W /\ Forall (fun x => x < 2 ^ 32)%N (bmp a) /\
  (bmp a = [] \/ length (bmp a) = bitmap_size (length (vals a) + boff a)).

(** simple_buffer.h:299-306 [Slice]; out of range is undefined. *)
Definition buf_slice {B} (l : list B) (offset count : nat) : option (list B) :=
  if offset + count <=? length l then Some (firstn count (skipn offset l)) else None.

(** dense_array.h:116-131 [Slice] *)
Definition da_slice (a : darr A) (start count : nat) : option (darr A) :=
  let? v := buf_slice (vals a) start count in
  match bmp a with
  | [] => Some (mkD v [] 0)
  | _ =>
      let off := (start + boff a) mod W in
      let b_start := (start + boff a) / W in
      let b_size := bitmap_size (off + count) in
      let? b := buf_slice (bmp a) b_start b_size in
      Some (mkD v b off)
  end.

(** dense_array.h:139-141: loop setting word [i]; [acc] are the words so far *)
Fixpoint words_with_offset (bm : list N) (off i n : nat) : option (list N) :=
  match n with
  | O => Some []
  | S n' => let? x := get_word_with_offset bm i off in
            let? t := words_with_offset bm off (S i) n' in
            Some (x :: t)
  end.

(** dense_array.h:134-147 [ForceNoBitmapBitOffset] *)
Definition da_force_no_offset (a : darr A) : option (darr A) :=
  if 0 <? boff a then
    let? b := words_with_offset (bmp a) (boff a) 0 (bitmap_size (da_size a)) in
    Some (mkD (vals a) b 0)
  else Some a.

(** dense_array.h:70-72 [PresentCount] *)
Definition da_present_count (a : darr A) : option nat :=
  count_bits (bmp a) (boff a) (da_size a).
(** dense_array.h:75-78 [IsAllMissing], [IsAllPresent]; 68 [IsFull] *)
Definition da_is_all_missing (a : darr A) : option bool :=
  let? c := da_present_count a in Some (c =? 0).
Definition da_is_full (a : darr A) : option bool :=
  let? c := da_present_count a in Some (c =? da_size a).
Definition da_is_all_present (a : darr A) : option bool :=
  match bmp a with [] => Some true | _ => da_is_full a end.

(** dense_array.h:155-157 [ToMask]; Unit values carry no data. *)
Definition da_to_mask (a : darr A) : darr unit :=
  mkD (repeat tt (da_size a)) (bmp a) (boff a).

(** dense_array.h:162-179 [ForEach]: the sequence of calls (id, presence, value) *)
Fixpoint attach (vs : list A) (calls : list (nat * bool)) : option (list (nat * bool * A)) :=
  match calls with
  | [] => Some []
  | (i, p) :: t => let? v := rd vs i in
                   let? r := attach vs t in
                   Some ((i, p, v) :: r)
  end.
Definition da_for_each (a : darr A) : option (list (nat * bool * A)) :=
  match bmp a with
  | [] => attach (vals a) (map (fun i => (i, true)) (seq 0 (da_size a)))
  | _ => let? gs := iterate_by_groups (bmp a) (boff a) (da_size a) in
         attach (vals a)
           (flat_map (fun g => map (fun c => (fst g + fst c, snd c)) (snd g)) gs)
  end.
(** dense_array.h:184-195 [ForEachPresent] *)
Definition da_for_each_present (a : darr A) : option (list (nat * A)) :=
  let? cs := da_for_each a in
  Some (map (fun c => (fst (fst c), snd c)) (filter (fun c => snd (fst c)) cs)).

(** dense_array.h:246-256 [ArraysAreEquivalent]; [eqb] is operator== of T. *)
Fixpoint equiv_loop (eqb : A -> A -> bool) (a b : darr A) (i n : nat) : option bool :=
  match n with
  | O => Some true
  | S n' =>
      let? x := da_get a i in
      let? y := da_get b i in
      let same := match x, y with
                  | Some u, Some v => eqb u v
                  | None, None => true
                  | _, _ => false
                  end in
      if negb same then Some false else equiv_loop eqb a b (S i) n'
  end.
Fixpoint list_eqb (eqb : A -> A -> bool) (l m : list A) : bool :=
  match l, m with
  | [], [] => true
  | x :: l', y :: m' => eqb x y && list_eqb eqb l' m'
  | _, _ => false
  end.
Definition da_equivalent (eqb : A -> A -> bool) (a b : darr A) : option bool :=
  match bmp a, bmp b with
  | [], [] => Some (list_eqb eqb (vals a) (vals b))
  | _, _ => if negb (da_size a =? da_size b) then Some false
            else equiv_loop eqb a b 0 (da_size a)
  end.

(** ** DenseArrayBuilder (dense_array.h:275-345) *)
Record dbuilder := { db_vals : list A; db_bits : list N }.

(** dense_array.h:279-286; [mem] is the uninitialised content *)
Definition db_init (mem : list A) : dbuilder :=
  {| db_vals := mem; db_bits := repeat 0%N (bitmap_size (length mem)) |}.

(** dense_array.h:292-307 [Set] *)
Definition db_set (b : dbuilder) (id : nat) (v : option A) : option dbuilder :=
  match v with
  | None => Some b
  | Some x => let? vs := upd (db_vals b) id x in
              let? bits := set_bit W (db_bits b) id in
              Some {| db_vals := vs; db_bits := bits |}
  end.

(** simple_buffer.h:143-149 [SetNConst] *)
Fixpoint fill (l : list A) (i n : nat) (x : A) : option (list A) :=
  match n with
  | O => Some l
  | S n' => let? l' := upd l i x in fill l' (S i) n' x
  end.

(** dense_array.h:310-325 [SetNConst] *)
Definition db_set_n (b : dbuilder) (id count : nat) (v : option A) : option dbuilder :=
  match v with
  | None => Some b
  | Some x => let? vs := fill (db_vals b) id count x in
              let? bits := set_bits_in_range W (db_bits b) id (id + count) in
              Some {| db_vals := vs; db_bits := bits |}
  end.

(** dense_array.h:334-336 [Build()] *)
Definition db_build (b : dbuilder) : darr A := mkD (db_vals b) (db_bits b) 0.
(** dense_array.h:340-343 [Build(size)] *)
Definition db_build_size (b : dbuilder) (size : nat) : option (darr A) :=
  let? v := buf_slice (db_vals b) 0 size in
  let? m := buf_slice (db_bits b) 0 (bitmap_size size) in
  Some (mkD v m 0).

(** dense_array.h:348-359 [CreateDenseArray(span)]; [d] is the value stored for a
    missing element, [mem] the initial content of the bitmap buffer. *)
Definition create_dense_array (d : A) (mem : list N) (data : list (option A))
  : option (darr A) :=
  let? b := builder_add (builder_init mem)
              (map (fun o => match o with Some _ => true | None => false end) data) in
  Some (mkD (map (fun o => match o with Some x => x | None => d end) data)
            (builder_build b) 0).
(** dense_array.h:417-423 [CreateConstDenseArray] *)
Definition create_const (n : nat) (x : A) : darr A := mkD (repeat x n) [] 0.
(** dense_array.h:425-430 [CreateEmptyDenseArray]; [mem] is uninitialised *)
Definition create_empty (mem : list A) : darr A :=
  mkD mem (create_empty_bitmap (length mem)) 0.

(** qexpr/operators/dense_array/array_ops.h:115-144 [DenseArrayConcatOp] *)
Definition da_concat (a b : darr A) : option (darr A) :=
  let vs := vals a ++ vals b in
  match bmp a, bmp b with
  | [], [] => Some (mkD vs [] 0)
  | _, _ =>
      let m0 := repeat full_word (bitmap_size (da_size a + da_size b)) in
      let? m1 := match bmp a with
                 | [] => Some m0
                 | _ => copy_bits W (da_size a) (bmp a) (boff a) m0 0
                 end in
      let? m2 := match bmp b with
                 | [] => Some m1
                 | _ =>
                     let q := da_size a / W in
                     let? t := copy_bits W (da_size b) (bmp b) (boff b)
                                 (skipn q m1) (da_size a mod W) in
                     Some (firstn q m1 ++ t)
                 end in
      Some (mkD vs m2 0)
  end.
End D.
Arguments dbuilder A : clear implicits.
