(** Model of arolla/dense_array/ops/{util.h, universal_dense_op.h, dense_ops.h}.
    All argument arrays have one element type [A] (think of a sum of the C++
    element types); a result value is a presence flag with a value, as in
    OptionalValue. *)
From Verif Require Import Base Bits_Model Bitmap_Model Dense_Model.

(** ops/util.h:36-45 [GetMask] *)
Definition get_mask {A} (no_offset : bool) (a : darr A) (word_id : nat) : option N :=
  if no_offset then get_word (bmp a) word_id
  else get_word_with_offset (bmp a) word_id (boff a).

(** An argument: true if the function takes it as OptionalValue. *)
Definition arg (A : Type) : Type := bool * darr A.

(** ops/util.h:49-58 [GetOptionalMask], 98-102 [IntersectMasks] *)
Fixpoint intersect_masks {A} (no_offset : bool) (word_id : nat) (args : list (arg A)) : option N :=
  match args with
  | [] => Some full_word
  | (opt, a) :: t =>
      let? m := if opt then Some full_word else get_mask no_offset a word_id in
      let? r := intersect_masks no_offset word_id t in
      Some (N.land m r)
  end.

(** ops/util.h:63-85 [Getter] with its optional specialisation, 104-108
    [CreateGetters]: an optional bitmap word and the array. *)
Definition getter (A : Type) : Type := option N * darr A.
Fixpoint create_getters {A} (no_offset : bool) (word_id : nat) (args : list (arg A))
  : option (list (getter A)) :=
  match args with
  | [] => Some []
  | (opt, a) :: t =>
      let? m := if opt then let? x := get_mask no_offset a word_id in Some (Some x)
                else Some None in
      let? r := create_getters no_offset word_id t in
      Some ((m, a) :: r)
  end.
(** ops/util.h:68, 79-81: a required argument is read whatever its presence *)
Fixpoint getters_get {A} (gs : list (getter A)) (word_id i : nat) : option (list (option A)) :=
  match gs with
  | [] => Some []
  | (m, a) :: t =>
      let? v := rd (vals a) (word_id * W + i) in
      let? r := getters_get t word_id i in
      Some (match m with
            | None => Some v
            | Some x => if tb x i then Some v else None
            end :: r)
  end.

(** ops/util.h:132-140: [group_fn] of Iterate: calls (id, valid, args) *)
Fixpoint group_calls {A} (gs : list (getter A)) (mask : N) (word_id i n : nat)
  : option (list (nat * bool * list (option A))) :=
  match n with
  | O => Some []
  | S n' => let? a := getters_get gs word_id i in
            let? t := group_calls gs mask word_id (S i) n' in
            Some ((word_id * W + i, tb mask i, a) :: t)
  end.
Definition group_fn {A} (no_offset : bool) (args : list (arg A)) (word_id lfrom lto : nat)
  : option (list (nat * bool * list (option A))) :=
  let? mask := intersect_masks no_offset word_id args in
  let? gs := create_getters no_offset word_id args in
  group_calls gs mask word_id lfrom (lto - lfrom).

(** ops/util.h:151-153 *)
Fixpoint full_groups {A} (no_offset : bool) (args : list (arg A)) (word_id n : nat)
  : option (list (nat * bool * list (option A))) :=
  match n with
  | O => Some []
  | S n' => let? c := group_fn no_offset args word_id 0 W in
            let? t := full_groups no_offset args (S word_id) n' in
            Some (c ++ t)
  end.

(** ops/util.h:130-159 [Iterate]; [local_to] may be negative after the first
    partial word, natural subtraction then gives 0 which takes the same branch. *)
Definition ops_iterate {A} (no_offset : bool) (from to : nat) (args : list (arg A))
  : option (list (nat * bool * list (option A))) :=
  let w0 := from / W in
  let lfrom := from mod W in
  let? p := if 0 <? lfrom then
              let? c := group_fn no_offset args w0 lfrom (Nat.min (to - from + lfrom) W) in
              Some (c, S w0)
            else Some ([], w0) in
  let? mid := full_groups no_offset args (snd p) (to / W - snd p) in
  let w2 := Nat.max (snd p) (to / W) in
  let lto := to - w2 * W in
  let? last := if 0 <? lto then group_fn no_offset args w2 0 lto else Some [] in
  Some (fst p ++ mid ++ last).

(** ops/util.h:162-175 [IterateFromZero]: [n] bounds the number of groups *)
Fixpoint iterate_from_zero_loop {A} (no_offset : bool) (args : list (arg A)) (fuel offset to : nat)
  : option (list (nat * bool * list (option A))) :=
  match fuel with
  | O => Some []
  | S f =>
      if offset <? to then
        let? c := group_fn no_offset args (offset / W) 0 (Nat.min W (to - offset)) in
        let? t := iterate_from_zero_loop no_offset args f (offset + W) to in
        Some (c ++ t)
      else Some []
  end.
Definition iterate_from_zero {A} (no_offset : bool) (to : nat) (args : list (arg A)) :=
  iterate_from_zero_loop no_offset args (S to) 0 to.

Section Op.
Context {A B E : Type}.

(** A pointwise functor: which arguments are optional, whether it returns a
    StatusOr, whether it returns an optional, whether a string or Unit type is
    involved (this only matters for the choice of the implementation), and the
    function itself. *)
Record fn := {
  fn_opts : list bool;
  fn_status : bool;
  fn_opt_res : bool;
  fn_special : bool;
  fn_eval : list (option A) -> E + (bool * B) }.

(** universal_dense_op.h:117-149 [EvalGroup]; [g] is the group, [vs] the values
    buffer; [inl] is the error status. *)
Fixpoint eval_group (f : fn) (skip : bool) (gs : list (getter A)) (g : nat) (mask : N)
  (vs : list B) (i n : nat) : option (E + (N * list B)) :=
  match n with
  | O => Some (inr (mask, vs))
  | S n' =>
      let? bit := wshl W 1 i in
      if (skip || fn_status f) && (N.land mask bit =? 0)%N then
        eval_group f skip gs g mask vs (S i) n'
      else
        let? args := getters_get gs g i in
        match fn_eval f args with
        | inl e => Some (inl e)
        | inr (p, v) =>
            let? vs' := upd vs (g * W + i) v in
            let mask' := if fn_opt_res f
                         then N.land mask (if p then full_word else wnot W bit)
                         else mask in
            eval_group f skip gs g mask' vs' (S i) n'
        end
  end.

(** universal_dense_op.h:70-83: full words; [acc] are the words added so far *)
Fixpoint universal_groups (f : fn) (skip no_offset : bool) (args : list (arg A))
  (g n : nat) (vs : list B) (acc : list N) (full : bool)
  : option (E + (list B * list N * bool)) :=
  match n with
  | O => Some (inr (vs, acc, full))
  | S n' =>
      let? mask := intersect_masks no_offset g args in
      let? r := if (mask =? 0)%N then Some (inr (mask, vs))
                else let? gs := create_getters no_offset g args in
                     eval_group f skip gs g mask vs 0 W in
      match r with
      | inl e => Some (inl e)
      | inr (mask', vs') =>
          universal_groups f skip no_offset args (S g) n' vs' (acc ++ [mask'])
            (full && (mask' =? full_word)%N)
      end
  end.

(** universal_dense_op.h:59-106; [mem] is the uninitialised values buffer *)
Definition universal_op (f : fn) (skip no_offset : bool) (args : list (arg A)) (mem : list B)
  : option (E + darr B) :=
  let size := match args with [] => 0 | (_, a) :: _ => da_size a end in
  let? r := universal_groups f skip no_offset args 0 (size / W) mem [] true in
  match r with
  | inl e => Some (inl e)
  | inr (vs, acc, full) =>
      if negb (size mod W =? 0) then
        let group_size := size mod W in
        let? valid_bits := wshr W full_word (W - group_size) in
        let group := size / W in
        let? m := intersect_masks no_offset group args in
        let? gs := create_getters no_offset group args in
        let? r := eval_group f skip gs group (N.land valid_bits m) vs 0 group_size in
        match r with
        | inl e => Some (inl e)
        | inr (mask, vs') =>
            Some (inr (mkD vs' (if full && (mask =? valid_bits)%N then [] else acc ++ [mask]) 0))
        end
      else Some (inr (mkD vs (if full then [] else acc) 0))
  end.

(** ops/dense_ops.h:92-101 [SpanOp]: the raw values of all arguments, whatever
    the presence *)
Fixpoint raw_row (arrs : list (darr A)) (i : nat) : option (list (option A)) :=
  match arrs with
  | [] => Some []
  | a :: t => let? v := rd (vals a) i in
              let? r := raw_row t i in
              Some (Some v :: r)
  end.
Fixpoint span_op (f : fn) (arrs : list (darr A)) (vs : list B) (i n : nat) : option (list B) :=
  match n with
  | O => Some vs
  | S n' => let? r := raw_row arrs i in
            match fn_eval f r with
            | inl _ => None (* a function without Status cannot return an error *)
            | inr (_, v) => let? vs' := upd vs i v in span_op f arrs vs' (S i) n'
            end
  end.

(** dense_ops.h:113-122 *)
Definition unary_op (f : fn) (a : darr A) (mem : list B) : option (darr B) :=
  let? vs := span_op f [a] mem 0 (da_size a) in
  Some (mkD vs (bmp a) (boff a)).

(** dense_ops.h:139-169; [bmem] is the uninitialised bitmap buffer *)
Definition binary_op (f : fn) (no_offset : bool) (a b : darr A) (mem : list B) (bmem : list N)
  : option (darr B) :=
  let? vs := span_op f [a; b] mem 0 (da_size a) in
  match bmp b, bmp a with
  | [], _ => Some (mkD vs (bmp a) (boff a))
  | _, [] => Some (mkD vs (bmp b) (boff b))
  | _, _ =>
      let res := firstn (Nat.min (length (bmp a)) (length (bmp b))) bmem in
      if no_offset then
        let? m := intersect0 (bmp a) (bmp b) res in Some (mkD vs m 0)
      else
        let? m := intersect (bmp a) (bmp b) (boff a) (boff b) res in
        Some (mkD vs m (Nat.min (boff a) (boff b)))
  end.

(** dense_ops.h:199-210 [intersect_fn]; memcpy and the and-loop over [n] words *)
Fixpoint memcpy_words (src dst : list N) (i n : nat) : option (list N) :=
  match n with
  | O => Some dst
  | S n' => let? x := rd src i in
            let? d' := upd dst i x in
            memcpy_words src d' (S i) n'
  end.
Fixpoint and_words (src dst : list N) (i n : nat) : option (list N) :=
  match n with
  | O => Some dst
  | S n' => let? x := rd src i in
            let? y := rd dst i in
            let? d' := upd dst i (N.land y x) in
            and_words src d' (S i) n'
  end.
Definition intersect_fn (n : nat) (s : list N * bool) (b : list N) : option (list N * bool) :=
  match b with
  | [] => Some s
  | _ => if snd s then let? d := and_words b (fst s) 0 n in Some (d, true)
         else let? d := memcpy_words b (fst s) 0 n in Some (d, true)
  end.
Fixpoint intersect_all (n : nat) (s : list N * bool) (arrs : list (darr A)) : option (list N * bool) :=
  match arrs with
  | [] => Some s
  | a :: t => let? s' := intersect_fn n s (bmp a) in intersect_all n s' t
  end.

(** dense_ops.h:183-217 [SimpleOpImpl] *)
Definition simple_op (f : fn) (a : darr A) (t : list (darr A)) (mem : list B) (bmem : list N)
  : option (darr B) :=
  let? vs := span_op f (a :: t) mem 0 (da_size a) in
  if forallb (fun x => match bmp x with [] => true | _ => false end) t then
    Some (mkD vs (bmp a) 0)
  else
    let n := bitmap_size (da_size a) in
    let? s := intersect_all n (firstn n bmem, false) (a :: t) in
    Some (mkD vs (fst s) 0).

(** dense_ops.h DenseOpFlags *)
Record flags := { run_on_missing : bool; no_bitmap_offset : bool; no_size_validation : bool }.

Inductive op_result := SizeMismatch | FnError (e : E) | OpOk (r : darr B).

(** dense_ops.h:264-291 [ImplChooser]: kComplicatedFn *)
Definition complicated (f : fn) (fl : flags) : bool :=
  fn_status f || fn_opt_res f || fn_special f || existsb (fun x => x) (fn_opts f)
  || negb (run_on_missing fl).

Definition lift_ok (r : option (darr B)) : option op_result :=
  let? x := r in Some (OpOk x).
Definition lift_st (r : option (E + darr B)) : option op_result :=
  let? x := r in match x with inl e => Some (FnError e) | inr d => Some (OpOk d) end.

(** dense_ops.h:293-346 [ImplSwitcher] with kNoSizeValidation *)
Definition dense_op_base (f : fn) (fl : flags) (arrs : list (darr A)) (mem : list B) (bmem : list N)
  : option op_result :=
  if complicated f fl then
    lift_st (universal_op f (negb (run_on_missing fl)) (no_bitmap_offset fl)
               (combine (fn_opts f) arrs) mem)
  else
    match arrs with
    | [a] => lift_ok (unary_op f a mem)
    | [a; b] => lift_ok (binary_op f (no_bitmap_offset fl) a b mem bmem)
    | a :: t => if no_bitmap_offset fl then lift_ok (simple_op f a t mem bmem)
                else lift_st (universal_op f false false (combine (fn_opts f) arrs) mem)
    | [] => None
    end.

(** dense_ops.h:224-245 [OpWithSizeValidation], 284-285 *)
Definition sizes_equal (arrs : list (darr A)) : bool :=
  match arrs with
  | [] => true
  | a :: t => forallb (fun b => da_size a =? da_size b) t
  end.
Definition dense_op (f : fn) (fl : flags) (arrs : list (darr A)) (mem : list B) (bmem : list N)
  : option op_result :=
  if negb (no_size_validation fl) && (1 <? length arrs) then
    if negb (sizes_equal arrs) then Some SizeMismatch
    else dense_op_base f fl arrs mem bmem
  else dense_op_base f fl arrs mem bmem.
End Op.
Arguments fn : clear implicits. Arguments op_result : clear implicits.
