(** Model of FrameIterator::ForEachFrame with threads (arolla/qtype/array_like/frame_iter.h
    lines 112-156).

    A state holds the threads (the loop variable and the place in worker_fn), the memory
    they share, and the absl::Barrier objects.  Any thread may take the next step.
    PreloadFrames, SaveOutputsOfProcessedFrames and a call of [fn] are single steps; the
    memory they use is listed in [uses], so that it can be proved that they never run at
    the same time as another access.  [fn] is assumed to use no memory but its frame.
    absl::Barrier is not part of the repository; it is modelled as documented:
    Block() waits for thread_count calls and returns true in the last one to return.
    Sizes are [nat] (frames_per_worker is an int in the code). *)
From Verif Require Import Base FrameIter_Model.

(** Places in worker_fn, lines 127-144; [false] is barrier1 and [true] barrier2. *)
Inductive place :=
| Head               (** the condition of the loop, line 128 *)
| Load               (** PreloadFrames, line 131 *)
| Arrive (b : bool)  (** BarrierSync up to the wait in Block(), lines 121-122 *)
| Wait (b : bool) (o : nat) (** waiting in Block() of barrier object [o] *)
| Renew (b : bool)   (** the assignment in BarrierSync, line 123 *)
| Work (i : nat)     (** the loop over frames, lines 134-138 *)
| Save               (** SaveOutputsOfProcessedFrames, line 141 *)
| Done.
(** The offset of line 128 and the place. *)
Notation thread := (nat * place)%type.
(** A barrier: threads still to call Block, threads still to return from it; freed. *)
Record barrier := { to_block : nat; to_exit : nat; alive : bool }.

Section threads.
Variables F C : Type.
Variable preload : nat -> C -> list F -> option (C * list F).
Variable save : nat -> C -> list F -> option C.
Variable fn : F -> F.
Variables (thread_count rows : nat).

Record state := { thr : list thread; bars : list barrier; ptr1 : nat; ptr2 : nat; cps : C; frs : list F }.
Definition ptr (s : state) (b : bool) : nat := if b then ptr2 s else ptr1 s.
Definition new_barrier : barrier := {| to_block := thread_count; to_exit := thread_count; alive := true |}.
(** Lines 119-120, all threads at the start of worker_fn *)
Definition start (c : C) (fs : list F) : state :=
  {| thr := repeat (0, Head) thread_count; bars := [new_barrier; new_barrier]; ptr1 := 0; ptr2 := 1; cps := c; frs := fs |}.

(** lines 116-117 *)
Definition per_worker (s : state) : nat := (length (frs s) + thread_count - 1) / thread_count.
(** line 129 *)
Definition count (s : state) (offset : nat) : nat := Nat.min (length (frs s)) (rows - offset).
(** the end of the loop in lines 134-135 *)
Definition work_end (s : state) (offset w : nat) : nat := Nat.min (count s offset) ((w + 1) * per_worker s).
(** the place after BarrierSync *)
Definition after (s : state) (w offset : nat) (b : bool) : thread :=
  if b then (if w =? 0 then (offset, Save) else (offset + length (frs s), Head))
  else (offset, Work (w * per_worker s)).

Inductive outcome := Next (s : state) | Waits | Ended | Undef.
Definition move (s : state) (w : nat) (t : thread) : outcome :=
  match upd (thr s) w t with
  | Some l => Next {| thr := l; bars := bars s; ptr1 := ptr1 s; ptr2 := ptr2 s; cps := cps s; frs := frs s |}
  | None => Undef
  end.
Definition with_mem (s : state) (c : C) (fs : list F) : state :=
  {| thr := thr s; bars := bars s; ptr1 := ptr1 s; ptr2 := ptr2 s; cps := c; frs := fs |}.
Definition with_bars (s : state) (h : list barrier) : state :=
  {| thr := thr s; bars := h; ptr1 := ptr1 s; ptr2 := ptr2 s; cps := cps s; frs := frs s |}.
Definition with_ptr (s : state) (b : bool) (o : nat) : state :=
  {| thr := thr s; bars := bars s; ptr1 := if b then ptr1 s else o; ptr2 := if b then o else ptr2 s; cps := cps s; frs := frs s |}.

(** Block() up to the wait: one thread less to call; more calls than threads are an error *)
Definition arrive (h : list barrier) (o : nat) : option (list barrier) :=
  let? x := rd h o in
  if alive x && (0 <? to_block x) then upd h o {| to_block := to_block x - 1; to_exit := to_exit x; alive := true |} else None.
(** the rest of Block() *)
Definition leave (h : list barrier) (o : nat) (x : barrier) : option (list barrier) :=
  if 0 <? to_exit x then upd h o {| to_block := to_block x; to_exit := to_exit x - 1; alive := true |} else None.
(** b = std::make_unique<absl::Barrier>(thread_count) *)
Definition renew (s : state) (b : bool) : option state :=
  let? x := rd (bars s) (ptr s b) in
  if alive x then
    let? h := upd (bars s) (ptr s b) {| to_block := to_block x; to_exit := to_exit x; alive := false |} in
    Some (with_ptr (with_bars s (h ++ [new_barrier])) b (length h))
  else None.

(** The next step of thread [w]. *)
Definition step (s : state) (w : nat) : outcome :=
  match rd (thr s) w with
  | None => Ended
  | Some (offset, pl) =>
    match pl with
    | Head => if offset <? rows then move s w (offset, if w =? 0 then Load else Arrive false) else move s w (offset, Done)
    | Load => match preload (count s offset) (cps s) (frs s) with
              | Some (c, fs) => move (with_mem s c fs) w (offset, Arrive false)
              | None => Undef
              end
    | Arrive b => match arrive (bars s) (ptr s b) with
                  | Some h => move (with_bars s h) w (offset, Wait b (ptr s b))
                  | None => Undef
                  end
    | Wait b o => match rd (bars s) o with
                  | Some x =>
                    if alive x then
                      if to_block x =? 0 then
                        match leave (bars s) o x with
                        | Some h => move (with_bars s h) w (if to_exit x =? 1 then (offset, Renew b) else after s w offset b)
                        | None => Undef
                        end
                      else Waits
                    else Undef
                  | None => Undef
                  end
    | Renew b => match renew s b with
                 | Some s' => move s' w (after s w offset b)
                 | None => Undef
                 end
    | Work i => if i <? work_end s offset w then
                  match rd (frs s) i with
                  | Some f => match upd (frs s) i (fn f) with
                              | Some fs => move (with_mem s (cps s) fs) w (offset, Work (S i))
                              | None => Undef
                              end
                  | None => Undef
                  end
                else move s w (offset, Arrive true)
    | Save => match save (count s offset) (cps s) (frs s) with
              | Some c => move (with_mem s c (frs s)) w (offset + length (frs s), Head)
              | None => Undef
              end
    | Done => Ended
    end
  end.

(** Executions: any thread that can takes the next step. *)
Inductive runs : nat -> state -> state -> Prop :=
| runs_refl s : runs 0 s s
| runs_step k s s' w s'' : runs k s s' -> step s' w = Next s'' -> runs (S k) s s''.

(** The memory that the next step of a thread uses. *)
Inductive loc := L_ptr (b : bool) | L_barrier (o : nat) | L_frame (i : nat) | L_copiers.
Inductive access := Reads | Writes | Synchronised.
Definition uses (s : state) (w : nat) : list (loc * access) :=
  match rd (thr s) w with
  | None => []
  | Some (offset, pl) =>
    match pl with
    | Head | Done => []
    | Load => (L_copiers, Writes) :: map (fun i => (L_frame i, Writes)) (seq 0 (count s offset))
    | Arrive b => [(L_ptr b, Reads); (L_barrier (ptr s b), Synchronised)]
    | Wait b o => [(L_barrier o, Synchronised)]
    | Renew b => [(L_ptr b, Writes); (L_barrier (ptr s b), Writes)]
    | Work i => if i <? work_end s offset w then [(L_frame i, Writes)] else []
    | Save => (L_copiers, Writes) :: map (fun i => (L_frame i, Reads)) (seq 0 (count s offset))
    end
  end.
End threads.
