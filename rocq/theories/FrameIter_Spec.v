(** What iterating over rows means: reading and writing columns of optional values. *)
From Verif Require Import Base Bits_Model Bitmap_Model Dense_Model Dense_Spec IdFilter_Model Array_Model Array_Spec FrameIter_Model.

Section spec.
Context {A : Type}.
(** An array is the list of its elements. *)
Definition column (s : src A) (l : list (option A)) : Prop :=
  match s with SD _ a => represents a l | SA _ a => ar_rep a l end.
(** A slot shows an element: a present one by its value; of a missing one only the
    absence, if the slot can express it. *)
Definition shows (opt : bool) (o : option A) (c : bool * A) : Prop :=
  match o with Some v => snd c = v /\ (opt = true -> fst c = true) | None => opt = true -> fst c = false end.
(** The slots of a frame show the elements of a row. *)
Definition holds (ss : list slot) (os : list (option A)) (f : frame A) : Prop :=
  Forall2 (fun s o => exists c, nth_error f (sl_id s) = Some c /\ shows (sl_opt s) o c) ss os.
(** Only the given slots are different. *)
Definition same_but (ss : list slot) (f f' : frame A) : Prop :=
  length f' = length f /\ forall k, ~ In k (map sl_id ss) -> nth_error f' k = nth_error f k.
Definition row_of (cols : list (list (option A))) (i : nat) : list (option A) := map (fun l => nth i l None) cols.
(** [fn] computes the row [g i] of outputs from the row [i] of inputs, on any frame for
    which [Inv] holds, and keeps it so. *)
Definition computes (Inv : frame A -> Prop) (iss oss : list slot) (cols : list (list (option A))) (n : nat)
    (fn : frame A -> frame A) (g : nat -> list (option A)) : Prop :=
  forall i f f', i < n -> Inv f -> same_but iss f f' -> holds iss (row_of cols i) f' ->
  Inv (fn f') /\ length (fn f') = length f /\ holds oss (g i) (fn f').
(** Types of an array and a slot that belong together, as documented: a DenseArray goes to
    slots of its value type and of the optional type, an Array only to the latter. *)
Definition fits_in (t : tsrc A) (s : slot) : Prop :=
  ts_ty A t = sl_ty s /\ (sl_opt s = true \/ exists a, ts_src A t = SD A a).
Definition fits_out (o : aslot) (s : slot) : Prop := as_ty o = sl_ty s.
(** The size that all inputs and the option agree on. *)
Definition agreed (arrays : list (tsrc A)) (want : option nat) (n : nat) : Prop :=
  (forall t, In t arrays -> src_size A (ts_src A t) = n) /\ (want = None \/ want = Some n) /\ (arrays = [] -> want <> None).
End spec.
