(** What it means that threads do not disturb each other. *)
From Verif Require Import Base FrameThr_Model.

Section spec.
Context {F C : Type} (T rows : nat).
(** Two accesses that must not happen at the same time. *)
Definition conflict (a a' : access) : Prop :=
  match a, a' with Reads, Reads | Synchronised, Synchronised => False | _, _ => True end.
Definition race (s : state F C) : Prop :=
  exists w w' l a a', w <> w' /\ In (l, a) (uses F C T rows s w) /\ In (l, a') (uses F C T rows s w') /\ conflict a a'.
(** All threads have returned. *)
Definition finished (s : state F C) : Prop := forall w t, nth_error (thr F C s) w = Some t -> snd t = Done.
End spec.
