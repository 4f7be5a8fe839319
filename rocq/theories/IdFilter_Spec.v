(** What an IdFilter means: an ascending list of zero-based ids below the size. *)
From Verif Require Import Base IdFilter_Model.

Definition ascending (l : list nat) : Prop :=
  forall i j, i < j < length l -> nth i l 0 < nth j l 0.

(** The ids selected by a filter used with an array of size [n]. *)
Definition fids (n : nat) (f : idf) : list nat :=
  match f with
  | FEmpty => []
  | FFull => seq 0 n
  | FPartial _ ids off => map (fun x => x - off) ids
  end.

(** The documented requirements on ids (id_filter.h:60-61). *)
Definition ids_in (n off : nat) (ids : list nat) : Prop :=
  ascending ids /\ Forall (fun x => off <= x < off + n) ids.
Definition fwf (n : nat) (f : idf) : Prop :=
  match f with
  | FPartial _ ids off => ids <> [] /\ length ids < n /\ ids_in n off ids
  | _ => True
  end.

(** Position of [x] in [l]. *)
Fixpoint index_of (x : nat) (l : list nat) : option nat :=
  match l with
  | [] => None
  | y :: t => if y =? x then Some 0 else option_map S (index_of x t)
  end.

(** Common elements of two lists, in the order of the first, with both positions. *)
Definition common (l m : list nat) : list (nat * nat * nat) :=
  flat_map (fun c => match index_of (snd c) m with
                     | Some o => [(snd c, fst c, o)]
                     | None => []
                     end) (combine (seq 0 (length l)) l).
