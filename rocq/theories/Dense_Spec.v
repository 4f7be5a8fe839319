(** Specification vocabulary for DenseArray: an array denotes a list of optional
    values, observed through its size and operator[] only. *)
From Verif Require Import Base Bits_Model Bitmap_Model Dense_Model.

Definition is_some {A} (o : option A) : bool := match o with Some _ => true | None => false end.

(** [a] is a well-formed array and reading it yields the list [l]. *)
Definition represents {A} (a : darr A) (l : list (option A)) : Prop :=
  da_valid a /\ da_size a = length l /\
  forall i, i < length l -> da_get a i = Some (nth i l None).

Definition present_pairs {A} (l : list (option A)) : list (nat * A) :=
  flat_map (fun c => match snd c with Some v => [(fst c, v)] | None => [] end) (combine (seq 0 (length l)) l).

(** The list after writing [v] to [n] positions from [id]; writing a missing value
    leaves the list unchanged. *)
Definition list_write {A} (l : list (option A)) (id n : nat) (v : option A) : list (option A) :=
  match v with
  | None => l
  | Some x => firstn id l ++ repeat (Some x) n ++ skipn (id + n) l
  end.


(** Histories of writes: (index, count, optional value); Set and Add are count 1. *)
Inductive wr (A : Type) := WSet (id : nat) (v : option A) | WSetN (id n : nat) (v : option A).
Arguments WSet {A}. Arguments WSetN {A}.
Definition wr_in {A} (max : nat) (w : wr A) : Prop :=
  match w with WSet id _ => id < max | WSetN id n _ => id + n <= max end.
Definition wr_run {A} (b : dbuilder A) (w : wr A) : option (dbuilder A) :=
  match w with WSet id v => db_set b id v | WSetN id n v => db_set_n b id n v end.
Fixpoint wr_runs {A} (b : dbuilder A) (ws : list (wr A)) : option (dbuilder A) :=
  match ws with [] => Some b | w :: t => let? b' := wr_run b w in wr_runs b' t end.

Definition list_wr {A} (l : list (option A)) (w : wr A) : list (option A) :=
  match w with WSet id v => list_write l id 1 v | WSetN id n v => list_write l id n v end.
