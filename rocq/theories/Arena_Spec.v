(** Buffers as lists of bytes, and the obligations of the clients and of the base
    factory. *)
From Verif Require Import Base Arena_Model.
Local Open Scope Z_scope.

(** 2^62: no buffer of this size is requested, and no memory lies above. *)
Notation top := 4611686018427387904 (only parsing).
Definition inside (x : Z) (r : Z * Z) : Prop := fst r <= x < fst r + snd r.
(** Memory held by the arena. *)
Definition regions (a : arena) : list (Z * Z) := map (fun p => (p, page_size a)) (pages a) ++ bigs a.
Definition owned (a : arena) (x : Z) : Prop := exists r, In r (regions a) /\ inside x r.
(** What the base factory returns: aligned memory that nobody else has. *)
Definition fresh (a : arena) (f sz : Z) : Prop :=
  0 <= f /\ f mod 8 = 0 /\ f + sz <= top /\ (0 < sz -> 16 <= f) /\ forall x, f <= x < f + sz -> ~ owned a x.
Definition op_ok (w : world) (o : op) : Prop :=
  match o with
  | Create n f => 0 <= n <= top /\ forall sz, asks w o = Some sz -> fresh (ar w) f sz
  | Realloc k n f => 0 <= n <= top /\ (k < length (live w))%nat /\ forall sz, asks w o = Some sz -> fresh (ar w) f sz
  | Write k i v => exists d s, rd (live w) k = Some (d, s) /\ 0 <= i < s
  | Reset => True
  end.
Inductive reach (ps : Z) (m : Z -> Z) : world -> Prop :=
| reach_init : reach ps m (w_init ps m)
| reach_step w o w' : reach ps m w -> op_ok w o -> step w o = Some w' -> reach ps m w'.

(** The contents of the buffers, and what each operation does with them. *)
Definition bytes (m : Z -> Z) (b : Z * Z) : list Z := map (fun i => m (fst b + Z.of_nat i)) (seq 0 (Z.to_nat (snd b))).
Definition contents (w : world) : list (list Z) := map (bytes (mem w)) (live w).
Definition spec_step (c : list (list Z)) (o : op) (c' : list (list Z)) : Prop :=
  match o with
  | Create n _ => exists new, c' = c ++ [new] /\ length new = Z.to_nat n
  | Realloc k n _ => exists old new, rd c k = Some old /\ upd c k new = Some c' /\ length new = Z.to_nat n /\
      forall i, (i < length old)%nat -> (i < length new)%nat -> rd new i = rd old i
  | Write k i v => exists old new, rd c k = Some old /\ upd old (Z.to_nat i) v = Some new /\ upd c k new = Some c'
  | Reset => c' = []
  end.

(** A base factory that never returns memory touching another region. *)
Definition apart (a : arena) (f sz : Z) : Prop :=
  0 < sz -> forall r, In r (regions a) -> 0 < snd r -> fst r + snd r < f \/ f + sz < fst r.
Inductive reach_apart (ps : Z) (m : Z -> Z) : world -> Prop :=
| ra_init : reach_apart ps m (w_init ps m)
| ra_step w o w' : reach_apart ps m w -> op_ok w o ->
    (forall sz f, asks w o = Some sz -> (exists n, o = Create n f) \/ (exists k n, o = Realloc k n f) -> apart (ar w) f sz) ->
    step w o = Some w' -> reach_apart ps m w'.
