(** Graphs, paths and dominance, independent of the model. *)
From Verif Require Import Base Cfg_Model.

Section G.
(** Successors of every node. *)
Variable deps : list (list nat).
Definition edge (u v : nat) : Prop := exists ds, rd deps u = Some ds /\ In v ds.
(** [path u p v]: the nodes of [p], from [u] to [v], are connected by edges. *)
Inductive path (u : nat) : list nat -> nat -> Prop :=
  | path_one : u < length deps -> path u [u] u
  | path_snoc p v w : path u p v -> edge v w -> path u (p ++ [w]) w.
Definition reachable (u v : nat) : Prop := exists p, path u p v.
(** Every path from the entry to [v] goes through [d]. *)
Definition dominates (d v : nat) : Prop := v < length deps /\ forall p, path 0 p v -> In d p.
Definition strictly_dominates (d v : nat) : Prop := dominates d v /\ d <> v.
Definition immediate_dominator (d v : nat) : Prop :=
  strictly_dominates d v /\ forall x, strictly_dominates x v -> dominates x d.
(** The node [n] belongs to the dominance frontier of [d]. *)
Definition in_frontier (d n : nat) : Prop :=
  (exists p, edge p n /\ dominates d p) /\ ~ strictly_dominates d n.
(** The number of edges is counted: predecessors in increasing order. *)
Definition predecessors (v : nat) : list nat :=
  flat_map (fun u => repeat u (count_occ Nat.eq_dec (nth u deps []) v)) (seq 0 (length deps)).
End G.

(** A control flow graph as its documentation describes it. *)
Definition valid (deps : list (list Z)) : Prop :=
  deps <> [] /\
  (forall u ds z, rd deps u = Some ds -> In z ds -> (Z.of_nat u < z < Z.of_nat (length deps))%Z) /\
  (forall v, 0 < v < length deps -> exists u ds, rd deps u = Some ds /\ In (Z.of_nat v) ds).

Fixpoint increasing (l : list nat) : Prop :=
  match l with
  | [] => True
  | x :: t => match t with [] => True | y :: _ => x < y end /\ increasing t
  end.

(** The error is about something in the graph that is wrong. *)
Definition describes (deps : list (list Z)) (e : cerr) : Prop :=
  match e with
  | ENoNodes => deps = []
  | EOrder u z => exists ds, rd deps u = Some ds /\ In z ds /\ (z <= Z.of_nat u)%Z
  | ERange z => exists u ds, rd deps u = Some ds /\ In z ds /\ (Z.of_nat (length deps) <= z)%Z
  | EUnreachable v => 0 < v < length deps /\ forall u ds, rd deps u = Some ds -> ~ In (Z.of_nat v) ds
  end.
