(** What the declarations of a batch of initializers require. *)
From Coq Require Import Permutation Relations.
From Verif Require Import Base Init_Model.

(** A phony name: the bytes of "@phony" and anything after. *)
Definition phony (n : name) : Prop := exists s, n = 64 :: 112 :: 104 :: 111 :: 110 :: 121 :: s.

(** [must_precede i j]: the declarations ask that [i] runs before [j]: [j] names
    [i] among its dependencies, or [i] names [j] among its reverse dependencies,
    or they share a phony name.  An anonymous initializer cannot be named. *)
Definition must_precede (i j : initializer) : Prop :=
  (i_name i <> [] /\ In (i_name i) (i_deps j)) \/
  (i_name j <> [] /\ In (i_name j) (i_rdeps i)) \/
  (exists p, phony p /\ In p (i_rdeps i) /\ In p (i_deps j)).

(** A batch [l] that can be carried out when the initializers named in [P] have
    completed before. *)
Record feasible (P : list name) (l : list initializer) : Prop := {
  f_names : forall i, In i l -> ~ phony (i_name i);
  f_unique : NoDup (filter (fun n => negb (empty n)) (map i_name l));
  f_new : forall i, In i l -> ~ In (i_name i) P;
  f_late : forall i r, In i l -> In r (i_rdeps i) -> ~ In r P;
  f_defined : forall i d, In i l -> In d (i_deps i) -> In d P \/ phony d \/ (d <> [] /\ exists k, In k l /\ i_name k = d);
  f_acyclic : forall i, ~ clos_trans _ (fun a b => In a l /\ In b l /\ must_precede a b) i i
}.

(** [tr] ran, in this order, out of [l]; [rest] did not run.  Nothing ran before
    something that must precede it. *)
Definition ran_in_order (l tr rest : list initializer) : Prop :=
  Permutation (tr ++ rest) l /\
  forall a j b, tr = a ++ j :: b -> forall i, In i (j :: b ++ rest) -> ~ must_precede i j.

(** Every function that was called and can report a status reported success. *)
Definition all_succeeded (ok : list initializer -> nat -> bool) (before tr : list initializer) : Prop :=
  forall a i b f, tr = a ++ i :: b -> i_fn i = StatusFn f -> ok (before ++ a) f = true.

(** The declarations themselves ask that what is named [x] runs before what is
    named [y]. *)
Definition name_precedes (l : list initializer) (x y : name) : Prop :=
  exists i, In i l /\ ((i_name i = y /\ In x (i_deps i)) \/ (i_name i = x /\ In y (i_rdeps i))).
Fixpoint linked (R : name -> name -> Prop) (x : name) (l : list name) : Prop :=
  match l with [] => True | y :: t => R x y /\ linked R y t end.

(** What each error says. *)
Definition justified (ok : list initializer -> nat -> bool) (P : list name) (before l tr : list initializer) (e : err) : Prop :=
  match e with
  | EPhonyName n => tr = [] /\ phony n /\ exists i, In i l /\ i_name i = n
  | ECollision n => tr = [] /\ exists a i b, l = a ++ i :: b /\ i_name i = n /\ (In n P \/ n <> [] /\ exists k, In k a /\ i_name k = n)
  | ELate n r => tr = [] /\ In r P /\ exists i, In i l /\ i_name i = n /\ In r (i_rdeps i)
  | ECycle ns => exists x t, ns = x :: t /\ t <> [] /\ last t [] = x /\ linked (name_precedes l) x t
  | EMissing who what =>
      ~ phony what /\ ~ In what P /\ (what = [] \/ forall k, In k l -> i_name k <> what) /\
      exists i, In i l /\ i_name i = who /\ In what (i_deps i)
  | EInit n => exists a i f, tr = a ++ [i] /\ i_name i = n /\ i_fn i = StatusFn f /\ ok (before ++ a) f = false /\ all_succeeded ok before a
  end.

(** ** A process: registrations, InitArolla(), InitArollaSecondary() *)
Definition registered (os : list pop) : list initializer := flat_map (fun o => match o with Register i => [i] | _ => [] end) os.
(** As [must_precede], without the phony names. *)
Definition by_name (i j : initializer) : Prop :=
  (i_name i <> [] /\ In (i_name i) (i_deps j)) \/ (i_name j <> [] /\ In (i_name j) (i_rdeps i)).
(** Over all the batches of a process, [tr] respects what is asked by name:
    nothing runs before what must precede it, and what an initializer depends on
    did run before it. *)
Definition history_ok (tr : list initializer) : Prop :=
  NoDup (filter (fun n => negb (empty n)) (map i_name tr)) /\
  forall a j b, tr = a ++ j :: b ->
    (forall i, In i (j :: b) -> ~ by_name i j) /\
    (forall d, In d (i_deps j) -> ~ phony d -> d <> [] /\ exists i, In i a /\ i_name i = d).
