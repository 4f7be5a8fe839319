(** What bound programs mean, without instructions, jumps and signals. *)
From Verif Require Import Base Jump_Model.

Section Spec.
Context {F err node : Type}.
(** What running an operator does: the frame, how often the cancellation context was asked by
    then, and the error if it failed. *)
Definition does (o : bop F err) (f : F) (t : nat) (f1 : F) (t1 : nat) (e : option err) : Prop :=
  exists n, o n (St clean f t) = Done (St (match e with Some x => Ctx true 0 (Some x) | None => clean end) f1 t1).
(** Operators that do nothing else: they request no jumps and do not leave signals behind. *)
Record tame (o : bop F err) : Prop := {
  tame_done : forall n f t s, o n (St clean f t) = Done s -> s_ctx s = clean \/ exists e, s_ctx s = Ctx true 0 (Some e);
  tame_stuck : forall n f t, o n (St clean f t) <> Stuck;
  tame_fuel : forall n m f t s, n <= m -> o n (St clean f t) = Done s -> o m (St clean f t) = Done s;
  tame_time : forall n f t s, o n (St clean f t) = Done s -> t <= s_t s }.
Inductive all_tame : list (code F err node) -> Prop :=
  | T_nil : all_tame []
  | T_atom o nd p : tame o -> all_tame p -> all_tame (Atom o nd :: p)
  | T_cond c nd t e p : all_tame t -> all_tame e -> all_tame p -> all_tame (Cond c nd t e :: p).
(** No conditional has an empty alternative. *)
Inductive proper : list (code F err node) -> Prop :=
  | P_nil : proper []
  | P_atom o nd p : proper p -> proper (Atom o nd :: p)
  | P_cond c nd t e p : proper t -> proper e -> e <> [] -> proper p -> proper (Cond c nd t e :: p).

Inductive out := OK (f : F) (t : nat) | KO (f : F) (t : nat) (e : err) (at_ : option node).
(** The operator written last. *)
Fixpoint last_node (x : code F err node) : option node :=
  match x with
  | Atom _ nd => nd
  | Cond _ nd _ e => (fix go (d : option node) (p : list (code F err node)) : option node := match p with [] => d | y :: q => go (last_node y) q end) (Some nd) e
  end.
Fixpoint last_of (d : option node) (p : list (code F err node)) : option node :=
  match p with [] => d | y :: q => last_of (last_node y) q end.

Variable cancel : nat -> option err.
(** Evaluation, from the frame and the time: one operator after the other; of a conditional
    only the branch it selects; the cancellation context is asked after each operator, after
    a condition, and once more when the first branch ends. *)
Inductive Ev : list (code F err node) -> F -> nat -> out -> Prop :=
  | E_nil f t : Ev [] f t (OK f t)
  | E_atom o nd p f t f1 t1 r : does o f t f1 t1 None -> cancel t1 = None -> Ev p f1 (S t1) r -> Ev (Atom o nd :: p) f t r
  | E_atom_err o nd p f t f1 t1 e : does o f t f1 t1 (Some e) -> Ev (Atom o nd :: p) f t (KO f1 t1 e nd)
  | E_atom_cancel o nd p f t f1 t1 e : does o f t f1 t1 None -> cancel t1 = Some e -> Ev (Atom o nd :: p) f t (KO f1 (S t1) e nd)
  | E_cond_cancel c nd a b p f t e : cancel t = Some e -> Ev (Cond c nd a b :: p) f t (KO f (S t) e (Some nd))
  | E_true c nd a b p f t f1 t1 r : c f = true -> cancel t = None -> Ev a f (S t) (OK f1 t1) -> cancel t1 = None ->
      Ev p f1 (S t1) r -> Ev (Cond c nd a b :: p) f t r
  | E_true_err c nd a b p f t f1 t1 e w : c f = true -> cancel t = None -> Ev a f (S t) (KO f1 t1 e w) ->
      Ev (Cond c nd a b :: p) f t (KO f1 t1 e w)
  | E_true_cancel c nd a b p f t f1 t1 e : c f = true -> cancel t = None -> Ev a f (S t) (OK f1 t1) -> cancel t1 = Some e ->
      Ev (Cond c nd a b :: p) f t (KO f1 (S t1) e (last_of None b))
  | E_false c nd a b p f t f1 t1 r : c f = false -> cancel t = None -> Ev b f (S t) (OK f1 t1) ->
      Ev p f1 t1 r -> Ev (Cond c nd a b :: p) f t r
  | E_false_err c nd a b p f t f1 t1 e w : c f = false -> cancel t = None -> Ev b f (S t) (KO f1 t1 e w) ->
      Ev (Cond c nd a b :: p) f t (KO f1 t1 e w).

(** Running a bound expression ends with a frame and a time, and an error if it failed. *)
Definition ends (be : bexpr F err) (f : F) (t : nat) (f1 : F) (t1 : nat) (e : option err) : Prop :=
  exists n, execute cancel n be (St clean f t) = Done (St (match e with Some x => Ctx true 0 (Some x) | None => clean end) f1 t1).

(** A loop over a state: apply the body while the condition holds.  What condition and body
    say of a state may be an error, or nothing if they do not end. *)
Section Loop.
Context {V : Type} (cnd : V -> bool + err -> Prop) (bdy : V -> V + err -> Prop).
Inductive Loops : V -> V + err -> Prop :=
  | L_stop v : cnd v (inl false) -> Loops v (inl v)
  | L_cond v e : cnd v (inr e) -> Loops v (inr e)
  | L_body v e : cnd v (inl true) -> bdy v (inr e) -> Loops v (inr e)
  | L_step v w r : cnd v (inl true) -> bdy v (inl w) -> Loops w r -> Loops v r.
End Loop.
(** A bound expression computes a relation, of what it reads (and of constant inputs [k], which
    it keeps) to what it writes, keeping what [keep] reads. *)
Record computes {K V W D : Type} (be : bexpr F err) (k : F -> K) (rd : F -> V) (R : K -> V -> W + err -> Prop) (wr : F -> W) (keep : F -> D) : Prop := {
  comp_ok : forall f t f1 t1, ends be f t f1 t1 None -> R (k f) (rd f) (inl (wr f1)) /\ k f1 = k f /\ keep f1 = keep f;
  comp_err : forall f t f1 t1 e, ends be f t f1 t1 (Some e) -> R (k f) (rd f) (inr e);
  comp_all : forall f t r, R (k f) (rd f) r -> exists f1 t1 e, ends be f t f1 t1 e }.
End Spec.
