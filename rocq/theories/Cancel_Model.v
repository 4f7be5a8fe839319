(** Model of CancellationContext and its subscriptions (arolla/util/cancellation.h and
    cancellation.cc) as a system of any number of threads that interleave.

    A thread executes one operation at a time; each access of shared memory outside of
    the mutex is a step of its own, a critical section takes the mutex in one step,
    works in a second one and releases the mutex in a third one (the flag is stored in
    an extra step, because it is read without the mutex).  The relaxed load of the flag
    outside of the mutex may return [false] although the flag is set.  A callback that
    uses the context itself is covered: no mutex is held during the call, so it is the
    same as another thread that runs between two steps.

    A subscription is identified by the address of its node; addresses are not reused,
    so that any access of a freed node is undefined.  Moving and swapping Subscription
    objects does not change the set of handles.  Callbacks are not null; the DCHECKs are
    not modelled. *)
From Verif Require Import Base.

(** cancellation.cc:38-42; the callback is identified with the address *)
Record node := mkN { n_prev : option nat; n_next : option nat }.

Inductive pc :=
  | Idle
  (* Cancel, cancellation.cc:56-75 *)
  | CCheck (e : Z) | CLock (e : Z) | CBody (e : Z) | CFlag (n : option nat) | CUnlock (n : option nat)
  | CCall (n : option nat) | CFree (a : nat)
  (* Subscribe, cancellation.cc:82-107 *)
  | SCheck (a : nat) | SNow (a : nat) | SAlloc (a : nat) | SLock (a : nat) | SBody (a : nat)
  | SUnlockOk (a : nat) | SUnlockLate (a : nat) | SCallLate (a : nat) | SFree (a : nat)
  (* ~Subscription, cancellation.cc:159-184 *)
  | DCheck (a : nat) | DLock (a : nat) | DBody (a : nat) | DUnlockGone (a : nat) | DUnlock (a : nat) | DFree (a : nat)
  (* GetStatus, cancellation.cc:77-80 *)
  | GLock | GBody | GUnlock.

(** Observable events. *)
Inductive ev :=
  | EvCancel (e : Z)      (* the status is set *)
  | EvStart (a : nat)     (* Subscribe is called *)
  | EvCall (a : nat)      (* the callback is called *)
  | EvDrop (a : nat)      (* the destructor of the subscription is called *)
  | EvDropped (a : nat)   (* the destructor of the subscription returns *)
  | EvPoll (b : bool)     (* the result of Cancelled() *)
  | EvStatus (r : option Z).  (* the result of GetStatus(), None: OK *)

(** cancellation.h:92-95, the mutex, the heap, the live Subscription objects (with a
    node), the threads and the history, latest event first *)
Record ctx := mkC { flag : bool; status : option Z; head : option nat; heap : nat -> option node; fresh : nat;
  lock : option nat; handles : list nat; pcs : nat -> pc; tr : list ev }.

Definition fset {B} (f : nat -> B) (a : nat) (v : B) : nat -> B := fun b => if a =? b then v else f b.

Definition init : ctx := mkC false None None (fun _ => None) 0 None [] (fun _ => Idle) [].

Definition goto (t : nat) (p : pc) (s : ctx) : ctx :=
  mkC (flag s) (status s) (head s) (heap s) (fresh s) (lock s) (handles s) (fset (pcs s) t p) (tr s).
Definition log (e : ev) (s : ctx) : ctx :=
  mkC (flag s) (status s) (head s) (heap s) (fresh s) (lock s) (handles s) (pcs s) (e :: tr s).
Definition set_lock (l : option nat) (s : ctx) : ctx :=
  mkC (flag s) (status s) (head s) (heap s) (fresh s) l (handles s) (pcs s) (tr s).
Definition set_list (h : option nat) (m : nat -> option node) (s : ctx) : ctx :=
  mkC (flag s) (status s) h m (fresh s) (lock s) (handles s) (pcs s) (tr s).
Definition set_flag (s : ctx) : ctx :=
  mkC true (status s) (head s) (heap s) (fresh s) (lock s) (handles s) (pcs s) (tr s).
Definition set_status (e : Z) (s : ctx) : ctx :=
  mkC (flag s) (Some e) (head s) (heap s) (fresh s) (lock s) (handles s) (pcs s) (tr s).
Definition set_handles (l : list nat) (s : ctx) : ctx :=
  mkC (flag s) (status s) (head s) (heap s) (fresh s) (lock s) l (pcs s) (tr s).
Definition take_id (s : ctx) : ctx :=
  mkC (flag s) (status s) (head s) (heap s) (S (fresh s)) (lock s) (handles s) (pcs s) (tr s).

(** cancellation.cc:97-102: insertion at the front; [None]: access of a freed node *)
Definition link (hd : option nat) (m : nat -> option node) (a : nat) : option (option nat * (nat -> option node)) :=
  let? n := m a in
  let m1 := fset m a (Some (mkN (n_prev n) hd)) in
  match hd with
  | None => Some (Some a, m1)
  | Some b => let? k := m1 b in Some (Some a, fset m1 b (Some (mkN (Some a) (n_next k))))
  end.
(** cancellation.cc:172-179 *)
Definition unlink (hd : option nat) (m : nat -> option node) (a : nat) : option (option nat * (nat -> option node)) :=
  let? n := m a in
  let? (hd1, m1) := match n_prev n with
                    | None => Some (n_next n, m)
                    | Some p => let? k := m p in Some (hd, fset m p (Some (mkN (n_prev k) (n_next n))))
                    end in
  match n_next n with
  | None => Some (hd1, m1)
  | Some q => let? k := m1 q in Some (hd1, fset m1 q (Some (mkN (n_prev n) (n_next k))))
  end.

Inductive res := Blocked | Undef | Next (s : ctx).
Definition ok (o : option ctx) : res := match o with Some s => Next s | None => Undef end.

(** What an idle thread does next, or one step of its operation; [stale]: a relaxed load
    returns the old value. *)
Inductive choice :=
  | OCancel (e : option Z) | OSubscribe | ODrop (a : nat) | ODetach (a : nat) | OStatus | OPoll (stale : bool) | Go (stale : bool).

Definition acquire (t : nat) (p : pc) (s : ctx) : res :=
  match lock s with Some _ => Blocked | None => Next (goto t p (set_lock (Some t) s)) end.
Definition release (t : nat) (p : pc) (s : ctx) : res := Next (goto t p (set_lock None s)).
Definition load (stale : bool) (s : ctx) : bool := flag s && negb stale.
Definition remove_handle (a : nat) (l : list nat) : list nat := filter (fun b => negb (a =? b)) l.
Definition owns (a : nat) (s : ctx) : bool := existsb (Nat.eqb a) (handles s).

Definition start (s : ctx) (t : nat) (c : choice) : res :=
  match c with
  (* cancellation.cc:56-60; a status that is OK returns immediately *)
  | OCancel None => Next s
  | OCancel (Some e) => Next (goto t (CCheck e) s)
  | OSubscribe => Next (goto t (SCheck (fresh s)) (log (EvStart (fresh s)) (take_id s)))
  | ODrop a => if owns a s then Next (goto t (DCheck a) (log (EvDrop a) (set_handles (remove_handle a (handles s)) s))) else Blocked
  (* cancellation.cc:186-189 *)
  | ODetach a => if owns a s then Next (set_handles (remove_handle a (handles s)) s) else Blocked
  | OStatus => Next (goto t GLock s)
  (* cancellation.h:51-53 *)
  | OPoll stale => Next (log (EvPoll (load stale s)) s)
  | Go _ => Blocked
  end.

Definition continue (s : ctx) (t : nat) (stale : bool) (p : pc) : res :=
  match p with
  | Idle => Blocked
  (* 58-60 *)
  | CCheck e => Next (goto t (if load stale s then Idle else CLock e) s)
  | CLock e => acquire t (CBody e) s
  (* 64-66 *)
  | CBody e => match status s with
               | None => Next (goto t (CFlag (head s)) (log (EvCancel e) (set_list None (heap s) (set_status e s))))
               | Some _ => Next (goto t (CUnlock None) s)
               end
  (* 67 *)
  | CFlag n => Next (goto t (CUnlock n) (set_flag s))
  | CUnlock n => release t (CCall n) s
  (* 71-74 *)
  | CCall None => Next (goto t Idle s)
  | CCall (Some a) => match heap s a with Some _ => Next (goto t (CFree a) (log (EvCall a) s)) | None => Undef end
  | CFree a => match heap s a with
               | Some k => Next (goto t (CCall (n_next k)) (set_list (head s) (fset (heap s) a None) s))
               | None => Undef
               end
  (* 88-91 *)
  | SCheck a => Next (goto t (if load stale s then SNow a else SAlloc a) s)
  | SNow a => Next (goto t Idle (log (EvCall a) s))
  (* 92-93 *)
  | SAlloc a => Next (goto t (SLock a) (set_list (head s) (fset (heap s) a (Some (mkN None None))) s))
  | SLock a => acquire t (SBody a) s
  (* 96-102 *)
  | SBody a => if flag s then Next (goto t (SUnlockLate a) s)
               else ok (let? (hd, m) := link (head s) (heap s) a in Some (goto t (SUnlockOk a) (set_list hd m s)))
  | SUnlockOk a => release t Idle (set_handles (a :: handles s) s)
  | SUnlockLate a => release t (SCallLate a) s
  (* 105-106 *)
  | SCallLate a => match heap s a with Some _ => Next (goto t (SFree a) (log (EvCall a) s)) | None => Undef end
  | SFree a => match heap s a with Some _ => Next (goto t Idle (set_list (head s) (fset (heap s) a None) s)) | None => Undef end
  (* 163-165 *)
  | DCheck a => if load stale s then Next (goto t Idle (log (EvDropped a) s)) else Next (goto t (DLock a) s)
  | DLock a => acquire t (DBody a) s
  (* 168-179 *)
  | DBody a => if flag s then Next (goto t (DUnlockGone a) s)
               else ok (let? (hd, m) := unlink (head s) (heap s) a in Some (goto t (DUnlock a) (set_list hd m s)))
  | DUnlockGone a => release t Idle (log (EvDropped a) s)
  | DUnlock a => release t (DFree a) s
  (* 183 *)
  | DFree a => match heap s a with
               | Some _ => Next (goto t Idle (log (EvDropped a) (set_list (head s) (fset (heap s) a None) s)))
               | None => Undef
               end
  | GLock => acquire t GBody s
  | GBody => Next (goto t GUnlock (log (EvStatus (status s)) s))
  | GUnlock => release t Idle s
  end.

Definition step (s : ctx) (t : nat) (c : choice) : res :=
  match pcs s t with
  | Idle => start s t c
  | p => match c with Go stale => continue s t stale p | _ => Blocked end
  end.

Inductive reach : ctx -> Prop :=
  | reach_init : reach init
  | reach_step s t c s' : reach s -> step s t c = Next s' -> reach s'.

(** cancellation.cc:44-49: the destructor of the context deletes the remaining nodes *)
Fixpoint destroy (fuel : nat) (m : nat -> option node) (n : option nat) : option (nat -> option node) :=
  match n with
  | None => Some m
  | Some a => match fuel with
              | O => None
              | S f => let? k := m a in destroy f (fset m a None) (n_next k)
              end
  end.

(** ScopeGuard, cancellation.cc:109-138: the guards of one thread by address (context and
    previous guard) and the thread local data (flag and context come from the same
    guard: one field; then the guard). *)
Record tls := mkT { t_ctx : option nat; t_guard : option nat; t_guards : nat -> option (option nat * option nat) }.
Definition tls0 : tls := mkT None None (fun _ => None).
(** cancellation.cc:124-138; [None]: the guard does not exist *)
Definition update_tls (g : option nat) (s : tls) : option tls :=
  match g with
  | None => Some (mkT None None (t_guards s))
  | Some a => let? (c, _) := t_guards s a in Some (mkT c (Some a) (t_guards s))
  end.
(** cancellation.cc:109-115 *)
Definition guard_ctor (a : nat) (c : option nat) (s : tls) : option tls :=
  update_tls (Some a) (mkT (t_ctx s) (t_guard s) (fset (t_guards s) a (Some (c, t_guard s)))).
(** cancellation.cc:117-122; [None]: CHECK failure, or a use after the end of the
    lifetime; the guard ends to exist after the body *)
Definition guard_dtor (a : nat) (s : tls) : option tls :=
  let? (_, p) := t_guards s a in
  let? _ := guard match t_guard s with Some b => a =? b | None => false end in
  let? s1 := update_tls p s in
  Some (mkT (t_ctx s1) (t_guard s1) (fset (t_guards s1) a None)).
Inductive gop := GPush (a : nat) (c : option nat) | GPop (a : nat).
Definition gstep (s : tls) (o : gop) : option tls :=
  match o with GPush a c => guard_ctor a c s | GPop a => guard_dtor a s end.
Fixpoint gsteps (s : tls) (l : list gop) : option tls :=
  match l with [] => Some s | o :: r => let? s1 := gstep s o in gsteps s1 r end.
