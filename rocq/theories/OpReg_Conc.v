(** Several threads that register operators and use one generic operator:
    registered_expr_operator.cc:286-306, generic_operator.cc:160-215, one access to
    shared memory (or one critical section) at a time. *)
From Verif Require Import Base Strings_Model OpReg_Model.

(** Where a thread is; [RDone], [SDone]: it has returned. *)
Inductive pc :=
  | Idle
  | RLookup (n : name) (o : op)                       (* .cc:294 *)
  | RCheck (n : name) (o : op) (i : nat)              (* 295 *)
  | RStore (n : name) (o : op) (i : nat)              (* 299 *)
  | RBump (n : name) (o : op) (i cur : nat)           (* 300, 401-407 *)
  | RList (n : name) (o : op) (i : nat)               (* 301-304 *)
  | RDone (n : name) (o : op) (res : rerr + nat)
  | SLoad                                             (* generic_operator.cc:208 *)
  | SCompare (s : snapshot)                           (* 209 *)
  | SRev                                              (* 164 *)
  | SList (v : nat)                                   (* 167 *)
  | SVisit (v : nat) (todo : list name) (acc : list nat)   (* 167-177 *)
  | SHop (v : nat) (todo : list name) (acc : list nat) (k : nat) (visited : list op) (n : name)  (* 178, registered_expr_operator.cc:132-164 *)
  | SSave (v : nat) (acc : list nat)                  (* 213 *)
  | SDone (s : snapshot).
(** [seen] is no part of the program: what was listed when the call began. *)
Record thread := mkThread { t_pc : pc; t_seen : list name }.
Record world := mkWorld { w_reg : registry; w_slot : option snapshot; w_thr : list thread }.
Inductive request := Register (n : name) (o : op) | GetSnapshot.
Inductive event := Start (t : nat) (q : request) | Run (t : nat).

Section Machine.
(** The generic operator: its namespace, and the record of it. *)
Variable ns : name.
Variable g : nat.
Definition idle (p : pc) : bool := match p with Idle | RDone _ _ _ | SDone _ => true | _ => false end.
(** The rest of a thread that holds [cur] after [k] loads. *)
Definition after_load (v : nat) (todo : list name) (acc : list nat) (k : nat) (visited : list op) (cur : option op) : pc :=
  match cur with
  | None => SVisit v todo acc
  | Some cur =>
      match decay_step k visited cur with
      | inl (Is (Overload i)) => SVisit v todo (acc ++ [i])
      | inl _ => SVisit v todo acc
      | inr (n, visited) => SHop v todo acc k visited n
      end
  end.
Definition run (r : registry) (slot : option snapshot) (p : pc) : option (registry * option snapshot * pc) :=
  match p with
  | Idle | RDone _ _ _ | SDone _ => None
  | RLookup n o => let? (r, h) := lookup_create r n in let? i := h in Some (r, slot, RCheck n o i)
  | RCheck n o i => Some (r, slot, match impl_at r (Some i) with Some _ => RDone n o (inl AlreadyExists) | None => RStore n o i end)
  | RStore n o i => let? r := store r i (Some o) in Some (r, slot, RBump n o i i)
  | RBump n o i cur =>
      let? p := parent_of r cur in let? r := bump r cur in
      Some (r, slot, match p with Some j => RBump n o i j | None => RList n o i end)
  | RList n o i => Some (append r n, slot, RDone n o (inr i))
  | SLoad => Some (r, slot, match slot with Some s => SCompare s | None => SRev end)
  | SCompare s => Some (r, slot, if s_rev s =? rev_at r (Some g) then SDone s else SRev)
  | SRev => Some (r, slot, SList (rev_at r (Some g)))
  | SList v => Some (r, slot, SVisit v (listed r) [])
  | SVisit v [] acc => Some (r, slot, SSave v acc)
  | SVisit v (n :: todo) acc =>
      Some (r, slot, if in_namespace ns n then match lookup r n with Some _ => SHop v todo acc 0 [] n | None => SVisit v todo acc end else SVisit v todo acc)
  | SHop v todo acc k visited n => Some (r, slot, after_load v todo acc (S k) visited (implementation r n))
  | SSave v acc => Some (r, Some (mkSnapshot v acc), SDone (mkSnapshot v acc))
  end.
Definition start (r : registry) (q : request) : pc :=
  match q with Register n o => if is_qualified n then RLookup n o else RDone n o (inl InvalidName) | GetSnapshot => SLoad end.
Definition step (w : world) (e : event) : option world :=
  match e with
  | Start t q =>
      let? x := rd (w_thr w) t in
      if idle (t_pc x) then
        let? l := upd (w_thr w) t (mkThread (start (w_reg w) q) (listed (w_reg w))) in Some (mkWorld (w_reg w) (w_slot w) l)
      else None
  | Run t =>
      let? x := rd (w_thr w) t in
      let? (r, slot, p) := run (w_reg w) (w_slot w) (t_pc x) in
      let? l := upd (w_thr w) t (mkThread p (t_seen x)) in Some (mkWorld r slot l)
  end.
(** [allowed] restricts what the threads do and when. *)
Inductive reaches (allowed : world -> event -> Prop) (w0 : world) : world -> Prop :=
  | reach_refl : reaches allowed w0 w0
  | reach_step w w' e : reaches allowed w0 w -> allowed w e -> step w e = Some w' -> reaches allowed w0 w'.
End Machine.
