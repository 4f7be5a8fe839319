(** Model of the registry of operators and of generic operators:
    arolla/expr/registered_expr_operator.{h,cc} and
    arolla/expr/operator_loader/generic_operator.cc.
    A record is identified by its position (records never move, registered_expr_operator.h:
    146-147).  [None] is undefined behaviour unless a comment says otherwise. *)
From Verif Require Import Base Strings_Model.

Definition name := list Z.
(** An operator: any, an overload of a generic operator, or a [RegisteredOperator]. *)
Inductive op := Plain (id : nat) | Overload (id : nat) | Registered (n : name).
(** registered_expr_operator.h:148-161; the proxy [registered_operator] is determined
    by the record *)
Record record := mkRecord { r_name : name; r_parent : option nat; r_rev : nat; r_impl : option op }.
(** .h:176-181: [registry_] maps the name of every record to it *)
Record registry := mkRegistry { recs : list record; listed : list name }.
Definition new_record (n : name) : record := mkRecord n None 0 None.
(** .cc:280-284 *)
Definition empty_registry : registry := mkRegistry [new_record []] [].
(** registry_.find *)
Fixpoint find_rec (l : list record) (n : name) : option nat :=
  match l with [] => None | r :: t => if str_eqb (r_name r) n then Some 0 else match find_rec t n with Some i => Some (S i) | None => None end end.
Definition set_parent (l : list record) (i p : nat) : option (list record) :=
  let? r := rd l i in upd l i (mkRecord (r_name r) (Some p) (r_rev r) (r_impl r)).
(** name.rfind('.') *)
Fixpoint rfind_dot (s : name) : option nat :=
  match s with
  | [] => None
  | c :: t => match rfind_dot t with Some i => Some (S i) | None => if (c =? ch_dot)%Z then Some 0 else None end
  end.
(** .cc:374-375 *)
Definition parent_name (n : name) : name := firstn (match rfind_dot n with Some i => i | None => 0 end) n.
(** .cc:372-388 *)
Fixpoint create_parents (fuel : nat) (l : list record) (child : nat) (n : name) : option (list record) :=
  match fuel with
  | 0 => None
  | S k =>
      let n := parent_name n in
      match find_rec l n with
      | Some p => set_parent l child p
      | None => let? l' := set_parent (l ++ [new_record n]) child (length l) in create_parents k l' (length l) n
      end
  end.
(** .cc:356-389 [LookupOrCreateRecordSingleton], under the lock; no position: the
    stub, whose implementation is null and whose revision is 0 *)
Definition lookup_create (r : registry) (n : name) : option (registry * option nat) :=
  match find_rec (recs r) n with
  | Some i => Some (r, Some i)
  | None =>
      if negb (is_qualified n) then Some (r, None) else
      let? l := create_parents (S (length n)) (recs r ++ [new_record n]) (length (recs r)) n in
      Some (mkRegistry l (listed r), Some (length (recs r)))
  end.
(** .h:186-207: the functors; [operator_implementation.load()], [revision_id.load()] *)
Definition impl_at (r : registry) (i : option nat) : option op := match i with Some i => match rd (recs r) i with Some x => r_impl x | None => None end | None => None end.
Definition rev_at (r : registry) (i : option nat) : nat := match i with Some i => match rd (recs r) i with Some x => r_rev x | None => 0 end | None => 0 end.
Definition store (r : registry) (i : nat) (o : option op) : option registry :=
  let? x := rd (recs r) i in let? l := upd (recs r) i (mkRecord (r_name x) (r_parent x) (r_rev x) o) in Some (mkRegistry l (listed r)).
Definition bump (r : registry) (i : nat) : option registry :=
  let? x := rd (recs r) i in let? l := upd (recs r) i (mkRecord (r_name x) (r_parent x) (S (r_rev x)) (r_impl x)) in Some (mkRegistry l (listed r)).
Definition parent_of (r : registry) (i : nat) : option (option nat) := let? x := rd (recs r) i in Some (r_parent x).
(** .cc:401-407 [UpdateRevisionIds] *)
Fixpoint update_revisions (fuel : nat) (r : registry) (i : nat) : option registry :=
  match fuel with
  | 0 => None
  | S k => let? r := bump r i in let? p := parent_of r i in match p with Some j => update_revisions k r j | None => Some r end
  end.
Definition append (r : registry) (n : name) : registry := mkRegistry (recs r) (listed r ++ [n]).
Definition erase (r : registry) (n : name) : registry := mkRegistry (recs r) (filter (fun m => negb (str_eqb m n)) (listed r)).

Inductive rerr := InvalidName | AlreadyExists.
(** .cc:286-306 [Register], when nothing else runs; the result is the record whose
    proxy is returned.  A store into the stub is [None]. *)
Definition register (r : registry) (n : name) (o : op) : option (registry * (rerr + nat)) :=
  if negb (is_qualified n) then Some (r, inl InvalidName) else
  let? (r, h) := lookup_create r n in
  let? i := h in
  match impl_at r (Some i) with
  | Some _ => Some (r, inl AlreadyExists)
  | None =>
      let? r := store r i (Some o) in
      let? r := update_revisions (S (length n)) r i in
      Some (append r n, inr i)
  end.
(** .cc:308-322 [UnsafeUnregister] *)
Definition unregister (r : registry) (n : name) : option registry :=
  match find_rec (recs r) n with
  | None => Some r
  | Some i =>
      match impl_at r (Some i) with
      | None => Some r
      | Some _ =>
          let? r := store r i None in
          let? r := update_revisions (S (length n)) r i in
          Some (erase r n)
      end
  end.
(** .cc:324-332 [LookupOperatorOrNull]: the record of the proxy; here [None] is null *)
Definition lookup (r : registry) (n : name) : option nat :=
  match find_rec (recs r) n with
  | Some i => match impl_at r (Some i) with Some _ => Some i | None => None end
  | None => None
  end.
(** .cc:197-205 [GetImplementation] of the proxy for a name; here [None] is not found.
    A proxy for a name without a record holds a new one, or the stub. *)
Definition implementation (r : registry) (n : name) : option op := impl_at r (find_rec (recs r) n).

(** ** .cc:132-164 [DecayRegisteredOperator] *)
Definition op_eqb (a b : op) : bool :=
  match a, b with Plain i, Plain j | Overload i, Overload j => i =? j | Registered m, Registered n => str_eqb m n | _, _ => false end.
Inductive decayed := Is (o : op) | NotFound (n : name) | Circular (o : op).
Definition ignore_depth : nat := 24.
(** Holding [cur] after [k] loads: what it is, or the next name to load *)
Definition decay_step (k : nat) (visited : list op) (cur : op) : decayed + (name * list op) :=
  if k <? ignore_depth then
    match cur with Registered n => inr (n, visited) | _ => inl (Is cur) end
  else if existsb (op_eqb cur) visited then inl (Circular cur)
  else match cur with Registered n => inr (n, cur :: visited) | _ => inl (Is cur) end.
Fixpoint decay_loop (fuel : nat) (load : name -> option op) (k : nat) (visited : list op) (cur : op) : option decayed :=
  match fuel with
  | 0 => None
  | S f =>
      match decay_step k visited cur with
      | inl d => Some d
      | inr (n, visited) => match load n with None => Some (NotFound n) | Some o => decay_loop f load (S k) visited o end
      end
  end.
Definition decay (r : registry) (o : op) : option decayed := decay_loop (ignore_depth + length (recs r) + 2) (implementation r) 0 [] o.

(** ** generic_operator.cc *)
Record snapshot := mkSnapshot { s_rev : nat; s_overloads : list nat }.
(** 168-172 *)
Definition in_namespace (ns n : name) : bool :=
  (length ns <? length n) && str_eqb ns (firstn (length ns) n) && match rd n (length ns) with Some c => (c =? ch_dot)%Z | None => false end.
(** 173-191, for one listed name *)
Definition visit (r : registry) (ns n : name) : option (list nat) :=
  if negb (in_namespace ns n) then Some [] else
  match lookup r n with
  | None => Some []
  | Some _ => let? d := decay r (Registered n) in Some (match d with Is (Overload k) => [k] | _ => [] end)
  end.
Fixpoint visit_all (r : registry) (ns : name) (l : list name) : option (list nat) :=
  match l with [] => Some [] | n :: t => let? a := visit r ns n in let? b := visit_all r ns t in Some (a ++ b) end.
(** 160-204 [BuildSnapshot], when nothing else runs; [g]: the record of the
    namespace.  Compiling the dispatch expression is not modelled. *)
Definition build_snapshot (r : registry) (ns : name) (g : nat) : option snapshot :=
  let? l := visit_all r ns (listed r) in Some (mkSnapshot (rev_at r (Some g)) l).
(** 206-215 [GetSnapshot]: the snapshot, which is also kept *)
Definition get_snapshot (r : registry) (ns : name) (g : nat) (cache : option snapshot) : option snapshot :=
  match cache with
  | Some s => if s_rev s =? rev_at r (Some g) then Some s else build_snapshot r ns g
  | None => build_snapshot r ns g
  end.

(** 217-276 [GetOverload] after the evaluation of readiness and condition for every
    overload: [None] in the last case is null *)
Inductive selection := Matched (i : nat) | Several (i : nat) (js : list nat) | NotReady | NoOverload.
(** 236-245: the first match, whether all before it are ready *)
Fixpoint first_match (i : nat) (l : list (bool * bool)) (ready : bool) : option nat * bool * list (bool * bool) :=
  match l with
  | [] => (None, ready, [])
  | (rdy, cond) :: t =>
      if rdy then if cond then (Some i, ready, t) else first_match (S i) t ready
      else first_match (S i) t false
  end.
(** 247-256 *)
Fixpoint more_matches (i : nat) (l : list (bool * bool)) (ready : bool) : list nat * bool :=
  match l with
  | [] => ([], ready)
  | (rdy, cond) :: t =>
      let '(js, r) := more_matches (S i) t (if rdy then ready else false) in
      (if rdy && cond then i :: js else js, r)
  end.
Definition select (l : list (bool * bool)) : option selection :=
  let '(f, ready, rest) := first_match 0 l true in
  let '(js, ready) := more_matches (match f with Some i => S i | None => S (length l) end) rest ready in
  match js with
  | _ :: _ => let? i := f in Some (Several i js)
  | [] => if negb ready then Some NotReady else match f with Some i => Some (Matched i) | None => Some NoOverload end
  end.

(** ** .cc:53-114 [CircularDependencyDetector] around the calls of one thread *)
Section Detector.
Context {K R E : Type}.
Variable K_eq_dec : forall a b : K, {a = b} + {a <> b}.
(** What the implementation of an operator does when called with a token: further
    calls of registered operators, then a result. *)
Inductive body := Return (r : R) | Call (k : K) (next : R -> body).
Variable bodies : K -> body.
Variable circular : K -> R.
(** thread_local_depth_, thread_local_visited_ *)
Definition tls := (nat * list K)%type.
(** 64-70, 86-91: the constructor; the guard keeps its token unless it fails *)
Definition push (s : tls) (k : K) : tls * option K :=
  let '(d, v) := s in
  if ignore_depth <? S d then
    if in_dec K_eq_dec k v then ((S d, v), None) else ((S d, k :: v), Some k)
  else ((S d, v), None).
(** 78-81 *)
Definition guard_ok (s : tls) (token : option K) : bool := (fst s <=? ignore_depth) || match token with Some _ => true | None => false end.
(** 72-76, 108; erasing the failure token does nothing *)
Definition pop (s : tls) (token : option K) : option tls :=
  let '(d, v) := s in
  match d with
  | 0 => None
  | S d' => Some (d', if ignore_depth <? d then match token with Some k => filter (fun x => if K_eq_dec x k then false else true) v | None => v end else v)
  end.
(** 207-268: the four methods *)
Fixpoint call (fuel : nat) (s : tls) (k : K) : option (tls * R) :=
  match fuel with
  | 0 => None
  | S f =>
      let '(s, token) := push s k in
      if negb (guard_ok s token) then let? s := pop s token in Some (s, circular k) else
      let? (s, x) := (fix run (b : body) (s : tls) {struct b} : option (tls * R) :=
         match b with Return x => Some (s, x) | Call k' next => let? (s, x) := call f s k' in run (next x) s end) (bodies k) s in
      let? s := pop s token in Some (s, x)
  end.
End Detector.
