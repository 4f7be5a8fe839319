(** What the registry means: names, namespaces, revisions. *)
From Verif Require Import Base Strings_Spec OpReg_Model OpReg_Conc.

(** The namespace [m] contains the name [n]; the empty one contains all. *)
Definition encloses (m n : name) : Prop := m = [] \/ n = m \/ exists r, n = m ++ 46%Z :: r.
Fixpoint below (m n : name) : bool :=
  match m, n with [], [] => true | [], c :: _ => (c =? 46)%Z | x :: m', y :: n' => (x =? y)%Z && below m' n' | _ :: _, [] => false end.
Definition enclosesb (m n : name) : bool := match m with [] => true | _ => below m n end.
(** How many of the names are in [m]. *)
Definition count_in (m : name) (l : list name) : nat := length (filter (enclosesb m) l).

(** ** A registry that is used by one thread *)
Inductive command := CRegister (n : name) (o : op) | CUnregister (n : name) | CAcquire (n : name).
Inductive answer := ARegistered (r : rerr + name) | ANothing.
Definition name_dec : forall a b : name, {a = b} + {a <> b} := list_eq_dec Z.eq_dec.
Arguments name_dec : simpl never.
Fixpoint find_op (l : list (name * op)) (n : name) : option op := match l with [] => None | (m, o) :: t => if name_dec m n then Some o else find_op t n end.
(** The operators in the order of registration, and the names of all changes. *)
Definition directory := (list (name * op) * list name)%type.
Inductive meaning : directory -> command -> answer -> directory -> Prop :=
  | MInvalid d n o : ~ qualified n -> meaning d (CRegister n o) (ARegistered (inl InvalidName)) d
  | MExists ops h n o : qualified n -> find_op ops n <> None -> meaning (ops, h) (CRegister n o) (ARegistered (inl AlreadyExists)) (ops, h)
  | MRegister ops h n o : qualified n -> find_op ops n = None -> meaning (ops, h) (CRegister n o) (ARegistered (inr n)) (ops ++ [(n, o)], h ++ [n])
  | MUnregister ops h n : find_op ops n <> None ->
      meaning (ops, h) (CUnregister n) ANothing (filter (fun x => if name_dec (fst x) n then false else true) ops, h ++ [n])
  | MUnknown ops h n : find_op ops n = None -> meaning (ops, h) (CUnregister n) ANothing (ops, h)
  | MAcquire d n : meaning d (CAcquire n) ANothing d.
Inductive history : list command -> list answer -> directory -> Prop :=
  | HNil : history [] [] ([], [])
  | HCons cs as_ d c a d' : history cs as_ d -> meaning d c a d' -> history (cs ++ [c]) (as_ ++ [a]) d'.

(** The model runs commands; the answer names the proxy by what its record is for. *)
Definition exec (r : registry) (c : command) : option (registry * answer) :=
  match c with
  | CRegister n o =>
      let? (r, x) := register r n o in
      match x with
      | inl e => Some (r, ARegistered (inl e))
      | inr i => let? y := rd (recs r) i in Some (r, ARegistered (inr (r_name y)))
      end
  | CUnregister n => let? r := unregister r n in Some (r, ANothing)
  | CAcquire n => let? (r, _) := lookup_create r n in Some (r, ANothing)
  end.
Fixpoint exec_all (r : registry) (cs : list command) : option (registry * list answer) :=
  match cs with [] => Some (r, []) | c :: t => let? (r, a) := exec r c in let? (r, b) := exec_all r t in Some (r, a :: b) end.

(** ** Chains of registered operators *)
Inductive leads (load : name -> option op) : op -> op -> Prop :=
  | LHere o : (forall n, o <> Registered n) -> leads load o o
  | LNext n o o' : load n = Some o -> leads load o o' -> leads load (Registered n) o'.
Inductive breaks (load : name -> option op) : op -> name -> Prop :=
  | BHere n : load n = None -> breaks load (Registered n) n
  | BNext n o m : load n = Some o -> breaks load o m -> breaks load (Registered n) m.
(** The chain goes on for any number of steps. *)
Fixpoint goes_on (load : name -> option op) (k : nat) (o : op) : Prop :=
  match k with 0 => True | S k => exists n o', o = Registered n /\ load n = Some o' /\ goes_on load k o' end.
(** All names of the chain from [o] that are looked up satisfy [P]. *)
Inductive through (load : name -> option op) (P : name -> Prop) : op -> Prop :=
  | TEnd o : (forall n, o <> Registered n) -> through load P o
  | TNext n : P n -> (forall o, load n = Some o -> through load P o) -> through load P (Registered n).

(** ** Several threads *)
(** The name that a thread is registering. *)
Definition active (p : pc) : option name :=
  match p with RLookup n _ | RCheck n _ _ | RStore n _ _ | RBump n _ _ _ | RList n _ _ => Some n | _ => None end.
(** No name is being registered twice at once. *)
Definition polite (w : world) (e : event) : Prop :=
  match e with
  | Start _ (Register n _) => forall t x, rd (w_thr w) t = Some x -> active (t_pc x) <> Some n
  | _ => True
  end.
Definition name_at (r : registry) (i : nat) : name := match rd (recs r) i with Some x => r_name x | None => [] end.
(** The thread has changed the revision of [m] for a name that is not listed yet. *)
Definition announced (r : registry) (m : name) (p : pc) : bool :=
  match p with
  | RBump n _ _ cur => enclosesb m n && negb (enclosesb m (name_at r cur))
  | RList n _ _ => enclosesb m n
  | _ => false
  end.
(** Moreover no snapshot is begun while some change of [ns] is announced only. *)
Definition orderly (ns : name) (w : world) (e : event) : Prop :=
  polite w e /\
  match e with
  | Run t => forall x, rd (w_thr w) t = Some x -> t_pc x = SRev -> forall t' y, rd (w_thr w) t' = Some y -> announced (w_reg w) ns (t_pc y) = false
  | _ => True
  end.

(** ** Calls of registered operators, without the detector *)
Section Calls.
Context {K R : Type}.
Variable bodies : K -> @body K R.
Inductive answers : K -> R -> Prop :=
  | answers_intro k x : finishes (bodies k) x -> answers k x
with finishes : @body K R -> R -> Prop :=
  | FReturn x : finishes (Return x) x
  | FCall k next y x : answers k y -> finishes (next y) x -> finishes (Call k next) x.
(** [k] can end up calling [k']. *)
Inductive occurs_in (k' : K) : @body K R -> Prop :=
  | OHere next : occurs_in k' (Call k' next)
  | OLater k next y : occurs_in k' (next y) -> occurs_in k' (Call k next).
End Calls.
