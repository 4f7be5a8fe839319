(** Model of the phased execution of initializers:
    arolla/util/init_arolla_internal.cc and arolla/util/init_arolla.cc.
    Names are byte strings.  Pointers to nodes are positions in [Digraph::nodes]
    (a std::deque: emplace_back keeps pointers valid). *)
From Verif Require Import Base Visit_Model.

Definition name := list nat.
(** init_arolla.h:160-175 [Initializer]; the three alternatives of [init_fn].
    The number stands for the address of the function. *)
Inductive init_fn := NoFn | VoidFn (f : nat) | StatusFn (f : nat).
Record initializer := mkI { i_name : name; i_deps : list name; i_rdeps : list name; i_fn : init_fn }.

(** init_arolla.h:153 [kPhonyNamePrefix] = "@phony" *)
Definition phony_prefix : name := [64; 112; 104; 111; 110; 121].
Fixpoint name_eqb (a b : name) : bool :=
  match a, b with [], [] => true | x :: s, y :: t => (x =? y) && name_eqb s t | _, _ => false end.
(** util/string.h:76-78 *)
Definition starts_with (text prefix : name) : bool := name_eqb (firstn (length prefix) text) prefix.
Definition mem (x : name) (l : list name) : bool := existsb (name_eqb x) l.
Definition empty (x : name) : bool := match x with [] => true | _ => false end.

(** The errors, with the names their messages mention. *)
Inductive err :=
  | EPhonyName (n : name)        (* 69-73 *)
  | ECollision (n : name)        (* 75-80 *)
  | ELate (n r : name)           (* 88-95 *)
  | ECycle (ns : list name)      (* 106-117: 'a' <- 'b' <- ... *)
  | EInit (n : name)             (* 135-136 *)
  | EMissing (who what : name).  (* 138-147 *)

(** init_arolla_internal.cc:41-46 [Node]; [execution_state] is kept apart, in [xst]. *)
Record gnode := mkN { n_init : option initializer; n_name : name; n_deps : list nat }.
(** 48-51 [Digraph] *)
Record digraph := mkG { g_nodes : list gnode; g_index : list (name * nat) }.

Fixpoint lookup (x : name) (l : list (name * nat)) : option nat :=
  match l with [] => None | (y, n) :: t => if name_eqb x y then Some n else lookup x t end.
(** 53-63 [GetNode] *)
Definition get_node (g : digraph) (nm : name) : digraph * nat :=
  let n := length (g_nodes g) in
  if empty nm then (mkG (g_nodes g ++ [mkN None [] []]) (g_index g), n)
  else match lookup nm (g_index g) with
       | Some m => (g, m)
       | None => (mkG (g_nodes g ++ [mkN None nm []]) ((nm, n) :: g_index g), n)
       end.
(** [node->deps.push_back(d)] *)
Definition add_dep (g : digraph) (n d : nat) : option digraph :=
  let? nd := rd (g_nodes g) n in
  let? ns := upd (g_nodes g) n (mkN (n_init nd) (n_name nd) (n_deps nd ++ [d])) in
  Some (mkG ns (g_index g)).
(** 81 [result->initializer = &initializer] *)
Definition set_init (g : digraph) (n : nat) (i : initializer) : option digraph :=
  let? nd := rd (g_nodes g) n in
  let? ns := upd (g_nodes g) n (mkN (Some i) (n_name nd) (n_deps nd)) in
  Some (mkG ns (g_index g)).
(** 82-86 *)
Fixpoint init_deps (P : list name) (g : digraph) (n : nat) (ds : list name) : option digraph :=
  match ds with
  | [] => Some g
  | d :: t =>
      if mem d P then init_deps P g n t
      else let (g1, m) := get_node g d in
           let? g2 := add_dep g1 n m in
           init_deps P g2 n t
  end.
(** 87-98; [nm] is the name of the initializer, for the message *)
Fixpoint init_rdeps (P : list name) (nm : name) (g : digraph) (n : nat) (rs : list name) : option (err + digraph) :=
  match rs with
  | [] => Some (inr g)
  | r :: t =>
      if mem r P then Some (inl (ELate nm r))
      else let (g1, m) := get_node g r in
           let? g2 := add_dep g1 m n in
           init_rdeps P nm g2 n t
  end.
(** 65-100 [InitNode] *)
Definition init_node (P : list name) (g : digraph) (i : initializer) : option (err + digraph * nat) :=
  if starts_with (i_name i) phony_prefix then Some (inl (EPhonyName (i_name i)))
  else
    let (g1, n) := get_node g (i_name i) in
    let? nd := rd (g_nodes g1) n in
    if (match n_init nd with Some _ => true | None => false end) || mem (i_name i) P
    then Some (inl (ECollision (i_name i)))
    else
      let? g2 := set_init g1 n i in
      let? g3 := init_deps P g2 n (i_deps i) in
      let? r := init_rdeps P (i_name i) g3 n (i_rdeps i) in
      match r with inl e => Some (inl e) | inr g4 => Some (inr (g4, n)) end.
(** 157-162: the nodes of the initializers, in their order *)
Fixpoint init_nodes (P : list name) (g : digraph) (l : list initializer) : option (err + digraph * list nat) :=
  match l with
  | [] => Some (inr (g, []))
  | i :: t =>
      let? r := init_node P g i in
      match r with
      | inl e => Some (inl e)
      | inr (g1, n) =>
          let? r' := init_nodes P g1 t in
          match r' with inl e => Some (inl e) | inr (g2, ns) => Some (inr (g2, n :: ns)) end
      end
  end.

(** The name of a node, the initializer attached to it, its dependencies. *)
Definition gname (g : digraph) (n : nat) : name := match rd (g_nodes g) n with Some nd => n_name nd | None => [] end.
Definition ginit (g : digraph) (n : nat) : option initializer := match rd (g_nodes g) n with Some nd => n_init nd | None => None end.
Definition gdeps (g : digraph) (n : nat) : list nat := match rd (g_nodes g) n with Some nd => n_deps nd | None => [] end.

(** std::stable_sort by [lhs->name < rhs->name] (bytes compared as unsigned). *)
Definition str_ltb (a b : name) : bool := negb (str_leb b a).
Fixpoint sins {A} (key : A -> name) (x : A) (l : list A) : list A :=
  match l with [] => [x] | y :: t => if str_ltb (key y) (key x) then y :: sins key x t else x :: y :: t end.
Definition ssort {A} (key : A -> name) (l : list A) : list A := fold_right (sins key) [] l.

Inductive estate := Pending | Executing | Done.
(** Execution states of the nodes, [dependency_stack] (top first), and the
    initializers executed so far. *)
Record xst := mkX { x_st : list estate; x_stack : list nat; x_trace : list initializer }.

(** 110-116: names popped from the stack, up to the node itself; [top()] of an
    empty stack is undefined *)
Fixpoint cycle_names (g : digraph) (n : nat) (stack : list nat) : option (list name) :=
  match stack with
  | [] => None
  | m :: t => if m =? n then Some [gname g m] else let? r := cycle_names g n t in Some (gname g m :: r)
  end.

Section Exec.
(** Does the function return OK?  It may depend on all that ran before. *)
Variable ok : list initializer -> nat -> bool.

(** 124-126 *)
Fixpoint exec_all (rec : xst -> nat -> option (xst * option err)) (x : xst) (ds : list nat) : option (xst * option err) :=
  match ds with
  | [] => Some (x, None)
  | d :: t =>
      let? r := rec x d in
      match snd r with Some e => Some (fst r, Some e) | None => exec_all rec (fst r) t end
  end.
(** 102-150 [ExecuteNode].  [fuel] bounds the depth of the recursion.  The sort
    of [node.deps] happens in place; a node gets there once, so the model only
    uses the sorted list. *)
Fixpoint exec (fuel : nat) (g : digraph) (x : xst) (n : nat) : option (xst * option err) :=
  match fuel with
  | O => None
  | S k =>
      let? nd := rd (g_nodes g) n in
      let? s := rd (x_st x) n in
      match s with
      | Done => Some (x, None)
      | Executing =>
          let? l := cycle_names g n (x_stack x) in
          Some (x, Some (ECycle (n_name nd :: l)))
      | Pending =>
          let? st1 := upd (x_st x) n Executing in
          let? r := exec_all (exec k g) (mkX st1 (n :: x_stack x) (x_trace x)) (ssort (gname g) (n_deps nd)) in
          match snd r with
          | Some e => Some (fst r, Some e)
          | None =>
              let x1 := fst r in
              match x_stack x1 with
              | [] => None
              | _ :: stack =>
                  let? st2 := upd (x_st x1) n Done in
                  match n_init nd with
                  | Some i =>
                      let x2 := mkX st2 stack (x_trace x1 ++ [i]) in
                      match i_fn i with
                      | StatusFn f => if ok (x_trace x1) f then Some (x2, None) else Some (x2, Some (EInit (n_name nd)))
                      | _ => Some (x2, None)
                      end
                  | None =>
                      let x2 := mkX st2 stack (x_trace x1) in
                      if starts_with (n_name nd) phony_prefix then Some (x2, None)
                      else match stack with
                           | [] => None
                           | top :: _ => Some (x2, Some (EMissing (gname g top) (n_name nd)))
                           end
                  end
              end
          end
      end
  end.

(** 165-171 *)
Fixpoint run_nodes (fuel : nat) (g : digraph) (P : list name) (x : xst) (ns : list nat) : option (list name * xst * option err) :=
  match ns with
  | [] => Some (P, x, None)
  | n :: t =>
      let? r := exec fuel g x n in
      match snd r with
      | Some e => Some (P, fst r, Some e)
      | None =>
          let nm := gname g n in
          let P' := if negb (empty nm) && negb (starts_with nm phony_prefix) then nm :: P else P in
          run_nodes fuel g P' (fst r) t
      end
  end.
(** 154-173 [Coordinator::Run].  [P] is [previously_completed_]; [tr] is what ran
    in earlier calls.  Result: the new [previously_completed_], all that ran, the
    status. *)
Definition run (P : list name) (tr : list initializer) (l : list initializer) : option (list name * list initializer * option err) :=
  let? r := init_nodes P (mkG [] []) l in
  match r with
  | inl e => Some (P, tr, Some e)
  | inr (g, ns) =>
      let? q := run_nodes (S (length (g_nodes g))) g P (mkX (repeat Pending (length (g_nodes g))) [] tr) (ssort (gname g) ns) in
      let '(P', x, e) := q in Some (P', x_trace x, e)
  end.

(** ** init_arolla.cc *)
(** 29-34: [init_arolla_called], the list [registry_head] (newest first),
    the coordinator; [p_once] is the guard of the static variable at line 77;
    [p_trace] all that ran. *)
Record proc := mkP { p_called : bool; p_once : bool; p_head : list initializer; p_done : list name; p_trace : list initializer }.
Definition proc0 : proc := mkP false false [] [] [].
(** 33-44 [RunRegisteredInitializers]; [inl] is LOG(FATAL): the process ends,
    having run the initializers given beside the error *)
Definition run_registered (p : proc) : option (list initializer * err + proc) :=
  let? r := run (p_done p) (p_trace p) (p_head p) in
  let '(P', tr, e) := r in
  match e with
  | Some e => Some (inl (tr, e))
  | None => Some (inr (mkP (p_called p) (p_once p) [] P' tr))
  end.
Inductive pop := Register (i : initializer) | CallInit | Secondary.
(** 59-62 [Registration], 74-82 [InitArolla], 64-68 [InitArollaSecondary] *)
Definition pstep (p : proc) (o : pop) : option (list initializer * err + proc) :=
  match o with
  | Register i => Some (inr (mkP (p_called p) (p_once p) (i :: p_head p) (p_done p) (p_trace p)))
  | CallInit =>
      if p_once p then Some (inr p)
      else run_registered (mkP true true (p_head p) (p_done p) (p_trace p))
  | Secondary => if p_called p then run_registered p else Some (inr p)
  end.
Fixpoint psteps (p : proc) (os : list pop) : option (list initializer * err + proc) :=
  match os with
  | [] => Some (inr p)
  | o :: t => let? r := pstep p o in match r with inl e => Some (inl e) | inr p' => psteps p' t end
  end.
End Exec.
