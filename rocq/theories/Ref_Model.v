(** Model of Refcount and RefcountPtr (arolla/util/refcount.h, arolla/util/refcount_ptr.h):
    any number of threads that own handles, and reference counted objects that own handles
    to other objects.

    Every atomic operation on a counter is one step; all else that an operation does is local
    to the handles of its thread.  A handle is used by one thread at a time (it may be passed
    to another thread); the handles inside of an object are filled when it is created and may
    be copied by every thread with a handle to the object.  The int32 counter is a Z: fewer
    than 2^31 handles refer to one object. *)
From Verif Require Import Base.

(** refcount_ptr.h:32-37 with the fields of the derived class *)
Record obj := mkO { cnt : Z; flds : list (option nat) }.
(** What a thread still has to do: increment; decrement (refcount.h:44, or the load of 62);
    fetch_sub of 63; run the destructor of the object; release its memory. *)
Inductive item := WInc (o : nat) | WDec (o : nat) | WSub (o : nat) | WDel (o : nat) | WFree (o : nat).
Record thread := mkTh { vars : list (option nat); work : list item }.
(** [None]: released memory; [dels]: the destructors that were started *)
Record st := mkS { objs : list (option obj); ths : list thread; dels : list nat }.
Definition init : st := mkS [] [] [].

Fixpoint set_nth {A} (l : list A) (i : nat) (x : A) : list A :=
  match l, i with
  | [], _ => []
  | _ :: r, O => x :: r
  | a :: r, S j => a :: set_nth r j x
  end.

(** A handle: a variable, or the [i]-th handle inside of the object of a variable. *)
Inductive src := SVar (y : nat) | SField (y i : nat).
Inductive op :=
  | OSpawn (n : nat)                   (* a thread with n empty handles *)
  | OMake (x : nat) (ys : list nat)    (* Make with moved arguments, refcount_ptr.h:49-55 *)
  | OCopy (x : nat) (r : src)          (* NewRef and the copy constructor, 71-87 *)
  | OMove (x y : nat)                  (* the move constructor, 89-91 *)
  | OAssign (x : nat) (r : src)        (* 95-107 *)
  | OSwap (x y : nat)                  (* move assignment 109-114 and swap 139-143 *)
  | OReset (x : nat)                   (* reset and the destructor, 93, 116-125 *)
  | OSend (x u y : nat)                (* a handle is moved into a handle of thread u *)
  | Go (skewed : bool).

Inductive res := Blocked | Undef | Next (s : st).

Definition put (s : st) (t : nat) (th : thread) : st := mkS (objs s) (set_nth (ths s) t th) (dels s).
(** Blocked: there is no such handle, or the source is null; Undef: the object was released. *)
Definition read_src (s : st) (v : list (option nat)) (r : src) (k : option nat -> res) : res :=
  match r with
  | SVar y => match rd v y with Some h => k h | None => Blocked end
  | SField y i =>
      match rd v y with
      | Some (Some p) =>
          match rd (objs s) p with
          | Some (Some ob) => match rd (flds ob) i with Some h => k h | None => Blocked end
          | _ => Undef
          end
      | _ => Blocked
      end
  end.
(** Moves the handles [ys] out of the variables. *)
Fixpoint take_all (v : list (option nat)) (ys : list nat) : list (option nat) * list (option nat) :=
  match ys with
  | [] => ([], v)
  | y :: r => match rd v y with
              | Some h => let '(hs, v') := take_all (set_nth v y None) r in (h :: hs, v')
              | None => take_all v r
              end
  end.
Definition incs_of (h : option nat) : list item := match h with Some o => [WInc o] | None => [] end.
Definition decs_of (h : option nat) : list item := match h with Some o => [WDec o] | None => [] end.
Definition same (a b : option nat) : bool :=
  match a, b with Some x, Some y => x =? y | None, None => true | _, _ => false end.

Definition start (s : st) (t : nat) (v : list (option nat)) (c : op) : res :=
  match c with
  | OSpawn n => Next (mkS (objs s) (ths s ++ [mkTh (repeat None n) []]) (dels s))
  | OMake x ys =>
      let '(hs, v1) := take_all v ys in
      match rd v1 x with
      | Some None => Next (mkS (objs s ++ [Some (mkO 1 hs)]) (set_nth (ths s) t (mkTh (set_nth v1 x (Some (length (objs s)))) [])) (dels s))
      | _ => Blocked
      end
  | OCopy x r =>
      match rd v x with
      | Some None => read_src s v r (fun h => Next (put s t (mkTh (set_nth v x h) (incs_of h))))
      | _ => Blocked
      end
  | OMove x y =>
      match rd v x, rd v y with
      | Some None, Some h => Next (put s t (mkTh (set_nth (set_nth v y None) x h) []))
      | _, _ => Blocked
      end
  | OAssign x r =>
      match rd v x with
      | Some old => read_src s v r (fun h =>
          if same old h then Next s else Next (put s t (mkTh (set_nth v x h) (incs_of h ++ decs_of old))))
      | None => Blocked
      end
  | OSwap x y =>
      match rd v x, rd v y with
      | Some a, Some b => Next (put s t (mkTh (set_nth (set_nth v x b) y a) []))
      | _, _ => Blocked
      end
  | OReset x =>
      match rd v x with
      | Some h => Next (put s t (mkTh (set_nth v x None) (decs_of h)))
      | None => Blocked
      end
  | OSend x u y =>
      match rd v x, rd (ths s) u with
      | Some h, Some th => if u =? t then Blocked else
          match rd (vars th) y with
          | Some None => Next (put (put s t (mkTh (set_nth v x None) [])) u (mkTh (set_nth (vars th) y h) (work th)))
          | _ => Blocked
          end
      | _, _ => Blocked
      end
  | Go _ => Blocked
  end.

Definition with_obj (s : st) (o : nat) (k : obj -> res) : res :=
  match rd (objs s) o with Some (Some ob) => k ob | _ => Undef end.
(** refcount_ptr.h:122-124: the last decrement deletes the object *)
Definition fetch_sub (s : st) (t : nat) (v : list (option nat)) (o : nat) (rest : list item) : res :=
  with_obj s o (fun ob =>
    Next (mkS (set_nth (objs s) o (Some (mkO (cnt ob - 1)%Z (flds ob))))
              (set_nth (ths s) t (mkTh v ((if (cnt ob =? 1)%Z then [WDel o] else []) ++ rest))) (dels s))).
Definition continue (s : st) (t : nat) (v : list (option nat)) (skewed : bool) (w : item) (rest : list item) : res :=
  match w with
  (* refcount.h:36 *)
  | WInc o => with_obj s o (fun ob =>
      Next (mkS (set_nth (objs s) o (Some (mkO (cnt ob + 1)%Z (flds ob)))) (set_nth (ths s) t (mkTh v rest)) (dels s)))
  (* refcount.h:44-46, 61-64 *)
  | WDec o => if skewed then with_obj s o (fun ob => Next (put s t (mkTh v ((if (cnt ob =? 1)%Z then WDel o else WSub o) :: rest))))
              else fetch_sub s t v o rest
  | WSub o => fetch_sub s t v o rest
  (* delete: the handles inside are destroyed in reverse order, then the memory is released *)
  | WDel o => with_obj s o (fun ob =>
      Next (mkS (set_nth (objs s) o (Some (mkO (cnt ob) [])))
                (set_nth (ths s) t (mkTh v (flat_map decs_of (rev (flds ob)) ++ WFree o :: rest))) (o :: dels s)))
  | WFree o => with_obj s o (fun _ => Next (mkS (set_nth (objs s) o None) (set_nth (ths s) t (mkTh v rest)) (dels s)))
  end.

Definition step (s : st) (t : nat) (c : op) : res :=
  match rd (ths s) t with
  | None => match c with OSpawn _ => start s t [] c | _ => Blocked end
  | Some th =>
      match work th with
      | [] => start s t (vars th) c
      | w :: rest => match c with Go skewed => continue s t (vars th) skewed w rest | _ => Blocked end
      end
  end.
Inductive reach : st -> Prop :=
  | reach_init : reach init
  | reach_step s t c s' : reach s -> step s t c = Next s' -> reach s'.
