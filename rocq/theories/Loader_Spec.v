(** What an input loader should do: which names it has, of which types, and how their values are
    read from the input. *)
From Coq Require Import ZArith Permutation.
From Verif Require Import Base Loader_Model.
Local Open Scope nat_scope.
Local Open Scope list_scope.

Section Spec.
  Variable V : Type.
  Variable ord : forall A, hmap A -> hmap A.
  (** For each name the type and how to read the value; reading may fail. *)
  Definition meaning (I : Type) := name -> option (typ * (I -> option V)).
  (** Slots with different names, at different places. *)
  Definition proper (s : slots) : Prop := NoDup (map fst s) /\ NoDup (map (fun e => sid (snd e)) s).
  (** All names are known and the slots have their types. *)
  Definition fits {I} (m : meaning I) (s : slots) : Prop := forall n sl, In (n, sl) s -> exists r, m n = Some (sty sl, r).
  (** Running puts the values into the slots and changes nothing else; it fails exactly if one of
      the values cannot be read. *)
  Definition loads {I} (m : meaning I) (s : slots) (b : bound V I) : Prop :=
    forall i f, exists f' ok, b i f = (f', ok) /\
      (forall k, (forall n sl, In (n, sl) s -> sid sl <> k) -> f' k = f k) /\
      (ok = true <-> forall n sl t r, In (n, sl) s -> m n = Some (t, r) -> r i <> None) /\
      (ok = true -> forall n sl t r v, In (n, sl) s -> m n = Some (t, r) -> r i = Some v -> f' (sid sl) = v).
  Definition implements {I} (l : loader V I) (m : meaning I) : Prop :=
    (forall n, get_type V I l n = match m n with Some (t, _) => Some t | None => None end) /\
    forall s, proper s ->
      (fits m s -> exists b, bind_loader V ord I l s = Some b /\ loads m s b) /\
      (~ fits m s -> bind_loader V ord I l s = None).

  (** The meanings of the combinators. *)
  Definition only {I} (m : meaning I) (keep : name -> bool) : meaning I := fun n => if keep n then m n else None.
  Fixpoint first {I} (ms : list (meaning I)) : meaning I := fun n => match ms with [] => None | m :: t => match m n with Some x => Some x | None => first t n end end.
  (** [n] is [prefix] followed by a name of the other loader. *)
  Definition under {I J} (m : meaning J) (access : I -> J) (prefix : name) (m' : meaning I) : Prop :=
    (forall d, m' (prefix ++ d) = match m d with Some (t, r) => Some (t, fun i => r (access i)) | None => None end) /\
    (forall n, (forall d, n <> prefix ++ d) -> m' n = None).
End Spec.
Arguments fits {V I}. Arguments loads {V I}. Arguments implements {V} ord {I}. Arguments only {V I}. Arguments first {V I}. Arguments under {V I J}.
(** A map is visited in some order. *)
Definition some_order (ord : forall A, hmap A -> hmap A) : Prop := forall A (m : hmap A), Permutation (ord A m) m.
(** Loaders made from accessors, from keys, and by key. *)
Definition of_accessors {V I} (accs : list (accessor V I)) (m : meaning V I) : Prop :=
  (forall a, In a accs -> m (a_name V I a) = Some (a_type V I a, fun i => Some (a_fn V I a i))) /\
  (forall n, (forall a, In a accs -> a_name V I a <> n) -> m n = None).
Definition of_keys {V I K} (name2key : name -> option K) (read : K -> option (typ * (I -> option V))) : meaning V I :=
  fun n => match name2key n with Some k => read k | None => None end.
(** The value a callback brings, if it is of type [t]. *)
Definition of_type {V} (t : typ) (x : option (typ * V)) : option V :=
  match x with Some (t', v) => if Nat.eqb t t' then Some v else None | None => None end.
Definition by_key {V I} (name2key : name -> option name) (ms : name -> option (meaning V I)) : meaning V I :=
  fun n => match name2key n with Some k => match ms k with Some m => m n | None => None end | None => None end.
