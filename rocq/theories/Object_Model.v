(** Model of arolla/objects: object_qtype.{h,cc}, the part of s11n/s11n.cc about values, and
    operators/qexpr_operators.cc.  A flat_hash_map is a list of pairs with different keys, in
    the order of its iteration, which can be any.  [V] is TypedValue, [of_obj] and [as_obj] are
    TypedValue::FromValue and UnsafeAs<Object> (with the test of the type).  The fingerprint of
    an object is the sequence of what is combined into the hasher (strings and fingerprints);
    Repr, the frame and the texts of errors are left out.  [None]: access out of bounds. *)
From Verif Require Import Base.

Notation key := (list nat).
(** std::string operator== *)
Fixpoint key_eqb (a b : key) : bool :=
  match a, b with
  | [], [] => true
  | x :: a, y :: b => (x =? y) && key_eqb a b
  | _, _ => false
  end.
(** std::string operator<, on bytes *)
Fixpoint key_ltb (a b : key) : bool :=
  match a, b with
  | [], _ :: _ => true
  | x :: a, y :: b => (x <? y) || ((x =? y) && key_ltb a b)
  | _, _ => false
  end.

(** object_qtype.h:47-94: Object(), an object without a prototype, one with a prototype *)
Inductive obj (V : Type) := Null | Bare (a : list (key * V)) | Ext (a : list (key * V)) (p : obj V).
Arguments Null {V}.
Arguments Bare {V} a.
Arguments Ext {V} a p.

Section Model.
Context {V F : Type}.
Notation obj := (obj V).
Variable of_obj : obj -> V.
Variable as_obj : V -> option obj.
Variable type_of : V -> nat.
(** TypedValue::GetFingerprint *)
Variable fp : V -> F.
(** std::sort by the order of the keys *)
Variable srt : list (key * V) -> list (key * V).

(** object_qtype.cc:45-47 *)
Definition attributes (o : obj) : list (key * V) := match o with Null => [] | Bare a => a | Ext a _ => a end.
(** 49-51 *)
Definition prototype (o : obj) : option obj := match o with Ext _ p => Some p | _ => None end.
(** flat_hash_map::find *)
Fixpoint find (a : list (key * V)) (k : key) : option V :=
  match a with [] => None | (x, v) :: t => if key_eqb x k then Some v else find t k end.
(** flat_hash_map::emplace: whether it was inserted; at any place, here the first *)
Definition emplace (a : list (key * V)) (k : key) (v : V) : list (key * V) * bool :=
  match find a k with Some _ => (a, false) | None => ((k, v) :: a, true) end.
(** 53-63 [GetAttrOrNull] *)
Fixpoint get_attr (o : obj) (k : key) : option V :=
  match o with
  | Null => None
  | Bare a => find a k
  | Ext a p => match find a k with Some v => Some v | None => get_attr p k end
  end.
(** 65-76 [GetSortedAttributes] *)
Definition sorted_attributes (o : obj) : list (key * V) := srt (attributes o).

(** 78-87 [ArollaFingerprint] *)
Inductive token := TStr (s : key) | TFp (f : F).
(** "::arolla::Object" *)
Definition obj_tag : key := [58;58;97;114;111;108;108;97;58;58;79;98;106;101;99;116].
Definition attr_tokens (l : list (key * V)) : list token := flat_map (fun p => [TStr (fst p); TFp (fp (snd p))]) l.
Fixpoint tokens (o : obj) : list token :=
  TStr obj_tag :: attr_tokens (sorted_attributes o) ++ match o with Ext _ p => tokens p | _ => [] end.

(** s11n.cc:60-92 [EncodeObject]: the keys, and the values passed to EncodeValue *)
Definition encode (o : obj) : list key * list V :=
  (map fst (sorted_attributes o), map snd (sorted_attributes o) ++ match prototype o with Some p => [of_obj p] | None => [] end).
Inductive derr := WrongSize | DuplicateKey (k : key) | NotAnObject.
(** 107-116 *)
Fixpoint put_all (a : list (key * V)) (keys : list key) (inputs : list V) (i : nat) : option (derr + list (key * V)) :=
  match keys with
  | [] => Some (inr a)
  | k :: t => let? v := rd inputs i in
              match emplace a k v with
              | (a, true) => put_all a t inputs (S i)
              | (_, false) => Some (inl (DuplicateKey k))
              end
  end.
(** 96-127 [DecodeObjectValue] *)
Definition decode (keys : list key) (inputs : list V) : option (derr + obj) :=
  if negb (length inputs =? length keys) && negb (length inputs =? length keys + 1) then Some (inl WrongSize) else
  let? r := put_all [] keys inputs 0 in
  match r with
  | inl e => Some (inl e)
  | inr a => if length keys <? length inputs
             then let? v := rd inputs (length inputs - 1) in
                  match as_obj v with
                  | Some p => Some (inr (Ext a p))
                  | None => Some (inl NotAnObject)
                  end
             else Some (inr (Bare a))
  end.

(** qexpr_operators.cc:46-75 [MakeObjectOperator]; the fields of the named tuple in order *)
Fixpoint put_fields (a : list (key * V)) (fields : list (key * V)) : list (key * V) :=
  match fields with [] => a | (k, v) :: t => put_fields (fst (emplace a k v)) t end.
Definition make_object (proto : option obj) (fields : list (key * V)) : obj :=
  let a := put_fields [] fields in match proto with Some p => Ext a p | None => Bare a end.
Inductive gerr := NotFound | WrongType.
(** 77-111 [GetObjectAttrOperator] *)
Definition get_attr_op (o : obj) (k : key) (t : nat) : gerr + V :=
  match get_attr o k with
  | None => inl NotFound
  | Some v => if type_of v =? t then inr v else inl WrongType
  end.
(** 154-161 [GetObjectAttrQTypeOp]; type 0 is NOTHING *)
Definition get_attr_type (o : obj) (k : key) : nat := match get_attr o k with Some v => type_of v | None => 0 end.
End Model.
