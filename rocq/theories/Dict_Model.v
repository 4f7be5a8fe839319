(** Model of the dict operators, arolla/qexpr/operators/dict/dict_operators.h.  A dict is the list of
    the entries of its hash map, each a key and a row; how the map orders its entries is left open.
    Keys are of a type with a decidable equality (bool, integers, bytes, text; dicts with float keys
    are ruled out by QTypeTraits, so the NaN check is left out). *)
From Coq Require Import ZArith.
From Verif Require Import Base.
Local Open Scope Z_scope.

Inductive derr := EDuplicate | ERows | EIncomplete.
Section Dict.
Variable K : Type.
Variable eqb : K -> K -> bool.
Definition dict : Type := list (K * Z).

(** absl::flat_hash_map::find *)
Fixpoint lookup (k : K) (m : dict) : option Z :=
  match m with
  | [] => None
  | (x, r) :: t => if eqb x k then Some r else lookup k t
  end.
(** dict_operators.h:45-62: the callback of ForEach; errors do not stop the iteration *)
Fixpoint make_loop (keys : list (option K)) (id : Z) (m : dict) (ok : bool) : dict * bool :=
  match keys with
  | [] => (m, ok)
  | Some k :: t =>
    match lookup k m with
    | Some _ => make_loop t (id + 1) m false
    | None => make_loop t (id + 1) (m ++ [(k, id)]) ok
    end
  | None :: t => make_loop t (id + 1) m ok
  end.
(** dict_operators.h:38-69 [MakeKeyToRowDictOp] *)
Definition make_dict (keys : list (option K)) : derr + dict :=
  let '(m, ok) := make_loop keys 0 [] true in if ok then inr m else inl EDuplicate.
(** dict_operators.h:72-83 [DictGetRowOp] *)
Definition get_row (m : dict) (k : K) : option Z := lookup k m.
(** dict_operators.h:86-93 [DictContainsOp] *)
Definition contains (m : dict) (k : K) : bool := match lookup k m with Some _ => true | None => false end.

(** DenseArrayBuilder::Set *)
Fixpoint put (l : list (option K)) (i : nat) (k : K) : list (option K) :=
  match l, i with
  | [], _ => []
  | _ :: t, O => Some k :: t
  | x :: t, S i => x :: put t i k
  end.
(** dict_operators.h:103-109, over the entries in the order of the map *)
Fixpoint set_rows (n : nat) (es : dict) (acc : list (option K)) : option (list (option K)) :=
  match es with
  | [] => Some acc
  | (k, r) :: t => if (r <? 0) || (Z.of_nat n <=? r) then None
                   else set_rows n t (put acc (Z.to_nat r) k)
  end.
(** DenseArray::IsFull, and the values *)
Fixpoint all_present (l : list (option K)) : option (list K) :=
  match l with
  | [] => Some []
  | None :: _ => None
  | Some k :: t => option_map (cons k) (all_present t)
  end.
(** dict_operators.h:96-117 [DictKeysOp] *)
Definition dict_keys (es : dict) : derr + list K :=
  match set_rows (length es) es (repeat None (length es)) with
  | None => inl ERows
  | Some acc => match all_present acc with Some ks => inr ks | None => inl EIncomplete end
  end.
End Dict.
