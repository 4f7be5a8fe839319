(** Vocabulary for fingerprints. *)
From Verif Require Import Base Bits_Model Bitmap_Model Dense_Model Dense_Spec IdFilter_Model Array_Model Array_Spec
  Edge_Model SBuf_Model Fp_Model.
Local Open Scope Z_scope.

(** The bytes of a value can be told apart from the bytes of any other value, whatever
    follows them. *)
Definition delimited {A} (dom : A -> Prop) (enc : A -> list (list Z)) : Prop :=
  forall x y r s, dom x -> dom y -> concat (enc x) ++ r = concat (enc y) ++ s -> x = y /\ r = s.

Definition int64_range (z : Z) : Prop := - 2 ^ 63 <= z < 2 ^ 63.
Definition size_ok {A} (l : list A) : Prop := zlen l < 2 ^ 63.
Definition opt_dom {A} (dom : A -> Prop) (o : option A) : Prop := match o with Some v => dom v | None => True end.
(** The values of an array of type T: sizes, ids and values are in the range of their types. *)
Definition arr_typed {A} (dom : A -> Prop) (a : arr A) : Prop :=
  Z.of_nat (ar_size a) < 2 ^ 63 /\ Forall dom (vals (ar_data a)) /\ opt_dom dom (ar_miss a) /\
  match ar_ids a with FPartial _ ids _ => Forall (fun x => Z.of_nat x < 2 ^ 63) ids | _ => True end.
(** The shift of the stored ids. *)
Definition ids_shift {A} (a : arr A) : nat := match ar_ids a with FPartial _ _ off => off | _ => 0%nat end.

(** Iterated hashing of blocks of bytes. *)
Definition chain (H : hash128) (bs : list (list Z)) : Z * Z := fold_left (fun s b => H b s) bs seeds.
Definition as_uint128 (s : Z * Z) : Z := snd s * 2 ^ 64 + fst s.
Definition u64_pair (s : Z * Z) : Prop := 0 <= fst s < 2 ^ 64 /\ 0 <= snd s < 2 ^ 64.

(** For any hash function and memory, the calls are hashed as the blocks [bs]. *)
Definition hashed_as (seed : Z) (salt : list Z) (calls bs : list (list Z)) : Prop :=
  Forall (fun b => b <> []) bs /\ concat bs = concat (header seed salt ++ calls) /\
  forall H mem, length mem = capacity ->
    fingerprint H mem seed salt calls = Some (as_uint128 (chain H bs)).

(** A collision of the hash function while hashing [bs] and [bs']: different arguments
    and the same result, or a result equal to the initial state. *)
Definition collision (H : hash128) (bs bs' : list (list Z)) : Prop :=
  (exists p b p' b' t, bs = p ++ b :: t /\ bs' = p' ++ b' :: t /\
     (b, chain H p) <> (b', chain H p') /\ H b (chain H p) = H b' (chain H p')) \/
  (exists p b t, (bs = p ++ b :: t \/ bs' = p ++ b :: t) /\ H b (chain H p) = seeds).
