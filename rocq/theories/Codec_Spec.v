(** What a serialized array says, read off the fields of its message. *)
From Verif Require Import Base Dense_Model Dense_Spec Array_Model Array_Spec Edge_Spec Codec_Model.

(** Bit [i] of a list of 32-bit words. *)
Definition wbit (ws : list N) (i : nat) : bool := N.testbit (nth (i / 32) ws 0%N) (N.of_nat (i mod 32)).
(** No bitmap: everything is present. *)
Definition shown (bitmap : list N) (i : nat) : bool := match bitmap with [] => true | _ => wbit bitmap i end.
Definition somes {A} (l : list (option A)) : list A := flat_map (fun o => match o with Some x => [x] | None => [] end) l.

(** The message says the size of [l] and which of its elements are present, and
    lists these in order. *)
Definition describes {V} (size : option Z) (bitmap : list N) (values : list V) (l : list (option V)) : Prop :=
  size = Some (Z.of_nat (length l)) /\
  (bitmap = [] \/ length l <= 32 * length bitmap < length l + 32) /\
  (forall i, i < length l -> is_some (nth i l None) = shown bitmap i) /\
  somes l = values.
Definition says {V} (p : dproto V) (l : list (option V)) : Prop := describes (dp_size p) (dp_bitmap p) (dp_values p) l.
(** There is one such message: a bitmap only when something is missing, and
    nothing in its unused bits. *)
Definition tidy {A} (bitmap : list N) (l : list (option A)) : Prop :=
  Forall (fun x => x < 2 ^ 32)%N bitmap /\
  (bitmap = [] <-> forall o, In o l -> o <> None) /\
  (bitmap <> [] -> forall i, length l <= i -> wbit bitmap i = false).

Definition cut (chars : list Z) (st en : Z) : list Z := firstn (Z.to_nat (en - st)) (skipn (Z.to_nat st) chars).
Definition says_strings (p : sproto) (l : list (option (list Z))) : Prop :=
  exists chars, sp_chars p = Some chars /\
    Forall2 (fun st en => (0 <= st <= en)%Z /\ (en <= Z.of_nat (length chars))%Z) (sp_starts p) (sp_ends p) /\
    describes (sp_size p) (sp_bitmap p) (map (fun o => cut chars (fst o) (snd o)) (combine (sp_starts p) (sp_ends p))) l.
(** An array of strings, observed through its size and operator[]; the offsets are
    within the characters (strings_buffer.cc:141-147). *)
Definition sd_rep (a : sarr) (l : list (option (list Z))) : Prop :=
  da_valid (sd_arr a) /\ da_size (sd_arr a) = length l /\
  (forall i, i < length l -> sd_get a i = Some (nth i l None)).
Definition sd_ok (a : sarr) : Prop :=
  Forall (fun o => (sd_base a <= fst o <= snd o)%Z /\ (snd o <= sd_base a + Z.of_nat (length (sd_chars a)))%Z) (vals (sd_arr a)).

(** The elements listed by [ids] are those of [d]; the others are [m]. *)
Definition spread {V} (ids : list Z) (d : list (option V)) (m : option V) (l : list (option V)) : Prop :=
  length ids = length d /\
  (forall i j, i < j < length ids -> (nth i ids 0 < nth j ids 0)%Z) /\
  Forall (fun x => (0 <= x < Z.of_nat (length l))%Z) ids /\
  (forall k, k < length ids -> nth (Z.to_nat (nth k ids 0%Z)) l None = nth k d None) /\
  (forall i, i < length l -> ~ In (Z.of_nat i) ids -> nth i l None = m).
(** An array message with its input values: nothing, all elements, or some elements
    and a value for the others. *)
Definition says_array {V} (p : aproto) (ins : list (input V)) (l : list (option V)) : Prop :=
  ap_size p = Some (Z.of_nat (length l)) /\
  match ins with
  | [] => l = [] /\ ap_ids p = []
  | [InDense d] => l <> [] /\ ap_ids p = [] /\ represents d l
  | [InDense d; InOpt m] => exists dl, represents d dl /\ length dl < length l /\ spread (ap_ids p) dl m l
  | _ => False
  end.
(** Input values that a reader cannot tell apart. *)
Definition same_input {V} (x y : input V) : Prop :=
  match x, y with
  | InDense d, InDense d' => exists l, represents d l /\ represents d' l
  | InOpt m, InOpt m' => m = m'
  | InArr a, InArr a' => exists l, ar_rep a l /\ ar_rep a' l
  | _, _ => False
  end.
Definition good_input {V} (x : input V) : Prop :=
  match x with InDense d => da_valid d | InArr a => exists l, ar_rep a l | _ => True end.

(** An edge message with the values of the edge: split points, or a parent for every
    child.  [strict]: the parent size must be absent for split points. *)
Definition says_edge (strict : bool) (p : eproto) (l : list (option Z)) (split : bool) (q : nat) (m : list (option nat)) : Prop :=
  if split then
    ep_type p = Some 2%Z /\ (strict = true -> ep_parent p = None) /\
    exists s, splits s /\ l = map (fun x => Some (Z.of_nat x)) s /\ length s = S q /\ m = split_mapping s
  else
    ep_type p = Some 1%Z /\ ep_parent p = Some (Z.of_nat q) /\ l = map zopt m /\
    forall c r, nth c m None = Some r -> r < q.
