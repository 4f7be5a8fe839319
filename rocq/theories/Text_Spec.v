(** What the string operators mean: on sequences of bytes for byte strings, on
    sequences of code points for texts. *)
From Verif Require Import Base.
Local Open Scope Z_scope.

(** ** UTF-8 *)
(** The Unicode scalar values. *)
Definition scalar (c : Z) : Prop := 0 <= c < 55296 \/ 57344 <= c < 1114112.
Definition encode (c : Z) : list Z :=
  if c <? 128 then [c]
  else if c <? 2048 then [192 + c / 64; 128 + c mod 64]
  else if c <? 65536 then [224 + c / 4096; 128 + c / 64 mod 64; 128 + c mod 64]
  else [240 + c / 262144; 128 + c / 4096 mod 64; 128 + c / 64 mod 64; 128 + c mod 64].
Definition utf8 (cs : list Z) : list Z := flat_map encode cs.
(** A text and its code points. *)
Definition text (s : list Z) (cs : list Z) : Prop := Forall scalar cs /\ s = utf8 cs.

Section Seq.
Context {A : Type}.
Implicit Types l sub r : list A.
Definition len l : Z := Z.of_nat (length l).
Definition occurs l sub (i : Z) : Prop := exists a b, l = a ++ sub ++ b /\ i = len a.
(** A position, counted from the end if negative. *)
Definition position (n : Z) (z : Z) : Z := if z <? 0 then z + n else z.
Definition low (st : option Z) (n : Z) : Z := match st with Some z => position n z | None => 0 end.
Definition high (en : option Z) (n : Z) : Z := match en with Some z => position n z | None => n end.
(** [sub] occurs at [i], within the range. *)
Definition candidate l sub (st en : option Z) (i : Z) : Prop :=
  occurs l sub i /\ low st (len l) <= i /\ i + len sub <= high en (len l).
Definition first_one l sub st en (r : option Z) : Prop :=
  match r with
  | Some i => candidate l sub st en i /\ forall j, candidate l sub st en j -> i <= j
  | None => forall i, ~ candidate l sub st en i
  end.
Definition last_one l sub st en (r : option Z) : Prop :=
  match r with
  | Some i => candidate l sub st en i /\ forall j, candidate l sub st en j -> j <= i
  | None => forall i, ~ candidate l sub st en i
  end.
(** [r]: the elements of [l] in the range. *)
Definition slice l (st en : option Z) r : Prop :=
  exists a b, l = a ++ r ++ b /\
  forall k, len a <= k < len a + len r <-> 0 <= k < len l /\ low st (len l) <= k < high en (len l).
(** The number of all positions where [sub] occurs. *)
Definition occurrences l sub (n : Z) : Prop := exists is, NoDup is /\ (forall i, In i is <-> occurs l sub i) /\ n = Z.of_nat (length is).

(** At most [m] occurrences are replaced, from the left ([None]: all). *)
Definition some_left (m : option Z) : Prop := match m with Some k => 0 < k | None => True end.
Definition one_less (m : option Z) : option Z := match m with Some k => Some (k - 1) | None => None end.
Inductive replaced (old new : list A) : option Z -> list A -> list A -> Prop :=
  | RDone m l : ~ some_left m \/ (forall i, ~ occurs l old i) -> replaced old new m l l
  | RNext m a b r : some_left m -> (forall i, occurs (a ++ old ++ b) old i -> len a <= i) ->
      replaced old new (one_less m) b r -> replaced old new m (a ++ old ++ b) (a ++ new ++ r).
(** For an empty [old]: [new] goes before every element and to the end. *)
Inductive fenced (new : list A) : option Z -> list A -> list A -> Prop :=
  | FDone m l : ~ some_left m -> fenced new m l l
  | FEnd m : some_left m -> fenced new m [] new
  | FNext m x l r : some_left m -> fenced new (one_less m) l r -> fenced new m (x :: l) (new ++ x :: r).
(** No limit if it is missing or negative. *)
Definition limit (m : option Z) : option Z := match m with Some k => if k <? 0 then None else Some k | None => None end.
Definition replacement_of (old new : list A) (m : option Z) l r : Prop :=
  (old = [] /\ fenced new (limit m) l r) \/ (old <> [] /\ replaced old new (limit m) l r).

(** [r] is [l] without the longest prefix (suffix) of elements that satisfy [P]. *)
Definition lstripped (P : A -> Prop) l r : Prop := exists p, l = p ++ r /\ Forall P p /\ match r with x :: _ => ~ P x | [] => True end.
Definition rstripped (P : A -> Prop) l r : Prop := exists p, l = r ++ p /\ Forall P p /\ (r = [] \/ exists q x, r = q ++ [x] /\ ~ P x).
Definition stripped (P : A -> Prop) l r : Prop :=
  exists p q, l = p ++ r ++ q /\ Forall P p /\ Forall P q /\ (r = [] \/ (exists x t, r = x :: t /\ ~ P x) /\ exists t x, r = t ++ [x] /\ ~ P x).

(** The parts between successive occurrences of [sep], from the left. *)
Inductive split_at (sep : list A) : list A -> list (list A) -> Prop :=
  | SLast l : (forall i, ~ occurs l sep i) -> split_at sep l [l]
  | SNext a b ps : (forall i, occurs (a ++ sep ++ b) sep i -> len a <= i) -> split_at sep b ps -> split_at sep (a ++ sep ++ b) (a :: ps).
(** The maximal runs of elements that do not satisfy [P]. *)
Inductive words (P : A -> Prop) : list A -> list (list A) -> Prop :=
  | WNil l : Forall P l -> words P l []
  | WLast s w : Forall P s -> w <> [] -> Forall (fun c => ~ P c) w -> words P (s ++ w) [w]
  | WNext s w c l ws : Forall P s -> w <> [] -> Forall (fun c => ~ P c) w -> P c -> words P l ws -> words P (s ++ w ++ c :: l) (w :: ws).
End Seq.

(** ** Integers in decimal *)
Definition digit (c : Z) : Prop := 48 <= c <= 57.
Fixpoint number (ds : list Z) : Z := match ds with [] => 0 | c :: t => (c - 48) * 10 ^ Z.of_nat (length t) + number t end.
Inductive int_text : list Z -> Z -> Prop :=
  | IPlain ds : ds <> [] -> Forall digit ds -> int_text ds (number ds)
  | IPlus ds : ds <> [] -> Forall digit ds -> int_text (43 :: ds) (number ds)
  | IMinus ds : ds <> [] -> Forall digit ds -> int_text (45 :: ds) (- number ds).

(** ** Repairing UTF-8 *)
(** [s] with every ill-formed part, up to the next byte that can start a code
    point, replaced by [mark]. *)
Inductive repaired (mark : list Z) : list Z -> list Z -> Prop :=
  | DAll cs : Forall scalar cs -> repaired mark (utf8 cs) (utf8 cs)
  | DBad cs b bad s r : Forall scalar cs -> (forall c t, scalar c -> b :: bad ++ s <> encode c ++ t) -> Forall (fun x => 128 <= x < 192) bad ->
      repaired mark s r -> repaired mark (utf8 cs ++ b :: bad ++ s) (utf8 cs ++ mark ++ r).
