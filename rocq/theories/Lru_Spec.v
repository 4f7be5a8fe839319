(** A bounded cache described without lists of nodes, index or evictions: all the
    entries put since the last Clear, the most recently used first, of which the
    first [n] are still there. *)
From Verif Require Import Base Lru_Model.

Section S.
Context {K V : Type}.
Variable eqb : K -> K -> bool.
Definition entry := (K * V * N)%type.
Definition key (e : entry) : K := fst (fst e).
Definition value (e : entry) : V := snd (fst e).
Definition weight (e : entry) : N := snd e.
Definition is_key (k : K) (e : entry) : bool := eqb (key e) k.
Definition others (k : K) (l : list entry) : list entry := filter (fun e => negb (is_key k e)) l.
Definition total (l : list entry) : N := fold_right (fun e s => (weight e + s)%N) 0%N l.

(** The largest number of recent entries, at least one, that fits. *)
Definition fits (cap : N) (l : list entry) (n m : nat) : Prop :=
  m <= n /\ (n = 0 \/ 1 <= m) /\ (m <= 1 \/ (total (firstn m l) <= cap)%N) /\
  forall j, m < j -> j <= n -> (cap < total (firstn j l))%N.

(** One call.  [rel_step cap (l, n) o (l', n') out]. *)
Inductive rel_step (cap : N) : list entry * nat -> op K V -> list entry * nat -> option V -> Prop :=
| r_hit l n k e : find (is_key k) (firstn n l) = Some e ->
    rel_step cap (l, n) (Lookup k) (e :: others k l, n) (Some (value e))
| r_miss l n k : find (is_key k) (firstn n l) = None ->
    rel_step cap (l, n) (Lookup k) (l, n) None
| r_put_new l n k v w m : find (is_key k) (firstn n l) = None ->
    fits cap ((k, v, w) :: others k l) (S n) m ->
    rel_step cap (l, n) (Put k v w) ((k, v, w) :: others k l, m) (Some v)
| r_put_old l n k v w m e : find (is_key k) (firstn n l) = Some e ->
    fits cap ((key e, v, w) :: others k l) n m ->
    rel_step cap (l, n) (Put k v w) ((key e, v, w) :: others k l, m) (Some v)
| r_clear l n : rel_step cap (l, n) Clear ([], 0) None.
Inductive rel_run (cap : N) : list entry * nat -> list (op K V) -> list entry * nat -> list (option V) -> Prop :=
| rr_nil s : rel_run cap s [] s []
| rr_cons s o s1 x h s2 xs : rel_step cap s o s1 x -> rel_run cap s1 h s2 xs -> rel_run cap s (o :: h) s2 (x :: xs).

(** The value of the most recent Put of the key since the last Clear; the history
    is given latest call first. *)
Fixpoint last_put (h : list (op K V)) (k : K) : option (V * N) :=
  match h with
  | [] => None
  | Put k' v w :: t => if eqb k' k then Some (v, w) else last_put t k
  | Lookup _ :: t => last_put t k
  | Clear :: _ => None
  end.

Definition op_weight (o : op K V) : N := match o with Put _ _ w => w | _ => 0%N end.
Definition equivalence_b : Prop :=
  (forall x, eqb x x = true) /\ (forall x y, eqb x y = eqb y x) /\
  (forall x y z, eqb x y = true -> eqb y z = true -> eqb x z = true).
End S.
