(** What a pattern matches, what it is replaced by, and meanings of expressions. *)
From Verif Require Import Base Visit_Model Visit_Spec Peephole_Model.

(** Conditions on placeholders *)
Definition conds : Type := list (list nat * (node -> bool)).

Section Spec.
Context {E : Type}.
Variable infer : nat -> list attr -> E + attr.
Variable dname : nat -> list nat.

(** [t] gives a node for every part of the pattern: literals stand for themselves,
    placeholders for nodes that their conditions allow, operators for operators with that
    name applied to what the arguments stand for. *)
Definition stands (cs : conds) (t : node -> node) (from root : node) : Prop :=
  t from = root /\
  forall p, sub p from ->
    match p with
    | Lit _ => t p = p
    | Leaf _ => False
    | Plh k => forall c, In (k, c) cs -> c (t p) = true
    | Op o _ ds => exists o' a', t p = Op o' a' (map t ds) /\ dname o' = dname o
    end.
(** The same without sharing: equal parts of the pattern are matched on their own, only
    placeholders stand for the same node everywhere. *)
Inductive instance (s : list nat -> node) : node -> node -> Prop :=
  | inst_lit v : instance s (Lit v) (Lit v)
  | inst_plh k : instance s (Plh k) (s k)
  | inst_op o a ds o' a' ds' : dname o' = dname o -> Forall2 (instance s) ds ds' -> instance s (Op o a ds) (Op o' a' ds').
(** Nodes with the same name of the operator and the same arguments are the same. *)
Definition one_op_per_name (root : node) : Prop :=
  forall o a o' a' ds, sub (Op o a ds) root -> sub (Op o' a' ds) root -> dname o = dname o' -> Op o a ds = Op o' a' ds.

Definition has_placeholder (n : node) : Prop := exists k, sub (Plh k) n.
(** The expression with placeholders replaced; operators are applied anew above them. *)
Inductive filled (s : list nat -> node) : node -> node -> Prop :=
  | fill_plh k : filled s (Plh k) (s k)
  | fill_none n : ~ has_placeholder n -> filled s n n
  | fill_op o a ds ds' a' : has_placeholder (Op o a ds) -> Forall2 (filled s) ds ds' -> infer o (map attr_of ds') = inr a' ->
      filled s (Op o a ds) (Op o a' ds').
(** [e] is the error of the first operator that cannot be applied, in post order. *)
Inductive fill_fails (s : list nat -> node) : node -> E -> Prop :=
  | ff_op o a ds ds' e : has_placeholder (Op o a ds) -> Forall2 (filled s) ds ds' -> infer o (map attr_of ds') = inl e -> fill_fails s (Op o a ds) e
  | ff_arg o a pre pre' d post e : Forall2 (filled s) pre pre' -> fill_fails s d e -> fill_fails s (Op o a (pre ++ d :: post)) e.

(** References to operators are replaced by the operators, without attributes; other
    operators are applied anew if their arguments have changed. *)
Variable refop : nat -> option nat.
Inductive renamed : node -> node -> Prop :=
  | ren_other n : is_op n = false -> renamed n n
  | ren_ref o r a ds ds' : refop o = Some r -> Forall2 renamed ds ds' -> renamed (Op o a ds) (Op r ANone ds')
  | ren_same o a ds : refop o = None -> Forall2 renamed ds ds -> renamed (Op o a ds) (Op o a ds)
  | ren_infer o a ds a' ds' : refop o = None -> Forall2 renamed ds ds' -> ds' <> ds -> infer o (map attr_of ds') = inr a' -> renamed (Op o a ds) (Op o a' ds').

(** ** Meanings *)
Context {D : Type}.
(** Meanings of literals, leaves, and of operators by name. *)
Variables (dlit : nat -> D) (dleaf : list nat -> D) (dop : list nat -> list D -> D).
Fixpoint meaning (r : list nat -> D) (n : node) : D :=
  match n with
  | Lit v => dlit v
  | Leaf k => dleaf k
  | Plh k => r k
  | Op o _ ds => dop (dname o) (map (meaning r) ds)
  end.
End Spec.

(** A pattern that can be compiled *)
Definition verified (from to : node) (cs : conds) : Prop :=
  (forall k, from <> Plh k) /\ (forall k, ~ sub (Leaf k) from) /\ (forall k, ~ sub (Leaf k) to) /\
  (forall k, sub (Plh k) to -> sub (Plh k) from) /\ (forall k c, In (k, c) cs -> sub (Plh k) from).

Section Rule.
Context {E : Type}.
Variable infer : nat -> list attr -> E + attr.
Variable dname : nat -> list nat.
(** The result of a rule: the replacement filled with what the placeholders stand for, an
    error of an operator of it, or the node itself if the pattern does not match. *)
Definition pattern_result (cs : conds) (from to' root : node) (r : perr E + node) : Prop :=
  match r with
  | inr n => (exists t, stands dname cs t from root /\ filled infer (fun k => t (Plh k)) to' n) \/ ((forall t, ~ stands dname cs t from root) /\ n = root)
  | inl (PErr e) => exists t, stands dname cs t from root /\ fill_fails infer (fun k => t (Plh k)) to' e
  | inl _ => False
  end.
End Rule.

(** ** Several optimizations *)
Section Several.
Context {E : Type}.
Variable dname : nat -> list nat.
Variable hname : list nat -> nat.
Variable hfp : node -> nat.
Notation opt := (@opt E).
Notation key := (pattern_key dname hname hfp).
Definition with_key (k : nat) (opts : list opt) : list opt := filter (fun o => match o_key o with Some k' => k' =? k | None => false end) opts.
Definition without_key (opts : list opt) : list opt := filter (fun o => match o_key o with Some _ => false | None => true end) opts.
(** Optimizations applied one after another while the key stays the same *)
Inductive until_key (k : nat) : list opt -> node -> node -> Prop :=
  | uk_nil n : until_key k [] n n
  | uk_stop o l n m : o_apply o n = Some (inr m) -> key m <> k -> until_key k (o :: l) n m
  | uk_go o l n m r : o_apply o n = Some (inr m) -> key m = k -> until_key k l m r -> until_key k (o :: l) n r.
Inductive chain : list opt -> node -> node -> Prop :=
  | ch_nil n : chain [] n n
  | ch_cons o l n m r : o_apply o n = Some (inr m) -> chain l m r -> chain (o :: l) n r.
Section Rounds.
Variable d : @data E.
Variable vtype : nat -> nat.
Notation ap := (apply_node dname hname hfp d).
(** [rounds c n m]: [c] applications that change the node and not its type *)
Inductive rounds : nat -> node -> node -> Prop :=
  | rd_0 n : rounds 0 n n
  | rd_S c n m r : ap n = Some (inr m) -> m <> n -> qtype vtype m = qtype vtype n -> rounds c m r -> rounds (S c) n r.
End Rounds.
End Several.
