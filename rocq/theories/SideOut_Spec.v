(** What annotations, exports and their removal mean. *)
From Verif Require Import Base Visit_Model Visit_Spec SideOut_Model.

(** The value of an expression; [sem] applies an operator, whatever its result is. *)
Section Value.
Context {V : Type}.
Variables (sem : nat -> list V -> V) (lit : nat -> V) (leaf plh : list nat -> V).
Fixpoint value (n : node) : V :=
  match n with
  | Lit v => lit v
  | Leaf k => leaf k
  | Plh k => plh k
  | Op o _ ds => sem o (map value ds)
  end.
End Value.

Section Side.
Context {E : Type}.
Variable infer : nat -> list attr -> E + attr.
Variable decay : nat -> E + kind.
Variable look_at : nat -> view.

(** An annotation of [x] *)
Inductive annotates : node -> node -> Prop :=
  | ann o a k x ds : decay o = inr k -> k <> KPlain -> annotates (Op o a (x :: ds)) x.
(** An operator node whose operator is not known *)
Inductive unknown : node -> E -> Prop :=
  | unk o a x ds e : decay o = inl e -> unknown (Op o a (x :: ds)) e.
(** Under the topmost annotations *)
Inductive under : node -> node -> Prop :=
  | under_refl n : under n n
  | under_ann n x y : annotates n x -> under x y -> under n y.

Definition has_text (n : node) (t : key) : Prop := exists v, attr_of n = AValue v /\ look_at v = VText t.
(** [exports n x t v]: annotation of [x] which exports [v] as [t] *)
Inductive exports : node -> node -> key -> node -> Prop :=
  | exp_self o a x g t : decay o = inr KExport -> has_text g t -> exports (Op o a [x; g]) x t x
  | exp_value o a x g v t : decay o = inr KExportValue -> has_text g t -> exports (Op o a [x; g; v]) x t v.

(** [redone n m]: [n] with its dependencies cleaned; [cleaned n r]: then, without its export
    annotation.  Attributes are computed anew only if a dependency has changed. *)
Inductive redone : node -> node -> Prop :=
  | redo_same n : cleaneds (deps n) (deps n) -> redone n n
  | redo_new o a ds ds' a' : cleaneds ds ds' -> ds' <> ds -> infer o (map attr_of ds') = inr a' -> redone (Op o a ds) (Op o a' ds')
with cleaned : node -> node -> Prop :=
  | clean_keep n m : redone n m -> (forall x t v, ~ exports m x t v) -> cleaned n m
  | clean_drop n m x t v : redone n m -> exports m x t v -> cleaned n x
with cleaneds : list node -> list node -> Prop :=
  | cleans_nil : cleaneds [] []
  | cleans_cons d r ds rs : cleaned d r -> cleaneds ds rs -> cleaneds (d :: ds) (r :: rs).
(** The operator of [n] cannot be applied to its cleaned dependencies. *)
Inductive broken : node -> E -> Prop :=
  | brk o a ds ds' e : cleaneds ds ds' -> ds' <> ds -> infer o (map attr_of ds') = inl e -> broken (Op o a ds) e.
(** A node of the root exports the (cleaned) value [v] as [t]. *)
Definition output (root n : node) (t : key) (v : node) : Prop := sub n root /\ exists m x, redone n m /\ exports m x t v.
End Side.
