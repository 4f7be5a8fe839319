(** What codecs must do, and what decoding steps mean. *)
From Verif Require Import Base Visit_Model Visit_Spec Serial_Model.

Section spec.
Context {X : Type}.
(** [reach p t q]: the program [p] has made the calls of [t], with the returned indices,
    and continues as [q]. *)
Inductive reach : prog X -> list (call * nat) -> prog X -> Prop :=
  | reach_start p : reach p [] p
  | reach_call c k i t q : reach (k i) t q -> reach (Call c k) ((c, i) :: t) q.
(** What indices stand for. *)
Record env := { val_at : nat -> option nat; expr_at : nat -> option node; codec_at : nat -> str -> Prop }.
Definition stands (g : env) (c : call) (i : nat) : Prop :=
  match c with CVal v => val_at g i = Some v | CExpr e => expr_at g i = Some e | CCodec n => codec_at g i n end.

Variable venc : nat -> prog X.
Variable opval : nat -> nat.
Variable provider : str -> option (vdec X).
Variable infer : nat -> list attr -> unit + attr.
Variable infer_on : bool.

(** The message names a codec, and its decoder returns the value from the values and
    expressions that the message refers to. *)
Definition decodes (g : env) (p : vproto X) (v : nat) : Prop :=
  exists vs es c n f, Forall2 (fun i w => val_at g i = Some w) (p_vals p) vs /\ Forall2 (fun i e => expr_at g i = Some e) (p_exprs p) es /\
  p_codec p = Some c /\ codec_at g c n /\ provider n = Some f /\ f p vs es = VOk v.

(** A set [G] of values that are encoded with codecs that can decode them again; the values
    and expressions inside of them belong to it, too.  An operator node is made again from
    its operator and dependencies. *)
Section good.
Variable G : nat -> Prop.
Definition good_node (n : node) : Prop :=
  match n with
  | Lit v => G v
  | Op o a ds => G (opval o) /\ make_node infer infer_on o ds = Some (Op o a ds)
  | _ => True
  end.
Definition good_expr (e : node) : Prop := forall n, sub n e -> good_node n.
Definition good_call (c : call) : Prop := match c with CVal v => G v | CExpr e => good_expr e | CCodec n => provider n <> None end.
Definition faithful : Prop :=
  forall v t q, G v -> reach (venc v) t q ->
  (forall c k, q = Call c k -> good_call c) /\
  forall g p, q = Ret p -> (forall c i, In (c, i) t -> stands g c i) -> decodes g p v.
(** Values are made of smaller values, and all are encoded without errors. *)
Definition below (rank : nat -> nat) (r : nat) (c : call) : Prop :=
  match c with
  | CVal v => rank v < r
  | CExpr e => forall n, sub n e -> match n with Lit v => rank v < r | Op o _ _ => rank (opval o) < r | _ => True end
  | CCodec _ => True
  end.
Definition encodable (rank : nat -> nat) : Prop :=
  forall v t q, G v -> reach (venc v) t q -> q <> Fail /\ forall c k, q = Call c k -> below rank (rank v) c.
End good.
End spec.
Arguments reach {X}. Arguments decodes {X}. Arguments faithful {X}. Arguments encodable {X}.

(** What a step refers to and what it stores. *)
Section steps.
Context {X : Type}.
Definition val_refs (s : step X) : list nat :=
  match s with SLit (Some k) => [k] | SOp (Some k) _ => [k] | SVal p => p_vals p | SOutV k => [k] | _ => [] end.
Definition expr_refs (s : step X) : list nat := match s with SOp _ ks => ks | SVal p => p_exprs p | SOutE k => [k] | _ => [] end.
Definition is_val (s : step X) : bool := match s with SVal _ => true | _ => false end.
Definition is_expr (s : step X) : bool := match s with SLit _ | SLeaf _ | SPlh _ | SOp _ _ => true | _ => false end.
(** How often the steps refer to index [k]; whether a step with the index stores. *)
Definition uses (l : list (nat * dstep X)) (k : nat) : nat := count_occ Nat.eq_dec (flat_map (fun x => val_refs (s_type (snd x)) ++ expr_refs (s_type (snd x))) l) k.
Definition stored (l : list (nat * dstep X)) (k : nat) : Prop := exists s, In (k, s) l /\ (is_val (s_type s) || is_expr (s_type s)) = true.
Definition strip (l : list (nat * dstep X)) : list (nat * dstep X) := map (fun x => (fst x, plain (s_type (snd x)))) l.
Definition all_hints (l : list (nat * dstep X)) : list (list nat) := filter (fun c => match c with [] => false | _ => true end) (map (fun x => s_hints (snd x)) l).
(** Expected counts that cover the actual ones. *)
Definition covers (cs : list nat) (l : list (nat * dstep X)) : Prop := forall k x, nth_error cs k = Some x -> uses l k <= x /\ (stored l k -> 1 <= x).
End steps.

(** What a container says: [V] and [E] are the values and expressions with an index, [known]
    the codecs declared before, in order. *)
Section meaning.
Context {X : Type}.
Variable provider : str -> option (vdec X).
Variable as_op : nat -> option nat.
Variable infer : nat -> list attr -> unit + attr.
Variable infer_on : bool.
Variables (V : nat -> option nat) (E : nat -> option node).
Definition step_means (known : list (nat * vdec X)) (k : nat) (s : step X) : Prop :=
  match s with
  | SLit j => exists i v, j = Some i /\ V i = Some v /\ E k = Some (Lit v)
  | SLeaf j => exists key, j = Some key /\ E k = Some (Leaf key)
  | SPlh j => exists key, j = Some key /\ E k = Some (Plh key)
  | SOp o is => exists i v op ds a, o = Some i /\ V i = Some v /\ as_op v = Some op /\ Forall2 (fun j e => E j = Some e) is ds /\
      E k = Some (Op op a ds) /\ if infer_on then infer op (map attr_of ds) = inr a else a = ANone
  | SVal p => exists vs es v, Forall2 (fun j w => V j = Some w) (p_vals p) vs /\ Forall2 (fun j e => E j = Some e) (p_exprs p) es /\ V k = Some v /\
      match p_codec p with
      | Some c => exists f, In (c, f) known /\ f p vs es = VOk v
      | None => exists l1 j f l2, known = l1 ++ (j, f) :: l2 /\ (forall g, In g (map snd l1) -> g p vs es = VNone) /\ f p vs es = VOk v
      end
  | SCodec n => provider n <> None
  | SOutV j => V j <> None
  | SOutE j => E j <> None
  | SNone => True
  end.
End meaning.
Definition codecs_of {X} (provider : str -> option (vdec X)) (l : list (nat * dstep X)) : list (nat * vdec X) :=
  flat_map (fun x => match s_type (snd x) with SCodec n => match provider n with Some f => [(fst x, f)] | None => [] end | _ => [] end) l.
Definition outv_of {X} (l : list (dstep X)) : list nat := flat_map (fun s => match s_type s with SOutV j => [j] | _ => [] end) l.
Definition oute_of {X} (l : list (dstep X)) : list nat := flat_map (fun s => match s_type s with SOutE j => [j] | _ => [] end) l.
(** The codecs of the header and those of the first [i] steps. *)
Definition declared {X} (provider : str -> option (vdec X)) (c : container X) (i : nat) : list (nat * vdec X) :=
  codecs_of provider (combine (seq 0 (length (c_codecs c))) (map (fun n => plain (SCodec n)) (c_codecs c))) ++ codecs_of provider (combine (seq 0 i) (c_steps c)).
