(** C77: objects with attributes and prototypes. *)
From Coq Require Import Sorted Permutation.
From Verif Require Import Base Object_Model Object_Spec Object_Proofs Object_Main.

(** An attribute is read from the nearest object of the chain that has it. *)
Theorem C77_get {V} (o : obj V) : well o -> forall k v, get_attr o k = Some v <-> attr_is o k v.
Proof. exact (get_attr_spec o). Qed.
Print Assumptions C77_get.

(** A new object has the given fields, and of the others what its prototype has. *)
Theorem C77_make {V} (proto : option (obj V)) fields k : is_map fields -> (forall p, proto = Some p -> well p) ->
  let o := make_object proto fields in
  well o /\ prototype o = proto /\
  (forall v, maps fields k v -> get_attr o k = Some v) /\
  ((forall v, ~ maps fields k v) -> get_attr o k = match proto with Some p => get_attr p k | None => None end).
Proof.
  intros Hm Hp o. destruct (put_fields_spec fields [] (NoDup_nil _)) as [M1 M2].
  assert (G : forall p, get_attr (make_object p fields) k = match find fields k with Some v => Some v | None => match p with Some p => get_attr p k | None => None end end).
  { intros [p|]; unfold make_object; cbn [get_attr]; rewrite M2; cbn [find]; [reflexivity|destruct (find fields k); reflexivity]. }
  split; [|split; [|split]].
  - unfold o, make_object, well. destruct proto as [p|]; cbn [levels]; constructor; [exact M1|exact (Hp p eq_refl)|exact M1|constructor].
  - unfold o, make_object. destruct proto; reflexivity.
  - intros v Hv. unfold o. rewrite G. apply (find_spec fields Hm) in Hv. rewrite Hv. reflexivity.
  - intros Hn. unfold o. rewrite G. destruct (find fields k) as [v|] eqn:E; [|reflexivity]. apply (find_spec fields Hm) in E. destruct (Hn v E).
Qed.
Print Assumptions C77_make.

(** The operators: reading with a type succeeds exactly with the type that is reported, which is
    NOTHING exactly if there is no such attribute (no value has type NOTHING). *)
Theorem C77_read {V} (type_of : V -> nat) (o : obj V) k t : well o -> (forall v, type_of v <> 0) ->
  (forall v, get_attr_op type_of o k t = inr v <-> attr_is o k v /\ type_of v = t) /\
  (get_attr_op type_of o k t = inl NotFound <-> forall v, ~ attr_is o k v) /\
  (get_attr_type type_of o k = 0 <-> forall v, ~ attr_is o k v) /\
  (forall v, attr_is o k v -> get_attr_op type_of o k (get_attr_type type_of o k) = inr v).
Proof.
  intros Hw Ht. assert (G := get_attr_spec o Hw k). unfold get_attr_op, get_attr_type. destruct (get_attr o k) as [v|].
  - assert (A := proj1 (G v) eq_refl). rewrite Nat.eqb_refl. split; [|split; [|split]].
    + intros w. destruct (type_of v =? t) eqn:E.
      * apply Nat.eqb_eq in E. split; [intros [= ->]; auto|]. intros [H _]. apply G in H. congruence.
      * apply Nat.eqb_neq in E. split; [discriminate|]. intros [H1 H2]. apply G in H1. congruence.
    + destruct (type_of v =? t); (split; [discriminate|intros H; destruct (H v A)]).
    + split; [intros H; destruct (Ht v H)|intros H; destruct (H v A)].
    + intros w Hw'. apply G in Hw'. congruence.
  - assert (N : forall v, ~ attr_is o k v) by (intros v H; apply G in H; discriminate). split; [|split; [|split]].
    + intros w. split; [discriminate|]. intros [H _]. destruct (N w H).
    + tauto.
    + tauto.
    + intros v H. destruct (N v H).
Qed.
Print Assumptions C77_read.

(** The sorted attributes are the attributes, by increasing names, and do not depend on the
    order of iteration. *)
Theorem C77_sorted {V} srt (o : obj V) : sorts srt -> well o ->
  Permutation (sorted_attributes srt o) (attributes o) /\ StronglySorted (fun x y => key_lt (fst x) (fst y)) (sorted_attributes srt o) /\
  forall o', well o' -> Permutation (attributes o) (attributes o') -> sorted_attributes srt o' = sorted_attributes srt o.
Proof.
  intros Hs Hw. destruct (srt_strict srt (attributes o) Hs (well_attrs o Hw)) as [P [S _]]. split; [exact P|]. split; [exact S|].
  intros o' Hw' Hp. destruct (srt_strict srt (attributes o') Hs (well_attrs o' Hw')) as [P' [S' _]]. apply sorted_ext; [exact S'|exact S|].
  assert (X : Permutation (srt (attributes o')) (srt (attributes o))) by (rewrite P, P'; symmetry; exact Hp).
  intros x. split; apply Permutation_in; [exact X|symmetry; exact X].
Qed.
Print Assumptions C77_sorted.

(** Objects feed the same into the hasher exactly if they are the same chain of maps, whatever
    the order of iteration; an empty object is one without attributes. *)
Theorem C77_fingerprint {V F} (fp : V -> F) veq srt (o o' : obj V) : sorts srt -> (forall v w, fp v = fp w <-> veq v w) -> well o -> well o' ->
  tokens fp srt o = tokens fp srt o' <-> same veq o o'.
Proof. intros Hs Hf. exact (tokens_same fp veq srt Hs Hf o o'). Qed.
Print Assumptions C77_fingerprint.
(** The same objects have the same attributes. *)
Theorem C77_same {V} (veq : V -> V -> Prop) (o o' : obj V) : well o -> well o' -> same veq o o' -> forall k,
  (forall v, attr_is o k v -> exists w, attr_is o' k w /\ veq v w) /\ (forall w, attr_is o' k w -> exists v, attr_is o k v /\ veq v w).
Proof. exact (same_attr veq o o'). Qed.
Print Assumptions C77_same.

(** Decoding: exactly the pairs that are given, or an error that says what is wrong. *)
Theorem C77_decode {V} (as_obj : V -> option (obj V)) keys inputs :
  match decode as_obj keys inputs with
  | None => False
  | Some (inl WrongSize) => length inputs <> length keys /\ length inputs <> S (length keys)
  | Some (inl (DuplicateKey k)) => In k keys /\ ~ NoDup keys
  | Some (inl NotAnObject) => NoDup keys /\ exists v, nth_error inputs (length keys) = Some v /\ as_obj v = None
  | Some (inr o) => NoDup keys /\ is_map (attributes o) /\
      (forall k v, maps (attributes o) k v <-> exists i, nth_error keys i = Some k /\ nth_error inputs i = Some v) /\
      match prototype o with
      | None => length inputs = length keys
      | Some p => length inputs = S (length keys) /\ exists v, nth_error inputs (length keys) = Some v /\ as_obj v = Some p
      end
  end.
Proof. exact (decode_spec as_obj keys inputs). Qed.
Print Assumptions C77_decode.
(** An encoded object is decoded to the same object, if the values and the prototype are. *)
Theorem C77_round_trip {V} (veq : V -> V -> Prop) srt of_obj as_obj (o : obj V) inputs : sorts srt -> well o ->
  (forall p w, veq (of_obj p) w -> exists p', as_obj w = Some p' /\ same veq p p') ->
  Forall2 veq (snd (encode of_obj srt o)) inputs ->
  exists o', decode as_obj (fst (encode of_obj srt o)) inputs = Some (inr o') /\ is_map (attributes o') /\ same veq o o'.
Proof. intros Hs. exact (decode_encode veq srt Hs of_obj as_obj o inputs). Qed.
Print Assumptions C77_round_trip.

(** Cases: values that may be objects, and a sort. *)
Inductive ex_val := Atom (t n : nat) | VObj (o : obj ex_val).
Definition ex_as (v : ex_val) : option (obj ex_val) := match v with VObj o => Some o | _ => None end.
Definition ex_type (v : ex_val) : nat := match v with Atom t _ => S (S t) | VObj _ => 1 end.
Fixpoint ins {V} (x : key * V) (l : list (key * V)) : list (key * V) :=
  match l with [] => [x] | y :: t => if key_ltb (fst y) (fst x) then y :: ins x t else x :: y :: t end.
Definition isort {V} (l : list (key * V)) : list (key * V) := fold_right ins [] l.
Lemma ins_perm {V} (x : key * V) l : Permutation (ins x l) (x :: l).
Proof. induction l as [|y t IH]; cbn; [reflexivity|]. destruct (key_ltb (fst y) (fst x)); [|reflexivity]. rewrite IH. apply perm_swap. Qed.
Example C77_case_sort {V} : sorts (@isort V).
Proof.
  assert (T : forall a b c : key, key_ltb b a = false -> key_ltb c b = false -> key_ltb c a = false).
  { intros a b c H1 H2. destruct (key_ltb c a) eqn:E; [|reflexivity]. apply klt in E. destruct (klt_total b c) as [H|[->|H]].
    - assert (X := klt_trans _ _ _ H E). apply klt in X. congruence.
    - apply klt in E. congruence.
    - apply klt in H. congruence. }
  intros l. induction l as [|x l [P S]]; cbn [isort fold_right]; [split; [reflexivity|constructor]|]. fold (@isort V l). split; [rewrite ins_perm, P; reflexivity|].
  clear P. induction S as [|y t S IH H]; cbn [ins]; [repeat constructor|]. destruct (key_ltb (fst y) (fst x)) eqn:E.
  - constructor; [exact IH|]. apply Forall_forall. intros z Hz. apply (Permutation_in _ (ins_perm x t)) in Hz. destruct Hz as [<-|Hz]; [|rewrite Forall_forall in H; apply H, Hz].
    destruct (key_ltb (fst x) (fst y)) eqn:E2; [|reflexivity]. apply klt in E, E2. destruct (klt_irrefl _ (klt_trans _ _ _ E E2)).
  - constructor; [constructor; assumption|]. constructor; [exact E|]. rewrite Forall_forall in *. intros z Hz. apply (T _ (fst y) _ E). apply H, Hz.
Qed.
Definition ex_p : obj ex_val := Bare [([98], Atom 0 1); ([97], Atom 0 2)].
Definition ex_o : obj ex_val := Ext [([99], VObj ex_p); ([97], Atom 1 3)] ex_p.
Example C77_case_get : (get_attr ex_o [97], get_attr ex_o [98], get_attr ex_o [100], get_attr_type ex_type ex_o [99]) = (Some (Atom 1 3), Some (Atom 0 1), None, 1).
Proof. reflexivity. Qed.
Example C77_case_encode : encode VObj isort ex_o = ([[97]; [99]], [Atom 1 3; VObj ex_p; VObj ex_p]) /\
  decode ex_as [[97]; [99]] [Atom 1 3; VObj ex_p; VObj ex_p] = Some (inr (Ext [([99], VObj ex_p); ([97], Atom 1 3)] ex_p)) /\
  decode ex_as [[97]; [97]] [Atom 1 3; VObj ex_p] = Some (inl (DuplicateKey [97])) /\
  decode ex_as [[97]] [Atom 1 3; Atom 1 3] = Some (inl NotAnObject) /\ decode ex_as [[97]] [] = Some (inl WrongSize).
Proof. repeat split. Qed.
Example C77_case_round_trip : forall p w, VObj p = w -> exists p', ex_as w = Some p' /\ same eq p p'.
Proof.
  intros p w <-. exists p. split; [reflexivity|]. unfold same. induction (levels p) as [|a l IH]; constructor; [|exact IH]. split; intros k v H; exists v; auto.
Qed.
Example C77_case_well : well ex_o /\ well (@Null ex_val).
Proof. split; unfold well; cbn; repeat constructor; cbn; intuition discriminate. Qed.
(** An attribute with the name that marks an object is not taken for a prototype. *)
Example C77_case_tag : tokens (fun v : nat => v) isort (Ext [] (Bare [([97], 1)])) <> tokens (fun v : nat => v) isort (Bare [(obj_tag, 1)]).
Proof. discriminate. Qed.
