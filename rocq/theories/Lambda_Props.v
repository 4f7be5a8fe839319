(** C75: lambda operators. *)
From Verif Require Import Base Visit_Model Visit_Spec Visit_Proofs VisitOrder_Proofs Visit_Props Lambda_Model Lambda_Spec Lambda_Proofs Lambda_Main.

(** A body makes a lambda exactly if the names of the parameters are distinct, it has no
    leaves, and its placeholders are parameters.  An error says what is wrong. *)
Theorem C75_make s body : exists r, make s body = Some r /\
  match r with
  | inr l => NoDup (s_names s) /\ (forall k, ~ sub (Leaf k) body) /\ (forall k, sub (Plh k) body -> In k (s_names s))
  | inl BadSignature => ~ NoDup (s_names s)
  | inl LeafInBody => exists k, sub (Leaf k) body
  | inl (MissingParam k) => sub (Plh k) body /\ ~ In k (s_names s)
  | inl _ => False
  end.
Proof.
  destruct (make_cases s body) as [[U M]|[(_ & H & M)|[(_ & _ & k & A & B & M)|(Nn & NL & Hin & idx & I & M)]]]; rewrite M; eexists; (split; [reflexivity|]); cbn beta iota.
  - intros N. assert (X : unique_names [] (s_names s) = true) by (apply unique_ok; split; [exact N|intros k _ []]). congruence.
  - exact H.
  - auto.
  - split; [exact Nn|]. split; [|exact Hin]. intros k H. apply NL. eauto.
Qed.
Print Assumptions C75_make.

(** Without a signature: exactly one placeholder, which becomes the parameter. *)
Theorem C75_make_one body : exists r, make_one body = Some r /\
  match r with
  | inr l => exists k, (forall k', sub (Plh k') body <-> k' = k) /\ (forall k', ~ sub (Leaf k') body) /\ make (mkS [k] false) body = Some (inr l)
  | inl NoPlaceholder => forall k, ~ sub (Plh k) body
  | inl (ManyPlaceholders ks) => 2 <= length ks /\ increasing ks /\ forall k, In k ks <-> sub (Plh k) body
  | inl LeafInBody => exists k, sub (Leaf k) body
  | inl _ => False
  end.
Proof.
  unfold make_one. destruct (C33_placeholder_keys body) as (ks & E & I & H). rewrite E. cbn [bind]. destruct ks as [|k [|k' ks]].
  - eexists. split; [reflexivity|]. intros k Hk. apply H in Hk. destruct Hk.
  - assert (One : forall k', sub (Plh k') body <-> k' = k) by (intros k'; rewrite <- H; cbn; intuition).
    destruct (C75_make (mkS [k] false) body) as (r & M & G). rewrite M. exists r. split; [reflexivity|]. destruct r as [[| | |k0| |]|l]; cbn [s_names] in G; try (exfalso; exact G); try exact G.
    + apply G. constructor; [intros []|constructor].
    + destruct G as [A B]. apply One in A as ->. apply B. left. reflexivity.
    + exists k. split; [exact One|]. split; [apply G|exact M].
  - eexists. split; [reflexivity|]. split; [cbn; lia|]. split; assumption.
Qed.
Print Assumptions C75_make_one.

(** Lowering a node of a lambda gives its body with the parameters replaced by the arguments
    (all at once; a variadic parameter by a tuple), and nothing else than attributes
    changes. *)
Theorem C75_lower {E} infer (bad : E) tup s body l a args m : make s body = Some (inr l) -> to_lower infer bad tup l a args = Some (inr m) ->
  fits s (length args) /\ inst (bound s (tuple_node tup) args) body m.
Proof. intros Mk H. exact (lower_inst infer bad tup s body l Mk args a m H). Qed.
Print Assumptions C75_lower.

(** The lowered expression evaluates to what the body does with the parameters standing for
    the values of the arguments, whatever operators, literals, leaves and placeholders mean. *)
Theorem C75_value {E V} infer (bad : E) tup s body l a args m (I : nat -> list V -> V) lit leaf plh ρ :
  make s body = Some (inr l) -> to_lower infer bad tup l a args = Some (inr m) ->
  (forall k v, bound s (fun vs v => v = I tup vs) (map (value I lit leaf plh) args) k v -> ρ k = v) ->
  value I lit leaf plh m = value I lit leaf ρ body.
Proof.
  intros Mk H R. destruct (lower_inst infer bad tup s body l Mk args a m H) as [_ Hi]. apply (value_inst I lit leaf plh ρ _ body m) in Hi; [exact Hi|].
  intros k x (j & Ej & B). apply R. exists j. split; [exact Ej|]. destruct (s_variadic s && _).
  - destruct B as (a' & ->). cbn [value]. rewrite skipn_map. reflexivity.
  - rewrite nth_error_map, B. reflexivity.
Qed.
Print Assumptions C75_value.

(** A wrong number of arguments is an error of both, and only then is it that error. *)
Theorem C75_count {E} infer (bad : E) tup type_of tuple_type s body l a args attrs : make s body = Some (inr l) ->
  (to_lower infer bad tup l a args = Some (inl LCount) <-> ~ fits s (length args)) /\
  (infer_lambda infer type_of tuple_type l attrs = Some (inl LCount) <-> ~ fits s (length attrs)).
Proof.
  intros Mk. split; split.
  - intros H F. destruct (lower_run infer bad tup s body l Mk args a F) as [R|(e & R & _)]; rewrite R in H; [destruct (bottom_up _ body); discriminate|discriminate].
  - apply (lower_count infer bad tup s body l Mk).
  - intros H F.
    assert (Ex : exists args', map attr_of args' = attrs).
    { exists (map (fun x => Op 0 x []) attrs). rewrite map_map. apply map_id. }
    destruct Ex as (args' & <-). rewrite map_length in F. rewrite (infer_run infer bad type_of tuple_type s body l Mk args' F) in H. destruct (bottom_up _ body); discriminate.
  - intros F. unfold infer_lambda, run. rewrite (proj1 (mk_shape s body l Mk)). destruct (count_ok s (length attrs)) eqn:C; [apply count_spec in C; contradiction|reflexivity].
Qed.
Print Assumptions C75_count.

(** Attributes: what InferAttributes says of a call is what lowering the call gives, be it
    attributes or an error; reusing the attributes of the node gives the same expression as
    inferring them; and every node of the result has the attributes its operator gives it.
    The body and the arguments must be so themselves, and the operators of the body must
    keep what they know when they are told more. *)
Theorem C75_attributes {E} infer (bad : E) tup type_of tuple_type s body l args :
  monotone infer type_of -> stable infer type_of -> tuple_law infer type_of tup tuple_type ->
  make s body = Some (inr l) -> consistent infer body -> Forall (consistent infer) args ->
  exists r, infer_lambda infer type_of tuple_type l (map attr_of args) = Some r /\
  match r with
  | inl e => to_lower infer bad tup l ANone args = Some (inl e)
  | inr a => exists m, to_lower infer bad tup l ANone args = Some (inr m) /\ to_lower infer bad tup l a args = Some (inr m) /\ attr_of m = a /\ consistent infer m
  end.
Proof. intros M S T Mk Cb Ca. exact (attr_main infer bad tup type_of tuple_type M S T s body l Mk args Cb Ca). Qed.
Print Assumptions C75_attributes.

(** ToLowerNode then accepts every node that MakeOpNode made. *)
Theorem C75_lower_node {E} infer (bad : E) tup type_of tuple_type s body l args a :
  monotone infer type_of -> stable infer type_of -> tuple_law infer type_of tup tuple_type ->
  make s body = Some (inr l) -> consistent infer body -> Forall (consistent infer) args ->
  infer_lambda infer type_of tuple_type l (map attr_of args) = Some (inr a) ->
  exists m, lower_node infer bad tup type_of l a args = Some (inr m) /\ attr_of m = a.
Proof.
  intros M S T Mk Cb Ca H. destruct (attr_main infer bad tup type_of tuple_type M S T s body l Mk args Cb Ca) as (r & E1 & G). rewrite H in E1. injection E1 as <-.
  destruct G as (m & _ & L & A & _). exists m. unfold lower_node. rewrite L. cbn [bind]. rewrite A, (below_subset type_of a a (below_refl type_of a)). auto.
Qed.
Print Assumptions C75_lower_node.
(** A passed check means that nothing which was known has been lost. *)
Theorem C75_checked {E} infer (bad : E) tup type_of l a args m :
  lower_node infer bad tup type_of l a args = Some (inr m) -> to_lower infer bad tup l a args = Some (inr m) /\ below type_of a (attr_of m).
Proof.
  unfold lower_node. destruct (to_lower _ _ _ _ _ _) as [[e|m']|]; cbn [bind]; try discriminate. destruct (is_subset _ _ _) eqn:S; [|discriminate]. intros H. injection H as ->. split; [reflexivity|].
  destruct a as [|t|v], (attr_of m) as [|t'|v']; cbn in S; try discriminate; try (apply Nat.eqb_eq in S; subst); constructor.
Qed.
Print Assumptions C75_checked.

(** Examples.  Operator 0 makes tuples; 1 adds two things of one type; 2 is a constant whose
    value is known. *)
Definition ex_tt (ts : list nat) : nat := 100 + list_sum ts.
Definition ex_infer (o : nat) (l : list attr) : nat + attr :=
  match o with
  | 0 => inr (tuple_attr (fun v => v) ex_tt l)
  | 1 => match l with
         | [a; b] => match qtype (fun v => v) a, qtype (fun v => v) b with
                     | Some t, Some u => if t =? u then inr (AType t) else inl 7
                     | _, _ => inr ANone
                     end
         | _ => inl 8
         end
  | 2 => inr (AValue 5)
  | _ => inl 9
  end.
Lemma below_q a b t : below (fun v => v) a b -> qtype (fun v => v) a = Some t -> qtype (fun v => v) b = Some t.
Proof. destruct 1; cbn; congruence. Qed.
Example C75_laws_ex : monotone ex_infer (fun v => v) /\ stable ex_infer (fun v => v) /\ tuple_law ex_infer (fun v => v) 0 ex_tt.
Proof.
  split; [|split].
  - intros o l l' a a' F. destruct o as [|[|[|o]]]; cbn [ex_infer]; [| |intros H H'; injection H as <-; injection H' as <-; constructor|discriminate].
    + intros H H'. injection H as <-. injection H' as <-. unfold tuple_attr. destruct (sequence (map (qtype (fun v => v)) l)) as [ts|] eqn:S; [|constructor].
      replace (sequence (map (qtype (fun v => v)) l')) with (Some ts); [constructor|]. revert ts S. induction F as [|x y l l' B F IH]; intros ts S; [exact (eq_sym S)|]. cbn [map sequence] in *.
      destruct (qtype (fun v => v) x) as [t|] eqn:Q; [|discriminate]. rewrite (below_q _ _ _ B Q). cbn [bind] in *. destruct (sequence (map (qtype (fun v => v)) l)) as [r|]; [|discriminate].
      rewrite <- (IH r eq_refl). exact (eq_sym S).
    + inversion F as [|x y ? ? B F1]; subst; [discriminate|]. inversion F1 as [|x' y' ? ? B' F2]; subst; [discriminate|]. inversion F2; subst; [|discriminate].
      destruct (qtype (fun v => v) x) as [t|] eqn:Q; [|intros H _; injection H as <-; constructor]. destruct (qtype (fun v => v) x') as [t'|] eqn:Q'; [|intros H _; injection H as <-; constructor].
      rewrite (below_q _ _ _ B Q), (below_q _ _ _ B' Q'). destruct (t =? t'); [|discriminate]. intros H H'. injection H as <-. injection H' as <-. constructor.
  - intros o l l' v F. destruct o as [|[|[|o]]]; cbn [ex_infer]; [| |eauto|discriminate].
    + unfold tuple_attr. destruct (sequence _); discriminate.
    + destruct l as [|a [|b [|]]]; try discriminate. destruct (qtype (fun v => v) a), (qtype (fun v => v) b); try discriminate. destruct (_ =? _); discriminate.
  - intros l. cbn [ex_infer]. eexists. split; [reflexivity|]. unfold tuple_attr. pose proof (seq_ok (fun v => v) l) as S. destruct (sequence _) as [ts|]; eauto.
Qed.
(** lambda x, *y: add(add(x, 2), add(x, const())) *)
Definition kx : key := [120]. Definition ky : key := [121].
Definition ex_body := Op 1 ANone [Op 1 ANone [Plh kx; Lit 5]; Op 1 ANone [Plh kx; Op 2 (AValue 5) []]].
Definition ex_sig := mkS [kx; ky] true.
Definition ex_l := match make ex_sig ex_body with Some (inr l) => l | _ => mkL ex_sig (mkP [] []) [] end.
Example C75_make_ex : make ex_sig ex_body = Some (inr ex_l) /\ l_idx ex_l = [Some 0; None] /\ make (mkS [ky] true) ex_body = Some (inl (MissingParam kx)) /\
  make (mkS [kx; kx] false) ex_body = Some (inl BadSignature) /\ make ex_sig (Op 1 ANone [Plh kx; Leaf kx]) = Some (inl LeafInBody).
Proof. repeat (split; [reflexivity|]). reflexivity. Qed.
Example C75_make_one_ex : (exists l, make_one ex_body = Some (inr l)) /\ make_one (Lit 3) = Some (inl NoPlaceholder) /\
  make_one (Op 1 ANone [Plh ky; Plh kx]) = Some (inl (ManyPlaceholders [kx; ky])).
Proof. split; [eexists; reflexivity|]. split; reflexivity. Qed.
Example C75_consistent_ex : consistent ex_infer ex_body.
Proof. repeat constructor. Qed.
(** The type of the argument becomes known: the attributes are inferred anew *)
Definition ex_arg := Op 1 (AType 5) [Lit 5; Lit 5].
Definition ex_low := Op 1 (AType 5) [Op 1 (AType 5) [ex_arg; Lit 5]; Op 1 (AType 5) [ex_arg; Op 2 (AValue 5) []]].
Example C75_lower_ex : to_lower ex_infer 6 0 ex_l ANone [ex_arg; Leaf kx] = Some (inr ex_low) /\
  infer_lambda ex_infer (fun v => v) ex_tt ex_l [AType 5; ANone] = Some (inr (AType 5)) /\ lower_node ex_infer 6 0 (fun v => v) ex_l (AType 5) [ex_arg] = Some (inr ex_low) /\
  infer_lambda ex_infer (fun v => v) ex_tt ex_l [AType 4] = Some (inl (LErr 7)) /\ to_lower ex_infer 6 0 ex_l ANone [] = Some (inl LCount).
Proof. repeat (split; [reflexivity|]). reflexivity. Qed.
(** A variadic parameter, arguments that mention a placeholder of the same name *)
Definition ex_body2 := Op 1 ANone [Plh ky; Plh kx].
Definition ex_l2 := match make ex_sig ex_body2 with Some (inr l) => l | _ => mkL ex_sig (mkP [] []) [] end.
Example C75_variadic_ex : make ex_sig ex_body2 = Some (inr ex_l2) /\
  to_lower ex_infer 6 0 ex_l2 ANone [Plh ky; Lit 3; Lit 4] = Some (inr (Op 1 ANone [Op 0 (AType 107) [Lit 3; Lit 4]; Plh ky])).
Proof. split; reflexivity. Qed.

(** An operator that knows its value for an unknown input and rejects a known one: the call
    is typed but cannot be lowered.  So the hypothesis on operators is needed. *)
Theorem C75_unstable_refuted : exists (infer : nat -> list attr -> nat + attr) type_of tuple_type s body l args a,
  monotone infer type_of /\ tuple_law infer type_of 0 tuple_type /\ make s body = Some (inr l) /\ consistent infer body /\ Forall (consistent infer) args /\
  infer_lambda infer type_of tuple_type l (map attr_of args) = Some (inr a) /\ to_lower infer 6 0 l ANone args = Some (inl (LErr 9)).
Proof.
  set (infer := fun o l => match o with 0 => inr (tuple_attr (fun v => v) ex_tt l) | _ => match l with [ANone] => inr (AValue 5) | _ => inl 9 end end).
  exists infer, (fun v => v), ex_tt, (mkS [kx] false), (Op 3 (AValue 5) [Plh kx]). eexists. exists [Lit 4], (AValue 5). split; [|split; [|split; [|split; [|split; [|split]]]]].
  - intros o l l' a a' F. destruct o as [|o]; [apply (proj1 C75_laws_ex 0 l l' a a' F)|]. unfold infer. destruct l as [|[] []]; try discriminate. destruct l' as [|[] []]; try discriminate.
    intros H H'. injection H as <-. injection H' as <-. constructor.
  - intros l. apply (proj2 (proj2 C75_laws_ex) l).
  - reflexivity.
  - constructor; [reflexivity|]. constructor; [constructor|constructor].
  - constructor; [constructor|constructor].
  - reflexivity.
  - reflexivity.
Qed.
Print Assumptions C75_unstable_refuted.
