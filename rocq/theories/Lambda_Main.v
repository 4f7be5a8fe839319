From Verif Require Import Base Visit_Model Visit_Spec Visit_Proofs VisitOrder_Proofs Lambda_Model Lambda_Spec Lambda_Proofs.

Lemma bu_ext {E T} (v w : node -> list T -> E + T) n : (forall x args, sub x n -> v x args = w x args) -> bottom_up v n = bottom_up w n.
Proof.
  induction n as [n IH] using node_rect'. intros H. rewrite !bu_eq.
  assert (M : map (bottom_up v) (deps n) = map (bottom_up w) (deps n)).
  { apply map_ext_in. intros d Hd. rewrite Forall_forall in IH. apply (IH d Hd). intros x args Hx. apply H. apply (sub_dep x n d Hd Hx). }
  rewrite M. destruct (collect _) as [e|args]; [reflexivity|]. apply H, sub_refl.
Qed.

Section Lower.
Context {E : Type}.
Variable infer : nat -> list attr -> E + attr.
Variable bad : E.
Variable tup : nat.
Variable s : sig.
Variable body : node.
Variable l : lambda.
Hypothesis Mk : make s body = Some (inr l).

Lemma mk_facts : NoDup (s_names s) /\ (forall k, ~ sub (Leaf k) body) /\ (forall k, sub (Plh k) body -> In k (s_names s)).
Proof.
  destruct (make_cases s body) as [[_ M]|[(_ & _ & M)|[(_ & _ & k & _ & _ & M)|(Nn & NL & Hin & idx & I & M)]]]; rewrite M in Mk; try discriminate.
  split; [exact Nn|]. split; [|exact Hin]. intros k H. apply NL. eauto.
Qed.
Lemma mk_shape : l_sig l = s /\ p_nodes (l_body l) = po body [].
Proof.
  destruct (make_cases s body) as [[_ M]|[(_ & _ & M)|[(_ & _ & k & _ & _ & M)|(Nn & NL & Hin & idx & I & M)]]]; rewrite M in Mk; try discriminate.
  injection Mk as <-. auto.
Qed.

(** The argument of a parameter *)
Definition arg_of {T} (wrap : list T -> E + T) (args : list T) (k : key) : E + T :=
  match param_index (s_names s) 0 k with
  | Some j => if s_variadic s && (S j =? length (s_names s)) then wrap (skipn j args)
              else match nth_error args j with Some x => inr x | None => inl bad end
  | None => inl bad
  end.
Lemma arg_bound {T} (wrap : list T -> E + T) args k x : arg_of wrap args k = inr x <-> bound s (fun ts x => wrap ts = inr x) args k x.
Proof.
  destruct mk_facts as (Nn & _ & _). unfold arg_of, bound. split.
  - destruct (param_index (s_names s) 0 k) as [j|] eqn:P; [|discriminate]. apply param_index_ok in P as (q & -> & Eq); [|exact Nn]. intros H. exists q. split; [exact Eq|]. cbn [Nat.add] in H.
    destruct (s_variadic s && _); [exact H|]. destruct (nth_error args q); [injection H as ->; reflexivity|discriminate].
  - intros (j & Ej & H). rewrite (proj2 (param_index_ok (s_names s) Nn 0 k j)) by (exists j; auto). destruct (s_variadic s && _); [exact H|]. rewrite H. reflexivity.
Qed.

Section At.
Variable args : list node.
Definition vn (a : attr) (n : node) (ds : list node) : E + node :=
  match n with
  | Plh k => arg_of (make_op infer tup) args k
  | Lit _ => inr n
  | Leaf _ => inl bad
  | Op o _ _ => if node_eqb n body && negb (is_empty a) then inr (Op o a ds) else with_new infer bad n ds
  end.
Lemma root_pos i n : nth_error (po body []) i = Some n -> (i + 1 <? length (po body [])) = negb (node_eqb n body).
Proof.
  intros Ei. pose proof (proj1 (po_ordered body [] ordered_nil)) as N. destruct (po_last body) as (l0 & El).
  assert (Er : nth_error (po body []) (length (po body []) - 1) = Some body).
  { rewrite El, app_length. cbn [length]. rewrite nth_error_app2 by lia. replace (_ - _) with 0 by lia. reflexivity. }
  assert (Li : i < length (po body [])) by (apply nth_error_Some; congruence). destruct (node_spec n body) as [->|Nb]; cbn [negb].
  - apply Nat.ltb_ge. assert (i = length (po body []) - 1); [|lia]. apply (proj1 (NoDup_nth_error _) N); [exact Li|congruence].
  - apply Nat.ltb_lt. destruct (Nat.eq_dec i (length (po body []) - 1)) as [->|]; [congruence|lia].
Qed.
Lemma lower_run a : fits s (length args) ->
  to_lower infer bad tup l a args = Some (lift (bottom_up (vn a) body)) \/
  exists e, to_lower infer bad tup l a args = Some (inl (LErr e)) /\ s_variadic s = true /\ make_op infer tup (skipn (length (s_names s) - 1) args) = inl e.
Proof.
  intros Ft. unfold to_lower. rewrite (proj2 mk_shape). apply (run_ok (make_op infer tup) (vn a) _ s body l args Mk Ft).
  - intros k x B. cbn [vn]. apply arg_bound, B.
  - intros i n ds Ei Np. destruct n; try discriminate; cbn [lower_step vn]; [reflexivity| |].
    + exfalso. apply (proj1 (proj2 mk_facts) k). apply po_root, (nth_error_In _ _ Ei).
    + cbn [bind]. rewrite (root_pos i _ Ei). destruct (node_eqb _ body); cbn [negb orb andb]; [|reflexivity]. destruct (is_empty a); reflexivity.
Qed.
Lemma lower_count a : ~ fits s (length args) -> to_lower infer bad tup l a args = Some (inl LCount).
Proof.
  intros H. unfold to_lower, run. rewrite (proj1 mk_shape). destruct (count_ok s (length args)) eqn:C; [apply count_spec in C; contradiction|reflexivity].
Qed.

Lemma with_new_op o a old ds m : with_new infer bad (Op o a old) ds = inr m -> exists a', m = Op o a' ds.
Proof.
  unfold with_new. cbn [deps]. destruct (leqb node_eqb old ds) eqn:Q; [apply nodes_eq in Q as ->; intros H; injection H as <-; eauto|].
  destruct (leqb attr_eqb _ _); [intros H; injection H as <-; eauto|]. unfold make_op. destruct (infer o _); [discriminate|]. intros H; injection H as <-; eauto.
Qed.
Lemma inst_ok a n : forall m, sub n body -> bottom_up (vn a) n = inr m -> inst (bound s (tuple_node tup) args) n m.
Proof.
  induction n as [n IH] using node_rect'. intros m Sn. rewrite bu_eq. destruct (collect (map (bottom_up (vn a)) (deps n))) as [e|ds] eqn:C; [discriminate|].
  apply collect_inr in C. destruct n as [v|k|k|o a0 old]; cbn [vn deps] in *.
  - intros H. injection H as <-. constructor.
  - discriminate.
  - intros H. apply arg_bound in H as (j & Ej & H). constructor. exists j. split; [exact Ej|]. destruct (s_variadic s && _); [|exact H].
    unfold make_op in H. destruct (infer tup _); [discriminate|]. injection H as <-. exists a0. reflexivity.
  - assert (F : Forall2 (inst (bound s (tuple_node tup) args)) old ds).
    { assert (So : forall d, In d old -> sub d body) by (intros d Hd; apply (sub_trans d (Op o a0 old)); [apply (sub_dep d (Op o a0 old) d Hd), sub_refl|exact Sn]).
      clear Sn. revert ds C. induction old as [|d old IHo]; intros [|m' ds] C; try discriminate; [constructor|]. cbn [map] in C. injection C as C1 C2. inversion IH as [|? ? I1 I2]; subst.
      constructor; [apply I1; [apply So; left; reflexivity|exact C1]|]. apply IHo; [exact I2|intros; apply So; right; assumption|exact C2]. }
    destruct (node_eqb _ body && _); intros H; [injection H as <-; constructor; exact F|]. apply with_new_op in H as (a' & ->). constructor. exact F.
Qed.
Lemma lower_inst a m : to_lower infer bad tup l a args = Some (inr m) -> fits s (length args) /\ inst (bound s (tuple_node tup) args) body m.
Proof.
  intros H. destruct (count_ok s (length args)) eqn:C.
  - apply count_spec in C. split; [exact C|]. destruct (lower_run a C) as [R|(e & R & _)]; [|congruence]. rewrite R in H. destruct (bottom_up (vn a) body) eqn:B; [discriminate|]. cbn in H. injection H as <-. apply (inst_ok a body _ (sub_refl _) B).
  - rewrite lower_count in H; [discriminate|]. intros F. apply count_spec in F. congruence.
Qed.
End At.
End Lower.

Lemma value_inst {V} (I : nat -> list V -> V) lit leaf plh ρ (b : key -> node -> Prop) n : forall m,
  (forall k m, b k m -> ρ k = value I lit leaf plh m) -> inst b n m -> value I lit leaf plh m = value I lit leaf ρ n.
Proof.
  induction n as [n IH] using node_rect'. intros m B H. inversion H as [k m' Hk|v|o a a' ds ds' F]; subst; cbn [value].
  - symmetry. apply B, Hk.
  - reflexivity.
  - f_equal. cbn [deps] in IH. clear H. induction F as [|d d' ds ds' H1 H2 IHF]; [reflexivity|]. inversion IH as [|? ? I1 I2]; subst. cbn [map]. f_equal; [apply I1; assumption|apply IHF, I2].
Qed.

(** ** Attributes *)
Section Attr.
Context {E : Type}.
Variable infer : nat -> list attr -> E + attr.
Variable bad : E.
Variable tup : nat.
Variable type_of : nat -> nat.
Variable tuple_type : list nat -> nat.
Notation tattr := (tuple_attr type_of tuple_type).
Lemma seq_ok l : match sequence (map (qtype type_of) l) with
  | Some ts => Forall2 (fun x t => qtype type_of x = Some t) l ts
  | None => In ANone l
  end.
Proof.
  induction l as [|a l IH]; [constructor|]. cbn [map sequence]. destruct (qtype type_of a) as [t|] eqn:Q; cbn [bind].
  - destruct (sequence (map (qtype type_of) l)); cbn [bind]; [constructor; assumption|right; exact IH].
  - left. destruct a; [reflexivity|discriminate|discriminate].
Qed.
Lemma law_tuple l : tuple_law infer type_of tup tuple_type -> infer tup l = inr (tattr l).
Proof.
  intros H. destruct (H l) as (a & -> & C). f_equal. unfold tuple_attr. pose proof (seq_ok l) as S. destruct (sequence (map (qtype type_of) l)) as [ts|].
  - destruct C as [(ts' & F & ->)|[Hn _]].
    + do 2 f_equal. revert ts' F. induction S as [|x t l ts E1 F1 IH]; intros ts' F; inversion F; subst; [reflexivity|]. f_equal; [congruence|]. apply IH. assumption.
    + exfalso. revert Hn. clear - S. induction S as [|x t l ts E1 F1 IH]; [intros []|]. intros [->|Hn]; [discriminate|auto].
  - destruct C as [(ts' & F & ->)|[_ ->]]; [|reflexivity]. exfalso. clear - S F. induction F as [|x t l ts E1 F1 IH]; [destruct S|]. destruct S as [->|S]; [discriminate|auto].
Qed.
Lemma below_refl a : below type_of a a. Proof. destruct a; constructor. Qed.
Lemma below_subset a b : below type_of a b -> is_subset type_of a b = true.
Proof. destruct 1; cbn; auto using Nat.eqb_refl. Qed.

Hypothesis Mono : monotone infer type_of.
Hypothesis Stab : stable infer type_of.
Hypothesis Tup : tuple_law infer type_of tup tuple_type.
Variable s : sig.
Variable body : node.
Variable l : lambda.
Hypothesis Mk : make s body = Some (inr l).
Variable args : list node.
Hypothesis Cb : consistent infer body.
Hypothesis Ca : Forall (consistent infer) args.
Definition va (n : node) (ds : list attr) : E + attr :=
  match n with
  | Plh k => arg_of bad s (fun fs => inr (tattr fs)) (map attr_of args) k
  | Leaf _ => inl bad
  | Lit v => inr (AValue v)
  | Op o a _ => match a with AValue v => inr (AValue v) | _ => infer o ds end
  end.
Definition amap (r : E + node) : E + attr := match r with inl e => inl e | inr m => inr (attr_of m) end.
Lemma infer_run : fits s (length args) -> infer_lambda infer type_of tuple_type l (map attr_of args) = Some (lift (bottom_up va body)).
Proof.
  intros Ft. unfold infer_lambda. destruct (run_ok (fun fs : list attr => inr (tattr fs)) va (infer_step infer) s body l (map attr_of args) Mk) as [R|(e & _ & _ & D)]; [rewrite map_length; exact Ft| | |exact R|discriminate].
  - intros k x B. cbn [va]. apply (arg_bound bad s body l Mk), B.
  - intros i n ds Ei Np. unfold infer_step. destruct n as [v|k|k|o a old]; try discriminate; cbn [attr_of va]; [reflexivity| |].
    + exfalso. apply (proj1 (proj2 (mk_facts s body l Mk)) k). apply po_root, (nth_error_In _ _ Ei).
    + destruct a; reflexivity.
Qed.
Lemma infer_count : ~ fits s (length args) -> infer_lambda infer type_of tuple_type l (map attr_of args) = Some (inl LCount).
Proof.
  intros H. unfold infer_lambda, run. rewrite (proj1 (mk_shape s body l Mk)), map_length. destruct (count_ok s (length args)) eqn:C; [apply count_spec in C; contradiction|reflexivity].
Qed.
Lemma make_tuple ds : make_op infer tup ds = inr (Op tup (tattr (map attr_of ds)) ds).
Proof. unfold make_op. rewrite law_tuple by exact Tup. reflexivity. Qed.
Notation V := (vn infer bad tup s body args ANone).
Lemma arg_sim k : arg_of bad s (fun fs => inr (tattr fs)) (map attr_of args) k = amap (arg_of bad s (make_op infer tup) args k) /\
  forall m, arg_of bad s (make_op infer tup) args k = inr m -> consistent infer m.
Proof.
  unfold arg_of. destruct (param_index _ _ _) as [j|]; [|split; [reflexivity|discriminate]]. destruct (s_variadic s && _).
  - rewrite make_tuple. cbn [amap attr_of]. rewrite skipn_map. split; [reflexivity|]. intros m H. injection H as <-. constructor; [apply law_tuple, Tup|].
    apply Forall_forall. intros x Hx. rewrite Forall_forall in Ca. apply Ca. rewrite <- (firstn_skipn j args). apply in_app_iff. auto.
  - rewrite nth_error_map. destruct (nth_error args j) as [x|] eqn:Ex; cbn [option_map]; [|split; [reflexivity|discriminate]]. split; [reflexivity|]. intros m H. injection H as <-.
    rewrite Forall_forall in Ca. apply Ca, (nth_error_In _ _ Ex).
Qed.
Lemma sim n : consistent infer n -> bottom_up va n = amap (bottom_up V n) /\
  forall m, bottom_up V n = inr m -> consistent infer m /\ below type_of (attr_of n) (attr_of m).
Proof.
  induction n as [n IH] using node_rect'. intros Cn. rewrite !bu_eq. destruct n as [v|k|k|o a old]; cbn [deps map collect].
  - cbn [va vn amap attr_of]. split; [reflexivity|]. intros m H. injection H as <-. split; [constructor|apply below_refl].
  - cbn. split; [reflexivity|discriminate].
  - cbn [va vn]. destruct (arg_sim k) as [A B]. split; [exact A|]. intros m H. split; [apply B, H|constructor].
  - inversion Cn as [| | |? ? ? I0 Co]; subst. cbn [deps] in IH.
    assert (S : match collect (map (bottom_up V) old) with
                | inl e => collect (map (bottom_up va) old) = inl e
                | inr ds => collect (map (bottom_up va) old) = inr (map attr_of ds) /\ Forall (consistent infer) ds /\ Forall2 (below type_of) (map attr_of old) (map attr_of ds)
                end).
    { clear I0 Cn. induction old as [|d old IHo]; [cbn; auto|]. inversion IH as [|? ? I1 I2]; subst. inversion Co as [|? ? C1 C2]; subst. destruct (I1 C1) as [A B]. specialize (IHo I2 C2).
      cbn [map collect]. rewrite A. destruct (bottom_up V d) as [e|m]; cbn [amap]; [reflexivity|]. destruct (collect (map (bottom_up V) old)) as [e|ds].
      - rewrite IHo. reflexivity.
      - destruct IHo as (-> & X & Y). destruct (B m eq_refl) as [B1 B2]. split; [reflexivity|]. split; constructor; assumption. }
    destruct (collect (map (bottom_up V) old)) as [e|ds]; [rewrite S; split; [reflexivity|discriminate]|]. destruct S as (-> & Cd & Bd).
    cbn [va vn is_empty negb]. rewrite andb_false_r. unfold with_new. cbn [deps].
    destruct (leqb node_eqb old ds) eqn:Q.
    { apply nodes_eq in Q as ->. cbn [amap attr_of]. split; [destruct a; auto|]. intros m H. injection H as <-. split; [exact Cn|apply below_refl]. }
    destruct (leqb attr_eqb (map attr_of old) (map attr_of ds)) eqn:Qa.
    { apply attrs_eq in Qa. rewrite <- Qa. cbn [amap attr_of]. split; [destruct a; auto|]. intros m H. injection H as <-. split; [constructor; [rewrite <- Qa; exact I0|exact Cd]|apply below_refl]. }
    unfold make_op. assert (G : match infer o (map attr_of ds) with inl _ => match a with AValue _ => False | _ => True end | inr a' => below type_of a a' end).
    { destruct (infer o (map attr_of ds)) as [e|a'] eqn:I1; [|apply (Mono o _ _ a a' Bd I0 I1)]. destruct a as [|t|w]; auto. destruct (Stab o _ _ w Bd I0) as (a' & D). congruence. }
    destruct (infer o (map attr_of ds)) as [e|a'] eqn:I1; cbn [amap attr_of].
    + split; [destruct a; [reflexivity|reflexivity|destruct G]|discriminate].
    + split; [destruct a as [|t|w]; auto; inversion G; reflexivity|]. intros m H. injection H as <-. split; [constructor; assumption|exact G].
Qed.
(** Lowering with the attributes of the node or without *)
Lemma reuse a m : bottom_up V body = inr m -> attr_of m = a -> bottom_up (vn infer bad tup s body args a) body = inr m.
Proof.
  intros H Em. rewrite bu_eq in H |- *.
  assert (M : map (bottom_up (vn infer bad tup s body args a)) (deps body) = map (bottom_up V) (deps body)).
  { apply map_ext_in. intros d Hd. apply bu_ext. intros x ds Hx. destruct x; cbn [vn]; try reflexivity. replace (node_eqb _ body) with false; [reflexivity|]. symmetry. apply node_neq. intros D.
    apply sub_size in Hx. pose proof (dep_size body d Hd). rewrite D in Hx. lia. }
  rewrite M. destruct (collect _) as [e|ds]; [discriminate|]. destruct body as [v|k|k|o a0 old]; cbn [vn] in *; auto. rewrite node_refl. cbn [andb].
  cbn [is_empty negb] in H. rewrite andb_false_r in H. destruct (is_empty a); cbn [negb]; [exact H|]. apply with_new_op in H as (a' & ->). cbn in Em. subst. reflexivity.
Qed.
Lemma attr_main : exists r, infer_lambda infer type_of tuple_type l (map attr_of args) = Some r /\
  match r with
  | inl e => to_lower infer bad tup l ANone args = Some (inl e)
  | inr a => exists m, to_lower infer bad tup l ANone args = Some (inr m) /\ to_lower infer bad tup l a args = Some (inr m) /\ attr_of m = a /\ consistent infer m
  end.
Proof.
  destruct (count_ok s (length args)) eqn:C.
  - apply count_spec in C. rewrite (infer_run C). eexists. split; [reflexivity|]. destruct (sim body Cb) as [A B]. rewrite A.
    assert (R : forall a, to_lower infer bad tup l a args = Some (lift (bottom_up (vn infer bad tup s body args a) body))).
    { intros a. destruct (lower_run infer bad tup s body l Mk args a C) as [R|(e & _ & _ & D)]; [exact R|]. rewrite make_tuple in D. discriminate. }
    rewrite !R. destruct (bottom_up V body) as [e|m] eqn:Em; cbn [amap lift]; [reflexivity|]. exists m. split; [reflexivity|]. rewrite R, (reuse (attr_of m) m Em eq_refl). split; [reflexivity|]. split; [reflexivity|]. apply (B m eq_refl).
  - assert (F : ~ fits s (length args)) by (intros F; apply count_spec in F; congruence). rewrite (infer_count F). eexists. split; [reflexivity|]. apply (lower_count infer bad tup s body l Mk args ANone F).
Qed.
End Attr.
