(** C68: the printed form of an expression stands for that expression.
    C69: what gets a line of its own, and under which name. *)
From Coq Require Import Ascii String.
From Verif Require Import Base Strings_Model Strings_Proofs Repr_Model Repr_Spec Repr_Parse Repr_Proofs Repr_Inj Repr_Stmt Repr_Sel.
Local Open Scope list_scope.

Definition ex_op (s : string) := DOp true (bytes s).
Definition ex_x := DLeaf (bytes "x"). Definition ex_y := DLeaf (bytes "y").

(** The printer always succeeds; every line is a Python expression that stands for the
    node it defines, given the lines before it, and the last line stands for the whole. *)
Theorem C68_reads : forall e, exists lines last env, to_debug_string e = Some (lines, last) /\ defines lines env /\
  exists a, parses last a /\ reads (named_as env) a e.
Proof. intros e. destruct (debug_string_ok e) as (lines & last & env & H1 & H2 & H3 & _). eauto 8. Qed.
Print Assumptions C68_reads.
(** -(x + y) ** -2 * x: the sum needs its parentheses, the exponent does not. *)
Example C68_reads_ex : to_debug_string
  (ex_op "math.multiply" [ex_op "math.pow" [ex_op "math.neg" [ex_op "math.add" [ex_x; ex_y]]; DNegNum 2]; ex_op "core.getattr" [DNum 7; DText (bytes "k")]]) =
  Some ([], [TLPar; TSym SMinus; TLPar; TName (bytes "L"); TDot; TName (bytes "x"); TSym SPlus; TName (bytes "L"); TDot; TName (bytes "y"); TRPar; TRPar;
             TSym SPow; TSym SMinus; TNum 2; TSym SMul; TLPar; TNum 7; TRPar; TDot; TName (bytes "k")]).
Proof. vm_compute. reflexivity. Qed.

(** Two expressions with the same text are equal, if neither needs a line of its own for a
    part of it nor loses anything in print. *)
Theorem C68_injective : forall e e' text, to_debug_string e = Some ([], text) -> to_debug_string e' = Some ([], text) ->
  tidy e -> tidy e' -> e = e'.
Proof.
  assert (P : forall e text, to_debug_string e = Some ([], text) -> exists a, parses text a /\ reads nor a e).
  { intros e text E. destruct (debug_string_ok e) as (lines & last & env & H1 & H2 & (a & H3 & H4) & H5 & _).
    rewrite E in H1. injection H1 as <- <-. destruct env; [|discriminate]. exists a. split; [exact H3|].
    eapply reads_mono; [|exact H4]. intros n g []. }
  intros e e' text H H' T T'. destruct (P _ _ H) as (a & Pa & Ra). destruct (P _ _ H') as (b & Pb & Rb).
  rewrite (parses_fun _ _ _ Pb Pa) in Rb. apply (proj1 reads_fun3 a e Ra T e' Rb T').
Qed.
Print Assumptions C68_injective.
Example C68_injective_ex : to_debug_string (ex_op "math.subtract" [ex_x; ex_op "math.subtract" [ex_y; DNum 1]]) =
    Some ([], [TName (bytes "L"); TDot; TName (bytes "x"); TSym SMinus; TLPar; TName (bytes "L"); TDot; TName (bytes "y"); TSym SMinus; TNum 1; TRPar])
  /\ tidy (ex_op "math.subtract" [ex_x; ex_op "math.subtract" [ex_y; DNum 1]]).
Proof.
  split; [vm_compute; reflexivity|]. intros n H.
  repeat (inversion H; subst; clear H; [cbn; repeat split; try discriminate; vm_compute; discriminate|];
    match goal with K : In _ _ |- _ => cbn in K; rename K into J end;
    match goal with S : sub _ _ |- _ => rename S into H end;
    repeat (destruct J as [<-|J]); try contradiction);
  repeat match goal with S : sub _ _ |- _ => inversion S; subst; clear S; cbn in * end; try contradiction; try exact I.
  all: repeat match goal with J : _ \/ _ |- _ => destruct J as [J|J] | J : False |- _ => destruct J | J : _ = ?g |- _ => subst g
    | S : sub _ _ |- _ => inversion S; subst; clear S; cbn in * end; try exact I; try (repeat split; try discriminate; vm_compute; discriminate).
Qed.

(** Without the last hypothesis this is false: the literal -5 and the negation of the
    literal 5 are printed alike, and so is a part with another source location. *)
Theorem C68_negative_refuted : exists e e' text, e <> e' /\ to_debug_string e = Some ([], text) /\ to_debug_string e' = Some ([], text).
Proof. exists (DNegNum 5), (ex_op "math.neg" [DNum 5]), [TSym SMinus; TNum 5]. split; [discriminate|]. split; vm_compute; reflexivity. Qed.
Print Assumptions C68_negative_refuted.

Lemma env_selected root env : Forall (entry (gen_names (post_order root [])) (post_order root [])) env ->
  (forall n, In n (post_order root []) -> lookup_name (gen_names (post_order root [])) n <> None -> In n (map snd env)) ->
  forall n, In n (map snd env) <-> In n (select_statements (post_order root [])).
Proof.
  intros F A n. split.
  - intros H. apply in_map_iff in H. destruct H as (p & <- & Hp). rewrite Forall_forall in F. destruct (F p Hp) as [L _].
    apply lookup_in in L. apply gen_shape in L. apply L.
  - intros H. apply A; [apply (select_incl _ _ _ _ H)|]. intros K. apply lookup_none in K. unfold gen_names in K. rewrite gen_nodes in K. contradiction.
Qed.

(** A part of the expression gets a line of its own exactly if it is annotated with a name,
    or is used twice and one of its operands is an operation without a line of its own.
    It gets one line only. *)
Theorem C69_lines : forall root, exists lines last env, to_debug_string root = Some (lines, last) /\ defines lines env /\
  NoDup (map snd env) /\ (forall n, In n (map snd env) -> sub n root) /\
  forall n, sub n root -> (In n (map snd env) <->
    is_named n \/ (used_twice root n /\ exists d, In d (deps n) /\ deps d <> [] /\ ~ In d (map snd env))).
Proof.
  intros root. destruct (debug_string_ok root) as (lines & last & env & H1 & H2 & _ & _ & F & N & A).
  exists lines, last, env. split; [exact H1|]. split; [exact H2|]. split; [exact N|]. pose proof (env_selected root env F A) as S. split.
  - intros n H. apply S in H. apply nodes_sub, (select_incl _ _ _ _ H).
  - intros n H. rewrite S, (selected root n H).
    split; (intros [?|(U & d & D1 & D2 & D3)]; [left; assumption|right; split; [exact U|]; exists d; repeat split; try assumption; intros K; apply D3, S, K]).
Qed.
Print Assumptions C69_lines.
(** (-x + y) * (-x + y): the sum is printed once. *)
Example C69_lines_ex : let s := ex_op "math.add" [ex_op "math.neg" [ex_x]; ex_y] in to_debug_string (ex_op "math.multiply" [s; s]) =
  Some ([(bytes "_1", [TSym SMinus; TName (bytes "L"); TDot; TName (bytes "x"); TSym SPlus; TName (bytes "L"); TDot; TName (bytes "y")])],
        [TName (bytes "_1"); TSym SMul; TName (bytes "_1")]).
Proof. vm_compute. reflexivity. Qed.

(** Different lines define different names, unless a name in use is another name in use
    followed by "._" and a number. *)
Theorem C69_names : forall root lines last, to_debug_string root = Some (lines, last) ->
  (forall s d, digits d -> annotated root s -> ~ annotated root (s ++ [ch_dot; ch_us] ++ d)) ->
  NoDup (map fst lines).
Proof.
  intros root lines last E G. destruct (debug_string_ok root) as (lines' & last' & env & H1 & _ & _ & Hf & F & N & A).
  rewrite E in H1. injection H1 as <- <-. rewrite Hf.
  assert (U : NoDup (map snd (gen_names (post_order root [])))).
  { unfold gen_names. apply gen_unique; [|apply incl_refl|intros b; unfold name_count; cbn; lia].
    intros n n' b b' k Hn Hn' En En' Eb. apply select_incl, nodes_sub in Hn, Hn'.
    destruct (safe_form _ _ En) as (r & x & -> & _). destruct (safe_form _ _ En') as (r' & x' & -> & _).
    apply (G b (dec k) (dec_digits k)); [exists r, x; exact Hn|]. rewrite <- Eb. exists r', x'. exact Hn'. }
  assert (I : forall n n' s, In (n, s) (gen_names (post_order root [])) -> In (n', s) (gen_names (post_order root [])) -> n = n').
  { revert U. generalize (gen_names (post_order root [])). intros l U n n' s. induction l as [|[m t] l IH]; intros H H'; [destruct H|].
    cbn in U. apply NoDup_cons_iff in U. destruct U as [U1 U2]. destruct H as [H|H], H' as [H'|H'].
    - congruence.
    - injection H as -> ->. exfalso. apply U1. apply in_map_iff. exists (n', s). auto.
    - injection H' as -> ->. exfalso. apply U1. apply in_map_iff. exists (n, s). auto.
    - apply IH; assumption. }
  clear -F N I. induction env as [|[s n] env IH]; [constructor|]. cbn [map fst snd] in *. apply NoDup_cons_iff in N. destruct N as [N1 N2].
  inversion F as [|? ? [L _] F']; subst. cbn [fst snd] in L. constructor; [|apply IH; assumption].
  intros H. apply in_map_iff in H. destruct H as ([s' n'] & Es & H). cbn in Es. subst s'.
  rewrite Forall_forall in F'. destruct (F' _ H) as [L' _]. cbn in L'. apply lookup_in in L, L'. rewrite (I _ _ _ L L') in N1.
  apply N1, in_map_iff. exists (s, n'). auto.
Qed.
Print Assumptions C69_names.
Definition ex_named (s : string) (e : dexpr) := ex_op "annotation.name" [e; DText (bytes s)].
(** Two parts called "a", one called "b" and one with a name that is no identifier. *)
Example C69_names_ex : exists lines last, to_debug_string
    (ex_op "core.make_tuple" [ex_named "a" ex_x; ex_named "a" ex_y; ex_named "b" ex_x; ex_named "not a name" ex_x]) = Some (lines, last) /\
  map fst lines = [bytes "a._1"; bytes "a._2"; bytes "b"; bytes "_1"].
Proof. eexists _, _. split; vm_compute; reflexivity. Qed.
(** Otherwise two lines may define the same name. *)
Theorem C69_clash_refuted : exists root lines last, to_debug_string root = Some (lines, last) /\ ~ NoDup (map fst lines).
Proof.
  exists (ex_op "core.make_tuple" [ex_named "a" ex_x; ex_named "a" ex_y; ex_named "a._1" (DNum 5)]). eexists _, _. split; [vm_compute; reflexivity|].
  intros H. vm_compute in H. apply NoDup_cons_iff in H. destruct H as [H _]. apply H. right. left. reflexivity.
Qed.
Print Assumptions C69_clash_refuted.
(** A name may also be the text of something else: the leaf y called "L.x" next to the leaf
    x.  Then different expressions are printed alike. *)
Theorem C69_shadow_refuted : exists e e', e <> e' /\ (exists text, to_debug_string e = Some text /\ to_debug_string e' = Some text) /\
  sub (DLeaf (bytes "x")) e /\ annotated e (bytes "L.x").
Proof.
  exists (ex_op "math.subtract" [ex_x; ex_named "L.x" ex_y]), (ex_op "math.subtract" [ex_named "L.x" ex_y; ex_x]).
  split; [discriminate|]. split; [eexists; split; vm_compute; reflexivity|]. split.
  - eapply sub_dep; [left; reflexivity|]. apply sub_refl.
  - exists true, ex_y. eapply sub_dep; [right; left; reflexivity|]. apply sub_refl.
Qed.
Print Assumptions C69_shadow_refuted.
