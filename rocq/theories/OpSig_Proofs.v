(** Proofs about signatures: validation and texts. *)
From Verif Require Import Base Strings_Model Strings_Spec Strings_Proofs OpSig_Model OpSig_Spec.
Local Open Scope Z_scope.

Lemma seqb_eq a : forall b, str_eqb a b = true <-> a = b.
Proof.
  induction a as [|x a IH]; intros [|y b]; cbn [str_eqb]; try (split; discriminate || reflexivity).
  rewrite andb_true_iff, Z.eqb_eq, IH. split; [intros [-> ->]; reflexivity|intros H; injection H as -> ->; auto].
Qed.
Lemma existsb_str n l : existsb (str_eqb n) l = true <-> In n l.
Proof.
  rewrite existsb_exists. split; [intros (x & H & E); apply seqb_eq in E; subst x; exact H|intros H; exists n; split; [exact H|apply seqb_eq; reflexivity]].
Qed.
Lemma is_space_ok c : is_space c = true <-> 9 <= c <= 13 \/ c = 32.
Proof. unfold is_space. rewrite orb_true_iff, andb_true_iff, !Z.leb_le, Z.eqb_eq. tauto. Qed.

(** ** White space *)
Lemma spaces_nil : spaces [].
Proof. intros c []. Qed.
Lemma spaces_app a b : spaces (a ++ b) <-> spaces a /\ spaces b.
Proof. unfold spaces. split; [intros H; split; intros c Hc; apply H, in_app_iff; auto|]. intros [A B] c Hc. apply in_app_iff in Hc. destruct Hc; auto. Qed.
Lemma spaces_rev a : spaces a <-> spaces (rev a).
Proof. unfold spaces. split; intros H c Hc; apply H; [apply in_rev|rewrite <- in_rev]; exact Hc. Qed.
Lemma strip_l_spec s : exists w, spaces w /\ s = w ++ strip_l s /\ (forall c t, strip_l s = c :: t -> is_space c = false).
Proof.
  induction s as [|c s (w & W & E & H)]; cbn [strip_l]; [exists []; split; [apply spaces_nil|split; [reflexivity|discriminate]]|].
  destruct (is_space c) eqn:S.
  - exists (c :: w). split; [|split; [cbn; f_equal; exact E|exact H]]. intros d [<-|Hd]; [apply is_space_ok, S|apply W, Hd].
  - exists []. split; [apply spaces_nil|]. split; [reflexivity|]. intros d t X. injection X as <- _. exact S.
Qed.
Lemma strip_l_spaces w s : spaces w -> strip_l (w ++ s) = strip_l s.
Proof.
  induction w as [|c w IH]; intros H; [reflexivity|]. cbn [app strip_l]. rewrite (proj2 (is_space_ok c)) by (apply H; left; reflexivity).
  apply IH. intros d Hd. apply H. right. exact Hd.
Qed.
Lemma strip_l_id c t : is_space c = false -> strip_l (c :: t) = c :: t.
Proof. intros H. cbn [strip_l]. rewrite H. reflexivity. Qed.
Lemma strip_l_mid w c r : is_space c = false -> strip_l (w ++ c :: r) = strip_l w ++ c :: r.
Proof.
  intros H. induction w as [|d w IH]; cbn [app]; [cbn [strip_l app]; rewrite H; reflexivity|]. cbn [strip_l].
  destruct (is_space d); [exact IH|reflexivity].
Qed.
Lemma strip_r_spec s : exists w, spaces w /\ s = strip_r s ++ w /\ (forall t c, strip_r s = t ++ [c] -> is_space c = false).
Proof.
  destruct (strip_l_spec (rev s)) as (w & W & E & H). exists (rev w). split; [apply spaces_rev in W; exact W|]. split.
  - unfold strip_r. rewrite <- rev_app_distr, <- E, rev_involutive. reflexivity.
  - unfold strip_r. intros t c X. apply (H c (rev t)). rewrite <- (rev_involutive (strip_l (rev s))), X, rev_app_distr. reflexivity.
Qed.
Lemma strip_r_spaces w s : spaces w -> strip_r (s ++ w) = strip_r s.
Proof. intros H. unfold strip_r. rewrite rev_app_distr, strip_l_spaces; [reflexivity|]. apply spaces_rev in H. exact H. Qed.
Lemma strip_r_mid a c b : is_space c = false -> strip_r (a ++ c :: b) = a ++ c :: strip_r b.
Proof.
  intros H. unfold strip_r. rewrite rev_app_distr. cbn [rev]. rewrite <- app_assoc. cbn [app]. rewrite strip_l_mid by exact H.
  rewrite rev_app_distr. cbn [rev]. rewrite rev_involutive, <- app_assoc. reflexivity.
Qed.
Lemma strip_r_id s t c : s = t ++ [c] -> is_space c = false -> strip_r s = s.
Proof. intros -> H. rewrite strip_r_mid by exact H. reflexivity. Qed.

(** What begins and ends with something else than white space. *)
Definition solid (s : str) : Prop := exists a t c z, s = a :: t /\ s = z ++ [c] /\ is_space a = false /\ is_space c = false.
Lemma strip_solid w s w' : spaces w -> spaces w' -> solid s -> strip (w ++ s ++ w') = s.
Proof.
  intros W W' (a & t & c & z & E1 & E2 & A & C). unfold strip. rewrite strip_l_spaces by exact W. rewrite E1 at 1. cbn [app]. rewrite strip_l_id by exact A.
  replace (a :: t ++ w') with (s ++ w') by (rewrite E1; reflexivity). rewrite strip_r_spaces by exact W'. exact (strip_r_id _ _ _ E2 C).
Qed.
Lemma strip_spec s : exists w w', spaces w /\ spaces w' /\ s = w ++ strip s ++ w' /\ (strip s = [] \/ solid (strip s)).
Proof.
  destruct (strip_l_spec s) as (w & W & E & H). destruct (strip_r_spec (strip_l s)) as (w' & W' & E' & H'). exists w, w'.
  split; [exact W|]. split; [exact W'|]. unfold strip. split; [rewrite <- E'; exact E|].
  destruct (strip_r (strip_l s)) as [|a t] eqn:Er; [left; reflexivity|right].
  destruct (exists_last (l := a :: t) ltac:(discriminate)) as (z & c & Ez). exists a, t, c, z. split; [reflexivity|]. split; [exact Ez|].
  split; [|apply (H' z c Ez)]. apply (H a (t ++ w')). rewrite E'. reflexivity.
Qed.
Lemma trimmed_iff s : trimmed s <-> s = [] \/ solid s.
Proof.
  split.
  - intros T. destruct (strip_spec s) as (w & w' & W & W' & E & H). destruct (T _ _ _ E W W') as [-> ->]. cbn [app] in E. rewrite app_nil_r in E. rewrite E. exact H.
  - intros H w m w' E W W'. destruct H as [->|(a & t & c & z & E1 & E2 & A & C)].
    + destruct w; [|discriminate]. destruct m; [|discriminate]. cbn in E. auto.
    + split.
      * destruct w as [|x w]; [reflexivity|]. rewrite E1 in E. injection E as -> _. rewrite (proj2 (is_space_ok x)) in A; [discriminate|]. apply W. left. reflexivity.
      * destruct w' as [|x w']; [reflexivity|]. exfalso. destruct (exists_last (l := x :: w') ltac:(discriminate)) as (v & d & Ed). rewrite Ed, E2 in E.
        rewrite !app_assoc in E. apply app_inj_tail in E. destruct E as [_ <-]. rewrite (proj2 (is_space_ok c)) in C; [discriminate|]. apply W'. rewrite Ed. apply in_app_iff. right. left. reflexivity.
Qed.
Lemma strip_trimmed w s w' : spaces w -> spaces w' -> trimmed s -> strip (w ++ s ++ w') = s.
Proof.
  intros W W' T. apply trimmed_iff in T. destruct T as [->|T]; [|apply strip_solid; assumption].
  cbn [app]. unfold strip. rewrite strip_l_spaces by exact W. rewrite <- (app_nil_r w'), strip_l_spaces by exact W'. reflexivity.
Qed.
Lemma strip_is_trimmed s : trimmed (strip s).
Proof. apply trimmed_iff. destruct (strip_spec s) as (_ & _ & _ & _ & _ & H). exact H. Qed.

(** ** Identifiers *)
Definition idchar (c : Z) : Prop := c = 95 \/ letter c \/ digit c.
Lemma identifier_chars s : identifier s -> Forall idchar s /\ s <> [].
Proof.
  intros (c & t & -> & H & F). split; [|discriminate]. constructor; [unfold idchar; tauto|exact F].
Qed.
Lemma idchar_not c : idchar c -> is_space c = false /\ c <> ch_star /\ c <> ch_comma /\ c <> ch_colon /\ c <> ch_eq /\ c <> ch_bar.
Proof.
  unfold idchar, letter, digit, ch_star, ch_comma, ch_colon, ch_eq, ch_bar. intros H. split; [|lia].
  destruct (is_space c) eqn:E; [|reflexivity]. apply is_space_ok in E. lia.
Qed.
Lemma identifier_solid s : identifier s -> solid s.
Proof.
  intros I. destruct (identifier_chars s I) as [F N]. destruct s as [|a t]; [congruence|].
  destruct (exists_last (l := a :: t) N) as (z & c & Ez). exists a, t, c, z. split; [reflexivity|]. split; [exact Ez|].
  split; [inversion F; apply idchar_not; assumption|]. rewrite Ez in F. apply Forall_app in F. destruct F as [_ F]. inversion F. apply idchar_not. assumption.
Qed.

(** ** Searching and splitting *)
Lemma find_char_spec c s : match find_char c s with
  | (a, None) => a = s /\ ~ In c s
  | (a, Some b) => s = a ++ c :: b /\ ~ In c a
  end.
Proof.
  induction s as [|x s IH]; cbn [find_char]; [split; [reflexivity|intros []]|]. destruct (x =? c) eqn:E.
  - apply Z.eqb_eq in E. subst x. split; [reflexivity|intros []].
  - apply Z.eqb_neq in E. destruct (find_char c s) as [a [b|]]; destruct IH as [-> N]; (split; [reflexivity|intros [H|H]; contradiction]).
Qed.
Lemma find_char_at c a b : ~ In c a -> find_char c (a ++ c :: b) = (a, Some b).
Proof.
  induction a as [|x a IH]; intros N; cbn [app find_char].
  - rewrite Z.eqb_refl. reflexivity.
  - destruct (x =? c) eqn:E; [apply Z.eqb_eq in E; subst x; destruct N; left; reflexivity|]. rewrite IH; [reflexivity|]. intros H. apply N. right. exact H.
Qed.
Lemma find_char_none c a : ~ In c a -> find_char c a = (a, None).
Proof.
  induction a as [|x a IH]; intros N; cbn [find_char]; [reflexivity|].
  destruct (x =? c) eqn:E; [apply Z.eqb_eq in E; subst x; destruct N; left; reflexivity|]. rewrite IH; [reflexivity|]. intros H. apply N. right. exact H.
Qed.
Lemma split_none c a : ~ In c a -> split c a = [a].
Proof.
  induction a as [|x a IH]; intros N; cbn [split]; [reflexivity|].
  destruct (x =? c) eqn:E; [apply Z.eqb_eq in E; subst x; destruct N; left; reflexivity|]. rewrite IH; [reflexivity|]. intros H. apply N. right. exact H.
Qed.
Lemma split_at c a b : ~ In c a -> split c (a ++ c :: b) = a :: split c b.
Proof.
  induction a as [|x a IH]; intros N; cbn [app split].
  - rewrite Z.eqb_refl. reflexivity.
  - destruct (x =? c) eqn:E; [apply Z.eqb_eq in E; subst x; destruct N; left; reflexivity|]. rewrite IH; [reflexivity|]. intros H. apply N. right. exact H.
Qed.
Lemma split_join c s : exists p r, split c s = p :: r /\ s = join [c] (p :: r).
Proof.
  induction s as [|x s (p & r & E & J)]; [exists [], []; split; reflexivity|]. cbn [split]. destruct (x =? c) eqn:Ex.
  - apply Z.eqb_eq in Ex. subst x. rewrite E. exists [], (p :: r). split; [reflexivity|]. rewrite J. reflexivity.
  - rewrite E. exists (x :: p), r. split; [reflexivity|]. rewrite J. destruct r; reflexivity.
Qed.

Section Sig.
Context {V : Type}.
Notation param := (param V).
Notation signature := (signature V).

(** ** One parameter *)
Lemma parse_param_sound def (ds : list V) p ds' : parse_param def ds = inr (p, ds') ->
  param_text p def /\ ds = defaults [p] ++ ds' /\ (p_kind p = PosKw \/ p_kind p = Variadic).
Proof.
  unfold parse_param. destruct (strip_spec def) as (w1 & w4 & W1 & W4 & E & _). set (m := strip def) in *. clearbody m.
  assert (Hk : exists k rest w2, (match m with c :: t => if c =? ch_star then (Variadic, strip_l t) else (PosKw, m) | [] => (PosKw, m) end) = (k, rest) /\ spaces w2 /\
    m = (match k with Variadic => ch_star :: w2 | _ => [] end) ++ rest /\ (k = PosKw \/ k = Variadic)).
  { destruct m as [|c t]; [exists PosKw, [], []; repeat split; auto using spaces_nil|]. destruct (c =? ch_star) eqn:Ec.
    - apply Z.eqb_eq in Ec. subst c. destruct (strip_l_spec t) as (w & W & Et & _). exists Variadic, (strip_l t), w. split; [reflexivity|]. split; [exact W|]. cbn [app]. rewrite <- Et. auto.
    - exists PosKw, (c :: t), []. repeat split; auto using spaces_nil. }
  destruct Hk as (k & rest & w2 & -> & W2 & Em & Hk). destruct (rev rest) as [|c r] eqn:Er.
  - intros X. injection X as <- <-. split; [|split; [reflexivity|exact Hk]]. exists w1, w2, [], w4. repeat split; auto using spaces_nil. rewrite E, Em. cbn [p_kind p_name p_default]. rewrite <- !app_assoc. reflexivity.
  - assert (Rest : rest = rev r ++ [c]) by (rewrite <- (rev_involutive rest), Er; reflexivity). destruct (c =? ch_eq) eqn:Ec.
    + apply Z.eqb_eq in Ec. subst c. destruct ds as [|d ds0]; [discriminate|]. intros X. injection X as <- <-. split; [|split; [reflexivity|exact Hk]].
      destruct (strip_r_spec (rev r)) as (w3 & W3 & E3 & _). exists w1, w2, w3, w4. repeat split; auto. rewrite E, Em, Rest. cbn [p_kind p_name p_default]. rewrite E3 at 1. rewrite <- !app_assoc. reflexivity.
    + intros X. injection X as <- <-. split; [|split; [reflexivity|exact Hk]]. exists w1, w2, [], w4. repeat split; auto using spaces_nil. rewrite E, Em. cbn [p_kind p_name p_default]. rewrite <- !app_assoc. reflexivity.
Qed.
Lemma solid_app a b : solid a -> solid b -> solid (a ++ b).
Proof.
  intros (x & t & _ & _ & E1 & _ & A & _) (_ & _ & c & z & _ & E2 & _ & C). exists x, (t ++ b), c, (a ++ z).
  split; [rewrite E1; reflexivity|]. split; [rewrite E2, app_assoc; reflexivity|]. auto.
Qed.
Lemma solid_mid a w b : solid a -> solid b -> solid (a ++ w ++ b).
Proof.
  intros (x & t & _ & _ & E1 & _ & A & _) (_ & _ & c & z & _ & E2 & _ & C). exists x, (t ++ w ++ b), c, (a ++ w ++ z).
  split; [rewrite E1; reflexivity|]. split; [rewrite E2, <- !app_assoc; reflexivity|]. auto.
Qed.
Lemma solid_char c : is_space c = false -> solid [c].
Proof. intros H. exists c, [], c, []. auto. Qed.
(** The text of a parameter without the space around it. *)
Definition core (p : param) (w2 w3 : str) : str :=
  (match p_kind p with Variadic => ch_star :: w2 | _ => [] end) ++ p_name p ++ (match p_default p with Some _ => w3 ++ [ch_eq] | None => [] end).
Lemma core_solid p w2 w3 : identifier (p_name p) -> solid (core p w2 w3).
Proof.
  intros I. apply identifier_solid in I. unfold core.
  assert (H : solid (p_name p ++ match p_default p with Some _ => w3 ++ [ch_eq] | None => [] end)).
  { destruct (p_default p); [apply solid_mid; [exact I|apply solid_char; reflexivity]|rewrite app_nil_r; exact I]. }
  destruct (p_kind p); cbn [app]; auto. change (ch_star :: w2 ++ ?x) with ([ch_star] ++ w2 ++ x). apply solid_mid; [apply solid_char; reflexivity|exact H].
Qed.
Lemma param_text_core (p : param) t : param_text p t <-> exists w1 w2 w3 w4, spaces w1 /\ spaces w2 /\ spaces w3 /\ spaces w4 /\ t = w1 ++ core p w2 w3 ++ w4.
Proof. unfold param_text, core. split; intros (w1 & w2 & w3 & w4 & A & B & C & D & ->); exists w1, w2, w3, w4; rewrite <- ?app_assoc; auto. Qed.
Lemma parse_param_complete (p : param) t (ds : list V) : param_text p t -> identifier (p_name p) -> (p_kind p = PosKw \/ p_kind p = Variadic) ->
  parse_param t (defaults [p] ++ ds) = inr (p, ds).
Proof.
  intros T I Hk. apply param_text_core in T. destruct T as (w1 & w2 & w3 & w4 & W1 & W2 & W3 & W4 & ->). unfold parse_param.
  rewrite strip_solid by (auto using core_solid).
  pose proof (identifier_solid _ I) as (a & u & c & z & E1 & E2 & A & C). destruct (identifier_chars _ I) as [F _].
  assert (Na : (a =? ch_star) = false) by (apply Z.eqb_neq; rewrite E1 in F; inversion F; apply idchar_not; assumption).
  assert (Nc : (c =? ch_eq) = false).
  { apply Z.eqb_neq. rewrite E2 in F. apply Forall_app in F. destruct F as [_ F]. inversion F. apply idchar_not; assumption. }
  assert (K : (match core p w2 w3 with c :: t => if c =? ch_star then (Variadic, strip_l t) else (PosKw, core p w2 w3) | [] => (PosKw, core p w2 w3) end)
    = (p_kind p, p_name p ++ match p_default p with Some _ => w3 ++ [ch_eq] | None => [] end)).
  { unfold core. destruct Hk as [-> | ->]; cbn [app].
    - rewrite E1 at 1. cbn [app]. rewrite Na. reflexivity.
    - rewrite Z.eqb_refl, strip_l_spaces by exact W2. f_equal. rewrite E1. cbn [app]. apply strip_l_id, A. }
  rewrite K. destruct (p_default p) as [d|] eqn:Ed.
  - rewrite !rev_app_distr. cbn [rev app]. rewrite Z.eqb_refl. rewrite rev_app_distr, !rev_involutive. cbn [defaults]. rewrite Ed. cbn [app].
    rewrite strip_r_spaces by exact W3. rewrite (strip_r_id _ _ _ E2 C). destruct p; cbn in *. subst. reflexivity.
  - rewrite app_nil_r. rewrite E2 at 1. rewrite rev_app_distr. cbn [rev app]. rewrite Nc. cbn [defaults]. rewrite Ed. cbn [app]. destruct p; cbn in *. subst. reflexivity.
Qed.
Lemma param_text_no (p : param) t c : param_text p t -> identifier (p_name p) -> is_space c = false -> ~ idchar c -> c <> ch_star -> c <> ch_eq -> ~ In c t.
Proof.
  intros T I Sc Ic N1 N2 H. apply param_text_core in T. destruct T as (w1 & w2 & w3 & w4 & W1 & W2 & W3 & W4 & ->).
  assert (Sp : forall w, spaces w -> ~ In c w).
  { intros w W Hw. apply W, is_space_ok in Hw. congruence. }
  destruct (identifier_chars _ I) as [F _].
  apply in_app_iff in H. destruct H as [H|H]; [exact (Sp _ W1 H)|]. apply in_app_iff in H. destruct H as [H|H]; [|exact (Sp _ W4 H)].
  unfold core in H. apply in_app_iff in H. destruct H as [H|H].
  - destruct (p_kind p); try (destruct H; fail). destruct H as [H|H]; [congruence|exact (Sp _ W2 H)].
  - apply in_app_iff in H. destruct H as [H|H]; [apply Ic; revert H; apply Forall_forall, F|].
    destruct (p_default p); [|destruct H]. apply in_app_iff in H. destruct H as [H|[H|[]]]; [exact (Sp _ W3 H)|congruence].
Qed.
Lemma param_text_pad (p : param) t w w' : param_text p t -> spaces w -> spaces w' -> param_text p (w ++ t ++ w').
Proof.
  intros T W W'. apply param_text_core in T. destruct T as (w1 & w2 & w3 & w4 & W1 & W2 & W3 & W4 & ->). apply param_text_core.
  exists (w ++ w1), w2, w3, (w4 ++ w'). rewrite !spaces_app, <- !app_assoc. auto 8.
Qed.

(** ** All parameters *)
Lemma params_text_pad (ps : list param) t w w' : params_text ps t -> spaces w -> spaces w' -> params_text ps (w ++ t ++ w').
Proof.
  intros T W W'. revert w W. induction T as [p t H|p t ps ts H T IH]; intros w W.
  - constructor. apply param_text_pad; assumption.
  - rewrite <- app_assoc. cbn [app]. rewrite app_assoc. constructor.
    + rewrite <- (app_nil_r (w ++ t)), <- app_assoc. apply param_text_pad; auto using spaces_nil.
    + apply (IH []), spaces_nil.
Qed.
Lemma params_text_strip (ps : list param) t : params_text ps t -> Forall (fun p => identifier (p_name p)) ps -> params_text ps (strip t) /\ strip t <> [].
Proof.
  intros T F. unfold strip.
  assert (L : params_text ps (strip_l t) /\ exists c u, strip_l t = c :: u /\ is_space c = false).
  { inversion T as [p u H|p u ps' ts H T']; subst; inversion F as [|? ? I F']; subst; apply param_text_core in H; destruct H as (w1 & w2 & w3 & w4 & W1 & W2 & W3 & W4 & ->);
      destruct (core_solid p w2 w3 I) as (a & v & _ & _ & E & _ & A & _).
    - rewrite strip_l_spaces by exact W1. rewrite E. cbn [app]. rewrite strip_l_id by exact A. split; [|eauto]. constructor. apply param_text_core. exists [], w2, w3, w4. rewrite E. auto using spaces_nil.
    - rewrite <- !app_assoc, strip_l_spaces by exact W1. rewrite E. cbn [app]. rewrite strip_l_id by exact A. split; [|eauto].
      replace (a :: v ++ w4 ++ ch_comma :: ts) with ((core p w2 w3 ++ w4) ++ ch_comma :: ts) by (rewrite E, <- app_assoc; reflexivity).
      constructor; [|exact T']. apply param_text_core. exists [], w2, w3, w4. auto using spaces_nil. }
  destruct L as [T' (c & u & Ec & Sc)]. split.
  - clear Ec Sc c u. set (x := strip_l t) in *. clearbody x. clear T. induction T' as [p u H|p u ps ts H T' IH]; inversion F as [|? ? I F']; subst.
    + apply param_text_core in H; destruct H as (w1 & w2 & w3 & w4 & W1 & W2 & W3 & W4 & ->). rewrite app_assoc, strip_r_spaces by exact W4.
      destruct (core_solid p w2 w3 I) as (_ & _ & d & z & _ & E & _ & C). rewrite E, app_assoc. rewrite strip_r_mid by exact C. cbn [strip_r rev strip_l].
      rewrite <- app_assoc. unfold strip_r. cbn [rev strip_l]. rewrite <- E. constructor. apply param_text_core. exists w1, w2, w3, []. rewrite app_nil_r. auto using spaces_nil.
    + rewrite strip_r_mid by reflexivity. constructor; [exact H|]. apply IH, F'.
  - rewrite Ec. change (c :: u) with ([] ++ c :: u). rewrite strip_r_mid by exact Sc. discriminate.
Qed.
Lemma defaults_app (a b : list param) : defaults (a ++ b) = defaults a ++ defaults b.
Proof. induction a as [|p a IH]; cbn [app defaults]; [reflexivity|]. destruct (p_default p); cbn [app]; rewrite IH; reflexivity. Qed.
Lemma parse_params_complete (ps : list param) t (ds : list V) : params_text ps t -> Forall (fun p => identifier (p_name p)) ps -> (forall p, In p ps -> p_kind p = PosKw \/ p_kind p = Variadic) ->
  parse_params (split ch_comma t) (defaults ps ++ ds) = inr (ps, ds).
Proof.
  intros T. revert ds. induction T as [p t H|p t ps ts H T IH]; intros ds F K; inversion F as [|? ? I F']; subst;
    (assert (Nc : ~ In ch_comma t) by (apply (param_text_no p); auto; try reflexivity; try discriminate; unfold idchar, letter, digit, ch_comma; lia)).
  - rewrite split_none by exact Nc. cbn [parse_params]. rewrite parse_param_complete by (auto; apply K; left; reflexivity). reflexivity.
  - rewrite split_at by exact Nc. cbn [parse_params]. change (p :: ps) with ([p] ++ ps) at 1. rewrite defaults_app, <- app_assoc.
    rewrite parse_param_complete by (auto; apply K; left; reflexivity). rewrite IH; [reflexivity|exact F'|]. intros q Hq. apply K. right. exact Hq.
Qed.
Lemma parse_params_sound : forall r d (ds : list V) ps ds', parse_params (d :: r) ds = inr (ps, ds') ->
  params_text ps (join [ch_comma] (d :: r)) /\ ds = defaults ps ++ ds' /\ forall p, In p ps -> p_kind p = PosKw \/ p_kind p = Variadic.
Proof.
  induction r as [|e r IH]; intros d ds ps ds'; cbn [parse_params].
  - destruct (parse_param d ds) as [|[p ds1]] eqn:E; [discriminate|]. intros X. injection X as <- <-. destruct (parse_param_sound _ _ _ _ E) as (T & D & K).
    split; [constructor; exact T|]. split; [exact D|]. intros q [<-|[]]. exact K.
  - destruct (parse_param d ds) as [|[p ds1]] eqn:E; [discriminate|]. destruct (parse_param_sound _ _ _ _ E) as (T & D & K).
    specialize (IH e ds1). cbn [parse_params] in IH. 
    destruct (match parse_param e ds1 with inl e0 => inl e0 | inr (p0, ds0) => match parse_params r ds0 with inl e0 => inl e0 | inr (ps0, ds2) => inr (p0 :: ps0, ds2) end end) as [|[ps1 ds2]]; [discriminate|].
    intros X. injection X as <- <-. destruct (IH ps1 ds2 eq_refl) as (T' & D' & K'). split; [|split].
    + change (join [ch_comma] (d :: e :: r)) with (d ++ ch_comma :: join [ch_comma] (e :: r)). constructor; assumption.
    + rewrite D, D'. change (p :: ps1) with ([p] ++ ps1). rewrite defaults_app, <- app_assoc. reflexivity.
    + intros q [<-|Hq]; [exact K|apply K', Hq].
Qed.

(** ** Validation *)
Lemma check_legal_ok (ps : list param) : check_legal ps = None <-> Forall (fun p => identifier (p_name p)) ps.
Proof.
  induction ps as [|p ps IH]; cbn [check_legal]; [split; [constructor|reflexivity]|]. rewrite Forall_cons_iff, <- IH, <- is_identifier_ok.
  destruct (is_identifier (p_name p)); cbn [negb]; split; try discriminate; intuition discriminate.
Qed.
Lemma check_unique_ok (ps : list param) : forall seen, check_unique seen ps = None <-> NoDup (map p_name ps) /\ forall n, In n seen -> ~ In n (map p_name ps).
Proof.
  induction ps as [|p ps IH]; intros seen; cbn [check_unique map]; [split; [split; [constructor|auto]|reflexivity]|].
  destruct (existsb (str_eqb (p_name p)) seen) eqn:E.
  - apply existsb_str in E. split; [discriminate|]. intros [_ H]. destruct (H _ E). left. reflexivity.
  - assert (Ns : ~ In (p_name p) seen) by (intros H; apply existsb_str in H; congruence). rewrite IH, NoDup_cons_iff. cbn [In]. split.
    + intros [N H]. split; [split; [apply H; left; reflexivity|exact N]|]. intros n Hn [<-|K]; [contradiction|]. apply (H n); auto.
    + intros [[N1 N2] H]. split; [exact N2|]. intros n [<-|Hn]; [exact N1|]. intros K. apply (H n Hn). auto.
Qed.
Lemma check_kinds_ok (ps : list param) : check_kinds ps = None <-> forall p, In p ps -> p_kind p = PosKw \/ p_kind p = Variadic.
Proof.
  induction ps as [|p ps IH]; cbn [check_kinds]; [split; [intros _ p []|reflexivity]|].
  destruct (p_kind p) eqn:K.
  - rewrite IH. split; [intros H q [<-|Hq]; auto|]. intros H q Hq. apply H. right. exact Hq.
  - rewrite IH. split; [intros H q [<-|Hq]; auto|]. intros H q Hq. apply H. right. exact Hq.
  - split; [discriminate|]. intros H. destruct (H p (or_introl eq_refl)); congruence.
Qed.
Lemma check_variadic_ok (ps : list param) : (forall p, In p ps -> p_kind p = PosKw \/ p_kind p = Variadic) ->
  (check_variadic ps = None <-> exists named variadic, shape_ok ps named variadic).
Proof.
  induction ps as [|p ps IH]; intros K; [split; [intros _; exists [], None; split; [reflexivity|intros q []]|reflexivity]|].
  cbn [check_variadic]. destruct ps as [|q ps].
  - destruct (K p (or_introl eq_refl)) as [Kp|Kp]; rewrite Kp.
    + split; [|reflexivity]. intros _. exists [p], None. split; [reflexivity|]. intros x [<-|[]]. exact Kp.
    + destruct (p_default p) as [d|] eqn:Ed.
      * split; [discriminate|]. intros (named & vr & E & H). destruct named as [|x named].
        -- destruct vr; [|discriminate]. injection E as ->. discriminate.
        -- injection E as <- _. specialize (H p (or_introl eq_refl)). congruence.
      * split; [|reflexivity]. intros _. exists [], (Some (p_name p)). split; [|intros x []]. destruct p; cbn in *; subst. reflexivity.
  - destruct (K p (or_introl eq_refl)) as [Kp|Kp]; rewrite Kp.
    + rewrite IH by (intros x Hx; apply K; right; exact Hx). split.
      * intros (named & vr & E & H). exists (p :: named), vr. split; [rewrite E; reflexivity|]. intros x [<-|Hx]; auto.
      * intros (named & vr & E & H). destruct named as [|x named]; [destruct vr; discriminate|]. injection E as <- E. exists named, vr. split; [exact E|]. intros y Hy. apply H. right. exact Hy.
    + split; [discriminate|]. intros (named & vr & E & H). destruct named as [|x named]; [destruct vr; discriminate|]. injection E as <- _. specialize (H p (or_introl eq_refl)). congruence.
Qed.
Lemma check_defaults_ok (named : list param) vr : (forall p, In p named -> p_kind p = PosKw) -> forall had,
  check_defaults had (named ++ match vr with Some n => [mkP n None Variadic] | None => [] end) = None <->
  defaults_last named /\ (had = true -> forall p, In p named -> p_default p <> None).
Proof.
  intros K. induction named as [|p named IH]; intros had; cbn [app].
  - split; [|destruct vr; reflexivity]. intros _. split; [intros i j x y d _ H; destruct i; discriminate|intros _ x []].
  - cbn [check_defaults]. rewrite (K p (or_introl eq_refl)). assert (K' : forall q, In q named -> p_kind q = PosKw) by (intros q Hq; apply K; right; exact Hq).
    specialize (IH K'). destruct (p_default p) as [d|] eqn:Ed.
    + rewrite IH. split.
      * intros [A B]. split.
        -- intros i j x y e L Hi Hj Hx. destruct j as [|j]; [lia|]. destruct i as [|i].
           ++ apply B; [reflexivity|]. exact (nth_error_In named j Hj).
           ++ apply (A i j x y e); auto; lia.
        -- intros _ x [<-|Hx]; [congruence|]. apply B; auto.
      * intros [A B]. split.
        -- intros i j x y e L Hi Hj. apply (A (S i) (S j) x y e); auto; lia.
        -- intros _ x Hx. apply In_nth_error in Hx. destruct Hx as (j & Hj). apply (A 0%nat (S j) p x d); auto; lia.
    + destruct had.
      * split; [discriminate|]. intros [_ B]. destruct (B eq_refl p (or_introl eq_refl) Ed).
      * rewrite IH. split.
        -- intros [A _]. split; [|discriminate]. intros i j x y e L Hi Hj Hx. destruct j as [|j]; [lia|]. destruct i as [|i]; [cbn in Hi; congruence|]. apply (A i j x y e); auto; lia.
        -- intros [A _]. split; [|discriminate]. intros i j x y e L Hi Hj. apply (A (S i) (S j) x y e); auto; lia.
Qed.
Lemma validate_ok (s : signature) : validate s = None <-> well_formed s.
Proof.
  unfold validate, well_formed, check_aux. 
  assert (O : forall a b : option verr, orelse a b = None <-> a = None /\ b = None) by (intros [|] b; cbn; intuition discriminate).
  rewrite !O, check_legal_ok, check_unique_ok, check_kinds_ok.
  assert (C : (if existsb (Z.eqb ch_colon) (aux_name s) then Some AuxColon else None) = None <-> ~ In ch_colon (aux_name s)).
  { destruct (existsb (Z.eqb ch_colon) (aux_name s)) eqn:E.
    - apply existsb_exists in E. destruct E as (x & H & X). apply Z.eqb_eq in X. subst x. split; [discriminate|contradiction].
    - split; [|reflexivity]. intros _ H. assert (existsb (Z.eqb ch_colon) (aux_name s) = true) by (apply existsb_exists; exists ch_colon; split; [exact H|apply Z.eqb_refl]). congruence. }
  rewrite C. rewrite Forall_forall. split.
  - intros [[A [B _]] (K & Dd & Vr & X)]. split; [exact A|]. split; [exact B|]. split; [|exact X].
    apply (check_variadic_ok _ K) in Vr. destruct Vr as (named & vr & E & H). exists named, vr. split; [split; assumption|].
    rewrite E in Dd. apply (check_defaults_ok named vr H) in Dd. apply Dd.
  - intros (A & B & (named & vr & [E H] & Dd) & X).
    assert (K : forall p, In p (params s) -> p_kind p = PosKw \/ p_kind p = Variadic).
    { intros p. rewrite E. intros Hp. apply in_app_iff in Hp. destruct Hp as [Hp|Hp]; [left; apply H, Hp|]. destruct vr; [|destruct Hp]. destruct Hp as [<-|[]]. right. reflexivity. }
    split; [split; [exact A|split; [exact B|intros n []]]|]. split; [exact K|]. split; [rewrite E; apply (check_defaults_ok named vr H); split; [exact Dd|discriminate]|].
    split; [|exact X]. apply (check_variadic_ok _ K). exists named, vr. split; assumption.
Qed.
End Sig.
