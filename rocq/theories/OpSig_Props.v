(** C63: signatures of operators, their texts, and the binding of arguments. *)
From Coq Require Import Permutation DecimalNat.
From Verif Require Import Base Strings_Model Strings_Spec Strings_Proofs OpSig_Model OpSig_Spec OpSig_Proofs OpSig_Bind.

(** ValidateSignature accepts exactly the well-formed signatures. *)
Theorem C63_valid V (s : signature V) : validate s = None <-> well_formed s.
Proof. apply validate_ok. Qed.
Print Assumptions C63_valid.

Lemma params_of_wf V (s : signature V) : well_formed s -> Forall (fun p => identifier (p_name p)) (params s) /\ forall p, In p (params s) -> p_kind p = PosKw \/ p_kind p = Variadic.
Proof.
  intros (A & _ & (named & vr & [E H] & _) & _). split; [apply Forall_forall; exact A|]. rewrite E. intros p Hp. apply in_app_iff in Hp.
  destruct Hp as [Hp|Hp]; [left; apply H, Hp|]. destruct vr; [|destruct Hp]. destruct Hp as [<-|[]]. right. reflexivity.
Qed.
Lemma aux_of_text nm opts ta : ~ In ch_colon nm -> trimmed nm -> trimmed opts -> aux_text nm opts ta ->
  get_aux_name (strip_l ta) = nm /\ get_aux_opts (strip_l ta) = opts.
Proof.
  intros Nc Tn To (w1 & w2 & w3 & w4 & W1 & W2 & W3 & W4 & H).
  assert (Sp : forall w, spaces w -> ~ In ch_colon w) by (intros w W Hw; apply W in Hw; unfold ch_colon in Hw; lia).
  assert (Sl : forall x, exists w, spaces w /\ strip_l (w1 ++ nm ++ x) = w ++ nm ++ strip_l x \/ strip_l (w1 ++ nm ++ x) = nm ++ x).
  { intros x. rewrite strip_l_spaces by exact W1. apply trimmed_iff in Tn. destruct Tn as [->|(a & t & _ & _ & E & _ & A & _)].
    - exists []. left. split; [apply spaces_nil|reflexivity].
    - exists []. right. rewrite E. cbn [app]. apply strip_l_id, A. }
  unfold get_aux_name, get_aux_opts. destruct H as [[-> ->]| ->].
  - assert (X : strip (strip_l (w1 ++ nm ++ w2)) = nm /\ ~ In ch_colon (strip_l (w1 ++ nm ++ w2))).
    { destruct (Sl w2) as (w & [[W E]|E]); rewrite E.
      - assert (E2 : strip_l w2 = []) by (rewrite <- (app_nil_r w2), strip_l_spaces by exact W2; reflexivity). rewrite E2. split; [apply strip_trimmed; auto using spaces_nil|].
        rewrite !in_app_iff. intros [H|[H|[]]]; [exact (Sp _ W H)|auto].
      - split; [apply (strip_trimmed []); auto using spaces_nil|]. rewrite in_app_iff. intros [H|H]; [auto|exact (Sp _ W2 H)]. }
    destruct X as [X1 X2]. rewrite find_char_none by exact X2. split; [exact X1|reflexivity].
  - set (rest := w3 ++ opts ++ w4).
    assert (X : exists w w', spaces w /\ spaces w' /\ strip_l (w1 ++ nm ++ w2 ++ ch_colon :: rest) = (w ++ nm ++ w') ++ ch_colon :: rest).
    { destruct (Sl (w2 ++ ch_colon :: rest)) as (w & [[W E]|E]); rewrite E.
      - exists w, (strip_l w2). split; [exact W|]. destruct (strip_l_spec w2) as (u & U & E2 & _). split; [rewrite E2 in W2; apply spaces_app in W2; apply W2|].
        rewrite strip_l_mid by reflexivity. rewrite <- !app_assoc. reflexivity.
      - exists [], w2. split; [apply spaces_nil|]. split; [exact W2|]. rewrite <- !app_assoc. reflexivity. }
    destruct X as (w & w' & W & W' & ->). rewrite find_char_at.
    + cbn [fst snd]. split; apply strip_trimmed; assumption.
    + rewrite !in_app_iff. intros [H|[H|H]]; [exact (Sp _ W H)|auto|exact (Sp _ W' H)].
Qed.
Lemma aux_text_pad nm opts t w : aux_text nm opts t -> spaces w -> aux_text nm opts (w ++ t).
Proof.
  intros (w1 & w2 & w3 & w4 & W1 & W2 & W3 & W4 & H) W. exists (w ++ w1), w2, w3, w4. rewrite spaces_app, <- !app_assoc. repeat (split; [tauto|]).
  destruct H as [[-> ->]| ->]; auto.
Qed.
Lemma text_of_aux a : aux_text (get_aux_name a) (get_aux_opts a) a /\ ~ In ch_colon (get_aux_name a) /\ trimmed (get_aux_name a) /\ trimmed (get_aux_opts a).
Proof.
  unfold get_aux_name, get_aux_opts. pose proof (find_char_spec ch_colon a) as H. destruct (find_char ch_colon a) as [x [y|]]; cbn [fst snd]; destruct H as [E N].
  - destruct (strip_spec x) as (w1 & w2 & W1 & W2 & Ex & _). destruct (strip_spec y) as (w3 & w4 & W3 & W4 & Ey & _). split; [|split; [|split; apply strip_is_trimmed]].
    + exists w1, w2, w3, w4. repeat (split; [assumption|]). right. rewrite E. rewrite Ex at 1. rewrite Ey at 1. rewrite <- !app_assoc. reflexivity.
    + intros H. apply N. rewrite Ex, !in_app_iff. auto.
  - subst x. destruct (strip_spec a) as (w1 & w2 & W1 & W2 & Ex & _). split; [|split; [|split; [apply strip_is_trimmed|apply trimmed_iff; left; reflexivity]]].
    + exists w1, w2, [], []. repeat (split; [assumption || apply spaces_nil|]). left. auto.
    + intros H. apply N. rewrite Ex, !in_app_iff. auto.
Qed.

(** ExprOperatorSignature::Make accepts exactly the texts of well-formed
    signatures, with white space anywhere between their parts, and their default
    values; the text determines the signature. *)
Theorem C63_make V (t : str) (ds : list V) (s : signature V) :
  make t ds = inr s <-> well_formed s /\ trimmed (aux_name s) /\ trimmed (aux_opts s) /\ ds = defaults (params s) /\ text s t.
Proof.
  unfold make. split.
  - pose proof (find_char_spec ch_bar t) as Hf. destruct (find_char ch_bar t) as [before after].
    set (aux := match after with Some a => strip_l a | None => [] end). 
    destruct (text_of_aux aux) as (Ta & Na & Tn & To).
    destruct (strip_spec before) as (w & w' & W & W' & Eb & _). set (body := strip before) in *. clearbody body.
    destruct (parse_params (match body with [] => [] | _ => split ch_comma body end) ds) as [|[ps [|]]] eqn:P; try discriminate.
    destruct (validate _) eqn:Ev; [discriminate|]. intros X. injection X as <-. apply validate_ok in Ev. cbn [params aux_name aux_opts].
    split; [exact Ev|]. split; [exact Tn|]. split; [exact To|].
    assert (Pt : ds = defaults ps /\ (ps = [] /\ spaces before \/ params_text ps before)).
    { destruct body as [|c body].
      - cbn in P. injection P as <- ->. split; [reflexivity|]. left. split; [reflexivity|]. rewrite Eb. apply spaces_app. auto.
      - destruct (split_join ch_comma (c :: body)) as (p & r & E & J). rewrite E in P. destruct (parse_params_sound _ _ _ _ _ P) as (T & D & _). rewrite app_nil_r in D. split; [exact D|].
        right. rewrite Eb. apply params_text_pad; auto. rewrite J. exact T. }
    destruct Pt as [Pd Pt]. split; [exact Pd|]. exists before. split; [exact Pt|]. destruct after as [a|].
    + right. exists a. split; [|apply Hf]. destruct (strip_l_spec a) as (u & U & Ea & _). cbn [aux_name aux_opts]. rewrite Ea. apply aux_text_pad; [exact Ta|exact U].
    + left. cbn. destruct Hf as [-> _]. auto.
  - intros (Wf & Tn & To & -> & tp & Tp & Ta). destruct (params_of_wf V s Wf) as [Id K].
    assert (Nb : ~ In ch_bar tp).
    { destruct Tp as [[_ Sp]|T]; [intros H; apply Sp in H; unfold ch_bar in H; lia|]. clear Ta Wf. induction T as [p u H|p u ps ts H T IH]; inversion Id as [|? ? I F]; subst;
        (assert (Nu : ~ In ch_bar u) by (apply (param_text_no p); auto; try reflexivity; try discriminate; unfold idchar, letter, digit, ch_bar; lia)); [exact Nu|].
      rewrite in_app_iff. intros [X|[X|X]]; [auto|discriminate|]. apply IH; auto. intros q Hq. apply K. right. exact Hq. }
    assert (P : parse_params (match strip tp with [] => [] | _ => split ch_comma (strip tp) end) (defaults (params s)) = inr (params s, [])).
    { destruct Tp as [[E Sp]|T].
      - rewrite E. pose proof (strip_trimmed tp [] [] Sp spaces_nil) as X. cbn [app] in X. rewrite app_nil_r in X. rewrite X by (apply trimmed_iff; left; reflexivity). reflexivity.
      - destruct (params_text_strip _ _ T Id) as [T' N]. destruct (strip tp) as [|c u] eqn:Es; [congruence|]. rewrite <- (app_nil_r (defaults (params s))). apply parse_params_complete; assumption. }
    destruct Ta as [(En & Eo & ->)|(ta & A & ->)].
    + rewrite find_char_none by exact Nb. rewrite P. cbn [get_aux_name get_aux_opts find_char fst snd].
      change (get_aux_name []) with (@nil Z). replace (mkSig (params s) [] []) with s by (destruct s; cbn in *; subst; reflexivity). rewrite (proj2 (validate_ok s) Wf). reflexivity.
    + rewrite find_char_at by exact Nb. rewrite P. destruct (aux_of_text _ _ _ (proj2 (proj2 (proj2 Wf))) Tn To A) as [-> ->].
      replace (mkSig (params s) (aux_name s) (aux_opts s)) with s by (destruct s; reflexivity). rewrite (proj2 (validate_ok s) Wf). reflexivity.
Qed.
Print Assumptions C63_make.

(** What GetExprOperatorSignatureSpec writes, Make reads back; this covers every
    signature that Make returned. *)
Theorem C63_roundtrip V (s : signature V) : well_formed s -> trimmed (aux_name s) -> trimmed (aux_opts s) -> make (get_spec s) (defaults (params s)) = inr s.
Proof.
  intros Wf Tn To. apply C63_make. repeat (split; [assumption || reflexivity|]). unfold get_spec.
  exists (comma_loop true [ch_comma; 32%Z] (map show_param (params s))). split.
  - assert (Sp : spaces [32%Z]) by (intros c [<-|[]]; right; reflexivity).
    assert (One : forall p : param V, param_text p (show_param p)).
    { intros p. apply param_text_core. exists [], [], [], []. repeat (split; [apply spaces_nil|]). rewrite app_nil_r. reflexivity. }
    assert (Lp : forall ps p, params_text (p :: ps : list (param V)) (show_param p ++ comma_loop false [ch_comma; 32%Z] (map show_param ps))).
    { induction ps as [|q ps IH]; intros p; cbn [map comma_loop non_first_comma].
      - rewrite app_nil_r. constructor. apply One.
      - cbn [app]. constructor; [apply One|]. specialize (IH q). apply (params_text_pad _ _ [32%Z] []) in IH; auto using spaces_nil. rewrite app_nil_r in IH. exact IH. }
    destruct (params s) as [|p ps]; [left; split; [reflexivity|apply spaces_nil]|]. right. apply Lp.
  - unfold get_aux. destruct (aux_opts s) as [|o os] eqn:Eo.
    + destruct (aux_name s) as [|n ns] eqn:En; [left; rewrite app_nil_r; auto|]. right. exists (n :: ns). split; [|reflexivity]. exists [], [], [], []. repeat (split; [apply spaces_nil|]). left. rewrite app_nil_r. auto.
    + right. exists (aux_name s ++ ch_colon :: o :: os). split.
      * exists [], [], [], []. repeat (split; [apply spaces_nil|]). right. cbn [app]. rewrite app_nil_r. reflexivity.
      * destruct (aux_name s ++ ch_colon :: o :: os) eqn:E; [destruct (aux_name s); discriminate|reflexivity].
Qed.
Print Assumptions C63_roundtrip.

(** ** Binding *)
(** BindArguments returns the dependencies that the call means, and every call
    that means something is accepted. *)
Theorem C63_bind V D (literal : V -> D) s named vr args kw deps : well_formed s -> shape_ok (params s) named vr -> NoDup (map fst kw) ->
  (bind_args literal s args kw = inr deps <-> call literal named (match vr with Some _ => true | None => false end) args kw deps).
Proof. intros (_ & Nd & _) Sh Nk. exact (bind_iff literal s named vr Sh Nd args kw deps Nk). Qed.
Print Assumptions C63_bind.

(** A rejected call is rejected for a reason that is true, and the lists of
    names in the messages are complete. *)
Theorem C63_bind_errors V D (literal : V -> D) s named vr args kw e : well_formed s -> shape_ok (params s) named vr -> NoDup (map fst kw) ->
  bind_args literal s args kw = inl e ->
  match e with
  | MultipleValues n => In n (map fst kw) /\ exists i p, rd named i = Some p /\ p_name p = n /\ i < length args
  | UnexpectedKind => False
  | TooMany most got => vr = None /\ most = length named /\ got = length args /\ most < got
  | Unexpected ns => ns <> [] /\ NoDup ns /\ forall n, In n ns <-> In n (map fst kw) /\ ~ exists i p, rd named i = Some p /\ p_name p = n /\ length args <= i
  | Missing ns => ns <> [] /\ NoDup ns /\ forall n, In n ns <-> ~ In n (map fst kw) /\ exists i p, rd named i = Some p /\ p_name p = n /\ length args <= i /\ p_default p = None
  end.
Proof.
  intros (_ & Nd & _) Sh Nk E. pose proof (bind_outcome literal s named vr Sh args kw) as O. rewrite E in O.
  assert (Sk : forall (P : param V -> Prop) n, (exists p, In p (skipn (length args) named) /\ p_name p = n /\ P p) <-> exists i p, rd named i = Some p /\ p_name p = n /\ length args <= i /\ P p).
  { intros P n. split.
    - intros (p & H & En & Hp). apply In_nth_error in H. destruct H as (i & H). rewrite nth_error_skipn in H. exists (length args + i), p. repeat split; auto. lia.
    - intros (i & p & H & En & L & Hp). exists p. split; [|auto]. apply (nth_error_In _ (i - length args)). rewrite nth_error_skipn. replace (length args + (i - length args)) with i by lia. exact H. }
  inversion O as [i p a Hp Ha Hk X|Hm Hv L X|Hm Hv Hn X|Hm Hv Ho Hn X|]; subst e.
  - split; [exact Hk|]. exists i, p. split; [exact Hp|]. split; [reflexivity|]. apply nth_error_Some. unfold rd in Ha. congruence.
  - auto.
  - pose proof (sort_perm (odd named args kw)) as P. split; [|split].
    + intros Z. rewrite Z in P. apply Permutation_sym, Permutation_nil in P. contradiction.
    + apply (Permutation_NoDup P). apply NoDup_filter, Nk.
    + intros n. assert (B : In n (sort (odd named args kw)) <-> In n (odd named args kw)) by (split; apply Permutation_in; [apply Permutation_sym|]; exact P).
      rewrite B. unfold odd. rewrite filter_In, negb_true_iff. apply and_iff_compat_l.
      assert (C : existsb (str_eqb n) (map p_name (skipn (length args) named)) = true <-> exists i p, rd named i = Some p /\ p_name p = n /\ length args <= i).
      { rewrite existsb_str, in_map_iff. specialize (Sk (fun _ => True) n). split.
        - intros (p & En & H). destruct (proj1 Sk) as (i & q & A & B' & C' & _); eauto.
        - intros (i & p & A & B' & C'). destruct (proj2 Sk) as (q & D1 & D2 & _); eauto 6. }
      destruct (existsb _ _); split; intros X; auto; try discriminate.
      * destruct X. apply C. reflexivity.
      * intros Y. apply C in Y. discriminate.
  - split; [exact Hn|]. split.
    + unfold absent. pose proof (named_nodup s named vr Sh Nd) as Nn. clear -Nn.
      assert (N2 : NoDup (map p_name (skipn (length args) named))).
      { rewrite <- (firstn_skipn (length args) named), map_app in Nn. revert Nn. generalize (map p_name (firstn (length args) named)). intros l. induction l as [|x l IH]; [auto|]. intros H. inversion H; auto. }
      revert N2. generalize (skipn (length args) named). intros l. induction l as [|p l IH]; cbn [map filter]; intros N; [constructor|]. inversion N; subst.
      destruct (match late literal kw p with Some _ => false | None => true end); [|auto]. cbn [map]. constructor; [|auto]. intros H. apply H1. apply in_map_iff in H. destruct H as (q & <- & Hq). apply filter_In in Hq. apply in_map, Hq.
    + intros n. unfold absent. rewrite in_map_iff. split.
      * intros (p & En & H). apply filter_In in H. destruct H as [H L]. unfold late in L. destruct (lookup (p_name p) kw) eqn:Lk; [discriminate|]. destruct (p_default p) eqn:Ed; [discriminate|].
        apply lookup_none in Lk. subst n. split; [exact Lk|]. apply (proj1 (Sk (fun p => p_default p = None) (p_name p))). eauto.
      * intros [Nk' X]. apply (proj2 (Sk (fun p => p_default p = None) n)) in X. destruct X as (p & H & En & Ed). exists p. split; [exact En|]. apply filter_In. split; [exact H|].
        unfold late. subst n. rewrite (proj2 (lookup_none _ _) Nk'), Ed. reflexivity.
Qed.
Print Assumptions C63_bind_errors.

(** The order of the keywords, and of the hash map that holds them, shows
    neither in the result nor in the error. *)
Theorem C63_keyword_order V D (literal : V -> D) s args kw kw' : NoDup (map fst kw) -> Permutation kw kw' ->
  bind_args literal s args kw = bind_args literal s args kw'.
Proof.
  intros N P. assert (N' : NoDup (map fst kw')) by (eapply Permutation_NoDup; [apply Permutation_map; exact P|exact N]).
  assert (L : forall n, lookup n kw = lookup n kw').
  { intros n. destruct (lookup n kw) as [v|] eqn:E.
    - symmetry. apply lookup_in; [exact N'|]. apply (Permutation_in _ P). apply lookup_some, E.
    - symmetry. apply lookup_none. apply lookup_none in E. intros H. apply E. revert H. apply Permutation_in, Permutation_map, Permutation_sym, P. }
  assert (B1 : forall ps a r, bind_pos kw ps a r = bind_pos (V := V) kw' ps a r).
  { induction ps as [|p ps IH]; intros a r; [reflexivity|]. destruct a; [reflexivity|]. cbn [bind_pos]. rewrite L. destruct (p_kind p); auto. destruct (lookup (p_name p) kw'); auto. }
  assert (B2 : forall ps m u r, bind_kw literal kw ps m u r = bind_kw literal kw' ps m u r).
  { induction ps as [|p ps IH]; intros m u r; [reflexivity|]. cbn [bind_kw]. rewrite L. destruct (p_kind p); auto. destruct (lookup (p_name p) kw'); auto. destruct (p_default p); auto. }
  unfold bind_args. rewrite B1. destruct (bind_pos kw' (params s) args []) as [|[[ps la] res]]; [reflexivity|]. destruct la; [|reflexivity].
  rewrite B2. destruct (bind_kw literal kw' ps [] [] res) as [|[[m u] r]]; [reflexivity|].
  assert (F : Permutation (filter (fun n => negb (existsb (str_eqb n) u)) (map fst kw)) (filter (fun n => negb (existsb (str_eqb n) u)) (map fst kw'))).
  { clear -P. induction P as [|[k v] l l' _ IH|[k v] [k' v'] l|l l' l'' _ IH1 _ IH2]; cbn [map filter fst].
    - reflexivity.
    - destruct (negb _); [constructor|]; exact IH.
    - destruct (negb (existsb (str_eqb k) u)), (negb (existsb (str_eqb k') u)); try reflexivity. apply perm_swap.
    - etransitivity; eassumption. }
  pose proof (sort_perm_eq _ _ F) as S.
  set (fl := fun n => negb (existsb (str_eqb n) u)) in *. change (filter _ (map fst kw)) with (filter fl (map fst kw)). destruct (filter fl (map fst kw)) as [|x l]; destruct (filter fl (map fst kw')) as [|x' l'].
  - reflexivity.
  - apply Permutation_nil in F. discriminate.
  - apply Permutation_sym, Permutation_nil in F. discriminate.
  - rewrite S. reflexivity.
Qed.
Print Assumptions C63_keyword_order.

(** Naming the next argument changes nothing, and neither does writing out a
    default value. *)
Theorem C63_keyword V D (literal : V -> D) s named vr args kw p v deps : well_formed s -> shape_ok (params s) named vr -> NoDup (map fst kw) ->
  rd named (length args) = Some p -> ~ In (p_name p) (map fst kw) ->
  (bind_args literal s (args ++ [v]) kw = inr deps <-> bind_args literal s args ((p_name p, v) :: kw) = inr deps).
Proof.
  intros Wf Sh Nk Hp Nn. assert (Nk' : NoDup (map fst ((p_name p, v) :: kw))) by (constructor; assumption).
  rewrite (C63_bind V D literal s named vr (args ++ [v]) kw deps Wf Sh Nk), (C63_bind V D literal s named vr args ((p_name p, v) :: kw) deps Wf Sh Nk').
  assert (La : length args < length named) by (apply nth_error_Some; unfold rd in Hp; congruence).
  assert (Inj : forall i q, rd named i = Some q -> p_name q = p_name p -> i = length args).
  { intros i q Hq E. eapply (name_inj s named vr Sh (proj1 (proj2 Wf))); eauto. }
  assert (Tk : forall i q x, rd named i = Some q -> (takes literal (args ++ [v]) kw i q x <-> takes literal args ((p_name p, v) :: kw) i q x)).
  { intros i q x Hq. unfold takes, rd, given. destruct (Nat.lt_trichotomy i (length args)) as [L|[->|L]].
    - rewrite nth_error_app1 by exact L. destruct (nth_error args i) eqn:E; [reflexivity|]. apply nth_error_None in E. lia.
    - rewrite nth_error_app2, Nat.sub_diag by lia. cbn [nth_error]. rewrite (proj2 (nth_error_None args (length args))) by lia. rewrite Hp in Hq. injection Hq as <-. cbn [In map fst]. split.
      + intros ->. left. left. reflexivity.
      + intros [[H|H]|[H _]]; [injection H as ->; reflexivity| |tauto]. destruct Nn. apply (in_map fst) in H. exact H.
    - assert (E1 : nth_error (args ++ [v]) i = None) by (apply nth_error_None; rewrite app_length; cbn; lia). assert (E2 : nth_error args i = None) by (apply nth_error_None; lia). rewrite E1, E2. cbn [In map fst].
      assert (Nq : p_name p <> p_name q) by (intros E; symmetry in E; apply (Inj i q Hq) in E; lia). split.
      + intros [H|[H K]]; [left; right; exact H|right]. split; [intros [X|X]; auto|exact K].
      + intros [[H|H]|[H K]]; [injection H as E _; contradiction|left; exact H|right]. split; [tauto|exact K]. }
  unfold call. rewrite app_length. cbn [length map fst].
  assert (S1 : skipn (length named) (args ++ [v]) = []) by (apply skipn_all2; rewrite app_length; cbn; lia). assert (S2 : skipn (length named) args = []) by (apply skipn_all2; lia). rewrite S1, S2.
  split; intros (_ & C2 & vals & E & Lv & T); (split; [lia|]; split; [|exists vals; split; [exact E|]; split; [exact Lv|]; intros i q x Hq Hx; apply (Tk i q x Hq), (T i q x Hq Hx)]).
  - intros n [<-|Hn]; [exists (length args), p; auto|]. destruct (C2 n Hn) as (i & q & A & B & C). exists i, q. repeat split; auto. lia.
  - intros n Hn. destruct (C2 n (or_intror Hn)) as (i & q & A & B & C). exists i, q. repeat split; auto.
    assert (i <> length args); [|lia]. intros ->. rewrite Hp in A. injection A as <-. subst n. contradiction.
Qed.
Print Assumptions C63_keyword.
Theorem C63_default V D (literal : V -> D) s named vr args kw i p d deps : well_formed s -> shape_ok (params s) named vr -> NoDup (map fst kw) ->
  rd named i = Some p -> length args <= i -> ~ In (p_name p) (map fst kw) -> p_default p = Some d ->
  (bind_args literal s args kw = inr deps <-> bind_args literal s args ((p_name p, literal d) :: kw) = inr deps).
Proof.
  intros Wf Sh Nk Hp Li Nn Ed. assert (Nk' : NoDup (map fst ((p_name p, literal d) :: kw))) by (constructor; assumption).
  rewrite (C63_bind V D literal s named vr args kw deps Wf Sh Nk), (C63_bind V D literal s named vr args ((p_name p, literal d) :: kw) deps Wf Sh Nk').
  assert (Inj : forall j q, rd named j = Some q -> p_name q = p_name p -> q = p).
  { intros j q Hq E. assert (j = i) by (eapply (name_inj s named vr Sh (proj1 (proj2 Wf))); eauto). subst j. congruence. }
  assert (Tk : forall j q x, rd named j = Some q -> (takes literal args kw j q x <-> takes literal args ((p_name p, literal d) :: kw) j q x)).
  { intros j q x Hq. unfold takes, given. destruct (rd args j) as [a|]; [reflexivity|]. cbn [In map fst]. split.
    - intros [H|[H (e & Ee & ->)]]; [left; right; exact H|]. destruct (list_eq_dec Z.eq_dec (p_name p) (p_name q)) as [E|E].
      + symmetry in E. apply (Inj j q Hq) in E. subst q. left. left. congruence.
      + right. split; [tauto|eauto].
    - intros [[H|H]|[H K]]; [|left; exact H|right; split; [tauto|exact K]]. injection H as E <-. symmetry in E. pose proof (Inj j q Hq E) as ->. right. split; [exact Nn|]. exists d. auto. }
  unfold call. cbn [map fst].
  split; intros (C1 & C2 & vals & E & Lv & T); (split; [exact C1|]; split; [|exists vals; split; [exact E|]; split; [exact Lv|]; intros j q x Hq Hx; apply (Tk j q x Hq), (T j q x Hq Hx)]).
  - intros n [<-|Hn]; [exists i, p; auto|]. apply C2, Hn.
  - intros n Hn. apply C2. right. exact Hn.
Qed.
Print Assumptions C63_default.

(** A node made of the result has the right number of dependencies. *)
Theorem C63_deps V D (literal : V -> D) s named vr : well_formed s -> shape_ok (params s) named vr ->
  (forall n, deps_count_ok s n = true <-> match vr with Some _ => length named <= n | None => n = length named end) /\
  forall args kw deps, NoDup (map fst kw) -> bind_args literal s args kw = inr deps -> deps_count_ok s (length deps) = true.
Proof.
  intros Wf Sh. assert (A : forall n, deps_count_ok s n = true <-> match vr with Some _ => length named <= n | None => n = length named end).
  { intros n. unfold deps_count_ok, has_variadic. destruct Sh as [E K]. rewrite E. rewrite rev_app_distr. destruct vr as [v|]; cbn [rev app].
    - cbn [p_kind]. rewrite app_length. cbn [length negb andb]. rewrite orb_false_r, negb_true_iff, Nat.ltb_ge. lia.
    - rewrite app_nil_r. replace (match rev named with p :: _ => match p_kind p with Variadic => true | _ => false end | [] => false end) with false.
      + cbn [negb andb]. rewrite negb_true_iff, orb_false_iff, !Nat.ltb_ge. lia.
      + destruct (rev named) as [|p l] eqn:Er; [reflexivity|]. rewrite (K p); [reflexivity|]. apply in_rev. rewrite Er. left. reflexivity. }
  split; [exact A|]. intros args kw deps Nk E. apply (C63_bind V D literal s named vr args kw deps Wf Sh Nk) in E. destruct E as (C1 & _ & vals & -> & Lv & _). apply A.
  rewrite app_length, skipn_length, Lv. destruct vr; [lia|]. assert (length args <= length named) by (destruct (Nat.le_gt_cases (length args) (length named)); auto; specialize (C1 H); discriminate). lia.
Qed.
Print Assumptions C63_deps.

(** The two ready-made signatures. *)
Lemma uint_chars_inj u : forall u', uint_chars u = uint_chars u' -> u = u'.
Proof. induction u; intros []; cbn; intros H; try discriminate; try reflexivity; injection H as H; f_equal; auto. Qed.
Lemma uint_chars_digits u : Forall (fun c => digit c) (uint_chars u).
Proof. induction u; cbn; constructor; auto; unfold digit; lia. Qed.
Theorem C63_args_n V D (literal : V -> D) n (args : list D) :
  well_formed (V := V) (make_args_n n) /\ (length args = n -> bind_args literal (make_args_n n) args [] = inr args) /\
  well_formed (V := V) make_variadic_args /\ bind_args literal make_variadic_args args [] = inr args.
Proof.
  assert (Ln : length (params (V := V) (make_args_n n)) = n).
  { unfold make_args_n. cbn [params]. destruct (n =? 1)%nat eqn:E; [apply Nat.eqb_eq in E; subst n; reflexivity|]. rewrite map_length, seq_length. reflexivity. }
  assert (Hp : forall p, In p (params (V := V) (make_args_n n)) -> p_kind p = PosKw /\ p_default p = None /\ identifier (p_name p)).
  { unfold make_args_n. cbn [params]. intros p Hp. assert (X : exists t, p = mkP (str_arg ++ t) None PosKw /\ Forall (fun c => digit c) t).
    { destruct (n =? 1)%nat; [destruct Hp as [<-|[]]; exists []; split; [reflexivity|constructor]|]. apply in_map_iff in Hp. destruct Hp as (i & <- & _). eexists. split; [reflexivity|apply uint_chars_digits]. }
    destruct X as (t & -> & F). split; [reflexivity|]. split; [reflexivity|]. exists 97%Z, (114%Z :: 103%Z :: t). split; [reflexivity|]. split; [right; right; lia|].
    repeat (constructor; [right; left; right; lia|]). eapply Forall_impl; [|exact F]. intros c H. right. right. exact H. }
  assert (W : well_formed (V := V) (make_args_n n)).
  { split; [intros p H; apply Hp, H|]. split; [|split; [|intros []]].
    - unfold make_args_n. cbn [params]. destruct (n =? 1)%nat; [repeat constructor; intros []|]. rewrite map_map. cbn [p_name]. 
      apply FinFun.Injective_map_NoDup; [|apply seq_NoDup]. intros i j H. injection H as H. apply uint_chars_inj in H. apply (f_equal Nat.of_uint) in H. rewrite !Unsigned.of_to in H. lia.
    - exists (params (make_args_n n)), None. split; [split; [rewrite app_nil_r; reflexivity|intros p H; apply Hp, H]|]. intros i j p q d _ H _ E. apply nth_error_In, Hp in H. destruct H as (_ & H & _). congruence. }
  assert (W' : well_formed (V := V) make_variadic_args).
  { split; [|split; [|split; [|intros []]]].
    - intros p [<-|[]]. exists 97%Z, [114; 103; 115]%Z. split; [reflexivity|]. split; [right; right; lia|]. repeat (constructor; [right; left; right; lia|]). constructor.
    - repeat constructor. intros [].
    - exists [], (Some (str_arg ++ [115%Z])). split; [split; [reflexivity|intros p []]|]. intros i j p q d _ H. destruct i; discriminate. }
  split; [exact W|]. split; [|split; [exact W'|]].
  - intros La. apply (C63_bind V D literal (make_args_n n) (params (make_args_n n)) None args [] args W); [split; [rewrite app_nil_r; reflexivity|intros p H; apply Hp, H]|constructor|].
    split; [lia|]. split; [intros m []|]. exists args. rewrite skipn_all2, app_nil_r by lia. split; [reflexivity|]. split; [lia|]. intros i p v _ H. unfold takes. rewrite H. reflexivity.
  - apply (C63_bind V D literal make_variadic_args [] (Some (str_arg ++ [115%Z])) args [] args W'); [split; [reflexivity|intros p []]|constructor|].
    split; [reflexivity|]. split; [intros m []|]. exists []. split; [reflexivity|]. split; [reflexivity|]. intros i p v H. destruct i; discriminate.
Qed.
Print Assumptions C63_args_n.

(** ** Examples *)
Definition ex_spec : str := [32; 120; 32; 44; 121; 61; 9; 44; 32; 42; 32; 122; 32; 124; 32; 112; 113; 32; 58; 97; 58; 32]%Z. (* " x ,y=\t, * z | pq :a: " *)
Definition ex_sig : signature nat := mkSig [mkP [120%Z] None PosKw; mkP [121%Z] (Some 7) PosKw; mkP [122%Z] None Variadic] [112; 113]%Z [97; 58]%Z.
Example C63_ex_make : make ex_spec [7] = inr ex_sig.
Proof. reflexivity. Qed.
Example C63_ex_wf : well_formed ex_sig /\ trimmed (aux_name ex_sig) /\ trimmed (aux_opts ex_sig).
Proof. destruct (proj1 (C63_make nat ex_spec [7] ex_sig) C63_ex_make) as (A & B & C & _). auto. Qed.
Example C63_ex_spec : get_spec ex_sig = [120; 44; 32; 121; 61; 44; 32; 42; 122; 124; 112; 113; 58; 97; 58]%Z. (* "x, y=, *z|pq:a:" *)
Proof. reflexivity. Qed.
Example C63_ex_shape : shape_ok (params ex_sig) [mkP [120%Z] None PosKw; mkP [121%Z] (Some 7) PosKw] (Some [122%Z]).
Proof. split; [reflexivity|]. intros p [<-|[<-|[]]]; reflexivity. Qed.
Example C63_ex_bind : bind_args (fun d => d) ex_sig [1] [([121%Z], 5)] = inr [1; 5] /\ bind_args (fun d => d) ex_sig [1] [] = inr [1; 7] /\
  bind_args (fun d => d) ex_sig [1; 2; 3; 4] [] = inr [1; 2; 3; 4] /\ bind_args (fun d => d) ex_sig [] [([120%Z], 5)] = inr [5; 7].
Proof. repeat split. Qed.
Example C63_ex_errors : bind_args (fun d => d) ex_sig [1] [([120%Z], 5)] = inl (MultipleValues [120%Z]) /\ bind_args (fun d => d) ex_sig [] [([121%Z], 5)] = inl (Missing [[120%Z]]) /\
  bind_args (fun d => d) ex_sig [1] [([122%Z], 5); ([97%Z], 6)] = inl (Unexpected [[97%Z]; [122%Z]]) /\ bind_args (fun d : nat => d) (make_args_n 2) [1; 2; 3] [] = inl (TooMany 2 3).
Proof. repeat split. Qed.
Example C63_ex_args : map p_name (params (make_args_n (V := nat) 2)) = [[97; 114; 103; 49]; [97; 114; 103; 50]]%Z.
Proof. reflexivity. Qed.
(** A policy with white space around it, which only the constructor of a
    signature can give, does not survive. *)
Example C63_roundtrip_policy_refuted : let s := mkSig [] [112; 32]%Z [] : signature nat in
  well_formed s /\ exists s', make (get_spec s) [] = inr s' /\ s' <> s.
Proof.
  split; [|exists (mkSig [] [112%Z] []); split; [reflexivity|discriminate]].
  apply validate_ok. reflexivity.
Qed.
