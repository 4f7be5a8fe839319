(** Proofs about binding arguments. *)
From Coq Require Import Permutation.
From Verif Require Import Base Strings_Model Strings_Spec OpSig_Model OpSig_Spec OpSig_Proofs.

Lemma nth_error_skipn {A} (l : list A) : forall n i, nth_error (skipn n l) i = nth_error l (n + i).
Proof. induction l as [|x l IH]; intros [|n] i; cbn [skipn Nat.add]; auto; [destruct i; reflexivity|]. rewrite IH. reflexivity. Qed.
Lemma nth_error_firstn' {A} (l : list A) : forall n i, i < n -> nth_error (firstn n l) i = nth_error l i.
Proof. induction l as [|x l IH]; intros [|n] [|i] L; cbn [firstn nth_error]; auto; try lia. apply IH. lia. Qed.

Lemma Forall2_length {A B} (R : A -> B -> Prop) l l' : Forall2 R l l' -> length l = length l'.
Proof. induction 1; cbn; congruence. Qed.

Section Bind.
Context {V D : Type}.
Variable literal : V -> D.
Notation param := (param V).
Notation signature := (signature V).
Notation kwargs := (list (str * D)).

Lemma lookup_some n (kw : kwargs) v : lookup n kw = Some v -> In (n, v) kw.
Proof.
  induction kw as [|[k w] kw IH]; cbn [lookup]; [discriminate|]. destruct (str_eqb n k) eqn:E; [|right; auto].
  apply seqb_eq in E. subst k. intros X. injection X as ->. left. reflexivity.
Qed.
Lemma lookup_none n (kw : kwargs) : lookup n kw = None <-> ~ In n (map fst kw).
Proof.
  induction kw as [|[k w] kw IH]; cbn [lookup map In fst]; [tauto|]. destruct (str_eqb n k) eqn:E.
  - apply seqb_eq in E. subst k. split; [discriminate|tauto].
  - assert (k <> n) by (intros ->; rewrite (proj2 (seqb_eq n n) eq_refl) in E; discriminate). rewrite IH. tauto.
Qed.
Lemma lookup_in n (kw : kwargs) v : NoDup (map fst kw) -> In (n, v) kw -> lookup n kw = Some v.
Proof.
  induction kw as [|[k w] kw IH]; cbn [lookup map fst]; intros N H; [destruct H|]. inversion N as [|? ? N1 N2]; subst. destruct H as [H|H].
  - injection H as -> ->. rewrite (proj2 (seqb_eq n n) eq_refl). reflexivity.
  - destruct (str_eqb n k) eqn:E; [|auto]. apply seqb_eq in E. subst k. destruct N1. apply (in_map fst) in H. exact H.
Qed.

Definition tail_of (vr : option str) : list param := match vr with Some n => [mkP n None Variadic] | None => [] end.

Lemma bind_pos_eq (kw : kwargs) vr : forall named : list param, (forall p, In p named -> p_kind p = PosKw) -> forall args res,
  (exists i p a, rd named i = Some p /\ rd args i = Some a /\ In (p_name p) (map fst kw) /\ bind_pos kw (named ++ tail_of vr) args res = inl (MultipleValues (p_name p))) \/
  ((forall i p a, rd named i = Some p -> rd args i = Some a -> ~ In (p_name p) (map fst kw)) /\
   bind_pos kw (named ++ tail_of vr) args res =
     inr (if length args <=? length named then skipn (length args) named ++ tail_of vr else [],
          if length args <=? length named then [] else match vr with Some _ => [] | None => skipn (length named) args end,
          match vr with Some _ => res ++ args | None => res ++ firstn (length named) args end)).
Proof.
  induction named as [|p named IH]; intros K args res.
  - right. split; [intros i p a H; destruct i; discriminate|]. cbn [app length]. destruct args as [|a args].
    + destruct vr; cbn; rewrite app_nil_r; reflexivity.
    + destruct vr; cbn; [reflexivity|]. rewrite app_nil_r. reflexivity.
  - assert (K' : forall q, In q named -> p_kind q = PosKw) by (intros q Hq; apply K; right; exact Hq). destruct args as [|a args].
    + right. split; [intros i q b _ H; destruct i; discriminate|]. cbn. destruct vr; rewrite ?app_nil_r; reflexivity.
    + cbn [app bind_pos]. rewrite (K p (or_introl eq_refl)). destruct (lookup (p_name p) kw) as [v|] eqn:L.
      * left. exists 0, p, a. split; [reflexivity|]. split; [reflexivity|]. split; [|reflexivity]. apply lookup_some in L. apply (in_map fst) in L. exact L.
      * apply lookup_none in L. destruct (IH K' args (res ++ [a])) as [(i & q & b & A & B & C & E)|[A E]].
        -- left. exists (S i), q, b. auto.
        -- right. split; [intros [|i] q b Hq Hb; [cbn in Hq; congruence|exact (A i q b Hq Hb)]|]. rewrite E. cbn [length skipn firstn Nat.leb]. rewrite <- !app_assoc. reflexivity.
Qed.

(** The value of a parameter that got no positional argument. *)
Definition late (kw : kwargs) (p : param) : option D :=
  match lookup (p_name p) kw with Some v => Some v | None => match p_default p with Some d => Some (literal d) | None => None end end.
Lemma bind_kw_eq (kw : kwargs) vr : forall ps : list param, (forall p, In p ps -> p_kind p = PosKw) -> forall missing used res,
  exists used' vals, bind_kw literal kw (ps ++ tail_of vr) missing used res =
      inr (missing ++ map p_name (filter (fun p => match late kw p with None => true | Some _ => false end) ps), used', res ++ vals) /\
    (forall n, In n used' <-> In n used \/ (In n (map fst kw) /\ In n (map p_name ps))) /\
    ((forall p, In p ps -> late kw p <> None) -> Forall2 (fun p v => late kw p = Some v) ps vals).
Proof.
  induction ps as [|p ps IH]; intros K missing used res.
  - exists used, []. cbn [app filter map]. rewrite !app_nil_r. split; [destruct vr; reflexivity|]. split; [cbn; tauto|]. intros _. constructor.
  - assert (K' : forall q, In q ps -> p_kind q = PosKw) by (intros q Hq; apply K; right; exact Hq).
    cbn [app bind_kw filter]. rewrite (K p (or_introl eq_refl)). destruct (lookup (p_name p) kw) as [v|] eqn:L.
    + destruct (IH K' missing (p_name p :: used) (res ++ [v])) as (u & vals & E & U & F). exists u, (v :: vals). rewrite E.
      assert (Lp : late kw p = Some v) by (unfold late; rewrite L; reflexivity). rewrite Lp. split; [rewrite <- app_assoc; reflexivity|].
      apply lookup_some, (in_map fst) in L. cbn [fst] in L. split.
      * intros n. rewrite U. cbn [In map]. split; [intros [[<-|H]|H]; tauto|]. intros [H|[H [<-|H']]]; tauto.
      * intros H. constructor; [exact Lp|]. apply F. intros q Hq. apply H. right. exact Hq.
    + apply lookup_none in L as L'. destruct (p_default p) as [d|] eqn:Ed.
      * destruct (IH K' missing used (res ++ [literal d])) as (u & vals & E & U & F). exists u, (literal d :: vals). rewrite E.
        assert (Lp : late kw p = Some (literal d)) by (unfold late; rewrite L, Ed; reflexivity). rewrite Lp. split; [rewrite <- app_assoc; reflexivity|]. split.
        -- intros n. rewrite U. cbn [In map]. split; [tauto|]. intros [H|[H [<-|H']]]; tauto.
        -- intros H. constructor; [exact Lp|]. apply F. intros q Hq. apply H. right. exact Hq.
      * destruct (IH K' (missing ++ [p_name p]) used res) as (u & vals & E & U & F). exists u, vals. rewrite E.
        assert (Lp : late kw p = None) by (unfold late; rewrite L, Ed; reflexivity). rewrite Lp. split; [cbn [map]; rewrite <- app_assoc; reflexivity|]. split.
        -- intros n. rewrite U. cbn [In map]. split; [tauto|]. intros [H|[H [<-|H']]]; tauto.
        -- intros H. destruct (H p (or_introl eq_refl) Lp).
Qed.

(** ** The sorted list of names *)
Lemma leb_total a : forall b, str_leb a b = false -> str_leb b a = true.
Proof.
  induction a as [|x a IH]; intros [|y b]; cbn [str_leb]; try discriminate; try reflexivity.
  rewrite orb_false_iff, andb_false_iff, orb_true_iff, andb_true_iff, !Z.ltb_lt, !Z.eqb_eq, Z.ltb_ge, Z.eqb_neq. intros [L [N|N]]; [left; lia|].
  destruct (Z.eq_dec x y) as [->|]; [right; auto|left; lia].
Qed.
Lemma leb_antisym a : forall b, str_leb a b = true -> str_leb b a = true -> a = b.
Proof.
  induction a as [|x a IH]; intros [|y b]; cbn [str_leb]; try discriminate; try reflexivity.
  rewrite !orb_true_iff, !andb_true_iff, !Z.ltb_lt, !Z.eqb_eq. intros H K. assert (x = y) by lia. subst y. f_equal. apply IH; intuition lia.
Qed.
Lemma leb_trans a : forall b c, str_leb a b = true -> str_leb b c = true -> str_leb a c = true.
Proof.
  induction a as [|x a IH]; intros [|y b] [|z c]; cbn [str_leb]; try discriminate; try reflexivity.
  rewrite !orb_true_iff, !andb_true_iff, !Z.ltb_lt, !Z.eqb_eq. intros [H|[-> H]] [K|[E K]]; subst; try (left; lia). right. split; [reflexivity|]. eauto.
Qed.
Lemma ins_perm x l : Permutation (x :: l) (ins x l).
Proof.
  induction l as [|y l IH]; cbn [ins]; [reflexivity|]. destruct (str_leb x y); [reflexivity|]. rewrite perm_swap. constructor. exact IH.
Qed.
Lemma sort_perm l : Permutation l (sort l).
Proof. induction l as [|x l IH]; cbn [sort]; [reflexivity|]. rewrite <- ins_perm. constructor. exact IH. Qed.
(** Each name before the ones that follow. *)
Fixpoint ordered (l : list str) : Prop := match l with [] => True | x :: t => (forall y, In y t -> str_leb x y = true) /\ ordered t end.
Lemma ins_ordered x l : ordered l -> ordered (ins x l).
Proof.
  induction l as [|y l IH]; cbn [ins ordered]; [intros _; split; [intros y []|exact I]|]. intros [H O]. destruct (str_leb x y) eqn:E; cbn [ordered].
  - split; [|auto]. intros z [<-|Hz]; [exact E|]. eapply leb_trans; [exact E|auto].
  - split; [|auto]. intros z Hz. apply (Permutation_in z (Permutation_sym (ins_perm x l))) in Hz. destruct Hz as [<-|Hz]; [apply leb_total, E|auto].
Qed.
Lemma sort_ordered l : ordered (sort l).
Proof. induction l as [|x l IH]; cbn [sort]; [exact I|apply ins_ordered, IH]. Qed.
Lemma ordered_eq l : forall l', ordered l -> ordered l' -> Permutation l l' -> l = l'.
Proof.
  induction l as [|x l IH]; intros l' O O' P; [apply Permutation_nil in P; congruence|].
  destruct l' as [|y l']; [apply Permutation_sym, Permutation_nil in P; discriminate|]. destruct O as [H O], O' as [H' O'].
  assert (x = y).
  { destruct (Permutation_in x P (or_introl eq_refl)) as [E|Hx]; [auto|]. destruct (Permutation_in y (Permutation_sym P) (or_introl eq_refl)) as [E|Hy]; [auto|]. apply leb_antisym; auto. }
  subst y. f_equal. apply IH; auto. exact (Permutation_cons_inv P).
Qed.
Lemma sort_perm_eq l l' : Permutation l l' -> sort l = sort l'.
Proof. intros P. apply ordered_eq; auto using sort_ordered. rewrite <- !sort_perm. exact P. Qed.

(** ** The whole function *)
Section Call.
Variables (s : signature) (named : list param) (vr : option str).
Hypothesis Sh : shape_ok (params s) named vr.
Hypothesis Nd : NoDup (map p_name (params s)).
Let Kn : forall p, In p named -> p_kind p = PosKw := proj2 Sh.
Lemma params_eq : params s = named ++ tail_of vr.
Proof. exact (proj1 Sh). Qed.
Lemma named_nodup : NoDup (map p_name named).
Proof. rewrite params_eq, map_app in Nd. clear -Nd. induction (map p_name named) as [|x l IH]; [constructor|]. inversion Nd; subst. constructor; [rewrite in_app_iff in *; tauto|auto]. Qed.
Lemma name_inj i j p q : rd named i = Some p -> rd named j = Some q -> p_name p = p_name q -> i = j.
Proof.
  intros Hi Hj E. apply (map_nth_error p_name) in Hi, Hj. rewrite E in Hi. 
  apply (proj1 (NoDup_nth_error _) named_nodup); [apply nth_error_Some; congruence|]. congruence.
Qed.

(** Keywords that no waiting parameter has. *)
Definition odd (args : list D) (kw : kwargs) : list str := filter (fun n => negb (existsb (str_eqb n) (map p_name (skipn (length args) named)))) (map fst kw).
Definition absent (args : list D) (kw : kwargs) : list str := map p_name (filter (fun p => match late kw p with None => true | Some _ => false end) (skipn (length args) named)).

Inductive outcome (args : list D) (kw : kwargs) : berr + list D -> Prop :=
  | o_multi i p a : rd named i = Some p -> rd args i = Some a -> In (p_name p) (map fst kw) -> outcome args kw (inl (MultipleValues (p_name p)))
  | o_many : (forall i p a, rd named i = Some p -> rd args i = Some a -> ~ In (p_name p) (map fst kw)) ->
      vr = None -> length named < length args -> outcome args kw (inl (TooMany (length named) (length args)))
  | o_odd : (forall i p a, rd named i = Some p -> rd args i = Some a -> ~ In (p_name p) (map fst kw)) ->
      (vr = None -> length args <= length named) -> odd args kw <> [] -> outcome args kw (inl (Unexpected (sort (odd args kw))))
  | o_absent : (forall i p a, rd named i = Some p -> rd args i = Some a -> ~ In (p_name p) (map fst kw)) ->
      (vr = None -> length args <= length named) -> odd args kw = [] -> absent args kw <> [] -> outcome args kw (inl (Missing (absent args kw)))
  | o_ok vals : (forall i p a, rd named i = Some p -> rd args i = Some a -> ~ In (p_name p) (map fst kw)) ->
      (vr = None -> length args <= length named) -> odd args kw = [] -> Forall2 (fun p v => late kw p = Some v) (skipn (length args) named) vals ->
      outcome args kw (inr (args ++ vals)).

Lemma filter_ext_names (l : list str) f g : (forall n, In n l -> f n = g n) -> filter f l = filter g l.
Proof. induction l as [|x l IH]; intros H; [reflexivity|]. cbn [filter]. rewrite (H x (or_introl eq_refl)), IH; [reflexivity|]. intros n Hn. apply H. right. exact Hn. Qed.
Lemma bind_outcome args kw : outcome args kw (bind_args literal s args kw).
Proof.
  unfold bind_args. rewrite params_eq. destruct (bind_pos_eq kw vr named Kn args []) as [(i & p & a & Hp & Ha & Hk & E)|[Hm E]]; rewrite E.
  - apply (o_multi args kw i p a Hp Ha Hk).
  - destruct (length args <=? length named) eqn:Le.
    + apply Nat.leb_le in Le. set (ps := skipn (length args) named).
      assert (Kp : forall p, In p ps -> p_kind p = PosKw).
      { intros p Hp. apply Kn. unfold ps in Hp. rewrite <- (firstn_skipn (length args) named). apply in_app_iff. right. exact Hp. }
      assert (Er : match vr with Some _ => [] ++ args | None => [] ++ firstn (length named) args end = args) by (destruct vr; cbn [app]; auto; apply firstn_all2, Le). rewrite Er.
      destruct (bind_kw_eq kw vr ps Kp [] [] args) as (used & vals & Eb & U & F). rewrite Eb. cbn [app].
      assert (Eo : filter (fun n => negb (existsb (str_eqb n) used)) (map fst kw) = odd args kw).
      { apply filter_ext_names. intros n Hn. f_equal. apply eq_true_iff_eq. rewrite !existsb_str, U. cbn [In]. unfold ps. tauto. }
      rewrite Eo. change (map p_name (filter _ ps)) with (absent args kw). destruct (odd args kw) as [|o os] eqn:Od.
      * destruct (absent args kw) as [|m ms] eqn:Ab.
        -- apply o_ok; auto. apply F. intros p Hp L. assert (H : In (p_name p) (absent args kw)) by (apply in_map, filter_In; rewrite L; auto). rewrite Ab in H. destruct H.
        -- pose proof (o_absent args kw Hm (fun _ => Le) Od) as X. rewrite Ab in X. apply X. discriminate.
      * pose proof (o_odd args kw Hm (fun _ => Le)) as X. rewrite Od in X. apply X. discriminate.
    + apply Nat.leb_gt in Le. destruct vr as [n|] eqn:Evr.
      * cbn [app bind_kw]. assert (Es : skipn (length args) named = []) by (apply skipn_all2; lia).
        match goal with |- context [filter ?f (map fst kw)] => replace (filter f (map fst kw)) with (odd args kw) by (unfold odd; rewrite Es; reflexivity) end.
        destruct (odd args kw) as [|o os] eqn:Od.
        -- rewrite <- (app_nil_r args) at 2. apply o_ok; [exact Hm|congruence|exact Od|]. rewrite Es. constructor.
        -- pose proof (o_odd args kw Hm) as X. rewrite Od in X. apply X; [congruence|discriminate].
      * destruct (skipn (length named) args) as [|x r] eqn:Esk; [apply (f_equal (@length _)) in Esk; rewrite skipn_length in Esk; cbn in Esk; lia|].
        cbn [app]. rewrite firstn_length_le by lia. apply o_many; auto.
Qed.

Lemma odd_nil args kw : odd args kw = [] <-> forall n, In n (map fst kw) -> exists i p, rd named i = Some p /\ p_name p = n /\ length args <= i.
Proof.
  assert (Sk : forall n, In n (map p_name (skipn (length args) named)) <-> exists i p, rd named i = Some p /\ p_name p = n /\ length args <= i).
  { intros n. rewrite in_map_iff. split.
    - intros (p & E & H). apply In_nth_error in H. destruct H as (i & H). rewrite nth_error_skipn in H. exists (length args + i), p. repeat split; auto. lia.
    - intros (i & p & H & E & L). exists p. split; [exact E|]. apply (nth_error_In _ (i - length args)). rewrite nth_error_skipn. replace (length args + (i - length args)) with i by lia. exact H. }
  split.
  - intros H n Hn. apply Sk. destruct (existsb (str_eqb n) (map p_name (skipn (length args) named))) eqn:E; [apply existsb_str, E|].
    assert (X : In n (odd args kw)) by (apply filter_In; rewrite E; auto). rewrite H in X. destruct X.
  - intros H. destruct (odd args kw) as [|n l] eqn:E; [reflexivity|]. assert (X : In n (n :: l)) by (left; reflexivity). rewrite <- E in X. apply filter_In in X. destruct X as [X Y].
    apply H, Sk, existsb_str in X. rewrite X in Y. discriminate.
Qed.
Lemma late_takes args kw i p v : NoDup (map fst kw) -> rd args i = None -> (late kw p = Some v <-> takes literal args kw i p v).
Proof.
  intros N E. unfold late, takes, given. rewrite E. destruct (lookup (p_name p) kw) as [w|] eqn:L.
  - apply lookup_some in L. split; [intros X; injection X as ->; auto|]. intros [H|[H _]]; [|destruct H; apply (in_map fst) in L; exact L].
    apply (lookup_in _ _ _ N) in H. apply (lookup_in _ _ _ N) in L. congruence.
  - apply lookup_none in L. split.
    + destruct (p_default p) as [d|]; [|discriminate]. intros X. injection X as <-. right. eauto.
    + intros [H|(_ & d & -> & ->)]; [destruct L; apply (in_map fst) in H; exact H|reflexivity].
Qed.

Definition variadic : bool := match vr with Some _ => true | None => false end.
Lemma bind_iff args kw deps : NoDup (map fst kw) -> (bind_args literal s args kw = inr deps <-> call literal named variadic args kw deps).
Proof.
  intros N. pose proof (bind_outcome args kw) as O.
  assert (Sk : forall i, rd (skipn (length args) named) i = rd named (length args + i)) by (intros i; apply nth_error_skipn).
  split.
  - intros E. rewrite E in O. inversion O as [| | | |vals Hm Hv Ho F X]; subst. split; [|split].
    + unfold variadic. destruct vr; [reflexivity|]. intros L. specialize (Hv eq_refl). lia.
    + apply odd_nil, Ho.
    + pose proof (Forall2_length _ _ _ F) as Lv. rewrite skipn_length in Lv. exists (firstn (length named) (args ++ vals)). split; [|split].
      * rewrite <- (firstn_skipn (length named) (args ++ vals)) at 1. f_equal. rewrite skipn_app. rewrite (skipn_all2 vals) by lia. apply app_nil_r.
      * apply firstn_length_le. rewrite app_length. lia.
      * intros i p v Hp Hv'. assert (Li : i < length named) by (apply nth_error_Some; unfold rd in Hp; congruence).
        unfold rd in Hv'. rewrite nth_error_firstn' in Hv' by exact Li. unfold takes. destruct (rd args i) as [a|] eqn:Ea.
        -- rewrite nth_error_app1 in Hv' by (apply nth_error_Some; unfold rd in Ea; congruence). unfold rd in Ea. congruence.
        -- assert (La : length args <= i) by (apply nth_error_None, Ea). rewrite nth_error_app2 in Hv' by exact La.
           assert (T : takes literal args kw i p v).
           { apply late_takes; auto. assert (Hs : rd (skipn (length args) named) (i - length args) = Some p) by (rewrite Sk; replace (length args + (i - length args)) with i by lia; exact Hp).
             clear -F Hv' Hs. revert Hs Hv'. generalize (i - length args). induction F as [|x y l l' H _ IH]; intros [|j] Hs Hv; cbn in *; try discriminate; [congruence|eauto]. }
           unfold takes in T. rewrite Ea in T. exact T.
  - intros (C1 & C2 & vals & -> & Lv & T).
    assert (Hm : forall i p a, rd named i = Some p -> rd args i = Some a -> ~ In (p_name p) (map fst kw)).
    { intros i p a Hp Ha Hk. destruct (C2 _ Hk) as (j & q & Hq & En & L). assert (j = i) by (eapply name_inj; eauto). subst j.
      assert (i < length args) by (apply nth_error_Some; unfold rd in Ha; congruence). lia. }
    assert (Ho : odd args kw = []) by (apply odd_nil, C2).
    assert (Hl : forall i p, rd named i = Some p -> length args <= i -> exists v, rd vals i = Some v /\ late kw p = Some v).
    { intros i p Hp L. destruct (rd_lt vals i) as (v & Hv); [rewrite Lv; apply nth_error_Some; unfold rd in Hp; congruence|]. exists v. split; [exact Hv|].
      apply (late_takes args kw i); auto. apply nth_error_None. exact L. }
    inversion O as [i p a Hp Ha Hk X|_ Hv L X|_ _ Hn X|_ _ _ Hn X|w _ Hv _ F X].
    + destruct (Hm i p a Hp Ha Hk).
    + unfold variadic in C1. rewrite Hv in C1. specialize (C1 L). discriminate.
    + contradiction.
    + exfalso. destruct (absent args kw) as [|m ms] eqn:Ab; [congruence|]. assert (H : In m (absent args kw)) by (rewrite Ab; left; reflexivity).
      apply in_map_iff in H. destruct H as (p & _ & H). apply filter_In in H. destruct H as [H1 H2]. apply In_nth_error in H1. destruct H1 as (i & H1).
      rewrite nth_error_skipn in H1. destruct (Hl _ p H1 ltac:(lia)) as (v & _ & El). rewrite El in H2. discriminate.
    + f_equal. pose proof (Forall2_length _ _ _ F) as Lw. rewrite skipn_length in Lw. apply list_eq_rd. intros i.
      destruct (Nat.lt_ge_cases i (length named)) as [Li|Li].
      * rewrite (nth_error_app1 vals) by lia. destruct (rd_lt named i Li) as (p & Hp). destruct (Nat.lt_ge_cases i (length args)) as [La|La].
        -- rewrite nth_error_app1 by exact La. destruct (rd_lt args i La) as (a & Ha). destruct (rd_lt vals i ltac:(lia)) as (v & Hv'). specialize (T i p v Hp Hv').
           unfold takes in T. rewrite Ha in T. unfold rd in *. congruence.
        -- rewrite nth_error_app2 by exact La. destruct (Hl i p Hp La) as (v & Hv' & El). unfold rd in *. rewrite Hv'.
           assert (Hs : nth_error (skipn (length args) named) (i - length args) = Some p) by (rewrite nth_error_skipn; replace (length args + (i - length args)) with i by lia; exact Hp).
           clear -F El Hs. revert Hs. generalize (i - length args). induction F as [|x y l l' H _ IH]; intros [|j] Hs; cbn in *; try discriminate; [congruence|eauto].
      * rewrite (nth_error_app2 vals) by lia. unfold rd. rewrite nth_error_skipn. replace (length named + (i - length vals)) with i by lia.
        destruct (Nat.lt_ge_cases i (length args)) as [La|La]; [rewrite nth_error_app1 by exact La; reflexivity|].
        rewrite (proj2 (nth_error_None args i)) by exact La. apply nth_error_None. rewrite app_length. lia.
Qed.
End Call.
End Bind.
