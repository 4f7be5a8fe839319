(** Chains of registered operators, selection of an overload, the detector. *)
From Verif Require Import Base Strings_Model Strings_Proofs OpReg_Model OpReg_Conc OpReg_Spec OpReg_Proofs.
From Coq Require Import Sorted.

(** ** Decaying *)
Lemma op_eqb_ok a b : op_eqb a b = true <-> a = b.
Proof.
  destruct a, b; cbn; split; intros H; try discriminate; try (apply Nat.eqb_eq in H; congruence); try (injection H as ->; apply Nat.eqb_refl); [apply str_eqb_ok in H; congruence|injection H as ->; apply str_refl].
Qed.
Section Chain.
Variable load : name -> option op.
Inductive star : op -> op -> Prop :=
  | star_refl o : star o o
  | star_step n o o' : load n = Some o -> star o o' -> star (Registered n) o'.
Definition plus (a b : op) : Prop := exists n o, a = Registered n /\ load n = Some o /\ star o b.
Lemma star_trans a b c : star a b -> star b c -> star a c.
Proof. induction 1; intros; [assumption|econstructor; eauto]. Qed.
Lemma goes_on_star a b k : star a b -> (forall j, j <= k -> goes_on load j b) -> goes_on load k a.
Proof.
  intros S. revert k. induction S as [o|n o o' E S IH]; intros k H; [apply H; lia|]. destruct k as [|k]; [exact I|]. cbn. exists n, o. split; [reflexivity|]. split; [exact E|]. apply IH. intros j Hj. apply H. lia.
Qed.
Lemma goes_on_cycle o : plus o o -> forall k, goes_on load k o.
Proof.
  intros (n & x & -> & E & S). intros k. induction k as [k IH] using lt_wf_ind. destruct k as [|k]; [exact I|]. cbn. exists n, x. split; [reflexivity|]. split; [exact E|]. eapply goes_on_star; [exact S|]. intros j Hj. apply IH. lia.
Qed.
Lemma leads_fun a x : leads load a x -> forall y, leads load a y -> x = y.
Proof. induction 1 as [o N|n o o' E L IH]; intros y H; inversion H; subst; [reflexivity|destruct (N n eq_refl)|destruct (H0 n eq_refl)|]. apply IH. congruence. Qed.
Lemma breaks_fun a n : breaks load a n -> forall m, breaks load a m -> n = m.
Proof. induction 1 as [n E|n o m E B IH]; intros k H; inversion H; subst; try congruence. apply IH. congruence. Qed.
Lemma leads_breaks a x : leads load a x -> forall n, ~ breaks load a n.
Proof. induction 1 as [o N|n o o' E L IH]; intros m H; inversion H; subst; try congruence. apply (IH m). congruence. Qed.
Lemma leads_goes a x : leads load a x -> ~ forall k, goes_on load k a.
Proof.
  induction 1 as [o N|n o o' E L IH]; intros H; [destruct (H 1) as (n & o' & -> & _); apply (N n eq_refl)|]. apply IH. intros k. destruct (H (S k)) as (m & y & Em & Ey & G). injection Em as ->. replace o with y by congruence. exact G.
Qed.
Lemma breaks_goes a n : breaks load a n -> ~ forall k, goes_on load k a.
Proof.
  induction 1 as [n E|n o m E L IH]; intros H; [destruct (H 1) as (m & o' & Em & Eo & _); injection Em as ->; congruence|]. apply IH. intros k. destruct (H (S k)) as (j & y & Em & Ey & G). injection Em as ->. replace o with y by congruence. exact G.
Qed.
Definition outcome (o : op) (d : decayed) : Prop := match d with Is x => leads load o x | NotFound n => breaks load o n | Circular _ => forall k, goes_on load k o end.
Lemma decay_loop_ok : forall fuel k visited cur d, (forall v, In v visited -> plus v cur) -> decay_loop fuel load k visited cur = Some d -> outcome cur d.
Proof.
  induction fuel as [|fuel IH]; intros k visited cur d V H; [discriminate|]. cbn [decay_loop] in H. unfold decay_step in H.
  assert (G : forall n vis, cur = Registered n -> (forall v, In v vis -> v = cur \/ plus v cur) -> match load n with Some o => decay_loop fuel load (S k) vis o | None => Some (NotFound n) end = Some d -> outcome cur d).
  { intros n vis -> Vi D. destruct (load n) as [o|] eqn:E; [|injection D as <-; constructor; exact E]. apply IH in D.
    - destruct d as [x|m|c]; cbn in *; [econstructor; eassumption|econstructor; eassumption|]. intros j. destruct j as [|j]; [exact I|]. exists n, o. auto.
    - intros v Iv. destruct (Vi v Iv) as [->|(m & x & -> & Em & S)]; [exists n, o; split; [reflexivity|]; split; [exact E|constructor]|]. exists m, x. split; [reflexivity|]. split; [exact Em|]. eapply star_trans; [exact S|]. econstructor; [exact E|constructor]. }
  assert (T : forall x, cur = x -> (forall n, cur <> Registered n) -> Some (Is x) = Some d -> outcome cur d) by (intros x <- N E; injection E as <-; constructor; exact N).
  destruct (k <? ignore_depth).
  - destruct cur as [i|i|n]; [apply (T (Plain i)); [reflexivity|discriminate|exact H]|apply (T (Overload i)); [reflexivity|discriminate|exact H]|]. apply (G n visited); [reflexivity|auto|exact H].
  - destruct (existsb (op_eqb cur) visited) eqn:Ex.
    + injection H as <-. cbn. apply existsb_exists in Ex as (v & Iv & Ev). apply op_eqb_ok in Ev as <-. apply goes_on_cycle. auto.
    + destruct cur as [i|i|n]; [apply (T (Plain i)); [reflexivity|discriminate|exact H]|apply (T (Overload i)); [reflexivity|discriminate|exact H]|]. apply (G n (Registered n :: visited)); [reflexivity| |exact H]. intros v [<-|Iv]; auto.
Qed.
Variable domain : list name.
Hypothesis in_domain : forall n o, load n = Some o -> In n domain.
Lemma decay_loop_total : forall fuel k visited cur, NoDup visited -> (forall v, In v visited -> exists n, v = Registered n /\ In n domain) -> length visited = k - ignore_depth ->
  ignore_depth + length domain + 2 <= fuel + k -> k <= ignore_depth + length domain + 1 -> decay_loop fuel load k visited cur <> None.
Proof.
  induction fuel as [|fuel IH]; intros k visited cur Nd V Lv Hf Hk; [lia|]. cbn [decay_loop]. unfold decay_step.
  assert (Lim : length visited <= length domain).
  { assert (E : visited = map Registered (map (fun o => match o with Registered n => n | _ => [] end) visited)).
    { rewrite map_map. clear -V. induction visited as [|v t IH]; [reflexivity|]. cbn. rewrite <- IH by (intros u Hu; apply V; right; exact Hu). destruct (V v (or_introl eq_refl)) as (n & -> & _). reflexivity. }
    rewrite E, map_length. apply NoDup_incl_length; [rewrite E in Nd; apply NoDup_map_inv in Nd; exact Nd|]. intros n In_. apply in_map_iff in In_ as (v & <- & Iv). destruct (V v Iv) as (m & -> & I). exact I. }
  destruct (Nat.ltb_spec k ignore_depth) as [Lt|Ge].
  - destruct cur as [i|i|n]; [discriminate|discriminate|]. destruct (load n) as [o|] eqn:E; [|discriminate]. apply IH; [exact Nd|exact V|lia|lia|lia].
  - destruct (existsb (op_eqb cur) visited) eqn:Ex; [discriminate|]. destruct cur as [i|i|n]; [discriminate|discriminate|]. destruct (load n) as [o|] eqn:E; [|discriminate].
    assert (Nin : ~ In (Registered n) visited).
    { intros Iv. apply not_true_iff_false in Ex. apply Ex. apply existsb_exists. exists (Registered n). split; [exact Iv|]. apply op_eqb_ok. reflexivity. }
    assert (Nd' : NoDup (Registered n :: visited)) by (constructor; assumption).
    assert (Lim' : S (length visited) <= length domain).
    { assert (V' : forall v, In v (Registered n :: visited) -> exists m, v = Registered m /\ In m domain) by (intros v [<-|Iv]; [exists n; split; [reflexivity|eapply in_domain, E]|apply V, Iv]).
      change (length (Registered n :: visited) <= length domain). set (vis := Registered n :: visited) in *. clearbody vis. clear -V' Nd'.
      assert (E : vis = map Registered (map (fun o => match o with Registered n => n | _ => [] end) vis)).
      { rewrite map_map. clear -V'. induction vis as [|v t IH]; [reflexivity|]. cbn. rewrite <- IH by (intros u Hu; apply V'; right; exact Hu). destruct (V' v (or_introl eq_refl)) as (m & -> & _). reflexivity. }
      rewrite E, map_length. apply NoDup_incl_length; [rewrite E in Nd'; apply NoDup_map_inv in Nd'; exact Nd'|]. intros m In_. apply in_map_iff in In_ as (v & <- & Iv). destruct (V' v Iv) as (j & -> & I). exact I. }
    apply IH; [exact Nd'| |cbn [length]; lia|lia|lia]. intros v [<-|Iv]; [exists n; split; [reflexivity|eapply in_domain, E]|apply V, Iv].
Qed.
End Chain.
Lemma implementation_domain r n o : implementation r n = Some o -> In n (map r_name (recs r)).
Proof.
  unfold implementation. destruct (find_rec (recs r) n) as [i|] eqn:E; [|discriminate]. intros _. destruct (find_rec_Some _ _ _ E) as (x & R & <-). apply in_map. eapply nth_error_In, R.
Qed.
Lemma decay_ok r o : exists d, decay r o = Some d /\ outcome (implementation r) o d.
Proof.
  unfold decay. destruct (decay_loop _ _ 0 [] o) as [d|] eqn:E.
  - exists d. split; [reflexivity|]. eapply decay_loop_ok; [|exact E]. intros v [].
  - exfalso. apply (decay_loop_total (implementation r) (map r_name (recs r)) (implementation_domain r) (ignore_depth + length (recs r) + 2) 0 [] o); [constructor|intros v []|reflexivity|rewrite map_length; lia|lia|exact E].
Qed.
Lemma decay_iff r o : exists d, decay r o = Some d /\ (forall x, d = Is x <-> leads (implementation r) o x) /\ (forall n, d = NotFound n <-> breaks (implementation r) o n) /\ ((exists c, d = Circular c) <-> forall k, goes_on (implementation r) k o).
Proof.
  destruct (decay_ok r o) as (d & E & O). exists d. split; [exact E|]. destruct d as [x|n|c]; cbn in O.
  - split; [intros y; split; [intros H; injection H as <-; exact O|intros H; f_equal; eapply leads_fun; eauto]|]. split; [intros n; split; [discriminate|intros H; destruct (leads_breaks _ _ _ O _ H)]|]. split; [intros (c & H); discriminate|intros H; destruct (leads_goes _ _ _ O H)].
  - split; [intros y; split; [discriminate|intros H; destruct (leads_breaks _ _ _ H _ O)]|]. split; [intros m; split; [intros H; injection H as <-; exact O|intros H; f_equal; eapply breaks_fun; eauto]|]. split; [intros (c & H); discriminate|intros H; destruct (breaks_goes _ _ _ O H)].
  - split; [intros y; split; [discriminate|intros H; destruct (leads_goes _ _ _ H O)]|]. split; [intros m; split; [discriminate|intros H; destruct (breaks_goes _ _ _ H O)]|]. split; [intros _; exact O|eauto].
Qed.

(** ** Selecting an overload *)
Definition matching (l : list (bool * bool)) (i : nat) : Prop := rd l i = Some (true, true).
Definition all_ready (l : list (bool * bool)) : Prop := forall i a c, rd l i = Some (a, c) -> a = true.
Lemma rd_cons {A} (x : A) l i : rd (x :: l) i = match i with 0 => Some x | S j => rd l j end.
Proof. destruct i; reflexivity. Qed.
Lemma more_ok l : forall i b js r, more_matches i l b = (js, r) -> StronglySorted lt js /\ (forall j, In j js <-> i <= j /\ matching l (j - i)) /\ (r = true <-> b = true /\ all_ready l).
Proof.
  induction l as [|[rdy cond] l IH]; intros i b js r H; cbn in H.
  - injection H as <- <-. split; [constructor|]. split; [intros j; split; [intros []|intros [_ M]; unfold matching, rd in M; destruct (j - i); discriminate]|]. split; [intros ->; split; [reflexivity|intros j a c E; destruct j; discriminate]|tauto].
  - destruct (more_matches (S i) l (if rdy then b else false)) as [js' r'] eqn:E. injection H as <- <-. destruct (IH _ _ _ _ E) as (S & M & R).
    assert (A : all_ready ((rdy, cond) :: l) <-> rdy = true /\ all_ready l).
    { split; [intros H; split; [apply (H 0 rdy cond); reflexivity|intros j a c Hj; apply (H (Datatypes.S j) a c), Hj]|]. intros [-> H] [|j] a c Hj; [injection Hj as <- <-; reflexivity|apply (H j a c), Hj]. }
    assert (Mm : forall j, Datatypes.S i <= j /\ matching l (j - Datatypes.S i) <-> Datatypes.S i <= j /\ matching ((rdy, cond) :: l) (j - i)).
    { intros j. split; intros [L X]; (split; [exact L|]); unfold matching in *; [replace (j - i) with (Datatypes.S (j - Datatypes.S i)) by lia; exact X|]. replace (j - i) with (Datatypes.S (j - Datatypes.S i)) in X by lia. exact X. }
    split; [|split].
    + destruct (rdy && cond); [|exact S]. constructor; [exact S|]. apply Forall_forall. intros j Hj. apply M in Hj. lia.
    + intros j. assert (In j js' <-> Datatypes.S i <= j /\ matching ((rdy, cond) :: l) (j - i)) as J by (rewrite M; apply Mm). destruct (rdy && cond) eqn:Rc.
      * apply andb_true_iff in Rc as [-> ->]. cbn. rewrite J. split; [intros [<-|[L X]]; [split; [lia|rewrite Nat.sub_diag; reflexivity]|split; [lia|exact X]]|]. intros [L X]. destruct (Nat.eq_dec i j) as [->|N]; [left; reflexivity|right; split; [lia|exact X]].
      * rewrite J. split; [intros [L X]; split; [lia|exact X]|]. intros [L X]. destruct (Nat.eq_dec i j) as [->|N]; [|split; [lia|exact X]]. rewrite Nat.sub_diag in X. unfold matching in X. cbn in X. injection X as -> ->. discriminate.
    + rewrite R, A. destruct rdy; [tauto|]. split; [intros [X _]; discriminate|intros [_ [X _]]; discriminate].
Qed.
Lemma first_ok l : forall i b, match first_match i l b with
  | (Some f, r, rest) => exists pre, l = pre ++ (true, true) :: rest /\ f = i + length pre /\ (forall j, ~ matching pre j) /\ (r = true <-> b = true /\ all_ready pre)
  | (None, r, rest) => rest = [] /\ (forall j, ~ matching l j) /\ (r = true <-> b = true /\ all_ready l) end.
Proof.
  induction l as [|[rdy cond] l IH]; intros i b; cbn [first_match].
  - split; [reflexivity|]. split; [intros [|j]; discriminate|]. split; [intros ->; split; [reflexivity|intros [|j] a c E; discriminate]|tauto].
  - assert (A : forall t, all_ready ((rdy, cond) :: t) <-> rdy = true /\ all_ready t).
    { intros t. split; [intros H; split; [apply (H 0 rdy cond); reflexivity|intros j a c Hj; apply (H (Datatypes.S j) a c), Hj]|]. intros [-> H] [|j] a c Hj; [injection Hj as <- <-; reflexivity|apply (H j a c), Hj]. }
    destruct rdy; [destruct cond|].
    + exists []. split; [reflexivity|]. split; [cbn; lia|]. split; [intros [|j]; discriminate|]. split; [intros ->; split; [reflexivity|intros [|j] a c E; discriminate]|tauto].
    + specialize (IH (S i) b). destruct (first_match (S i) l b) as [[[f|] r] rest].
      * destruct IH as (pre & -> & -> & M & R). exists ((true, false) :: pre). split; [reflexivity|]. split; [cbn; lia|]. split; [intros [|j]; [discriminate|apply M]|]. rewrite R, A. tauto.
      * destruct IH as (-> & M & R). split; [reflexivity|]. split; [intros [|j]; [discriminate|apply M]|]. rewrite R, A. tauto.
    + specialize (IH (S i) false). destruct (first_match (S i) l false) as [[[f|] r] rest].
      * destruct IH as (pre & -> & -> & M & R). exists ((false, cond) :: pre). split; [reflexivity|]. split; [cbn; lia|]. split; [intros [|j]; [discriminate|apply M]|]. rewrite R, A. split; [intros [X _]; discriminate|intros [_ [X _]]; discriminate].
      * destruct IH as (-> & M & R). split; [reflexivity|]. split; [intros [|j]; [discriminate|apply M]|]. rewrite R, A. split; [intros [X _]; discriminate|intros [_ [X _]]; discriminate].
Qed.
Lemma not_all_ready l : ~ all_ready l -> exists i c, rd l i = Some (false, c).
Proof.
  induction l as [|[a c] l IH]; intros H; [destruct H; intros [|i] a c E; discriminate|]. destruct a; [|exists 0, c; reflexivity]. destruct IH as (i & d & E); [|exists (S i), d; exact E]. intros A. apply H. intros [|i] a d E; [injection E as <- <-; reflexivity|]. eapply (A i), E.
Qed.
Lemma select_ok l : exists s, select l = Some s /\ match s with
  | Several i js => js <> [] /\ StronglySorted lt (i :: js) /\ forall j, In j (i :: js) <-> matching l j
  | NotReady => (forall i j, matching l i -> matching l j -> i = j) /\ exists i c, rd l i = Some (false, c)
  | Matched i => (forall j, matching l j <-> j = i) /\ all_ready l
  | NoOverload => (forall j, ~ matching l j) /\ all_ready l end.
Proof.
  unfold select. pose proof (first_ok l 0 true) as F. destruct (first_match 0 l true) as [[[f|] r] rest].
  - destruct F as (pre & -> & -> & M & R). cbn [Nat.add]. destruct (more_matches (S (length pre)) rest r) as [js r2] eqn:Em. destruct (more_ok _ _ _ _ _ Em) as (So & In_ & R2).
    assert (Mt : forall j, matching (pre ++ (true, true) :: rest) j <-> j = length pre \/ In j js).
    { intros j. rewrite In_. unfold matching, rd. destruct (Nat.lt_trichotomy j (length pre)) as [L|[->|L]].
      - rewrite nth_error_app1 by exact L. split; [intros H; destruct (M j H)|intros [->|[H _]]; lia].
      - rewrite nth_error_app2, Nat.sub_diag by lia. cbn. tauto.
      - rewrite nth_error_app2 by lia. replace (j - length pre) with (S (j - S (length pre))) by lia. cbn. split; [intros H; right; split; [lia|exact H]|intros [->|[_ H]]; [lia|exact H]]. }
    assert (Al : all_ready (pre ++ (true, true) :: rest) <-> r2 = true).
    { rewrite R2, R. split.
      - intros H. split; [split; [reflexivity|intros j a c E; apply (H j a c), rd_app_l, E]|]. intros j a c E. apply (H (length pre + S j) a c). unfold rd. rewrite nth_error_app2 by lia. replace (length pre + S j - length pre) with (S j) by lia. exact E.
      - intros [[_ P] Q] j a c E. unfold rd in E. destruct (Nat.lt_ge_cases j (length pre)) as [L|L]; [rewrite nth_error_app1 in E by exact L; eapply P, E|]. rewrite nth_error_app2 in E by exact L. destruct (j - length pre) as [|k]; [injection E as <- <-; reflexivity|]. eapply (Q k), E. }
    destruct js as [|j js].
    + destruct r2; cbn [negb].
      * eexists. split; [reflexivity|]. split; [intros j; rewrite Mt; cbn; tauto|apply Al; reflexivity].
      * eexists. split; [reflexivity|]. split; [intros i j Hi Hj; apply Mt in Hi, Hj; destruct Hi as [->|[]], Hj as [->|[]]; reflexivity|]. apply not_all_ready. rewrite Al. discriminate.
    + cbn [bind]. eexists. split; [reflexivity|]. split; [discriminate|]. split.
      * constructor; [exact So|]. apply Forall_forall. intros k Hk. apply In_ in Hk. lia.
      * intros k. rewrite Mt. cbn. split; [intros [<-|H]; auto|intros [->|H]; auto].
  - destruct F as (-> & M & R). cbn [more_matches]. destruct r; cbn [negb].
    + eexists. split; [reflexivity|]. split; [exact M|]. apply R. reflexivity.
    + eexists. split; [reflexivity|]. split; [intros i j Hi; destruct (M i Hi)|]. apply not_all_ready. intros A. assert (false = true) by (apply R; auto). discriminate.
Qed.

(** ** The detector *)
Section Detect.
Context {K R : Type}.
Variable K_eq_dec : forall a b : K, {a = b} + {a <> b}.
Variable bodies : K -> @body K R.
Variable circular : K -> R.
(** The loop over the calls of a body, for any way to call. *)
Definition run_with {S} (c : S -> K -> option (S * R)) : @body K R -> S -> option (S * R) :=
  fix run (b : @body K R) (s : S) {struct b} : option (S * R) :=
    match b with Return x => Some (s, x) | Call k' next => let? (s, x) := c s k' in run (next x) s end.
Lemma call_unfold f s k : call K_eq_dec bodies circular (S f) s k =
  let '(s1, token) := push K_eq_dec s k in
  if negb (guard_ok s1 token) then let? s2 := pop K_eq_dec s1 token in Some (s2, circular k) else
  let? (s2, x) := run_with (call K_eq_dec bodies circular f) (bodies k) s1 in let? s3 := pop K_eq_dec s2 token in Some (s3, x).
Proof. reflexivity. Qed.
Lemma run_with_mono {S} (c1 c2 : S -> K -> option (S * R)) : (forall s k y, c1 s k = Some y -> c2 s k = Some y) -> forall b s y, run_with c1 b s = Some y -> run_with c2 b s = Some y.
Proof.
  intros H. induction b as [x|k next IH]; intros s y E; [exact E|]. cbn in *. destruct (c1 s k) as [[s1 x]|] eqn:Ec; [|discriminate]. rewrite (H _ _ _ Ec). cbn in *. apply IH, E.
Qed.
Lemma call_mono f : forall f' s k y, f <= f' -> call K_eq_dec bodies circular f s k = Some y -> call K_eq_dec bodies circular f' s k = Some y.
Proof.
  induction f as [|f IH]; intros f' s k y L H; [discriminate|]. destruct f' as [|f']; [lia|]. rewrite call_unfold in *. destruct (push K_eq_dec s k) as [s1 token]. destruct (negb (guard_ok s1 token)); [exact H|]. destruct (run_with (call K_eq_dec bodies circular f) (bodies k) s1) as [[s2 x]|] eqn:E; [|discriminate]. rewrite (run_with_mono _ (call K_eq_dec bodies circular f') (fun s k y => IH f' s k y (le_S_n _ _ L)) _ _ _ E). exact H.
Qed.
Lemma filter_other k (v : list K) : ~ In k v -> filter (fun x => if K_eq_dec x k then false else true) v = v.
Proof.
  induction v as [|x v IH]; intros N; [reflexivity|]. cbn. destruct (K_eq_dec x k) as [->|]; [destruct N; left; reflexivity|]. rewrite IH; [reflexivity|]. intros H. apply N. right. exact H.
Qed.
Lemma push_pop s k s1 token : push K_eq_dec s k = (s1, token) -> pop K_eq_dec s1 token = Some s.
Proof.
  destruct s as [d v]. unfold push. destruct (ignore_depth <? S d) eqn:L; [destruct (in_dec K_eq_dec k v) as [I|I]|]; intros H; injection H as <- <-; unfold pop; rewrite L; [reflexivity| |reflexivity]. cbn [filter]. destruct (K_eq_dec k k) as [_|N]; [|congruence]. rewrite filter_other by exact I. reflexivity.
Qed.
Lemma run_keeps {S} (c : S -> K -> option (S * R)) : (forall s k s' x, c s k = Some (s', x) -> s' = s) -> forall b s s' x, run_with c b s = Some (s', x) -> s' = s.
Proof.
  intros H. induction b as [y|k next IH]; intros s s' x E; cbn in E; [congruence|]. destruct (c s k) as [[s1 z]|] eqn:Ec; [|discriminate]. apply H in Ec as ->. cbn in E. eapply IH, E.
Qed.
(** Afterwards the thread is as it was. *)
Lemma call_keeps f : forall s k s' x, call K_eq_dec bodies circular f s k = Some (s', x) -> s' = s.
Proof.
  induction f as [|f IH]; intros s k s' x H; [discriminate|]. rewrite call_unfold in H. destruct (push K_eq_dec s k) as [s1 token] eqn:P. pose proof (push_pop _ _ _ _ P) as Q. destruct (negb (guard_ok s1 token)); [rewrite Q in H; cbn in H; congruence|].
  destruct (run_with (call K_eq_dec bodies circular f) (bodies k) s1) as [[s2 y]|] eqn:E; [|discriminate]. apply (run_keeps _ IH) in E as ->. cbn in H. rewrite Q in H. cbn in H. congruence.
Qed.
(** Evaluation without the detector. *)
Fixpoint ev (f : nat) (s : unit) (k : K) : option (unit * R) := match f with 0 => None | S f => run_with (ev f) (bodies k) s end.
Lemma ev_mono f : forall f' s k y, f <= f' -> ev f s k = Some y -> ev f' s k = Some y.
Proof.
  induction f as [|f IH]; intros f' s k y L H; [discriminate|]. destruct f' as [|f']; [lia|]. cbn in *. eapply run_with_mono; [|exact H]. intros; eapply IH; [|eassumption]. lia.
Qed.
Scheme answers_min := Minimality for answers Sort Prop
  with finishes_min := Minimality for finishes Sort Prop.
Lemma answers_ev k x : answers bodies k x -> exists f, ev f tt k = Some (tt, x).
Proof.
  apply (answers_min K R bodies (fun k x => exists f, ev f tt k = Some (tt, x)) (fun b x => exists f, run_with (ev f) b tt = Some (tt, x))).
  - intros k0 x0 _ (f & E). exists (S f). exact E.
  - intros x0. exists 0. reflexivity.
  - intros k0 next y x0 _ (f1 & E1) _ (f2 & E2). exists (Nat.max f1 f2). cbn. rewrite (ev_mono f1 _ _ _ _ (Nat.le_max_l f1 f2) E1). cbn. eapply run_with_mono; [|exact E2]. intros; eapply ev_mono; [apply Nat.le_max_r|eassumption].
Qed.
Lemma ev_answers f : forall k x, ev f tt k = Some (tt, x) -> answers bodies k x.
Proof.
  induction f as [|f IH]; intros k x H; [discriminate|]. cbn in H. constructor. revert x H. generalize (bodies k). induction b as [y|k' next IHb]; intros x H; cbn in H; [injection H as <-; constructor|]. destruct (ev f tt k') as [[[] z]|] eqn:E; [|discriminate]. cbn in H. econstructor; [apply IH, E|apply IHb, H].
Qed.
Lemma ev_least f k x : ev f tt k = Some (tt, x) -> exists f0, f0 < f /\ ev (S f0) tt k = Some (tt, x) /\ ev f0 tt k = None.
Proof.
  induction f as [|f IH]; intros H; [discriminate|]. destruct (ev f tt k) as [[[] y]|] eqn:E.
  - assert (y = x) as -> by (pose proof (ev_mono f (S f) tt k _ (Nat.le_succ_diag_r f) E); congruence). destruct (IH eq_refl) as (f0 & L & A & B). exists f0. split; [lia|]. auto.
  - exists f. auto.
Qed.
(** No call that ends is refused. *)
Lemma call_right : forall f k x d v, ev f tt k = Some (tt, x) -> (forall u, In u v -> ev f tt u = None) -> call K_eq_dec bodies circular f (d, v) k = Some ((d, v), x).
Proof.
  induction f as [f IH] using lt_wf_ind. intros k x d v H Hv. destruct (ev_least _ _ _ H) as (f0 & L & H0 & N0). apply (call_mono (S f0)); [lia|].
  assert (Nk : ~ In k v) by (intros I; rewrite (Hv k I) in H; discriminate).
  assert (Hv0 : forall u, In u v -> ev f0 tt u = None). { intros u I. destruct (ev f0 tt u) as [y|] eqn:E; [|reflexivity]. specialize (Hv u I). rewrite (ev_mono f0 f tt u y ltac:(lia) E) in Hv. discriminate. }
  rewrite call_unfold. destruct (push K_eq_dec (d, v) k) as [s1 token] eqn:P. pose proof (push_pop _ _ _ _ P) as Q. assert (Ok : guard_ok s1 token = true /\ forall u, In u (snd s1) -> ev f0 tt u = None).
  { unfold push in P. destruct (ignore_depth <? S d) eqn:Ld; [destruct (in_dec K_eq_dec k v); [contradiction|]|]; injection P as <- <-; unfold guard_ok; cbn [fst snd].
    - split; [apply orb_true_r|]. intros u [<-|I]; auto.
    - split; [|exact Hv0]. apply Nat.ltb_ge in Ld. rewrite (proj2 (Nat.leb_le _ _) Ld). reflexivity. }
  destruct Ok as [-> Hs]. cbn [negb]. cbn [ev] in H0. destruct s1 as [d1 v1]. cbn [snd] in Hs. assert (G : run_with (call K_eq_dec bodies circular f0) (bodies k) (d1, v1) = Some ((d1, v1), x)).
  { revert x H0 H. generalize (bodies k). clear P Q. induction b as [y|k' next IHb]; intros x H0 H; [cbn in H0; injection H0 as <-; reflexivity|]. cbn in *. destruct (ev f0 tt k') as [[[] z]|] eqn:E; [|discriminate]. rewrite (IH f0 L k' z d1 v1 E Hs). cbn. eapply IHb; [exact H0|exact H]. }
  rewrite G. cbn [bind]. rewrite Q. reflexivity.
Qed.
(** With finitely many tokens every call ends. *)
Variable tokens : list K.
Hypothesis closed : forall k k', In k tokens -> occurs_in k' (bodies k) -> In k' tokens.
Definition room (d : nat) (v : list K) : nat := (ignore_depth - d) + (length tokens - length v).
Lemma call_ends : forall f d v k, NoDup v -> incl v tokens -> In k tokens -> room d v < f -> exists x, call K_eq_dec bodies circular f (d, v) k = Some ((d, v), x).
Proof.
  induction f as [|f IH]; intros d v k Nd Iv Ik L; [lia|]. rewrite call_unfold. destruct (push K_eq_dec (d, v) k) as [s1 token] eqn:P. pose proof (push_pop _ _ _ _ P) as Q. destruct (guard_ok s1 token) eqn:Gd; cbn [negb]; [|rewrite Q; cbn; eauto].
  assert (Go : exists d1 v1, s1 = (d1, v1) /\ NoDup v1 /\ incl v1 tokens /\ room d1 v1 < f).
  { unfold push in P. destruct (Nat.ltb_spec ignore_depth (S d)) as [Ld|Ld]; [destruct (in_dec K_eq_dec k v) as [I|I]|]; injection P as <- <-.
    - unfold guard_ok in Gd. cbn [fst] in Gd. rewrite orb_false_r in Gd. apply Nat.leb_le in Gd. lia.
    - assert (Nd' : NoDup (k :: v)) by (constructor; assumption). assert (Iv' : incl (k :: v) tokens) by (intros u [<-|Hu]; auto). exists (S d), (k :: v). split; [reflexivity|]. split; [exact Nd'|]. split; [exact Iv'|]. pose proof (NoDup_incl_length Nd' Iv') as Le. unfold room in *. cbn [length] in *. lia.
    - exists (S d), v. split; [reflexivity|]. split; [exact Nd|]. split; [exact Iv|]. unfold room in *. lia. }
  destruct Go as (d1 & v1 & -> & Nd1 & Iv1 & L1).
  assert (G : exists x, run_with (call K_eq_dec bodies circular f) (bodies k) (d1, v1) = Some ((d1, v1), x)).
  { assert (Oc : forall k', occurs_in k' (bodies k) -> In k' tokens) by (intros k' H; eapply closed; eauto). clear P Q. revert Oc. generalize (bodies k). induction b as [y|k' next IHb]; intros Oc; cbn; [eauto|]. destruct (IH d1 v1 k' Nd1 Iv1 (Oc k' (OHere _ next)) L1) as (z & ->). cbn. apply IHb. intros u Hu. apply Oc. eapply OLater, Hu. }
  destruct G as (x & ->). cbn [bind]. rewrite Q. cbn. eauto.
Qed.
End Detect.
