From Coq Require Import Ascii String DecimalNat.
From Verif Require Import Base Strings_Model Strings_Proofs Repr_Model Repr_Spec Repr_Parse Repr_Proofs Repr_Inj.
Local Open Scope list_scope.

(** ** Order *)
Definition closed (l : list dexpr) : Prop := forall l1 n l2, l = l1 ++ n :: l2 -> incl (deps n) l1.
Lemma closed_snoc l n : closed l -> incl (deps n) l -> closed (l ++ [n]).
Proof.
  intros H Hn l1 m l2 E. destruct (exists_last (l := m :: l2) ltac:(discriminate)) as (p & x & Ep).
  rewrite Ep, app_assoc in E. apply app_inj_tail in E. destruct E as [El ->].
  destruct p as [|m' p'].
  - cbn in Ep. injection Ep as -> ->. rewrite app_nil_r in El. subst. exact Hn.
  - injection Ep as <- ->. apply (H _ _ p'). exact El.
Qed.
Definition extends (f : list dexpr -> list dexpr) (P : dexpr -> Prop) : Prop :=
  forall acc, closed acc -> NoDup acc -> closed (f acc) /\ NoDup (f acc) /\ incl acc (f acc) /\ (forall n, In n (f acc) -> In n acc \/ P n).
Lemma post_order_unfold n acc : post_order n acc = if memd n acc then acc else fold_left (fun acc d => post_order d acc) (deps n) acc ++ [n].
Proof. destruct n; cbn [post_order deps fold_left]; reflexivity. Qed.
Lemma post_order_ok r : extends (post_order r) (fun n => sub n r) /\ (forall acc, closed acc -> NoDup acc -> In r (post_order r acc)).
Proof.
  induction r as [r IH] using dexpr_ind'.
  assert (K : forall ds acc, incl ds (deps r) -> closed acc -> NoDup acc ->
    let res := fold_left (fun acc d => post_order d acc) ds acc in
    closed res /\ NoDup res /\ incl acc res /\ incl ds res /\ (forall n, In n res -> In n acc \/ exists d, In d ds /\ sub n d)).
  { induction ds as [|d ds IHd]; intros acc Hi Hc Hn; cbn [fold_left].
    - repeat split; auto; [apply incl_refl|intros ? []].
    - destruct (IH d) as [E1 E2]; [apply Hi; left; reflexivity|]. destruct (E1 acc Hc Hn) as (c1 & n1 & i1 & s1).
      destruct (IHd (post_order d acc)) as (c2 & n2 & i2 & j2 & s2); [intros x Hx; apply Hi; right; exact Hx|assumption|assumption|].
      cbv zeta. repeat split; [assumption|assumption|intros x Hx; apply i2, i1, Hx| |].
      + intros x [->|Hx]; [apply i2, E2; assumption|apply j2, Hx].
      + intros n Hx. destruct (s2 n Hx) as [Hy|(g & Hg & Sg)].
        * destruct (s1 n Hy) as [?|?]; [left; assumption|right; exists d; split; [left; reflexivity|assumption]].
        * right. exists g. split; [right|]; assumption. }
  assert (G : forall acc, closed acc -> NoDup acc -> closed (post_order r acc) /\ NoDup (post_order r acc) /\ incl acc (post_order r acc) /\
    (forall n, In n (post_order r acc) -> In n acc \/ sub n r) /\ In r (post_order r acc)).
  { intros acc Hc Hn. rewrite post_order_unfold. destruct (memd r acc) eqn:M.
    - apply memd_ok in M. repeat split; auto. apply incl_refl.
    - destruct (K (deps r) acc (incl_refl _) Hc Hn) as (c & n & i & j & s).
      assert (Nr : ~ In r (fold_left (fun acc d => post_order d acc) (deps r) acc)).
      { intros Hr. destruct (s r Hr) as [Hr'|(d & Hd & Sd)]; [apply memd_ok in Hr'; congruence|].
        assert (Z : forall x y, sub x y -> dsize x <= dsize y).
        { induction 1 as [|x g y Hg _ IHs]; [lia|]. destruct y; cbn in Hg; try contradiction. cbn [dsize]. pose proof (dsize_in g ds Hg). lia. }
        apply Z in Sd. destruct r; cbn in Hd; try contradiction. cbn [dsize] in Sd. pose proof (dsize_in d ds Hd). lia. }
      repeat split.
      + apply closed_snoc; assumption.
      + apply NoDup_Add with (a := r) (l := fold_left (fun acc d => post_order d acc) (deps r) acc); [|split; assumption].
        replace (fold_left _ _ _) with (fold_left (fun acc d => post_order d acc) (deps r) acc ++ []) at 1 by apply app_nil_r. apply Add_app.
      + intros x Hx. apply in_or_app. left. apply i, Hx.
      + intros x Hx. apply in_app_or in Hx. destruct Hx as [Hx|[<-|[]]]; [|right; constructor].
        destruct (s x Hx) as [?|(d & Hd & Sd)]; [left; assumption|right; eapply sub_dep; eassumption].
      + apply in_or_app. right. left. reflexivity. }
  split; [intros acc Hc Hn|intros acc Hc Hn]; destruct (G acc Hc Hn) as (g1 & g2 & g3 & g4 & g5); [repeat split; assumption|assumption].
Qed.
Lemma closed_nil : closed [].
Proof. intros l1 n l2 E. destruct l1; discriminate. Qed.

(** ** Names *)
Lemma uint_digits_inj u : forall v, uint_digits u = uint_digits v -> u = v.
Proof. induction u; intros v; destruct v; cbn; intros H; try discriminate; try reflexivity; injection H as H; f_equal; auto. Qed.
Lemma dec_inj n m : dec n = dec m -> n = m.
Proof. intros H. apply uint_digits_inj in H. apply Unsigned.to_uint_inj, H. Qed.
Lemma uint_digits_range u : forall c, In c (uint_digits u) -> (48 <= c <= 57)%Z.
Proof. induction u; cbn; intros c H; try contradiction; destruct H as [<-|H]; try lia; auto. Qed.
Lemma dec_digits n : digits (dec n).
Proof.
  split; [|apply uint_digits_range]. unfold dec. intros H.
  assert (E : Nat.to_uint n = Decimal.Nil) by (apply uint_digits_inj; exact H).
  pose proof (DecimalNat.Unsigned.of_to n) as K. rewrite E in K. cbn in K. subst n. discriminate E.
Qed.

Lemma safe_form n b : safe_name n = Some b -> exists r x, n = DOp r (bytes "annotation.name") [x; DText b] /\ is_safe_name b = true.
Proof.
  unfold safe_name, read_name. destruct n as [| | | | | | |r name ds]; try discriminate.
  destruct ds as [|x [|[| | | |s| | |] [|? ?]]]; try discriminate.
  destruct (str_eqb name (bytes "annotation.name")) eqn:E; [|discriminate]. destruct (is_safe_name s) eqn:Es; [|discriminate].
  apply str_eqb_ok in E. intros [= <-]. subst. eauto.
Qed.

(** What the name of a statement looks like, [k]: its counter. *)
Definition shape (all : list dexpr) (n : dexpr) (s : list Z) (k : nat) : Prop :=
  match safe_name n with
  | None => s = ch_us :: dec k
  | Some b => if Nat.ltb 1 (name_count all b) then s = b ++ [ch_dot; ch_us] ++ dec k else s = b
  end.
Definition low (all seen : list dexpr) (anon : nat) (n : dexpr) : nat :=
  match safe_name n with None => anon | Some b => S (name_count seen b) end.
Lemma name_count_cons n l b : name_count (n :: l) b =
  (match safe_name n with Some b' => if str_eqb b b' then 1 else 0 | None => 0 end) + name_count l b.
Proof. unfold name_count. cbn [filter]. destruct (safe_name n) as [b'|]; [destruct (str_eqb b b')|]; reflexivity. Qed.

Lemma gen_shape all : forall todo seen anon n s, In (n, s) (gen_loop all seen todo anon) -> In n todo /\ exists k, low all seen anon n <= k /\ shape all n s k.
Proof.
  induction todo as [|m t IH]; intros seen anon n s H; cbn [gen_loop] in H; [destruct H|].
  destruct (safe_name m) as [b|] eqn:E.
  - destruct H as [H|H].
    + injection H as -> <-. split; [left; reflexivity|]. exists (S (name_count seen b)). unfold low, shape. rewrite E. split; [lia|].
      destruct (Nat.ltb 1 (name_count all b)); reflexivity.
    + destruct (IH _ _ _ _ H) as (Hi & k & Hk & Sh). split; [right; exact Hi|]. exists k. split; [|exact Sh].
      unfold low in *. destruct (safe_name n) as [b'|]; [|lia]. rewrite name_count_cons in Hk. lia.
  - destruct H as [H|H].
    + injection H as -> <-. split; [left; reflexivity|]. exists anon. unfold low, shape. rewrite E. split; [lia|reflexivity].
    + destruct (IH _ _ _ _ H) as (Hi & k & Hk & Sh). split; [right; exact Hi|]. exists k. split; [|exact Sh].
      unfold low in *. destruct (safe_name n) as [b'|]; [|lia]. rewrite name_count_cons in Hk. lia.
Qed.
Lemma name_count_in n l b : In n l -> safe_name n = Some b -> 1 <= name_count l b.
Proof.
  induction l as [|m t IH]; intros H E; [destruct H|]. rewrite name_count_cons. destruct H as [->|H]; [|specialize (IH H E); lia].
  rewrite E, (proj2 (str_eqb_ok b b) eq_refl). lia.
Qed.

Lemma digits_dot d : digits d -> ~ In ch_dot d /\ ~ In ch_us d.
Proof. intros [_ H]. split; intros K; apply H in K; unfold ch_dot, ch_us in K; lia. Qed.
Lemma suffix_inj x y d d' : digits d -> digits d' -> x ++ [ch_dot; ch_us] ++ d = y ++ [ch_dot; ch_us] ++ d' -> x = y /\ d = d'.
Proof.
  intros Hd Hd' E. apply (f_equal (@rev Z)) in E. rewrite !rev_app_distr in E. cbn [rev app] in E. rewrite <- !app_assoc in E. cbn [app] in E.
  assert (D1 : ~ In ch_us (rev d)) by (rewrite <- in_rev; apply digits_dot, Hd).
  assert (D2 : ~ In ch_us (rev d')) by (rewrite <- in_rev; apply digits_dot, Hd').
  assert (K : forall (u v : list Z) p q, ~ In ch_us u -> ~ In ch_us v -> u ++ ch_us :: p = v ++ ch_us :: q -> u = v /\ p = q).
  { induction u as [|c u IH]; intros [|c' v] p q Hu Hv Eq; cbn in Eq.
    - injection Eq as ->. auto.
    - injection Eq as <- _. exfalso. apply Hv. left. reflexivity.
    - injection Eq as -> _. exfalso. apply Hu. left. reflexivity.
    - injection Eq as <- Eq. destruct (IH v p q) as [-> ->]; auto; intros ?; [apply Hu|apply Hv]; right; assumption. }
  destruct (K _ _ _ _ D1 D2 E) as [E1 E2]. injection E2 as E2.
  split; [rewrite <- (rev_involutive x), E2, rev_involutive; reflexivity|rewrite <- (rev_involutive d), E1, rev_involutive; reflexivity].
Qed.
Lemma unsafe_anon k : is_safe_name (ch_us :: dec k) = false.
Proof.
  unfold is_safe_name. destruct (dec_digits k) as [N D].
  assert (F : forallb is_digit (dec k) = true). { apply forallb_forall. intros c Hc. specialize (D c Hc). unfold is_digit. lia. }
  rewrite F. destruct (dec k); [congruence|]. cbn. apply andb_false_r.
Qed.

Section Unique.
Variable all : list dexpr.
(** No name in use is another one with a counter. *)
Hypothesis guard : forall n n' b b' k, In n all -> In n' all -> safe_name n = Some b -> safe_name n' = Some b' -> b' <> b ++ [ch_dot; ch_us] ++ dec k.

Lemma shapes_clash n s k n' s' k' : In n all -> In n' all -> shape all n s k -> shape all n' s' k' -> s = s' ->
  (safe_name n = None /\ safe_name n' = None /\ k = k') \/
  (exists b, safe_name n = Some b /\ safe_name n' = Some b /\ (1 < name_count all b -> k = k')).
Proof.
  unfold shape. intros I I' Sh Sh' ->.
  destruct (safe_name n) as [b|] eqn:E, (safe_name n') as [b'|] eqn:E'.
  - right. exists b. split; [reflexivity|].
    destruct (Nat.ltb_spec 1 (name_count all b)), (Nat.ltb_spec 1 (name_count all b')).
    + rewrite Sh in Sh'. apply suffix_inj in Sh'; [|apply dec_digits|apply dec_digits]. destruct Sh' as [-> Sh']. apply dec_inj in Sh'. auto.
    + exfalso. rewrite Sh' in Sh. exact (guard _ _ _ _ _ I I' E E' Sh).
    + exfalso. rewrite Sh in Sh'. exact (guard _ _ _ _ _ I' I E' E Sh').
    + subst. split; [reflexivity|lia].
  - exfalso. destruct (safe_form _ _ E) as (r & x & -> & Sb). destruct (Nat.ltb 1 (name_count all b)).
    + subst. assert (K : In ch_dot (ch_us :: dec k')) by (rewrite <- Sh'; apply in_or_app; right; left; reflexivity).
      destruct K as [K|K]; [discriminate K|]. exact (proj1 (digits_dot _ (dec_digits k')) K).
    + subst. rewrite unsafe_anon in Sb. discriminate.
  - exfalso. destruct (safe_form _ _ E') as (r & x & -> & Sb). destruct (Nat.ltb 1 (name_count all b')).
    + subst. assert (K : In ch_dot (ch_us :: dec k)) by (rewrite Sh'; apply in_or_app; right; left; reflexivity).
      destruct K as [K|K]; [discriminate K|]. exact (proj1 (digits_dot _ (dec_digits k)) K).
    + subst. rewrite unsafe_anon in Sb. discriminate.
  - left. rewrite Sh in Sh'. injection Sh' as Sh'. apply dec_inj in Sh'. auto.
Qed.

Lemma gen_unique : forall todo seen anon, incl todo all -> (forall b, name_count seen b + name_count todo b <= name_count all b) ->
  NoDup (map snd (gen_loop all seen todo anon)).
Proof.
  induction todo as [|m t IH]; intros seen anon Hi Hc; cbn [gen_loop]; [constructor|].
  assert (Hi' : incl t all) by (intros x Hx; apply Hi; right; exact Hx).
  assert (Hc' : forall b, name_count (m :: seen) b + name_count t b <= name_count all b).
  { intros b. specialize (Hc b). rewrite name_count_cons in *. lia. }
  assert (Hm : In m all) by (apply Hi; left; reflexivity).
  destruct (safe_name m) as [b|] eqn:E; cbn [map snd]; (constructor; [|apply IH; assumption]);
    intros H; apply in_map_iff in H; destruct H as ((n & s) & Es & H); cbn [snd] in Es; destruct (gen_shape _ _ _ _ _ _ H) as (In' & k & Hk & Sh);
    unfold low in Hk.
  - assert (Sm : shape all m (if Nat.ltb 1 (name_count all b) then b ++ [ch_dot; ch_us] ++ dec (S (name_count seen b)) else b) (S (name_count seen b))).
    { unfold shape. rewrite E. destruct (Nat.ltb 1 (name_count all b)); reflexivity. }
    destruct (shapes_clash _ _ _ _ _ _ Hm (Hi' _ In') Sm Sh (eq_sym Es)) as [(E0 & _)|(b' & E0 & E1 & K)]; [congruence|].
    assert (b' = b) by congruence. subst b'. rewrite E1 in Hk. rewrite name_count_cons, E, (proj2 (str_eqb_ok b b) eq_refl) in Hk.
    assert (1 < name_count all b).
    { specialize (Hc b). rewrite name_count_cons, E, (proj2 (str_eqb_ok b b) eq_refl) in Hc. pose proof (name_count_in _ _ _ In' E1). lia. }
    specialize (K H0). lia.
  - assert (Sm : shape all m (ch_us :: dec anon) anon) by (unfold shape; rewrite E; reflexivity).
    destruct (shapes_clash _ _ _ _ _ _ Hm (Hi' _ In') Sm Sh (eq_sym Es)) as [(_ & E0 & K)|(b' & E0 & _)]; [|congruence].
    rewrite E0 in Hk. lia.
Qed.
End Unique.

Lemma select_incl nodes : forall todo dm, incl (select_loop nodes todo dm) todo.
Proof.
  induction todo as [|n t IH]; intros dm; cbn [select_loop]; [apply incl_refl|].
  destruct (_ || _); intros x Hx; [destruct Hx as [->|Hx]; [left; reflexivity|]|]; right; eapply IH; exact Hx.
Qed.
Lemma gen_nodes all : forall todo seen anon, map fst (gen_loop all seen todo anon) = todo.
Proof. induction todo as [|m t IH]; intros seen anon; cbn [gen_loop]; [reflexivity|]. destruct (safe_name m); cbn [map fst]; rewrite IH; reflexivity. Qed.
Lemma lookup_in names n s : lookup_name names n = Some s -> In (n, s) names.
Proof.
  unfold lookup_name. destruct (find _ names) as [[m s']|] eqn:E; [|discriminate]. intros [= <-]. apply find_some in E. destruct E as [Hi He].
  cbn in He. apply dexpr_eqb_ok in He. subst. exact Hi.
Qed.
Lemma lookup_none names n : lookup_name names n = None -> ~ In n (map fst names).
Proof.
  unfold lookup_name. destruct (find _ names) as [[m s']|] eqn:E; [discriminate|]. intros _ H. apply in_map_iff in H. destruct H as ([m s] & Em & Hm). cbn in Em. subst.
  pose proof (find_none _ _ E _ Hm) as K. cbn in K. rewrite dexpr_eqb_refl in K. discriminate.
Qed.

(** ** The loop *)
Definition entry (names : list (dexpr * list Z)) (done : list dexpr) (p : list Z * dexpr) : Prop :=
  lookup_name names (snd p) = Some (fst p) /\ In (snd p) done.
Lemma debug_ok names : (forall n s, In (n, s) names -> exists all k, shape all n s k) ->
  forall todo done nt lines env, closed (done ++ todo) -> NoDup (done ++ todo) ->
  defines lines env -> map fst lines = map fst env -> (forall d, In d done -> known (named_as env) nt d) ->
  Forall (entry names done) env -> NoDup (map snd env) -> (forall n, In n done -> lookup_name names n <> None -> In n (map snd env)) ->
  exists nt' lines' env', debug_loop names todo nt lines = Some (nt', lines') /\ defines lines' env' /\ map fst lines' = map fst env' /\
    (forall d, In d (done ++ todo) -> known (named_as env') nt' d) /\ Forall (entry names (done ++ todo)) env' /\ NoDup (map snd env') /\
    (forall n, In n (done ++ todo) -> lookup_name names n <> None -> In n (map snd env')).
Proof.
  intros Hn. induction todo as [|n t IH]; intros done nt lines env Hc Hd Hdef Hf Hk He Hnd Hall; cbn [debug_loop].
  { rewrite app_nil_r. exists nt, lines, env. repeat split; assumption. }
  assert (Hdeps : forall d, In d (deps n) -> known (named_as env) nt d) by (intros d H; apply Hk, (Hc done n t eq_refl), H).
  assert (Hgr : forall d g, In d (deps n) -> In g (deps d) -> known (named_as env) nt g).
  { intros d g H Hg. apply Hk. pose proof (Hc done n t eq_refl d H) as Hin. apply in_split in Hin. destruct Hin as (l1 & l2 & ->).
    apply in_or_app. left. apply (Hc l1 d (l2 ++ n :: t)); [rewrite <- app_assoc; reflexivity|exact Hg]. }
  destruct (format_fine (named_as env) nt n Hdeps Hgr) as (x & Ex & a & Gx & Rx).
  assert (Hnew : ~ In n done) by (intros K; apply NoDup_remove_2 in Hd; apply Hd, in_or_app; left; exact K).
  assert (Eapp : done ++ n :: t = (done ++ [n]) ++ t) by (rewrite <- app_assoc; reflexivity).
  assert (Hne : forall d, In d done -> dexpr_eqb n d = false) by (intros d H; apply dexpr_eqb_neq; intros ->; contradiction).
  assert (Hent : Forall (entry names (done ++ [n])) env).
  { eapply Forall_impl; [|exact He]. intros p [E1 E2]. split; [exact E1|apply in_or_app; left; exact E2]. }
  destruct (lookup_name names n) as [s|] eqn:L.
  - assert (G : exists y ts e b, match safe_name n with Some _ => match deps n with d :: _ => nt d | [] => None end | None => format_pretty nt n end = Some y /\
      r_str y = ts /\ parses ts b /\ reads (named_as env) b e /\ gives s e n).
    { destruct (Hn n s (lookup_in _ _ _ L)) as (all & k & Sh). unfold shape in Sh. destruct (safe_name n) as [bn|] eqn:Sn.
      - destruct (safe_form _ _ Sn) as (r & e & -> & _). cbn [deps]. destruct (Hdeps e (or_introl eq_refl)) as (y & b & Ey & [_ Gy] & Ry).
        exists y, (r_str y), e, b. repeat split; [exact Ey|eapply ra_parses, Gy|exact Ry|].
        destruct (Nat.ltb 1 (name_count all bn)); subst s; constructor. apply dec_digits.
      - exists x, (r_str x), n, a. repeat split; [exact Ex|eapply ra_parses, (proj2 Gx)|exact Rx|]. subst s. constructor. apply dec_digits. }
    destruct G as (y & ts & e & b & -> & <- & P & R & Gv). cbn [bind].
    rewrite Eapp in Hc, Hd |- *. eapply IH.
    + exact Hc.
    + exact Hd.
    + eapply def_snoc; eassumption.
    + rewrite !map_app, Hf. reflexivity.
    + intros d H. apply in_app_or in H. destruct H as [H|[<-|[]]].
      * destruct (Hk d H) as (u & v & E1 & E2 & E3). exists u, v. unfold tset. rewrite (Hne d H). repeat split; [exact E1|exact (proj1 E2)|exact (proj2 E2)|].
        eapply reads_mono; [|exact E3]. intros m g Hm. apply in_or_app. left. exact Hm.
      * destruct (ra_dotted s) as (v & Dv & Rv). exists (mkR (name_toks s) kHighest), v. unfold tset. rewrite dexpr_eqb_refl.
        split; [reflexivity|]. split; [apply good_atom; [exact Rv|cbn; tauto]|]. eapply rd_ref; [exact Dv|]. apply in_or_app. right. left. reflexivity.
    + apply Forall_app. split; [exact Hent|]. constructor; [|constructor]. split; [exact L|]. apply in_or_app. right. left. reflexivity.
    + rewrite map_app. cbn [map snd]. apply NoDup_Add with (a := n) (l := map snd env).
      * replace (map snd env) with (map snd env ++ []) at 1 by apply app_nil_r. apply Add_app.
      * split; [exact Hnd|]. intros K. apply in_map_iff in K. destruct K as (p & Ep & Hp). rewrite Forall_forall in He. destruct (He p Hp) as [_ Hq]. rewrite Ep in Hq. contradiction.
    + intros m H Hl. rewrite map_app. apply in_or_app. apply in_app_or in H. destruct H as [H|[<-|[]]]; [left; apply Hall; assumption|right; left; reflexivity].
  - rewrite Ex. cbn [bind]. rewrite Eapp in Hc, Hd |- *. eapply IH.
    + exact Hc.
    + exact Hd.
    + exact Hdef.
    + exact Hf.
    + intros d H. apply in_app_or in H. destruct H as [H|[<-|[]]].
      * destruct (Hk d H) as (u & v & E1 & E2 & E3). exists u, v. unfold tset. rewrite (Hne d H). auto.
      * exists x, a. unfold tset. rewrite dexpr_eqb_refl. auto.
    + exact Hent.
    + exact Hnd.
    + intros m H Hl. apply in_app_or in H. destruct H as [H|[<-|[]]]; [apply Hall; assumption|congruence].
Qed.

Lemma gen_shapes nodes n s : In (n, s) (gen_names nodes) -> exists k, shape (select_statements nodes) n s k.
Proof. intros H. destruct (gen_shape _ _ _ _ _ _ H) as (_ & k & _ & Sh). eauto. Qed.
Theorem debug_string_ok root : exists lines last env, to_debug_string root = Some (lines, last) /\ defines lines env /\
  (exists a, parses last a /\ reads (named_as env) a root) /\ map fst lines = map fst env /\
  Forall (entry (gen_names (post_order root [])) (post_order root [])) env /\ NoDup (map snd env) /\
  (forall n, In n (post_order root []) -> lookup_name (gen_names (post_order root [])) n <> None -> In n (map snd env)).
Proof.
  destruct (post_order_ok root) as [E R]. destruct (E [] closed_nil (NoDup_nil _)) as (c & n & _ & s).
  destruct (debug_ok (gen_names (post_order root []))) with (todo := post_order root []) (done := @nil dexpr) (nt := fun _ : dexpr => @None rtok) (lines := @nil (list Z * list tok)) (env := @nil (list Z * dexpr))
    as (nt & lines & env & D & Df & Ef & K & F & N & A).
  - intros m t H. destruct (gen_shapes _ _ _ H) as (k & Sh). eauto.
  - exact c.
  - exact n.
  - constructor.
  - reflexivity.
  - intros d [].
  - constructor.
  - constructor.
  - intros m [].
  - cbn [app] in *. destruct (K root) as (t & a & Et & [_ Gt] & Rt); [apply R; [apply closed_nil|constructor]|].
    exists lines, (r_str t), env. unfold to_debug_string. rewrite D. cbn [bind]. rewrite Et. repeat split; try assumption.
    exists a. split; [eapply ra_parses, Gt|exact Rt].
Qed.
