(** The encoder succeeds and stores everything once. *)
From Verif Require Import Base Visit_Model Visit_Spec Visit_Proofs Visit_Props Serial_Model Serial_Spec Serial_Proofs Serial_Round.

Section mono.
Context {X : Type}.
Variable venc : nat -> prog X.
Variable opval : nat -> nat.
Notation est := (est X).
Section calls.
Variables f g : call -> est -> eres (nat * est).
Hypothesis FG : forall c st r, f c st = EOk r -> g c st = EOk r.
Lemma run_mono p : forall st r, run X f p st = EOk r -> run X g p st = EOk r.
Proof. induction p as [q| |c k IH]; intros st r; cbn [run]; [auto..|]. destruct (f c st) as [[i s]| | |] eqn:E; try discriminate. rewrite (FG _ _ _ E). apply IH. Qed.
Lemma value_mono v st r : encode_value X venc f v st = EOk r -> encode_value X venc g v st = EOk r.
Proof. unfold encode_value. destruct (find Nat.eqb v (e_vals st)); [auto|]. destruct (run X f _ _) as [[q s]| | |] eqn:E; try discriminate. rewrite (run_mono _ _ _ E). auto. Qed.
Lemma node_mono n st r : encode_node X opval f n st = EOk r -> encode_node X opval g n st = EOk r.
Proof.
  unfold encode_node. destruct (find node_eqb n (e_exprs st)); [auto|]. destruct n; [|auto..|].
  - destruct (f _ st) as [[i s]| | |] eqn:E; try discriminate. rewrite (FG _ _ _ E). auto.
  - destruct (f _ st) as [[i s]| | |] eqn:E; try discriminate. rewrite (FG _ _ _ E). auto.
Qed.
Lemma nodes_mono ns : forall st r, encode_nodes X opval f ns st = EOk r -> encode_nodes X opval g ns st = EOk r.
Proof. induction ns as [|n ns IH]; intros st r; cbn [encode_nodes]; [auto|]. destruct (encode_node X opval f n st) as [s| | |] eqn:E; try discriminate. rewrite (node_mono _ _ _ E). apply IH. Qed.
Lemma expr_mono e st r : encode_expr X opval f e st = EOk r -> encode_expr X opval g e st = EOk r.
Proof.
  unfold encode_expr. destruct (find node_eqb e (e_exprs st)); [auto|]. destruct (visitor_order e); [|auto]. destruct (encode_nodes X opval f _ _) as [s| | |] eqn:E; try discriminate. rewrite (nodes_mono _ _ _ E). auto.
Qed.
End calls.
Lemma enc_step fuel : forall c st r, enc X venc opval fuel c st = EOk r -> enc X venc opval (S fuel) c st = EOk r.
Proof.
  induction fuel as [|k IH]; intros c st r; [discriminate|]. remember (S k) as k' eqn:Ek. intros E. rewrite Ek in E. destruct c; cbn [enc] in *; [| |].
  - apply (value_mono (enc X venc opval k)); [subst; exact IH|exact E].
  - apply (expr_mono (enc X venc opval k)); [subst; exact IH|exact E].
  - exact E.
Qed.
Lemma enc_mono k fuel c st r : k <= fuel -> enc X venc opval k c st = EOk r -> enc X venc opval fuel c st = EOk r.
Proof. induction 1; [auto|]. intros E. apply enc_step. auto. Qed.
Lemma enc_all_mono k fuel cs : k <= fuel -> forall st r, enc_all X venc opval k cs st = EOk r -> enc_all X venc opval fuel cs st = EOk r.
Proof. intros L. induction cs as [|c cs IH]; intros st r; cbn [enc_all]; [auto|]. destruct (enc X venc opval k c st) as [s| | |] eqn:E; try discriminate. rewrite (enc_mono _ _ _ _ _ L E). apply IH. Qed.
Lemma encode_mono k fuel vs es r : k <= fuel -> encode_steps X venc opval k vs es = EOk r -> encode_steps X venc opval fuel vs es = EOk r.
Proof. intros L. unfold encode_steps. destruct (enc_all X venc opval k _ _) as [s| | |] eqn:E; try discriminate. rewrite (enc_all_mono _ _ _ L _ _ E). auto. Qed.
End mono.

Section total.
Context {X : Type}.
Variable venc : nat -> prog X.
Variable opval : nat -> nat.
Variable provider : str -> option (vdec X).
Variable infer : nat -> list attr -> unit + attr.
Variable infer_on : bool.
Variable G : nat -> Prop.
Variable rank : nat -> nat.
Hypothesis Fa : faithful venc opval provider infer infer_on G.
Hypothesis Ec : encodable venc opval G rank.
Notation good_call := (good_call opval provider infer infer_on G).
Notation below := (below opval rank).
Notation est := (est X).

Definition stores (s : step X) (st : est) (i : nat) : Prop :=
  match s with
  | SVal _ => exists v, find Nat.eqb v (e_vals st) = Some i
  | SLit _ | SLeaf _ | SPlh _ | SOp _ _ => exists e, find node_eqb e (e_exprs st) = Some i
  | SCodec n => find str_eqb n (e_codecs st) = Some i
  | _ => True
  end.
Definition Inv (st : est) : Prop := forall i s, rd (e_steps st) i = Some s -> s_hints s = [] /\ s_type s <> SNone /\ stores (s_type s) st i.
Definition keeps (st st' : est) : Prop :=
  (forall v i, find Nat.eqb v (e_vals st) = Some i -> find Nat.eqb v (e_vals st') = Some i) /\ (forall v i, find node_eqb v (e_exprs st) = Some i -> find node_eqb v (e_exprs st') = Some i) /\
  (forall v i, find str_eqb v (e_codecs st) = Some i -> find str_eqb v (e_codecs st') = Some i) /\ e_nest st' = e_nest st.
(** Values of rank [Rv] and more and expressions not below [Re] do not become known. *)
Definition news (Rv Re : nat) (st st' : est) : Prop :=
  (forall v, find Nat.eqb v (e_vals st) = None -> Rv <= rank v -> find Nat.eqb v (e_vals st') = None) /\ (forall e, find node_eqb e (e_exprs st) = None -> ~ below Re (CExpr e) -> find node_eqb e (e_exprs st') = None).
Definition news_call (c : call) (st st' : est) : Prop :=
  match c with CVal v => news (S (rank v)) (rank v) st st' | CExpr e => forall R, below R (CExpr e) -> news R R st st' | CCodec _ => news 0 0 st st' end.
Lemma keeps_refl st : keeps st st.
Proof. split; [|split; [|split]]; auto. Qed.
Lemma keeps_trans a b c : keeps a b -> keeps b c -> keeps a c.
Proof. intros (A1 & A2 & A3 & A4) (B1 & B2 & B3 & B4). split; [|split; [|split]]; auto. congruence. Qed.
Lemma news_refl R Q st : news R Q st st.
Proof. split; auto. Qed.
Lemma news_trans R Q a b c : news R Q a b -> news R Q b c -> news R Q a c.
Proof. intros (A1 & A2) (B1 & B2). split; auto. Qed.
Lemma below_mono r R c : r <= R -> below r c -> below R c.
Proof. destruct c; cbn; [lia| |auto]. intros L H n Hn. specialize (H n Hn). destruct n; auto; lia. Qed.
Lemma news_mono r R q Q a b : r <= R -> q <= Q -> news r q a b -> news R Q a b.
Proof. intros L L' (A & B). split; [intros v F H; apply A; [exact F|lia]|]. intros e F H. apply B; [exact F|]. intros H'. apply H, (below_mono q); assumption. Qed.
Lemma news_below c R st st' : below R c -> news_call c st st' -> news R R st st'.
Proof. destruct c; cbn [news_call]; [intros B; apply news_mono; cbn in B; lia|auto|intros _; apply news_mono; lia]. Qed.
Definition lvl (fuel : nat) (c : call) : Prop :=
  match c with CVal v => 2 * rank v + 2 <= fuel | CExpr e => exists r, below r (CExpr e) /\ 2 * r + 1 <= fuel | CCodec _ => 1 <= fuel end.
Definition total (encf : call -> est -> eres (nat * est)) (ok : call -> Prop) : Prop :=
  forall c st, Inv st -> good_call c -> ok c -> exists i st', encf c st = EOk (i, st') /\ Inv st' /\ keeps st st' /\ news_call c st st'.

Lemma Inv_nest n st : Inv st -> Inv (set_nest X n st).
Proof. intros I i s H. destruct (I i s H) as (A & B & C). auto. Qed.
(** Adding a step; [st'] knows more than [st]. *)
Lemma Inv_add st s st' : Inv st -> e_steps st' = e_steps st ++ [plain s] -> s <> SNone -> stores s st' (length (e_steps st)) ->
  (forall v i, find Nat.eqb v (e_vals st) = Some i -> find Nat.eqb v (e_vals st') = Some i) -> (forall v i, find node_eqb v (e_exprs st) = Some i -> find node_eqb v (e_exprs st') = Some i) ->
  (forall v i, find str_eqb v (e_codecs st) = Some i -> find str_eqb v (e_codecs st') = Some i) -> Inv st'.
Proof.
  intros I E N S A B C i x H. rewrite E in H. unfold rd in *. destruct (Nat.lt_ge_cases i (length (e_steps st))) as [L|L].
  - rewrite nth_error_app1 in H by exact L. destruct (I i x H) as (P & Q & T). split; [exact P|]. split; [exact Q|].
    destruct (s_type x); cbn [stores] in *; auto; destruct T as [y T]; exists y; auto.
  - rewrite nth_error_app2 in H by exact L. destruct (i - length (e_steps st)) as [|k] eqn:Ek; [|destruct k; discriminate]. injection H as <-. assert (i = length (e_steps st)) by lia. subst i. auto.
Qed.
Lemma output_total mk i st : Inv st -> (forall i, mk i <> SNone) -> (forall i st j, stores (mk i) st j) -> exists st', output X mk i st = EOk (i, st') /\ Inv st' /\ keeps st st' /\ forall R Q, news R Q st st'.
Proof.
  intros I N S. unfold output. destruct (e_nest st =? 0); [|exists st; split; [reflexivity|]; split; [exact I|]; split; [apply keeps_refl|intros; apply news_refl]].
  eexists. split; [reflexivity|]. split; [|split; [split; [|split; [|split]]; auto|intros; split; auto]]. apply (Inv_add st (mk i)); auto.
Qed.
Section calls.
Variable encf : call -> est -> eres (nat * est).
Variable ok : call -> Prop.
Hypothesis T : total encf ok.
Lemma run_total v : G v -> (forall c, below (rank v) c -> ok c) -> forall p t st, reach (venc v) t p -> Inv st ->
  exists q st', run X encf p st = EOk (q, st') /\ Inv st' /\ keeps st st' /\ news (rank v) (rank v) st st'.
Proof.
  intros Gv Ok. assert (Rs : forall (p : prog X) t c k i, reach p t (Call c k) -> reach p (t ++ [(c, i)]) (k i)).
  { intros p t c k i H. remember (Call c k) as q eqn:Eq. induction H; [subst; apply reach_call, reach_start|]. cbn. apply reach_call. auto. }
  induction p as [q| |c k IH]; intros t st R I; cbn [run].
  - exists q, st. split; [reflexivity|]. split; [exact I|]. split; [apply keeps_refl|apply news_refl].
  - destruct (Ec v t _ Gv R) as [H _]. congruence.
  - destruct (Fa v t _ Gv R) as (Gc & _). specialize (Gc c k eq_refl). destruct (Ec v t _ Gv R) as [_ B]. specialize (B c k eq_refl).
    destruct (T c st I Gc (Ok c B)) as (i & st1 & E1 & I1 & K1 & N1). rewrite E1. cbn [ebind fst snd].
    destruct (IH i (t ++ [(c, i)]) st1 (Rs _ _ _ _ i R) I1) as (q & st2 & E2 & I2 & K2 & N2). exists q, st2. split; [exact E2|]. split; [exact I2|].
    split; [exact (keeps_trans _ _ _ K1 K2)|exact (news_trans _ _ _ _ _ (news_below _ _ _ _ B N1) N2)].
Qed.
Lemma value_total v st : G v -> (forall c, below (rank v) c -> ok c) -> Inv st -> exists i st', encode_value X venc encf v st = EOk (i, st') /\ Inv st' /\ keeps st st' /\ news (S (rank v)) (rank v) st st'.
Proof.
  intros Gv Ok I. unfold encode_value. destruct (find Nat.eqb v (e_vals st)) as [i0|] eqn:F.
  - destruct (output_total SOutV i0 st I) as (st' & E & I' & K & N); [discriminate|constructor|]. eauto 10.
  - destruct (run_total v Gv Ok (venc v) [] (set_nest X (S (e_nest st)) st)) as (q & st1 & E1 & I1 & K1 & N1); [apply reach_start|apply Inv_nest, I|]. rewrite E1. cbn [ebind fst snd add].
    match goal with |- exists _ _, output X SOutV ?i ?s = _ /\ _ => set (st2 := s) end. destruct K1 as (Ka & Kb & Kc & Kd). cbn [set_nest e_vals e_exprs e_codecs e_nest] in *.
    assert (Fv : find Nat.eqb v (e_vals st1) = None) by (apply N1; [exact F|lia]).
    assert (Kv : forall w i, find Nat.eqb w (e_vals st1) = Some i -> find Nat.eqb w (e_vals st2) = Some i) by (intros w i; unfold st2; cbn; destruct (Nat.eqb_spec w v); [congruence|auto]).
    assert (I2 : Inv st2).
    { apply (Inv_add st1 (SVal q)); auto; [discriminate|]. exists v. unfold st2. cbn. rewrite Nat.eqb_refl. reflexivity. }
    assert (K2 : keeps st st2) by (split; [|split; [|split]]; auto; unfold st2; cbn; rewrite Kd; lia).
    destruct (output_total SOutV (length (e_steps st1)) st2 I2) as (st' & E & I' & K & N); [discriminate|constructor|]. exists (length (e_steps st1)), st'. split; [exact E|]. split; [exact I'|].
    split; [exact (keeps_trans _ _ _ K2 K)|]. apply (news_trans _ _ st st2); [|apply N]. destruct N1 as (A & B). split; [|exact B].
    intros w Fw Lw. unfold st2. cbn. destruct (Nat.eqb_spec w v); [subst; lia|]. apply A; [exact Fw|lia].
Qed.
Lemma codec_total n st : Inv st -> exists i st', encode_codec X n st = EOk (i, st') /\ Inv st' /\ keeps st st' /\ forall R Q, news R Q st st'.
Proof.
  intros I. unfold encode_codec. destruct (find str_eqb n (e_codecs st)) as [i|] eqn:F.
  - exists i, st. split; [reflexivity|]. split; [exact I|]. split; [apply keeps_refl|intros; apply news_refl].
  - cbn [add]. match goal with |- exists _ _, EOk (_, ?s) = _ /\ _ => set (st2 := s) end. exists (length (e_steps st)), st2. split; [reflexivity|].
    assert (Kv : forall w i, find str_eqb w (e_codecs st) = Some i -> find str_eqb w (e_codecs st2) = Some i).
    { intros w i. unfold st2. cbn [set_codec e_codecs find]. destruct (str_eqb w n) eqn:Es; [apply str_eq in Es; congruence|auto]. }
    split; [apply (Inv_add st (SCodec n)); auto; [discriminate|]; unfold st2; cbn [stores set_codec e_codecs find]; rewrite (proj2 (str_eq n n) eq_refl); reflexivity|].
    split; [split; [|split; [|split]]; auto|intros; split; auto].
Qed.
Lemma add_expr s n st : Inv st -> find node_eqb n (e_exprs st) = None -> (forall st i, (exists e, find node_eqb e (e_exprs st) = Some i) -> stores s st i) -> s <> SNone ->
  exists st' i, (let '(i, st2) := add X s st in EOk (set_expr X n i st2)) = EOk st' /\ Inv st' /\ keeps st st' /\ find node_eqb n (e_exprs st') = Some i /\ forall R Q, below Q (CExpr n) -> news R Q st st'.
Proof.
  intros I F S N. cbn [add]. match goal with |- exists _ _, EOk ?s = _ /\ _ => set (st2 := s) end. exists st2, (length (e_steps st)). split; [reflexivity|].
  assert (Fn : find node_eqb n (e_exprs st2) = Some (length (e_steps st))) by (unfold st2; cbn [set_expr e_exprs find]; rewrite (proj2 (node_eq n n) eq_refl); reflexivity).
  assert (Kv : forall w i, find node_eqb w (e_exprs st) = Some i -> find node_eqb w (e_exprs st2) = Some i).
  { intros w i. unfold st2. cbn [set_expr e_exprs find]. destruct (node_eqb w n) eqn:Es; [apply node_eq in Es; congruence|auto]. }
  split; [apply (Inv_add st s); auto; apply S; eauto|]. split; [split; [|split; [|split]]; auto|]. split; [exact Fn|]. intros R Q B. split; [auto|]. intros e Fe Ne.
  unfold st2. cbn [set_expr e_exprs find]. destruct (node_eqb e n) eqn:Es; [apply node_eq in Es; subst; contradiction|exact Fe].
Qed.
Lemma dep_indices_total ds st : (forall d, In d ds -> find node_eqb d (e_exprs st) <> None) -> exists l, dep_indices X ds st = Some l.
Proof.
  induction ds as [|d ds IH]; intros H; cbn [dep_indices]; [eauto|]. pose proof (H d (or_introl eq_refl)) as Hd. destruct (find node_eqb d (e_exprs st)); [|congruence]. cbn [bind].
  destruct IH as [l ->]; [intros; apply H; right; assumption|]. cbn. eauto.
Qed.
Definition own (n : node) (R : nat) : Prop := match n with Lit v => rank v < R | Op o _ _ => rank (opval o) < R | _ => True end.
Lemma node_total n st : Inv st -> good_node opval infer infer_on G n -> (forall v, (forall R, own n R -> rank v < R) -> G v -> ok (CVal v)) ->
  (forall d, In d (deps n) -> find node_eqb d (e_exprs st) <> None) ->
  exists st' i, encode_node X opval encf n st = EOk st' /\ Inv st' /\ keeps st st' /\ find node_eqb n (e_exprs st') = Some i /\ forall R, below R (CExpr n) -> news R R st st'.
Proof.
  intros I Gn Ok Deps. unfold encode_node. destruct (find node_eqb n (e_exprs st)) as [i|] eqn:F.
  { exists st, i. split; [reflexivity|]. split; [exact I|]. split; [apply keeps_refl|]. split; [exact F|intros; apply news_refl]. }
  assert (Self : forall R, below R (CExpr n) -> own n R) by (intros R B; specialize (B n); destruct n; cbn; auto; apply B; constructor).
  assert (Val : forall v, G v -> (forall R, own n R <-> rank v < R) -> exists i st1, encf (CVal v) st = EOk (i, st1) /\ Inv st1 /\ keeps st st1 /\ news (S (rank v)) (rank v) st st1 /\ find node_eqb n (e_exprs st1) = None).
  { intros v Gv Ow. destruct (T (CVal v) st I Gv) as (i & st1 & E1 & I1 & K1 & N1); [apply (Ok v); [intros R; apply Ow|exact Gv]|].
    exists i, st1. split; [exact E1|]. split; [exact I1|]. split; [exact K1|]. split; [exact N1|]. apply N1; [exact F|]. intros B. apply Self, Ow in B. lia. }
  assert (Fin : forall s st1, Inv st1 -> keeps st st1 -> (forall R, own n R -> news R R st st1) -> find node_eqb n (e_exprs st1) = None -> (forall st i, (exists e, find node_eqb e (e_exprs st) = Some i) -> stores s st i) -> s <> SNone ->
    exists st' i, (let '(i, st2) := add X s st1 in EOk (set_expr X n i st2)) = EOk st' /\ Inv st' /\ keeps st st' /\ find node_eqb n (e_exprs st') = Some i /\ forall R, below R (CExpr n) -> news R R st st').
  { intros s st1 I1 K1 N1 F1 S Ns. destruct (add_expr s n st1 I1 F1 S Ns) as (st' & i & E & I' & K & F' & N). exists st', i. split; [exact E|]. split; [exact I'|]. split; [exact (keeps_trans _ _ _ K1 K)|]. split; [exact F'|].
    intros R B. exact (news_trans _ _ _ _ _ (N1 R (Self R B)) (N R R B)). }
  destruct n as [v|k|k|o a ds].
  - destruct (Val v Gn) as (i & st1 & E1 & I1 & K1 & N1 & F1); [reflexivity|]. rewrite E1. cbn [ebind fst snd]. apply Fin; auto; [|discriminate]. intros R B. cbn in B. revert N1. apply news_mono; lia.
  - apply Fin; auto; [apply keeps_refl|intros; apply news_refl|discriminate].
  - apply Fin; auto; [apply keeps_refl|intros; apply news_refl|discriminate].
  - destruct (Val (opval o) (proj1 Gn)) as (i & st1 & E1 & I1 & K1 & N1 & F1); [reflexivity|]. rewrite E1. cbn [ebind fst snd].
    destruct (dep_indices_total ds st1) as [l ->]. { intros d Hd. specialize (Deps d Hd). destruct K1 as (_ & Kb & _). destruct (find node_eqb d (e_exprs st)) as [j|] eqn:Fd; [rewrite (Kb d j Fd); discriminate|congruence]. }
    apply Fin; auto; [|discriminate]. intros R B. cbn in B. revert N1. apply news_mono; lia.
Qed.
Lemma nodes_total r ns : (forall v, rank v < r -> G v -> ok (CVal v)) -> forall done st, Inv st -> (forall n, In n ns -> good_node opval infer infer_on G n /\ own n r) ->
  (forall n, In n done -> find node_eqb n (e_exprs st) <> None) -> (forall n d l1 l2, ns = l1 ++ n :: l2 -> In d (deps n) -> In d done \/ In d l1) ->
  exists st', encode_nodes X opval encf ns st = EOk st' /\ Inv st' /\ keeps st st' /\ (forall n, In n done \/ In n ns -> find node_eqb n (e_exprs st') <> None) /\ forall R, (forall n, In n ns -> below R (CExpr n)) -> news R R st st'.
Proof.
  intros Ok. induction ns as [|n ns IH]; intros done st I Gn Dn Or; cbn [encode_nodes].
  - exists st. split; [reflexivity|]. split; [exact I|]. split; [apply keeps_refl|]. split; [intros m [H|[]]; auto|intros; apply news_refl].
  - destruct (Gn n (or_introl eq_refl)) as [Gn0 Ow]. destruct (node_total n st I Gn0) as (st1 & i & E1 & I1 & K1 & F1 & N1).
    { intros v L Gv. apply Ok; [apply L, Ow|exact Gv]. }
    { intros d Hd. destruct (Or n d [] ns eq_refl Hd) as [H|[]]. apply Dn, H. }
    rewrite E1. cbn [ebind]. destruct (IH (n :: done) st1 I1) as (st2 & E2 & I2 & K2 & F2 & N2).
    + intros m H. apply Gn. right. exact H.
    + intros m [<-|H]; [congruence|]. specialize (Dn m H). destruct K1 as (_ & Kb & _). destruct (find node_eqb m (e_exprs st)) as [j|] eqn:Fd; [rewrite (Kb m j Fd); discriminate|congruence].
    + intros m d l1 l2 -> Hd. destruct (Or m d (n :: l1) l2 eq_refl Hd) as [H|[H|H]]; [left; right; exact H|left; left; exact H|right; exact H].
    + exists st2. split; [exact E2|]. split; [exact I2|]. split; [exact (keeps_trans _ _ _ K1 K2)|]. split; [intros m [H|[H|H]]; apply F2; [left; right; exact H|left; left; exact H|right; exact H]|].
      intros R B. apply (news_trans R R st st1); [apply N1, B; left; reflexivity|apply N2; intros m H; apply B; right; exact H].
Qed.
Lemma below_sub R e n : below R (CExpr e) -> sub n e -> below R (CExpr n).
Proof. intros B S m Hm. apply B. exact (sub_trans _ _ _ Hm S). Qed.
Lemma expr_total e st r : good_expr opval infer infer_on G e -> below r (CExpr e) -> (forall v, rank v < r -> G v -> ok (CVal v)) -> Inv st ->
  exists i st', encode_expr X opval encf e st = EOk (i, st') /\ Inv st' /\ keeps st st' /\ forall R, below R (CExpr e) -> news R R st st'.
Proof.
  intros Ge Be Ok I. unfold encode_expr. destruct (find node_eqb e (e_exprs st)) as [i0|] eqn:F.
  - destruct (output_total SOutE i0 st I) as (st' & E & I' & K & N); [discriminate|constructor|]. eauto 10.
  - destruct (C33_visitor_order e) as (p & Ep & ->). destruct (C33_post_order e) as (p' & Ep' & Nd & Sub & Last & Bef & _). rewrite Ep in Ep'. injection Ep' as <-.
    destruct (nodes_total r (p_nodes p) Ok [] (set_nest X (S (e_nest st)) st)) as (st1 & E1 & I1 & K1 & F1 & N1).
    + apply Inv_nest, I.
    + intros n Hn. apply Sub in Hn. split; [apply Ge, Hn|]. specialize (Be n Hn). destruct n; exact Be.
    + intros n [].
    + intros n d l1 l2 E Hd. right. destruct (Bef n d) as (i & j & L & Hi & Hj); [rewrite E; apply in_or_app; right; left; reflexivity|exact Hd|].
      assert (j = length l1). { apply (proj1 (NoDup_nth_error (p_nodes p)) Nd); [apply nth_error_Some; congruence|]. rewrite Hj, E, nth_error_app2, Nat.sub_diag by lia. reflexivity. }
      subst j. rewrite E, nth_error_app1 in Hi by exact L. apply (nth_error_In _ _ Hi).
    + rewrite E1. cbn [ebind]. assert (Fe : find node_eqb e (e_exprs st1) <> None) by (apply F1; right; apply Sub; constructor).
      destruct (find node_eqb e (e_exprs st1)) as [j|] eqn:Fj; [|congruence]. destruct K1 as (Ka & Kb & Kc & Kd). cbn [set_nest e_vals e_exprs e_codecs e_nest] in *.
      destruct (output_total SOutE j (set_nest X (e_nest st1 - 1) st1)) as (st' & E & I' & K & N); [apply Inv_nest, I1|discriminate|constructor|]. exists j, st'. split; [exact E|]. split; [exact I'|].
      split; [apply (keeps_trans st (set_nest X (e_nest st1 - 1) st1)); [|exact K]; split; [|split; [|split]]; auto; cbn; rewrite Kd; lia|].
      intros R B. apply (news_trans R R st (set_nest X (e_nest st1 - 1) st1)); [|apply N]. apply N1. intros n Hn. apply (below_sub R e n B), Sub, Hn.
Qed.
End calls.
Lemma enc_total fuel : total (enc X venc opval fuel) (lvl fuel).
Proof.
  induction fuel as [|k IH]; intros c st I Gc L.
  - exfalso. destruct c; cbn in L; [lia|destruct L as (r & _ & L); lia|lia].
  - destruct c as [v|e|n]; cbn [enc].
    + apply (value_total _ _ IH v st Gc); [|exact I]. cbn in L. intros [w|e|n] B; cbn in B |- *; [lia|exists (rank v); split; [exact B|lia]|lia].
    + destruct L as (r & B & L). apply (expr_total _ _ IH e st r Gc B); [|exact I]. intros v Lv Gv. cbn. lia.
    + destruct (codec_total n st I) as (i & st' & E & I' & K & N). exists i, st'. cbn [news_call]. auto.
Qed.
Lemma enc_all_total fuel cs : forall st, Inv st -> (forall c, In c cs -> good_call c /\ lvl fuel c) -> exists st', enc_all X venc opval fuel cs st = EOk st' /\ Inv st'.
Proof.
  induction cs as [|c cs IH]; intros st I H; cbn [enc_all]; [eauto|]. destruct (H c (or_introl eq_refl)) as [Gc L]. destruct (enc_total fuel c st I Gc L) as (i & st1 & E1 & I1 & _). rewrite E1. cbn [ebind snd].
  apply IH; [exact I1|]. intros c' Hc. apply H. right. exact Hc.
Qed.
(** Every expression is below some rank. *)
Fixpoint top (e : node) : nat :=
  match e with Lit v => S (rank v) | Op o _ ds => Nat.max (S (rank (opval o))) (fold_right (fun d m => Nat.max (top d) m) 0 ds) | _ => 0 end.
Lemma below_top e n : sub n e -> own n (top e).
Proof.
  induction 1 as [|x d Hd S IH]; [destruct n; cbn [own top]; auto; lia|]. assert (Le : top d <= top x).
  { destruct x as [| | |o a ds]; try contradiction. cbn [deps] in Hd. cbn [top]. assert (top d <= fold_right (fun d m => Nat.max (top d) m) 0 ds); [|lia]. clear - Hd. induction ds as [|y ds IH]; [contradiction|]. cbn [fold_right]. destruct Hd as [->|H]; [lia|]. specialize (IH H). lia. }
  destruct n; cbn [own] in *; auto; lia.
Qed.
Definition need (c : call) : nat := match c with CVal v => 2 * rank v + 2 | CExpr e => 2 * top e + 1 | CCodec _ => 1 end.
Lemma need_lvl fuel c : need c <= fuel -> lvl fuel c.
Proof. destruct c as [v|e|n]; cbn; [auto| |auto]. intros L. exists (top e). split; [|lia]. intros n Hn. pose proof (below_top e n Hn) as H. destruct n; exact H. Qed.
Definition needs (cs : list call) : nat := fold_right (fun c m => Nat.max (need c) m) 0 cs.
Lemma needs_ge cs c : In c cs -> need c <= needs cs.
Proof. induction cs as [|d cs IH]; [contradiction|]. cbn [needs fold_right]. intros [->|H]; [lia|]. specialize (IH H). unfold needs in IH. lia. Qed.
Lemma encode_total cs : (forall c, In c cs -> good_call c) -> exists st, Inv st /\ forall fuel, needs cs <= fuel -> enc_all X venc opval fuel cs (est0 X) = EOk st.
Proof.
  intros H. destruct (enc_all_total (needs cs) cs (est0 X)) as (st & E & I); [intros [|i] s Hs; discriminate Hs|intros c Hc; split; [apply H, Hc|apply need_lvl, needs_ge, Hc]|].
  exists st. split; [exact I|]. intros fuel L. exact (enc_all_mono venc opval _ _ _ L _ _ E).
Qed.
End total.
