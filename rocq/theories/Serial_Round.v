(** The steps of the encoder, decoded. *)
From Verif Require Import Base Visit_Model Visit_Spec Visit_Proofs Visit_Props Serial_Model Serial_Spec Serial_Proofs.

Lemma find_ext {K} (eqb : K -> K -> bool) (Q : forall a b, eqb a b = true <-> a = b) k m i k' : find eqb k ((k', i) :: m) = if eqb k k' then Some i else find eqb k m.
Proof. reflexivity. Qed.
Lemma str_eq a b : str_eqb a b = true <-> a = b.
Proof. apply nats_eq. Qed.

Section round.
Context {X : Type}.
Variable venc : nat -> prog X.
Variable opval : nat -> nat.
Variable provider : str -> option (vdec X).
Variable as_op : nat -> option nat.
Variable infer : nat -> list attr -> unit + attr.
Variable infer_on : bool.
Variable G : nat -> Prop.
Hypothesis Ops : forall o, as_op (opval o) = Some o.
Hypothesis Fa : faithful venc opval provider infer infer_on G.
Notation on_steps := (on_steps X provider as_op infer infer_on).
Notation good_call := (good_call opval provider infer infer_on G).
Notation est := (est X).
Notation dst := (dst X).

Lemma on_steps_app l1 l2 d : on_steps (l1 ++ l2) d = dbind (on_steps l1 d) (on_steps l2).
Proof. revert d. induction l1 as [|[i s] l1 IH]; intros d; [reflexivity|]. cbn [Serial_Model.on_steps app]. destruct (on_step X provider as_op infer infer_on i s d); cbn [dbind]; [apply IH|reflexivity..]. Qed.
Lemma numbered_snoc {A} (l : list A) x : numbered (l ++ [x]) = numbered l ++ [(length l, x)].
Proof.
  unfold numbered. rewrite app_length. cbn [length]. rewrite Nat.add_1_r, seq_S, Nat.add_0_l.
  assert (H : forall (a : list nat) (b : list A), length a = length b -> forall n, combine (a ++ [n]) (b ++ [x]) = combine a b ++ [(n, x)]).
  { induction a as [|y a IH]; intros [|z b] L n; try discriminate; [reflexivity|]. cbn. f_equal. apply IH. injection L as L. exact L. }
  apply H. apply seq_length.
Qed.

Definition Dec (st : est) (d : dst) : Prop := on_steps (numbered (e_steps st)) (dst0 X) = DOk d /\ length (d_results d) = length (e_steps st) /\ d_expected d = [] /\ forall s, In s (e_steps st) -> s_type s <> SNone.
Definition stands_in (d : dst) (c : call) (i : nat) : Prop :=
  match c with CVal v => vat d i = HasVal v | CExpr e => vat d i = HasExpr e | CCodec n => exists f, provider n = Some f /\ cat d i = Some f end.
Definition Known (st : est) (d : dst) : Prop :=
  (forall v i, find Nat.eqb v (e_vals st) = Some i -> vat d i = HasVal v) /\ (forall e i, find node_eqb e (e_exprs st) = Some i -> vat d i = HasExpr e) /\
  (forall n i, find str_eqb n (e_codecs st) = Some i -> stands_in d (CCodec n) i).
Definition ext (d d' : dst) : Prop := (forall i x, vat d i = x -> x <> Empty -> vat d' i = x) /\ (forall i f, cat d i = Some f -> cat d' i = Some f).
Lemma ext_refl d : ext d d.
Proof. split; auto. Qed.
Lemma ext_trans a b c : ext a b -> ext b c -> ext a c.
Proof. intros [A1 A2] [B1 B2]. split; auto. Qed.
Lemma ext_stands d d' c i : ext d d' -> stands_in d c i -> stands_in d' c i.
Proof. intros [E1 E2]. destruct c; cbn; [intros H; apply E1; [exact H|discriminate]..|]. intros (f & P & H). exists f. auto. Qed.
Lemma ext_known st d d' : ext d d' -> Known st d -> Known st d'.
Proof. intros [E1 E2] (A & B & C). split; [intros v i H; apply E1; [exact (A v i H)|discriminate]|]. split; [intros v i H; apply E1; [exact (B v i H)|discriminate]|]. intros n i H. apply (ext_stands d); [split; assumption|exact (C n i H)]. Qed.
Lemma put_ext d d' s c : put d d' s c -> ext d d'.
Proof. intros P. split; [intros i x; apply (put_vat as_op infer d d' s c i x P)|intros i f; apply (put_cat as_op infer d d' s c i f P)]. Qed.
Lemma put_out_put d d' vs es : put_out d d' vs es -> ext d d'.
Proof.
  intros (_ & _ & _ & _ & P & Q). split; intros i x V; [intros N; rewrite P; pose proof (vat_old d i x V N)|rewrite Q; pose proof (cat_old d i x V)]; destruct (Nat.eqb_spec i (length (d_results d))); auto; lia.
Qed.
Lemma add_dec st d s d' : s <> SNone -> Dec st d -> on_step X provider as_op infer infer_on (length (d_results d)) (plain s) d = DOk d' -> length (d_results d') = S (length (d_results d)) -> d_expected d' = [] ->
  Dec (snd (add X s st)) d'.
Proof.
  intros Ns (D1 & D2 & D3 & D4) S L E. split; [|split; [|split; [exact E|]]].
  - cbn [add snd e_steps]. rewrite numbered_snoc, on_steps_app, D1. cbn [dbind Serial_Model.on_steps]. rewrite <- D2, S. reflexivity.
  - cbn [add snd e_steps]. rewrite app_length, L, D2. cbn. lia.
  - cbn [add snd e_steps]. intros x I. apply in_app_or in I. destruct I as [I|[<-|[]]]; [apply D4, I|exact Ns].
Qed.

(** What a call of the encoder does. *)
Definition out_vals (n : nat) (c : call) : list nat := if n =? 0 then match c with CVal v => [v] | _ => [] end else [].
Definition out_exprs (n : nat) (c : call) : list node := if n =? 0 then match c with CExpr e => [e] | _ => [] end else [].
Definition sound (encf : call -> est -> eres (nat * est)) : Prop :=
  forall c st d i st', Dec st d -> Known st d -> good_call c -> encf c st = EOk (i, st') ->
  exists d', Dec st' d' /\ Known st' d' /\ ext d d' /\ e_nest st' = e_nest st /\ stands_in d' c i /\
  d_vals d' = d_vals d ++ out_vals (e_nest st) c /\ d_exprs d' = d_exprs d ++ out_exprs (e_nest st) c.

Definition env_of (d : dst) : env :=
  {| val_at := fun i => match vat d i with HasVal v => Some v | _ => None end; expr_at := fun i => match vat d i with HasExpr e => Some e | _ => None end;
     codec_at := fun i n => exists f, provider n = Some f /\ cat d i = Some f |}.
Lemma env_stands d c i : stands_in d c i -> stands (env_of d) c i.
Proof. destruct c; cbn; [intros ->; reflexivity..|auto]. Qed.

Section calls.
Variable encf : call -> est -> eres (nat * est).
Hypothesis So : sound encf.
Lemma run_sound v : G v -> forall p t st d q st', reach (venc v) t p -> (forall c i, In (c, i) t -> stands_in d c i) -> Dec st d -> Known st d -> e_nest st <> 0 ->
  run X encf p st = EOk (q, st') ->
  exists d' t', Dec st' d' /\ Known st' d' /\ ext d d' /\ e_nest st' = e_nest st /\ reach (venc v) t' (Ret q) /\ (forall c i, In (c, i) t' -> stands_in d' c i) /\
  d_vals d' = d_vals d /\ d_exprs d' = d_exprs d.
Proof.
  intros Gv. assert (Rs : forall (p : prog X) t c k i, reach p t (Call c k) -> reach p (t ++ [(c, i)]) (k i)).
  { intros p t c k i H. remember (Call c k) as q eqn:Eq. induction H; [subst; apply reach_call, reach_start|]. cbn. apply reach_call. auto. }
  induction p as [p| |c k IH]; intros t st d q st' R St D K N E; cbn [run] in E.
  - injection E as <- <-. exists d, t. split; [exact D|]. split; [exact K|]. split; [apply ext_refl|]. auto 10.
  - discriminate.
  - destruct (encf c st) as [[i st1]| | |] eqn:Ec; try discriminate. cbn [ebind fst snd] in E.
    destruct (Fa v t _ Gv R) as (Gc & _). destruct (So c st d i st1 D K (Gc c k eq_refl) Ec) as (d1 & D1 & K1 & X1 & N1 & S1 & O1 & O2).
    destruct (IH i (t ++ [(c, i)]) st1 d1 q st') as (d2 & t2 & D2 & K2 & X2 & N2 & R2 & S2 & O3 & O4); try assumption.
    + apply Rs, R.
    + intros c' i' I. apply in_app_or in I. destruct I as [I|[[= <- <-]|[]]]; [apply (ext_stands d d1 _ _ X1), St, I|exact S1].
    + congruence.
    + exists d2, t2. split; [exact D2|]. split; [exact K2|]. split; [exact (ext_trans _ _ _ X1 X2)|]. split; [congruence|]. split; [exact R2|]. split; [exact S2|].
      unfold out_vals, out_exprs in O1, O2. apply Nat.eqb_neq in N. rewrite N, app_nil_r in O1, O2. split; congruence.
Qed.
Lemma output_v st d i v : Dec st d -> Known st d -> vat d i = HasVal v -> forall st' j, output X SOutV i st = EOk (j, st') ->
  exists d', Dec st' d' /\ Known st' d' /\ ext d d' /\ e_nest st' = e_nest st /\ j = i /\ d_vals d' = d_vals d ++ out_vals (e_nest st) (CVal v) /\ d_exprs d' = d_exprs d.
Proof.
  intros D K V st' j. unfold output, out_vals. destruct (e_nest st =? 0) eqn:N; intros [= <- <-].
  - destruct (outv_step provider as_op infer infer_on d i v) as (d' & E & P); [apply D|exact V|]. exists d'. pose proof P as (P1 & P2 & P3 & P4 & P5 & P6).
    split; [apply (add_dec st d (SOutV i) d' ltac:(discriminate) D E P4 P1)|]. split; [apply (ext_known st d d' (put_out_put _ _ _ _ P) K)|]. split; [exact (put_out_put _ _ _ _ P)|]. rewrite app_nil_r in P3. auto.
  - exists d. rewrite app_nil_r. split; [exact D|]. split; [exact K|]. split; [apply ext_refl|]. auto.
Qed.
Lemma output_e st d i v : Dec st d -> Known st d -> vat d i = HasExpr v -> forall st' j, output X SOutE i st = EOk (j, st') ->
  exists d', Dec st' d' /\ Known st' d' /\ ext d d' /\ e_nest st' = e_nest st /\ j = i /\ d_vals d' = d_vals d /\ d_exprs d' = d_exprs d ++ out_exprs (e_nest st) (CExpr v).
Proof.
  intros D K V st' j. unfold output, out_exprs. destruct (e_nest st =? 0) eqn:N; intros [= <- <-].
  - destruct (oute_step provider as_op infer infer_on d i v) as (d' & E & P); [apply D|exact V|]. exists d'. pose proof P as (P1 & P2 & P3 & P4 & P5 & P6).
    split; [apply (add_dec st d (SOutE i) d' ltac:(discriminate) D E P4 P1)|]. split; [apply (ext_known st d d' (put_out_put _ _ _ _ P) K)|]. split; [exact (put_out_put _ _ _ _ P)|]. rewrite app_nil_r in P2. auto.
  - exists d. rewrite app_nil_r. split; [exact D|]. split; [exact K|]. split; [apply ext_refl|]. auto.
Qed.
Lemma stands_put (d d' : dst) s c : put d d' s c -> vat d' (length (d_results d)) = s /\ cat d' (length (d_results d)) = c.
Proof. intros (_ & _ & _ & _ & P & Q). rewrite P, Q, Nat.eqb_refl. auto. Qed.

Lemma value_sound v st d i st' : Dec st d -> Known st d -> G v -> encode_value X venc encf v st = EOk (i, st') ->
  exists d', Dec st' d' /\ Known st' d' /\ ext d d' /\ e_nest st' = e_nest st /\ vat d' i = HasVal v /\
  d_vals d' = d_vals d ++ out_vals (e_nest st) (CVal v) /\ d_exprs d' = d_exprs d.
Proof.
  intros D K Gv. unfold encode_value. destruct (find Nat.eqb v (e_vals st)) as [i0|] eqn:F.
  - intros E. pose proof (proj1 K v i0 F) as V. destruct (output_v st d i0 v D K V st' i E) as (d' & A1 & A2 & A3 & A4 & -> & A5 & A6). exists d'. split; [exact A1|]. split; [exact A2|]. split; [exact A3|]. split; [exact A4|].
    split; [apply (proj1 A3); [exact V|discriminate]|]. auto.
  - destruct (run X encf (venc v) (set_nest X (S (e_nest st)) st)) as [[q st1]| | |] eqn:Er; try discriminate. cbn [ebind fst snd].
    destruct (run_sound v Gv (venc v) [] (set_nest X (S (e_nest st)) st) d q st1) as (d1 & t & D1 & K1 & X1 & N1 & R1 & S1 & O1 & O2); try assumption; [apply reach_start|intros ? ? []|discriminate|].
    destruct (proj2 (Fa v t _ Gv R1) (env_of d1) q eq_refl) as (vs & es & c & n & f & F1 & F2 & C1 & C2 & C3 & C4); [intros c j I; apply env_stands, S1, I|].
    destruct C2 as (f' & Pf & Cf). assert (f' = f) by congruence. subst f'.
    destruct (val_step provider as_op infer infer_on d1 q vs es c f v) as (d2 & E2 & P2); try assumption; [apply D1| | |].
    { eapply F2_impl; [|exact F1]. cbn. intros a b. destruct (vat d1 a); congruence. }
    { eapply F2_impl; [|exact F2]. cbn. intros a b. destruct (vat d1 a); congruence. }
    pose proof P2 as (Q1 & Q2 & Q3 & Q4 & Q5 & Q6). pose proof (add_dec st1 d1 (SVal q) d2 ltac:(discriminate) D1 E2 Q4 Q1) as D2.
    assert (V2 : vat d2 (length (e_steps st1)) = HasVal v) by (destruct D1 as (_ & <- & _); apply (stands_put d1 d2 _ _ P2)).
    cbn [add]. match goal with |- output X SOutV ?i ?s = _ -> _ => set (st2 := s) end.
    assert (D2' : Dec st2 d2) by exact D2.
    assert (K2 : Known st2 d2).
    { destruct (ext_known st1 d1 d2 (put_ext _ _ _ _ P2) K1) as (A & B & C). split; [|split; [exact B|exact C]]. intros w j. unfold st2. cbn. destruct (Nat.eqb_spec w v) as [->|]; [intros [= <-]; exact V2|apply A]. }
    intros E. destruct (output_v st2 d2 (length (e_steps st1)) v D2' K2 V2 st' i E) as (d' & A1 & A2 & A3 & A4 & -> & A5 & A6).
    assert (Nn : e_nest st2 = e_nest st) by (unfold st2; cbn; rewrite N1; cbn; lia).
    exists d'. split; [exact A1|]. split; [exact A2|]. split; [exact (ext_trans _ _ _ (ext_trans _ _ _ X1 (put_ext _ _ _ _ P2)) A3)|]. split; [congruence|].
    split; [apply (proj1 A3); [exact V2|discriminate]|]. rewrite Nn in A5. split; congruence.
Qed.
Lemma codec_sound n st d i st' : Dec st d -> Known st d -> provider n <> None -> encode_codec X n st = EOk (i, st') ->
  exists d', Dec st' d' /\ Known st' d' /\ ext d d' /\ e_nest st' = e_nest st /\ stands_in d' (CCodec n) i /\ d_vals d' = d_vals d /\ d_exprs d' = d_exprs d.
Proof.
  intros D K Pn. unfold encode_codec. destruct (find str_eqb n (e_codecs st)) as [i0|] eqn:F.
  - intros [= <- <-]. exists d. split; [exact D|]. split; [exact K|]. split; [apply ext_refl|]. split; [reflexivity|]. split; [apply K, F|]. auto.
  - cbn [add]. intros [= <- <-]. destruct (provider n) as [f|] eqn:Ef; [|congruence]. destruct (codec_step provider as_op infer infer_on d n f) as (d1 & E1 & P1); [apply D|exact Ef|].
    pose proof P1 as (Q1 & Q2 & Q3 & Q4 & Q5 & Q6). exists d1. pose proof (add_dec st d (SCodec n) d1 ltac:(discriminate) D E1 Q4 Q1) as D1.
    assert (S1 : stands_in d1 (CCodec n) (length (e_steps st))) by (exists f; split; [exact Ef|]; destruct D as (_ & <- & _); apply (stands_put d d1 _ _ P1)).
    split; [exact D1|]. split.
    { destruct (ext_known st d d1 (put_ext _ _ _ _ P1) K) as (A & B & C). split; [exact A|]. split; [exact B|]. intros w j. cbn [set_codec e_codecs find]. destruct (str_eqb w n) eqn:Es; [apply str_eq in Es; subst w; intros [= <-]; exact S1|apply C]. }
    split; [exact (put_ext _ _ _ _ P1)|]. auto.
Qed.
(** Adding a node. *)
Lemma finish_sound n st d s d' : s <> SNone -> Dec st d -> Known st d -> on_step X provider as_op infer infer_on (length (d_results d)) (plain s) d = DOk d' -> put d d' (HasExpr n) None ->
  forall st', (let '(i, st2) := add X s st in EOk (set_expr X n i st2)) = EOk st' ->
  Dec st' d' /\ Known st' d' /\ ext d d' /\ e_nest st' = e_nest st /\ d_vals d' = d_vals d /\ d_exprs d' = d_exprs d /\ exists i, find node_eqb n (e_exprs st') = Some i.
Proof.
  intros Ns D K E P st'. pose proof P as (Q1 & Q2 & Q3 & Q4 & Q5 & Q6). cbn [add]. intros [= <-]. split; [exact (add_dec st d s d' Ns D E Q4 Q1)|].
  assert (V : vat d' (length (e_steps st)) = HasExpr n) by (destruct D as (_ & <- & _); apply (stands_put d d' _ _ P)).
  split; [|split; [exact (put_ext _ _ _ _ P)|split; [reflexivity|split; [exact Q2|split; [exact Q3|]]]]].
  - destruct (ext_known st d d' (put_ext _ _ _ _ P) K) as (A & B & C). split; [exact A|]. split; [|exact C]. intros w j. cbn [set_expr e_exprs find]. destruct (node_eqb w n) eqn:Es; [apply node_eq in Es; subst w; intros [= <-]; exact V|apply B].
  - exists (length (e_steps st)). cbn. rewrite (proj2 (node_eq n n) eq_refl). reflexivity.
Qed.
Lemma dep_indices_ok ds st d is : Known st d -> dep_indices X ds st = Some is -> Forall2 (fun i e => vat d i = HasExpr e) is ds.
Proof.
  intros K. revert is. induction ds as [|e ds IH]; intros is; cbn [dep_indices]; [intros [= <-]; constructor|].
  destruct (find node_eqb e (e_exprs st)) as [i|] eqn:F; [|discriminate]. cbn [bind]. destruct (dep_indices X ds st) as [l|]; [|discriminate]. cbn [bind]. intros [= <-]. constructor; [apply K, F|apply IH; reflexivity].
Qed.
Lemma node_sound n st d st' : Dec st d -> Known st d -> e_nest st <> 0 -> good_node opval infer infer_on G n -> encode_node X opval encf n st = EOk st' ->
  exists d', Dec st' d' /\ Known st' d' /\ ext d d' /\ e_nest st' = e_nest st /\ d_vals d' = d_vals d /\ d_exprs d' = d_exprs d /\ exists i, find node_eqb n (e_exprs st') = Some i.
Proof.
  intros D K N Gn. unfold encode_node. destruct (find node_eqb n (e_exprs st)) as [i0|] eqn:F.
  { intros [= <-]. exists d. split; [exact D|]. split; [exact K|]. split; [apply ext_refl|]. eauto. }
  assert (No : forall c, out_vals (e_nest st) c = [] /\ out_exprs (e_nest st) c = []) by (intros c; unfold out_vals, out_exprs; apply Nat.eqb_neq in N; rewrite N; auto).
  destruct n as [v|k|k|o a ds].
  - destruct (encf (CVal v) st) as [[i st1]| | |] eqn:Ec; try discriminate. cbn [ebind fst snd]. destruct (So (CVal v) st d i st1 D K Gn Ec) as (d1 & D1 & K1 & X1 & N1 & S1 & O1 & O2).
    destruct (No (CVal v)) as [Y1 Y2]. rewrite Y1, app_nil_r in O1. rewrite Y2, app_nil_r in O2.
    destruct (lit_step provider as_op infer infer_on d1 i v) as (d2 & E2 & P2); [apply D1|exact S1|]. intros E. destruct (finish_sound (Lit v) st1 d1 (SLit (Some i)) d2 ltac:(discriminate) D1 K1 E2 P2 st' E) as (A1 & A2 & A3 & A4 & A5 & A6 & A7).
    exists d2. split; [exact A1|]. split; [exact A2|]. split; [exact (ext_trans _ _ _ X1 A3)|]. repeat split; try congruence; exact A7.
  - destruct (leaf_step provider as_op infer infer_on d k) as (d2 & E2 & P2); [apply D|]. intros E. exists d2. apply (finish_sound (Leaf k) st d (SLeaf (Some k)) d2 ltac:(discriminate) D K E2 P2 st' E).
  - destruct (plh_step provider as_op infer infer_on d k) as (d2 & E2 & P2); [apply D|]. intros E. exists d2. apply (finish_sound (Plh k) st d (SPlh (Some k)) d2 ltac:(discriminate) D K E2 P2 st' E).
  - destruct Gn as [Go Mk]. destruct (encf (CVal (opval o)) st) as [[i st1]| | |] eqn:Ec; try discriminate. cbn [ebind fst snd]. destruct (So (CVal (opval o)) st d i st1 D K Go Ec) as (d1 & D1 & K1 & X1 & N1 & S1 & O1 & O2).
    destruct (No (CVal (opval o))) as [Y1 Y2]. rewrite Y1, app_nil_r in O1. rewrite Y2, app_nil_r in O2.
    destruct (dep_indices X ds st1) as [is|] eqn:Ei; [|discriminate].
    destruct (op_step provider as_op infer infer_on d1 i (opval o) o is ds (Op o a ds)) as (d2 & E2 & P2); [apply D1|exact S1|apply Ops|exact (dep_indices_ok ds st1 d1 is K1 Ei)|exact Mk|].
    intros E. destruct (finish_sound (Op o a ds) st1 d1 (SOp (Some i) is) d2 ltac:(discriminate) D1 K1 E2 P2 st' E) as (A1 & A2 & A3 & A4 & A5 & A6 & A7).
    exists d2. split; [exact A1|]. split; [exact A2|]. split; [exact (ext_trans _ _ _ X1 A3)|]. repeat split; try congruence; exact A7.
Qed.
Lemma nodes_sound ns : forall st d st', Dec st d -> Known st d -> e_nest st <> 0 -> (forall n, In n ns -> good_node opval infer infer_on G n) -> encode_nodes X opval encf ns st = EOk st' ->
  exists d', Dec st' d' /\ Known st' d' /\ ext d d' /\ e_nest st' = e_nest st /\ d_vals d' = d_vals d /\ d_exprs d' = d_exprs d.
Proof.
  induction ns as [|n ns IH]; intros st d st' D K N Gn; cbn [encode_nodes].
  - intros [= <-]. exists d. split; [exact D|]. split; [exact K|]. split; [apply ext_refl|]. auto.
  - destruct (encode_node X opval encf n st) as [st1| | |] eqn:En; try discriminate. cbn [ebind]. intros E.
    destruct (node_sound n st d st1 D K N (Gn n (or_introl eq_refl)) En) as (d1 & D1 & K1 & X1 & N1 & O1 & O2 & _).
    destruct (IH st1 d1 st' D1 K1) as (d2 & D2 & K2 & X2 & N2 & O3 & O4); [congruence|intros m I; apply Gn; right; exact I|exact E|].
    exists d2. split; [exact D2|]. split; [exact K2|]. split; [exact (ext_trans _ _ _ X1 X2)|]. repeat split; congruence.
Qed.
Lemma expr_sound e st d i st' : Dec st d -> Known st d -> good_expr opval infer infer_on G e -> encode_expr X opval encf e st = EOk (i, st') ->
  exists d', Dec st' d' /\ Known st' d' /\ ext d d' /\ e_nest st' = e_nest st /\ vat d' i = HasExpr e /\
  d_vals d' = d_vals d /\ d_exprs d' = d_exprs d ++ out_exprs (e_nest st) (CExpr e).
Proof.
  intros D K Ge. unfold encode_expr. destruct (find node_eqb e (e_exprs st)) as [i0|] eqn:F.
  - intros E. pose proof (proj1 (proj2 K) e i0 F) as V. destruct (output_e st d i0 e D K V st' i E) as (d' & A1 & A2 & A3 & A4 & -> & A5 & A6). exists d'. split; [exact A1|]. split; [exact A2|]. split; [exact A3|]. split; [exact A4|].
    split; [apply (proj1 A3); [exact V|discriminate]|]. auto.
  - destruct (C33_visitor_order e) as (p & Ep & ->). destruct (C33_post_order e) as (p' & Ep' & _ & Sub & _). rewrite Ep in Ep'. injection Ep' as <-.
    destruct (encode_nodes X opval encf (p_nodes p) (set_nest X (S (e_nest st)) st)) as [st1| | |] eqn:En; try discriminate. cbn [ebind].
    destruct (nodes_sound (p_nodes p) (set_nest X (S (e_nest st)) st) d st1) as (d1 & D1 & K1 & X1 & N1 & O1 & O2); try assumption; [discriminate|intros n I; apply Ge, Sub, I|].
    destruct (find node_eqb e (e_exprs st1)) as [j|] eqn:Fj; [|discriminate]. pose proof (proj1 (proj2 K1) e j Fj) as V. intros E.
    destruct (output_e (set_nest X (e_nest st1 - 1) st1) d1 j e D1 K1 V st' i E) as (d' & A1 & A2 & A3 & A4 & -> & A5 & A6).
    assert (Nn : e_nest (set_nest X (e_nest st1 - 1) st1) = e_nest st) by (cbn; rewrite N1; cbn; lia). rewrite Nn in A4, A6.
    exists d'. split; [exact A1|]. split; [exact A2|]. split; [exact (ext_trans _ _ _ X1 A3)|]. split; [congruence|]. split; [apply (proj1 A3); [exact V|discriminate]|]. split; congruence.
Qed.
End calls.
Lemma enc_sound fuel : sound (enc X venc opval fuel).
Proof.
  induction fuel as [|fuel IH]; intros c st d i st' D K Gc E; [discriminate|]. destruct c as [v|e|n]; cbn [enc] in E.
  - destruct (value_sound _ IH v st d i st' D K Gc E) as (d' & A1 & A2 & A3 & A4 & A5 & A6 & A7). exists d'. unfold out_exprs. destruct (e_nest st =? 0); rewrite app_nil_r; auto 10.
  - destruct (expr_sound _ IH e st d i st' D K Gc E) as (d' & A1 & A2 & A3 & A4 & A5 & A6 & A7). exists d'. unfold out_vals. destruct (e_nest st =? 0); rewrite app_nil_r; auto 10.
  - destruct (codec_sound n st d i st' D K Gc E) as (d' & A1 & A2 & A3 & A4 & A5 & A6 & A7). exists d'. unfold out_exprs, out_vals. destruct (e_nest st =? 0); rewrite !app_nil_r; auto 10.
Qed.
Lemma enc_all_sound fuel cs : forall st d st', Dec st d -> Known st d -> e_nest st = 0 -> (forall c, In c cs -> good_call c) -> enc_all X venc opval fuel cs st = EOk st' ->
  exists d', Dec st' d' /\ Known st' d' /\ d_vals d' = d_vals d ++ flat_map (out_vals 0) cs /\ d_exprs d' = d_exprs d ++ flat_map (out_exprs 0) cs.
Proof.
  induction cs as [|c cs IH]; intros st d st' D K N Gc; cbn [enc_all flat_map].
  - intros [= <-]. exists d. rewrite !app_nil_r. auto.
  - destruct (enc X venc opval fuel c st) as [[i st1]| | |] eqn:Ec; try discriminate. cbn [ebind snd]. intros E.
    destruct (enc_sound fuel c st d i st1 D K (Gc c (or_introl eq_refl)) Ec) as (d1 & D1 & K1 & X1 & N1 & S1 & O1 & O2).
    destruct (IH st1 d1 st' D1 K1) as (d2 & D2 & K2 & O3 & O4); [congruence|intros m I; apply Gc; right; exact I|exact E|].
    exists d2. rewrite !app_assoc. rewrite N in O1, O2. rewrite <- O1, <- O2. auto.
Qed.
Lemma start : Dec (est0 X) (dst0 X) /\ Known (est0 X) (dst0 X).
Proof. split; [split; [reflexivity|split; [reflexivity|split; [reflexivity|intros s []]]]|]. repeat split; discriminate. Qed.
End round.
