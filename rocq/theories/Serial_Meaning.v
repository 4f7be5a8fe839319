(** What a decoded container says. *)
From Verif Require Import Base Visit_Model Visit_Spec Serial_Model Serial_Spec Serial_Proofs Serial_Round Serial_Hints.

Section meaning.
Context {X : Type}.
Variable provider : str -> option (vdec X).
Variable as_op : nat -> option nat.
Variable infer : nat -> list attr -> unit + attr.
Variable infer_on : bool.
Notation dst := (dst X).
Notation on_step := (on_step X provider as_op infer infer_on).
Notation on_steps := (on_steps X provider as_op infer infer_on).
Notation act := (act provider as_op infer infer_on).
Definition like (d d' : dst) : Prop := d_expected d' = d_expected d /\ d_known d' = d_known d /\ d_vals d' = d_vals d /\ d_exprs d' = d_exprs d /\ (forall i, vat d' i = vat d i) /\ (forall i, cat d' i = cat d i).
Lemma like_refl d : like d d. Proof. repeat split. Qed.
Lemma like_trans a b c : like a b -> like b c -> like a c.
Proof. intros (A1 & A2 & A3 & A4 & A5 & A6) (B1 & B2 & B3 & B4 & B5 & B6). repeat split; try congruence; intros i; rewrite ?B5, ?B6; auto. Qed.
Lemma load_like i d s d' : d_expected d = [] -> load X i d = DOk (s, d') -> like d d' /\ s = vat d i.
Proof.
  intros E. unfold load. destruct (rd (d_results d) i) as [r|] eqn:R; [|discriminate]. unfold set_result. destruct (upd (d_results d) i _) as [rs|] eqn:U; [|discriminate]. cbn [d_undef dbind]. rewrite check_plain by exact E. cbn [dbind]. intros [= <- <-].
  apply upd_spec in U. destruct U as (L & Le & U). split; [|unfold vat; rewrite R; reflexivity]. repeat split; intros k; unfold vat, cat; cbn [with_results d_results]; rewrite U; destruct (Nat.eqb_spec k i) as [->|]; rewrite ?R; reflexivity.
Qed.
Lemma load_value_like i d v d' : d_expected d = [] -> load_value X i d = DOk (v, d') -> like d d' /\ vat d i = HasVal v.
Proof. intros E. unfold load_value. destruct (load X i d) as [[s d1]| |] eqn:El; try discriminate. cbn [dbind fst snd]. destruct s; try discriminate. intros [= <- <-]. destruct (load_like i d _ d1 E El) as [A B]. auto. Qed.
Lemma load_expr_like i d v d' : d_expected d = [] -> load_expr X i d = DOk (v, d') -> like d d' /\ vat d i = HasExpr v.
Proof. intros E. unfold load_expr. destruct (load X i d) as [[s d1]| |] eqn:El; try discriminate. cbn [dbind fst snd]. destruct s; try discriminate. intros [= <- <-]. destruct (load_like i d _ d1 E El) as [A B]. auto. Qed.
Lemma loads_like {T} (f : nat -> dst -> dres (T * dst)) (w : T -> slot) (H : forall i d v d', d_expected d = [] -> f i d = DOk (v, d') -> like d d' /\ vat d i = w v) is :
  forall d l d', d_expected d = [] -> loads X f is d = DOk (l, d') -> like d d' /\ Forall2 (fun k v => vat d k = w v) is l.
Proof.
  induction is as [|i is IH]; intros d l d' E; cbn [loads]; [intros [= <- <-]; split; [apply like_refl|constructor]|]. destruct (f i d) as [[v d1]| |] eqn:Ef; try discriminate. cbn [dbind fst snd]. destruct (H i d v d1 E Ef) as [A B].
  destruct (loads X f is d1) as [[m d2]| |] eqn:El; try discriminate. cbn [dbind fst snd]. intros [= <- <-]. destruct (IH d1 m d2) as [C D]; [destruct A as (-> & _); exact E|exact El|]. split; [exact (like_trans _ _ _ A C)|].
  constructor; [exact B|]. apply (F2_impl (fun k u => vat d1 k = w u)); [|exact D]. intros k u Hu. destruct A as (_ & _ & _ & _ & A & _). rewrite <- A. exact Hu.
Qed.
Definition grows (d d' : dst) : Prop := d_expected d' = [] /\ forall i, vat d i <> Empty -> vat d' i = vat d i.
Definition Vof (d : dst) (i : nat) : option nat := match vat d i with HasVal v => Some v | _ => None end.
Definition Eof (d : dst) (i : nat) : option node := match vat d i with HasExpr e => Some e | _ => None end.
Lemma V_grows d d' i v : grows d d' -> Vof d i = Some v -> Vof d' i = Some v.
Proof. intros [_ G]. unfold Vof. specialize (G i). destruct (vat d i) eqn:E; try discriminate. rewrite G by congruence. auto. Qed.
Lemma E_grows d d' i v : grows d d' -> Eof d i = Some v -> Eof d' i = Some v.
Proof. intros [_ G]. unfold Eof. specialize (G i). destruct (vat d i) eqn:E; try discriminate. rewrite G by congruence. auto. Qed.
Lemma means_grows d d' kn k s : grows d d' -> step_means provider as_op infer infer_on (Vof d) (Eof d) kn k s -> step_means provider as_op infer infer_on (Vof d') (Eof d') kn k s.
Proof.
  intros G. destruct s as [j|j|j|o is|p|m|j|j|]; cbn [step_means]; auto.
  - intros (i & v & A & B & C). exists i, v. auto using (V_grows d d'), (E_grows d d').
  - intros (i & A & B). exists i. auto using (E_grows d d').
  - intros (i & A & B). exists i. auto using (E_grows d d').
  - intros (i & v & op & ds & a & A & B & C & D & F & H). exists i, v, op, ds, a. split; [exact A|]. split; [apply (V_grows d d' i v G B)|]. split; [exact C|]. split; [|split; [apply (E_grows d d' k _ G F)|exact H]].
    apply (F2_impl (fun j e => Eof d j = Some e)); [|exact D]. intros j e. apply (E_grows d d' j e G).
  - intros (vs & es & v & A & B & C & D). exists vs, es, v. split; [apply (F2_impl (fun j e => Vof d j = Some e)); [|exact A]; intros j e; apply (V_grows d d' j e G)|].
    split; [apply (F2_impl (fun j e => Eof d j = Some e)); [|exact B]; intros j e; apply (E_grows d d' j e G)|]. split; [apply (V_grows d d' k v G C)|exact D].
  - intros N. destruct (Vof d j) as [v|] eqn:Ev; [|congruence]. rewrite (V_grows d d' j v G Ev). discriminate.
  - intros N. destruct (Eof d j) as [v|] eqn:Ev; [|congruence]. rewrite (E_grows d d' j v G Ev). discriminate.
Qed.
Definition Kn (d : dst) (kn : list (nat * vdec X)) : Prop := d_known d = map snd kn /\ forall i f, cat d i = Some f -> In (i, f) kn.
Definition outs_of (d d' : dst) (vs : list nat) (es : list node) : Prop := d_vals d' = d_vals d ++ vs /\ d_exprs d' = d_exprs d ++ es.
Lemma store_like i s d d' : d_expected d = [] -> store X i s d = DOk d' -> s <> Empty ->
  grows d d' /\ vat d' i = s /\ d_known d' = d_known d /\ (forall k, cat d' k = cat d k) /\ outs_of d d' [] [].
Proof.
  intros E. unfold store. destruct (rd (d_results d) i) as [r|] eqn:R; [|discriminate]. cbn [d_undef dbind]. destruct (negb (is_empty (r_slot r)) || (0 <? r_usage r)) eqn:B; [discriminate|]. apply orb_false_iff in B. destruct B as [B1 B2].
  unfold set_result. destruct (upd (d_results d) i _) as [rs|] eqn:U; [|discriminate]. cbn [d_undef dbind]. rewrite check_plain by exact E. intros [= <-] N. apply upd_spec in U. destruct U as (L & Le & U).
  assert (Er : r_slot r = Empty) by (destruct (r_slot r); [reflexivity|discriminate..]).
  split; [split; [exact E|]; intros k; unfold vat; cbn [with_results d_results]; rewrite U; destruct (Nat.eqb_spec k i) as [->|]; [rewrite R; congruence|reflexivity]|].
  split; [unfold vat; cbn [with_results d_results]; rewrite U, Nat.eqb_refl; reflexivity|]. split; [reflexivity|].
  split; [intros k; unfold cat; cbn [with_results d_results]; rewrite U; destruct (Nat.eqb_spec k i) as [->|]; [rewrite R|]; reflexivity|]. split; cbn; rewrite app_nil_r; reflexivity.
Qed.
Lemma like_grows d d' : d_expected d = [] -> like d d' -> grows d d'.
Proof. intros E (A & _ & _ & _ & B & _). split; [congruence|]. intros i _. apply B. Qed.
Lemma grows_trans a b c : grows a b -> grows b c -> grows a c.
Proof. intros [_ A] [B C]. split; [exact B|]. intros i N. rewrite C; [apply A, N|]. rewrite A by exact N. exact N. Qed.
Lemma V_at d i v : vat d i = HasVal v -> Vof d i = Some v. Proof. unfold Vof. intros ->. reflexivity. Qed.
Lemma E_at d i v : vat d i = HasExpr v -> Eof d i = Some v. Proof. unfold Eof. intros ->. reflexivity. Qed.
Lemma try_ok (p : vproto X) vs es (kn : list (nat * vdec X)) v : try_codecs X (map snd kn) p vs es = DOk v -> exists l1 j f l2, kn = l1 ++ (j, f) :: l2 /\ (forall g, In g (map snd l1) -> g p vs es = VNone) /\ f p vs es = VOk v.
Proof.
  induction kn as [|[j f] kn IH]; cbn [map try_codecs snd]; [discriminate|]. destruct (f p vs es) as [w| |] eqn:E; try discriminate.
  - intros [= <-]. exists [], j, f, kn. split; [reflexivity|]. split; [intros g []|exact E].
  - intros H. destruct (IH H) as (l1 & j' & f' & l2 & -> & A & B). exists ((j, f) :: l1), j', f', l2. split; [reflexivity|]. split; [|exact B]. intros g [<-|I]; [exact E|apply A, I].
Qed.
Definition step_v (s : step X) : list nat := match s with SOutV j => [j] | _ => [] end.
Definition step_e (s : step X) : list nat := match s with SOutE j => [j] | _ => [] end.
Definition step_c (i : nat) (s : step X) : list (nat * vdec X) := match s with SCodec n => match provider n with Some f => [(i, f)] | None => [] end | _ => [] end.
Definition effect (i : nat) (s : step X) (kn : list (nat * vdec X)) (d d' : dst) : Prop :=
  grows d d' /\ step_means provider as_op infer infer_on (Vof d') (Eof d') kn i s /\ Kn d' (kn ++ step_c i s) /\
  exists vs es, outs_of d d' vs es /\ Forall2 (fun j v => Vof d' j = Some v) (step_v s) vs /\ Forall2 (fun j v => Eof d' j = Some v) (step_e s) es.
Lemma stored_effect i s sl kn d d1 d' : d_expected d = [] -> Kn d kn -> like d d1 -> store X i sl d1 = DOk d' -> sl <> Empty -> step_c i s = [] -> step_v s = [] -> step_e s = [] ->
  (grows d d' -> vat d' i = sl -> step_means provider as_op infer infer_on (Vof d') (Eof d') kn i s) -> effect i s kn d d'.
Proof.
  intros E [K1 K2] L S N C1 C2 C3 M. pose proof (like_grows d d1 E L) as G1. destruct L as (L1 & L2 & L3 & L4 & L5 & L6). destruct (store_like i sl d1 d') as (G & A & B & C & O1 & O2); [congruence|exact S|exact N|].
  pose proof (grows_trans _ _ _ G1 G) as GG. split; [exact GG|]. split; [apply M; assumption|]. rewrite C1, C2, C3, app_nil_r. split; [split; [congruence|]; intros k f; rewrite C, L6; apply K2|].
  exists [], []. split; [split; congruence|]. split; constructor.
Qed.
Lemma F2_grows {T} (w : T -> slot) (P : dst -> nat -> option T) d d' is l : (forall i v, vat d i = w v -> P d i = Some v) -> (forall i v, P d i = Some v -> P d' i = Some v) -> Forall2 (fun k v => vat d k = w v) is l -> Forall2 (fun k v => P d' k = Some v) is l.
Proof. intros A B. apply F2_impl. intros k v H. apply B, A, H. Qed.
Lemma act_effect i s kn d d' : d_expected d = [] -> Kn d kn -> act i s d = DOk d' -> effect i s kn d d'.
Proof.
  intros E K. destruct s as [[k|]|[k|]|[k|]|o is|p|m|k|k|]; cbn [Serial_Hints.act]; try discriminate.
  - destruct (load_value X k d) as [[v d1]| |] eqn:El; try discriminate. cbn [dbind fst snd]. intros S. destruct (load_value_like k d v d1 E El) as [A B]. apply (stored_effect i _ _ kn d d1 d' E K A S); try discriminate; try reflexivity.
    intros G Ei. exists k, v. split; [reflexivity|]. split; [apply (V_grows d d' k v G), V_at, B|apply E_at, Ei].
  - intros S. apply (stored_effect i _ _ kn d d d' E K (like_refl d) S); try discriminate; try reflexivity. intros G Ei. exists k. split; [reflexivity|apply E_at, Ei].
  - intros S. apply (stored_effect i _ _ kn d d d' E K (like_refl d) S); try discriminate; try reflexivity. intros G Ei. exists k. split; [reflexivity|apply E_at, Ei].
  - destruct (decode_op X as_op infer infer_on o is d) as [[n d1]| |] eqn:Eo; try discriminate. cbn [dbind fst snd]. intros S. destruct o as [k|]; [|discriminate]. cbn [decode_op] in Eo. destruct (load_value X k d) as [[v d0]| |] eqn:El; try discriminate. cbn [dbind fst snd] in Eo.
    destruct (load_value_like k d v d0 E El) as [A B]. destruct (as_op v) as [op|] eqn:Ea; [|discriminate]. destruct (loads X (load_expr X) is d0) as [[l d2]| |] eqn:Es; try discriminate. cbn [dbind fst snd] in Eo. destruct (make_node infer infer_on op l) as [nd|] eqn:En; [|discriminate]. injection Eo as <- <-.
    destruct (loads_like (load_expr X) HasExpr load_expr_like is d0 l d2) as [C D]; [destruct A as (-> & _); exact E|exact Es|].
    apply (stored_effect i _ _ kn d d2 d' E K (like_trans _ _ _ A C) S); try discriminate; try reflexivity. intros G Ei. cbn [step_means].
    assert (N : exists a, nd = Op op a l /\ if infer_on then infer op (map attr_of l) = inr a else a = ANone).
    { unfold make_node in En. destruct infer_on; [|injection En as <-; eauto]. unfold make_op in En. destruct (infer op (map attr_of l)) as [e|a]; [discriminate|]. injection En as <-. eauto. }
    destruct N as (a & -> & Ia). exists k, v, op, l, a. split; [reflexivity|]. split; [apply (V_grows d d' k v G), V_at, B|]. split; [exact Ea|]. split; [|split; [apply E_at, Ei|exact Ia]].
    assert (D' : Forall2 (fun k v => vat d k = HasExpr v) is l) by (apply (F2_impl (fun k v => vat d0 k = HasExpr v)); [|exact D]; destruct A as (_ & _ & _ & _ & A & _); intros j e H; rewrite <- A; exact H).
    apply (F2_grows HasExpr Eof d d' is l (E_at d)); [intros j e; apply (E_grows d d' j e G)|exact D'].
  - destruct (decode_value X p d) as [[v d1]| |] eqn:Ev; try discriminate. cbn [dbind fst snd]. intros S. unfold decode_value in Ev. destruct (loads X (load_value X) (p_vals p) d) as [[vs d2]| |] eqn:E2; try discriminate. cbn [dbind fst snd] in Ev.
    destruct (loads_like (load_value X) HasVal load_value_like (p_vals p) d vs d2 E E2) as [A B]. destruct (loads X (load_expr X) (p_exprs p) d2) as [[es d3]| |] eqn:E3; try discriminate. cbn [dbind fst snd] in Ev.
    destruct (loads_like (load_expr X) HasExpr load_expr_like (p_exprs p) d2 es d3) as [C D]; [destruct A as (-> & _); exact E|exact E3|].
    assert (W : exists w, v = w /\ d1 = d3 /\ match p_codec p with
      | Some c => exists f, In (c, f) kn /\ f p vs es = VOk w
      | None => exists l1 j f l2, kn = l1 ++ (j, f) :: l2 /\ (forall g, In g (map snd l1) -> g p vs es = VNone) /\ f p vs es = VOk w end).
    { pose proof (like_trans _ _ _ A C) as (_ & Lk & _ & _ & _ & Lc). destruct K as [K1 K2]. destruct (p_codec p) as [c|].
      - specialize (Lc c). unfold cat at 1 in Lc. destruct (rd (d_results d3) c) as [r|]; [|discriminate]. destruct (r_codec r) as [f|]; [|discriminate]. destruct (f p vs es) as [w| |] eqn:Ef; try discriminate. cbn [dbind] in Ev. injection Ev as -> <-. exists v. split; [reflexivity|]. split; [reflexivity|]. exists f. split; [apply K2; symmetry; exact Lc|exact Ef].
      - rewrite Lk, K1 in Ev. destruct (try_codecs X (map snd kn) p vs es) as [w| |] eqn:Et; try discriminate. cbn [dbind] in Ev. injection Ev as -> <-. exists v. split; [reflexivity|]. split; [reflexivity|]. apply try_ok, Et. }
    destruct W as (w & <- & -> & W). apply (stored_effect i _ _ kn d d3 d' E K (like_trans _ _ _ A C) S); try discriminate; try reflexivity. intros G Ei. exists vs, es, v.
    split; [apply (F2_grows HasVal Vof d d' _ vs (V_at d)); [intros j e; apply (V_grows d d' j e G)|exact B]|].
    assert (D' : Forall2 (fun k v => vat d k = HasExpr v) (p_exprs p) es) by (apply (F2_impl (fun k v => vat d2 k = HasExpr v)); [|exact D]; destruct A as (_ & _ & _ & _ & A & _); intros j e H; rewrite <- A; exact H).
    split; [apply (F2_grows HasExpr Eof d d' _ es (E_at d)); [intros j e; apply (E_grows d d' j e G)|exact D']|]. split; [apply V_at, Ei|exact W].
  - destruct (provider m) as [c|] eqn:Em; [|discriminate]. unfold store_codec. destruct (rd (d_results d) i) as [r|] eqn:R; [|discriminate]. cbn [d_undef dbind]. destruct (r_codec r) eqn:Rc; [discriminate|]. unfold set_result. destruct (upd (d_results d) i _) as [rs|] eqn:U; [|discriminate]. cbn [d_undef dbind].
    intros [= <-]. apply upd_spec in U. destruct U as (L & Le & U). destruct K as [K1 K2]. unfold effect. cbn [step_c step_v step_e]. rewrite Em.
    split; [split; [exact E|]; intros k _; unfold vat; cbn [with_results d_results]; rewrite U; destruct (Nat.eqb_spec k i) as [->|]; [rewrite R|]; reflexivity|].
    split; [cbn [step_means]; congruence|]. split.
    { split; [cbn [d_known with_results]; rewrite K1, map_app; reflexivity|]. intros k f. unfold cat. cbn [with_results d_results]. rewrite U. destruct (Nat.eqb_spec k i) as [->|]; intros H; apply in_or_app; [right; left; injection H as <-; reflexivity|left; apply K2, H]. }
    exists [], []. split; [split; cbn; rewrite app_nil_r; reflexivity|]. split; constructor.
  - destruct (load_value X k d) as [[v d1]| |] eqn:El; try discriminate. cbn [dbind fst snd]. intros [= <-]. destruct (load_value_like k d v d1 E El) as [A B]. pose proof (like_grows d d1 E A) as G. destruct A as (A1 & A2 & A3 & A4 & A5 & A6). destruct K as [K1 K2].
    assert (Vk : Vof d1 k = Some v) by (apply (V_grows d d1 k v G), V_at, B). unfold effect. cbn [step_c step_v step_e]. rewrite app_nil_r. split; [exact G|]. split; [cbn [step_means]; change (Vof d1 k <> None); congruence|].
    split; [split; [cbn [d_known]; congruence|]; intros j f H; apply K2; rewrite <- A6; exact H|]. exists [v], []. split; [split; cbn; rewrite ?app_nil_r; congruence|]. split; [constructor; [exact Vk|constructor]|constructor].
  - destruct (load_expr X k d) as [[v d1]| |] eqn:El; try discriminate. cbn [dbind fst snd]. intros [= <-]. destruct (load_expr_like k d v d1 E El) as [A B]. pose proof (like_grows d d1 E A) as G. destruct A as (A1 & A2 & A3 & A4 & A5 & A6). destruct K as [K1 K2].
    assert (Vk : Eof d1 k = Some v) by (apply (E_grows d d1 k v G), E_at, B). unfold effect. cbn [step_c step_v step_e]. rewrite app_nil_r. split; [exact G|]. split; [cbn [step_means]; change (Eof d1 k <> None); congruence|].
    split; [split; [cbn [d_known]; congruence|]; intros j f H; apply K2; rewrite <- A6; exact H|]. exists [], [v]. split; [split; cbn; rewrite ?app_nil_r; congruence|]. split; [constructor|constructor; [exact Vk|constructor]].
  - intros [= <-]. unfold effect. cbn [step_c step_v step_e]. rewrite app_nil_r. split; [split; [exact E|reflexivity]|]. split; [exact I|]. split; [exact K|]. exists [], []. split; [split; rewrite app_nil_r; reflexivity|]. split; constructor.
Qed.
Lemma extend_like i (d : dst) : like d (extend i d).
Proof.
  unfold extend. destruct (i =? length (d_results d)); [|apply like_refl]. repeat split; intros k; unfold vat, cat, rd; cbn [with_results d_results];
  (destruct (Nat.lt_ge_cases k (length (d_results d))) as [H|H]; [rewrite nth_error_app1 by exact H; reflexivity|]); rewrite nth_error_app2 by exact H; rewrite (proj2 (nth_error_None _ _) H);
  destruct (k - length (d_results d)) as [|j]; try reflexivity; destruct j; reflexivity.
Qed.
Lemma step_effect i s kn d d' : d_expected d = [] -> Kn d kn -> on_step i (plain s) d = DOk d' -> effect i s kn d d'.
Proof.
  intros E [K1 K2] O. rewrite on_step_eq in O. cbn [plain s_hints s_type hints dbind] in O. destruct (Nat.ltb_spec (length (d_results d)) i) as [|L]; [discriminate|].
  pose proof (extend_like i d) as Lk. pose proof (like_grows d _ E Lk) as G. destruct Lk as (L1 & L2 & L3 & L4 & L5 & L6).
  destruct (act_effect i s kn (extend i d) d') as (G' & M & K' & vs & es & [O1 O2] & F1 & F2); [congruence|split; [congruence|]; intros j f; rewrite L6; apply K2|exact O|].
  split; [apply (grows_trans _ _ _ G G')|]. split; [exact M|]. split; [exact K'|]. exists vs, es. split; [split; congruence|auto].
Qed.
Lemma steps_effect L : forall d d' kn, d_expected d = [] -> Kn d kn -> on_steps (strip L) d = DOk d' ->
  grows d d' /\ (forall l1 k s l2, L = l1 ++ (k, s) :: l2 -> step_means provider as_op infer infer_on (Vof d') (Eof d') (kn ++ codecs_of provider l1) k (s_type s)) /\ Kn d' (kn ++ codecs_of provider L) /\
  exists vs es, outs_of d d' vs es /\ Forall2 (fun j v => Vof d' j = Some v) (outv_of (map snd L)) vs /\ Forall2 (fun j v => Eof d' j = Some v) (oute_of (map snd L)) es.
Proof.
  induction L as [|[i s] L IH]; intros d d' kn E K; cbn [strip map Serial_Model.on_steps]; cbn [fst snd].
  - intros [= <-]. split; [split; [exact E|reflexivity]|]. split; [intros [|] ? ? ? Z; discriminate|]. cbn. rewrite app_nil_r. split; [exact K|]. exists [], []. split; [split; rewrite app_nil_r; reflexivity|]. split; constructor.
  - destruct (on_step i (plain (s_type s)) d) as [d1| |] eqn:E1; try discriminate. cbn [dbind]. fold (strip L). intros E2. destruct (step_effect i (s_type s) kn d d1 E K E1) as (G1 & M1 & K1 & vs1 & es1 & [P1 Q1] & F1 & H1).
    destruct (IH d1 d' (kn ++ step_c i (s_type s)) (proj1 G1) K1 E2) as (G2 & M2 & K2 & vs2 & es2 & [P2 Q2] & F2 & H2).
    assert (Ec : forall l, (kn ++ step_c i (s_type s)) ++ codecs_of provider l = kn ++ codecs_of provider ((i, s) :: l)) by (intros l; rewrite <- app_assoc; reflexivity).
    split; [apply (grows_trans _ _ _ G1 G2)|]. split; [|split; [rewrite <- Ec; exact K2|]].
    + intros [|[k0 s0] l1] k t l2 Z; cbn [app] in Z.
      * injection Z as <- <- _. cbn. rewrite app_nil_r. apply (means_grows d1 d' kn i (s_type s) G2 M1).
      * injection Z as <- <- Z. rewrite <- Ec. apply (M2 l1 k t l2 Z).
    + exists (vs1 ++ vs2), (es1 ++ es2). split; [split; [rewrite P2, P1, app_assoc|rewrite Q2, Q1, app_assoc]; reflexivity|]. unfold outv_of, oute_of. cbn [flat_map]. split; apply Forall2_app; try assumption.
      * apply (F2_impl (fun j v => Vof d1 j = Some v)); [|exact F1]. intros j v. apply (V_grows d1 d' j v G2).
      * apply (F2_impl (fun j v => Eof d1 j = Some v)); [|exact H1]. intros j v. apply (E_grows d1 d' j v G2).
Qed.
End meaning.
