(** Decoding what was encoded: one step at a time. *)
From Verif Require Import Base Visit_Model Visit_Spec Visit_Proofs Visit_Props Serial_Model Serial_Spec.

Ltac sp := repeat match goal with |- _ /\ _ => split end.
Lemma F2_impl {A B} (P Q : A -> B -> Prop) l l' : (forall a b, P a b -> Q a b) -> Forall2 P l l' -> Forall2 Q l l'.
Proof. intros H F. induction F; constructor; auto. Qed.
Section decoder.
Context {X : Type}.
Variable provider : str -> option (vdec X).
Variable as_op : nat -> option nat.
Variable infer : nat -> list attr -> unit + attr.
Variable infer_on : bool.
Notation dst := (dst X).
Definition vat (d : dst) (i : nat) : slot := match rd (d_results d) i with Some r => r_slot r | None => Empty end.
Definition cat (d : dst) (i : nat) : option (vdec X) := match rd (d_results d) i with Some r => r_codec r | None => None end.
(** Only usage counts of filled slots differ. *)
Definition same (d d' : dst) : Prop :=
  d_expected d' = d_expected d /\ d_known d' = d_known d /\ d_vals d' = d_vals d /\ d_exprs d' = d_exprs d /\ length (d_results d') = length (d_results d) /\
  (forall i, vat d' i = vat d i) /\ (forall i, cat d' i = cat d i) /\ (forall i, vat d i = Empty -> rd (d_results d') i = rd (d_results d) i).
Lemma same_refl d : same d d.
Proof. repeat split. Qed.
Lemma same_trans a b c : same a b -> same b c -> same a c.
Proof.
  intros (A1 & A2 & A3 & A4 & A5 & A6 & A7 & A8) (B1 & B2 & B3 & B4 & B5 & B6 & B7 & B8). red; sp; [congruence..| | |].
  - intros i. rewrite B6. apply A6.
  - intros i. rewrite B7. apply A7.
  - intros i E. rewrite B8 by (rewrite A6; exact E). apply A8, E.
Qed.
Lemma no_check (d : dst) i : d_expected d = [] -> check_usage X i d = DOk d.
Proof. intros E. unfold check_usage. rewrite E. destruct i; reflexivity. Qed.
Lemma set_result_ok (d : dst) i r : i < length (d_results d) -> exists d', set_result X i r d = DOk d' /\ d_expected d' = d_expected d /\ d_known d' = d_known d /\
  d_vals d' = d_vals d /\ d_exprs d' = d_exprs d /\ length (d_results d') = length (d_results d) /\ forall j, rd (d_results d') j = if j =? i then Some r else rd (d_results d) j.
Proof.
  intros H. unfold set_result. destruct (upd_lt (d_results d) i r H) as [l E]. destruct (upd_spec _ _ _ _ E) as (_ & L & R). rewrite E. cbn [d_undef dbind]. eexists. split; [reflexivity|]. cbn. auto 10.
Qed.
Lemma load_ok (d : dst) i : d_expected d = [] -> vat d i <> Empty -> exists d', load X i d = DOk (vat d i, d') /\ same d d'.
Proof.
  intros E V. unfold load, vat in *. destruct (rd (d_results d) i) as [r|] eqn:R; [|congruence]. destruct (set_result_ok d i {| r_slot := r_slot r; r_codec := r_codec r; r_usage := S (r_usage r) |} (rd_Some_lt _ _ _ R)) as (d' & -> & D1 & D2 & D3 & D4 & D5 & D6). cbn [dbind].
  rewrite no_check by congruence. cbn [dbind]. exists d'. split; [reflexivity|]. red; sp; try assumption; unfold vat, cat; intros j.
  - rewrite D6. destruct (Nat.eqb_spec j i) as [->|N]; [rewrite R; reflexivity|reflexivity].
  - rewrite D6. destruct (Nat.eqb_spec j i) as [->|N]; [rewrite R; reflexivity|reflexivity].
  - intros Ej. rewrite D6. destruct (Nat.eqb_spec j i) as [->|N]; [rewrite R in Ej; contradiction|reflexivity].
Qed.
Lemma load_value_ok (d : dst) i v : d_expected d = [] -> vat d i = HasVal v -> exists d', load_value X i d = DOk (v, d') /\ same d d'.
Proof. intros E V. destruct (load_ok d i E) as (d' & L & S); [congruence|]. exists d'. unfold load_value. rewrite L, V. auto. Qed.
Lemma load_expr_ok (d : dst) i e : d_expected d = [] -> vat d i = HasExpr e -> exists d', load_expr X i d = DOk (e, d') /\ same d d'.
Proof. intros E V. destruct (load_ok d i E) as (d' & L & S); [congruence|]. exists d'. unfold load_expr. rewrite L, V. auto. Qed.
Lemma loads_ok {T} (f : nat -> dst -> dres (T * dst)) (P : dst -> nat -> T -> Prop) :
  (forall d i x, d_expected d = [] -> P d i x -> exists d', f i d = DOk (x, d') /\ same d d') -> (forall d d' i x, same d d' -> P d i x -> P d' i x) ->
  forall is xs d, d_expected d = [] -> Forall2 (P d) is xs -> exists d', loads X f is d = DOk (xs, d') /\ same d d'.
Proof.
  intros F M. induction is as [|i is IH]; intros xs d E A; inversion A; subst; cbn [loads]; [exists d; split; [reflexivity|apply same_refl]|].
  destruct (F d i y E) as (d1 & -> & S1); [assumption|]. cbn [dbind fst snd]. destruct (IH l' d1) as (d2 & -> & S2); [destruct S1; congruence| |].
  - eapply F2_impl; [|eassumption]. intros j z. apply M, S1.
  - cbn [dbind fst snd]. exists d2. split; [reflexivity|]. exact (same_trans _ _ _ S1 S2).
Qed.
Lemma load_values_ok is vs (d : dst) : d_expected d = [] -> Forall2 (fun i v => vat d i = HasVal v) is vs -> exists d', loads X (load_value X) is d = DOk (vs, d') /\ same d d'.
Proof. intros E F. apply (loads_ok (load_value X) (fun d i v => vat d i = HasVal v)); auto using load_value_ok. intros a b i v S H. destruct S as (_ & _ & _ & _ & _ & S & _). rewrite S. exact H. Qed.
Lemma load_exprs_ok is es (d : dst) : d_expected d = [] -> Forall2 (fun i e => vat d i = HasExpr e) is es -> exists d', loads X (load_expr X) is d = DOk (es, d') /\ same d d'.
Proof. intros E F. apply (loads_ok (load_expr X) (fun d i v => vat d i = HasExpr v)); auto using load_expr_ok. intros a b i v S H. destruct S as (_ & _ & _ & _ & _ & S & _). rewrite S. exact H. Qed.

(** The state after a new step that stores a slot. *)
Definition put (d d' : dst) (s : slot) (c : option (vdec X)) : Prop :=
  d_expected d' = [] /\ d_vals d' = d_vals d /\ d_exprs d' = d_exprs d /\ length (d_results d') = S (length (d_results d)) /\
  (forall i, vat d' i = if i =? length (d_results d) then s else vat d i) /\ (forall i, cat d' i = if i =? length (d_results d) then c else cat d i).
Definition grown (d : dst) : dst := with_results X (d_results d ++ [empty_result X]) d.
Lemma grown_rd d i : rd (d_results (grown d)) i = if i =? length (d_results d) then Some (empty_result X) else rd (d_results d) i.
Proof.
  unfold grown, rd. cbn [with_results d_results]. destruct (Nat.eqb_spec i (length (d_results d))) as [->|N].
  - rewrite nth_error_app2, Nat.sub_diag by lia. reflexivity.
  - destruct (Nat.lt_ge_cases i (length (d_results d))) as [L|L]; [apply nth_error_app1; exact L|].
    transitivity (@None (result X)); [apply nth_error_None; rewrite app_length; cbn; lia|symmetry; apply nth_error_None; lia].
Qed.
Lemma grown_put d : d_expected d = [] -> put d (grown d) Empty None.
Proof.
  intros E. red; sp; [exact E|reflexivity|reflexivity|cbn; rewrite app_length; cbn; lia|..]; intros i; unfold vat, cat; rewrite grown_rd; destruct (i =? length (d_results d)); reflexivity.
Qed.
Lemma on_step_new s d : d_expected d = [] ->
  on_step X provider as_op infer infer_on (length (d_results d)) (plain s) d =
  (let i := length (d_results d) in let d := grown d in
  match s with
  | SLit None => DErr
  | SLit (Some k) => dbind (load_value X k d) (fun x => store X i (HasExpr (Lit (fst x))) (snd x))
  | SLeaf None => DErr
  | SLeaf (Some k) => store X i (HasExpr (Leaf k)) d
  | SPlh None => DErr
  | SPlh (Some k) => store X i (HasExpr (Plh k)) d
  | SOp o is => dbind (decode_op X as_op infer infer_on o is d) (fun x => store X i (HasExpr (fst x)) (snd x))
  | SVal p => dbind (decode_value X p d) (fun x => store X i (HasVal (fst x)) (snd x))
  | SCodec n => match provider n with None => DErr | Some c => store_codec X i c d end
  | SOutV k => dbind (load_value X k d) (fun x =>
      DOk {| d_results := d_results (snd x); d_expected := d_expected (snd x); d_known := d_known (snd x); d_vals := d_vals (snd x) ++ [fst x]; d_exprs := d_exprs (snd x) |})
  | SOutE k => dbind (load_expr X k d) (fun x =>
      DOk {| d_results := d_results (snd x); d_expected := d_expected (snd x); d_known := d_known (snd x); d_vals := d_vals (snd x); d_exprs := d_exprs (snd x) ++ [fst x] |})
  | SNone => DOk d
  end).
Proof. intros E. unfold on_step. destruct (Nat.ltb_spec (length (d_results d)) (length (d_results d))); [lia|]. rewrite Nat.eqb_refl. fold (grown d). destruct s as [[k|]|[k|]|[k|]|o is|p|n|k|k|]; reflexivity. Qed.
Lemma store_new s d d1 : d_expected d = [] -> same (grown d) d1 -> exists d', store X (length (d_results d)) s d1 = DOk d' /\ put d d' s None.
Proof.
  intros E (S1 & S2 & S3 & S4 & S5 & S6 & S7 & S8). destruct (grown_put d E) as (P1 & P2 & P3 & P4 & P5 & P6). unfold store.
  rewrite (S8 (length (d_results d))) by (rewrite P5, Nat.eqb_refl; reflexivity). rewrite grown_rd, Nat.eqb_refl. cbn [d_undef dbind empty_result r_slot is_empty negb orb r_usage].
  change (0 <? 0) with false. cbn match. destruct (set_result_ok d1 (length (d_results d)) {| r_slot := s; r_codec := r_codec (empty_result X); r_usage := 0 |}) as (d' & -> & D1 & D2 & D3 & D4 & D5 & D6); [lia|]. cbn [dbind].
  rewrite no_check by congruence. exists d'. split; [reflexivity|]. red; sp; [congruence..| |]; intros i; unfold vat, cat in *; rewrite D6.
  - destruct (Nat.eqb_spec i (length (d_results d))) as [N|N]; [reflexivity|]. rewrite S6, P5. apply Nat.eqb_neq in N. rewrite N. reflexivity.
  - destruct (Nat.eqb_spec i (length (d_results d))) as [N|N]; [reflexivity|]. rewrite S7, P6. apply Nat.eqb_neq in N. rewrite N. reflexivity.
Qed.
Lemma put_grow_val d d1 i v : d_expected d = [] -> put d d1 Empty None -> vat d i = HasVal v -> vat d1 i = HasVal v.
Proof.
  intros _ (_ & _ & _ & _ & P & _) V. rewrite P. destruct (Nat.eqb_spec i (length (d_results d))) as [->|]; [|exact V].
  unfold vat in V. assert (N : rd (d_results d) (length (d_results d)) = None) by (apply nth_error_None; lia). rewrite N in V. discriminate.
Qed.
Lemma vat_old d i s : vat d i = s -> s <> Empty -> i < length (d_results d).
Proof. unfold vat. destruct (rd (d_results d) i) as [r|] eqn:R; [intros _ _; exact (rd_Some_lt _ _ _ R)|congruence]. Qed.
Lemma cat_old d i c : cat d i = Some c -> i < length (d_results d).
Proof. unfold cat. destruct (rd (d_results d) i) as [r|] eqn:R; [intros _; exact (rd_Some_lt _ _ _ R)|discriminate]. Qed.
Lemma put_vat d d' s c i x : put d d' s c -> vat d i = x -> x <> Empty -> vat d' i = x.
Proof. intros (_ & _ & _ & _ & P & _) V N. rewrite P. pose proof (vat_old d i x V N). destruct (Nat.eqb_spec i (length (d_results d))); [lia|exact V]. Qed.
Lemma put_cat d d' s c i x : put d d' s c -> cat d i = Some x -> cat d' i = Some x.
Proof. intros (_ & _ & _ & _ & _ & P) V. rewrite P. pose proof (cat_old d i x V). destruct (Nat.eqb_spec i (length (d_results d))); [lia|exact V]. Qed.

Notation step_ok d s d' := (on_step X provider as_op infer infer_on (length (d_results d)) (plain s) d = DOk d').
Lemma lit_step d k v : d_expected d = [] -> vat d k = HasVal v -> exists d', step_ok d (SLit (Some k)) d' /\ put d d' (HasExpr (Lit v)) None.
Proof.
  intros E V. rewrite on_step_new by exact E. cbn zeta iota. pose proof (grown_put d E) as G. destruct (load_value_ok (grown d) k v) as (d1 & -> & S1); [exact E|apply (put_vat d _ Empty None); congruence|].
  cbn [dbind fst snd]. apply store_new; assumption.
Qed.
Lemma leaf_step d k : d_expected d = [] -> exists d', step_ok d (SLeaf (Some k)) d' /\ put d d' (HasExpr (Leaf k)) None.
Proof. intros E. rewrite on_step_new by exact E. cbn zeta iota. apply store_new; [exact E|apply same_refl]. Qed.
Lemma plh_step d k : d_expected d = [] -> exists d', step_ok d (SPlh (Some k)) d' /\ put d d' (HasExpr (Plh k)) None.
Proof. intros E. rewrite on_step_new by exact E. cbn zeta iota. apply store_new; [exact E|apply same_refl]. Qed.
Lemma op_step d k v o is ds n : d_expected d = [] -> vat d k = HasVal v -> as_op v = Some o -> Forall2 (fun i e => vat d i = HasExpr e) is ds ->
  make_node infer infer_on o ds = Some n -> exists d', step_ok d (SOp (Some k) is) d' /\ put d d' (HasExpr n) None.
Proof.
  intros E V O F M. rewrite on_step_new by exact E. cbn zeta iota. pose proof (grown_put d E) as G. unfold decode_op.
  destruct (load_value_ok (grown d) k v) as (d1 & -> & S1); [exact E|apply (put_vat d _ Empty None); congruence|]. cbn [dbind fst snd]. rewrite O.
  destruct (load_exprs_ok is ds d1) as (d2 & -> & S2); [destruct S1 as [-> _]; exact E| |].
  { eapply F2_impl; [|exact F]. intros i e H. destruct S1 as (_ & _ & _ & _ & _ & S1 & _). rewrite S1. apply (put_vat d _ Empty None); congruence. }
  cbn [dbind fst snd]. rewrite M. cbn [dbind fst snd]. apply store_new; [exact E|]. exact (same_trans _ _ _ S1 S2).
Qed.
Lemma val_step d p vs es c f v : d_expected d = [] -> Forall2 (fun i w => vat d i = HasVal w) (p_vals p) vs -> Forall2 (fun i e => vat d i = HasExpr e) (p_exprs p) es ->
  p_codec p = Some c -> cat d c = Some f -> f p vs es = VOk v -> exists d', step_ok d (SVal p) d' /\ put d d' (HasVal v) None.
Proof.
  intros E F1 F2 C Cc Fv. rewrite on_step_new by exact E. cbn zeta iota. pose proof (grown_put d E) as G. unfold decode_value.
  destruct (load_values_ok (p_vals p) vs (grown d)) as (d1 & -> & S1); [exact E| |].
  { eapply F2_impl; [|exact F1]. intros i e H. apply (put_vat d _ Empty None); congruence. }
  cbn [dbind fst snd]. destruct (load_exprs_ok (p_exprs p) es d1) as (d2 & -> & S2); [destruct S1 as [-> _]; exact E| |].
  { eapply F2_impl; [|exact F2]. intros i e H. destruct S1 as (_ & _ & _ & _ & _ & S1 & _). rewrite S1. apply (put_vat d _ Empty None); congruence. }
  cbn [dbind fst snd]. rewrite C. pose proof (same_trans _ _ _ S1 S2) as S12. assert (Cd : cat d2 c = Some f) by (destruct S12 as (_ & _ & _ & _ & _ & _ & S & _); rewrite S; exact (put_cat _ _ _ _ _ _ G Cc)).
  unfold cat in Cd. destruct (rd (d_results d2) c) as [r|]; [|discriminate]. rewrite Cd, Fv. cbn [dbind fst snd]. apply store_new; assumption.
Qed.
Lemma codec_step d n f : d_expected d = [] -> provider n = Some f -> exists d', step_ok d (SCodec n) d' /\ put d d' Empty (Some f).
Proof.
  intros E P. rewrite on_step_new by exact E. cbn zeta iota. rewrite P. unfold store_codec. rewrite grown_rd, Nat.eqb_refl. cbn [d_undef dbind empty_result r_codec].
  destruct (grown_put d E) as (P1 & P2 & P3 & P4 & P5 & P6).
  destruct (set_result_ok (grown d) (length (d_results d)) {| r_slot := r_slot (empty_result X); r_codec := Some f; r_usage := r_usage (empty_result X) |}) as (d' & -> & D1 & D2 & D3 & D4 & D5 & D6); [lia|]. cbn [dbind].
  eexists. split; [reflexivity|]. red; sp; cbn; [congruence..| |]; intros i; unfold vat, cat in *; cbn [d_results]; rewrite D6.
  - destruct (Nat.eqb_spec i (length (d_results d))) as [N|N]; [reflexivity|]. rewrite P5. apply Nat.eqb_neq in N. rewrite N. reflexivity.
  - destruct (Nat.eqb_spec i (length (d_results d))) as [N|N]; [reflexivity|]. rewrite P6. apply Nat.eqb_neq in N. rewrite N. reflexivity.
Qed.
(** An output step. *)
Definition put_out (d d' : dst) (vs : list nat) (es : list node) : Prop :=
  d_expected d' = [] /\ d_vals d' = d_vals d ++ vs /\ d_exprs d' = d_exprs d ++ es /\ length (d_results d') = S (length (d_results d)) /\
  (forall i, vat d' i = if i =? length (d_results d) then Empty else vat d i) /\ (forall i, cat d' i = if i =? length (d_results d) then None else cat d i).
Lemma outv_step d k v : d_expected d = [] -> vat d k = HasVal v -> exists d', step_ok d (SOutV k) d' /\ put_out d d' [v] [].
Proof.
  intros E V. rewrite on_step_new by exact E. cbn zeta iota. pose proof (grown_put d E) as G. destruct (load_value_ok (grown d) k v) as (d1 & -> & S1); [exact E|apply (put_vat d _ Empty None); congruence|].
  cbn [dbind fst snd]. eexists. split; [reflexivity|]. destruct S1 as (S1 & S2 & S3 & S4 & S5 & S6 & S7 & S8), G as (P1 & P2 & P3 & P4 & P5 & P6). red; sp; cbn; rewrite ?app_nil_r; [congruence..| |].
  - intros i. change (vat d1 i = if i =? length (d_results d) then Empty else vat d i). rewrite S6. apply P5.
  - intros i. change (cat d1 i = if i =? length (d_results d) then None else cat d i). rewrite S7. apply P6.
Qed.
Lemma oute_step d k e : d_expected d = [] -> vat d k = HasExpr e -> exists d', step_ok d (SOutE k) d' /\ put_out d d' [] [e].
Proof.
  intros E V. rewrite on_step_new by exact E. cbn zeta iota. pose proof (grown_put d E) as G. destruct (load_expr_ok (grown d) k e) as (d1 & -> & S1); [exact E|apply (put_vat d _ Empty None); congruence|].
  cbn [dbind fst snd]. eexists. split; [reflexivity|]. destruct S1 as (S1 & S2 & S3 & S4 & S5 & S6 & S7 & S8), G as (P1 & P2 & P3 & P4 & P5 & P6). red; sp; cbn; rewrite ?app_nil_r; [congruence..| |].
  - intros i. change (vat d1 i = if i =? length (d_results d) then Empty else vat d i). rewrite S6. apply P5.
  - intros i. change (cat d1 i = if i =? length (d_results d) then None else cat d i). rewrite S7. apply P6.
Qed.
End decoder.
