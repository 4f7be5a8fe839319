(** How often results are used, and what references point to. *)
From Verif Require Import Base Visit_Model Visit_Spec Serial_Model Serial_Spec Serial_Proofs Serial_Round Serial_Hints.

Section uses.
Context {X : Type}.
Variable provider : str -> option (vdec X).
Variable as_op : nat -> option nat.
Variable infer : nat -> list attr -> unit + attr.
Variable infer_on : bool.
Notation dst := (dst X).
Notation result := (result X).
Notation on_step := (on_step X provider as_op infer infer_on).
Notation on_steps := (on_steps X provider as_op infer infer_on).
Notation act := (act provider as_op infer infer_on).

Definition usage_at (d : dst) (k : nat) : nat := match rd (d_results d) k with Some r => r_usage r | None => 0 end.
Definition kind_of (s : slot) : option bool := match s with Empty => None | HasVal _ => Some true | HasExpr _ => Some false end.
Definition makes (s : step X) : option bool := if is_val s then Some true else if is_expr s then Some false else None.
Definition count (l : list nat) (k : nat) : nat := count_occ Nat.eq_dec l k.
Lemma count_app l m k : count (l ++ m) k = count l k + count m k.
Proof. apply count_occ_app. Qed.
Lemma count_one i k : count [i] k = if k =? i then 1 else 0.
Proof. unfold count. cbn. destruct (Nat.eq_dec i k), (Nat.eqb_spec k i); congruence. Qed.
(** [d'] after the references [ks]. *)
Definition refd (d d' : dst) (ks : list nat) : Prop :=
  length (d_results d') = length (d_results d) /\ d_expected d' = d_expected d /\ (forall k, usage_at d' k = usage_at d k + count ks k) /\ (forall k, vat d' k = vat d k).
Lemma refd_nil d : refd d d [].
Proof. split; [|split; [|split]]; auto. Qed.
Lemma refd_app a b c l m : refd a b l -> refd b c m -> refd a c (l ++ m).
Proof. intros (A1 & A2 & A3 & A4) (B1 & B2 & B3 & B4). split; [congruence|]. split; [congruence|]. split; [|congruence]. intros k. rewrite B3, A3, count_app. lia. Qed.
Lemma vat_rd (d : dst) k : vat d k = match rd (d_results d) k with Some r => r_slot r | None => Empty end.
Proof. reflexivity. Qed.
Lemma load_inv i d s d' : d_expected d = [] -> load X i d = DOk (s, d') -> refd d d' [i] /\ s = vat d i.
Proof.
  intros E. unfold load. destruct (rd (d_results d) i) as [r|] eqn:R; [|discriminate]. unfold set_result. destruct (upd (d_results d) i _) as [rs|] eqn:U; [|discriminate]. cbn [d_undef dbind]. rewrite check_plain by exact E. cbn [dbind]. intros [= <- <-].
  apply upd_spec in U. destruct U as (L & Le & U). split; [|rewrite vat_rd, R; reflexivity]. split; [exact Le|]. split; [reflexivity|]. split; intros k; [unfold usage_at|rewrite !vat_rd]; cbn [with_results d_results]; rewrite U, ?count_one; destruct (Nat.eqb_spec k i) as [->|]; rewrite ?R; cbn; lia || reflexivity.
Qed.
Lemma load_value_inv i d v d' : d_expected d = [] -> load_value X i d = DOk (v, d') -> refd d d' [i] /\ vat d i = HasVal v.
Proof. intros E. unfold load_value. destruct (load X i d) as [[s d1]| |] eqn:El; try discriminate. cbn [dbind fst snd]. destruct s; try discriminate. intros [= <- <-]. destruct (load_inv i d _ d1 E El) as [A B]. auto. Qed.
Lemma load_expr_inv i d v d' : d_expected d = [] -> load_expr X i d = DOk (v, d') -> refd d d' [i] /\ vat d i = HasExpr v.
Proof. intros E. unfold load_expr. destruct (load X i d) as [[s d1]| |] eqn:El; try discriminate. cbn [dbind fst snd]. destruct s; try discriminate. intros [= <- <-]. destruct (load_inv i d _ d1 E El) as [A B]. auto. Qed.
Lemma loads_inv {T} (f : nat -> dst -> dres (T * dst)) (w : T -> slot) (H : forall i d v d', d_expected d = [] -> f i d = DOk (v, d') -> refd d d' [i] /\ vat d i = w v) is :
  forall d l d', d_expected d = [] -> loads X f is d = DOk (l, d') -> refd d d' is /\ forall k, In k is -> exists v, vat d k = w v.
Proof.
  induction is as [|i is IH]; intros d l d' E; cbn [loads]; [intros [= <- <-]; split; [apply refd_nil|intros k []]|]. destruct (f i d) as [[v d1]| |] eqn:Ef; try discriminate. cbn [dbind fst snd]. destruct (H i d v d1 E Ef) as [A B].
  destruct (loads X f is d1) as [[m d2]| |] eqn:El; try discriminate. cbn [dbind fst snd]. intros [= <- <-]. destruct (IH d1 m d2) as [C D]; [destruct A as (_ & -> & _); exact E|exact El|]. split; [exact (refd_app _ _ _ [i] is A C)|].
  intros k [->|I]; [eauto|]. destruct (D k I) as [u Hu]. exists u. destruct A as (_ & _ & _ & A). rewrite <- A. exact Hu.
Qed.
(** [d'] after step [s] at index [i]. *)
Definition stepped (i : nat) (s : step X) (d d' : dst) : Prop :=
  length (d_results d') = length (d_results d) /\ (forall k, usage_at d' k = usage_at d k + count (val_refs s ++ expr_refs s) k) /\
  (forall k, kind_of (vat d' k) = match makes s with Some b => if k =? i then Some b else kind_of (vat d k) | None => kind_of (vat d k) end) /\
  (forall k, In k (val_refs s) -> exists v, vat d k = HasVal v) /\ (forall k, In k (expr_refs s) -> exists v, vat d k = HasExpr v) /\ (makes s <> None -> vat d i = Empty /\ usage_at d' i = 0).
Lemma store_inv i s d d' : d_expected d = [] -> store X i s d = DOk d' ->
  length (d_results d') = length (d_results d) /\ (forall k, usage_at d' k = usage_at d k) /\ (forall k, vat d' k = if k =? i then s else vat d k) /\ vat d i = Empty /\ usage_at d i = 0.
Proof.
  intros E. unfold store. destruct (rd (d_results d) i) as [r|] eqn:R; [|discriminate]. cbn [d_undef dbind]. destruct (negb (is_empty (r_slot r)) || (0 <? r_usage r)) eqn:B; [discriminate|]. apply orb_false_iff in B. destruct B as [B1 B2]. apply Nat.ltb_ge in B2.
  unfold set_result. destruct (upd (d_results d) i _) as [rs|] eqn:U; [|discriminate]. cbn [d_undef dbind]. rewrite check_plain by exact E. intros [= <-]. apply upd_spec in U. destruct U as (L & Le & U). split; [exact Le|].
  split; [intros k; unfold usage_at; cbn [with_results d_results]; rewrite U; destruct (Nat.eqb_spec k i) as [->|]; rewrite ?R; reflexivity|]. split; [intros k; rewrite !vat_rd; cbn [with_results d_results]; rewrite U; destruct (k =? i); reflexivity|].
  split; [rewrite vat_rd, R; destruct (r_slot r); [reflexivity|discriminate..]|unfold usage_at; rewrite R; lia].
Qed.
Lemma store_stepped i st s d d1 d' : d_expected d = [] -> refd d d1 (val_refs st ++ expr_refs st) -> store X i s d1 = DOk d' -> makes st = kind_of s -> s <> Empty ->
  (forall k, In k (val_refs st) -> exists v, vat d k = HasVal v) -> (forall k, In k (expr_refs st) -> exists v, vat d k = HasExpr v) -> stepped i st d d'.
Proof.
  intros E (A1 & A2 & A3 & A4) S M N V W. rewrite E in A2. destruct (store_inv i s d1 d' A2 S) as (B1 & B2 & B3 & B4 & B5). split; [congruence|]. split; [intros k; rewrite B2; apply A3|]. split; [|split; [exact V|split; [exact W|]]].
  - intros k. rewrite B3, M, A4. destruct s; [congruence|..]; destruct (k =? i); reflexivity.
  - intros _. rewrite <- A4, B2. auto.
Qed.
Lemma act_inv i s d d' : d_expected d = [] -> act i s d = DOk d' -> stepped i s d d'.
Proof.
  intros E. destruct s as [[k|]|[k|]|[k|]|o is|p|m|k|k|]; cbn [Serial_Hints.act]; try discriminate.
  - destruct (load_value X k d) as [[v d1]| |] eqn:El; try discriminate. cbn [dbind fst snd]. intros S. destruct (load_value_inv k d v d1 E El) as [A B]. apply (store_stepped i (SLit (Some k)) _ d d1 d' E A S eq_refl); [discriminate| |intros j []]. intros j [<-|[]]. eauto.
  - intros S. apply (store_stepped i (SLeaf (Some k)) _ d d d' E (refd_nil d) S eq_refl); [discriminate|intros j []..].
  - intros S. apply (store_stepped i (SPlh (Some k)) _ d d d' E (refd_nil d) S eq_refl); [discriminate|intros j []..].
  - destruct (decode_op X as_op infer infer_on o is d) as [[n d1]| |] eqn:Eo; try discriminate. cbn [dbind fst snd]. intros S. destruct o as [k|]; [|discriminate]. cbn [decode_op] in Eo. destruct (load_value X k d) as [[v d0]| |] eqn:El; try discriminate. cbn [dbind fst snd] in Eo.
    destruct (load_value_inv k d v d0 E El) as [A B]. destruct (as_op v) as [op|]; [|discriminate]. destruct (loads X (load_expr X) is d0) as [[l d2]| |] eqn:Es; try discriminate. cbn [dbind fst snd] in Eo. destruct (make_node infer infer_on op l) as [nd|]; [|discriminate]. injection Eo as <- <-.
    destruct (loads_inv (load_expr X) HasExpr load_expr_inv is d0 l d2) as [C D]; [destruct A as (_ & -> & _); exact E|exact Es|].
    apply (store_stepped i (SOp (Some k) is) _ d d2 d' E (refd_app _ _ _ [k] is A C) S eq_refl); [discriminate|intros j [<-|[]]; eauto|]. intros j I. destruct (D j I) as [u Hu]. exists u. destruct A as (_ & _ & _ & A). rewrite <- A. exact Hu.
  - destruct (decode_value X p d) as [[v d1]| |] eqn:Ev; try discriminate. cbn [dbind fst snd]. intros S. unfold decode_value in Ev. destruct (loads X (load_value X) (p_vals p) d) as [[vs d2]| |] eqn:E2; try discriminate. cbn [dbind fst snd] in Ev.
    destruct (loads_inv (load_value X) HasVal load_value_inv (p_vals p) d vs d2 E E2) as [A B]. destruct (loads X (load_expr X) (p_exprs p) d2) as [[es d3]| |] eqn:E3; try discriminate. cbn [dbind fst snd] in Ev.
    destruct (loads_inv (load_expr X) HasExpr load_expr_inv (p_exprs p) d2 es d3) as [C D]; [destruct A as (_ & -> & _); exact E|exact E3|]. match type of Ev with dbind ?e _ = _ => destruct e as [w| |]; try discriminate end. cbn [dbind] in Ev. injection Ev as -> <-.
    apply (store_stepped i (SVal p) _ d d3 d' E (refd_app _ _ _ _ _ A C) S eq_refl); [discriminate|exact B|]. intros j I. destruct (D j I) as [u Hu]. exists u. destruct A as (_ & _ & _ & A). rewrite <- A. exact Hu.
  - destruct (provider m) as [c|]; [|discriminate]. unfold store_codec. destruct (rd (d_results d) i) as [r|] eqn:R; [|discriminate]. cbn [d_undef dbind]. destruct (r_codec r); [discriminate|]. unfold set_result. destruct (upd (d_results d) i _) as [rs|] eqn:U; [|discriminate]. cbn [d_undef dbind].
    intros [= <-]. apply upd_spec in U. destruct U as (L & Le & U). split; [exact Le|]. split; [intros k; unfold usage_at; cbn [with_results d_results]; rewrite U; cbn; destruct (Nat.eqb_spec k i) as [->|]; rewrite ?R; cbn; lia|].
    split; [|split; [intros k []|split; [intros k []|intros []; reflexivity]]]. intros k. rewrite !vat_rd. cbn [with_results d_results makes is_val is_expr]. rewrite U. destruct (Nat.eqb_spec k i) as [->|]; rewrite ?R; reflexivity.
  - destruct (load_value X k d) as [[v d1]| |] eqn:El; try discriminate. cbn [dbind fst snd]. intros [= <-]. destruct (load_value_inv k d v d1 E El) as [(A1 & A2 & A3 & A4) B]. split; [exact A1|]. split; [exact A3|]. split; [intros j; cbn [makes is_val is_expr]; rewrite <- A4; reflexivity|].
    split; [intros j [<-|[]]; eauto|]. split; [intros j []|intros []; reflexivity].
  - destruct (load_expr X k d) as [[v d1]| |] eqn:El; try discriminate. cbn [dbind fst snd]. intros [= <-]. destruct (load_expr_inv k d v d1 E El) as [(A1 & A2 & A3 & A4) B]. split; [exact A1|]. split; [exact A3|]. split; [intros j; cbn [makes is_val is_expr]; rewrite <- A4; reflexivity|].
    split; [intros j []|]. split; [intros j [<-|[]]; eauto|intros []; reflexivity].
  - intros [= <-]. split; [reflexivity|]. split; [intros k; cbn; lia|]. split; [reflexivity|]. split; [intros k []|]. split; [intros k []|intros []; reflexivity].
Qed.
Lemma extend_same i (d : dst) : (forall k, vat (extend i d) k = vat d k) /\ (forall k, usage_at (extend i d) k = usage_at d k).
Proof.
  unfold extend. destruct (i =? length (d_results d)); [|auto]. split; intros k; [rewrite !vat_rd|unfold usage_at]; unfold rd; cbn [with_results d_results]; (destruct (Nat.lt_ge_cases k (length (d_results d))); [rewrite nth_error_app1 by assumption; reflexivity|]);
  rewrite nth_error_app2 by assumption; rewrite (proj2 (nth_error_None _ _) H); destruct (k - length (d_results d)) as [|j]; [reflexivity|destruct j; reflexivity|reflexivity|destruct j; reflexivity].
Qed.
Lemma step_inv i s d d' : d_expected d = [] -> on_step i (plain s) d = DOk d' ->
  i <= length (d_results d) /\ length (d_results d') = Nat.max (S i) (length (d_results d)) /\ d_expected d' = [] /\
  (forall k, usage_at d' k = usage_at d k + count (val_refs s ++ expr_refs s) k) /\
  (forall k, kind_of (vat d' k) = match makes s with Some b => if k =? i then Some b else kind_of (vat d k) | None => kind_of (vat d k) end) /\
  (forall k, In k (val_refs s) -> exists v, vat d k = HasVal v) /\ (forall k, In k (expr_refs s) -> exists v, vat d k = HasExpr v) /\ (makes s <> None -> vat d i = Empty /\ usage_at d' i = 0).
Proof.
  intros E O. pose proof (plain_step provider as_op infer infer_on [] i s d E) as P. rewrite O in P. destruct P as [P _]. rewrite on_step_eq in O. cbn [plain s_hints s_type hints dbind] in O. destruct (Nat.ltb_spec (length (d_results d)) i) as [|L]; [discriminate|].
  destruct (act_inv i s (extend i d) d') as (A1 & A2 & A3 & A4 & A5 & A6); [rewrite extend_expected; exact E|exact O|]. destruct (extend_same i d) as [V U]. split; [exact L|]. split.
  { rewrite A1. unfold extend. destruct (Nat.eqb_spec i (length (d_results d))); [cbn [with_results d_results]; rewrite app_length; cbn [length]|]; lia. }
  split; [exact P|]. split; [intros k; rewrite A2, U; reflexivity|]. split; [intros k; rewrite A3, V; reflexivity|]. split; [intros k; rewrite <- V; apply A4|]. split; [intros k; rewrite <- V; apply A5|]. rewrite <- V. exact A6.
Qed.
Lemma makes_stores s : (is_val s || is_expr s) = true <-> makes s <> None.
Proof. unfold makes. destruct (is_val s), (is_expr s); cbn; split; congruence. Qed.
Lemma steps_uses L : forall d d', d_expected d = [] -> on_steps (strip L) d = DOk d' ->
  (forall k, usage_at d' k = usage_at d k + uses L k) /\ (forall k, kind_of (vat d' k) <> None <-> kind_of (vat d k) <> None \/ stored L k).
Proof.
  induction L as [|[i s] L IH]; intros d d' E; cbn [strip map Serial_Model.on_steps]; cbn [fst snd].
  - intros [= <-]. split; [intros k; cbn; lia|]. intros k. split; [auto|]. intros [H|(s & [] & _)]. exact H.
  - destruct (on_step i (plain (s_type s)) d) as [d1| |] eqn:E1; try discriminate. cbn [dbind]. fold (strip L). intros E2. destruct (step_inv i (s_type s) d d1 E E1) as (_ & _ & A & B & C & _ & _ & _). destruct (IH d1 d' A E2) as [P Q]. split.
    + intros k. rewrite P, B. unfold uses. cbn [flat_map snd]. fold (count (flat_map (fun x => val_refs (s_type (snd x)) ++ expr_refs (s_type (snd x))) L) k). rewrite (count_occ_app Nat.eq_dec (val_refs (s_type s) ++ expr_refs (s_type s))). unfold count. lia.
    + intros k. rewrite Q, C. assert (Sc : stored ((i, s) :: L) k <-> (k = i /\ makes (s_type s) <> None) \/ stored L k).
      { split; [intros (t & [I|I] & H); [injection I as <- <-; left; split; [reflexivity|apply makes_stores, H]|right; exists t; auto]|]. intros [[-> H]|(t & I & H)]; [exists s; split; [left; reflexivity|apply makes_stores, H]|exists t; split; [right; exact I|exact H]]. }
      rewrite Sc. destruct (makes (s_type s)) as [b|]; [destruct (Nat.eqb_spec k i)|]; intuition congruence.
Qed.
Lemma fits_at cs (d : dst) : fits cs d = true <-> forall k x, nth_error cs k = Some x -> usage_at d k <= x /\ (kind_of (vat d k) <> None -> 1 <= x).
Proof.
  unfold fits. rewrite fitb_rd. split.
  - intros H k x Hx. specialize (H k x). unfold usage_at. rewrite vat_rd. destruct (rd (d_results d) k) as [r|]; [|split; [lia|intros Q; exfalso; apply Q; reflexivity]]. specialize (H r Hx eq_refl). unfold fit1 in H. apply andb_true_iff in H. destruct H as [A B]. apply Nat.leb_le in A. split; [exact A|].
    intros Q. destruct (r_slot r); [exfalso; apply Q; reflexivity|cbn [is_empty orb] in B; apply Nat.leb_le in B; exact B..].
  - intros H k x r Hx Hr. destruct (H k x Hx) as [A B]. unfold usage_at in A. rewrite vat_rd in B. rewrite Hr in A, B. unfold fit1. apply andb_true_iff. split; [apply Nat.leb_le, A|]. destruct (r_slot r); [reflexivity|cbn [is_empty orb]; apply Nat.leb_le, B; discriminate..].
Qed.
Lemma covers_fits cs L d : on_steps (strip L) (dst0 X) = DOk d -> (fits cs d = true <-> covers cs L).
Proof.
  intros E. destruct (steps_uses L (dst0 X) d eq_refl E) as [P Q]. rewrite fits_at. assert (U0 : forall k, usage_at (dst0 X) k = 0) by (intros [|k]; reflexivity). assert (V0 : forall k, kind_of (vat (dst0 X) k) = None) by (intros [|k]; reflexivity).
  unfold covers. split; intros H k x Hx; destruct (H k x Hx) as [A B]; [specialize (P k); specialize (Q k); rewrite U0 in P; rewrite V0 in Q|rewrite P, U0, Q, V0]; (split; [lia|]); tauto.
Qed.
(** What references of successfully decoded steps point to. *)
Lemma numbered_refs l : forall d, on_steps (numbered (map (fun s => plain (s_type s)) l)) (dst0 X) = DOk d ->
  length (d_results d) = length l /\ d_expected d = [] /\ (forall k, kind_of (vat d k) = match nth_error l k with Some s => makes (s_type s) | None => None end) /\
  forall i s, nth_error l i = Some s -> (forall k, In k (val_refs (s_type s)) -> k < i /\ exists t, nth_error l k = Some t /\ is_val (s_type t) = true) /\ (forall k, In k (expr_refs (s_type s)) -> k < i /\ exists t, nth_error l k = Some t /\ is_expr (s_type t) = true).
Proof.
  induction l as [|s l IH] using rev_ind; intros d.
  - intros [= <-]. split; [reflexivity|]. split; [reflexivity|]. split; [intros [|k]; reflexivity|]. intros [|i] s H; discriminate.
  - rewrite map_app. cbn [map]. rewrite numbered_snoc, on_steps_app. destruct (on_steps (numbered (map (fun s => plain (s_type s)) l)) (dst0 X)) as [d0| |] eqn:E0; try discriminate. cbn [dbind Serial_Model.on_steps]. rewrite map_length.
    destruct (IH d0 eq_refl) as (A & B & C & D). destruct (on_step (length l) (plain (s_type s)) d0) as [d1| |] eqn:E1; try discriminate. cbn [dbind]. intros [= <-]. destruct (step_inv (length l) (s_type s) d0 d1 B E1) as (_ & L & E & _ & K & V & W & M).
    assert (N : forall k, nth_error (l ++ [s]) k = if k =? length l then Some s else nth_error l k).
    { intros k. destruct (Nat.eqb_spec k (length l)) as [->|Nk]; [rewrite nth_error_app2, Nat.sub_diag by lia; reflexivity|]. destruct (Nat.lt_ge_cases k (length l)); [apply nth_error_app1; assumption|]. rewrite (proj2 (nth_error_None l k)) by lia. apply nth_error_None. rewrite app_length. cbn. lia. }
    assert (Val : forall k v, vat d0 k = HasVal v -> k < length l /\ exists t, nth_error (l ++ [s]) k = Some t /\ is_val (s_type t) = true).
    { intros k v H. specialize (C k). rewrite H in C. destruct (nth_error l k) as [t|] eqn:Et; [|discriminate]. assert (Lk : k < length l) by (apply nth_error_Some; congruence). split; [exact Lk|]. exists t. rewrite N. destruct (Nat.eqb_spec k (length l)); [lia|]. split; [exact Et|]. cbn in C. unfold makes in C. destruct (is_val (s_type t)), (is_expr (s_type t)); congruence. }
    assert (Ex : forall k v, vat d0 k = HasExpr v -> k < length l /\ exists t, nth_error (l ++ [s]) k = Some t /\ is_expr (s_type t) = true).
    { intros k v H. specialize (C k). rewrite H in C. destruct (nth_error l k) as [t|] eqn:Et; [|discriminate]. assert (Lk : k < length l) by (apply nth_error_Some; congruence). split; [exact Lk|]. exists t. rewrite N. destruct (Nat.eqb_spec k (length l)); [lia|]. split; [exact Et|]. cbn in C. unfold makes in C. destruct (is_val (s_type t)), (is_expr (s_type t)); congruence. }
    split; [rewrite L, A, app_length; cbn [length]; lia|]. split; [exact E|]. split.
    + intros k. rewrite K, C, N. destruct (Nat.eqb_spec k (length l)) as [->|]; [|destruct (makes (s_type s)); reflexivity]. destruct (makes (s_type s)) as [b|]; [reflexivity|]. rewrite (proj2 (nth_error_None l (length l))) by lia. reflexivity.
    + intros i t. rewrite N. destruct (Nat.eqb_spec i (length l)) as [->|].
      * intros [= <-]. split; intros k I; [destruct (V k I) as [v H]; exact (Val k v H)|destruct (W k I) as [v H]; exact (Ex k v H)].
      * intros H. destruct (D i t H) as [P Q]. assert (Li : i < length l) by (apply nth_error_Some; congruence). split; intros k I; [destruct (P k I) as (Lk & u & Hu & Ku)|destruct (Q k I) as (Lk & u & Hu & Ku)]; (split; [exact Lk|]; exists u; rewrite N; destruct (Nat.eqb_spec k (length l)); [lia|auto]).
Qed.
End uses.
