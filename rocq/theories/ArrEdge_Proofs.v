(** Proofs about [ArrEdge_Model]. *)
From Verif Require Import Base Bits_Model Bitmap_Model Dense_Model Dense_Spec Dense_Proofs
  IdFilter_Model IdFilter_Spec IdFilter_Proofs Array_Model Array_Spec Array_Proofs ArrayIter_Proofs
  Edge_Model Edge_Spec Edge_Proofs ArrEdge_Model ArrEdge_Spec.

(** The data of an array in dense form, or of an empty one. *)
Lemma dense_data {A} (a : arr A) l : ar_rep a l -> ar_ids a = FFull \/ length l = 0 -> represents (ar_data a) l.
Proof.
  intros R H. apply ar_char in R as (W & S & F & D & M). destruct H as [H|H].
  - rewrite H in D. cbn [fids] in D. rewrite at_ids_seq in D. exact D.
  - destruct l; [|discriminate]. cbn [length] in *. destruct (fids 0 (ar_ids a)) as [|i t] eqn:E; [exact D|].
    destruct (fids_asc _ _ W) as [_ B]. rewrite E in B. inversion B. lia.
Qed.
Lemma ae_from_dense_rep e p m : edge_rep e p m -> aedge_rep (ae_from_dense e) p m.
Proof.
  intros (H1 & H2 & H3 & H4). unfold aedge_rep, ae_from_dense. cbn [ae_split ae_parent ae_child ae_vals].
  split; [exact H1|]. split; [exact H2|]. split; [exact H3|]. destruct (e_split e).
  - split; [reflexivity|]. destruct H4 as (s & S1 & S2 & S3 & S4 & S5). exists s.
    split; [exact S1|]. split; [exact S2|]. split; [exact S3|]. split; [apply ar_dense_rep; exact S4|exact S5].
  - apply ar_dense_rep. exact H4.
Qed.

Section P.
Variables (alloc : nat -> list Z) (allocw : nat -> list N).
Hypothesis HA : alloc_sz alloc.
Hypothesis HW : allocw_ok allocw.

Lemma to_dense_rep (a : arr Z) l : ar_rep a l ->
  exists r, to_dense_form alloc allocw a = Some r /\ ar_rep r l /\ represents (ar_data r) l /\
    (0 < length l -> ar_ids r = FFull).
Proof.
  intros R. destruct (to_dense_ok alloc allocw HA HW a l R) as (r & E & Rr & Ei). exists r.
  split; [exact E|]. split; [exact Rr|]. split.
  - apply dense_data; [exact Rr|]. destruct (Nat.eqb_spec (length l) 0) as [Z|Z]; [right; exact Z|left; exact Ei].
  - intros L. destruct (Nat.eqb_spec (length l) 0) as [Z|Z]; [lia|exact Ei].
Qed.

Lemma ae_to_dense_ok e p m : aedge_rep e p m ->
  exists d, ae_to_dense alloc allocw e = Some d /\ edge_rep d p m /\ e_split d = ae_split e.
Proof.
  intros (H1 & H2 & H3 & H4). unfold ae_to_dense, edge_rep. destruct (ae_split e) eqn:Es.
  - destruct H4 as (Hi & s & S1 & S2 & S3 & S4 & S5). destruct (to_dense_rep _ _ S4) as (r & E & Rr & Rd & _).
    rewrite E. cbn [bind]. eexists. split; [reflexivity|]. cbn [e_split e_parent e_child e_vals]. split; [|reflexivity].
    split; [exact H1|]. split; [exact H2|]. split; [exact H3|]. exists s. auto.
  - destruct (to_dense_rep _ _ H4) as (r & E & Rr & Rd & _). rewrite E. cbn [bind]. eexists. split; [reflexivity|].
    cbn [e_split e_parent e_child e_vals]. split; [|reflexivity]. auto.
Qed.

Lemma ae_from_split_points_ok a l : ar_rep a l ->
  (forall s, splits s -> l = map (fun x => Some (Z.of_nat x)) s ->
     exists e, ae_from_split_points alloc allocw a = Some (inr e) /\ ae_split e = true /\
       aedge_rep e (length s - 1) (split_mapping s)) /\
  ((forall s, splits s -> l <> map (fun x => Some (Z.of_nat x)) s) ->
     exists err, ae_from_split_points alloc allocw a = Some (inl err)).
Proof.
  intros R. destruct (to_dense_rep a l R) as (r & E & Rr & Rd & Ei).
  assert (Sz : ar_size r = length l) by (apply ar_char in Rr; apply Rr).
  assert (Sd : da_size (ar_data r) = length l) by apply Rd.
  destruct (from_split_points_ok (ar_data r) l Rd) as [Y N].
  assert (Key : forall x, from_split_points (ar_data r) = Some x ->
    match x with
    | inl _ => exists err, ae_from_split_points alloc allocw a = Some (inl err)
    | inr e => e_vals e = ar_data r /\ ae_from_split_points alloc allocw a = Some (inr (mkAE (e_split e) (e_parent e) (e_child e) r))
    end).
  { intros x. unfold from_split_points, ae_from_split_points. rewrite E. cbn [bind]. rewrite Sz, Sd, Nat.eqb_refl. cbn [negb].
    destruct (da_is_full (ar_data r)) as [full|]; cbn [bind]; [|discriminate]. destruct full; cbn [negb].
    - destruct (length l =? 0) eqn:L0; [intros H; injection H as <-; eauto|].
      destruct (rd (vals (ar_data r)) 0) as [x0|]; cbn [bind]; [|discriminate].
      destruct (negb (x0 =? 0)%Z); [intros H; injection H as <-; eauto|].
      destruct (back (vals (ar_data r))) as [c|]; cbn [bind]; [|discriminate].
      destruct (negb (is_sorted (vals (ar_data r)))); [intros H; injection H as <-; eauto|].
      intros H; injection H as <-. split; reflexivity.
    - intros H; injection H as <-. destruct (length l =? 0); eauto. }
  split.
  - intros s Hs Hl. destruct (Y s Hs Hl) as (e & Ee & Es & Hr). destruct (Key _ Ee) as [Hv Ea].
    eexists. split; [exact Ea|]. cbn [ae_split]. split; [exact Es|].
    destruct Hr as (H1 & H2 & H3 & H4). unfold aedge_rep. cbn [ae_split ae_parent ae_child ae_vals].
    split; [exact H1|]. split; [exact H2|]. split; [exact H3|]. rewrite Es in *. split.
    + apply Ei. rewrite Hl, map_length. destruct Hs as (Hne & _). destruct s; [congruence|cbn; lia].
    + destruct H4 as (s' & S1 & S2 & S3 & S4 & S5). exists s'. split; [exact S1|]. split; [exact S2|]. split; [exact S3|]. split; [|exact S5].
      rewrite Hv in S4. rewrite <- (represents_unique _ _ _ Rd S4). exact Rr.
  - intros Hs. destruct (N Hs) as (err & Ee). apply (Key _ Ee).
Qed.

Lemma ae_to_mapping_ok e p m : aedge_rep e p m ->
  exists e', ae_to_mapping alloc allocw e = Some e' /\ ae_split e' = false /\ aedge_rep e' p m.
Proof.
  intros R. unfold ae_to_mapping. destruct (ae_split e) eqn:Es; [|exists e; auto].
  destruct (ae_to_dense_ok e p m R) as (d & E & Rd & _). rewrite E. cbn [bind].
  destruct (to_mapping_ok alloc d p m HA Rd) as (e' & E' & S' & R'). rewrite E'. cbn [bind].
  eexists. split; [reflexivity|]. split; [exact S'|apply ae_from_dense_rep; exact R'].
Qed.
Lemma aedge_full_sorted e p m : aedge_rep e p m -> ae_split e = true -> full_sorted m.
Proof.
  intros R Es. destruct (ae_to_dense_ok e p m R) as (d & E & Rd & Sd). rewrite Es in Sd.
  destruct (to_split_ok alloc d p m HA Rd) as [_ N].
  destruct Rd as (H1 & H2 & H3 & H4). rewrite Sd in H4. destruct H4 as (s & S1 & S2 & S3 & S4 & S5).
  apply (split_full_sorted s p m). split; [exact S1|]. split; [exact S2|]. split; [exact S3|exact S5].
Qed.
Lemma ae_to_split_ok e p m : aedge_rep e p m ->
  (full_sorted m -> exists e', ae_to_split_points alloc allocw e = Some (inr e') /\ ae_split e' = true /\ aedge_rep e' p m) /\
  (~ full_sorted m -> exists err, ae_to_split_points alloc allocw e = Some (inl err)).
Proof.
  intros R. unfold ae_to_split_points. destruct (ae_split e) eqn:Es.
  - split; [intros _; exists e; auto|]. intros N. exfalso. apply N. exact (aedge_full_sorted e p m R Es).
  - destruct (ae_to_dense_ok e p m R) as (d & E & Rd & _). rewrite E. cbn [bind].
    destruct (to_split_ok alloc d p m HA Rd) as [Y N]. split; intros H.
    + destruct (Y H) as (e' & E' & S' & R'). rewrite E'. cbn [bind]. eexists. split; [reflexivity|].
      split; [exact S'|apply ae_from_dense_rep; exact R'].
    + destruct (N H) as (err & E'). rewrite E'. cbn [bind]. eauto.
Qed.

Lemma ae_to_dense_all_ok es p m : achain_rep es p m ->
  exists ds, ae_to_dense_all alloc allocw es = Some ds /\ chain_rep ds p m /\ forallb e_split ds = forallb ae_split es.
Proof.
  induction 1 as [e p m R|e p m1 es m2 R _ IH]; cbn [ae_to_dense_all].
  - destruct (ae_to_dense_ok e p m R) as (d & E & Rd & Sd). rewrite E. cbn [bind]. eexists. split; [reflexivity|].
    split; [constructor; exact Rd|]. cbn [forallb]. rewrite Sd. reflexivity.
  - destruct (ae_to_dense_ok e p m1 R) as (d & E & Rd & Sd). rewrite E. cbn [bind].
    destruct IH as (ds & Es & Cs & Fs). rewrite Es. cbn [bind]. eexists. split; [reflexivity|].
    split; [constructor; assumption|]. cbn [forallb]. rewrite Sd, Fs. reflexivity.
Qed.
Lemma ae_compose_ok es p m : achain_rep es p m ->
  exists r, ae_compose alloc allocw es = Some (inr r) /\ aedge_rep r p m /\ ae_split r = forallb ae_split es.
Proof.
  intros C. destruct (ae_to_dense_all_ok es p m C) as (ds & Es & Cs & Fs). unfold ae_compose. rewrite Es. cbn [bind].
  destruct (compose_edges_ok alloc ds p m HA Cs) as (r & E & Rr & Sr). rewrite E. cbn [bind]. eexists. split; [reflexivity|].
  split; [apply ae_from_dense_rep; exact Rr|]. cbn [ae_from_dense ae_split]. rewrite Sr. exact Fs.
Qed.
Lemma ae_incompatible_ok pre e1 e2 post : Forall (fun e => exists p m, aedge_rep e p m) (pre ++ e1 :: e2 :: post) ->
  ae_child e1 <> ae_parent e2 -> ae_compose alloc allocw (pre ++ e1 :: e2 :: post) = Some (inl Incompatible).
Proof.
  intros F N. unfold ae_compose.
  assert (G : forall es, Forall (fun e => exists p m, aedge_rep e p m) es ->
    exists ds, ae_to_dense_all alloc allocw es = Some ds /\ map (fun d => (e_parent d, e_child d)) ds = map (fun e => (ae_parent e, ae_child e)) es).
  { clear F N. induction es as [|e es IH]; intros F; cbn [ae_to_dense_all]; [exists []; auto|].
    inversion F as [|? ? (p & m & R) F']; subst. destruct (ae_to_dense_ok e p m R) as (d & E & Rd & _). rewrite E. cbn [bind].
    destruct (IH F') as (ds & Es & M). rewrite Es. cbn [bind]. eexists. split; [reflexivity|]. cbn [map]. rewrite M. f_equal.
    unfold ae_to_dense in E. destruct (to_dense_form alloc allocw (ae_vals e)); [|discriminate]. injection E as <-. reflexivity. }
  destruct (G _ F) as (ds & Es & M). rewrite Es. cbn [bind]. rewrite map_app in M. cbn [map] in M.
  apply map_eq_app in M as (d1 & d2 & -> & _ & M). apply map_eq_cons in M as (a & d3 & -> & Ma & M).
  apply map_eq_cons in M as (b & d4 & -> & Mb & _). injection Ma as Ma1 Ma2. injection Mb as Mb1 Mb2.
  rewrite compose_edges_incompatible by congruence. reflexivity.
Qed.

(** Same split points, same relation. *)
Lemma split_vals_inj e e' p p' m m' : aedge_rep e p m -> aedge_rep e' p' m' -> ae_split e = true -> ae_split e' = true ->
  p = p' -> length m = length m' -> forall l l', ar_rep (ae_vals e) l -> ar_rep (ae_vals e') l' -> l = l' <-> m = m'.
Proof.
  intros R R' E E' Hp Hm l l' Rl Rl'.
  destruct (ae_to_dense_ok e p m R) as (d & Ed & Rd & Sd). destruct (ae_to_dense_ok e' p' m' R') as (d' & Ed' & Rd' & Sd').
  destruct (is_equivalent_ok alloc d d' p p' m m' HA Rd Rd') as (r & Er & Hr).
  assert (Hl : forall e p m d l, aedge_rep e p m -> ae_split e = true -> ae_to_dense alloc allocw e = Some d -> ar_rep (ae_vals e) l -> represents (e_vals d) l).
  { clear -HA HW. intros e p m d l R Es Ed Rl. unfold ae_to_dense in Ed. destruct (to_dense_rep _ _ Rl) as (a & Ea & _ & Ra & _).
    rewrite Ea in Ed. cbn [bind] in Ed. injection Ed as <-. exact Ra. }
  assert (L1 := Hl _ _ _ _ _ R E Ed Rl). assert (L2 := Hl _ _ _ _ _ R' E' Ed' Rl').
  unfold is_equivalent in Er. rewrite Sd, Sd', E, E' in Er. cbn [Bool.eqb] in Er.
  destruct Rd as (P1 & C1 & _). destruct Rd' as (P2 & C2 & _). rewrite P1, P2, C1, C2, Hp, Hm, !Z.eqb_refl in Er. cbn [negb orb] in Er.
  destruct (rep_equivalent Z.eqb _ _ _ _ (fun x y => Z.eqb_eq x y) L1 L2) as (r' & Er' & Hr').
  rewrite Er' in Er. injection Er as ->. rewrite <- Hr'. rewrite Hr. tauto.
Qed.
Lemma map_zopt_inj m m' : map zopt m = map zopt m' <-> m = m'.
Proof.
  split; [|intros ->; reflexivity]. revert m'. induction m as [|x m IH]; intros [|y m'] H; try discriminate; [reflexivity|].
  cbn [map] in H. injection H as H1 H2. f_equal; [|apply IH, H2]. destruct x, y; cbn in H1; try congruence; try discriminate.
  injection H1 as H1. f_equal. lia.
Qed.
Lemma ae_vals_len e p m : aedge_rep e p m -> ae_split e = true -> exists l, ar_rep (ae_vals e) l /\ length l = S p.
Proof.
  intros (_ & _ & _ & H) E. rewrite E in H. destruct H as (_ & s & S1 & S2 & S3 & S4 & S5).
  eexists. split; [exact S4|]. rewrite map_length. exact S2.
Qed.
Lemma ae_equivalent_ok addr e e' p p' m m' : aedge_rep e p m -> aedge_rep e' p' m' ->
  exists r, ae_equivalent alloc allocw addr e e' = Some r /\
    (length m <> 0 \/ ae_split e = true \/ ae_split e' = true -> (r = true <-> p = p' /\ m = m')) /\
    (length m = 0 -> length m' = 0 -> ae_split e = false -> ae_split e' = false -> p = p' ->
      (r = true <-> (is_dense_form (ae_vals e) = true /\ is_dense_form (ae_vals e') = true) \/ ar_miss (ae_vals e) = ar_miss (ae_vals e'))).
Proof.
  intros R R'. unfold ae_equivalent. pose proof R as (P1 & C1 & B1 & V1). pose proof R' as (P2 & C2 & B2 & V2).
  rewrite P1, P2, C1, C2.
  destruct (Z.eqb_spec (Z.of_nat p) (Z.of_nat p')) as [Ep|Ep]; cbn [negb orb].
  2:{ exists false. split; [reflexivity|]. split; [|intros; lia]. intros _. split; [discriminate|]. intros [H _]. lia. }
  destruct (Z.eqb_spec (Z.of_nat (length m)) (Z.of_nat (length m'))) as [Em|Em]; cbn [negb].
  2:{ exists false. split; [reflexivity|]. split; [|intros; lia]. intros _. split; [discriminate|]. intros [_ H]. subst. lia. }
  apply Nat2Z.inj in Ep. apply Nat2Z.inj in Em.
  assert (Split : forall a b, aedge_rep a p m -> aedge_rep b p' m' -> ae_split a = true -> ae_split b = true ->
    exists r, ar_equivalent Z.eqb alloc allocw addr (ae_vals a) (ae_vals b) = Some r /\ (r = true <-> m = m')).
  { intros a b Ra Rb Sa Sb. destruct (ae_vals_len a p m Ra Sa) as (l & Rl & Ll). destruct (ae_vals_len b p' m' Rb Sb) as (l' & Rl' & Ll').
    destruct (equivalent_ok alloc allocw HA HW Z.eqb addr _ _ l l' (fun x y => Z.eqb_eq x y) Rl Rl') as (r & Er & H & _).
    exists r. split; [exact Er|]. rewrite (H ltac:(left; rewrite Ll; apply Nat.lt_0_succ)).
    apply (split_vals_inj a b p p' m m' Ra Rb Sa Sb Ep Em l l' Rl Rl'). }
  destruct (ae_split e) eqn:Se, (ae_split e') eqn:Se'; cbn [Bool.eqb].
  - destruct (Split e e' R R' Se Se') as (r & Er & Hr). exists r. split; [exact Er|]. split; [|discriminate]. intros _. tauto.
  - destruct (ae_to_split_ok e p m R) as [Y _]. destruct (Y (aedge_full_sorted e p m R Se)) as (a & Ea & Sa & Ra). rewrite Ea. cbn [bind].
    destruct (ae_to_split_ok e' p' m' R') as [Y' N']. destruct (full_sorted_dec m') as [D|D].
    + destruct (Y' D) as (b & Eb & Sb & Rb). rewrite Eb. cbn [bind]. destruct (Split a b Ra Rb Sa Sb) as (r & Er & Hr).
      exists r. split; [exact Er|]. split; [|discriminate]. intros _. tauto.
    + destruct (N' D) as (err & Eb). rewrite Eb. cbn [bind]. exists false. split; [reflexivity|]. split; [|discriminate].
      intros _. split; [discriminate|]. intros [_ H]. exfalso. apply D. rewrite <- H. exact (aedge_full_sorted e p m R Se).
  - destruct (ae_to_split_ok e p m R) as [Y N]. destruct (full_sorted_dec m) as [D|D].
    + destruct (Y D) as (a & Ea & Sa & Ra). rewrite Ea. cbn [bind].
      destruct (ae_to_split_ok e' p' m' R') as [Y' _]. destruct (Y' (aedge_full_sorted e' p' m' R' Se')) as (b & Eb & Sb & Rb). rewrite Eb. cbn [bind].
      destruct (Split a b Ra Rb Sa Sb) as (r & Er & Hr).
      exists r. split; [exact Er|]. split; [|discriminate]. intros _. tauto.
    + destruct (N D) as (err & Eb). rewrite Eb. cbn [bind]. exists false. split; [reflexivity|]. split; [|discriminate].
      intros _. split; [discriminate|]. intros [_ H]. exfalso. apply D. rewrite H. exact (aedge_full_sorted e' p' m' R' Se').
  - destruct (equivalent_ok alloc allocw HA HW Z.eqb addr _ _ _ _ (fun x y => Z.eqb_eq x y) V1 V2) as (r & Er & H & H0).
    rewrite !map_length in H, H0. exists r. split; [exact Er|]. split.
    + intros [L|[L|L]]; try discriminate. rewrite (H ltac:(left; destruct (length m); [congruence|apply Nat.lt_0_succ])), map_zopt_inj. tauto.
    + intros L1 L2 _ _ _. apply H0; assumption.
Qed.
End P.

(** *** FromMapping *)
Lemma ae_scan_max calls : forall z b, let s := fold_left (fun (s : Z * bool) (c : nat * option Z) =>
    match snd c with
    | Some v => (Z.max (fst s) v, if (v <? 0)%Z then true else snd s)
    | None => s
    end) calls (z, b) in
  ((z <= fst s)%Z /\ (forall i v, In (i, Some v) calls -> (v <= fst s)%Z) /\ (fst s = z \/ exists i, In (i, Some (fst s)) calls)) /\
  (snd s = true <-> b = true \/ exists i v, In (i, Some v) calls /\ (v < 0)%Z).
Proof.
  induction calls as [|[i [v|]] t IH]; intros z b; cbn [fold_left fst snd].
  - split; [split; [lia|split; [intros ? ? []|left; reflexivity]]|]. split; [auto|]. intros [H|(? & ? & [] & _)]. exact H.
  - destruct (IH (Z.max z v) (if (v <? 0)%Z then true else b)) as [(M1 & M2 & M3) N]. split; [split; [lia|split]|].
    + intros j w [E|E]; [injection E as -> ->; lia|apply (M2 _ _ E)].
    + destruct M3 as [M3|(j & Hj)]; [|right; exists j; right; exact Hj].
      destruct (Z.max_spec z v) as [[H1 H2]|[H1 H2]]; rewrite H2 in *; [right; exists i; left; congruence|left; exact M3].
    + rewrite N. destruct (v <? 0)%Z eqn:Ev; split.
      * intros _. right. exists i, v. split; [left; reflexivity|lia].
      * intros _. left. reflexivity.
      * intros [H|(j & w & H & L)]; [left; exact H|]. right. exists j, w. split; [right; exact H|exact L].
      * intros [H|(j & w & [H|H] & L)]; [left; exact H|injection H as -> ->; lia|]. right. exists j, w. auto.
  - destruct (IH z b) as [(M1 & M2 & M3) N]. split; [split; [lia|split]|].
    + intros j w [E|E]; [discriminate|apply (M2 _ _ E)].
    + destruct M3 as [M3|(j & Hj)]; [left; exact M3|right; exists j; right; exact Hj].
    + rewrite N. split; (intros [H|(j & w & H & L)]; [left; exact H|]); right; exists j, w.
      * split; [right; exact H|exact L].
      * split; [destruct H as [H|H]; [discriminate|exact H]|exact L].
Qed.
Lemma ae_from_mapping_ok a l P : ar_rep a l ->
  ((0 <= P)%Z /\ in_range l P ->
     exists e m, ae_from_mapping a P = Some (inr e) /\ l = map zopt m /\ ae_split e = false /\
       aedge_rep e (Z.to_nat P) m) /\
  (~ ((0 <= P)%Z /\ in_range l P) -> exists err, ae_from_mapping a P = Some (inl err)).
Proof.
  intros R. unfold ae_from_mapping. destruct (Z.ltb_spec P 0) as [HP|HP].
  { split; [intros [H _]; lia|eauto]. }
  destruct (for_each_present_ok a l R) as (cs & E & F). unfold ar_for_each_present_fn. rewrite E. cbn [bind].
  rewrite F. set (calls := filter _ _).
  assert (Hin : forall v, In (Some v) l <-> exists i, In (i, Some v) calls).
  { intros v. unfold calls. split.
    - intros H. apply (In_nth_error) in H as (i & Hi). exists i. apply filter_In. split; [|reflexivity].
      assert (Li : i < length l) by (apply nth_error_Some; congruence).
      apply (nth_error_In _ i).
      assert (G : forall k i, nth_error l i = Some (Some v) -> nth_error (combine (seq k (length l)) l) i = Some (k + i, Some v)).
      { clear. induction l as [|x l IH]; intros k [|i] H; try discriminate; cbn in *.
        - injection H as ->. rewrite Nat.add_0_r. reflexivity.
        - rewrite (IH (S k) i H). f_equal. f_equal. lia. }
      exact (G 0 i Hi).
    - intros (i & H). apply filter_In in H as [H _]. apply in_combine_r in H. exact H. }
  destruct (ae_scan_max calls (-1)%Z false) as [(M1 & M2 & M3) N]. unfold ae_scan.
  destruct (fold_left _ calls (-1, false)%Z) as [mx neg]. cbn [fst snd] in *.
  destruct neg.
  - destruct N as [N _]. destruct (N eq_refl) as [H|(i & v & Hv & Lv)]; [discriminate|]. split; [|eauto].
    intros [_ Hr]. specialize (Hr v (proj2 (Hin v) (ex_intro _ i Hv))). lia.
  - destruct (Z.leb_spec P mx) as [Hm|Hm].
    + split; [|eauto]. intros [_ Hr]. destruct M3 as [M3|(i & Hi)]; [lia|]. specialize (Hr mx (proj2 (Hin mx) (ex_intro _ i Hi))). lia.
    + assert (Hr : in_range l P).
      { intros v Hv. apply Hin in Hv as (i & Hi). split; [|specialize (M2 i v Hi); lia].
        destruct (Z.le_gt_cases 0 v) as [Y|Y]; [exact Y|]. exfalso. assert (C : false = true) by (apply N; right; eauto). discriminate. }
      split; [|tauto]. intros _. eexists _, (map (option_map Z.to_nat) l). split; [reflexivity|].
      assert (El : l = map zopt (map (option_map Z.to_nat) l)).
      { rewrite map_map. rewrite <- (map_id l) at 1. apply map_ext_in. intros [v|] Hv; [|reflexivity]. cbn.
        specialize (Hr v Hv). rewrite Z2Nat.id by lia. reflexivity. }
      split; [exact El|]. split; [reflexivity|]. unfold aedge_rep, ae_unsafe_from_mapping. cbn [ae_split ae_parent ae_child ae_vals].
      split; [lia|]. split; [rewrite map_length; f_equal; apply ar_char in R; apply R|]. split.
      * intros c q Hc. destruct (nth_in_or_default c (map (option_map Z.to_nat) l) None) as [H|H]; [|congruence].
        rewrite Hc in H. apply in_map_iff in H as ([v|] & Ev & Hv); [|discriminate]. cbn in Ev. injection Ev as <-. specialize (Hr v Hv). lia.
      * rewrite <- El. exact R.
Qed.
Lemma ae_uniform_ok P g :
  ((P < 0)%Z \/ (g < 0)%Z -> ae_from_uniform_groups P g = Some (inl NegArgs)) /\
  ((0 <= P)%Z -> (0 <= g)%Z -> (2 ^ 63 <= P * g)%Z -> ae_from_uniform_groups P g = Some (inl MulOverflow)) /\
  ((0 <= P < 2 ^ 63 - 1)%Z -> (0 <= g)%Z -> (P * g < 2 ^ 63)%Z -> exists e,
     ae_from_uniform_groups P g = Some (inr e) /\ ae_split e = true /\
     aedge_rep e (Z.to_nat P) (map (fun c => Some (c / Z.to_nat g)) (seq 0 (Z.to_nat P * Z.to_nat g)))).
Proof.
  destruct (from_uniform_ok P g) as (H1 & H2 & H3). unfold ae_from_uniform_groups. split; [|split].
  - intros H. rewrite H1 by exact H. reflexivity.
  - intros A B C. rewrite H2 by assumption. reflexivity.
  - intros A B C. destruct (H3 A B C) as (e & E & S & R). rewrite E. cbn [bind]. eexists. split; [reflexivity|].
    split; [exact S|apply ae_from_dense_rep; exact R].
Qed.
Lemma ae_split_size_ok e p m i : aedge_rep e p m -> ae_split e = true -> i < p ->
  ae_split_size e i = Some (Z.of_nat (children m i)).
Proof.
  intros (H1 & H2 & H3 & H4) E Hi. rewrite E in H4. destruct H4 as (Hf & s & S1 & S2 & S3 & S4 & S5).
  rewrite <- (split_size_ok (mkE true (ae_parent e) (ae_child e) (ar_data (ae_vals e))) p m i); [reflexivity| |reflexivity|exact Hi].
  split; [exact H1|]. split; [exact H2|]. split; [exact H3|]. cbn [e_split e_vals]. exists s.
  split; [exact S1|]. split; [exact S2|]. split; [exact S3|]. split; [|exact S5]. apply dense_data; [exact S4|left; exact Hf].
Qed.
