From Verif Require Import Base Bits_Model Bits_Proofs Bitmap_Model Bitmap_Proofs Dense_Model Dense_Spec Dense_Proofs
  IdFilter_Model IdFilter_Spec IdFilter_Proofs GroupOps_Model Array_Model Array_Spec.

Lemma mem_In i l : mem i l = true <-> In i l.
Proof.
  unfold mem. rewrite existsb_exists. split.
  - intros (x & Hx & E). apply Nat.eqb_eq in E. subst. exact Hx.
  - intros H. exists i. split; [exact H|apply Nat.eqb_refl].
Qed.
Lemma mem_false i l : mem i l = false <-> ~ In i l.
Proof. rewrite <- mem_In. destruct (mem i l); split; congruence. Qed.
Lemma index_of_mem i l : index_of i l <> None <-> In i l.
Proof.
  rewrite (index_of_none i l). destruct (in_dec Nat.eq_dec i l); tauto.
Qed.

Section P.
Context {A : Type}.
Implicit Types a : arr A.

Definition at_ids (l : list (option A)) (ids : list nat) : list (option A) := map (fun i => nth i l None) ids.
Lemma at_ids_len l ids : length (at_ids l ids) = length ids.
Proof. apply map_length. Qed.
Lemma at_ids_nth l ids o : o < length ids -> nth o (at_ids l ids) None = nth (nth o ids 0) l None.
Proof.
  intros H. unfold at_ids. rewrite (nth_indep _ None ((fun i => nth i l None) 0)) by (rewrite map_length; exact H).
  rewrite (map_nth (fun i => nth i l None)). reflexivity.
Qed.

(** Field-wise characterisation of [ar_rep]. *)
Lemma ar_char a l : ar_rep a l <->
  fwf (length l) (ar_ids a) /\ ar_size a = length l /\ (ar_ids a = FFull -> ar_miss a = None) /\
  represents (ar_data a) (at_ids l (fids (length l) (ar_ids a))) /\
  (forall i, i < length l -> ~ In i (fids (length l) (ar_ids a)) -> nth i l None = ar_miss a).
Proof.
  split.
  - intros ((W & V & S & F) & Sz & G). rewrite Sz in *.
    destruct (fids_asc _ _ W) as [As Bd]. rewrite Forall_forall in Bd.
    split; [exact W|]. split; [reflexivity|]. split; [exact F|]. split.
    + split; [exact V|]. rewrite at_ids_len. split; [exact S|]. intros o Ho.
      rewrite at_ids_nth by exact Ho.
      assert (L : nth o (fids (length l) (ar_ids a)) 0 < length l) by (apply Bd, nth_In; exact Ho).
      specialize (G _ L). unfold ar_get in G. rewrite (id_to_offset_ok (length l)) in G by assumption.
      rewrite index_of_nth in G by assumption. exact G.
    + intros i Hi N. specialize (G i Hi). unfold ar_get in G.
      rewrite (id_to_offset_ok (length l)) in G by assumption.
      rewrite (proj2 (index_of_none _ _)) in G by exact N. congruence.
  - intros (W & Sz & F & (V & S & G) & M). rewrite at_ids_len in *. split.
    + split; [rewrite Sz; exact W|]. split; [exact V|]. rewrite Sz. split; [exact S|exact F].
    + split; [exact Sz|]. intros i Hi. unfold ar_get. rewrite (id_to_offset_ok (length l)) by assumption.
      destruct (index_of i (fids (length l) (ar_ids a))) as [o|] eqn:E.
      * apply index_of_some in E as [Lo Eo]. rewrite G by exact Lo. rewrite at_ids_nth by exact Lo.
        rewrite Eo. reflexivity.
      * apply index_of_none in E. rewrite M by assumption. reflexivity.
Qed.

Lemma rep_no_data : represents (@no_data A) [].
Proof.
  split; [split; [cbn; lia|]; split; [constructor|left; reflexivity]|].
  split; [reflexivity|]. intros i H. simpl in H. lia.
Qed.
Lemma ar_const_rep n (v : option A) : ar_rep (ar_const n v) (repeat v n).
Proof.
  apply ar_char. rewrite repeat_length. cbn [ar_const ar_ids ar_size ar_miss ar_data fwf fids at_ids map].
  split; [exact I|]. split; [reflexivity|]. split; [discriminate|]. split; [apply rep_no_data|].
  intros i Hi _. apply repeat_nth. exact Hi.
Qed.
Lemma at_ids_seq (l : list (option A)) : at_ids l (seq 0 (length l)) = l.
Proof. symmetry. apply list_as_map. Qed.
Lemma ar_dense_rep d (l : list (option A)) : represents d l -> ar_rep (ar_dense d) l.
Proof.
  intros R. apply ar_char. cbn [ar_dense ar_ids ar_size ar_miss ar_data fwf fids].
  split; [exact I|]. split; [apply R|]. split; [reflexivity|]. rewrite at_ids_seq. split; [exact R|].
  intros i Hi N. exfalso. apply N. apply in_seq. lia.
Qed.

(** The array made of a filter, the data at its ids and a default. *)
Definition select (g : nat -> option A) (ids : list nat) (m : option A) (n : nat) : list (option A) :=
  map (fun i => if mem i ids then g i else m) (seq 0 n).
Lemma select_len g ids m n : length (select g ids m n) = n.
Proof. unfold select. rewrite map_length, seq_length. reflexivity. Qed.
Lemma select_nth g ids m n i : i < n -> nth i (select g ids m n) None = if mem i ids then g i else m.
Proof. intros H. unfold select. rewrite nth_seq_map by exact H. reflexivity. Qed.

Lemma select_nil g m n : select g [] m n = repeat m n.
Proof.
  unfold select. cbn [mem existsb]. generalize 0 as s.
  induction n as [|k IH]; intros s; [reflexivity|]. cbn [repeat seq map]. f_equal. apply IH.
Qed.

Lemma make_rep n ids d m (g : nat -> option A) : fwf n ids -> represents d (map g (fids n ids)) ->
  ar_rep (ar_make n ids d m) (select g (fids n ids) m n).
Proof.
  intros W R. apply ar_char. rewrite select_len. cbn [ar_make ar_ids ar_size ar_miss ar_data].
  destruct (fids_asc _ _ W) as [As Bd]. rewrite Forall_forall in Bd.
  split; [exact W|]. split; [reflexivity|]. split; [intros ->; reflexivity|]. split.
  - replace (at_ids (select g (fids n ids) m n) (fids n ids)) with (map g (fids n ids)); [exact R|].
    unfold at_ids. apply map_ext_in. intros i Hi. rewrite select_nth by (apply Bd; exact Hi).
    rewrite (proj2 (mem_In i _)) by exact Hi. reflexivity.
  - intros i Hi N. rewrite select_nth by exact Hi. rewrite (proj2 (mem_false i _)) by exact N.
    destruct ids; try reflexivity. exfalso. apply N. cbn [fids]. apply in_seq. lia.
Qed.

(** ** Building data by random writes *)
Definition put (f : nat -> option A) (j : nat) (v : option A) : nat -> option A :=
  fun k => if k =? j then v else f k.

Lemma db_ext N (b : dbuilder A) f g : db_inv N b f -> (forall i, i < N -> f i = g i) -> db_inv N b g.
Proof.
  intros (L1 & L2 & F & H) E. split; [exact L1|]. split; [exact L2|]. split; [exact F|].
  intros i Hi. rewrite <- E by exact Hi. apply H. exact Hi.
Qed.
Lemma copy_set_ok max (b : dbuilder A) f src new old v : db_inv max b f -> new < max -> rd src old = Some v ->
  exists vs bits, rs_copy (db_vals b) src new old = Some vs /\ set_bit W (db_bits b) new = Some bits /\
    db_inv max {| db_vals := vs; db_bits := bits |} (put f new (Some v)).
Proof.
  intros I L R. destruct (db_set_ok max b f new (Some v) I L) as (b' & E & I').
  unfold rs_copy. rewrite R. cbn [bind]. cbn [db_set] in E.
  destruct (upd (db_vals b) new v) as [vs|]; [|discriminate]. cbn [bind] in E.
  destruct (set_bit W (db_bits b) new) as [bits|]; [|discriminate]. cbn [bind] in E.
  exists vs, bits. split; [reflexivity|]. split; [reflexivity|].
  assert (b' = {| db_vals := vs; db_bits := bits |}) by congruence. subst b'.
  eapply db_ext; [exact I'|]. intros i _. unfold write, put.
  destruct (Nat.eqb_spec i new) as [->|N].
  - replace ((new <=? new) && (new <? new + 1)) with true by lia. reflexivity.
  - replace ((new <=? i) && (i <? new + 1)) with false by lia. reflexivity.
Qed.
Lemma copy_only_ok max (b : dbuilder A) f src new old v : db_inv max b f -> new < max -> rd src old = Some v ->
  f new <> None ->
  exists vs, rs_copy (db_vals b) src new old = Some vs /\
    db_inv max {| db_vals := vs; db_bits := db_bits b |} (put f new (Some v)).
Proof.
  intros (L1 & L2 & F & H) L R N. unfold rs_copy. rewrite R. cbn [bind].
  destruct (upd_lt (db_vals b) new v) as [vs E]; [lia|]. exists vs. split; [exact E|].
  apply upd_spec in E as (_ & L' & R').
  split; [cbn [db_vals]; lia|]. split; [exact L2|]. split; [exact F|]. cbn [db_vals db_bits].
  intros i Hi. destruct (H i Hi) as [H1 H2]. unfold put. rewrite R'.
  destruct (Nat.eqb_spec i new) as [->|Ne].
  - split; [|congruence]. rewrite H1. destruct (f new); congruence.
  - split; assumption.
Qed.
Lemma unset_wok ws i ws' : Forall (wok W) ws -> bm_unset_bit ws i = Some ws' -> Forall (wok W) ws'.
Proof.
  intros H E. unfold bm_unset_bit in E. destruct (rd ws (i / W)) as [x|] eqn:Ex; [|discriminate]. cbn [bind] in E.
  destruct (wshl W 1 (i mod W)) as [m|] eqn:Em; [|discriminate]. cbn [bind] in E.
  eapply Forall_upd; [exact H| |exact E]. intros k Hk. rewrite tb_land.
  rewrite (wok_rd ws (i / W) x H Ex k Hk). reflexivity.
Qed.
Lemma unset_ok max (b : dbuilder A) f new : db_inv max b f -> new < max ->
  exists bits, bm_unset_bit (db_bits b) new = Some bits /\
    db_inv max {| db_vals := db_vals b; db_bits := bits |} (put f new None).
Proof.
  intros (L1 & L2 & F & H) L. pose proof (bitmap_size_ge max).
  destruct (bm_unset_bit_ok (db_bits b) new) as (bits & E & Lb & G); [lia|].
  exists bits. split; [exact E|]. split; [exact L1|]. split; [cbn [db_bits]; lia|].
  split; [eapply unset_wok; eassumption|]. cbn [db_vals db_bits].
  intros i Hi. destruct (H i Hi) as [H1 H2]. unfold put, bit. rewrite G.
  destruct (Nat.eqb_spec i new) as [->|Ne]; [split; [reflexivity|discriminate]|].
  split; assumption.
Qed.

(** Folding steps that each write one position of a fixed target. *)
Lemma fold_put {X} (step : dbuilder A -> X -> option (dbuilder A)) (pos : X -> nat) max (init tgt : nat -> option A) calls :
  (forall b f c, In c calls -> db_inv max b f -> (f (pos c) = init (pos c) \/ f (pos c) = tgt (pos c)) ->
     exists b', step b c = Some b' /\ db_inv max b' (put f (pos c) (tgt (pos c)))) ->
  forall b, db_inv max b init ->
  exists b', fold_opt step calls b = Some b' /\
    db_inv max b' (fun j => if existsb (fun c => pos c =? j) calls then tgt j else init j).
Proof.
  intros Hs. assert (G : forall b f, db_inv max b f -> (forall j, f j = init j \/ f j = tgt j) ->
    exists b', fold_opt step calls b = Some b' /\
    db_inv max b' (fun j => if existsb (fun c => pos c =? j) calls then tgt j else f j)).
  2:{ intros b I. apply G; auto. }
  induction calls as [|c t IH]; intros b f I Hf; cbn [fold_opt existsb].
  - exists b. split; [reflexivity|exact I].
  - destruct (Hs b f c) as (b1 & E1 & I1); [left; reflexivity|exact I|apply Hf|]. rewrite E1. cbn [bind].
    destruct (IH (fun b f c H => Hs b f c (or_intror H)) b1 _ I1) as (b' & E' & I').
    { intros j. unfold put. destruct (Nat.eqb_spec j (pos c)) as [->|]; auto. }
    exists b'. split; [exact E'|]. eapply db_ext; [exact I'|]. intros j Hj. cbv beta. unfold put.
    rewrite (Nat.eqb_sym (pos c) j). destruct (j =? pos c) eqn:Q; cbn [orb]; [|reflexivity].
    destruct (existsb _ t); [reflexivity|]. apply Nat.eqb_eq in Q. subst. reflexivity.
Qed.

(** Freezing the data, dropping the bitmap if it is full (array.h:545-549). *)
Lemma freeze_ok max (b : dbuilder A) f : db_inv max b f ->
  exists all, are_all_bits_set (db_bits b) max = Some all /\
    represents (mkD (db_vals b) (if (all : bool) then [] else db_bits b) 0) (map f (seq 0 max)).
Proof.
  intros (L1 & L2 & F & H). pose proof (bitmap_size_ge max).
  destruct (are_all_bits_set_ok (db_bits b) max F ltac:(lia)) as (all & E & Ha).
  exists all. split; [exact E|]. apply represents_elem. rewrite map_length, seq_length.
  split; [split; [cbn; lia|]|split; [exact L1|]].
  - cbn [bmp vals boff]. destruct all; [split; [constructor|left; reflexivity]|].
    split; [apply wok_words; exact F|right]. rewrite L1, L2. f_equal. lia.
  - intros i Hi. rewrite nth_seq_map by exact Hi. unfold da_elem, da_pres. cbn [vals bmp boff].
    destruct (H i Hi) as [H1 H2]. destruct (rd_lt (db_vals b) i) as [x Ex]; [lia|]. rewrite Ex.
    assert (P : match (if all then [] else db_bits b) with [] => true | _ => bt (if all then [] else db_bits b) (i + 0) end
                = match f i with Some _ => true | None => false end).
    { destruct all.
      - rewrite <- H1. symmetry. apply Ha; [reflexivity|exact Hi].
      - destruct (db_bits b) eqn:Eb; [cbn [length] in L2; lia|]. rewrite <- Eb in *.
        rewrite Nat.add_0_r. exact H1. }
    rewrite P. destruct (f i) as [y|] eqn:Ef; [|reflexivity]. rewrite (H2 y eq_refl) in Ex. congruence.
Qed.

(** ** The calls of DenseArray::ForEach *)
Definition call_ok (d : darr A) (dl : list (option A)) (c : nat * bool * A) (k : nat) : Prop :=
  fst (fst c) = k /\ snd (fst c) = is_some (nth k dl None) /\ rd (vals d) k = Some (snd c) /\
  (forall x, nth k dl None = Some x -> snd c = x).
Lemma calls_ok d dl : represents d dl ->
  exists r, da_for_each d = Some r /\ length r = length dl /\
    forall k c, nth_error r k = Some c -> call_ok d dl c k.
Proof.
  intros R. pose proof R as R'. apply represents_elem in R' as (V & S & E).
  destruct (da_for_each_ok d V) as (r & Er & M & F). exists r. split; [exact Er|].
  assert (Lr : length r = length dl) by (rewrite <- (map_length fst r), M, map_length, seq_length; exact S).
  split; [exact Lr|]. intros k c Hk.
  assert (Lk : k < length dl) by (rewrite <- Lr; apply nth_error_Some; congruence).
  assert (Q : nth_error (map fst r) k = Some (k, da_pres d k)).
  { rewrite M, nth_error_map, (nth_error_nth' _ 0) by (rewrite seq_length; lia).
    rewrite seq_nth by lia. reflexivity. }
  rewrite nth_error_map, Hk in Q. cbn [option_map] in Q. destruct c as [[o p] v].
  assert (o = k /\ p = da_pres d k) as [-> ->] by (split; cbn [fst] in Q; congruence).
  rewrite Forall_forall in F. pose proof (F _ (nth_error_In _ _ Hk)) as Fv. cbn [fst snd] in Fv.
  specialize (E k Lk). split; [reflexivity|]. cbn [fst snd].
  split; [rewrite <- E; apply da_elem_pres; lia|]. split; [exact Fv|].
  intros x Hx. rewrite <- E in Hx. unfold da_elem in Hx. rewrite Fv in Hx.
  destruct (da_pres d k); congruence.
Qed.

Lemma fold_inv {X Y} (step : Y -> X -> option Y) (Inv : nat -> Y -> Prop) calls : forall y,
  Inv 0 y ->
  (forall k c y, nth_error calls k = Some c -> Inv k y -> exists y', step y c = Some y' /\ Inv (S k) y') ->
  exists y', fold_opt step calls y = Some y' /\ Inv (length calls) y'.
Proof.
  intros y0 H0 Hs.
  assert (G : forall l pre, calls = pre ++ l -> forall y, Inv (length pre) y ->
    exists y', fold_opt step l y = Some y' /\ Inv (length calls) y').
  { induction l as [|c t IH]; intros pre E y Hy; cbn [fold_opt].
    - exists y. split; [reflexivity|]. rewrite E, app_nil_r. exact Hy.
    - destruct (Hs (length pre) c y) as (y1 & E1 & I1); [|exact Hy|].
      + rewrite E, nth_error_app2, Nat.sub_diag by lia. reflexivity.
      + rewrite E1. cbn [bind]. apply (IH (pre ++ [c])).
        * rewrite <- app_assoc. exact E.
        * rewrite app_length. cbn [length]. rewrite Nat.add_1_r. exact I1. }
  apply (G calls []); [reflexivity|exact H0].
Qed.

(** ** WithIds *)
Section WithIds.
Variables (alloc : nat -> list A) (allocw : nat -> list N).
Hypothesis (HA : alloc_sz alloc) (HW : allocw_ok allocw).

Lemma target_len n ids : fwf n ids -> ids <> FEmpty -> target_size n ids = length (fids n ids).
Proof.
  destruct ids; intros _ N; cbn [target_size fids]; [congruence|rewrite seq_length; reflexivity|].
  rewrite map_length. reflexivity.
Qed.

Lemma start_inv (m : option A) n : db_inv n
  {| db_vals := match m with Some v => repeat v n | None => alloc n end;
     db_bits := repeat (if present_opt m then full_word else 0%N) (bitmap_size n) |} (fun _ => m).
Proof.
  destruct m as [v|]; cbn [present_opt].
  - pose proof (bitmap_size_ge n).
    split; [apply repeat_length|]. split; [apply repeat_length|]. cbn [db_vals db_bits]. split.
    + apply Forall_forall. intros x Hx. apply repeat_spec in Hx. subst x. apply wok_ones.
    + intros i Hi. split; [apply bt_full; lia|]. intros x Hx. injection Hx as <-.
      unfold rd. rewrite (nth_error_nth' _ v) by (rewrite repeat_length; exact Hi).
      rewrite repeat_nth by exact Hi. reflexivity.
  - pose proof (db_init_inv (alloc n)) as Q. unfold db_init in Q. rewrite HA in Q. exact Q.
Qed.

Lemma partial_or f : (exists x i p, f = FPartial x i p) \/ f = FEmpty \/ f = FFull.
Proof. destruct f; eauto 6. Qed.

Lemma from_sparse_ok a l ids : ar_rep a l -> (exists x i p, ar_ids a = FPartial x i p) ->
  fwf (length l) ids -> ids <> FEmpty ->
  exists d, with_ids_from_sparse alloc a ids = Some d /\
    represents d (at_ids l (fids (length l) ids)).
Proof.
  intros R P Wi Ne. apply ar_char in R as (Wa & Sz & _ & Rd & M).
  unfold with_ids_from_sparse. rewrite Sz, (target_len _ _ Wi Ne).
  set (fa := fids (length l) (ar_ids a)) in *. set (fi := fids (length l) ids) in *.
  destruct (fids_asc _ _ Wa) as [Aa Ba]. destruct (fids_asc _ _ Wi) as [Ai Bi].
  fold fa in Aa, Ba. fold fi in Ai, Bi. rewrite Forall_forall in Ba, Bi.
  pose proof (start_inv (ar_miss a) (length fi)) as I0.
  match type of I0 with db_inv _ ?b _ => set (b0 := b) in * end.
  set (tgt := fun j => nth (nth j fi 0) l None).
  assert (G : forall b, db_inv (length fi) b tgt ->
    exists d, (let? all := are_all_bits_set (db_bits b) (length fi) in
      Some (mkD (db_vals b) (if (all : bool) then [] else db_bits b) 0)) = Some d /\ represents d (at_ids l fi)).
  { intros b I. destruct (freeze_ok _ _ _ I) as (all & E & Rf). rewrite E. cbn [bind].
    eexists; split; [reflexivity|].
    replace (at_ids l fi) with (map tgt (seq 0 (length fi))); [exact Rf|].
    unfold at_ids, tgt. rewrite (list_as_map fi 0) at 2. rewrite map_map. reflexivity. }
  assert (Hd : forall o, o < length fa -> da_present (ar_data a) o = Some (is_some (nth (nth o fa 0) l None)) /\
     exists v, rd (vals (ar_data a)) o = Some v /\ forall x, nth (nth o fa 0) l None = Some x -> v = x).
  { intros o Ho. apply represents_elem in Rd as (V & S & E). rewrite at_ids_len in S, E.
    specialize (E o Ho). rewrite at_ids_nth in E by exact Ho. rewrite <- E.
    split; [rewrite da_present_ok by (assumption || lia); f_equal; apply da_elem_pres; lia|].
    destruct (rd_lt (vals (ar_data a)) o) as [v Ev]; [unfold da_size in S; lia|].
    exists v. split; [exact Ev|]. intros x Hx. unfold da_elem in Hx. rewrite Ev in Hx.
    destruct (da_pres (ar_data a) o); congruence. }
  destruct (partial_or ids) as [Pi|[->|Fi]]; [| congruence |].
  - (* partial to partial *)
    pose proof (partial_common _ _ _ _ fa fi Wa Wi eq_refl eq_refl P Pi) as Ec.
    destruct Pi as (x & i & p & Ei).
    destruct ids as [| |x' i' p']; try discriminate. rewrite Ec. cbn [bind].
    destruct (fold_put (ws_partial (ar_data a)) snd (length fi) (fun _ => ar_miss a) tgt (common fa fi)) with (b := b0)
      as (b & Eb & Ib); [|exact I0|].
    + intros b f [[y o1] o2] Hc I _. apply common_in in Hc as (L1 & E1 & L2 & E2); [|assumption..].
      destruct (Hd o1 L1) as [Hp (v & Hv & Hx)]. cbn [ws_partial snd]. rewrite Hp. cbn [bind].
      assert (Et : tgt o2 = nth (nth o1 fa 0) l None) by (unfold tgt; congruence).
      rewrite Et. destruct (nth (nth o1 fa 0) l None) as [z|]; cbn [is_some].
      * destruct (copy_set_ok _ b f (vals (ar_data a)) o2 o1 v I L2 Hv) as (vs & bits & Q1 & Q2 & Q3).
        rewrite Q1. cbn [bind]. rewrite Q2. cbn [bind]. eexists; split; [reflexivity|].
        rewrite (Hx z eq_refl) in Q3. exact Q3.
      * destruct (unset_ok _ b f o2 I L2) as (bits & Q1 & Q2). rewrite Q1. cbn [bind].
        eexists; split; [reflexivity|exact Q2].
    + rewrite Eb. cbn [bind]. apply G. eapply db_ext; [exact Ib|]. intros j Hj. cbv beta.
      destruct (existsb (fun c => snd c =? j) (common fa fi)) eqn:Q; [reflexivity|].
      unfold tgt. symmetry. apply M; [apply Bi, nth_In; exact Hj|].
      intros Hin. destruct (In_nth _ _ 0 Hin) as (o & Lo & Eo).
      assert (In (nth j fi 0, o, j) (common fa fi)) as C by (apply common_in; auto).
      assert (existsb (fun c : nat * nat * nat => snd c =? j) (common fa fi) = true); [|congruence].
      apply existsb_exists. eexists; split; [exact C|]. cbn [snd]. apply Nat.eqb_refl.
  - (* partial to full *)
    subst ids. cbn [fids] in fi. subst fi. rewrite seq_length in *.
    destruct (calls_ok _ _ Rd) as (r & Er & Lr & Hr). rewrite at_ids_len in Lr. rewrite Er. cbn [bind].
    set (pos := fun c : nat * bool * A => nth (fst (fst c)) fa 0).
    assert (Hpos : forall c, In c r -> exists o, o < length fa /\ fst (fst c) = o /\ pos c = nth o fa 0 /\ pos c < length l /\
       ids_offset_to_id (ar_ids a) o = Some (pos c) /\ call_ok (ar_data a) (at_ids l fa) c o /\
       nth o (at_ids l fa) None = tgt (pos c)).
    { intros c Hc. destruct (In_nth_error _ _ Hc) as [k Hk].
      assert (k < length fa) as Lk by (rewrite <- Lr; apply nth_error_Some; congruence).
      pose proof (Hr k c Hk) as Ck. pose proof Ck as (C1 & _). exists k.
      assert (pos c = nth k fa 0) as Ep by (unfold pos; rewrite C1; reflexivity).
      assert (pos c < length l) as Lp by (rewrite Ep; apply Ba, nth_In; exact Lk).
      split; [exact Lk|]. split; [exact C1|]. split; [exact Ep|]. split; [exact Lp|]. split.
      - rewrite Ep. destruct P as (x & i & p & Ea). apply (ids_offset_to_id_ok (length l)); [exact Wa|eauto|].
        fold fa. apply nth_error_nth'. exact Lk.
      - split; [exact Ck|]. rewrite at_ids_nth by exact Lk. unfold tgt.
        rewrite seq_nth by exact Lp. rewrite Ep. reflexivity. }
    assert (Fin : forall b, db_inv (length l) b (fun j => if existsb (fun c => pos c =? j) r then tgt j else ar_miss a) ->
      db_inv (length l) b tgt).
    { intros b I. eapply db_ext; [exact I|]. intros j Hj. cbv beta.
      destruct (existsb (fun c => pos c =? j) r) eqn:Q; [reflexivity|].
      unfold tgt. rewrite seq_nth by exact Hj. symmetry. apply M; [exact Hj|].
      intros Hin. destruct (In_nth _ _ 0 Hin) as (o & Lo & Eo).
      destruct (nth_error r o) as [c|] eqn:Eo'; [|apply nth_error_None in Eo'; lia].
      assert (existsb (fun c => pos c =? j) r = true); [|congruence].
      apply existsb_exists. exists c. split; [eapply nth_error_In; exact Eo'|].
      destruct (Hr o c Eo') as (C1 & _). unfold pos. rewrite C1. lia. }
    destruct (ar_miss a) as [m|] eqn:Em; cbn [present_opt].
    + destruct (fold_put (ws_full_default (ar_ids a) (ar_data a)) pos (length l) (fun _ => Some m) tgt r) with (b := b0)
        as (b & Eb & Ib); [|exact I0|].
      * intros b f c Hc I Hf. destruct (Hpos c Hc) as (o & Lo & Eo & Ep & Lp & Ei & Ck & Et).
        destruct c as [[o' p] v]. cbn [fst] in Eo. subst o'. destruct Ck as (_ & C2 & C3 & C4).
        remember (pos (o, p, v)) as q eqn:Eq. cbn [fst snd] in *. cbn [ws_full_default]. rewrite Ei. cbn [bind]. rewrite C2, <- Et.
        destruct (nth o (at_ids l fa) None) as [z|]; cbn [is_some].
        -- destruct (copy_only_ok _ b f (vals (ar_data a)) q o v I Lp C3) as (vs & Q1 & Q2).
           { destruct Hf as [Hf|Hf]; rewrite Hf; congruence. }
           rewrite Q1. cbn [bind]. eexists; split; [reflexivity|]. rewrite (C4 z eq_refl) in Q2. exact Q2.
        -- destruct (unset_ok _ b f q I Lp) as (bits & Q1 & Q2). rewrite Q1. cbn [bind].
           eexists; split; [reflexivity|exact Q2].
      * rewrite Eb. cbn [bind]. apply G. apply Fin. exact Ib.
    + destruct (fold_put (ws_full (ar_ids a) (ar_data a)) pos (length l) (fun _ => None) tgt r) with (b := b0)
        as (b & Eb & Ib); [|exact I0|].
      * intros b f c Hc I Hf. destruct (Hpos c Hc) as (o & Lo & Eo & Ep & Lp & Ei & Ck & Et).
        destruct c as [[o' p] v]. cbn [fst] in Eo. subst o'. destruct Ck as (_ & C2 & C3 & C4).
        remember (pos (o, p, v)) as q eqn:Eq. cbn [fst snd] in *. cbn [ws_full]. rewrite Ei. cbn [bind]. rewrite C2.
        rewrite <- Et in *. destruct (nth o (at_ids l fa) None) as [z|]; cbn [is_some].
        -- destruct (copy_set_ok _ b f (vals (ar_data a)) q o v I Lp C3) as (vs & bits & Q1 & Q2 & Q3).
           rewrite Q1. cbn [bind]. rewrite Q2. cbn [bind]. eexists; split; [reflexivity|].
           rewrite (C4 z eq_refl) in Q3. exact Q3.
        -- exists b. split; [reflexivity|]. eapply db_ext; [exact I|]. intros j Hj. unfold put.
           destruct (Nat.eqb_spec j q) as [->|]; [|reflexivity]. destruct Hf; congruence.
      * rewrite Eb. cbn [bind]. apply G. apply Fin. exact Ib.
Qed.

Lemma copy_ids_ok n (src : list A) off ids : ids_in n off ids -> n <= length src -> forall (dst : list A) i, i + length ids <= length dst ->
  exists dst', copy_ids src dst off i ids = Some dst' /\ length dst' = length dst /\
    (forall j, j < i -> rd dst' j = rd dst j) /\
    forall k, k < length ids -> rd dst' (i + k) = rd src (nth k ids 0 - off).
Proof.
  intros I Hn. induction ids as [|x t IH]; intros dst i L; cbn [copy_ids].
  - exists dst. split; [reflexivity|]. split; [reflexivity|]. split; [auto|]. intros k Hk. simpl in Hk. lia.
  - pose proof (ids_in_tail _ _ _ _ I) as It. destruct I as [_ F]. inversion F as [|? ? H1 H2]; subst.
    replace (off <=? x) with true by lia. cbn [guard bind]. unfold rs_copy.
    destruct (rd_lt src (x - off)) as [v Ev]; [lia|]. rewrite Ev. cbn [bind]. cbn [length] in L.
    destruct (upd_lt dst i v) as [d1 E1]; [lia|]. rewrite E1. cbn [bind].
    apply upd_spec in E1 as (_ & L1 & R1).
    destruct (IH It d1 (S i) ltac:(lia)) as (d' & E & Ld & R2 & R3).
    exists d'. split; [exact E|]. split; [lia|]. split.
    + intros j Hj. rewrite R2, R1 by lia. replace (j =? i) with false by lia. reflexivity.
    + intros [|k] Hk; cbn [nth].
      * rewrite Nat.add_0_r, R2, R1, Nat.eqb_refl, Ev by lia. reflexivity.
      * replace (i + S k) with (S i + k) by lia. apply R3. simpl in Hk. lia.
Qed.
Lemma presence_at_ok n (d : darr A) l off ids : ids_in n off ids -> represents d l -> n <= length l ->
  presence_at d off ids = Some (map (fun x => is_some (nth (x - off) l None)) ids).
Proof.
  intros I R Hn. apply represents_elem in R as (V & S & E).
  induction ids as [|x t IH]; [reflexivity|]. cbn [presence_at].
  pose proof (ids_in_tail _ _ _ _ I) as It. destruct I as [_ F]. inversion F as [|? ? H1 H2]; subst.
  replace (off <=? x) with true by lia. cbn [guard bind].
  rewrite da_present_ok by (assumption || lia). cbn [bind]. rewrite IH by exact It. cbn [bind map].
  f_equal. f_equal. rewrite <- E by lia. apply da_elem_pres. lia.
Qed.

(** A bitmap built from a list of bits. *)
Lemma built_bitmap bits : exists b, builder_add (builder_init (allocw (bitmap_size (length bits)))) bits = Some b /\
  Forall (fun x => x < 2 ^ 32)%N (builder_build b) /\
  (builder_build b = [] \/ length (builder_build b) = bitmap_size (length bits)) /\
  forall i, i < length bits -> match builder_build b with [] => true | _ => bt (builder_build b) i end = nth i bits false.
Proof.
  destruct (HW (bitmap_size (length bits))) as [Lm Fm].
  destruct (builder_add_ok' (length bits) _ bits Lm eq_refl) as (b & E & H). exists b. split; [exact E|].
  assert (Hwb : Forall (wok W) (b_data b)).
  { unfold builder_add in E. cbn [builder_init b_cur b_data b_all] in E.
    change (0 mod W =? 0) with true in E. change (0 / W) with 0 in E. cbv iota in E.
    destruct (add_aligned (length bits) _ 0 bits true) as [[d1 a1]|] eqn:E1; [|discriminate].
    cbn [bind] in E. injection E as <-. cbn [b_data]. eapply add_aligned_wok; [apply words_ok; exact Fm|exact E1]. }
  split; [unfold builder_build; destruct (b_all b); [constructor|apply wok_words; exact Hwb]|].
  split; [destruct (forallb id bits); [left; exact H|right; apply H]|].
  intros i Hi. destruct (forallb id bits) eqn:Ef.
  - rewrite H. rewrite forallb_forall in Ef. symmetry. apply (Ef (nth i bits false)). apply nth_In. lia.
  - destruct H as [H1 H2]. pose proof (bitmap_size_ge (length bits)).
    destruct (builder_build b) eqn:Eb; [cbn [length] in H1; lia|]. rewrite <- Eb in *.
    unfold bit. rewrite H2 by exact Hi. reflexivity.
Qed.

Lemma rep_mk vs bm (l : list (option A)) : length vs = length l ->
  Forall (fun x => x < 2 ^ 32)%N bm -> (bm = [] \/ length bm = bitmap_size (length vs)) ->
  (forall i, i < length l -> match bm with [] => true | _ => bt bm i end = is_some (nth i l None) /\
     forall x, nth i l None = Some x -> rd vs i = Some x) ->
  represents (mkD vs bm 0) l.
Proof.
  intros L F B H. apply represents_elem. split; [|split; [exact L|]].
  - split; [cbn; lia|]. split; [exact F|]. cbn [bmp vals boff]. rewrite Nat.add_0_r. exact B.
  - intros i Hi. unfold da_elem, da_pres. cbn [vals bmp boff]. rewrite Nat.add_0_r.
    destruct (H i Hi) as [H1 H2]. rewrite H1. destruct (rd_lt vs i) as [x Ex]; [lia|]. rewrite Ex.
    destruct (nth i l None) as [y|]; [|reflexivity]. cbn [is_some]. rewrite (H2 y eq_refl) in Ex. congruence.
Qed.

Lemma dense_to_sparse_ok a l ids : ar_rep a l -> ar_ids a = FFull ->
  fwf (length l) ids -> (exists x i p, ids = FPartial x i p) ->
  exists d, with_ids_dense_to_sparse alloc allocw a ids = Some d /\
    represents d (at_ids l (fids (length l) ids)).
Proof.
  intros R Fa Wi (x & i & p & ->). apply ar_char in R as (_ & Sz & _ & Rd & _).
  rewrite Fa in Rd. cbn [fids] in Rd. rewrite at_ids_seq in Rd.
  cbn [fwf] in Wi. destruct Wi as (_ & _ & I). pose proof (zb_bound _ _ _ I) as Bz. rewrite Forall_forall in Bz.
  cbn [with_ids_dense_to_sparse fids]. fold (zb p i).
  pose proof Rd as Rd'. apply represents_elem in Rd' as (V & S & E).
  destruct (copy_ids_ok (length l) (vals (ar_data a)) p i I ltac:(unfold da_size in S; lia) (alloc (length i)) 0)
    as (vs & Ev & Lv & _ & Rv); [rewrite HA; lia|]. rewrite Ev. cbn [bind]. rewrite HA in Lv.
  assert (Hval : forall k z, k < length i -> nth k (at_ids l (zb p i)) None = Some z -> rd vs k = Some z).
  { intros k z Hk Hz. rewrite at_ids_nth, zb_nth in Hz by (rewrite zb_len; exact Hk).
    specialize (Rv k Hk). cbn [plus] in Rv. rewrite Rv.
    assert (nth k i 0 - p < length l) as Lk.
    { apply Bz. rewrite <- zb_nth. apply nth_In. rewrite zb_len. exact Hk. }
    rewrite <- E in Hz by exact Lk. unfold da_elem in Hz.
    destruct (rd (vals (ar_data a)) (nth k i 0 - p)); [|discriminate].
    destruct (da_pres (ar_data a) _); congruence. }
  assert (Hpres : forall k, k < length i -> is_some (nth k (at_ids l (zb p i)) None) = da_pres (ar_data a) (nth k i 0 - p)).
  { intros k Hk. rewrite at_ids_nth, zb_nth by (rewrite zb_len; exact Hk).
    assert (nth k i 0 - p < length l) as Lk.
    { apply Bz. rewrite <- zb_nth. apply nth_In. rewrite zb_len. exact Hk. }
    rewrite <- E by exact Lk. symmetry. apply da_elem_pres. lia. }
  destruct (bmp (ar_data a)) as [|w ws] eqn:Eb.
  - eexists; split; [reflexivity|].
    apply rep_mk; [rewrite at_ids_len, zb_len; exact Lv|constructor|left; reflexivity|].
    rewrite at_ids_len, zb_len. intros k Hk. split; [|intros z; apply Hval; exact Hk].
    rewrite Hpres by exact Hk. unfold da_pres. rewrite Eb. reflexivity.
  - rewrite (presence_at_ok (length l) _ l) by (auto || lia). cbn [bind].
    set (bits := map (fun x0 => is_some (nth (x0 - p) l None)) i).
    assert (length bits = length i) as Lb by apply map_length. rewrite <- Lb.
    destruct (built_bitmap bits) as (b & Ebb & Fb & Sb & Hb). rewrite Ebb. cbn [bind].
    eexists; split; [reflexivity|].
    apply rep_mk; [rewrite at_ids_len, zb_len; lia|exact Fb|rewrite Lv, <- Lb; exact Sb|].
    rewrite at_ids_len, zb_len. intros k Hk. split; [|intros z; apply Hval; exact Hk].
    rewrite Hb by lia. unfold bits. rewrite at_ids_nth, zb_nth by (rewrite zb_len; exact Hk).
    rewrite (nth_indep _ false ((fun x0 => is_some (nth (x0 - p) l None)) 0)) by (rewrite map_length; exact Hk).
    rewrite (map_nth (fun x0 => is_some (nth (x0 - p) l None))). reflexivity.
Qed.

Lemma at_ids_const l (v : option A) ids : (forall i, In i ids -> nth i l None = v) -> at_ids l ids = repeat v (length ids).
Proof.
  induction ids as [|x t IH]; intros H; [reflexivity|]. cbn [at_ids map length repeat]. f_equal.
  - apply H. left. reflexivity.
  - apply IH. intros i Hi. apply H. right. exact Hi.
Qed.

Lemma with_ids_ok a l ids m : ar_rep a l -> fwf (length l) ids ->
  exists r, with_ids alloc allocw a ids m = Some r /\
    ar_rep r (select (fun i => nth i l None) (fids (length l) ids) m (length l)) /\
    ar_ids r = (if length l =? 0 then FEmpty else ids) /\
    (ar_ids r <> FFull -> ar_miss r = m).
Proof.
  intros R Wi. pose proof R as R'. apply ar_char in R' as (Wa & Sz & _ & Rd & M).
  unfold with_ids. rewrite Sz.
  assert (G : forall d, represents d (at_ids l (fids (length l) ids)) -> 0 < length l ->
     ar_rep (ar_make (length l) ids d m) (select (fun i => nth i l None) (fids (length l) ids) m (length l)) /\
     ar_ids (ar_make (length l) ids d m) = (if length l =? 0 then FEmpty else ids) /\
     (ar_ids (ar_make (length l) ids d m) <> FFull -> ar_miss (ar_make (length l) ids d m) = m)).
  { intros d Hd L. split; [apply make_rep; assumption|]. cbn [ar_make ar_ids ar_miss].
    replace (length l =? 0) with false by lia. split; [reflexivity|].
    destruct ids; congruence. }
  assert (G0 : ids = FEmpty \/ length l = 0 ->
    exists r, Some (ar_const (length l) m) = Some r /\
    ar_rep r (select (fun i => nth i l None) (fids (length l) ids) m (length l)) /\
    ar_ids r = (if length l =? 0 then FEmpty else ids) /\
    (ar_ids r <> FFull -> ar_miss r = m)).
  { intros H. exists (ar_const (length l) m). split; [reflexivity|].
    split; [|split; [cbn [ar_const ar_ids]; destruct (length l =? 0) eqn:Q; [reflexivity|]; destruct H; [congruence|lia]|reflexivity]].
    replace (select (fun i => nth i l None) (fids (length l) ids) m (length l)) with (repeat m (length l)); [apply ar_const_rep|].
    destruct H as [->|H]; [|rewrite H; reflexivity].
    cbn [fids]. symmetry. apply select_nil. }
  destruct (length l =? 0) eqn:L0; [rewrite orb_true_r; apply G0; right; lia|].
  rewrite orb_false_r.
  destruct ids as [| |x i p] eqn:Ei; [apply G0; left; reflexivity| |]; rewrite <- Ei in *.
  - (* full *)
    destruct (is_same (ar_ids a) ids) eqn:Q.
    { apply is_same_eq in Q. rewrite Q in Rd. eexists; split; [reflexivity|]. apply G; [exact Rd|lia]. }
    assert (exists d, match ar_ids a with
              | FEmpty => Some (match ar_miss a with Some v => create_const (target_size (length l) ids) v
                        | None => create_empty (alloc (target_size (length l) ids)) end)
              | FPartial _ _ _ => with_ids_from_sparse alloc a ids
              | FFull => with_ids_dense_to_sparse alloc allocw a ids end = Some d /\
              represents d (at_ids l (fids (length l) ids))) as (d & Ed & Hd).
    { destruct (ar_ids a) as [| |y j q] eqn:Ea.
      - eexists; split; [reflexivity|]. cbn [fids] in M.
        rewrite (at_ids_const l (ar_miss a)).
        2:{ intros k Hk. apply M; [|auto]. pose proof (proj2 (fids_asc _ _ Wi)) as Bi.
            rewrite Forall_forall in Bi. apply Bi. exact Hk. }
        rewrite (target_len _ _ Wi) by (rewrite Ei; discriminate).
        destruct (ar_miss a) as [v|]; [apply rep_const|]. rewrite <- (HA (length (fids (length l) ids))) at 2. apply rep_empty.
      - rewrite Ei in Q. discriminate.
      - apply from_sparse_ok; auto; [rewrite Ea; eauto|rewrite Ei; discriminate]. }
    rewrite Ed. cbn [bind]. eexists; split; [reflexivity|]. apply G; [exact Hd|lia].
  - destruct (is_same (ar_ids a) ids) eqn:Q.
    { apply is_same_eq in Q. rewrite Q in Rd. eexists; split; [reflexivity|]. apply G; [exact Rd|lia]. }
    assert (exists d, match ar_ids a with
              | FEmpty => Some (match ar_miss a with Some v => create_const (target_size (length l) ids) v
                        | None => create_empty (alloc (target_size (length l) ids)) end)
              | FPartial _ _ _ => with_ids_from_sparse alloc a ids
              | FFull => with_ids_dense_to_sparse alloc allocw a ids end = Some d /\
              represents d (at_ids l (fids (length l) ids))) as (d & Ed & Hd).
    { destruct (ar_ids a) as [| |y j q] eqn:Ea.
      - eexists; split; [reflexivity|]. cbn [fids] in M.
        rewrite (at_ids_const l (ar_miss a)).
        2:{ intros k Hk. apply M; [|auto]. pose proof (proj2 (fids_asc _ _ Wi)) as Bi.
            rewrite Forall_forall in Bi. apply Bi. exact Hk. }
        rewrite (target_len _ _ Wi) by (rewrite Ei; discriminate).
        destruct (ar_miss a) as [v|]; [apply rep_const|]. rewrite <- (HA (length (fids (length l) ids))) at 2. apply rep_empty.
      - apply dense_to_sparse_ok; auto. rewrite Ei. eauto.
      - apply from_sparse_ok; auto; [rewrite Ea; eauto|rewrite Ei; discriminate]. }
    rewrite Ed. cbn [bind]. eexists; split; [reflexivity|]. apply G; [exact Hd|lia].
Qed.

Lemma to_dense_ok a l : ar_rep a l ->
  exists r, to_dense_form alloc allocw a = Some r /\ ar_rep r l /\
    ar_ids r = (if length l =? 0 then FEmpty else FFull).
Proof.
  intros R. destruct (with_ids_ok a l FFull None R I) as (r & E & Rr & Ei & _).
  exists r. split; [exact E|]. split; [|exact Ei].
  replace l with (select (fun i => nth i l None) (fids (length l) FFull) None (length l)) at 1; [exact Rr|].
  apply (nth_ext _ _ None None); [apply select_len|]. intros i Hi. rewrite select_len in Hi.
  rewrite select_nth by exact Hi. rewrite (proj2 (mem_In i _)); [reflexivity|]. cbn [fids]. apply in_seq. lia.
Qed.

(** ** ToSparseForm *)
Lemma gb_firstn (ws : list N) n i : n <= length ws -> i < W * n -> gb (firstn n ws) i = gb ws i.
Proof.
  intros Hn Hi. unfold get_bit. replace (rd (firstn n ws) (i / W)) with (rd ws (i / W)); [reflexivity|].
  assert (i / W < n) by (apply div_lt_iff; [apply H32|exact Hi]).
  unfold rd. rewrite <- (firstn_skipn n ws) at 1. rewrite nth_error_app1; [reflexivity|]. rewrite firstn_length. lia.
Qed.
Lemma push_ok cap l x : length l < cap -> push cap l x = Some (l ++ [x]).
Proof. intros H. unfold push. replace (length l <? cap) with true by lia. reflexivity. Qed.
Lemma push_range_ok cap n : forall l from, length l + n <= cap -> push_range cap l from n = Some (l ++ seq from n).
Proof.
  induction n as [|n IH]; intros l from H; cbn [push_range seq]; [rewrite app_nil_r; reflexivity|].
  rewrite push_ok by lia. cbn [bind]. rewrite IH by (rewrite app_length; cbn [length]; lia).
  rewrite <- app_assoc. reflexivity.
Qed.
Lemma filter_all_true {X} (p : X -> bool) l : (forall x, In x l -> p x = true) -> filter p l = l.
Proof.
  induction l as [|x t IH]; intros H; [reflexivity|]. cbn [filter]. rewrite (H x) by (left; reflexivity).
  f_equal. apply IH. intros y Hy. apply H. right. exact Hy.
Qed.
Definition nextid (fa : list nat) (k : nat) : nat := match k with 0 => 0 | S j => S (nth j fa 0) end.
Lemma gap fa k j : ascending fa -> k <= length fa -> nextid fa k <= j -> (k < length fa -> j < nth k fa 0) -> ~ In j fa.
Proof.
  intros As Hk L U Hin. destruct (In_nth _ _ 0 Hin) as (o & Lo & Eo).
  destruct (le_lt_dec k o) as [C|C].
  - specialize (U ltac:(lia)). pose proof (asc_le fa k o As ltac:(lia)). lia.
  - destruct k as [|k]; [lia|]. cbn [nextid] in L. pose proof (asc_le fa o k As ltac:(lia)). lia.
Qed.
Lemma next_le fa k : ascending fa -> k < length fa -> nextid fa k <= nth k fa 0.
Proof.
  intros As Hk. destruct k as [|k]; cbn [nextid]; [lia|]. apply As; lia.
Qed.
Lemma next_bound fa k n : Forall (fun i => i < n) fa -> k <= length fa -> nextid fa k <= n.
Proof.
  intros F Hk. destruct k as [|k]; cbn [nextid]; [lia|]. rewrite Forall_forall in F.
  apply F. apply nth_In. lia.
Qed.
Lemma seq_to n : forall m, n <= m -> seq 0 m = seq 0 n ++ seq n (m - n).
Proof. intros m H. rewrite <- seq_app. f_equal. lia. Qed.

Section Sparse.
Variable eqb : A -> A -> bool.
Definition differs (e m : option A) : bool :=
  match e, m with Some v, Some x => negb (eqb x v) | None, None => false | _, _ => true end.

Lemma offset_id a l o : ar_rep a l -> is_sparse_form a = true -> o < length (fids (length l) (ar_ids a)) ->
  ids_offset_to_id (ar_ids a) o = Some (nth o (fids (length l) (ar_ids a)) 0).
Proof.
  intros R P Ho. apply ar_char in R as (Wa & _). unfold is_sparse_form in P.
  apply (ids_offset_to_id_ok (length l)); [exact Wa|destruct (ar_ids a); eauto; discriminate|].
  apply nth_error_nth'. exact Ho.
Qed.
Lemma sparse_of_calls a l (k : nat) : ar_rep a l -> is_dense_form a = false -> k < length (fids (length l) (ar_ids a)) ->
  is_sparse_form a = true.
Proof.
  intros _ D K. unfold is_dense_form, is_sparse_form in *. destruct (ar_ids a); [simpl in K; lia|discriminate|reflexivity].
Qed.

(** The result of a selection of ids, as seen by the reader. *)
Definition sparse_result (l : list (option A)) (ids : list nat) (m : option A) (r : arr A) : Prop :=
  ar_rep r (select (fun i => nth i l None) ids m (length l)) /\
  fids (length l) (ar_ids r) = ids /\ (ar_ids r <> FFull -> ar_miss r = m).

Lemma changed_ok addr a l m : ar_rep a l -> is_dense_form a = false ->
  exists r, to_sparse_changed eqb alloc allocw addr a m = Some r /\
    sparse_result l (filter (fun i => match index_of i (fids (length l) (ar_ids a)) with
        Some _ => differs (nth i l None) m | None => true end) (seq 0 (length l))) m r.
Proof.
  intros R D. pose proof R as R'. apply ar_char in R' as (Wa & Sz & _ & Rd & M).
  set (fa := fids (length l) (ar_ids a)) in *.
  set (keep := fun i => match index_of i fa with Some _ => differs (nth i l None) m | None => true end).
  destruct (fids_asc _ _ Wa) as [Aa Ba]. fold fa in Aa, Ba.
  unfold to_sparse_changed. destruct (calls_ok _ _ Rd) as (cs & Ec & Lc & Hc). rewrite at_ids_len in Lc.
  rewrite Ec. cbn [bind]. rewrite Sz.
  assert (Fk : forall x y, x <= y -> (forall j, x <= j < y -> ~ In j fa) ->
    filter keep (seq 0 x) ++ seq x (y - x) = filter keep (seq 0 y)).
  { intros x y L H. rewrite (seq_to x y L), filter_app. f_equal. symmetry. apply filter_all_true.
    intros j Hj. apply in_seq in Hj. unfold keep. rewrite (proj2 (index_of_none j fa)); [reflexivity|].
    apply H. lia. }
  assert (Lk : forall x, length (filter keep (seq 0 x)) <= x).
  { intros x. pose proof (filter_len keep (seq 0 x)) as Q. rewrite seq_length in Q. exact Q. }
  destruct (fold_inv (changed_step eqb (length l) (ar_ids a) m)
    (fun k st => st = (filter keep (seq 0 (nextid fa k)), nextid fa k)) cs ([], 0)) as (st & Es & Is).
  - reflexivity.
  - intros k c st Hk ->. assert (k < length fa) as Lkk by (rewrite <- Lc; apply nth_error_Some; congruence).
    destruct (Hc k c Hk) as (C1 & C2 & C3 & C4). destruct c as [[o p] v]. cbn [fst snd] in *. subst o.
    cbn [changed_step]. rewrite (offset_id a l) by (auto; eapply sparse_of_calls; eauto). fold fa. cbn [bind].
    pose proof (next_le fa k Aa Lkk) as N1. rewrite Forall_forall in Ba.
    assert (nth k fa 0 < length l) as N2 by (apply Ba, nth_In; exact Lkk).
    rewrite push_range_ok by (specialize (Lk (nextid fa k)); lia). cbn [bind].
    rewrite Fk by (auto; intros j Hj; apply (gap fa k); auto; lia).
    rewrite at_ids_nth in C2, C4 by exact Lkk.
    assert (Ed : match p, m with true, Some x => negb (eqb x v) | false, None => false | _, _ => true end
                 = keep (nth k fa 0)).
    { unfold keep. rewrite index_of_nth by assumption. rewrite C2. unfold differs.
      destruct (nth (nth k fa 0) l None) as [z|] eqn:Ez; cbn [is_some]; [|destruct m; reflexivity].
      rewrite (C4 z eq_refl). destruct m; reflexivity. }
    rewrite Ed. eexists; split; [|reflexivity]. cbn [nextid].
    rewrite (seq_S (nth k fa 0) 0), filter_app. cbn [filter plus].
    destruct (keep (nth k fa 0)).
    + rewrite push_ok by (specialize (Lk (nth k fa 0)); lia). reflexivity.
    + rewrite app_nil_r. reflexivity.
  - rewrite Es. cbn [bind]. subst st. rewrite Lc.
    pose proof (next_bound fa (length fa) (length l) Ba ltac:(lia)) as N.
    rewrite push_range_ok by (specialize (Lk (nextid fa (length fa))); lia). cbn [bind].
    rewrite Fk by (auto; intros j Hj; apply (gap fa (length fa)); auto; lia).
    assert (II : ids_in (length l) 0 (filter keep (seq 0 (length l)))).
    { apply ids_in_0; [apply asc_filter, seq_asc|]. intros x Hx. apply filter_In in Hx as [Hx _].
      apply in_seq in Hx. lia. }
    destruct (mk_filter_ok (length l) addr _ 0 II) as [Wf Ff].
    fold (zb 0 (filter keep (seq 0 (length l)))) in Ff. rewrite zb_0 in Ff.
    destruct (with_ids_ok a l _ m R Wf) as (r & Er & Rr & Ei & Em). rewrite Er.
    exists r. split; [reflexivity|]. rewrite Ff in Rr. split; [exact Rr|]. split; [|exact Em].
    rewrite Ei. destruct (length l =? 0) eqn:L0; [|exact Ff].
    apply Nat.eqb_eq in L0. rewrite L0. reflexivity.
Qed.

Lemma differ_fold_ok d (l : list (option A)) x : represents d l ->
  exists cs, da_for_each d = Some cs /\
  fold_opt (differ_step eqb (length l) x) cs [] =
    Some (filter (fun o => match nth o l None with Some v => negb (eqb v x) | None => true end) (seq 0 (length l))).
Proof.
  intros R. destruct (calls_ok _ _ R) as (cs & Ec & Lc & Hc). exists cs. split; [exact Ec|].
  set (keep := fun o => match nth o l None with Some v => negb (eqb v x) | None => true end).
  destruct (fold_inv (differ_step eqb (length l) x) (fun k ids => ids = filter keep (seq 0 k)) cs [] eq_refl) as (y & Ey & Iy).
  - intros k c ids Hk ->. assert (k < length l) as Lk by (rewrite <- Lc; apply nth_error_Some; congruence).
    destruct (Hc k c Hk) as (C1 & C2 & C3 & C4). destruct c as [[o p] v]. cbn [fst snd] in *. subst o.
    cbn [differ_step]. rewrite (seq_S k 0), filter_app. cbn [filter plus].
    assert (Ed : negb p || negb (eqb v x) = keep k).
    { unfold keep. rewrite C2. destruct (nth k l None) as [z|]; cbn [is_some negb orb]; [|reflexivity].
      rewrite (C4 z eq_refl). reflexivity. }
    rewrite Ed. destruct (keep k).
    + rewrite push_ok; [eauto|]. pose proof (filter_len keep (seq 0 k)) as Q. rewrite seq_length in Q. lia.
    + rewrite app_nil_r. eauto.
  - rewrite Ey, Iy, Lc. reflexivity.
Qed.

(** Compacting the kept elements of the data. *)
Definition compacted (d : darr A) (offs : list nat) (vs : list A) : Prop :=
  length vs = da_size d /\ forall j, j < length offs -> rd vs j = rd (vals d) (nth j offs 0).

Lemma filter_app1 (p : nat -> bool) k : filter p (seq 0 (S k)) = filter p (seq 0 k) ++ (if p k then [k] else []).
Proof. rewrite (seq_S k 0), filter_app. cbn [filter plus]. destruct (p k); reflexivity. Qed.

Lemma data_id_ok a l o : ar_rep a l -> o < length (fids (length l) (ar_ids a)) ->
  data_id a o = Some (nth o (fids (length l) (ar_ids a)) 0).
Proof.
  intros R Ho. unfold data_id. destruct (is_dense_form a) eqn:D.
  - unfold is_dense_form in D. destruct (ar_ids a); try discriminate. cbn [fids] in *.
    rewrite seq_length in Ho. rewrite seq_nth by exact Ho. reflexivity.
  - apply offset_id; auto. eapply sparse_of_calls; eauto.
Qed.

Lemma compact_push d offs vs k : compacted d offs vs -> length offs < da_size d -> k < da_size d ->
  exists vs', rs_copy vs (vals d) (length offs) k = Some vs' /\ compacted d (offs ++ [k]) vs'.
Proof.
  intros [L H] Lo Lk. unfold rs_copy. destruct (rd_lt (vals d) k) as [v Ev]; [exact Lk|]. rewrite Ev. cbn [bind].
  destruct (upd_lt vs (length offs) v) as [vs' E]; [lia|]. exists vs'. split; [exact E|].
  apply upd_spec in E as (_ & L' & R'). split; [lia|]. intros j Hj. rewrite app_length in Hj. cbn [length] in Hj.
  rewrite R'. destruct (Nat.eqb_spec j (length offs)) as [->|Ne].
  - rewrite app_nth2, Nat.sub_diag by lia. cbn [nth]. symmetry. exact Ev.
  - rewrite app_nth1 by lia. apply H. lia.
Qed.

Lemma copy_fold_ok a l keep (kp : nat -> bool) cs : ar_rep a l ->
  length cs = length (fids (length l) (ar_ids a)) ->
  (forall k c, nth_error cs k = Some c -> fst (fst c) = k /\ keep k (snd (fst c)) (snd c) = kp k) ->
  exists vs, fold_opt (copy_step keep a) cs ([], alloc (da_size (ar_data a))) =
    Some (map (fun o => nth o (fids (length l) (ar_ids a)) 0) (filter kp (seq 0 (length cs))), vs) /\
    compacted (ar_data a) (filter kp (seq 0 (length cs))) vs.
Proof.
  intros R Lc Hc. pose proof R as R'. apply ar_char in R' as (Wa & Sz & _ & Rd & M).
  set (fa := fids (length l) (ar_ids a)) in *.
  assert (Sd : da_size (ar_data a) = length fa) by (destruct Rd as (_ & Q & _); rewrite at_ids_len in Q; exact Q).
  destruct (fold_inv (copy_step keep a)
    (fun k st => fst st = map (fun o => nth o fa 0) (filter kp (seq 0 k)) /\
                 compacted (ar_data a) (filter kp (seq 0 k)) (snd st)) cs ([], alloc (da_size (ar_data a)))) as (st & Es & I1 & I2).
  - cbn [fst snd seq filter map]. split; [reflexivity|]. split; [apply HA|]. cbn [length]. lia.
  - intros k c [ids vs] Hk [I1 I2]. cbn [fst snd] in *. subst ids.
    assert (k < length fa) as Lk by (rewrite <- Lc; apply nth_error_Some; congruence).
    destruct (Hc k c Hk) as (C1 & C2). destruct c as [[o p] v]. cbn [fst snd] in *. subst o.
    cbn [copy_step]. rewrite C2. rewrite filter_app1. destruct (kp k) eqn:K.
    + rewrite (data_id_ok a l) by auto. fold fa. cbn [bind]. rewrite map_length.
      pose proof (filter_len kp (seq 0 k)) as Q. rewrite seq_length in Q.
      destruct (compact_push _ _ _ k I2 ltac:(lia) ltac:(lia)) as (vs' & E & I'). rewrite E. cbn [bind].
      rewrite push_ok by (rewrite map_length; lia). cbn [bind].
      eexists; split; [reflexivity|]. cbn [fst snd]. rewrite map_app. split; [reflexivity|exact I'].
    + rewrite app_nil_r. eexists; split; [reflexivity|]. cbn [fst snd]. split; [reflexivity|exact I2].
  - destruct st as [ids vs]. cbn [fst snd] in *. exists vs. rewrite Es, I1. split; [reflexivity|exact I2].
Qed.

Lemma filter_ids_asc fa (kp : nat -> bool) n : ascending fa -> Forall (fun i => i < n) fa ->
  ids_in n 0 (map (fun o => nth o fa 0) (filter kp (seq 0 (length fa)))).
Proof.
  intros As F. apply ids_in_0.
  - intros i j Hij. rewrite map_length in Hij.
    set (fl := filter kp (seq 0 (length fa))) in *.
    assert (Afl : ascending fl) by apply asc_filter, seq_asc.
    rewrite !(nth_indep (map _ fl) 0 ((fun o => nth o fa 0) 0)) by (rewrite map_length; lia).
    rewrite !(map_nth (fun o => nth o fa 0)). apply As.
    assert (In (nth j fl 0) fl) as Hj by (apply nth_In; lia). apply filter_In in Hj as [Hj _]. apply in_seq in Hj.
    specialize (Afl i j ltac:(lia)). lia.
  - intros x Hx. apply in_map_iff in Hx as (o & <- & Ho). apply filter_In in Ho as [Ho _]. apply in_seq in Ho.
    rewrite Forall_forall in F. apply F. apply nth_In. lia.
Qed.

(** Assembling the result from compacted values. *)
Lemma compact_result addr a l (kp : nat -> bool) vs bm m : ar_rep a l ->
  let fa := fids (length l) (ar_ids a) in
  let offs := filter kp (seq 0 (length fa)) in
  let ids := map (fun o => nth o fa 0) offs in
  (forall o, In o offs -> forall x, nth (nth o fa 0) l None = Some x -> forall vs', buf_slice vs 0 (length ids) = Some vs' ->
     forall j, j < length offs -> nth j offs 0 = o -> rd vs' j = Some x) ->
  length vs = length fa ->
  Forall (fun x => x < 2 ^ 32)%N bm -> (bm = [] \/ length bm = bitmap_size (length ids)) ->
  (forall j, j < length ids -> match bm with [] => true | _ => bt bm j end = is_some (nth (nth j ids 0) l None)) ->
  exists r, (let? vs' := buf_slice vs 0 (length ids) in
    Some (ar_make (ar_size a) (mk_filter (ar_size a) addr ids 0) (mkD vs' bm 0) m)) = Some r /\
    sparse_result l ids m r.
Proof.
  intros R fa offs ids Hv Lv Fb Sb Hb. apply ar_char in R as (Wa & Sz & _ & Rd & M).
  destruct (fids_asc _ _ Wa) as [Aa Ba]. fold fa in Aa, Ba.
  assert (Li : length ids = length offs) by apply map_length.
  pose proof (filter_len kp (seq 0 (length fa))) as Q. rewrite seq_length in Q. fold offs in Q.
  destruct (buf_slice_ok vs 0 (length ids)) as (vs' & Ev & Lv' & Rv); [lia|].
  rewrite Ev. cbn [bind]. rewrite Sz. eexists; split; [reflexivity|].
  pose proof (filter_ids_asc fa kp (length l) Aa Ba) as II. fold offs in II. fold ids in II.
  destruct (mk_filter_ok (length l) addr ids 0 II) as [Wf Ff]. fold (zb 0 ids) in Ff. rewrite zb_0 in Ff.
  split; [|split; [exact Ff|cbn [ar_make ar_ids ar_miss]; destruct (mk_filter (length l) addr ids 0); congruence]].
  rewrite <- Ff at 2. apply make_rep; [exact Wf|]. rewrite Ff.
  fold (at_ids l ids). apply rep_mk; [rewrite at_ids_len; exact Lv'|exact Fb|rewrite Lv'; exact Sb|].
  rewrite at_ids_len. intros j Hj. rewrite at_ids_nth by exact Hj. split; [apply Hb; exact Hj|].
  intros x Hx. assert (nth j ids 0 = nth (nth j offs 0) fa 0) as Eids.
  { unfold ids. rewrite (nth_indep _ 0 ((fun o => nth o fa 0) 0)) by (fold ids; lia).
    apply (map_nth (fun o => nth o fa 0)). }
  rewrite Eids in Hx. apply (Hv (nth j offs 0)) with (j := j); auto; [apply nth_In; lia|lia].
Qed.

Lemma to_sparse_without_ok addr a l : ar_rep a l -> ar_miss a = None ->
  exists r, to_sparse_without alloc addr a = Some r /\
   sparse_result l (map (fun o => nth o (fids (length l) (ar_ids a)) 0)
     (filter (fun o => is_some (nth (nth o (fids (length l) (ar_ids a)) 0) l None))
        (seq 0 (length (fids (length l) (ar_ids a)))))) None r.
Proof.
  intros R Hm. pose proof R as R'. apply ar_char in R' as (Wa & Sz & _ & Rd & M).
  set (fa := fids (length l) (ar_ids a)) in *.
  unfold to_sparse_without. pose proof Rd as Rd'. apply represents_elem in Rd' as (V & S & E). rewrite at_ids_len in S, E.
  destruct (bmp (ar_data a)) as [|w ws] eqn:Eb.
  - exists a. split; [reflexivity|].
    rewrite filter_all_true.
    2:{ intros o Ho. apply in_seq in Ho. specialize (E o ltac:(lia)). rewrite at_ids_nth in E by lia. rewrite <- E.
        transitivity (da_pres (ar_data a) o); [symmetry; apply da_elem_pres; lia|]. unfold da_pres. rewrite Eb. reflexivity. }
    rewrite <- list_as_map. split; [|split; [reflexivity|intros _; exact Hm]].
    replace (select (fun i => nth i l None) fa None (length l)) with l; [exact R|].
    apply (nth_ext _ _ None None); [rewrite select_len; reflexivity|]. intros i Hi. rewrite select_nth by exact Hi.
    destruct (mem i fa) eqn:Q; [reflexivity|]. apply mem_false in Q. etransitivity; [apply M; auto|exact Hm].
  - destruct (calls_ok _ _ Rd) as (cs & Ec & Lc & Hc). rewrite at_ids_len in Lc. rewrite Ec. cbn [bind].
    set (kp := fun o => is_some (nth (nth o fa 0) l None)).
    destruct (copy_fold_ok a l (fun _ p _ => p) kp cs R Lc) as (vs & Ef & [Lv Rv]).
    { intros k c Hk. destruct (Hc k c Hk) as (C1 & C2 & _). split; [exact C1|].
      assert (k < length fa) by (rewrite <- Lc; apply nth_error_Some; congruence).
      rewrite C2, at_ids_nth by assumption. reflexivity. }
    rewrite Ef. cbn [bind]. fold fa. rewrite Lc in *.
    apply (compact_result addr a l kp vs [] None R).
    + fold fa. intros o Ho x Hx vs' Es j Hj Ej. fold fa in Es. rewrite map_length in Es.
      pose proof (filter_len kp (seq 0 (length fa))) as Q. rewrite seq_length in Q.
      destruct (buf_slice_ok vs 0 (length (filter kp (seq 0 (length fa))))) as (vs2 & E2 & _ & R2); [lia|].
      assert (vs2 = vs') by congruence. subst vs2. rewrite R2. replace (j <? _) with true by lia. cbn [plus]. rewrite Rv, Ej by exact Hj.
      apply filter_In in Ho as [Ho _]. apply in_seq in Ho. specialize (E o ltac:(lia)).
      rewrite at_ids_nth in E by lia. rewrite Hx in E. unfold da_elem in E.
      destruct (rd (vals (ar_data a)) o); [|discriminate]. destruct (da_pres (ar_data a) o); congruence.
    + fold fa. lia.
    + constructor.
    + left. reflexivity.
    + fold fa. intros j Hj. rewrite map_length in Hj. symmetry.
      rewrite (nth_indep _ 0 ((fun o => nth o fa 0) 0)) by (rewrite map_length; exact Hj).
      rewrite (map_nth (fun o => nth o fa 0)).
      assert (In (nth j (filter kp (seq 0 (length fa))) 0) (filter kp (seq 0 (length fa)))) as Hin by (apply nth_In; exact Hj).
      apply filter_In in Hin as [_ Hin]. exact Hin.
Qed.

Definition keptv (x : A) (e : option A) : bool := match e with Some v => negb (eqb v x) | None => true end.
(** The state in which Build(size) is called although nothing was missed. *)
Definition null_bitmap (a : arr A) (l : list (option A)) (x : A) : Prop :=
  is_sparse_form a = true /\ bmp (ar_data a) <> [] /\
  (forall i, In i (fids (length l) (ar_ids a)) -> nth i l None <> None) /\
  exists i, In i (fids (length l) (ar_ids a)) /\ keptv x (nth i l None) = true.

Lemma af_fresh n : af_inv n (af_init n) [].
Proof. split; reflexivity. Qed.


Definition af_wok (af : almost_full) : Prop := match af_buf af with Some ws => Forall (wok W) ws | None => True end.
Lemma af_add_wok af j af' : af_wok af -> af_add_missed af j = Some af' -> af_wok af'.
Proof.
  unfold af_wok, af_add_missed. intros H E.
  assert (H' : forall ws, match af_buf af with Some ws => Some ws | None => create_full_bitmap (af_bits af) end = Some ws ->
    Forall (wok W) ws).
  { intros ws Hw. destruct (af_buf af); [congruence|].
    assert (F : Forall (wok W) (repeat full_word (bitmap_size (af_bits af)))).
    { apply Forall_forall. intros y Hy. apply repeat_spec in Hy. subst y. apply wok_ones. }
    unfold create_full_bitmap in Hw. destruct (negb _); [|congruence].
    destruct (rd _ _) as [y|] eqn:Ey in Hw; [|discriminate]. cbn [bind] in Hw.
    destruct (wshl _ _ _) as [m|] in Hw; [|discriminate]. cbn [bind] in Hw.
    eapply Forall_upd; [exact F| |exact Hw]. apply wok_land. eapply wok_rd; [exact F|exact Ey]. }
  destruct (match af_buf af with Some ws => Some ws | None => create_full_bitmap (af_bits af) end) as [ws|]; [|discriminate].
  cbn [bind] in E. destruct (bm_unset_bit ws j) as [ws'|] eqn:Eu; [|discriminate]. cbn [bind] in E. injection E as <-.
  cbn [af_buf]. eapply unset_wok; [apply H'; reflexivity|exact Eu].
Qed.

Definition bf_inv (d : darr A) (l : list (option A)) (fa offs : list nat) (st : list nat * list A * almost_full) : Prop :=
  fst (fst st) = map (fun o => nth o fa 0) offs /\
  length (snd (fst st)) = length fa /\
  (forall j z, j < length offs -> nth (nth (nth j offs 0) fa 0) l None = Some z -> rd (snd (fst st)) j = Some z) /\
  exists missed, af_inv (length fa) (snd st) missed /\ af_wok (snd st) /\
    Forall (fun j => j < length offs) missed /\
    forall j, j < length offs -> negb (existsb (Nat.eqb j) missed) = is_some (nth (nth (nth j offs 0) fa 0) l None).

Lemma bitmap_fold_ok a l x cs : ar_rep a l -> is_dense_form a = false ->
  da_for_each (ar_data a) = Some cs ->
  let fa := fids (length l) (ar_ids a) in
  let kp := fun o => keptv x (nth (nth o fa 0) l None) in
  exists st, fold_opt (bitmap_step eqb x a) cs ([], alloc (da_size (ar_data a)), af_init (da_size (ar_data a))) = Some st /\
    bf_inv (ar_data a) l fa (filter kp (seq 0 (length fa))) st.
Proof.
  intros R D Ec fa kp. pose proof R as R'. apply ar_char in R' as (Wa & Sz & _ & Rd & M). fold fa in Rd, M.
  assert (Sd : da_size (ar_data a) = length fa) by (destruct Rd as (_ & Q & _); rewrite at_ids_len in Q; exact Q).
  destruct (calls_ok _ _ Rd) as (cs' & Ec' & Lc & Hc). rewrite at_ids_len in Lc.
  assert (cs' = cs) by congruence. subst cs'. rewrite Sd.
  destruct (fold_inv (bitmap_step eqb x a) (fun k st => bf_inv (ar_data a) l fa (filter kp (seq 0 k)) st) cs
     ([], alloc (length fa), af_init (length fa))) as (st & Es & Is).
  - split; [reflexivity|]. split; [apply HA|]. split; [cbn [seq filter length]; lia|].
    exists []. split; [apply af_fresh|]. split; [exact Logic.I|]. split; [constructor|]. cbn [seq filter length]. lia.
  - intros k c [[ids vs] af] Hk (I1 & I2 & I3 & missed & I4 & I5 & I6 & I7). cbn [fst snd] in *. subst ids.
    assert (k < length fa) as Lk by (rewrite <- Lc; apply nth_error_Some; congruence).
    destruct (Hc k c Hk) as (C1 & C2 & C3 & C4). destruct c as [[o p] v]. cbn [fst snd] in *. subst o.
    rewrite at_ids_nth in C2, C4 by exact Lk.
    cbn [bitmap_step]. rewrite filter_app1.
    assert (Ep : p && eqb v x = negb (kp k)).
    { unfold kp, keptv. rewrite C2. destruct (nth (nth k fa 0) l None) as [z|]; cbn [is_some andb]; [|reflexivity].
      rewrite (C4 z eq_refl). rewrite negb_involutive. reflexivity. }
    rewrite Ep. destruct (kp k) eqn:K; cbn [negb].
    2:{ rewrite app_nil_r. eexists; split; [reflexivity|].
        split; [reflexivity|]. split; [exact I2|]. split; [exact I3|]. exists missed. auto. }
    rewrite (offset_id a l) by (auto; eapply sparse_of_calls; eauto). fold fa. cbn [bind].
    pose proof (filter_len kp (seq 0 k)) as Q. rewrite seq_length in Q.
    set (offs := filter kp (seq 0 k)) in *.
    rewrite push_ok by (rewrite map_length; lia). cbn [bind]. rewrite map_length.
    assert (Hlast : forall j, j < length (offs ++ [k]) -> j < length offs /\ nth j (offs ++ [k]) 0 = nth j offs 0 \/
       j = length offs /\ nth j (offs ++ [k]) 0 = k).
    { intros j Hj. rewrite app_length in Hj. cbn [length] in Hj. destruct (Nat.eq_dec j (length offs)) as [->|Ne].
      - right. split; [reflexivity|]. rewrite app_nth2, Nat.sub_diag by lia. reflexivity.
      - left. split; [lia|]. apply app_nth1. lia. }
    assert (Hm : ~ In (length offs) missed).
    { intros Hin. rewrite Forall_forall in I6. specialize (I6 _ Hin). lia. }
    destruct p.
    + unfold rs_copy. rewrite C3. cbn [bind].
      destruct (upd_lt vs (length offs) v) as [vs' E]; [lia|]. rewrite E. cbn [bind].
      apply upd_spec in E as (_ & L' & R'). eexists; split; [reflexivity|].
      split; [cbn [fst]; rewrite map_app; reflexivity|]. cbn [fst snd]. split; [lia|]. split.
      * intros j z Hj Hz. rewrite R'. destruct (Hlast j Hj) as [[H1 H2]|[H1 H2]]; rewrite H2 in Hz.
        -- replace (j =? length offs) with false by lia. apply I3; assumption.
        -- subst j. rewrite Nat.eqb_refl. f_equal. apply C4. exact Hz.
      * exists missed. split; [exact I4|]. split; [exact I5|]. split.
        -- eapply Forall_impl; [|exact I6]. cbv beta. intros y Hy. rewrite app_length. lia.
        -- intros j Hj. destruct (Hlast j Hj) as [[H1 H2]|[H1 H2]]; rewrite H2; [apply I7; exact H1|].
           subst j. rewrite <- C2. change (existsb (Nat.eqb (length offs)) missed) with (mem (length offs) missed).
           rewrite (proj2 (mem_false _ _)) by exact Hm. reflexivity.
    + destruct (af_add_ok (length fa) af missed (length offs) I4 ltac:(lia)) as (af' & Ea & Ia).
      rewrite Ea. cbn [bind]. eexists; split; [reflexivity|].
      split; [cbn [fst]; rewrite map_app; reflexivity|]. cbn [fst snd]. split; [lia|]. split.
      * intros j z Hj Hz. destruct (Hlast j Hj) as [[H1 H2]|[H1 H2]]; rewrite H2 in Hz; [apply I3; assumption|].
        rewrite Hz in C2. discriminate.
      * exists (missed ++ [length offs]). split; [exact Ia|]. split; [eapply af_add_wok; eassumption|]. split.
        -- apply Forall_app. split; [|constructor; [rewrite app_length; cbn [length]; lia|constructor]].
           eapply Forall_impl; [|exact I6]. cbv beta. intros y Hy. rewrite app_length. lia.
        -- intros j Hj. rewrite existsb_app. cbn [existsb]. rewrite orb_false_r.
           destruct (Hlast j Hj) as [[H1 H2]|[H1 H2]]; rewrite H2.
           ++ replace (j =? length offs) with false by lia. rewrite orb_false_r. apply I7. exact H1.
           ++ subst j. rewrite Nat.eqb_refl, orb_true_r, <- C2. reflexivity.
  - exists st. split; [exact Es|]. rewrite Lc in Is. exact Is.
Qed.

Definition kept_ids (l : list (option A)) (fa : list nat) (x : A) : list nat :=
  map (fun o => nth o fa 0) (filter (fun o => keptv x (nth (nth o fa 0) l None)) (seq 0 (length fa))).

Lemma to_sparse_with_ok addr a l x : ar_rep a l ->
  (~ null_bitmap a l x ->
   exists r, to_sparse_with eqb alloc allocw addr a x = Some r /\
     sparse_result l (kept_ids l (fids (length l) (ar_ids a)) x) (Some x) r) /\
  (null_bitmap a l x -> to_sparse_with eqb alloc allocw addr a x = None).
Proof.
  intros R. pose proof R as R'. apply ar_char in R' as (Wa & Sz & _ & Rd & M).
  unfold kept_ids. set (fa := fids (length l) (ar_ids a)) in *.
  set (kp := fun o => keptv x (nth (nth o fa 0) l None)).
  pose proof Rd as Rd'. apply represents_elem in Rd' as (V & S & E). rewrite at_ids_len in S, E.
  destruct (calls_ok _ _ Rd) as (cs & Ec & Lc & Hc). rewrite at_ids_len in Lc.
  destruct (fids_asc _ _ Wa) as [Aa Ba]. fold fa in Aa, Ba.
  unfold to_sparse_with. rewrite Ec. cbn [bind].
  destruct (bmp (ar_data a)) as [|w ws] eqn:Eb.
  - (* no bitmap *)
    split; [|intros (_ & N & _); congruence]. intros _. rewrite andb_false_r. cbn [negb].
    assert (P : forall o, o < length fa -> is_some (nth (nth o fa 0) l None) = true).
    { intros o Ho. specialize (E o Ho). rewrite at_ids_nth in E by lia. rewrite <- E.
      transitivity (da_pres (ar_data a) o); [symmetry; apply da_elem_pres; lia|]. unfold da_pres. rewrite Eb. reflexivity. }
    destruct (copy_fold_ok a l (fun _ _ v => negb (eqb v x)) kp cs R Lc) as (vs & Ef & [Lv Rv]).
    { intros k c Hk. destruct (Hc k c Hk) as (C1 & C2 & _ & C4). split; [exact C1|].
      assert (k < length fa) as Lk by (rewrite <- Lc; apply nth_error_Some; congruence).
      rewrite at_ids_nth in C4 by exact Lk. specialize (P k Lk). unfold kp, keptv.
      destruct (nth (nth k fa 0) l None) as [z|]; [|discriminate]. rewrite (C4 z eq_refl). reflexivity. }
    rewrite Ef. cbn [bind]. fold fa. rewrite Lc in *.
    apply (compact_result addr a l kp vs [] (Some x) R).
    + fold fa. intros o Ho z Hz vs' Es j Hj Ej. fold fa in Es. rewrite map_length in Es.
      pose proof (filter_len kp (seq 0 (length fa))) as Q. rewrite seq_length in Q.
      destruct (buf_slice_ok vs 0 (length (filter kp (seq 0 (length fa))))) as (vs2 & E2 & _ & R2); [lia|].
      assert (vs2 = vs') by congruence. subst vs2. rewrite R2. replace (j <? _) with true by lia. cbn [plus]. rewrite Rv, Ej by exact Hj.
      apply filter_In in Ho as [Ho _]. apply in_seq in Ho. specialize (E o ltac:(lia)).
      rewrite at_ids_nth in E by lia. rewrite Hz in E. unfold da_elem in E.
      destruct (rd (vals (ar_data a)) o); [|discriminate]. destruct (da_pres (ar_data a) o); congruence.
    + fold fa. lia.
    + constructor.
    + left. reflexivity.
    + fold fa. intros j Hj. rewrite map_length in Hj. symmetry.
      rewrite (nth_indep _ 0 ((fun o => nth o fa 0) 0)) by (rewrite map_length; exact Hj).
      rewrite (map_nth (fun o => nth o fa 0)). apply P.
      assert (In (nth j (filter kp (seq 0 (length fa))) 0) (filter kp (seq 0 (length fa)))) as Hin by (apply nth_In; exact Hj).
      apply filter_In in Hin as [Hin _]. apply in_seq in Hin. lia.
  - rewrite andb_true_r. cbn [negb]. destruct (is_dense_form a) eqn:D.
    + (* dense with a bitmap *)
      split.
      2:{ intros (N & _). unfold is_dense_form, is_sparse_form in *. destruct (ar_ids a); discriminate. }
      intros _. assert (Ea : ar_ids a = FFull) by (unfold is_dense_form in D; destruct (ar_ids a); congruence).
      assert (Ef : fa = seq 0 (length l)) by (unfold fa; rewrite Ea; reflexivity).
      pose proof Rd as Rd2. rewrite Ef, at_ids_seq in Rd2.
      destruct (differ_fold_ok _ _ x Rd2) as (cs' & Ec' & Hf). assert (cs' = cs) by congruence. subst cs'.
      replace (da_size (ar_data a)) with (length l) by (rewrite S, Ef, seq_length; reflexivity).
      rewrite Hf. cbn [bind]. rewrite Sz.
      assert (Ek : map (fun o => nth o fa 0) (filter kp (seq 0 (length fa))) = filter (fun o => keptv x (nth o l None)) (seq 0 (length l))).
      { rewrite Ef, seq_length. transitivity (map (fun o : nat => o) (filter (fun o => keptv x (nth o l None)) (seq 0 (length l)))); [|apply map_id].
        rewrite (filter_ext_in kp (fun o => keptv x (nth o l None))).
        - apply map_ext_in. intros o Ho. apply filter_In in Ho as [Ho _]. apply in_seq in Ho. rewrite seq_nth by lia. reflexivity.
        - intros o Ho. apply in_seq in Ho. unfold kp. rewrite Ef, seq_nth by lia. reflexivity. }
      rewrite Ek. change (fun o => match nth o l None with Some v => negb (eqb v x) | None => true end) with (fun o => keptv x (nth o l None)).
      set (ids := filter (fun o => keptv x (nth o l None)) (seq 0 (length l))).
      assert (II : ids_in (length l) 0 ids).
      { apply ids_in_0; [apply asc_filter, seq_asc|]. intros y Hy. apply filter_In in Hy as [Hy _].
        apply in_seq in Hy. lia. }
      destruct (mk_filter_ok (length l) addr _ 0 II) as [Wf Ff]. fold (zb 0 ids) in Ff. rewrite zb_0 in Ff.
      destruct (with_ids_ok a l _ (Some x) R Wf) as (r & Er & Rr & Ei & Em). rewrite Er.
      exists r. split; [reflexivity|]. rewrite Ff in Rr. split; [exact Rr|]. split; [|exact Em].
      rewrite Ei. destruct (length l =? 0) eqn:L0; [|exact Ff].
      apply Nat.eqb_eq in L0. unfold ids. rewrite L0. reflexivity.
    + (* sparse or const, with a bitmap *)
      destruct (bitmap_fold_ok a l x cs R D Ec) as ([[ids vs] af] & Ef & I1 & I2 & I3 & missed & I4 & I5 & I6 & I7).
      fold fa in Ef, I1, I2, I3, I4, I6, I7. fold kp in I1, I3, I6, I7. cbn [fst snd] in *.
      rewrite Ef. cbn [bind]. subst ids. rewrite map_length. set (offs := filter kp (seq 0 (length fa))) in *.
      pose proof (filter_len kp (seq 0 (length fa))) as Q. rewrite seq_length in Q. fold offs in Q.
      pose proof (bitmap_size_ge (length offs)) as Bg. pose proof (bitmap_size_le _ _ Q) as Bl.
      assert (Hbt : exists bm, (missed <> [] \/ offs = []) -> span_list (af_build_size af (length offs)) = Some bm /\
         Forall (fun x => x < 2 ^ 32)%N bm /\ (bm = [] \/ length bm = bitmap_size (length offs)) /\
         forall j, j < length offs -> match bm with [] => true | _ => bt bm j end = is_some (nth (nth (nth j offs 0) fa 0) l None)).
      { destruct offs as [|o0 ot] eqn:Eo; [|rewrite <- Eo in *].
        - exists []. intros _. split; [reflexivity|]. split; [constructor|]. split; [left; reflexivity|]. intros j Hj. simpl in Hj. lia.
        - destruct I4 as [An Ab]. destruct (af_buf af) as [wsb|] eqn:Eaf.
          + destruct Ab as (Lw & _ & G). exists (firstn (bitmap_size (length offs)) wsb). intros _.
            assert (0 < length offs) as Lo by (rewrite Eo; cbn [length]; lia).
            unfold af_build_size, af_span, span_slice. rewrite Eaf.
            replace (0 <? bitmap_size (length offs)) with true by lia.
            unfold span_list, span_words. cbn [subspan sp_len sp_mem skipn].
            replace (bitmap_size (length offs) <=? length wsb) with true by lia.
            assert (Lf : length (firstn (bitmap_size (length offs)) wsb) = bitmap_size (length offs)) by (rewrite firstn_length; lia).
            split; [reflexivity|]. split; [|split; [right; exact Lf|]].
            * apply wok_words. apply Forall_firstn'. unfold af_wok in I5. rewrite Eaf in I5. exact I5.
            * intros j Hj. destruct (firstn (bitmap_size (length offs)) wsb) as [|w0 wt] eqn:Ew; [cbn [length] in Lf; lia|].
              rewrite <- Ew in *. rewrite <- I7 by exact Hj. specialize (G j ltac:(lia)).
              assert (Hj2 : j < W * length (firstn (bitmap_size (length offs)) wsb)) by lia.
              apply gb_bt in Hj2. rewrite gb_firstn in Hj2 by lia. congruence.
          + exists []. intros [C|C]; [congruence|rewrite Eo in C; discriminate]. }
      assert (NBm : null_bitmap a l x <-> ~ (missed <> [] \/ offs = [])).
      { unfold null_bitmap. split.
        - intros (N1 & N2 & N3 & i & N4 & N5) [C|C].
          + destruct missed as [|j t]; [congruence|]. rewrite Forall_forall in I6.
            specialize (I6 j (or_introl eq_refl)). specialize (I7 j I6). cbn [existsb] in I7.
            rewrite Nat.eqb_refl in I7. cbn [orb negb] in I7.
            destruct (nth (nth (nth j offs 0) fa 0) l None) eqn:Z; [discriminate|].
            apply (N3 (nth (nth j offs 0) fa 0)); [|exact Z]. apply nth_In.
            assert (In (nth j offs 0) offs) as Hin by (apply nth_In; exact I6).
            apply filter_In in Hin as [Hin _]. apply in_seq in Hin. fold fa. lia.
          + destruct (In_nth _ _ 0 N4) as (o & Lo & Eo).
            assert (In o offs) as Hin; [|rewrite C in Hin; exact Hin].
            apply filter_In. split; [apply in_seq; fold fa in Lo; lia|]. unfold kp. fold fa in Eo. rewrite Eo. exact N5.
        - intros C. assert (offs <> []) as C1 by tauto. assert (missed = []) as C2 by (destruct missed; [reflexivity|exfalso; apply C; left; discriminate]).
          destruct offs as [|o0 ot] eqn:Eo; [congruence|]. rewrite <- Eo in *.
          assert (In o0 offs) as Ho0 by (rewrite Eo; left; reflexivity).
          apply filter_In in Ho0 as [Hs Hk]. apply in_seq in Hs.
          split; [eapply (sparse_of_calls a l o0); auto; fold fa; lia|]. split; [congruence|]. split.
          + intros i Hi Hn. fold fa in Hi. destruct (In_nth _ _ 0 Hi) as (o & Lo & Eo').
            assert (In o offs) as Hin.
            { apply filter_In. split; [apply in_seq; lia|]. unfold kp. rewrite Eo', Hn. reflexivity. }
            destruct (In_nth _ _ 0 Hin) as (j & Lj & Ej). specialize (I7 j Lj).
            rewrite Ej, Eo', Hn, C2 in I7. discriminate.
          + exists (nth o0 fa 0). split; [apply nth_In; fold fa; lia|exact Hk]. }
      split.
      * intros NB. assert (Hc' : missed <> [] \/ offs = []).
        { destruct missed; [|left; discriminate]. destruct offs as [|o0 ot] eqn:Eo; [right; reflexivity|].
          exfalso. apply NB. apply NBm. intros [C|C]; [congruence|discriminate]. }
        destruct Hbt as (bm & Hbt). destruct (Hbt Hc') as (Eb2 & Fb & Sb & Hb). rewrite Eb2. cbn [bind]. rewrite map_length.
        rewrite <- (map_length (fun o => nth o fa 0) offs).
        apply (compact_result addr a l kp vs bm (Some x) R).
        -- fold fa. fold offs. rewrite map_length. intros o Ho z Hz vs' Es j Hj Ej.
           destruct (buf_slice_ok vs 0 (length offs)) as (vs2 & E2 & _ & R2); [lia|].
           assert (vs2 = vs') by congruence. subst vs2. rewrite R2. replace (j <? _) with true by lia. cbn [plus].
           apply I3; [exact Hj|]. rewrite Ej. exact Hz.
        -- fold fa. exact I2.
        -- exact Fb.
        -- fold fa. fold offs. rewrite map_length. exact Sb.
        -- fold fa. fold offs. rewrite map_length. intros j Hj. rewrite Hb by exact Hj.
           rewrite (nth_indep (map (fun o => nth o fa 0) offs) 0 ((fun o => nth o fa 0) 0)) by (rewrite map_length; exact Hj).
           rewrite (map_nth (fun o => nth o fa 0)). reflexivity.
      * intros NB. apply NBm in NB. assert (offs <> []) as C1 by tauto.
        assert (missed = []) as C2 by (destruct missed; [reflexivity|exfalso; apply NB; left; discriminate]).
        destruct I4 as [An Ab]. destruct (af_buf af) as [wsb|] eqn:Eaf; [destruct Ab as (_ & Ab & _); congruence|].
        unfold af_build_size, af_span, span_slice. rewrite Eaf.
        assert (0 < length offs) by (destruct offs; [congruence|cbn [length]; lia]).
        replace (0 <? bitmap_size (length offs)) with true by lia.
        unfold span_list, span_words. cbn [subspan null_span sp_len sp_mem skipn length].
        replace (bitmap_size (length offs) <=? 0) with false by lia. reflexivity.
Qed.
End Sparse.
End WithIds.
End P.
