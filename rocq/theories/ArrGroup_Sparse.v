(** Aggregators on very sparse data: proofs about [very_sparse_splits] and
    [very_sparse_mapping] of [ArrGroup_Model]. *)
From Coq Require Import Permutation Sorted.
From Verif Require Import Base Bits_Model Bitmap_Model Dense_Model Dense_Spec Dense_Proofs
  DenseOps_Model DenseOps_Spec DenseOps_Proofs IdFilter_Model IdFilter_Spec IdFilter_Proofs
  Array_Model Array_Spec Array_Proofs ArrayIter_Proofs Edge_Model Edge_Spec Edge_Proofs
  GroupOps_Model GroupOps_Spec GroupOps_Proofs ArrOps_Model ArrOps_Spec ArrOps_Proofs
  Search_Model Search_Spec Search_Proofs ArrGroup_Model ArrGroup_Spec ArrGroup_Proofs ArrGroup_Split.

Lemma by_id_map {R} (f : nat -> option R) l i : by_id l (map f l) i = if mem i l then f i else None.
Proof.
  unfold by_id, mem. induction l as [|a l IH]; [reflexivity|]. cbn [index_of map existsb]. rewrite (Nat.eqb_sym i a).
  destruct (Nat.eqb_spec a i) as [->|Ne]; [reflexivity|]. cbn [orb]. rewrite <- IH. destruct (index_of i l); reflexivity.
Qed.
Lemma mem_filter_seq (Q : nat -> bool) p i : i < p -> mem i (filter Q (seq 0 p)) = Q i.
Proof.
  intros H. apply Bool.eq_iff_eq_true. rewrite mem_In, filter_In, in_seq. split; [tauto|]. intros Hq. split; [lia|exact Hq].
Qed.
Lemma filter_short {X} (Q : X -> bool) l : length (filter Q l) < length l -> exists x, In x l /\ Q x = false.
Proof.
  induction l as [|a l IH]; cbn [filter length]; [lia|]. destruct (Q a) eqn:E; [|exists a; split; [left; reflexivity|exact E]].
  cbn [length]. intros H. destruct IH as (x & Hx & Ex); [lia|]. exists x. split; [right; exact Hx|exact Ex].
Qed.
Lemma filter_drop {X} (Q : X -> bool) l x : In x l -> Q x = false -> length (filter Q l) < length l.
Proof.
  assert (G : forall l, length (filter Q l) <= length l) by (induction l0 as [|b t IH]; [reflexivity|]; cbn [filter length]; destruct (Q b); cbn [length]; lia).
  induction l as [|a l IH]; intros Hin E; [destruct Hin|]. cbn [filter length].
  destruct Hin as [->|Hin]; [rewrite E; specialize (G l); lia|]. specialize (IH Hin E). destruct (Q a); cbn [length]; lia.
Qed.
Lemma NoDup_app_intro_one {X} (l : list X) x : NoDup l -> ~ In x l -> NoDup (l ++ [x]).
Proof. intros H N. apply (Permutation_NoDup (l := x :: l)); [apply Permutation_cons_append|]. constructor; assumption. Qed.
Lemma filter_one_more (Q Q' : nat -> bool) q l : NoDup l -> (forall g, g <> q -> Q' g = Q g) ->
  length (filter Q' l) <= Datatypes.S (length (filter Q l)).
Proof.
  intros Hn H. induction l as [|a l IH]; [cbn; lia|]. inversion Hn as [|? ? Ha Hl]; subst. specialize (IH Hl). cbn [filter].
  destruct (Nat.eq_dec a q) as [->|Ne].
  - assert (E : filter Q' l = filter Q l) by (apply filter_ext_in; intros g Hg; apply H; intros ->; exact (Ha Hg)).
    rewrite E in *. destruct (Q' q), (Q q); cbn [length]; lia.
  - rewrite H by exact Ne. destruct (Q a); cbn [length]; lia.
Qed.

Section Sparse.
Context {S P C R Err : Type}.
Variable acc : accum S P C R Err.
Variables (cls : list (list (option C))) (m : list (option nat)) (p : nat).
Notation n := (length m).
Notation cv := (child_valid acc cls).
Notation mem_ q k := (members acc cls m q k).
Notation fe := (first_error acc (@nil (list (option P))) cls n m).
Notation add := (add acc cls).
Notation next := (next acc).
Notation result := (result acc).
Hypothesis K : a_kind acc = Aggregator.
Hypothesis Hp0 : a_popts acc = [].
Hypothesis Hmp : forall c q, nth c m None = Some q -> q < p.

Definition ne (k g : nat) : bool := match mem_ g k with [] => false | _ => true end.
Definition st (g k : nat) : S := fold_left add (mem_ g k) (start acc []).
Definition agg (k g : nat) : option R := result (st g k).

Lemma gv_true g : group_valid acc (@nil (list (option P))) g = true.
Proof. unfold group_valid. rewrite Hp0. reflexivity. Qed.
Lemma ge_st g : group_error acc (@nil (list (option P))) cls n m g = a_status acc (next (st g n)).
Proof. unfold group_error. rewrite gv_true. unfold final_of, group_final. rewrite K. reflexivity. Qed.
Lemma fe_none : fe (seq 0 p) = None <-> forall g, g < p -> ok acc (next (st g n)).
Proof.
  assert (G : forall l, fe l = None <-> forall g, In g l -> ok acc (next (st g n))).
  { induction l as [|g l IH]; cbn [first_error]; [split; [intros _ g []|reflexivity]|]. rewrite ge_st. unfold ok in *.
    destruct (a_status acc (next (st g n))) eqn:E.
    - split; [discriminate|]. intros H. rewrite H in E by (left; reflexivity). discriminate.
    - rewrite IH. split; intros H x; [intros [<-|Hx]; [exact E|apply H, Hx]|intros Hx; apply H; right; exact Hx]. }
  rewrite G. split; intros H g Hg; apply H; [apply in_seq; lia|apply in_seq in Hg; lia].
Qed.
Lemma mem_S q k : mem_ q (Datatypes.S k) = mem_ q k ++
  (if match nth k m None with Some r => r =? q | None => false end && cv k then [k] else []).
Proof. unfold members. rewrite <- Nat.add_1_r, seq_app, filter_app. reflexivity. Qed.
Lemma mem_0 g : mem_ g 0 = []. Proof. reflexivity. Qed.
Lemma mem_other k q g : nth k m None = Some q -> g <> q -> mem_ g (Datatypes.S k) = mem_ g k.
Proof. intros Em Hg. rewrite mem_S, Em. replace (q =? g) with false by lia. cbn [andb]. apply app_nil_r. Qed.
Lemma mem_same k q : nth k m None = Some q -> cv k = true -> mem_ q (Datatypes.S k) = mem_ q k ++ [k].
Proof. intros Em Ev. rewrite mem_S, Em, Ev, Nat.eqb_refl. reflexivity. Qed.
Lemma mem_skip k g : nth k m None = None \/ cv k = false -> mem_ g (Datatypes.S k) = mem_ g k.
Proof. intros H. rewrite mem_S. destruct H as [->| ->]; [cbn [andb]|rewrite andb_false_r]; apply app_nil_r. Qed.
Lemma ne_count k : length (filter (ne k) (seq 0 p)) <= length (filter (fun c => match nth c m None with Some _ => cv c | None => false end) (seq 0 k)).
Proof.
  induction k as [|k IH]; [cbn [seq filter length]; rewrite filter_false; [reflexivity|]; intros x _; reflexivity|].
  replace (Datatypes.S k) with (k + 1) at 2 by lia. rewrite seq_app, filter_app, app_length. cbn [Nat.add seq filter].
  destruct (nth k m None) as [q|] eqn:Em; [destruct (cv k) eqn:Ev|].
  - cbn [length]. assert (H := filter_one_more (ne k) (ne (Datatypes.S k)) q (seq 0 p) (seq_NoDup p 0)).
    specialize (H ltac:(intros g Hg; unfold ne; rewrite (mem_other k q g Em Hg); reflexivity)). lia.
  - cbn [length]. rewrite (filter_ext (ne (Datatypes.S k)) (ne k)); [lia|]. intros g. unfold ne. rewrite mem_skip by (right; exact Ev). reflexivity.
  - cbn [length]. rewrite (filter_ext (ne (Datatypes.S k)) (ne k)); [lia|]. intros g. unfold ne. rewrite mem_skip by (left; exact Em). reflexivity.
Qed.
Lemma ne_false k g : ne k g = false <-> mem_ g k = [].
Proof. unfold ne. destruct (mem_ g k); split; congruence. Qed.

Lemma vs_content addr d miss : represents d (map (agg n) (filter (ne n) (seq 0 p))) ->
  (forall i, i < p -> ne n i = false -> miss = agg n i) ->
  ar_rep (ar_make p (mk_filter p addr (filter (ne n) (seq 0 p)) 0) d miss)
    (outputs acc (@nil (list (option P))) cls n m p).
Proof.
  intros Hd Hm. eapply eq_rect; [apply sparse_make_miss; [apply filter_seq_asc|apply filter_seq_lt; lia| |exact Hd]|].
  - symmetry. apply map_length.
  - unfold outputs. rewrite K. apply map_ext_seq. intros i Hi. rewrite by_id_map. rewrite !mem_filter_seq by exact Hi.
    assert (Ea : agg n i = parent_out acc (@nil (list (option P))) cls n m i) by (unfold parent_out; rewrite gv_true; reflexivity).
    destruct (ne n i) eqn:E; [exact Ea|]. rewrite (Hm i Hi E). exact Ea.
Qed.
Lemma vs_build max b G : db_inv max b (fun o => nth o (map (agg n) G) None) -> length G <= max ->
  exists d, db_build_size b (length G) = Some d /\ represents d (map (agg n) G).
Proof.
  intros I L. destruct (db_build_size_ok max b _ (length G) I L) as (r & Er & V & Sz & H). exists r. split; [exact Er|].
  apply represents_elem. rewrite map_length. split; [exact V|]. split; [exact Sz|]. exact H.
Qed.
(** One more result. *)
Lemma push_result max (ids : list nat) g b v f : db_inv max b (fun o => nth o (map f ids) None) -> length ids < max ->
  exists b', db_set b (length ids) v = Some b' /\ (v = f g -> @db_inv R max b' (fun o => nth o (map f (ids ++ [g])) None)).
Proof.
  intros I L. destruct (set_put max b _ (length ids) v I L) as (b' & E & I').
  { apply nth_overflow. rewrite map_length. lia. }
  exists b'. split; [exact E|]. intros ->. eapply db_ext; [exact I'|]. intros o _. unfold put. rewrite map_app. cbn [map].
  destruct (Nat.eqb_spec o (length ids)) as [->|Ne].
  - rewrite app_nth2; rewrite map_length; [rewrite Nat.sub_diag; reflexivity|lia].
  - destruct (Nat.lt_ge_cases o (length ids)) as [H|H]; [rewrite app_nth1 by (rewrite map_length; exact H); reflexivity|].
    rewrite nth_overflow by (rewrite map_length; lia). rewrite nth_overflow; [reflexivity|]. rewrite app_length, map_length. cbn [length]. lia.
Qed.

Variable allocr : nat -> list R.
Hypothesis Har : alloc_sz allocr.
Variable addr : nat.

(** ** Split points *)
Section VSplit.
Variable cu : outil C.
Hypothesis Hcu : u_ok n (a_copts acc) cls cu.
Hypothesis Hc0 : a_copts acc = [] -> cls = [].
Variable s : list nat.
Hypothesis Hs : split_of s p m.
Notation max := (Nat.min p (ou_estimate cu)).
Hypothesis Hbad : forall s, ~ ok acc s -> (forall r, ~ ok acc (a_reset acc r s)) /\ (forall i r, ~ ok acc (a_add acc i r s)) /\
     ~ ok acc (a_finalize acc s) /\ ~ ok acc (snd (a_result acc s)).
Variable sim : S -> S -> Prop.
Hypothesis He : ok acc (a_empty acc).
Hypothesis Hreset : forall r s s', ok acc s -> ok acc s' -> alike acc sim (a_reset acc r s) (a_reset acc r s').
Hypothesis Hadd : forall i r s s', ok acc s -> ok acc s' -> sim s s' -> alike acc sim (a_add acc i r s) (a_add acc i r s').
Hypothesis Hres : a_kind acc <> Full -> forall s s', ok acc s -> ok acc s' -> sim s s' -> same_result acc sim s s'.

Lemma ne_max k hi : k <= n -> hi <= p -> length (filter (ne k) (seq 0 hi)) <= max.
Proof.
  intros Hk Hh. apply Nat.min_glb.
  - etransitivity; [apply (filter_seq_len _ (fun _ => true) hi p Hh); auto|].
    clear. rewrite <- (seq_length p 0) at 2. generalize (seq 0 p). induction l; [reflexivity|]. cbn [filter length]. lia.
  - destruct (estimate_ok n _ cls cu Hcu) as [Hl _]. rewrite drows_range, map_length, Nat.sub_0_r in Hl.
    etransitivity; [apply (filter_seq_len _ (ne k) hi p Hh); auto|]. etransitivity; [apply ne_count|].
    etransitivity; [|exact Hl]. apply filter_seq_len; [exact Hk|]. intros i _. destruct (nth i m None); [auto|discriminate].
Qed.
Lemma add_alike a b k : alike acc sim a b -> alike acc sim (add a k) (add b k).
Proof.
  intros [(H1 & H2 & H3)|[H1 H2]]; [apply Hadd; assumption|]. right. split; [apply (Hbad a H1)|apply (Hbad b H2)].
Qed.
Lemma result_alike a b : alike acc sim a b ->
  (ok acc (next a) <-> ok acc (next b)) /\ (ok acc (next a) -> result a = result b).
Proof.
  intros [(H1 & H2 & H3)|[H1 H2]].
  - destruct (Hres ltac:(congruence) a b H1 H2 H3) as [H4 H5]. split; [apply (alike_ok acc sim _ _ H4)|exact H5].
  - assert (B1 : ~ ok acc (next a)) by apply (Hbad a H1). assert (B2 : ~ ok acc (next b)) by apply (Hbad b H2). tauto.
Qed.

Definition good (k hi : nat) (tgt : S) (v : vstate (S := S) (R := R) (Err := Err)) : Prop :=
  v_status v = None /\ v_ids v = filter (ne k) (seq 0 hi) /\
  db_inv max (v_dense v) (fun o => nth o (map (agg k) (v_ids v)) None) /\
  alike acc sim (v_acc v) tgt /\ (forall g, In g (v_ids v) -> ok acc (next (st g k))).
Definition badv (v : vstate (S := S) (R := R) (Err := Err)) : Prop :=
  v_status v <> None /\ exists g, g < p /\ ~ ok acc (next (st g n)).

Lemma add_previous_ok k v : k <= n -> v_next v <= p ->
  (forall g, v_next v <= g -> mem_ g k = []) ->
  (forall q, v_next v = Datatypes.S q -> mem_ q k <> [] /\ mem_ q n = mem_ q k) ->
  good k (pred (v_next v)) (st (pred (v_next v)) k) v \/ badv v ->
  exists v', add_previous acc max v = Some v' /\ v_next v' = v_next v /\ (good k (v_next v) (start acc []) v' \/ badv v').
Proof.
  intros Hk Hv Hz Hq H. unfold add_previous. destruct (v_next v) as [|q] eqn:En.
  - exists v. split; [reflexivity|]. split; [exact En|]. destruct H as [H|H]; [left|right; exact H]. cbn [pred] in H.
    unfold st in H. rewrite Hz in H by lia. exact H.
  - destruct H as [(H1 & H2 & H3 & H4 & H5)|H].
    2:{ exists v. pose proof (proj1 H) as Hst. destruct (v_status v) as [e|] eqn:Es; [|congruence].
        split; [reflexivity|]. split; [exact En|]. right. exact H. }
    rewrite H1. cbn [pred] in *. destruct (Hq q eq_refl) as [Hne Hn].
    assert (Hsnoc : filter (ne k) (seq 0 (Datatypes.S q)) = v_ids v ++ [q]).
    { replace (Datatypes.S q) with (q + 1) by lia. rewrite seq_app, filter_app, H2. cbn [Nat.add seq filter].
      replace (ne k q) with true; [reflexivity|]. unfold ne. destruct (mem_ q k); [congruence|reflexivity]. }
    assert (L := ne_max k (Datatypes.S q) Hk Hv). rewrite Hsnoc, app_length in L. cbn [length] in L.
    rewrite push_ok by lia. cbn [bind]. rewrite (surjective_pairing (a_result acc (v_acc v))).
    fold (next (v_acc v)). fold (result (v_acc v)).
    destruct (push_result max (v_ids v) q (v_dense v) (result (v_acc v)) (agg k) H3 ltac:(lia)) as (d & Ed & Id).
    rewrite Ed. cbn [bind]. eexists. split; [reflexivity|]. split; [reflexivity|].
    destruct (result_alike _ _ H4) as [R1 R2]. destruct (ok_dec acc (next (v_acc v))) as [Y|Y].
    + left. unfold good. cbn [v_status v_ids v_dense v_acc]. split; [exact Y|]. split; [symmetry; exact Hsnoc|].
      split; [apply Id, R2, Y|]. split; [apply Hreset; [exact Y|exact He]|].
      intros g Hg. apply in_app_or in Hg as [Hg|[<-|[]]]; [apply H5, Hg|apply R1, Y].
    + right. split; [exact Y|]. exists q. split; [lia|]. unfold st in *. rewrite Hn. rewrite R1 in Y. exact Y.
Qed.

Lemma split_later k q g : nth k m None = Some q -> g < q -> k < n -> mem_ g n = mem_ g k.
Proof.
  intros Em Hg Hk. unfold members. replace n with (k + (n - k)) by lia. rewrite seq_app, filter_app.
  rewrite (filter_false _ (seq (0 + k) (n - k))); [apply app_nil_r|]. intros c Hc. apply in_seq in Hc.
  destruct (nth c m None) as [r|] eqn:Er; [|reflexivity]. assert (Hq := Hmp k q Em).
  assert (H1 := split_char s p m k q q Hs ltac:(lia) Em). assert (H2 := split_char s p m c r q Hs ltac:(lia) Er).
  replace (r =? g) with false by lia. reflexivity.
Qed.

Lemma v_step_ok k v : k < n -> cv k = true -> v_next v <= p ->
  (forall g, v_next v <= g -> mem_ g k = []) -> (forall q, v_next v = Datatypes.S q -> mem_ q k <> []) ->
  good k (pred (v_next v)) (st (pred (v_next v)) k) v \/ badv v ->
  exists v', v_step acc max (zs s) v (k, row cls k) = Some v' /\ v_next v' <= p /\
    (forall g, v_next v' <= g -> mem_ g (Datatypes.S k) = []) /\
    (forall q, v_next v' = Datatypes.S q -> mem_ q (Datatypes.S k) <> []) /\
    (good (Datatypes.S k) (pred (v_next v')) (st (pred (v_next v')) (Datatypes.S k)) v' \/ badv v').
Proof.
  intros Hk Ev Hv Hz Hne Hst. destruct (split_parent s p m k Hs Hk) as (q' & Hq' & Hr & Em).
  assert (Hlen : length s = Datatypes.S p) by apply Hs. unfold v_step. rewrite rd_zs by lia. cbn [bind].
  assert (Hch := split_char s p m k q' (v_next v) Hs Hv Em).
  assert (Hso : forall g, g <> q' -> st g (Datatypes.S k) = st g k) by (intros g Hg; unfold st; rewrite (mem_other k q' g Em Hg); reflexivity).
  assert (Hss : st q' (Datatypes.S k) = add (st q' k) k) by (unfold st; rewrite (mem_same k q' Em Ev), fold_left_app; reflexivity).
  assert (Hno : forall g, g <> q' -> ne (Datatypes.S k) g = ne k g) by (intros g Hg; unfold ne; rewrite (mem_other k q' g Em Hg); reflexivity).
  assert (Hao : forall l : list nat, (forall g, In g l -> g <> q') -> map (agg (Datatypes.S k)) l = map (agg k) l).
  { intros l Hl. apply map_ext_in. intros g Hg. unfold agg. rewrite Hso by (apply Hl, Hg). reflexivity. }
  destruct (Z.leb_spec (Z.of_nat (nth (v_next v) s 0)) (Z.of_nat k)) as [L|L].
  - assert (Hle : v_next v <= q') by lia.
    destruct (add_previous_ok k v ltac:(lia) Hv Hz) as (v1 & E1 & En1 & H1).
    { intros q Eq. split; [apply Hne, Eq|]. apply (split_later k q' q Em ltac:(lia) Hk). } { exact Hst. }
    rewrite E1. cbn [bind]. rewrite En1, zs_len, Hlen.
    destruct (gallop_ok (fun y => y <? Z.of_nat k + 1)%Z (zs s) (v_next v) (Datatypes.S p)) as (r & Eg & (B1 & B2 & B3)).
    { rewrite zs_len. lia. }
    { intros i j x y H2 H3 H4 H5 H6 H7. fold (rd (zs s) i) in H5. fold (rd (zs s) j) in H6. rewrite rd_zs in H5, H6 by lia.
      injection H5 as <-. injection H6 as <-. assert (nth i s 0 <= nth j s 0) by (apply Hs; lia). lia. }
    { lia. }
    assert (Er : r = Datatypes.S q').
    { assert (r <= q' -> False).
      { intros H. specialize (B3 q' (Z.of_nat (nth q' s 0)) ltac:(lia)). fold (rd (zs s) q') in B3. rewrite rd_zs in B3 by lia. specialize (B3 eq_refl). lia. }
      assert (Datatypes.S q' < r -> False).
      { intros H0. specialize (B2 (Datatypes.S q') (Z.of_nat (nth (Datatypes.S q') s 0)) ltac:(lia)).
        fold (rd (zs s) (Datatypes.S q')) in B2. rewrite rd_zs in B2 by lia. specialize (B2 eq_refl). lia. }
      lia. }
    rewrite Eg. cbn [bind v_next v_acc v_status v_ids v_dense]. subst r. eexists. split; [reflexivity|]. cbn [v_next pred].
    split; [lia|]. split; [intros g Hg; rewrite (mem_other k q' g Em) by lia; apply Hz; lia|].
    split; [intros q Eq; injection Eq as <-; rewrite (mem_same k q' Em Ev); destruct (mem_ q' k); discriminate|].
    destruct H1 as [(G1 & G2 & G3 & G4 & G5)|H1]; [left|right; exact H1].
    assert (Hids : forall g, In g (v_ids v1) -> g <> q').
    { intros g Hg. rewrite G2 in Hg. apply filter_In in Hg as [Hg _]. apply in_seq in Hg. lia. }
    unfold good. cbn [v_status v_ids v_dense v_acc]. split; [exact G1|]. split.
    { rewrite G2. replace q' with (v_next v + (q' - v_next v)) by lia. rewrite seq_app, filter_app.
      rewrite (filter_false _ (seq (0 + v_next v) (q' - v_next v))).
      - rewrite app_nil_r. apply filter_ext_in. intros g Hg. apply in_seq in Hg. symmetry. apply Hno. lia.
      - intros g Hg. apply in_seq in Hg. rewrite Hno by lia. apply ne_false, Hz. lia. }
    split; [rewrite Hao by exact Hids; exact G3|]. split.
    + rewrite Hss. unfold st at 1. rewrite Hz by lia. cbn [fold_left]. apply add_alike, G4.
    + intros g Hg. rewrite Hso by (apply Hids, Hg). apply G5, Hg.
  - assert (Hlt : q' < v_next v) by lia. destruct (v_next v) as [|q] eqn:En; [lia|]. cbn [pred] in *.
    assert (Eq : q = q').
    { specialize (Hne q eq_refl). destruct (mem_ q k) as [|c0 t] eqn:Eq; [congruence|].
      assert (Hin : In c0 (mem_ q k)) by (rewrite Eq; left; reflexivity). apply members_in in Hin as (I1 & I2 & I3).
      assert (H := split_char s p m c0 q (Datatypes.S q') Hs ltac:(lia) I2). lia. }
    subst q'. cbn [bind]. eexists. split; [reflexivity|]. cbn [v_next]. rewrite En. cbn [pred].
    split; [lia|]. split; [intros g Hg; rewrite (mem_other k q g Em) by lia; apply Hz; lia|].
    split; [intros q0 E0; injection E0 as <-; rewrite (mem_same k q Em Ev); destruct (mem_ q k); discriminate|].
    destruct Hst as [(G1 & G2 & G3 & G4 & G5)|H1]; [left|right; exact H1].
    assert (Hids : forall g, In g (v_ids v) -> g <> q).
    { intros g Hg. rewrite G2 in Hg. apply filter_In in Hg as [Hg _]. apply in_seq in Hg. lia. }
    unfold good. cbn [v_status v_ids v_dense v_acc]. split; [exact G1|]. split.
    { rewrite G2. apply filter_ext_in. intros g Hg. apply in_seq in Hg. symmetry. apply Hno. lia. }
    split; [rewrite Hao by exact Hids; exact G3|]. split.
    + rewrite Hss. apply add_alike, G4.
    + intros g Hg. rewrite Hso by (apply Hids, Hg). apply G5, Hg.
Qed.

Lemma very_sparse_splits_ok : exists res, very_sparse_splits allocr addr acc p cu (zs s) = Some res /\
  array_outcome (fe (seq 0 p)) (outputs acc (@nil (list (option P))) cls n m p) res.
Proof.
  unfold very_sparse_splits. rewrite (iterate_simple_ok n _ cls cu Hcu Hc0), drows_range, Nat.sub_0_r. cbn [bind].
  destruct (seq_loop (v_step acc max (zs s)) (fun i => (i, row cls i)) cv (fun k v => v_next v <= p /\
    (forall g, v_next v <= g -> mem_ g k = []) /\ (forall q, v_next v = Datatypes.S q -> mem_ q k <> []) /\
    (good k (pred (v_next v)) (st (pred (v_next v)) k) v \/ badv v)) n) with
    (b := {| v_next := 0; v_acc := a_reset acc [] (a_empty acc); v_status := @None Err; v_ids := [];
       v_dense := db_init (allocr max) |}) as (v & E & V1 & V2 & V3 & V4).
  - intros k b Hk Ev (I1 & I2 & I3 & I4). apply v_step_ok; assumption.
  - intros k b Hk Ev (I1 & I2 & I3 & I4). split; [exact I1|].
    assert (Hm : forall g, mem_ g (Datatypes.S k) = mem_ g k) by (intros g; apply mem_skip; right; exact Ev).
    assert (Hst : forall g, st g (Datatypes.S k) = st g k) by (intros g; unfold st; rewrite Hm; reflexivity).
    split; [intros g Hg; rewrite Hm; apply I2, Hg|]. split; [intros q Hq; rewrite Hm; apply I3, Hq|].
    destruct I4 as [(G1 & G2 & G3 & G4 & G5)|I4]; [left|right; exact I4]. rewrite Hst.
    split; [exact G1|]. split; [rewrite G2; apply filter_ext; intros g; unfold ne; rewrite Hm; reflexivity|].
    split; [|split; [exact G4|intros g Hg; rewrite Hst; apply G5, Hg]].
    replace (map (agg (Datatypes.S k)) (v_ids b)) with (map (agg k) (v_ids b)); [exact G3|]. apply map_ext. intros g. unfold agg. rewrite Hst. reflexivity.
  - cbn [v_next pred]. split; [lia|]. split; [reflexivity|]. split; [discriminate|]. left.
    split; [reflexivity|]. split; [reflexivity|]. cbn [v_dense v_ids v_acc map]. split; [|split; [apply Hreset; assumption|intros g []]].
    pose proof (db_init_inv (allocr max)) as Q. rewrite Har in Q. eapply db_ext; [exact Q|]. intros [|o] _; reflexivity.
  - rewrite E. cbn [bind]. destruct (add_previous_ok n v (le_n n) V1 V2) as (v1 & E1 & En1 & H1).
    { intros q Hq. split; [apply V3, Hq|reflexivity]. } { exact V4. }
    rewrite E1. cbn [bind]. unfold array_outcome. destruct H1 as [(G1 & G2 & G3 & G4 & G5)|(B1 & g & Hg & B2)].
    + rewrite G1. assert (Hids : v_ids v1 = filter (ne n) (seq 0 p)).
      { rewrite G2. replace p with (v_next v + (p - v_next v)) by lia. rewrite seq_app, filter_app.
        rewrite (filter_false _ (seq (0 + v_next v) (p - v_next v))); [rewrite app_nil_r; reflexivity|].
        intros g Hg. apply in_seq in Hg. apply ne_false, V2. lia. }
      destruct (vs_build max (v_dense v1) (v_ids v1) G3) as (d & Ed & Rd).
      { rewrite Hids. apply ne_max; lia. }
      rewrite Ed. cbn [bind]. rewrite (surjective_pairing (a_result acc (v_acc v1))).
      fold (next (v_acc v1)). fold (result (v_acc v1)). destruct (result_alike _ _ G4) as [R1 R2].
      assert (Hemp : forall g, ne n g = false -> st g n = start acc []).
      { intros g Hg. apply ne_false in Hg. unfold st. rewrite Hg. reflexivity. }
      destruct (Nat.ltb_spec (length (v_ids v1)) p) as [L|L].
      * unfold checked. destruct (ok_dec acc (next (v_acc v1))) as [Y|Y].
        -- rewrite Y. cbn [bind]. assert (Ef : fe (seq 0 p) = None).
           { apply fe_none. intros g Hg. destruct (ne n g) eqn:Eg.
             - apply G5. rewrite Hids. apply filter_In. split; [apply in_seq; lia|exact Eg].
             - rewrite (Hemp g Eg). apply R1, Y. }
           rewrite Ef. eexists. split; [reflexivity|]. eexists. split; [reflexivity|]. rewrite Hids in *. apply vs_content; [exact Rd|].
           intros i Hi Ei. unfold agg. rewrite (Hemp i Ei). apply R2, Y.
        -- unfold ok in Y. destruct (a_status acc (next (v_acc v1))) as [e|] eqn:Es; [|congruence]. eexists. split; [reflexivity|].
           destruct (fe (seq 0 p)) eqn:Ef; [eauto|]. exfalso. rewrite fe_none in Ef.
           destruct (filter_short (ne n) (seq 0 p)) as (g & Hg & Eg); [rewrite <- Hids, seq_length; exact L|].
           apply in_seq in Hg. specialize (Ef g ltac:(lia)). rewrite (Hemp g Eg) in Ef. apply R1 in Ef. unfold ok in Ef. congruence.
      * assert (Hall : forall g, g < p -> ne n g = true).
        { intros g Hg. destruct (ne n g) eqn:Eg; [reflexivity|]. exfalso.
          assert (length (filter (ne n) (seq 0 p)) < length (seq 0 p)); [|rewrite Hids in L; rewrite seq_length in H; lia].
          apply (filter_drop _ _ g); [apply in_seq; lia|exact Eg]. }
        assert (Ef : fe (seq 0 p) = None).
        { apply fe_none. intros g Hg. apply G5. rewrite Hids. apply filter_In. split; [apply in_seq; lia|apply Hall, Hg]. }
        rewrite Ef. eexists. split; [reflexivity|]. eexists. split; [reflexivity|]. rewrite Hids in *. apply vs_content; [exact Rd|].
        intros i Hi Ei. rewrite Hall in Ei by exact Hi. discriminate.
    + destruct (v_status v1); [|congruence]. eexists. split; [reflexivity|]. destruct (fe (seq 0 p)) eqn:Ef; [eauto|].
      exfalso. rewrite fe_none in Ef. apply B2, Ef, Hg.
Qed.
End VSplit.

(** ** Mapping *)
Section VMap.
Variable mu : outil (Z + C).
Notation mls := (map (option_map inl) (map zopt m) :: map (map (option_map inr)) cls).
Hypothesis Hmu : u_ok n (false :: a_copts acc) mls mu.
Variable order : list (Z * S) -> list (Z * S).
Hypothesis Hord : forall l, Permutation (order l) l.

Definition hinv (k : nat) (h : list (Z * S)) : Prop :=
  NoDup (map fst h) /\ forall z s, In (z, s) h <-> exists g, z = Z.of_nat g /\ mem_ g k <> [] /\ s = st g k.

Lemma hm_add_keys h z id r : map fst (hm_add acc h z id r) = if in_dec Z.eq_dec z (map fst h) then map fst h else map fst h ++ [z].
Proof.
  induction h as [|[k0 s0] h IH]; [destruct (in_dec _ _ _) as [[]|]; reflexivity|]. cbn [hm_add map fst].
  destruct (Z.eqb_spec k0 z) as [->|Nz].
  - cbn [map fst]. destruct (in_dec Z.eq_dec z (z :: map fst h)) as [|N]; [reflexivity|]. exfalso. apply N. left. reflexivity.
  - cbn [map fst]. rewrite IH. destruct (in_dec Z.eq_dec z (map fst h)) as [I1|N1], (in_dec Z.eq_dec z (k0 :: map fst h)) as [I2|N2]; try reflexivity.
    + exfalso. apply N2. right. exact I1.
    + exfalso. destruct I2 as [|I2]; [congruence|exact (N1 I2)].
Qed.
Lemma hm_add_in h z id r : NoDup (map fst h) -> forall y s, In (y, s) (hm_add acc h z id r) <->
  (y <> z /\ In (y, s) h) \/ (y = z /\ ((exists s0, In (z, s0) h /\ s = g_add acc s0 id r) \/
    (~ In z (map fst h) /\ s = g_add acc (start acc []) id r))).
Proof.
  induction h as [|[k0 s0] h IH]; intros Hn y s; cbn [hm_add].
  - cbn [In map]. split.
    + intros [E|[]]. injection E as <- <-. right. split; [reflexivity|]. right. split; [tauto|reflexivity].
    + intros [[_ []]|[-> [(s0 & [] & _)|[_ ->]]]]. left. reflexivity.
  - cbn [map fst] in *. inversion Hn as [|? ? H1 H2]; subst. destruct (Z.eqb_spec k0 z) as [->|Nz].
    + cbn [In]. split.
      * intros [E|Hin].
        -- injection E as <- <-. right. split; [reflexivity|]. left. exists s0. auto.
        -- left. split; [|right; exact Hin]. intros ->. apply H1. apply (in_map fst) in Hin. exact Hin.
      * intros [[Ny [E|Hin]]|[-> [(s1 & [E|Hin] & ->)|[Hx _]]]].
        -- injection E as -> ->. congruence.
        -- right. exact Hin.
        -- injection E as ->. left. reflexivity.
        -- exfalso. apply H1. apply (in_map fst) in Hin. exact Hin.
        -- exfalso. apply Hx. left. reflexivity.
    + cbn [In]. rewrite (IH H2). split.
      * intros [E|[[Ny Hin]|[-> [(s1 & Hin & ->)|[Hx ->]]]]].
        -- injection E as <- <-. left. split; [exact Nz|]. left. reflexivity.
        -- left. split; [exact Ny|]. right. exact Hin.
        -- right. split; [reflexivity|]. left. exists s1. auto.
        -- right. split; [reflexivity|]. right. split; [|reflexivity]. intros [|]; [congruence|auto].
      * intros [[Ny [E|Hin]]|[-> [(s1 & [E|Hin] & ->)|[Hx ->]]]].
        -- left. exact E.
        -- right. left. auto.
        -- congruence.
        -- right. right. split; [reflexivity|]. left. exists s1. auto.
        -- right. right. split; [reflexivity|]. right. split; [|reflexivity]. intros Hin. apply Hx. right. exact Hin.
Qed.

Lemma mrows : defined_rows (false :: a_copts acc) mls 0 n =
  map (fun i => (i, mrow cls m i)) (filter (fun i => is_some (nth i m None) && cv i) (seq 0 n)).
Proof.
  rewrite drows_eq, Nat.sub_0_r. rewrite (filter_ext _ (fun i => is_some (nth i m None) && cv i)).
  - apply map_ext. intros i. rewrite mrow_ok. reflexivity.
  - intros i. rewrite mrow_ok. apply mrow_defined.
Qed.

Lemma hm_fold : exists h, fold_opt (hm_step acc) (map (fun i => (i, mrow cls m i)) (filter (fun i => is_some (nth i m None) && cv i) (seq 0 n))) [] = Some h /\ hinv n h.
Proof.
  apply (seq_loop (hm_step acc) (fun i => (i, mrow cls m i)) (fun i => is_some (nth i m None) && cv i) hinv n).
  - intros k h Hk Hv [H1 H2]. apply andb_true_iff in Hv as [Hs Hv]. unfold hm_step, mrow. cbn [snd fst].
    destruct (nth k m None) as [q|] eqn:Em; [|discriminate]. cbn [zopt option_map]. rewrite from_inr_row.
    eexists. split; [reflexivity|]. split.
    + rewrite hm_add_keys. destruct (in_dec _ _ _) as [|N]; [exact H1|]. apply NoDup_app_intro_one; assumption.
    + intros z s. rewrite (hm_add_in _ _ _ _ H1). split.
      * intros [[Ny Hin]|[-> [(s0 & Hin & ->)|[Hx ->]]]].
        -- apply H2 in Hin as (g & -> & Hg & ->). exists g. assert (g <> q) by lia.
           unfold st. rewrite (mem_other k q g Em) by lia. auto.
        -- apply H2 in Hin as (g & Eg & Hg & ->). assert (g = q) by lia. subst g. exists q. split; [reflexivity|].
           unfold st. rewrite (mem_same k q Em Hv), fold_left_app. split; [destruct (mem_ q k); discriminate|reflexivity].
        -- exists q. split; [reflexivity|]. unfold st. rewrite (mem_same k q Em Hv), fold_left_app. split; [destruct (mem_ q k); discriminate|].
           assert (E : mem_ q k = []).
           { destruct (mem_ q k) as [|c t] eqn:E; [reflexivity|]. exfalso. apply Hx. apply in_map_iff. exists (Z.of_nat q, st q k).
             split; [reflexivity|]. apply H2. exists q. split; [reflexivity|]. split; [congruence|reflexivity]. }
           rewrite E. reflexivity.
      * intros (g & -> & Hg & ->). destruct (Nat.eq_dec g q) as [->|Ng].
        -- right. split; [reflexivity|]. destruct (mem_ q k) as [|c t] eqn:E.
           ++ right. split.
              ** intros Hin. apply in_map_iff in Hin as ([z s] & Ez & Hin). apply H2 in Hin as (g & Eg & Hg' & _).
                 cbn [fst] in Ez. assert (g = q) by lia. congruence.
              ** unfold st. rewrite (mem_same k q Em Hv), E. reflexivity.
           ++ left. exists (st q k). split; [apply H2; exists q; split; [reflexivity|]; split; [congruence|reflexivity]|].
              unfold st. rewrite (mem_same k q Em Hv), fold_left_app. reflexivity.
        -- left. split; [lia|]. apply H2. exists g. unfold st in *. rewrite (mem_other k q g Em Ng) in *. auto.
  - intros k h Hk Hv [H1 H2]. split; [exact H1|]. intros z s. rewrite H2.
    assert (Hm : forall g, mem_ g (Datatypes.S k) = mem_ g k).
    { intros g. apply mem_skip. destruct (nth k m None); [right; exact Hv|left; reflexivity]. }
    unfold st. split; intros (g & E1 & E2 & E3); exists g; rewrite Hm in *; auto.
  - split; [constructor|]. intros z s. split; [intros []|]. intros (g & _ & Hg & _). rewrite mem_0 in Hg. congruence.
Qed.

Lemma hm_results_ok h : match hm_results acc h with
  | inl e => exists z s, In (z, s) h /\ ~ ok acc (next s)
  | inr l => l = map (fun x => (fst x, result (snd x))) h /\ forall z s, In (z, s) h -> ok acc (next s)
  end.
Proof.
  induction h as [|[z s] h IH]; cbn [hm_results]; [split; [reflexivity|intros z s []]|].
  rewrite (surjective_pairing (a_result acc s)). fold (next s). destruct (a_status acc (next s)) as [e|] eqn:Es.
  - exists z, s. split; [left; reflexivity|]. unfold ok. congruence.
  - destruct (hm_results acc h) as [e|l].
    + destruct IH as (z' & s' & Hin & H). exists z', s'. split; [right; exact Hin|exact H].
    + destruct IH as [-> H]. split; [reflexivity|]. intros z' s' [E|Hin]; [injection E as <- <-; exact Es|apply (H z' s' Hin)].
Qed.

Definition klt (x y : Z * option R) : Prop := (fst x < fst y)%Z.
Lemma insert_perm (x : Z * option R) l : Permutation (insert_result x l) (x :: l).
Proof.
  induction l as [|y l IH]; [reflexivity|]. cbn [insert_result]. destruct (fst x <? fst y)%Z; [reflexivity|].
  rewrite IH. apply perm_swap.
Qed.
Lemma sort_perm (l : list (Z * option R)) : Permutation (sort_results l) l.
Proof. induction l as [|x l IH]; [reflexivity|]. cbn [sort_results fold_right]. rewrite insert_perm. constructor. exact IH. Qed.
Lemma insert_sorted x l : StronglySorted klt l -> ~ In (fst x) (map fst l) -> StronglySorted klt (insert_result x l).
Proof.
  induction 1 as [|y l Hs IH F]; intros N; cbn [insert_result]; [repeat constructor|]. cbn [map] in N.
  destruct (Z.ltb_spec (fst x) (fst y)) as [L|L].
  - constructor; [constructor; assumption|]. constructor; [exact L|]. eapply Forall_impl; [|exact F]. unfold klt. intros z Hz. lia.
  - constructor; [apply IH; intros H; apply N; right; exact H|]. rewrite Forall_forall in *. intros z Hz.
    apply (Permutation_in _ (insert_perm x l)) in Hz. destruct Hz as [<-|Hz]; [|apply F, Hz]. unfold klt.
    assert (fst y <> fst x) by (intros E; apply N; left; exact E). lia.
Qed.
Lemma sort_sorted l : NoDup (map fst l) -> StronglySorted klt (sort_results l).
Proof.
  induction l as [|x l IH]; intros H; [constructor|]. cbn [map] in H. inversion H as [|? ? H1 H2]; subst. cbn [sort_results fold_right].
  apply insert_sorted; [apply IH, H2|]. intros Hin. apply H1. eapply Permutation_in; [|exact Hin]. apply Permutation_map, sort_perm.
Qed.
Lemma sorted_unique l1 : forall l2, StronglySorted klt l1 -> StronglySorted klt l2 -> Permutation l1 l2 -> l1 = l2.
Proof.
  induction l1 as [|a l1 IH]; intros l2 S1 S2 Hp; [apply Permutation_nil in Hp; congruence|].
  destruct l2 as [|b l2]; [apply Permutation_sym, Permutation_nil in Hp; discriminate|].
  inversion S1 as [|? ? S1' F1]; subst. inversion S2 as [|? ? S2' F2]; subst. rewrite Forall_forall in F1, F2.
  assert (a = b).
  { assert (Ha : In a (b :: l2)) by (eapply Permutation_in; [exact Hp|left; reflexivity]).
    assert (Hb : In b (a :: l1)) by (eapply Permutation_in; [apply Permutation_sym, Hp|left; reflexivity]).
    destruct Ha as [|Ha]; [congruence|]. destruct Hb as [|Hb]; [congruence|].
    specialize (F1 b Hb). specialize (F2 a Ha). unfold klt in *. lia. }
  subst b. f_equal. apply IH; [assumption|assumption|]. eapply Permutation_cons_inv. exact Hp.
Qed.

Definition canon : list (Z * option R) := map (fun g => (Z.of_nat g, agg n g)) (filter (ne n) (seq 0 p)).
Lemma canon_sorted : StronglySorted klt canon.
Proof.
  unfold canon. assert (G : forall a k, StronglySorted klt (map (fun g => (Z.of_nat g, agg n g)) (filter (ne n) (seq a k)))); [|apply G].
  intros a k. revert a. induction k as [|k IH]; intros a; [constructor|]. cbn [seq filter]. destruct (ne n a); [|apply IH].
  cbn [map]. constructor; [apply IH|]. apply Forall_forall. intros x Hx. apply in_map_iff in Hx as (g & <- & Hg).
  apply filter_In in Hg as [Hg _]. apply in_seq in Hg. unfold klt. cbn [fst]. lia.
Qed.
Lemma mem_bound g k c : In c (mem_ g k) -> g < p.
Proof. intros H. apply members_in in H as (_ & H & _). exact (Hmp c g H). Qed.
Lemma ne_bound g k : mem_ g k <> [] -> g < p.
Proof. destruct (mem_ g k) as [|c t] eqn:E; [congruence|]. intros _. apply (mem_bound g k c). rewrite E. left. reflexivity. Qed.
Lemma hinv_perm h : hinv n h -> Permutation h (map (fun g => (Z.of_nat g, st g n)) (filter (ne n) (seq 0 p))).
Proof.
  intros [H1 H2]. apply NoDup_Permutation.
  - apply (NoDup_map_inv fst), H1.
  - apply (NoDup_map_inv fst). rewrite map_map. cbn [fst]. apply FinFun.Injective_map_NoDup; [intros a b E; lia|apply NoDup_filter_seq].
  - intros [z s]. rewrite H2, in_map_iff. split.
    + intros (g & -> & Hg & ->). exists g. split; [reflexivity|]. apply filter_In. split; [apply in_seq; split; [lia|apply (ne_bound g n Hg)]|].
      unfold ne. destruct (mem_ g n); [congruence|reflexivity].
    + intros (g & E & Hin). injection E as <- <-. exists g. apply filter_In in Hin as [_ Hin]. split; [reflexivity|]. split; [|reflexivity].
      unfold ne in Hin. destruct (mem_ g n); [discriminate|congruence].
Qed.

Lemma fill_ok max G : forall pre b, db_inv max b (fun o => nth o (map (agg n) pre) None) -> length pre + length G <= max ->
  exists b', fold_opt (fill_step max) (map (fun g => (Z.of_nat g, agg n g)) G) (pre, b) = Some (pre ++ G, b') /\
    db_inv max b' (fun o => nth o (map (agg n) (pre ++ G)) None).
Proof.
  induction G as [|g G IH]; intros pre b I L; [exists b; rewrite app_nil_r; split; [reflexivity|exact I]|].
  cbn [length] in L. cbn [map fold_opt fill_step fst snd]. replace (0 <=? Z.of_nat g)%Z with true by lia. cbn [guard bind].
  rewrite push_ok by lia. cbn [bind]. destruct (push_result max pre g b (agg n g) (agg n) I ltac:(lia)) as (b1 & E1 & I1).
  rewrite E1. cbn [bind]. rewrite Nat2Z.id. destruct (IH (pre ++ [g]) b1 (I1 eq_refl)) as (b2 & E2 & I2).
  { rewrite app_length. cbn [length]. lia. }
  exists b2. rewrite <- app_assoc in E2, I2. split; [exact E2|exact I2].
Qed.

Lemma very_sparse_mapping_ok : exists res, very_sparse_mapping allocr addr acc order p mu = Some res /\
  array_outcome (fe (seq 0 p)) (outputs acc (@nil (list (option P))) cls n m p) res.
Proof.
  unfold very_sparse_mapping. rewrite (iterate_simple_ok n _ mls mu Hmu) by discriminate. rewrite mrows. cbn [bind].
  destruct hm_fold as (h & Eh & Hh). rewrite Eh. cbn [bind]. assert (Hp := hinv_perm h Hh).
  assert (Hr := hm_results_ok (order h)). unfold array_outcome. destruct (hm_results acc (order h)) as [e|l].
  - destruct Hr as (z & s & Hin & Hn). eexists. split; [reflexivity|]. destruct (fe (seq 0 p)) eqn:Ef; [eauto|].
    exfalso. rewrite fe_none in Ef. apply (Permutation_in _ (Hord h)), (proj2 Hh) in Hin as (g & _ & Hg & ->).
    apply Hn, Ef. apply (ne_bound g n Hg).
  - destruct Hr as [-> Hok]. set (G := filter (ne n) (seq 0 p)) in *.
    assert (Hlen : length h = length G) by (rewrite (Permutation_length Hp), map_length; reflexivity).
    assert (Hsort : sort_results (map (fun x => (fst x, result (snd x))) (order h)) = canon).
    { apply sorted_unique; [apply sort_sorted|apply canon_sorted|].
      - rewrite map_map. cbn [fst]. eapply Permutation_NoDup; [|exact (proj1 Hh)]. apply Permutation_map, Permutation_sym, Hord.
      - rewrite sort_perm. etransitivity; [apply Permutation_map, Hord|]. etransitivity; [apply Permutation_map, Hp|].
        rewrite map_map. reflexivity. }
    rewrite Hsort. unfold canon. fold G.
    destruct (fill_ok (length h) G [] (db_init (allocr (length h)))) as (b & Eb & Ib).
    { pose proof (db_init_inv (allocr (length h))) as Q. rewrite Har in Q. eapply db_ext; [exact Q|]. intros [|o] _; reflexivity. }
    { cbn [length]. lia. }
    cbn [app] in Eb, Ib. rewrite Eb. cbn [bind fst snd].
    assert (Rd : represents (db_build b) (map (agg n) G)).
    { assert (Q := build_rep _ _ _ Ib). eapply eq_rect; [exact Q|]. rewrite Hlen. apply (nth_ext _ _ None None).
      - rewrite !map_length, seq_length. reflexivity.
      - intros o Ho. rewrite map_length, seq_length in Ho. rewrite (nth_indep (map _ (seq 0 _)) None (nth 0 (map (agg n) G) None)) by (rewrite map_length, seq_length; exact Ho).
        rewrite (map_nth (fun o => nth o (map (agg n) G) None)), seq_nth by exact Ho. reflexivity. }
    assert (Hin : forall g, g < p -> ne n g = true -> ok acc (next (st g n))).
    { intros g Hg Eg. apply (Hok (Z.of_nat g)). apply (Permutation_in _ (Permutation_sym (Hord h))). apply (Permutation_in _ (Permutation_sym Hp)).
      apply in_map_iff. exists g. split; [reflexivity|]. apply filter_In. split; [apply in_seq; lia|exact Eg]. }
    assert (Hemp : forall g, ne n g = false -> st g n = start acc []).
    { intros g Hg. apply ne_false in Hg. unfold st. rewrite Hg. reflexivity. }
    rewrite (surjective_pairing (a_result acc _)). fold (start acc []). fold (next (start acc [])). fold (result (start acc [])).
    destruct (Nat.ltb_spec (length h) p) as [L|L].
    + unfold checked. destruct (a_status acc (next (start acc []))) as [e|] eqn:Es.
      * eexists. split; [reflexivity|]. destruct (fe (seq 0 p)) eqn:Ef; [eauto|]. exfalso. rewrite fe_none in Ef.
        destruct (filter_short (ne n) (seq 0 p)) as (g & Hg & Eg); [fold G; rewrite seq_length; lia|].
        apply in_seq in Hg. specialize (Ef g ltac:(lia)). rewrite (Hemp g Eg) in Ef. unfold ok in Ef. congruence.
      * cbn [bind]. assert (Ef : fe (seq 0 p) = None).
        { apply fe_none. intros g Hg. destruct (ne n g) eqn:Eg; [apply Hin; assumption|]. rewrite (Hemp g Eg). exact Es. }
        rewrite Ef. eexists. split; [reflexivity|]. eexists. split; [reflexivity|]. apply vs_content; [exact Rd|].
        intros i Hi Ei. unfold agg. rewrite (Hemp i Ei). reflexivity.
    + assert (Hall : forall g, g < p -> ne n g = true).
      { intros g Hg. destruct (ne n g) eqn:Eg; [reflexivity|]. exfalso.
        assert (length (filter (ne n) (seq 0 p)) < length (seq 0 p)); [|fold G in H; rewrite seq_length in H; lia].
        assert (Hi : In g (seq 0 p)) by (apply in_seq; lia). revert Hi Eg. apply filter_drop. }
      assert (Ef : fe (seq 0 p) = None) by (apply fe_none; intros g Hg; apply Hin; [exact Hg|apply Hall, Hg]).
      cbn [bind]. rewrite Ef. eexists. split; [reflexivity|]. eexists. split; [reflexivity|]. apply vs_content; [exact Rd|].
      intros i Hi Ei. rewrite Hall in Ei by exact Hi. discriminate.
Qed.
End VMap.
End Sparse.
