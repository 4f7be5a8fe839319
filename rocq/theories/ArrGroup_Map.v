(** Mappings: proofs about [with_mapping] of [ArrGroup_Model]. *)
From Verif Require Import Base Bits_Model Bitmap_Model Dense_Model Dense_Spec Dense_Proofs
  DenseOps_Model DenseOps_Spec DenseOps_Proofs IdFilter_Model IdFilter_Spec IdFilter_Proofs
  Array_Model Array_Spec Array_Proofs ArrayIter_Proofs Edge_Model Edge_Spec Edge_Proofs
  GroupOps_Model GroupOps_Spec GroupOps_Proofs ArrOps_Model ArrOps_Spec ArrOps_Proofs
  ArrGroup_Model ArrGroup_Spec ArrGroup_Proofs ArrGroup_Split ArrGroup_Sparse.

Lemma collect_ext {S P C R Err} (acc : accum S P C R Err) valids accs accs' n : forall b i,
  (forall j, rd valids j = Some true -> rd accs j = rd accs' j) ->
  collect_groups acc valids accs b i n = collect_groups acc valids accs' b i n.
Proof.
  induction n as [|n IH]; intros b i H; [reflexivity|]. cbn [collect_groups]. destruct (rd valids i) as [[|]|] eqn:Ev; cbn [bind]; [|apply IH, H|reflexivity].
  rewrite (H i Ev). destruct (rd accs' i) as [s|]; [|reflexivity]. cbn [bind].
  destruct (match a_kind acc with Aggregator => draw_step acc (s, b) i | _ => Some (s, b) end) as [x|]; [|reflexivity]. cbn [bind].
  destruct (a_status acc (fst x)); [reflexivity|]. apply IH, H.
Qed.
Lemma seq_snoc k : seq 0 (Datatypes.S k) = seq 0 k ++ [k].
Proof. replace (Datatypes.S k) with (k + 1) by lia. apply seq_app. Qed.
Lemma filter_snoc (Q : nat -> bool) k : filter Q (seq 0 (Datatypes.S k)) = filter Q (seq 0 k) ++ (if Q k then [k] else []).
Proof. rewrite seq_snoc, filter_app. cbn [filter]. destruct (Q k); reflexivity. Qed.
Lemma filter_at (Q : nat -> bool) k n : k < n -> Q k = true ->
  filter Q (seq 0 n) = filter Q (seq 0 k) ++ k :: filter Q (seq (Datatypes.S k) (n - Datatypes.S k)).
Proof.
  intros H E. replace n with (k + Datatypes.S (n - Datatypes.S k)) at 1 by lia. rewrite seq_app, filter_app. cbn [Nat.add seq filter]. rewrite E. reflexivity.
Qed.
(** The positions in a filtered sequence. *)
Lemma ranks (Q : nat -> bool) n : seq 0 (length (filter Q (seq 0 n))) = map (fun i => length (filter Q (seq 0 i))) (filter Q (seq 0 n)).
Proof.
  induction n as [|n IH]; [reflexivity|]. rewrite filter_snoc, app_length, map_app, seq_app, IH. f_equal.
  destruct (Q n); reflexivity.
Qed.
Lemma rdz_nat {A} (l : list A) q : rdz l (Z.of_nat q) = rd l q.
Proof. unfold rdz. replace (Z.of_nat q <? 0)%Z with false by lia. rewrite Nat2Z.id. reflexivity. Qed.

Section Map.
Context {S P C R Err : Type}.
Variable acc : accum S P C R Err.
Variables (pls : list (list (option P))) (cls : list (list (option C))) (m : list (option nat)) (p : nat).
Notation n := (length m).
Notation gv := (group_valid acc pls).
Notation cv := (child_valid acc cls).
Notation mem_ q k := (members acc cls m q k).
Notation fe := (first_error acc pls cls n m).
Notation proc := (proc acc pls cls m).
Notation accs_at := (accs_at acc pls cls m).
Notation st_at := (st_at acc pls cls m).
Notation faccs_at := (faccs_at acc pls cls m).
Notation draws_at := (draws_at acc pls cls m).
Notation pre_final := (pre_final acc pls cls m).
Notation child_out := (child_out acc pls cls n m).
Notation rows := (match a_kind acc with Aggregator => p | _ => n end).
Hypothesis Hmp : forall c q, nth c m None = Some q -> q < p.
Definition dargs {A} (opts : list bool) : list (darr A) := repeat (mkD [] [] 0) (length opts).
Lemma dargs_len {A} opts : length (@dargs A opts) = length opts.
Proof. apply repeat_length. Qed.
Definition mv (i : nat) : bool := is_some (nth i m None) && cv i.
Definition par (i : nat) : nat := match nth i m None with Some q => q | None => 0 end.
Lemma mv_par i : mv i = true -> nth i m None = Some (par i) /\ cv i = true /\ par i < p.
Proof.
  unfold mv, par. destruct (nth i m None) as [q|] eqn:E; [|discriminate]. cbn [is_some andb]. intros H. split; [reflexivity|]. split; [exact H|]. exact (Hmp i q E).
Qed.
Lemma proc_eq i : proc i = mv i && gv (par i).
Proof. unfold GroupOps_Proofs.proc, mv, par. destruct (nth i m None) as [q|]; [|reflexivity]. cbn [is_some andb]. apply andb_comm. Qed.
Lemma mrow_mv i : mv i = true -> mrow cls m i = Some (inl (Z.of_nat (par i))) :: map (option_map inr) (row cls i).
Proof. intros H. destruct (mv_par i H) as (E & _ & _). unfold mrow. rewrite E. reflexivity. Qed.
Lemma astep k i q s : nth k m None = Some q -> gv q && cv k = true -> s = stepf acc cls (st_at q k) k ->
  (if i =? q then s else accs_at k i) = accs_at (Datatypes.S k) i.
Proof. apply (accs_step acc pls cls m p (dargs (a_popts acc)) (dargs (a_copts acc))); [apply dargs_len|apply dargs_len|exact Hmp]. Qed.
Lemma askip k i : proc k = false -> accs_at k i = accs_at (Datatypes.S k) i.
Proof. apply (accs_skip acc pls cls m p (dargs (a_popts acc)) (dargs (a_copts acc))); [apply dargs_len|apply dargs_len|exact Hmp]. Qed.

Lemma areset_ok : fold_opt (areset_step acc) (map (fun q => (q, row pls q)) (filter gv (seq 0 p))) (repeat (a_empty acc) p, repeat false p) =
  Some (map (accs_at 0) (seq 0 p), map gv (seq 0 p)).
Proof.
  destruct (seq_loop (areset_step acc) (fun q => (q, row pls q)) gv
    (fun k st => st = (map (fun q => if (q <? k) && gv q then start acc (row pls q) else a_empty acc) (seq 0 p),
                       map (fun q => (q <? k) && gv q) (seq 0 p))) p) with (b := (repeat (a_empty acc) p, repeat false p)) as (b & E & Hb).
  - intros k b Hk Eg ->. cbn [areset_step]. rewrite rd_map by exact Hk. replace (k <? k) with false by lia. cbn [andb bind].
    fold (start acc (row pls k)). rewrite !upd_map by exact Hk. cbn [bind]. eexists. split; [reflexivity|]. f_equal; apply map_ext_seq; intros i Hi;
      (destruct (Nat.eqb_spec i k) as [->|Ne]; [rewrite Eg; replace (k <? Datatypes.S k) with true by lia; reflexivity|
        replace (i <? Datatypes.S k) with (i <? k) by lia; reflexivity]).
  - intros k b Hk Eg ->. f_equal; apply map_ext_seq; intros i Hi;
      (destruct (Nat.eqb_spec i k) as [->|Ne]; [rewrite Eg, !andb_false_r; reflexivity|
        replace (i <? Datatypes.S k) with (i <? k) by lia; reflexivity]).
  - rewrite !repeat_map. reflexivity.
  - rewrite E, Hb. f_equal. f_equal; apply map_ext_seq; intros i Hi; replace (i <? p) with true by lia; reflexivity.
Qed.

Variables (pu : outil P) (mu : outil (Z + C)).
Notation mls := (map (option_map inl) (map zopt m) :: map (map (option_map inr)) cls).
Hypothesis Hpu : u_ok p (a_popts acc) pls pu.
Hypothesis Hmu : u_ok n (false :: a_copts acc) mls mu.
Hypothesis Hp0 : a_popts acc = [] -> pls = [].
Variables (allocr : nat -> list R) (addr : nat).
Hypothesis Har : alloc_sz allocr.

Lemma mu_rows : ou_iterate_simple mu = Some (map (fun i => (i, mrow cls m i)) (filter mv (seq 0 n))).
Proof. rewrite (iterate_simple_ok n _ mls mu Hmu) by discriminate. rewrite mrows. reflexivity. Qed.
Lemma mu_estimate k : k <= n -> length (filter proc (seq 0 k)) <= ou_estimate mu.
Proof.
  intros Hk. destruct (estimate_ok n _ mls mu Hmu) as [Hl _]. rewrite mrows, map_length in Hl.
  eapply Nat.le_trans; [|exact Hl]. apply filter_seq_len; [exact Hk|]. intros i _. rewrite proc_eq. intros H. apply andb_true_iff in H. apply H.
Qed.

(** *** Dense results *)
Definition aaccs (k q : nat) : S := fold_left (add acc cls) (mem_ q k) (if gv q then start acc (row pls q) else a_empty acc).
Lemma collect_final b accs : (forall q, q < p -> gv q = true -> rd accs q = Some (pre_final q)) ->
  db_inv rows b (ccontent acc pls cls m 0) ->
  exists r, collect_groups acc (map gv (seq 0 p)) accs b 0 p = Some r /\
    match fe (seq 0 p) with Some e => r = inl e | None => exists b', r = inr b' /\ db_inv rows b' (ccontent acc pls cls m p) end.
Proof.
  intros H I. rewrite (collect_ext acc _ accs (map pre_final (seq 0 p))).
  - destruct (collect_ok acc pls cls m p (dargs (a_popts acc)) (dargs (a_copts acc)) (dargs_len _) (dargs_len _) Hmp b p (Nat.le_refl p)) as (r & E & Hr).
    + rewrite Nat.sub_diag. exact I.
    + rewrite Nat.sub_diag. reflexivity.
    + rewrite Nat.sub_diag in E. exists r. split; assumption.
  - intros q Hq. assert (L : q < p) by (apply rd_Some_lt in Hq; rewrite map_length, seq_length in Hq; exact Hq).
    rewrite rd_map in Hq by exact L. injection Hq as Hq. rewrite rd_map by exact L. apply H; assumption.
Qed.

Lemma agg_or_partial_ok : a_kind acc <> Full ->
  exists res, agg_or_partial_mapping allocr acc p mu (map (accs_at 0) (seq 0 p)) (map gv (seq 0 p)) = Some res /\
    array_outcome (fe (seq 0 p)) (outputs acc pls cls n m p) res.
Proof.
  intros NF. unfold agg_or_partial_mapping. rewrite mu_rows. cbn [bind]. replace (ou_size mu) with n by (symmetry; apply Hmu).
  destruct (seq_loop (agg_or_partial_step acc (map gv (seq 0 p))) (fun i => (i, mrow cls m i)) mv
    (fun k st => fst st = map (match a_kind acc with Aggregator => aaccs k | _ => accs_at k end) (seq 0 p) /\ db_inv rows (snd st) (pcontent acc pls cls m k)) n)
    with (b := (map (accs_at 0) (seq 0 p), db_init (allocr rows))) as ([accs b] & E & Ha & I).
  - intros k [accs b] Hk Hv [Ea I]. cbn [fst snd] in *. subst accs. destruct (mv_par k Hv) as (Em & Ec & Hq). set (q := par k) in *.
    unfold agg_or_partial_step. cbn [snd fst]. rewrite (mrow_mv k Hv). fold q. rewrite !rdz_nat, Nat2Z.id, !rd_map by exact Hq. cbn [bind]. rewrite from_inr_row.
    destruct (a_kind acc) eqn:K; [| |congruence].
    + rewrite upd_map by exact Hq. cbn [bind]. eexists. split; [reflexivity|]. cbn [fst snd]. split.
      * apply map_ext_seq. intros i Hi. unfold aaccs. rewrite mem_S, Em, Ec, andb_true_r, (Nat.eqb_sym q i).
        destruct (Nat.eqb_spec i q) as [->|Ne]; [rewrite fold_left_app; reflexivity|rewrite app_nil_r; reflexivity].
      * eapply db_inv_ext; [exact I|]. intros i _. unfold pcontent. rewrite K. reflexivity.
    + destruct (gv q) eqn:Eg.
      * assert (Ea : accs_at k q = st_at q k) by (unfold GroupOps_Proofs.accs_at; rewrite Eg; reflexivity). rewrite Ea.
        change (g_add acc (st_at q k) k (row cls k)) with (add acc cls (st_at q k) k).
        rewrite (surjective_pairing (a_result acc _)), upd_map by exact Hq. cbn [bind].
        destruct (db_set_f n b _ k (fst (a_result acc (add acc cls (st_at q k) k))) I) as (b1 & Eb & I1); [exact Hk|]. rewrite Eb. cbn [bind].
        eexists. split; [reflexivity|]. cbn [fst snd]. split.
        -- apply map_ext_seq. intros i Hi. apply astep; [exact Em|rewrite Eg, Ec; reflexivity|]. unfold stepf. rewrite K. reflexivity.
        -- eapply db_inv_ext; [exact I1|]. intros i Hi. unfold setf, pcontent. rewrite K. cbn [fst snd].
           assert (Hco : fst (a_result acc (add acc cls (st_at q k) k)) = child_out k).
           { unfold GroupOps_Spec.child_out. rewrite Em, Eg, Ec. cbn [andb]. unfold child_result. rewrite K. unfold GroupOps_Proofs.st_at, result. f_equal. f_equal. f_equal.
             unfold stepf. rewrite K. reflexivity. }
           rewrite Hco. destruct (Nat.eqb_spec i k) as [->|Ne].
           ++ replace (k <? k) with false by lia. replace (k <? Datatypes.S k) with true by lia. destruct (child_out k); reflexivity.
           ++ replace (i <? Datatypes.S k) with (i <? k) by lia. destruct (child_out k); reflexivity.
      * assert (Hp : proc k = false) by (rewrite proc_eq; fold q; rewrite Eg; apply andb_false_r).
        eexists. split; [reflexivity|]. cbn [fst snd]. split; [apply map_ext_seq; intros i Hi; apply askip, Hp|].
        eapply db_inv_ext; [exact I|]. intros i Hi. unfold pcontent. rewrite K.
        destruct (Nat.eqb_spec i k) as [->|Ne]; [rewrite child_out_skip by exact Hp; destruct (k <? k), (k <? Datatypes.S k); reflexivity|].
        replace (i <? Datatypes.S k) with (i <? k) by lia. reflexivity.
  - intros k [accs b] Hk Hv [Ea I]. cbn [fst snd] in *. subst accs.
    assert (Hp : proc k = false) by (rewrite proc_eq, Hv; reflexivity). split.
    + apply map_ext_seq. intros i Hi. destruct (a_kind acc); [|apply askip, Hp..]. unfold aaccs. rewrite mem_S.
      replace (match nth k m None with Some r => r =? i | None => false end && cv k) with false; [rewrite app_nil_r; reflexivity|].
      unfold mv in Hv. destruct (nth k m None); [|reflexivity]. cbn [is_some andb] in Hv. rewrite Hv, andb_false_r. reflexivity.
    + eapply db_inv_ext; [exact I|]. intros i Hi. unfold pcontent. destruct (a_kind acc); try reflexivity.
      destruct (Nat.eqb_spec i k) as [->|Ne]; [rewrite child_out_skip by exact Hp; destruct (k <? k), (k <? Datatypes.S k); reflexivity|].
      replace (i <? Datatypes.S k) with (i <? k) by lia. reflexivity.
  - cbn [fst snd]. split.
    + apply map_ext_seq. intros i Hi. destruct (a_kind acc) eqn:K; [|reflexivity..]. unfold GroupOps_Proofs.accs_at, GroupOps_Proofs.st_at, aaccs. rewrite mem_0. reflexivity.
    + rewrite <- (Har rows) at 1. eapply db_inv_ext; [apply db_init_inv|]. intros i _. unfold pcontent. destruct (a_kind acc); reflexivity.
  - assert (Er : match a_kind acc with Aggregator => p | _ => n end = rows) by reflexivity. rewrite E. cbn [bind fst snd]. cbn [fst snd] in Ha, I.
    destruct (collect_final b accs) as (r & Ec & Hr).
    + intros q Hq Eg. rewrite Ha, rd_map by exact Hq. f_equal. unfold GroupOps_Proofs.pre_final. rewrite Eg. unfold GroupOps_Proofs.accs_at, aaccs.
      destruct (a_kind acc) eqn:K; rewrite ?Eg; [|reflexivity|congruence]. unfold GroupOps_Proofs.st_at, stepf. rewrite K. reflexivity.
    + eapply db_inv_ext; [exact I|]. intros i Hi. unfold pcontent, ccontent. destruct (a_kind acc); [reflexivity| |congruence].
      replace (i <? n) with true by lia. reflexivity.
    + rewrite Ec. cbn [bind]. unfold array_outcome. destruct (fe (seq 0 p)) as [e|].
      * subst r. eexists. split; [reflexivity|]. eauto.
      * destruct Hr as (b' & -> & I'). eexists. split; [reflexivity|]. eexists. split; [reflexivity|].
        apply ar_dense_rep. eapply eq_rect; [apply build_rep; exact I'|]. unfold outputs, ccontent. destruct (a_kind acc); [|reflexivity..].
        apply map_ext_seq. intros i Hi. replace (i <? p) with true by lia. reflexivity.
Qed.

(** *** Sparse results *)
Definition outv (i : nat) : option R := match a_kind acc with Partial => child_out i | _ => None end.
Definition sinv (k : nat) (st : list S * sbuilder R * list Z) : Prop :=
  fst (fst st) = map (accs_at k) (seq 0 p) /\
  sb_inv n (ou_estimate mu) (snd (fst st)) (map (fun i => (i, outv i)) (filter proc (seq 0 k))) /\
  (a_kind acc = Full -> snd st = map (fun i => Z.of_nat (par i)) (filter proc (seq 0 k))).
Lemma smapped_ok : a_kind acc <> Aggregator ->
  exists st, fold_opt (smapped_step acc (map gv (seq 0 p))) (map (fun i => (i, mrow cls m i)) (filter mv (seq 0 n)))
    (map (accs_at 0) (seq 0 p), sb_init allocr n (ou_estimate mu), []) = Some st /\ sinv n st.
Proof.
  intros NA. apply (seq_loop _ _ mv sinv n).
  - intros k [[accs b] pids] Hk Hv (Ea & I & Hp). cbn [fst snd] in *. subst accs. destruct (mv_par k Hv) as (Em & Ec & Hq).
    unfold smapped_step. cbn [snd fst]. rewrite (mrow_mv k Hv). set (q := par k) in *. rewrite !rdz_nat, Nat2Z.id, !rd_map by exact Hq. cbn [bind].
    destruct (gv q) eqn:Eg.
    + rewrite from_inr_row. assert (Hpr : proc k = true) by (rewrite proc_eq, Hv; fold q; rewrite Eg; reflexivity).
      assert (Eac : accs_at k q = st_at q k) by (unfold GroupOps_Proofs.accs_at; rewrite Eg; reflexivity). rewrite Eac.
      change (g_add acc (st_at q k) k (row cls k)) with (add acc cls (st_at q k) k).
      assert (L : length (map (fun i => (i, outv i)) (filter proc (seq 0 k))) < ou_estimate mu).
      { assert (L := mu_estimate (Datatypes.S k) ltac:(lia)). rewrite filter_snoc, Hpr, app_length in L. cbn [length] in L. rewrite map_length. lia. }
      assert (Hst : forall s, s = stepf acc cls (st_at q k) k -> upd (map (accs_at k) (seq 0 p)) q s = Some (map (accs_at (Datatypes.S k)) (seq 0 p))).
      { intros s Es. rewrite upd_map by exact Hq. f_equal. apply map_ext_seq. intros i Hi. apply astep; [exact Em|rewrite Eg, Ec; reflexivity|exact Es]. }
      unfold sinv. rewrite filter_snoc, Hpr. destruct (a_kind acc) eqn:K; [congruence| |].
      * rewrite (surjective_pairing (a_result acc _)).
        destruct (sb_set_last n (ou_estimate mu) b _ k (fst (a_result acc (add acc cls (st_at q k) k))) I L) as (b1 & b2 & E1 & E2 & I2).
        rewrite E1. cbn [bind]. rewrite Hst by (unfold stepf; rewrite K; reflexivity). cbn [bind]. rewrite E2. cbn [bind].
        eexists. split; [reflexivity|]. cbn [fst snd]. split; [reflexivity|]. split; [|congruence].
        rewrite map_app. cbn [map]. assert (Ho : outv k = fst (a_result acc (add acc cls (st_at q k) k))); [|rewrite Ho; exact I2].
        unfold outv. rewrite K. unfold GroupOps_Spec.child_out. rewrite Em, Eg, Ec. cbn [andb]. unfold child_result. rewrite K.
        unfold GroupOps_Proofs.st_at, result. f_equal. f_equal. f_equal. unfold stepf. rewrite K. reflexivity.
      * cbn [bind]. rewrite Hst by (unfold stepf; rewrite K; reflexivity). cbn [bind].
        destruct (sb_add_id_ok n (ou_estimate mu) b _ k I L) as (b1 & E1 & I1). rewrite E1. cbn [bind].
        eexists. split; [reflexivity|]. cbn [fst snd]. split; [reflexivity|]. split.
        -- rewrite map_app. cbn [map]. unfold outv at 2. rewrite K. exact I1.
        -- intros _. rewrite Hp by reflexivity. rewrite map_app. reflexivity.
    + assert (Hpr : proc k = false) by (rewrite proc_eq; fold q; rewrite Eg; apply andb_false_r).
      eexists. split; [reflexivity|]. unfold sinv. cbn [fst snd]. rewrite filter_snoc, Hpr, app_nil_r.
      split; [apply map_ext_seq; intros i Hi; apply askip, Hpr|]. split; assumption.
  - intros k [[accs b] pids] Hk Hv (Ea & I & Hp). assert (Hpr : proc k = false) by (rewrite proc_eq, Hv; reflexivity).
    unfold sinv. rewrite filter_snoc, Hpr, app_nil_r. split; [rewrite Ea; apply map_ext_seq; intros i Hi; apply askip, Hpr|]. split; assumption.
  - split; [reflexivity|]. split; [apply sb_init_inv, Har|reflexivity].
Qed.

Definition finv (k : nat) (st : list S * sbuilder R) : Prop :=
  fst st = map (faccs_at k) (seq 0 p) /\
  sb_inv n (ou_estimate mu) (snd st) (map (fun i => (i, child_out i)) (filter proc (seq 0 k)) ++
    map (fun i => (i, None)) (filter proc (seq k (n - k)))).
Lemma sfull_ok b : a_kind acc = Full -> sb_inv n (ou_estimate mu) b (map (fun i => (i, outv i)) (filter proc (seq 0 n))) ->
  exists st, fold_opt (sfull_step acc (map (fun i => Z.of_nat (par i)) (filter proc (seq 0 n)))) (seq 0 (length (sb_ids b)))
    (finalize_all acc (map gv (seq 0 p)) (map (accs_at n) (seq 0 p)), b) = Some st /\ finv n st.
Proof.
  intros K I. replace (length (sb_ids b)) with (length (filter proc (seq 0 n))).
  2:{ destruct I as (_ & _ & I & _). rewrite I, !map_length. reflexivity. }
  rewrite ranks, finalize_all_ok. apply (seq_loop _ _ proc finv n).
  - intros k [accs b1] Hk Hp (Ea & I1). cbn [fst snd] in *. subst accs. assert (Hpq := Hp). rewrite proc_eq in Hpq. apply andb_true_iff in Hpq as [Hv Eg].
    destruct (mv_par k Hv) as (Em & Ec & Hq). set (q := par k) in *. unfold sfull_step.
    assert (Hrd : rd (map (fun i => Z.of_nat (par i)) (filter proc (seq 0 n))) (length (filter proc (seq 0 k))) = Some (Z.of_nat q)).
    { rewrite (filter_at proc k n Hk Hp), map_app. unfold rd. rewrite nth_error_app2, map_length, Nat.sub_diag by (rewrite map_length; lia). reflexivity. }
    rewrite Hrd. cbn [bind]. rewrite rdz_nat, rd_map by exact Hq. cbn [bind].
    assert (Ef : faccs_at k q = draws_at q k) by (unfold GroupOps_Proofs.faccs_at; rewrite Eg; reflexivity). rewrite Ef.
    rewrite (surjective_pairing (a_result acc _)), Nat2Z.id, upd_map by exact Hq. cbn [bind].
    assert (L : length (filter proc (seq 0 k)) < ou_estimate mu).
    { assert (L := mu_estimate (Datatypes.S k) ltac:(lia)). rewrite filter_snoc, Hp, app_length in L. cbn [length] in L. lia. }
    assert (Es : filter proc (seq k (n - k)) = k :: filter proc (seq (Datatypes.S k) (n - Datatypes.S k))).
    { replace (n - k) with (Datatypes.S (n - Datatypes.S k)) by lia. cbn [seq filter]. rewrite Hp. reflexivity. }
    rewrite Es in I1. cbn [map] in I1.
    destruct (sb_set_ok n (ou_estimate mu) b1 _ k _ (fst (a_result acc (draws_at q k))) I1) as (b2 & E2 & I2); [rewrite map_length; exact L|].
    rewrite map_length in E2. rewrite E2. cbn [bind]. eexists. split; [reflexivity|]. split; cbn [fst snd].
    + apply map_ext_seq. intros i Hi. unfold GroupOps_Proofs.faccs_at, GroupOps_Proofs.draws_at. rewrite mem_S, Em, Ec, andb_true_r, (Nat.eqb_sym q i).
      destruct (Nat.eqb_spec i q) as [->|Ne]; [rewrite Eg, fold_left_app; reflexivity|rewrite app_nil_r; reflexivity].
    + rewrite filter_snoc, Hp, map_app, <- app_assoc. cbn [map app].
      assert (Ho : child_out k = fst (a_result acc (draws_at q k))); [|rewrite Ho; exact I2].
      unfold GroupOps_Spec.child_out. rewrite Em, Eg, Ec. cbn [andb]. unfold child_result. rewrite K.
      unfold GroupOps_Proofs.draws_at, GroupOps_Proofs.st_at, result. f_equal. f_equal. f_equal. f_equal. unfold stepf. rewrite K. reflexivity.
  - intros k [accs b1] Hk Hp (Ea & I1). split; cbn [fst snd] in *.
    + subst accs. apply map_ext_seq. intros i Hi. unfold GroupOps_Proofs.faccs_at, GroupOps_Proofs.draws_at. unfold GroupOps_Proofs.proc in Hp. rewrite mem_S.
      destruct (nth k m None) as [q|]; [|cbn [andb]; rewrite app_nil_r; reflexivity].
      destruct (Nat.eqb_spec q i) as [->|Ne]; [|cbn [andb]; rewrite app_nil_r; reflexivity].
      destruct (gv i); [|reflexivity]. cbn [andb] in *. rewrite Hp, app_nil_r. reflexivity.
    + rewrite filter_snoc, Hp, app_nil_r. replace (n - k) with (Datatypes.S (n - Datatypes.S k)) in I1 by lia. cbn [seq filter] in I1. rewrite Hp in I1. exact I1.
  - split; cbn [fst snd].
    + apply map_ext_seq. intros i Hi. unfold GroupOps_Proofs.faccs_at, GroupOps_Proofs.draws_at. rewrite mem_0. reflexivity.
    + rewrite Nat.sub_0_r. cbn [seq filter map app]. unfold outv in I. rewrite K in I. exact I.
Qed.

Lemma status_all_ok l : a_kind acc <> Aggregator -> status_all acc (map gv l) (map pre_final l) = fe l.
Proof.
  intros NA. induction l as [|q l IH]; [reflexivity|]. cbn [map status_all first_error]. rewrite IH. unfold group_error, GroupOps_Proofs.pre_final.
  destruct (gv q); [|reflexivity]. replace (match a_kind acc with Full => draws_at q n | _ => st_at q n end) with (final_of acc pls cls n m q); [reflexivity|].
  unfold final_of, group_final, GroupOps_Proofs.draws_at, GroupOps_Proofs.st_at, stepf. destruct (a_kind acc); [congruence|reflexivity|reflexivity].
Qed.

Lemma with_mapping_ok : exists res, with_mapping allocr addr acc pu mu = Some res /\
  array_outcome (fe (seq 0 p)) (outputs acc pls cls n m p) res.
Proof.
  unfold with_mapping. replace (ou_size pu) with p by (symmetry; apply Hpu). replace (ou_size mu) with n by (symmetry; apply Hmu).
  rewrite (iterate_simple_ok p _ pls pu Hpu Hp0), prow_rows. cbn [bind]. rewrite areset_ok. cbn [bind].
  destruct (match a_kind acc with Aggregator => true | _ => false end || match a_kind acc with Partial => true | _ => false end && (n <? 4 * ou_estimate mu)) eqn:Ed.
  - apply agg_or_partial_ok. intros K. rewrite K in Ed. discriminate.
  - assert (NA : a_kind acc <> Aggregator) by (intros K; rewrite K in Ed; discriminate).
    rewrite mu_rows. cbn [bind]. destruct (smapped_ok NA) as ([[accs b] pids] & E & Ea & I & Hp). rewrite E. cbn [bind]. cbn [fst snd] in *. subst accs.
    assert (Hf : exists y, match a_kind acc with
        | Full => fold_opt (sfull_step acc pids) (seq 0 (length (sb_ids b))) (finalize_all acc (map gv (seq 0 p)) (map (accs_at n) (seq 0 p)), b)
        | _ => Some (map (accs_at n) (seq 0 p), b) end = Some y /\ fst y = map pre_final (seq 0 p) /\
        sb_inv n (ou_estimate mu) (snd y) (map (fun i => (i, child_out i)) (filter proc (seq 0 n)))).
    { destruct (a_kind acc) eqn:K; [congruence| |].
      - eexists. split; [reflexivity|]. cbn [fst snd]. split.
        + apply map_ext_seq. intros i Hi. unfold GroupOps_Proofs.accs_at, GroupOps_Proofs.pre_final. rewrite K. reflexivity.
        + unfold outv in I. rewrite K in I. exact I.
      - rewrite (Hp eq_refl). destruct (sfull_ok b K I) as (y & Ey & Ef & If). exists y. split; [exact Ey|]. split.
        + rewrite Ef. apply map_ext_seq. intros i Hi. unfold GroupOps_Proofs.faccs_at, GroupOps_Proofs.pre_final. rewrite K. reflexivity.
        + rewrite Nat.sub_diag in If. cbn [seq filter map] in If. rewrite app_nil_r in If. exact If. }
    destruct Hf as ([accs2 b2] & E2 & Ef & I2). rewrite E2. cbn [bind fst snd]. cbn [fst snd] in *. subst accs2.
    rewrite status_all_ok by exact NA. unfold array_outcome. destruct (fe (seq 0 p)) as [e|]; [eexists; split; [reflexivity|eauto]|].
    assert (Hfst : map fst (map (fun i => (i, child_out i)) (filter proc (seq 0 n))) = filter proc (seq 0 n)) by (rewrite map_map; apply map_id).
    destruct (sb_build_ok addr n (ou_estimate mu) b2 _ I2) as (r & Er & Rr).
    + rewrite Hfst. apply filter_seq_asc.
    + rewrite Hfst. apply filter_seq_lt. lia.
    + rewrite map_length. apply mu_estimate. lia.
    + rewrite Er. cbn [bind]. eexists. split; [reflexivity|]. eexists. split; [reflexivity|]. eapply eq_rect; [exact Rr|].
      unfold outputs. transitivity (map child_out (seq 0 n)); [|destruct (a_kind acc); [congruence|reflexivity|reflexivity]].
      apply map_ext_seq. intros i Hi. unfold op_fn. rewrite Hfst, map_map. cbn [snd]. rewrite by_id_map, mem_filter_seq by exact Hi.
      destruct (proc i) eqn:Ep; [reflexivity|]. symmetry. apply child_out_skip, Ep.
Qed.
End Map.
