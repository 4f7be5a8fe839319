(** Proofs about [apply_array] and [apply_array_scalar] of [ArrGroup_Model]. *)
From Coq Require Import Permutation.
From Verif Require Import Base Bits_Model Bitmap_Model Dense_Model Dense_Spec Dense_Proofs
  DenseOps_Model DenseOps_Spec DenseOps_Proofs IdFilter_Model IdFilter_Spec IdFilter_Proofs
  Array_Model Array_Spec Array_Proofs ArrayIter_Proofs Edge_Model Edge_Spec Edge_Proofs
  ArrOps_Model ArrOps_Spec ArrOps_Proofs ArrEdge_Model ArrEdge_Spec ArrEdge_Proofs
  GroupOps_Model GroupOps_Spec GroupOps_Proofs ArrGroup_Model ArrGroup_Spec ArrGroup_Proofs
  ArrGroup_Split ArrGroup_Sparse ArrGroup_Map.

Lemma ar_map_rep {A B} (f : A -> B) a l : ar_rep a l -> ar_rep (ar_map f a) (map (option_map f) l).
Proof.
  rewrite !ar_char. intros (W & Sz & F & D & M). rewrite map_length. cbn [ar_map ar_ids ar_size ar_miss ar_data].
  split; [exact W|]. split; [exact Sz|]. split; [intros E; rewrite F by exact E; reflexivity|]. split.
  - apply (da_map_rep f) in D. unfold at_ids in *. rewrite map_map in D. eapply eq_rect; [exact D|]. apply map_ext. intros i.
    change (@None B) with (option_map f (@None A)) at 1. rewrite map_nth. reflexivity.
  - intros i Hi N. change (@None B) with (option_map f (@None A)) at 1. rewrite map_nth, M by assumption. reflexivity.
Qed.
Lemma ar_map_reps {A B} (f : A -> B) arrs ls : Forall2 ar_rep arrs ls -> Forall2 ar_rep (map (ar_map f) arrs) (map (map (option_map f)) ls).
Proof. induction 1; [constructor|]. cbn [map]. constructor; [apply ar_map_rep; assumption|assumption]. Qed.
Lemma all_dense_data {A} (args : list (arr A)) ls : all_dense args = true -> Forall2 ar_rep args ls -> Forall2 represents (map ar_data args) ls.
Proof.
  intros D F. induction F as [|a l args ls Ha _ IH]; [constructor|]. cbn [all_dense forallb map] in *. apply andb_true_iff in D as [D1 D2].
  constructor; [|apply IH, D2]. apply dense_data; [exact Ha|]. left. unfold is_dense_form in D1. destruct (ar_ids a); congruence.
Qed.
Lemma dense_args_rep {A} opts (args : list (arr A)) ls n : all_dense args = true -> aargs_rep opts args ls n -> args_rep opts (map ar_data args) ls n.
Proof. intros D (H1 & H2 & H3). split; [rewrite map_length; exact H1|]. split; [apply all_dense_data; assumption|exact H3]. Qed.
Lemma arr_sizes_ok {A} (l : list (arr A)) ls (Q : arr A -> bool) n : Forall2 ar_rep l ls ->
  Forall (fun l => length l = n) ls -> (forall a, ar_size a = n -> Q a = false) -> existsb Q l = false.
Proof.
  intros H F HQ. induction H as [|a x l ls Ha _ IH]; [reflexivity|]. inversion F as [|? ? H1 H2]; subst. cbn [existsb].
  rewrite HQ, IH; [reflexivity|exact H2|]. destruct Ha as (_ & -> & _). reflexivity.
Qed.
Lemma no_args {A} opts (args : list (arr A)) ls n : aargs_rep opts args ls n -> opts = [] -> ls = [].
Proof. intros (H1 & H2 & _) ->. destruct args; [|discriminate]. inversion H2. reflexivity. Qed.
Lemma args_make {A} (alloc : nat -> list A) allocw addr td n opts args ls : alloc_sz alloc -> allocw_ok allocw -> aargs_rep opts args ls n ->
  exists u, ou_make alloc allocw addr td n opts args = Some u /\ u_ok n opts ls u.
Proof. intros Ha Hw (H1 & H2 & H3). apply make_ok; [exact Ha|exact Hw|split; assumption|exact H1]. Qed.

Section Apply.
Context {S P C R Err : Type}.
Variable acc : accum S P C R Err.
Variable addn : nat -> list (option C) -> S -> S.
Variables (allocp : nat -> list P) (allocc : nat -> list C) (allocm : nat -> list (Z + C)) (allocr : nat -> list R)
  (allocz : nat -> list Z) (allocw : nat -> list N) (addr : nat).
Variable order : list (Z * S) -> list (Z * S).
Notation apply := (apply_array allocp allocc allocm allocr allocz allocw addr acc addn order).
Notation apply_sc := (apply_array_scalar allocc allocr allocw addr acc addn).

Lemma of_dense_outcome failed out (r : group_res R Err) :
  match failed with Some _ => exists e, r = GError e | None => exists d, r = GOut d /\ represents d out end ->
  array_outcome failed out (of_dense r).
Proof.
  unfold array_outcome. destruct failed; [intros (e0 & ->); exists e0; reflexivity|]. intros (d & -> & H). exists (ar_dense d).
  split; [reflexivity|apply ar_dense_rep, H].
Qed.

Section Edge.
Variables (pls : list (list (option P))) (cls : list (list (option C))) (m : list (option nat)) (p : nat).
Notation n := (length m).
Notation fe := (first_error acc pls cls n m).
Variables (e : aedge) (pargs : list (arr P)) (cargs : list (arr C)).
Hypothesis HB : new_buffers allocp allocc allocm allocr allocz allocw.
Hypothesis Hord : forall l, Permutation (order l) l.
Hypothesis He : aedge_rep e p m.
Hypothesis HP : aargs_rep (a_popts acc) pargs pls p.
Hypothesis HC : aargs_rep (a_copts acc) cargs cls n.

Lemma size_checks : existsb (fun a => negb (Z.of_nat (ar_size a) =? ae_parent e)%Z) pargs = false /\
  existsb (fun a => negb (Z.of_nat (ar_size a) =? ae_child e)%Z) cargs = false /\ Z.to_nat (ae_parent e) = p /\ Z.to_nat (ae_child e) = n.
Proof.
  destruct He as (E1 & E2 & _). rewrite E1, E2, !Nat2Z.id. split; [|split; [|split; reflexivity]].
  - apply (arr_sizes_ok pargs pls _ p); [apply HP|apply HP|]. intros a ->. rewrite Z.eqb_refl. reflexivity.
  - apply (arr_sizes_ok cargs cls _ n); [apply HC|apply HC|]. intros a ->. rewrite Z.eqb_refl. reflexivity.
Qed.

Lemma array_mapping_ok ud : ae_split e = false ->
  exists res, apply ud e pargs cargs = Some res /\ array_outcome (fe (seq 0 p)) (outputs acc pls cls n m p) res.
Proof.
  intros Es. destruct HB as (B1 & B2 & B3 & B4 & B5 & B6). unfold apply_array.
  destruct (ud && is_dense_form (ae_vals e) && all_dense pargs && all_dense cargs) eqn:Ed.
  - apply andb_true_iff in Ed as [Ed D2]. apply andb_true_iff in Ed as [_ D1].
    destruct (ae_to_dense_ok allocz allocw B5 B6 e p m He) as (d & E & Rd & Sd). rewrite E. cbn [bind].
    destruct (edge_mapping_ok acc allocr d p m (map ar_data pargs) (map ar_data cargs) pls cls Rd) as (r & Er & Hr).
    + congruence.
    + apply dense_args_rep; assumption.
    + apply dense_args_rep; assumption.
    + exact B4.
    + rewrite Er. cbn [bind]. eexists. split; [reflexivity|]. apply of_dense_outcome. destruct (fe (seq 0 p)); [eauto|exact Hr].
  - destruct size_checks as (-> & -> & -> & ->). rewrite Es.
    destruct He as (_ & _ & Hmp & Hv). rewrite Es in Hv.
    destruct (make_ok allocm allocw addr B3 B6 false n (false :: a_copts acc) (ar_map inl (ae_vals e) :: map (ar_map inr) cargs)
      (map (option_map inl) (map zopt m) :: map (map (option_map inr)) cls)) as (mu & Em & Hmu).
    { split.
      - constructor; [apply ar_map_rep, Hv|apply ar_map_reps, HC].
      - constructor; [rewrite !map_length; reflexivity|]. apply Forall_map. eapply Forall_impl; [|apply HC]. cbn. intros l Hl. rewrite map_length. exact Hl. }
    { cbn [length]. rewrite map_length. f_equal. apply HC. }
    rewrite Em. cbn [bind].
    destruct (match a_kind acc with Aggregator => match a_popts acc with [] => true | _ => false end | _ => false end && (4 * ou_estimate mu <? p)) eqn:Ev.
    + apply andb_true_iff in Ev as [Ev _]. destruct (a_kind acc) eqn:K; [|discriminate..]. destruct (a_popts acc) eqn:Ep; [|discriminate].
      assert (Epl : pls = []) by (apply (no_args (a_popts acc) pargs pls p); [rewrite Ep; exact HP|exact Ep]). rewrite Epl.
      apply very_sparse_mapping_ok; assumption.
    + destruct (args_make allocp allocw addr true p (a_popts acc) pargs pls B1 B6 HP) as (pu & Ep & Hpu). rewrite Ep. cbn [bind].
      apply with_mapping_ok; try assumption. apply (no_args _ _ _ _ HP).
Qed.

Lemma array_split_ok ud : contract acc -> ok acc (a_empty acc) -> lawful acc addn -> ae_split e = true ->
  exists res, apply ud e pargs cargs = Some res /\ array_outcome (fe (seq 0 p)) (outputs acc pls cls n m p) res.
Proof.
  intros Hc Hok Hl Es. destruct HB as (B1 & B2 & B3 & B4 & B5 & B6). unfold apply_array.
  destruct (ud && is_dense_form (ae_vals e) && all_dense pargs && all_dense cargs) eqn:Ed.
  - apply andb_true_iff in Ed as [Ed D2]. apply andb_true_iff in Ed as [_ D1].
    destruct (ae_to_dense_ok allocz allocw B5 B6 e p m He) as (d & E & Rd & Sd). rewrite E. cbn [bind].
    destruct (edge_split_ok acc allocr d p m (map ar_data pargs) (map ar_data cargs) pls cls Hc Hok Rd) as (r & Er & Hr).
    + congruence.
    + apply dense_args_rep; assumption.
    + apply dense_args_rep; assumption.
    + exact B4.
    + rewrite Er. cbn [bind]. eexists. split; [reflexivity|]. apply of_dense_outcome, Hr.
  - destruct size_checks as (-> & -> & -> & ->). rewrite Es.
    destruct He as (_ & _ & Hmp & Hv). rewrite Es in Hv. destruct Hv as (Hi & s & S1 & S2 & S3 & S4 & S5).
    assert (Hs : split_of s p m) by (split; [exact S1|split; [exact S2|split; [exact S3|exact S5]]]).
    assert (Hvals : vals (ar_data (ae_vals e)) = zs s).
    { apply dense_data in S4; [|left; exact Hi]. rewrite zs_some in S4. apply (rep_full_vals _ _ S4). }
    rewrite Hvals.
    destruct (args_make allocc allocw addr false n (a_copts acc) cargs cls B2 B6 HC) as (cu & Ec & Hcu). rewrite Ec. cbn [bind].
    destruct (args_make allocp allocw addr true p (a_popts acc) pargs pls B1 B6 HP) as (pu & Ep & Hpu). rewrite Ep. cbn [bind].
    assert (Hp0 := no_args _ _ _ _ HP). assert (Hc0 := no_args _ _ _ _ HC).
    destruct (a_kind acc) eqn:K.
    + destruct (match a_popts acc with [] => true | _ => false end && (4 * ou_estimate cu <? p)) eqn:Ev.
      * apply andb_true_iff in Ev as [Ev _]. assert (Epo : a_popts acc = []) by (destruct (a_popts acc); [reflexivity|discriminate]).
        rewrite (Hp0 Epo). destruct Hc as (Hbad & sim & fin & C1 & C2 & C3 & _).
        apply (very_sparse_splits_ok acc cls m p K Epo Hmp allocr B4 addr cu Hcu Hc0 s Hs Hbad sim Hok C1 C2 C3).
      * apply agg_splits_ok; assumption.
    + assert (NK : a_kind acc <> Aggregator) by congruence. destruct (n <? 4 * ou_estimate cu); [apply dense_splits_ok|apply sparse_splits_ok]; assumption.
    + assert (NK : a_kind acc <> Aggregator) by congruence. destruct (n <? 4 * ou_estimate cu); [apply dense_splits_ok|apply sparse_splits_ok]; assumption.
Qed.
End Edge.

Lemma array_mismatch ud e (pargs : list (arr P)) (cargs : list (arr C)) p m : aedge_rep e p m -> alloc_sz allocz -> allocw_ok allocw ->
  Forall ar_valid pargs -> Forall ar_valid cargs ->
  (exists a, In a pargs /\ ar_size a <> p) \/ (exists a, In a cargs /\ ar_size a <> length m) ->
  apply ud e pargs cargs = Some AGMismatch.
Proof.
  intros He Ha Hw VP VC H. unfold apply_array. destruct He as (E1 & E2 & He'). assert (He : aedge_rep e p m) by (split; [exact E1|split; [exact E2|exact He']]).
  assert (Hsz : forall A (l : list (arr A)) a, all_dense l = true -> Forall ar_valid l -> In a l -> da_size (ar_data a) = ar_size a).
  { intros A l a D V Hin. unfold all_dense in D. rewrite forallb_forall in D. specialize (D a Hin). rewrite Forall_forall in V. destruct (V a Hin) as (_ & _ & Sz & _).
    unfold is_dense_form in D. destruct (ar_ids a); try discriminate. cbn [fids] in Sz. rewrite seq_length in Sz. exact Sz. }
  destruct (ud && is_dense_form (ae_vals e) && all_dense pargs && all_dense cargs) eqn:Ed.
  - apply andb_true_iff in Ed as [Ed D2]. apply andb_true_iff in Ed as [_ D1].
    destruct (ae_to_dense_ok allocz allocw Ha Hw e p m He) as (d & E & (P1 & P2 & _) & Sd). rewrite E. cbn [bind].
    rewrite edge_mismatch; [reflexivity|]. rewrite P1, P2. destruct H as [(a & Hin & Hn)|(a & Hin & Hn)]; [left|right]; exists (ar_data a);
      (split; [apply in_map, Hin|]); [rewrite (Hsz _ pargs a) by assumption|rewrite (Hsz _ cargs a) by assumption]; lia.
  - rewrite E1, E2. destruct (existsb _ pargs) eqn:X1; [reflexivity|]. destruct (existsb _ cargs) eqn:X2; [reflexivity|]. exfalso.
    assert (F : forall A (Q : A -> bool) l a, existsb Q l = false -> In a l -> Q a = false).
    { intros A Q l a Hx Hin. destruct (Q a) eqn:Eq; [|reflexivity]. assert (existsb Q l = true) by (apply existsb_exists; eauto). congruence. }
    destruct H as [(a & Hin & Hn)|(a & Hin & Hn)].
    + specialize (F _ _ _ a X1 Hin). cbn beta in F. apply negb_false_iff, Z.eqb_eq in F. lia.
    + specialize (F _ _ _ a X2 Hin). cbn beta in F. apply negb_false_iff, Z.eqb_eq in F. lia.
Qed.

(** *** Scalar edge *)
Lemma scalar_content cls n prow i : a_kind acc <> Aggregator -> i < n ->
  setfs (outs acc cls 0 (start acc prow) (all_members acc cls n)) (fun _ => None) i = scalar_out acc cls n prow i.
Proof.
  intros K Hi. unfold all_members. rewrite (setfs_at _ (scalar_out acc cls n prow)).
  - rewrite outs_exists by exact K. rewrite existsb_filter_seq.
    replace (i <? n) with true by lia. cbn [andb]. unfold scalar_out. destruct (child_valid acc cls i); reflexivity.
  - intros j r Hin. apply outs_in in Hin as (H1 & H2 & ->); [|exact K]. unfold scalar_out. rewrite H2. reflexivity.
  - left. reflexivity.
Qed.
Lemma array_scalar_ok ud n prow cargs cls : lawful acc addn -> alloc_sz allocc -> alloc_sz allocr -> allocw_ok allocw ->
  aargs_rep (a_copts acc) cargs cls n ->
  exists res, apply_sc ud n prow cargs = Some res /\ array_scalar_outcome acc cls n prow res.
Proof.
  intros Hl B2 B4 B6 HC. unfold apply_array_scalar. destruct (ud && all_dense cargs) eqn:Ed.
  - apply andb_true_iff in Ed as [_ D]. destruct (dense_args_rep _ _ _ _ D HC) as (D1 & D2 & D3).
    destruct (scalar_ok acc allocr n prow (map ar_data cargs) cls D1 D2 D3 B4) as (r & Er & Hr). rewrite Er. cbn [bind].
    eexists. split; [reflexivity|]. unfold array_scalar_outcome. destruct (a_status acc _); [rewrite Hr; reflexivity|].
    destruct (a_kind acc); [rewrite Hr; reflexivity| |]; destruct Hr as (d & -> & Hd); exists (ar_dense d); split; try reflexivity; apply ar_dense_rep, Hd.
  - rewrite (arr_sizes_ok cargs cls _ n); [|apply HC|apply HC|intros a ->; rewrite Nat.eqb_refl; reflexivity].
    destruct (args_make allocc allocw addr false n (a_copts acc) cargs cls B2 B6 HC) as (cu & Ec & Hcu). rewrite Ec. cbn [bind].
    assert (Hc0 := no_args _ _ _ _ HC). fold (start acc prow). unfold array_scalar_outcome.
    assert (Hrows : ou_iterate_fn cu 0 n = Some (map (fun i => (i, row cls i)) (all_members acc cls n))).
    { rewrite (iterate_fn_ok n _ cls cu 0 n Hcu) by (try lia; exact Hc0). rewrite drows_range, Nat.sub_0_r. reflexivity. }
    assert (Hest : length (all_members acc cls n) <= ou_estimate cu).
    { destruct (estimate_ok n _ cls cu Hcu) as [H _]. rewrite drows_range, map_length, Nat.sub_0_r in H. exact H. }
    assert (Hlt : Forall (fun i => i < n) (all_members acc cls n)) by (apply filter_seq_lt; lia).
    (* sparse results *)
    assert (Hsp : a_kind acc <> Aggregator -> exists res, (let? x := fold_opt (schild_step acc) (map (fun i => (i, row cls i)) (all_members acc cls n))
          (start acc prow, sb_init allocr n (ou_estimate cu)) in
        let '(s1, b1) := x in
        let? y := match a_kind acc with
                  | Full => fold_opt (sdraw_step acc) (seq 0 (length (sb_ids b1))) (a_finalize acc s1, b1)
                  | _ => Some (s1, b1)
                  end in
        checked acc (fst y) (sb_build addr (snd y))) = Some res /\
      match a_status acc (group_final acc cls (start acc prow) (all_members acc cls n)) with
      | Some e => res = AGError e
      | None => exists a, res = AGOut a /\ ar_rep a (map (scalar_out acc cls n prow) (seq 0 n))
      end).
    { intros K. destruct (sparse_group_ok acc addn cls n (ou_estimate cu) 0 (all_members acc cls n) (start acc prow) (sb_init allocr n (ou_estimate cu)) [] K (sb_init_inv allocr n _ B4) Hest) as (b & E & I).
      destruct (fold_opt (schild_step acc) _ _) as [[s1 b1]|]; [|discriminate]. cbn [bind] in E |- *. cbn [sb_init sb_ids length] in E. rewrite Nat.sub_0_r in E.
      rewrite E. cbn [bind fst snd app] in *. unfold checked. destruct (a_status acc _) as [er|]; [eexists; split; reflexivity|].
      assert (Hf : map fst (outs acc cls 0 (start acc prow) (all_members acc cls n)) = all_members acc cls n) by (apply outs_fst, K).
      destruct (sb_build_ok addr n (ou_estimate cu) b _ I) as (r & Er & Rr).
      - rewrite Hf. apply filter_seq_asc.
      - rewrite Hf. exact Hlt.
      - rewrite <- (map_length fst), Hf. exact Hest.
      - rewrite Er. cbn [bind]. eexists. split; [reflexivity|]. exists r. split; [reflexivity|]. eapply eq_rect; [exact Rr|].
        apply map_ext_seq. intros i Hi. rewrite <- scalar_content by assumption.
        rewrite <- (app_nil_l (outs _ _ _ _ _)) at 1. rewrite op_fn_app; [apply setfs_ext; intros; reflexivity|].
        cbn [map app]. rewrite Hf. apply NoDup_filter_seq. }
    destruct (a_kind acc) eqn:K.
    + rewrite (aggregate_group_ok acc addn cls n cu 0 n (start acc prow) Hl Hcu ltac:(lia) Hc0), Nat.sub_0_r. cbn [bind].
      fold (all_members acc cls n). rewrite (surjective_pairing (a_result acc _)). eexists. split; [reflexivity|].
      unfold group_final. rewrite K. fold (next acc (fold_left (add acc cls) (all_members acc cls n) (start acc prow))).
      unfold next. match goal with |- match ?x with _ => _ end => destruct x end; reflexivity.
    + rewrite Hrows. cbn [bind]. cbn [andb]. destruct (n <? 4 * ou_estimate cu).
      * destruct (valid_calls acc cls _ (filter_valid acc cls (seq 0 n))) as [F2 Ef]. fold (all_members acc cls n) in F2, Ef.
        destruct (group_ok acc cls n 0 _ _ (start acc prow) (db_init (allocr n)) (fun _ => None) F2) as (b & E & I).
        { rewrite <- (B4 n) at 1. apply db_init_inv. } { congruence. } { intros _. exact Hlt. }
        rewrite Ef in E, I. rewrite K in E. destruct (fold_opt (child_step acc) _ _) as [[[s1 b1] l]|]; [|discriminate]. cbn [bind] in E |- *.
        injection E as -> ->. cbn [fst snd]. unfold checked. destruct (a_status acc _) as [er|]; [eexists; split; reflexivity|]. cbn [bind dense_out].
        eexists. split; [reflexivity|]. eexists. split; [reflexivity|]. apply ar_dense_rep. eapply eq_rect; [apply build_rep; exact I|].
        apply map_ext_seq. intros i Hi. apply scalar_content; [congruence|exact Hi].
      * apply Hsp. congruence.
    + rewrite Hrows. cbn [bind andb]. apply Hsp. congruence.
Qed.
Lemma array_scalar_mismatch ud n prow (cargs : list (arr C)) : Forall ar_valid cargs -> (exists a, In a cargs /\ ar_size a <> n) ->
  apply_sc ud n prow cargs = Some AGMismatch.
Proof.
  intros V (a & Hin & Hn). unfold apply_array_scalar. destruct (ud && all_dense cargs) eqn:Ed.
  - apply andb_true_iff in Ed as [_ D]. rewrite scalar_mismatch; [reflexivity|]. exists (ar_data a). split; [apply in_map, Hin|].
    unfold all_dense in D. rewrite forallb_forall in D. specialize (D a Hin). rewrite Forall_forall in V. destruct (V a Hin) as (_ & _ & Sz & _).
    unfold is_dense_form in D. destruct (ar_ids a); try discriminate. cbn [fids] in Sz. rewrite seq_length in Sz. congruence.
  - replace (existsb _ cargs) with true; [reflexivity|]. symmetry. apply existsb_exists. exists a. split; [exact Hin|].
    apply negb_true_iff, Nat.eqb_neq, Hn.
Qed.
End Apply.
