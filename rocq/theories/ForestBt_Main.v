(** Adding the results of the parts. *)
From Coq Require Import Permutation FunctionalExtensionality.
From Verif Require Import Base Bits_Model Bitmap_Model Dense_Model Dense_Spec IdFilter_Model Array_Model Array_Spec
  FrameIter_Model FrameIter_Spec FrameIter_Main FrameIter_Props
  Forest_Model Forest_Spec Forest_Proofs Forest_Props ForestPt_Model ForestBm_Model ForestBm_Spec ForestSi_Model ForestSi_Spec ForestEv_Model ForestEv_Spec
  ForestBt_Model ForestBt_Spec ForestBt_Proofs ForestBt_Eval ForestBt_Run.

Lemma seq_nth_error k m p : p < m -> nth_error (seq k m) p = Some (k + p).
Proof. intros H. rewrite <- (@seq_nth m k p 0 H). apply nth_error_nth'. rewrite seq_length. exact H. Qed.

Lemma combine_inv {X Y} (l : list X) : forall (m : list Y) j x y, nth_error (combine l m) j = Some (x, y) -> nth_error l j = Some x /\ nth_error m j = Some y.
Proof.
  induction l as [|a l IH]; intros [|b m] [|j] x y E; cbn in *; try discriminate; [injection E as -> ->; auto|]. exact (IH m j x y E).
Qed.

Lemma Forall2_one {X Y} (R : X -> Y -> Prop) l y : Forall2 R l [y] -> exists x, l = [x] /\ R x y.
Proof. intros H. inversion H as [|x y' l' m Rx Hn]; subst. inversion Hn; subst. eauto. Qed.

Section sums.
Context {V : Type} (vo : vops V) (asf : V -> f32) (ot : others).
Variables (cols : nat -> list (option (bval V))) (n : nat).
Definition fadd (p : V * V) : V := vrnd vo (vadd vo (fst p) (snd p)).
Lemma add_all (ys zs : list V) : length ys = length zs -> all_some (map (add_values V vo (map BV ys) (map BV zs)) (seq 0 (length ys))) = Some (map BV (map fadd (combine ys zs))).
Proof.
  intros L. apply all_some_map. apply Forall2_forall_nth; [rewrite seq_length, !map_length, combine_length; lia|]. intros p x y Ex Ey.
  pose proof (nth_error_Some_lt _ _ _ Ex) as Lp. rewrite seq_length in Lp. rewrite seq_nth_error in Ex by exact Lp. injection Ex as <-.
  rewrite !nth_error_map in Ey. destruct (nth_error (combine ys zs) p) as [[a b]|] eqn:E; [|discriminate]. injection Ey as <-. apply combine_inv in E. destruct E as [Ea Eb].
  unfold add_values, rd. cbn [Nat.add]. rewrite !nth_error_map, Ea, Eb. reflexivity.
Qed.
Lemma add_full_ok k (ys zs : list V) a b : full_array k ys a -> full_array k zs b -> length ys = length zs ->
  exists c, add_full V vo a b = BOk c /\ full_array k (map fadd (combine ys zs)) c.
Proof.
  intros (K1 & C1 & V1 & S1) (K2 & C2 & V2 & S2) L. destruct a as [a|a], b as [b|b]; cbn [is_arr] in *; subst k; try discriminate; cbn [add_full arr_vals src_size] in *; rewrite V1, V2, S1, (add_all ys zs L); cbn [b_undef bbind].
  - eexists. split; [reflexivity|]. apply full_dense.
  - eexists. split; [reflexivity|]. apply full_arr.
Qed.
(** A column with a sum of the trees [us] in each row. *)
Definition sum_ok (us : list (tree V)) (f : tfilter) (o : aslot) (a : src (bval V)) : Prop :=
  exists ys, full_array (as_arr o) ys a /\ length ys = n /\ forall i y, nth_error ys i = Some y -> output_ok vo ot (input_row asf cols i) us f y.
Lemma sum_ok_add us us' f o a b : sum_ok us f o a -> sum_ok us' f o b -> exists c, add_full V vo a b = BOk c /\ sum_ok (us ++ us') f o c.
Proof.
  intros (ys & F1 & L1 & P1) (zs & F2 & L2 & P2). destruct (add_full_ok _ ys zs a b F1 F2 ltac:(lia)) as (c & E & F). exists c. split; [exact E|]. exists (map fadd (combine ys zs)). split; [exact F|].
  split; [rewrite map_length, combine_length; lia|]. intros i y Ey. rewrite nth_error_map in Ey. destruct (nth_error (combine ys zs) i) as [[u w]|] eqn:Ec; [|discriminate]. injection Ey as <-.
  apply combine_inv in Ec. destruct Ec as [Eu Ew]. apply output_app; [exact (P1 i u Eu)|exact (P2 i w Ew)].
Qed.
Lemma add_outputs_ok us us' outs : forall groups sums mem, length outs = length groups -> length sums = length outs ->
  (forall g f o s, nth_error groups g = Some f -> nth_error outs g = Some o -> nth_error sums g = Some s -> sum_ok us f o s) ->
  (forall g f o, nth_error groups g = Some f -> nth_error outs g = Some o -> exists a, nth_error mem (as_id o) = Some a /\ sum_ok us' f o a) ->
  exists sums', add_outputs V vo sums outs mem = BOk sums' /\ length sums' = length outs /\
  forall g f o s, nth_error groups g = Some f -> nth_error outs g = Some o -> nth_error sums' g = Some s -> sum_ok (us ++ us') f o s.
Proof.
  induction outs as [|o outs IH]; intros [|f groups] [|s sums] mem L1 L2 H1 H2; try discriminate; cbn [add_outputs].
  - exists []. split; [reflexivity|]. split; [reflexivity|]. intros [|g]; discriminate.
  - destruct (H2 0 f o eq_refl eq_refl) as (a & Ea & Sa). unfold rd. rewrite Ea. cbn [b_undef bbind].
    destruct (sum_ok_add us us' f o s a (H1 0 f o s eq_refl eq_refl eq_refl) Sa) as (c & -> & Sc). cbn [bbind].
    destruct (IH groups sums mem) as (sums' & -> & L & H); [cbn in *; lia|cbn in *; lia|intros g f' o' s' A B C; exact (H1 (S g) f' o' s' A B C)|intros g f' o' A B; exact (H2 (S g) f' o' A B)|].
    cbn [bbind]. exists (c :: sums'). split; [reflexivity|]. split; [cbn; lia|]. intros [|g] f' o' s' A B C; cbn in A, B, C; [injection A as <-; injection B as <-; injection C as <-; exact Sc|exact (H g f' o' s' A B C)].
Qed.
Lemma store_sums_ok us us' outs : forall groups sums mem, length outs = length groups -> length sums = length outs -> NoDup (map as_id outs) -> (forall o, In o outs -> as_id o < length mem) ->
  (forall g f o s, nth_error groups g = Some f -> nth_error outs g = Some o -> nth_error sums g = Some s -> sum_ok us f o s) ->
  (forall g f o, nth_error groups g = Some f -> nth_error outs g = Some o -> exists a, nth_error mem (as_id o) = Some a /\ sum_ok us' f o a) ->
  exists mem', store_sums V vo sums outs mem = BOk mem' /\ length mem' = length mem /\ (forall k, ~ In k (map as_id outs) -> nth_error mem' k = nth_error mem k) /\
  forall g f o, nth_error groups g = Some f -> nth_error outs g = Some o -> exists a, nth_error mem' (as_id o) = Some a /\ sum_ok (us ++ us') f o a.
Proof.
  induction outs as [|o outs IH]; intros [|f groups] [|s sums] mem L1 L2 Nd In1 H1 H2; try discriminate; cbn [store_sums].
  - exists mem. split; [reflexivity|]. split; [reflexivity|]. split; [auto|]. intros [|g]; discriminate.
  - inversion Nd as [|? ? Ni Nd']; subst. destruct (H2 0 f o eq_refl eq_refl) as (a & Ea & Sa). unfold rd. rewrite Ea. cbn [b_undef bbind].
    destruct (sum_ok_add us us' f o s a (H1 0 f o s eq_refl eq_refl eq_refl) Sa) as (c & -> & Sc). cbn [bbind].
    destruct (upd_lt mem (as_id o) c (In1 o (or_introl eq_refl))) as [m1 E1]. rewrite E1. cbn [b_undef bbind]. destruct (upd_spec _ _ _ _ E1) as (_ & Lm & Rm). unfold rd in Rm.
    assert (Keep : forall o', In o' outs -> nth_error m1 (as_id o') = nth_error mem (as_id o')).
    { intros o' Io. rewrite Rm. destruct (Nat.eqb_spec (as_id o') (as_id o)) as [X|]; [|reflexivity]. exfalso. apply Ni. rewrite <- X. apply in_map. exact Io. }
    destruct (IH groups sums m1) as (mem' & -> & L & K & H); [cbn in *; lia|cbn in *; lia|exact Nd'|intros o' Io; rewrite Lm; apply In1; right; exact Io|intros g f' o' s' A B C; exact (H1 (S g) f' o' s' A B C)| |].
    { intros g f' o' A B. rewrite (Keep o' (nth_error_In _ _ B)). exact (H2 (S g) f' o' A B). }
    exists mem'. split; [reflexivity|]. split; [lia|]. split.
    + intros k Hk. cbn [map In] in Hk. rewrite K by tauto. rewrite Rm. destruct (Nat.eqb_spec k (as_id o)); [subst; tauto|reflexivity].
    + intros [|g] f' o' A B; cbn in A, B; [injection A as <-; injection B as <-|exact (H g f' o' A B)]. exists c. split; [|exact Sc]. rewrite K by exact Ni. rewrite Rm, Nat.eqb_refl. reflexivity.
Qed.
End sums.

Section batch.
Context {V : Type} (vo : vops V) (asf : V -> f32) (one : V) (lib : library) (ceq : cond -> cond -> bool) (ot : others) (oty : nat -> nat * bool) (unused_ty : ity).
Variable (Lo : others_local ot).
Variables (ts : list (tree V)) (required : list (nat * ity)) (groups : list tfilter) (b : batched V).
Hypothesis Rnd : NoDup (map fst required).
Hypothesis Ruse : forall j ty, In (j, ty) required <-> uses ot ts j ty.
Hypothesis Bmap : b_mapping b = mapping_from oty required 0.
Hypothesis Bwidth : b_width b = length required + length groups.
Hypothesis Bouts : b_outputs b = map out_slot (seq (length required) (length groups)).
Hypothesis Bbound : forall p j ty, nth_error required p = Some (j, ty) -> nth_error (b_bound b) j = Some (Some p, ty).
Hypothesis Bfree : forall j, ~ In j (map fst required) -> unbound unused_ty (b_bound b) j.
Variables (dflt : bval V) (alloc : nat -> list (bval V)) (allocw : nat -> list N).
Variables (iorder : list (icopier (bval V)) -> list (icopier (bval V))) (oorder : list (ocopier (bval V)) -> list (ocopier (bval V))).
Hypothesis Al : alloc_sz alloc.
Hypothesis Alw : allocw_ok allocw.
Hypothesis IO : forall l, Permutation (iorder l) l.
Hypothesis OO : forall l, Permutation (oorder l) l.
Variables (inputs : list (nat * nat)) (outs : list aslot) (cols : nat -> list (option (bval V))) (n : nat).
Variables (fuel rf : nat).
Hypothesis Rf : n <= rf.
Hypothesis Fine : forall i, i < n -> row_fine all_evaluators ot groups ts (input_row asf cols i).

Lemma enough_inputs mem : inputs_ok ot oty ts inputs mem cols n -> (length inputs <? input_count V b) = false.
Proof.
  intros Iok. apply Nat.ltb_ge. unfold input_count. rewrite Bmap. assert (H : forall req next k, incl req required -> k <= length inputs -> fold_left (fun k m => Nat.max k (S (fst m))) (mapping_from oty req next) k <= length inputs).
  { induction req as [|[j ty] r IH]; intros next k I K; cbn [mapping_from fold_left]; [exact K|]. apply IH; [intros x X; apply I; right; exact X|]. cbn [fst].
    destruct (Iok j ty) as (s & a & E & _); [apply Ruse, I; left; reflexivity|]. apply nth_error_Some_lt in E. lia. }
  apply H; [apply incl_refl|lia].
Qed.
Lemma rows_found mem want : inputs_ok ot oty ts inputs mem cols n -> rows_known ot ts inputs mem want n -> rows_of V b inputs mem want = Some (Some n).
Proof.
  intros Iok [->|[-> K]]; [reflexivity|]. unfold rows_of. destruct (inputs_get ot oty ts required b Ruse Bmap inputs cols n mem Iok) as (arrays & -> & Fa). cbn [bind].
  inversion Fa as [Er Ea|r t rs tl (_ & _ & Sz & _) _ Er Ea]; [|rewrite Sz; reflexivity].
  destruct K as [(j & ty & U)|(s & ty & r & a & -> & Em & Sz)].
  - exfalso. apply Ruse in U. rewrite <- Er in U. destruct U.
  - unfold ref. cbn [fst]. unfold rd. rewrite Em. cbn [bind ts_src]. rewrite Sz. reflexivity.
Qed.
Notation run := (run_evaluator V vo lib ot oty asf dflt alloc allocw iorder oorder fuel rf b inputs outs (Some n)).
Notation parts_ok := (Forall2 (part_ok vo lib ot fuel groups)).
Notation rr := (run_result vo asf ot groups inputs outs cols n).
Lemma run_part mem e us : incl us ts -> inputs_ok ot oty ts inputs mem cols n -> outputs_ok groups outs mem -> part_ok vo lib ot fuel groups us e ->
  exists mem', run mem e = BOk mem' /\ length mem' = length mem /\ (forall s, ~ In s (map as_id outs) -> nth_error mem' s = nth_error mem s) /\
  forall g f o, nth_error groups g = Some f -> nth_error outs g = Some o -> exists a, nth_error mem' (as_id o) = Some a /\ sum_ok vo asf ot cols n us f o a.
Proof.
  intros Iu Iok Ook P. edestruct (run_ok vo asf one lib ot oty unused_ty Lo ts required groups b) as (mem' & E & R1 & R2 & R3); try eassumption.
  exists mem'. split; [exact E|]. split; [exact R1|]. split; [exact R2|]. intros g f o A B. destruct (R3 g f o A B) as (ys & a & Em & Fa & L & Oy). exists a. split; [exact Em|]. exists ys. auto.
Qed.
Lemma inputs_kept mem mem' : not_inputs ot ts inputs outs -> (forall s, ~ In s (map as_id outs) -> nth_error mem' s = nth_error mem s) ->
  inputs_ok ot oty ts inputs mem cols n -> inputs_ok ot oty ts inputs mem' cols n.
Proof.
  intros Ni K Iok j ty U. destruct (Iok j ty U) as (s & a & E1 & E2 & R). exists s, a. split; [exact E1|]. split; [|exact R]. rewrite K; [exact E2|]. exact (Ni j ty s _ U E1).
Qed.
Lemma outputs_kept (mem mem' : list (src (bval V))) : length mem' = length mem -> outputs_ok groups outs mem -> outputs_ok groups outs mem'.
Proof. intros L (A & B & C). split; [exact A|]. split; [exact B|]. rewrite L. exact C. Qed.
Lemma middle_ok : not_inputs ot ts inputs outs -> forall ps es us sums mem, parts_ok ps es -> incl (concat ps) ts ->
  inputs_ok ot oty ts inputs mem cols n -> outputs_ok groups outs mem -> length sums = length outs ->
  (forall g f o s, nth_error groups g = Some f -> nth_error outs g = Some o -> nth_error sums g = Some s -> sum_ok vo asf ot cols n us f o s) ->
  exists sums' mem', run_middle V vo run es outs sums mem = BOk (sums', mem') /\ length mem' = length mem /\ (forall s, ~ In s (map as_id outs) -> nth_error mem' s = nth_error mem s) /\ length sums' = length outs /\
  forall g f o s, nth_error groups g = Some f -> nth_error outs g = Some o -> nth_error sums' g = Some s -> sum_ok vo asf ot cols n (us ++ concat ps) f o s.
Proof.
  intros Ni ps es us sums mem P. revert us sums mem. induction P as [|p e ps es Pk P IH]; intros us sums mem I Iok Ook Ls Hs; cbn [run_middle concat] in *.
  - exists sums, mem. rewrite app_nil_r. auto.
  - destruct (run_part mem e p) as (m1 & -> & L1 & K1 & O1); try assumption; [intros x X; apply I, in_or_app; left; exact X|]. cbn [bbind].
    destruct (add_outputs_ok vo asf ot cols n us p outs groups sums m1 (proj1 Ook) Ls Hs O1) as (sums1 & -> & Ls1 & Hs1). cbn [bbind].
    destruct (IH (us ++ p) sums1 m1) as (s2 & m2 & E & L2 & K2 & Ls2 & Hs2); try assumption.
    + intros x X. apply I, in_or_app. right. exact X.
    + exact (inputs_kept mem m1 Ni K1 Iok).
    + exact (outputs_kept mem m1 L1 Ook).
    + exists s2, m2. split; [exact E|]. split; [lia|]. split; [intros s S; rewrite K2, K1 by exact S; reflexivity|]. split; [exact Ls2|]. rewrite app_assoc. exact Hs2.
Qed.
Lemma eval_ok mem want ps : parts_ok ps (b_evaluators b) -> concat ps = ts -> b_evaluators b <> [] -> length (b_evaluators b) = 1 \/ not_inputs ot ts inputs outs ->
  inputs_ok ot oty ts inputs mem cols n -> outputs_ok groups outs mem -> rows_known ot ts inputs mem want n ->
  exists mem', eval_batch V vo lib ot oty asf dflt alloc allocw iorder oorder fuel rf b inputs outs want mem = BOk mem' /\
  length mem' = length mem /\ (forall s, ~ In s (map as_id outs) -> nth_error mem' s = nth_error mem s) /\
  forall g f o, nth_error groups g = Some f -> nth_error outs g = Some o -> exists a, nth_error mem' (as_id o) = Some a /\ sum_ok vo asf ot cols n ts f o a.
Proof.
  intros P Ec Ne Al1 Iok Ook Rk. unfold eval_batch. rewrite (enough_inputs mem Iok), (rows_found mem want Iok Rk). cbn [b_undef bbind].
  destruct (b_evaluators b) as [|e es] eqn:Eb; [congruence|]. inversion P as [|p e' ps' es' Pk P' E1 E2]; subst e' es' ps. cbn [concat] in Ec.
  assert (Iu : incl p ts) by (rewrite <- Ec; apply incl_appl, incl_refl).
  destruct es as [|e1 es].
  - inversion P'; subst ps'. cbn [concat] in Ec. rewrite app_nil_r in Ec. rewrite <- Ec. exact (run_part mem e p Iu Iok Ook Pk).
  - destruct Al1 as [Al1|Ni]; [discriminate|]. destruct (run_part mem e p Iu Iok Ook Pk) as (m1 & -> & L1 & K1 & O1). cbn [bbind].
    pose proof (inputs_kept mem m1 Ni K1 Iok) as Iok1. pose proof (outputs_kept mem m1 L1 Ook) as Ook1.
    assert (Sums : exists sums, all_some (map (fun o => rd m1 (as_id o)) outs) = Some sums /\ length sums = length outs /\
      forall g f o s, nth_error groups g = Some f -> nth_error outs g = Some o -> nth_error sums g = Some s -> sum_ok vo asf ot cols n p f o s).
    { destruct Ook1 as (A & B & C). assert (H : forall l, incl l outs -> exists sums, all_some (map (fun o => rd m1 (as_id o)) l) = Some sums).
      { induction l as [|o l IHl]; intros I; [exists []; reflexivity|]. destruct IHl as [ss Es]; [intros x X; apply I; right; exact X|]. cbn [map all_some].
        destruct (rd_lt m1 (as_id o)) as [v Ev]; [apply C, I; left; reflexivity|]. rewrite Ev. cbn [bind]. rewrite Es. eexists. reflexivity. }
      destruct (H outs (incl_refl _)) as [sums Es]. pose proof (all_some_inv _ _ _ Es) as F. exists sums. split; [exact Es|]. split; [symmetry; exact (Forall2_len F)|].
      intros g f o s Ef Eo Ess. destruct (Forall2_nth_l _ _ _ _ _ F Eo) as (s' & Es' & Er). rewrite Ess in Es'. injection Es' as <-. destruct (O1 g f o Ef Eo) as (a & Ea & Sa). unfold rd in Er. congruence. }
    destruct Sums as (sums & -> & Ls & Hs). cbn [b_undef bbind].
    assert (Sp : e1 :: es = removelast (e1 :: es) ++ [last (e1 :: es) e]) by (apply app_removelast_last; discriminate).
    set (mid := removelast (e1 :: es)) in *. set (lst := last (e1 :: es) e) in *. rewrite Sp in P'. apply Forall2_app_inv_r in P'. destruct P' as (pm & pl & Pm & Pl & ->).
    apply Forall2_one in Pl. destruct Pl as (q & -> & Pq). rewrite concat_app in Ec. cbn [concat] in Ec. rewrite app_nil_r in Ec.
    assert (Im : incl (concat pm) ts) by (rewrite <- Ec; apply incl_appr, incl_appl, incl_refl). assert (Iq : incl q ts) by (rewrite <- Ec; apply incl_appr, incl_appr, incl_refl).
    destruct (middle_ok Ni pm mid p sums m1 Pm Im Iok1 Ook1 Ls Hs) as (sums2 & m2 & -> & L2 & K2 & Ls2 & Hs2). cbn [bbind fst snd].
    pose proof (inputs_kept m1 m2 Ni K2 Iok1) as Iok2. pose proof (outputs_kept m1 m2 L2 Ook1) as Ook2.
    destruct (run_part m2 lst q Iq Iok2 Ook2 Pq) as (m3 & -> & L3 & K3 & O3). cbn [bbind]. pose proof (outputs_kept m2 m3 L3 Ook2) as (A3 & B3 & C3).
    destruct (store_sums_ok vo asf ot cols n (p ++ concat pm) q outs groups sums2 m3) as (m4 & E4 & L4 & K4 & O4); try assumption; [intros o Io; apply (C3 o Io)|].
    exists m4. split; [exact E4|]. split; [lia|]. split; [intros s S; rewrite K4, K3, K2, K1 by exact S; reflexivity|]. rewrite <- app_assoc, Ec in O4. exact O4.
Qed.
End batch.
