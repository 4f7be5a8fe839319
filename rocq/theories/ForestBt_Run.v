(** Running one evaluator on all rows. *)
From Coq Require Import Permutation FunctionalExtensionality.
From Verif Require Import Base Bits_Model Bitmap_Model Dense_Model Dense_Spec Edge_Proofs IdFilter_Model Array_Model Array_Spec Array_Proofs
  FrameIter_Model FrameIter_Spec FrameIter_Main FrameIter_Props
  Forest_Model Forest_Spec Forest_Proofs ForestPt_Model ForestBm_Model ForestSi_Model ForestSi_Spec ForestEv_Model ForestEv_Spec
  ForestBt_Model ForestBt_Spec ForestBt_Proofs ForestBt_Eval.

(** An array with the values [ys], all present and all in its buffer. *)
Definition arr_vals {A} (a : src A) : list A := match a with SD _ d => vals d | SA _ a => vals (ar_data a) end.
Definition full_array {V} (kind : bool) (ys : list V) (a : src (bval V)) : Prop :=
  is_arr _ a = kind /\ column a (map (fun y => Some (BV y)) ys) /\ arr_vals a = map BV ys /\ src_size _ a = length ys.
Lemma column_size {A} (a : src A) l : column a l -> src_size A a = length l.
Proof. destruct a; cbn; intros H; apply H. Qed.
Lemma represents_full {A} (d : darr A) xs : represents d (map Some xs) -> vals d = xs.
Proof.
  intros (_ & Sz & G). unfold da_size in Sz. rewrite map_length in *. apply list_eq_rd. intros i. destruct (Nat.lt_ge_cases i (length xs)) as [Lt|Ge].
  - specialize (G i Lt). unfold da_get in G. destruct (da_present d i) as [[|]|]; cbn [bind] in G; [|injection G as G|discriminate].
    + destruct (rd (vals d) i) as [v|]; cbn [bind] in G; [|discriminate]. injection G as G. unfold rd. destruct (nth_error xs i) as [x|] eqn:Ex; [|apply nth_error_None in Ex; lia].
      rewrite (nth_error_nth (map Some xs) i None (x := Some x)) in G by (rewrite nth_error_map, Ex; reflexivity). congruence.
    + destruct (nth_error xs i) as [x|] eqn:Ex; [|apply nth_error_None in Ex; lia].
      rewrite (nth_error_nth (map Some xs) i None (x := Some x)) in G by (rewrite nth_error_map, Ex; reflexivity). discriminate.
  - unfold rd. rewrite (proj2 (nth_error_None xs i)) by lia. apply nth_error_None. lia.
Qed.
(** The arrays that StoreOutput makes. *)
Lemma stored_form {A} (c : copiers A) i v : In (i, v) (store_output A c) -> (exists d, v = SD A d) \/ exists d, v = SA A (ar_dense d).
Proof.
  unfold store_output. intros I. apply in_flat_map in I. destruct I as (o & _ & I). apply in_map_iff in I. destruct I as (m & E & _). unfold om_final in E. injection E as _ <-.
  destruct (as_arr (om_out A m)); eauto.
Qed.
Lemma full_of_column {V} kind (ys : list V) (v : src (bval V)) : (exists d, v = SD _ d) \/ (exists d, v = SA _ (ar_dense d)) -> is_arr _ v = kind ->
  column v (map (fun y => Some (BV y)) ys) -> full_array kind ys v.
Proof.
  intros F K C. split; [exact K|]. split; [exact C|]. pose proof (column_size _ _ C) as Sz. rewrite map_length in Sz. split; [|exact Sz].
  rewrite <- (map_map BV Some) in C. destruct F as [[d ->]|[d ->]]; cbn [arr_vals column] in *.
  - apply represents_full. exact C.
  - cbn [ar_dense ar_data]. destruct C as (Va & Sa & G). apply represents_full. split; [apply Va|]. split; [exact Sa|]. intros i Hi. specialize (G i Hi). exact G.
Qed.
Lemma full_dense {V} (ys : list V) : full_array false ys (SD _ (mkD (map BV ys) [] 0)).
Proof.
  split; [reflexivity|]. split; [cbn [column]; rewrite <- (map_map BV Some); apply rep_plain|]. split; [reflexivity|]. apply map_length.
Qed.
Lemma full_arr {V} (ys : list V) : full_array true ys (SA _ (ar_dense (mkD (map BV ys) [] 0))).
Proof.
  split; [reflexivity|]. split; [|split; [reflexivity|apply map_length]]. cbn [column]. rewrite <- (map_map BV Some). apply ar_dense_rep. apply rep_plain.
Qed.

Lemma Forall2_forall_nth {X Y} (R : X -> Y -> Prop) (l : list X) : forall m, length l = length m ->
  (forall p x y, nth_error l p = Some x -> nth_error m p = Some y -> R x y) -> Forall2 R l m.
Proof.
  induction l as [|x l IH]; intros [|y m] L H; try discriminate; constructor; [exact (H 0 x y eq_refl eq_refl)|]. apply IH; [cbn in L; lia|]. intros p a b A B. exact (H (S p) a b A B).
Qed.
Lemma nth_error_Some_lt {X} (l : list X) p x : nth_error l p = Some x -> p < length l.
Proof. intros E. apply nth_error_Some. congruence. Qed.

Section run.
Context {V : Type} (vo : vops V) (asf : V -> f32) (one : V) (lib : library) (ceq : cond -> cond -> bool) (ot : others) (oty : nat -> nat * bool) (unused_ty : ity).
Variable (Lo : others_local ot).
Variables (ts : list (tree V)) (required : list (nat * ity)) (groups : list tfilter) (b : batched V).
Hypothesis Rnd : NoDup (map fst required).
Hypothesis Ruse : forall j ty, In (j, ty) required <-> uses ot ts j ty.
Hypothesis Bmap : b_mapping b = mapping_from oty required 0.
Hypothesis Bwidth : b_width b = length required + length groups.
Hypothesis Bouts : b_outputs b = map out_slot (seq (length required) (length groups)).
Hypothesis Bbound : forall p j ty, nth_error required p = Some (j, ty) -> nth_error (b_bound b) j = Some (Some p, ty).
Hypothesis Bfree : forall j, ~ In j (map fst required) -> unbound unused_ty (b_bound b) j.
Variables (dflt : bval V) (alloc : nat -> list (bval V)) (allocw : nat -> list N).
Variables (iorder : list (icopier (bval V)) -> list (icopier (bval V))) (oorder : list (ocopier (bval V)) -> list (ocopier (bval V))).
Hypothesis Al : alloc_sz alloc.
Hypothesis Alw : allocw_ok allocw.
Hypothesis IO : forall l, Permutation (iorder l) l.
Hypothesis OO : forall l, Permutation (oorder l) l.
Variables (inputs : list (nat * nat)) (outs : list aslot) (cols : nat -> list (option (bval V))) (n : nat).

Definition islots := map snd (b_mapping b).
Lemma islots_nth p j ty : nth_error required p = Some (j, ty) -> nth_error islots p = Some {| sl_id := p; sl_ty := fst (tag oty ty); sl_opt := snd (tag oty ty) |}.
Proof. intros E. unfold islots. rewrite Bmap, nth_error_map, (mapping_nth oty required 0 p j ty E). reflexivity. Qed.
Lemma islots_length : length islots = length required.
Proof. unfold islots. rewrite Bmap, map_length. apply mapping_length. Qed.
Lemma oslots_ids : map sl_id (b_outputs b) = seq (length required) (length groups).
Proof. rewrite Bouts, map_map. apply map_id. Qed.

(** The input arrays. *)
Lemma inputs_get mem : inputs_ok ot oty ts inputs mem cols n ->
  exists arrays, get_inputs V b inputs mem = Some arrays /\
  Forall2 (fun r t => ts_ty _ t = fst (tag oty (snd r)) /\ column (ts_src _ t) (cols (fst r)) /\ src_size _ (ts_src _ t) = n /\
    (snd (tag oty (snd r)) = false -> (exists d, ts_src _ t = SD _ d))) required arrays.
Proof.
  intros Iok. assert (H : forall req next, incl req required -> exists arrays, all_some (map (fun m : nat * slot => let? s := rd inputs (fst m) in ref V mem s) (mapping_from oty req next)) = Some arrays /\
    Forall2 (fun r t => ts_ty _ t = fst (tag oty (snd r)) /\ column (ts_src _ t) (cols (fst r)) /\ src_size _ (ts_src _ t) = n /\
      (snd (tag oty (snd r)) = false -> (exists d, ts_src _ t = SD _ d))) req arrays).
  { induction req as [|[j ty] r IH]; intros next I; [exists []; split; [reflexivity|constructor]|].
    destruct (IH (S next)) as (arrays & E & F); [intros x X; apply I; right; exact X|].
    destruct (Iok j ty) as (s & a & E1 & E2 & C & L & O); [apply Ruse, I; left; reflexivity|].
    exists ({| ts_ty := fst (tag oty ty); ts_src := a |} :: arrays). cbn [mapping_from map all_some fst]. unfold rd at 1. rewrite E1. cbn [bind]. unfold ref at 1. cbn [fst snd]. unfold rd at 1. rewrite E2. cbn [bind]. rewrite E. cbn [bind]. split; [reflexivity|].
    constructor; [|exact F]. cbn [ts_ty ts_src fst snd]. split; [reflexivity|]. split; [exact C|]. split; [rewrite (column_size a _ C); exact L|]. intros Op. apply (O Op). }
  unfold get_inputs. rewrite Bmap. apply H. apply incl_refl.
Qed.

(** The row that the evaluators see. *)
Definition seen (i : nat) (j : nat) : option (bval V) :=
  match nth_error (b_bound b) j with Some (Some _, _) => nth i (cols j) None | _ => None end.
Definition cview (i : nat) : Forest_Model.frame := {| in_f32 := fun j => as_f32 V asf (seen i j); in_i64 := fun j => as_i64 V (seen i j) |}.
Definition cols' := map (fun r : nat * ity => cols (fst r)) required.
Lemma bound_cell_ok i f mem : i < n -> inputs_ok ot oty ts inputs mem cols n -> holds islots (row_of cols' i) f -> forall j, bound_cell V oty (b_bound b) f j = seen i j.
Proof.
  intros Hi Iok Ho j. unfold bound_cell, seen, rd. destruct (in_dec Nat.eq_dec j (map fst required)) as [I|I].
  - apply in_map_iff in I. destruct I as ([j' ty] & Ej & I). cbn in Ej. subst j'. destruct (In_nth_error _ _ I) as [p Ep]. rewrite (Bbound p j ty Ep).
    destruct (Forall2_nth_l _ _ _ _ _ Ho (islots_nth p j ty Ep)) as (o & Eo & c & Ec & Sh). cbn [sl_id sl_opt] in *. rewrite Ec. cbn [bind].
    unfold row_of, cols' in Eo. rewrite !nth_error_map, Ep in Eo. cbn in Eo. injection Eo as Eo. rewrite Eo.
    destruct o as [v|]; cbn [shows] in Sh.
    + destruct Sh as [-> Sh]. destruct (snd (tag oty ty)); [rewrite Sh by reflexivity; reflexivity|]. cbn [negb]. rewrite Bool.orb_true_r. reflexivity.
    + destruct (snd (tag oty ty)) eqn:Ot; [rewrite Sh by reflexivity; reflexivity|]. exfalso.
      destruct (Iok j ty) as (s & a & _ & _ & _ & L & O); [apply Ruse; exact I|]. destruct (O Ot) as [_ Fa]. rewrite Forall_forall in Fa. apply (Fa (nth i (cols j) None)); [apply nth_In; lia|exact Eo].
  - destruct (Bfree j I) as [->| ->]; reflexivity.
Qed.
Lemma view_ok i f mem : i < n -> inputs_ok ot oty ts inputs mem cols n -> holds islots (row_of cols' i) f -> view V oty asf (b_bound b) f = cview i.
Proof.
  intros Hi Iok Ho. unfold view, cview. f_equal; apply functional_extensionality; intros j; rewrite (bound_cell_ok i f mem Hi Iok Ho j); reflexivity.
Qed.
Lemma cview_agree (us : list (tree V)) i : incl us ts -> agree ot us (cview i) (input_row asf cols i).
Proof.
  intros Iu j ty U. assert (R : In (j, ty) required) by (apply Ruse; eapply uses_sub; eassumption). destruct (In_nth_error _ _ R) as [p Ep].
  cbn [cview input_row in_f32 in_i64]. unfold seen. rewrite (Bbound p j ty Ep). split; reflexivity.
Qed.
Lemma cview_fine (us : list (tree V)) i : incl us ts -> row_fine all_evaluators ot groups ts (input_row asf cols i) -> row_fine all_evaluators ot groups us (cview i).
Proof.
  intros Iu R Ps. destruct (R Ps) as [Rk Nk]. split.
  - intros j x E. apply (Rk j). cbn [cview in_f32] in E. unfold seen in E. cbn [input_row in_f32]. destruct (nth_error (b_bound b) j) as [[[s|] ty]|]; [exact E|discriminate..].
  - intros t j ty nd S Ts N. pose proof (Nk t j ty nd (selected_sub ts groups us t Iu S) Ts N) as K.
    unfold nan_ok in *. destruct (n_cond nd) as [? ? ?|? ? ?|k vs [|]|?] eqn:Ec; try exact I.
    destruct (cview_agree us i Iu k TF32) as [-> _]; [|exact K]. exists t, nd. split; [apply S|]. split; [exact N|]. rewrite Ec. left. reflexivity.
Qed.

Definition run_result (us : list (tree V)) (mem mem' : list (src (bval V))) : Prop :=
  length mem' = length mem /\ (forall s, ~ In s (map as_id outs) -> nth_error mem' s = nth_error mem s) /\
  forall g f o, nth_error groups g = Some f -> nth_error outs g = Some o ->
  exists ys a, nth_error mem' (as_id o) = Some a /\ full_array (as_arr o) ys a /\ length ys = n /\
    forall i y, nth_error ys i = Some y -> output_ok vo ot (input_row asf cols i) us f y.

Lemma run_ok fuel rf mem e us : incl us ts -> inputs_ok ot oty ts inputs mem cols n -> outputs_ok groups outs mem -> part_ok vo lib ot fuel groups us e ->
  (forall i, i < n -> row_fine all_evaluators ot groups ts (input_row asf cols i)) -> n <= rf ->
  exists mem', run_evaluator V vo lib ot oty asf dflt alloc allocw iorder oorder fuel rf b inputs outs (Some n) mem e = BOk mem' /\ run_result us mem mem'.
Proof.
  intros Iu Iok (Ol & Ond & Oin) Pk Fine Rf. destruct (inputs_get mem Iok) as (arrays & Ea & Fa). unfold run_evaluator. rewrite Ea. cbn [b_undef bbind]. fold islots.
  pose proof (Forall2_len Fa) as La.
  assert (F1 : Forall2 fits_in arrays islots).
  { apply Forall2_forall_nth; [rewrite islots_length; lia|]. intros p t s Et Es. destruct (nth_error required p) as [[j ty]|] eqn:Ep; [|apply nth_error_None in Ep; apply nth_error_Some_lt in Et; lia].
    rewrite (islots_nth p j ty Ep) in Es. injection Es as <-. destruct (Forall2_nth_l _ _ _ _ _ Fa Ep) as (t' & Et' & T1 & T2 & T3 & T4). rewrite Et in Et'. injection Et' as <-. cbn [fst snd] in *.
    split; [exact T1|]. cbn [sl_opt]. destruct (snd (tag oty ty)); [left; reflexivity|right; apply T4; reflexivity]. }
  assert (F2 : Forall2 fits_out outs (b_outputs b)).
  { apply Forall2_forall_nth; [rewrite Bouts, map_length, seq_length; exact Ol|]. intros p o s Eo Es. rewrite Bouts, nth_error_map in Es. destruct (nth_error (seq _ _) p); [|discriminate]. injection Es as <-.
    cbn. apply (Oin o). eapply nth_error_In; eassumption. }
  assert (Ag : agreed arrays (Some n) n).
  { split; [|split; [right; reflexivity|discriminate]]. intros t It. destruct (In_nth_error _ _ It) as [p Ep]. destruct (Forall2_nth_r _ _ _ _ _ Fa Ep) as (r & _ & T). apply T. }
  destruct (proj2 (C54_create alloc allocw iorder oorder arrays islots outs (b_outputs b) (repeat (false, dflt) (b_width b)) (Some n) 64 IO OO) n F1 F2 Ag) as (it & Ec & Rn).
  rewrite Ec. set (fn := eval_frame V vo lib ot oty asf fuel b e). 
  set (g := fun i => match eval V vo lib ot fuel e (cview i) with Done out => map (fun y => Some (BV y)) out | _ => [] end).
  assert (Cut : forall i, i < n -> exists out, eval V vo lib ot fuel e (cview i) = Done out /\ Forall2 (output_ok vo ot (input_row asf cols i) us) groups out).
  { intros i Hi. destruct (Pk (cview i) (cview_fine us i Iu (Fine i Hi))) as (out & E & F). exists out. split; [exact E|].
    clear - F Iu Lo Ruse Bbound. induction F as [|f y gs ys H F IH]; constructor; [|exact IH]. apply (output_agree vo ot us (cview i)); [exact Lo|apply cview_agree; exact Iu|exact H]. }
  assert (Fc : Forall2 (fun t l => column (ts_src _ t) l) arrays cols').
  { apply Forall2_forall_nth; [unfold cols'; rewrite map_length; lia|]. intros p t l Et El. unfold cols' in El. rewrite nth_error_map in El. destruct (nth_error required p) as [r|] eqn:Ep; [|discriminate]. injection El as <-.
    destruct (Forall2_nth_l _ _ _ _ _ Fa Ep) as (t' & Et' & _ & T2 & _). rewrite Et in Et'. injection Et' as <-. exact T2. }
  assert (Cmp : computes (fun f => length f = b_width b) islots (b_outputs b) cols' (it_rows _ it) fn g).
  { intros i f f' Hi Lf [Ls _] Ho. rewrite Rn in Hi. destruct (Cut i Hi) as (out & Eo & Fo). unfold fn, eval_frame, g. rewrite (view_ok i f' mem Hi Iok Ho), Eo.
    destruct (put_outputs_ok (b_outputs b) out f') as (f2 & Ep & L2 & _ & F2').
    - rewrite oslots_ids. apply seq_NoDup.
    - intros s Is. apply (in_map sl_id) in Is. rewrite oslots_ids in Is. apply in_seq in Is. lia.
    - rewrite <- (Forall2_len Fo), Bouts, map_length, seq_length. reflexivity.
    - rewrite Ep. split; [lia|]. split; [lia|]. unfold holds. clear - F2'. induction F2' as [|s v ss vs E F IH]; cbn [map]; constructor; [|exact IH]. exists (true, BV v). split; [exact E|]. cbn. auto. }
  destruct (C54_for_each dflt alloc allocw iorder oorder arrays islots outs (b_outputs b) (repeat (false, dflt) (b_width b)) (Some n) 64 it (fun f => f) fn (fun f => length f = b_width b) cols' g Al Alw IO OO Ec Fc) with (fuel := rf) as (c & fs & Ei & Ls & Ho); try assumption.
  - unfold islots. rewrite Bmap, mapping_ids. apply seq_NoDup.
  - intros s Is. apply (in_map sl_id) in Is. unfold islots in Is. rewrite Bmap, mapping_ids in Is. apply in_seq in Is. rewrite repeat_length, Bwidth. lia.
  - apply repeat_length.
  - intros j s Es _ i Hi. rewrite Rn in Hi. unfold g. destruct (Cut i Hi) as (out & -> & Fo). assert (Lj : j < length out).
    { rewrite <- (Forall2_len Fo). apply nth_error_Some_lt in Es. rewrite Bouts, map_length, seq_length in Es. exact Es. }
    destruct (nth_error out j) as [y|] eqn:Ey; [|apply nth_error_None in Ey; lia]. rewrite (nth_error_nth _ j None (x := Some (BV y))) by (rewrite nth_error_map, Ey; reflexivity). discriminate.
  - left. lia.
  - lia.
  - replace (custom_init (bval V) (fun f => f) it) with it in Ei by (unfold custom_init; rewrite map_id; destruct it; reflexivity). rewrite Ei.
    (* the stored slots are the output slots *)
    assert (Inc : incl (map as_id outs) (map fst (store_output _ c))).
    { intros x Ix. apply in_map_iff in Ix. destruct Ix as (o & <- & Io). destruct (In_nth_error _ _ Io) as [j Ej]. destruct (Ho j o Ej) as (v & Iv & _). apply in_map_iff. exists (as_id o, v). auto. }
    assert (Lst : length (map fst (store_output _ c)) <= length (map as_id outs)) by (rewrite !map_length; lia).
    assert (Snd : NoDup (map fst (store_output _ c))) by (apply (NoDup_incl_NoDup Ond Lst Inc)).
    assert (Inc' : incl (map fst (store_output _ c)) (map as_id outs)) by (apply (NoDup_length_incl Ond Lst Inc)).
    destruct (store_ok (store_output _ c) mem Snd) as (mem' & Em & L1 & L2 & L3).
    { intros x Ix. apply Inc' in Ix. apply in_map_iff in Ix. destruct Ix as (o & <- & Io). apply (Oin o Io). }
    exists mem'. change (store V mem (store_output (bval V) c) = Some mem') in Em. rewrite Em. split; [reflexivity|]. split; [exact L1|]. split; [intros s Hs; apply L2; intros X; apply Hs, Inc', X|].
    intros j f o Ef Eo. destruct (Ho j o Eo) as (v & Iv & Kv & Cv). rewrite Rn in Cv.
    assert (Ys : exists ys, length ys = n /\ map (fun i => nth j (g i) None) (seq 0 n) = map (fun y => Some (BV y)) ys /\ forall i y, nth_error ys i = Some y -> output_ok vo ot (input_row asf cols i) us f y).
    { clear - Cut Ef. assert (H : forall k m, k + m <= n -> exists ys, length ys = m /\ map (fun i => nth j (g i) None) (seq k m) = map (fun y => Some (BV y)) ys /\ forall i y, nth_error ys i = Some y -> output_ok vo ot (input_row asf cols (k + i)) us f y).
      { intros k m. revert k. induction m as [|m IH]; intros k Hk; [exists []; split; [reflexivity|]; split; [reflexivity|intros [|i]; discriminate]|].
        destruct (IH (S k)) as (ys & Ly & My & Py); [lia|]. destruct (Cut k) as (out & Eo & Fo); [lia|]. destruct (Forall2_nth_l _ _ _ _ _ Fo Ef) as (y & Ey & Oy).
        exists (y :: ys). split; [cbn; lia|]. split.
        - cbn [seq map]. rewrite My. f_equal. unfold g. rewrite Eo. apply (nth_error_nth _ j None). rewrite nth_error_map, Ey. reflexivity.
        - intros [|i] z Ez; cbn in Ez; [injection Ez as <-; rewrite Nat.add_0_r; exact Oy|]. rewrite Nat.add_succ_r. exact (Py i z Ez). }
      exact (H 0 n (Nat.le_refl n)). }
    destruct Ys as (ys & Ly & My & Py). rewrite My in Cv. exists ys, v. split; [apply L3; exact Iv|]. split; [|split; [exact Ly|exact Py]].
    apply full_of_column; [eapply stored_form; exact Iv|exact Kv|exact Cv].
Qed.
End run.
