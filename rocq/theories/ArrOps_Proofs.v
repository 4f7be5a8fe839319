From Verif Require Import Base Bits_Model Bitmap_Model Dense_Model Dense_Spec Dense_Proofs
  DenseOps_Model DenseOps_Spec DenseOps_Proofs IdFilter_Model IdFilter_Spec IdFilter_Proofs
  GroupOps_Model Array_Model Array_Spec Array_Proofs ArrayIter_Proofs ArrOps_Model ArrOps_Spec.

Lemma F2_len {X Y} (P : X -> Y -> Prop) l m : Forall2 P l m -> length l = length m.
Proof. induction 1; cbn [length]; lia. Qed.

Section P.
Context {A : Type}.
Variables (alloc : nat -> list A) (allocw : nat -> list N) (addr : nat).
Hypothesis HA : alloc_sz alloc.
Hypothesis HW : allocw_ok allocw.
Implicit Types (args : list (arr A)) (ls : list (list (option A))).

Lemma with_ids_boff a ids m r : with_ids alloc allocw a ids m = Some r -> boff (ar_data a) = 0 -> boff (ar_data r) = 0.
Proof.
  intros E B. unfold with_ids in E.
  destruct ((match ids with FEmpty => true | _ => false end) || (ar_size a =? 0)) eqn:Q; [injection E as <-; reflexivity|].
  destruct (is_same (ar_ids a) ids) eqn:Q2; [injection E as <-; exact B|].
  destruct (ar_ids a) as [| |ad l o] eqn:Ea.
  - cbn [bind] in E. injection E as <-. destruct (ar_miss a); reflexivity.
  - unfold with_ids_dense_to_sparse in E. destruct ids as [| |ad l o]; try discriminate.
    destruct (copy_ids (vals (ar_data a)) (alloc (length l)) o 0 l) as [vs|]; [|discriminate]. cbn [bind] in E.
    destruct (bmp (ar_data a)); [cbn [bind] in E; injection E as <-; reflexivity|].
    destruct (presence_at (ar_data a) o l) as [bits|]; [|discriminate]. cbn [bind] in E.
    destruct (builder_add (builder_init (allocw (bitmap_size (length l)))) bits) as [b|]; [|discriminate]. cbn [bind] in E.
    injection E as <-. reflexivity.
  - destruct (with_ids_from_sparse alloc a ids) as [d|] eqn:Ed; [|discriminate]. cbn [bind] in E. injection E as <-.
    cbn [ar_make ar_data]. unfold with_ids_from_sparse in Ed.
    match type of Ed with (bind ?e _ = _) => destruct e as [b|]; [|discriminate] end. cbn [bind] in Ed.
    match type of Ed with (bind ?e _ = _) => destruct e as [all|]; [|discriminate] end. cbn [bind] in Ed.
    injection Ed as <-. reflexivity.
Qed.

(** Data of the arguments for other ids. *)
Lemma at_ids_select l ids m : Forall (fun x => x < length l) ids ->
  at_ids (select (fun i => nth i l None) ids m (length l)) ids = @at_ids A l ids.
Proof.
  intros F. unfold at_ids. apply map_ext_in. intros i Hi. rewrite Forall_forall in F.
  rewrite select_nth by (apply F; exact Hi). rewrite (proj2 (mem_In i ids) Hi). reflexivity.
Qed.
Lemma with_ids_data_ok n ids : fwf n ids -> forall args ls, args_rep n args ls ->
  exists ds, with_ids_data alloc allocw args ids = Some ds /\
    Forall2 (fun d l => represents d (at_ids l (fids n ids))) ds ls /\
    (Forall (fun a => boff (ar_data a) = 0) args -> Forall (fun d => boff d = 0) ds).
Proof.
  intros Wi args ls [F N]. induction F as [|a l args ls R _ IH]; cbn [with_ids_data].
  - exists []. repeat split; constructor.
  - inversion N as [|? ? Nl N']; subst. destruct (IH N') as (ds & Ed & Fd & Bd).
    destruct (with_ids_ok alloc allocw HA HW a l ids (ar_miss a) R Wi) as (r & Er & Rr & Ei & _).
    rewrite Er. cbn [bind]. rewrite Ed. cbn [bind]. exists (ar_data r :: ds). split; [reflexivity|]. split.
    + constructor; [|exact Fd]. apply ar_char in Rr as (_ & _ & _ & Rd & _). rewrite select_len, Ei in Rd.
      destruct (length l =? 0) eqn:Z.
      * apply Nat.eqb_eq in Z. cbn [fids at_ids map] in Rd. replace (fids (length l) ids) with (@nil nat); [exact Rd|].
        rewrite Z. destruct ids as [| |ad li o]; try reflexivity. cbn [fwf] in Wi. lia.
      * rewrite at_ids_select in Rd by apply (fids_asc _ _ Wi). exact Rd.
    + intros B. inversion B; subst. constructor; [|apply Bd; assumption]. eapply with_ids_boff; eassumption.
Qed.

Lemma row_miss n args ls i : args_rep n args ls -> i < n ->
  (forall a, In a args -> ~ In i (fids n (ar_ids a))) -> row ls i = map ar_miss args.
Proof.
  intros [F N] Hi H. unfold row. induction F as [|a l args ls R _ IH]; [reflexivity|]. inversion N; subst.
  cbn [map]. f_equal.
  - apply ar_char in R as (_ & _ & _ & _ & M). apply M; [assumption|]. apply H. left; reflexivity.
  - apply IH; [assumption|]. intros b Hb. apply H. right; exact Hb.
Qed.

(** A required argument without default makes undefined all rows outside its ids. *)
Lemma bounds_undefined n opts args ls o a i : args_rep n args ls -> length args = length opts ->
  In (o, a) (combine opts args) -> bounds_ids o a = true -> i < n -> ~ In i (fids n (ar_ids a)) ->
  row_defined opts (row ls i) = false.
Proof.
  intros [F N] Hl Hin Hb Hi Hx. unfold row_defined, row. revert opts Hl Hin.
  induction F as [|b l args ls R _ IH]; intros opts Hl Hin; destruct opts as [|q opts]; try discriminate; [destruct Hin|].
  inversion N; subst. cbn [map combine forallb]. destruct Hin as [E|Hin].
  - injection E as -> ->. unfold bounds_ids in Hb. apply andb_true_iff in Hb as [Ho Hm].
    apply ar_char in R as (_ & Sz & _ & _ & M). rewrite M by assumption.
    destruct o; [discriminate|]. cbn [fst snd orb].
    replace (is_some (ar_miss a)) with false; [reflexivity|].
    unfold has_missing_id_value in Hm. destruct (is_dense_form a) eqn:D.
    + exfalso. apply Hx. unfold is_dense_form in D. destruct (ar_ids a); try discriminate. cbn [fids]. apply in_seq. lia.
    + destruct (ar_miss a); [|reflexivity]. rewrite Sz in Hm.
      replace (0 <? length l) with true in Hm by lia. discriminate Hm.
  - rewrite (IH ltac:(assumption) opts ltac:(cbn in Hl; lia) Hin). apply andb_false_r.
Qed.
Lemma bounds_miss n opts args ls : args_rep n args ls -> length args = length opts ->
  any_bounds opts args = true -> 0 < n -> row_defined opts (map ar_miss args) = false.
Proof.
  intros [F N] Hl Hin Hn. unfold row_defined, any_bounds in *. revert opts Hl Hin.
  induction F as [|b l args ls R _ IH]; intros opts Hl Hin; destruct opts as [|q opts]; try discriminate.
  inversion N; subst. cbn [map combine forallb existsb fst snd] in *. apply orb_true_iff in Hin as [Hb|Hin].
  - unfold bounds_ids in Hb. apply andb_true_iff in Hb as [Ho Hm]. destruct q; [discriminate|]. cbn [orb].
    apply ar_char in R as (_ & Sz & Fm & _ & _).
    replace (is_some (ar_miss b)) with false; [reflexivity|].
    unfold has_missing_id_value in Hm. destruct (is_dense_form b) eqn:D.
    + unfold is_dense_form in D. destruct (ar_ids b); try discriminate. rewrite Fm by reflexivity. reflexivity.
    + destruct (ar_miss b); [|reflexivity]. rewrite Sz in Hm.
      replace (0 <? length l) with true in Hm by lia. discriminate Hm.
  - rewrite (IH ltac:(assumption) opts ltac:(cbn in Hl; lia) Hin). apply andb_false_r.
Qed.

Lemma args_fwf n args ls : args_rep n args ls -> forall a, In a args -> fwf n (ar_ids a).
Proof.
  intros [F N] a Ha. induction F as [|b l args ls R _ IH]; [destruct Ha|]. inversion N; subst.
  destruct Ha as [->|Ha]; [|apply IH; assumption]. apply ar_char in R. apply R.
Qed.
Lemma same_filters args a : is_same_filters args = true -> In a args -> ar_ids a = first_ids args.
Proof.
  destruct args as [|b t]; [intros _ []|]. cbn [is_same_filters first_ids]. rewrite forallb_forall.
  intros H [->|Ha]; [reflexivity|]. symmetry. apply is_same_eq. apply H. exact Ha.
Qed.

Definition aligned n opts args ls ids (ds : list (darr A)) : Prop :=
  fwf n ids /\ Forall2 (fun d l => represents d (at_ids l (fids n ids))) ds ls /\
  (forall i, i < n -> ~ In i (fids n ids) ->
     if any_bounds opts args then row_defined opts (row ls i) = false else row ls i = map ar_miss args).

Lemma align_ok n opts args ls : args_rep n args ls -> length args = length opts -> args <> [] ->
  exists ids ds, align alloc allocw addr n opts args = Some (ids, ds) /\
    aligned n opts args ls ids ds /\
    (Forall (fun a => boff (ar_data a) = 0) args -> Forall (fun d => boff d = 0) ds) /\
    (is_same_filters args = true -> ids = first_ids args).
Proof.
  intros R Hl Ne. unfold align. destruct (is_same_filters args) eqn:S.
  - exists (first_ids args), (map ar_data args). split; [reflexivity|].
    split; [split; [|split]|split; [|reflexivity]].
    + destruct args as [|a t]; [congruence|]. eapply args_fwf; [exact R|left; reflexivity].
    + assert (E : forall a, In a args -> ar_ids a = first_ids args) by (intros a; apply same_filters; exact S).
      revert E. generalize (first_ids args) as f. destruct R as [F N]. clear -F N. intros f E.
      induction F as [|a l args ls Ra _ IH]; [constructor|]. inversion N; subst. cbn [map]. constructor.
      * apply ar_char in Ra as (_ & _ & _ & Rd & _). rewrite (E a) in Rd by (left; reflexivity). exact Rd.
      * apply IH; [assumption|]. intros b Hb. apply E. right; exact Hb.
    + intros i Hi Hx. assert (Er : row ls i = map ar_miss args).
      { apply (row_miss n); [exact R|exact Hi|]. intros a Ha. rewrite (same_filters args a S Ha). exact Hx. }
      destruct (any_bounds opts args) eqn:Bd; [|exact Er]. rewrite Er. eapply bounds_miss; try eassumption. lia.
    + intros B. rewrite Forall_map. exact B.
  - unfold common_ids. destruct (any_bounds opts args) eqn:Bd.
    + set (g := fun p : bool * arr A => if bounds_ids (fst p) (snd p) then ar_ids (snd p) else FFull).
      assert (Fg : Forall (fwf n) (map g (combine opts args))).
      { apply Forall_forall. intros f Hf. apply in_map_iff in Hf as ([o a] & <- & Hp). unfold g. cbn [fst snd].
        destruct (bounds_ids o a); [|exact I]. apply in_combine_r in Hp. eapply args_fwf; eassumption. }
      destruct (map g (combine opts args)) as [|f fs] eqn:Em.
      { destruct args as [|a t]; [congruence|]. destruct opts; discriminate. }
      destruct (intersect_all_ok n fs f Fg) as (In1 & _ & Up). cbn [bind].
      assert (Wi : fwf n (IdFilter_Model.intersect_all f fs)) by (rewrite Forall_forall in Fg; apply Fg; exact In1).
      destruct (with_ids_data_ok n _ Wi args ls R) as (ds & Ed & Fd & B0). rewrite Ed. cbn [bind].
      eexists; exists ds. split; [reflexivity|]. split; [|split; [exact B0|discriminate]]. split; [exact Wi|].
      split; [exact Fd|]. intros i Hi Hx. rewrite Bd.
      assert (Ex : exists h, In h (f :: fs) /\ ~ In i (fids n h)).
      { destruct (Forall_Exists_dec (fun h => In i (fids n h)) (fun h => in_dec Nat.eq_dec i (fids n h)) (f :: fs)) as [Al|Exx].
        - exfalso. apply Hx. apply Up. rewrite Forall_forall in Al. exact Al.
        - apply Exists_exists in Exx. exact Exx. }
      destruct Ex as (h & Hh & Nh). rewrite <- Em in Hh. apply in_map_iff in Hh as ([o a] & Eg & Hp). subst h.
      unfold g in Nh. cbn [fst snd] in Nh. destruct (bounds_ids o a) eqn:Bo.
      * eapply bounds_undefined; eassumption.
      * exfalso. apply Nh. cbn [fids]. apply in_seq. lia.
    + destruct (map ar_ids args) as [|f fs] eqn:Em; [destruct args; [congruence|discriminate]|].
      assert (Ff : Forall (fwf n) (f :: fs)).
      { rewrite <- Em. apply Forall_forall. intros x Hx. apply in_map_iff in Hx as (a & <- & Ha). eapply args_fwf; eassumption. }
      destruct (merge_all_ok (fun _ => addr) n fs f Ff) as (r & Er & Wr & _). rewrite Er. cbn [bind].
      destruct (with_ids_data_ok n r Wr args ls R) as (ds & Ed & Fd & B0). rewrite Ed. cbn [bind].
      exists r, ds. split; [reflexivity|]. split; [|split; [exact B0|discriminate]]. split; [exact Wr|].
      split; [exact Fd|]. intros i Hi Hx. rewrite Bd. apply (row_miss n); [exact R|exact Hi|].
      intros a Ha Hin. apply Hx. eapply (merge_contains (fun _ => addr) n f fs r (ar_ids a)); eauto.
      rewrite <- Em. apply in_map. exact Ha.
Qed.

(** ** ArrayPointwiseOp *)
Lemma rows_at n ids ls : fwf n ids -> Forall (fun l => length l = n) ls ->
  Forall (fun l => length l = length (fids n ids)) (map (fun l => @at_ids A l (fids n ids)) ls) /\
  forall o, o < length (fids n ids) -> row (map (fun l => at_ids l (fids n ids)) ls) o = row ls (nth o (fids n ids) 0).
Proof.
  intros W N. split.
  - apply Forall_map. eapply Forall_impl; [|exact N]. intros l _. apply at_ids_len.
  - intros o Ho. unfold row. rewrite map_map. apply map_ext. intros l. apply at_ids_nth. exact Ho.
Qed.
Lemma Forall2_map_r {X Y Z} (P : X -> Z -> Prop) (g : Y -> Z) l m : Forall2 (fun x y => P x (g y)) l m -> Forall2 P l (map g m).
Proof. induction 1; cbn [map]; constructor; assumption. Qed.

Lemma collect_inr {X E} (l : list (E + X)) r : collect l = inr r <-> l = map inr r.
Proof.
  revert r; induction l as [|[e|x] t IH]; intros r; cbn [collect].
  - split; [intros H; injection H as <-; reflexivity|]. destruct r; [reflexivity|discriminate].
  - split; [discriminate|]. destruct r; discriminate.
  - destruct (collect t) as [e|r'] eqn:C.
    + split; [discriminate|]. destruct r as [|y r]; [discriminate|]. cbn [map]. intros H. injection H as -> ->.
      assert (X0 := proj2 (IH r) eq_refl). discriminate.
    + split.
      * intros H. injection H as <-. cbn [map]. f_equal. apply IH. reflexivity.
      * destruct r as [|y r]; [discriminate|]. cbn [map]. intros H. injection H as -> ->.
        assert (X0 := proj2 (IH r) eq_refl). congruence.
Qed.
Lemma collect_inl {X E} (l : list (E + X)) e : collect l = inl e -> In (inl e) l.
Proof.
  induction l as [|[e'|x] t IH]; cbn [collect]; [discriminate|intros H; injection H as ->; left; reflexivity|].
  destruct (collect t) as [e'|r']; [|discriminate]. intros H. injection H as ->. right. apply IH. reflexivity.
Qed.
Lemma pointwise_inr {B E} (f : fn A B E) ls n (g : nat -> option B) :
  (forall i, i < n -> row_result f (row ls i) = inr (g i)) -> pointwise f ls n = inr (map g (seq 0 n)).
Proof.
  intros H. unfold pointwise. apply collect_inr. rewrite map_map. apply map_ext_in. intros i Hi. apply in_seq in Hi.
  apply H. lia.
Qed.

Section Op.
Context {B Err : Type}.
Variable allocb : nat -> list B.
Hypothesis HB : alloc_sz allocb.

Definition outcome (f : fn A B Err) n args ls (res : ar_result B Err) : Prop :=
  match res with
  | ArMismatch => False
  | ArError e => (exists i, i < n /\ row_result f (row ls i) = inl e) \/ row_result f (map ar_miss args) = inl e
  | ArOk r => exists l, pointwise f ls n = inr l /\ ar_rep r l /\ forall e, row_result f (map ar_miss args) <> inl e
  end.

Lemma finish_ok f n args ls ids d : args_rep n args ls -> length args = length (fn_opts f) ->
  fwf n ids ->
  (forall i, i < n -> ~ In i (fids n ids) ->
     if any_bounds (fn_opts f) args then row_defined (fn_opts f) (row ls i) = false else row ls i = map ar_miss args) ->
  (exists rs, represents d rs /\ map (fun i => row_result f (row ls i)) (fids n ids) = map inr rs) ->
  outcome f n args ls (finish f args n ids d).
Proof.
  intros R Hl W Out (rs & Rd & Er). unfold finish.
  change (wrap_optional f (map ar_miss args)) with (row_result f (map ar_miss args)).
  destruct (row_result f (map ar_miss args)) as [e|m] eqn:Em; cbn [outcome]; [right; exact Em|].
  set (g := fun i => match row_result f (row ls i) with inr v => v | inl _ => None end).
  assert (Eg : map g (fids n ids) = rs).
  { unfold g. transitivity (map (fun x : Err + option B => match x with inr v => v | inl _ => None end)
      (map (fun i => row_result f (row ls i)) (fids n ids))).
    - rewrite map_map. reflexivity.
    - rewrite Er, map_map. apply map_id. }
  assert (Hg : forall i, i < n -> row_result f (row ls i) = inr (g i)).
  { intros i Hi. unfold g. destruct (in_dec Nat.eq_dec i (fids n ids)) as [Hin|Hx].
    - assert (Hm : In (row_result f (row ls i)) (map inr rs)).
      { rewrite <- Er. apply in_map_iff. exists i. split; [reflexivity|exact Hin]. }
      apply in_map_iff in Hm as (v & E & _). rewrite <- E. reflexivity.
    - specialize (Out i Hi Hx). destruct (any_bounds (fn_opts f) args).
      + unfold row_result. rewrite Out. reflexivity.
      + rewrite Out, Em. reflexivity. }
  exists (map g (seq 0 n)). split; [apply pointwise_inr; exact Hg|]. split; [|congruence].
  replace (map g (seq 0 n)) with (select g (fids n ids) m n).
  - apply make_rep; [exact W|]. rewrite Eg. exact Rd.
  - apply (nth_ext _ _ None None); [rewrite select_len, map_length, seq_length; reflexivity|].
    intros i Hi. rewrite select_len in Hi. rewrite select_nth by exact Hi.
    rewrite (nth_indep _ None (g 0)) by (rewrite map_length, seq_length; exact Hi). rewrite map_nth, seq_nth by exact Hi.
    cbn [Nat.add]. destruct (mem i (fids n ids)) eqn:M; [reflexivity|]. apply mem_false in M.
    specialize (Out i Hi M). destruct (any_bounds (fn_opts f) args) eqn:Bd.
    + unfold g, row_result. rewrite Out. assert (U := bounds_miss n _ _ _ R Hl Bd ltac:(lia)).
      unfold row_result in Em. rewrite U in Em. congruence.
    + unfold g. rewrite Out, Em. reflexivity.
Qed.

Lemma array_op_ok f fl n args ls : fn_ok f -> length args = length (fn_opts f) -> args <> [] -> args_rep n args ls ->
  (no_bitmap_offset fl = true -> Forall (fun a => boff (ar_data a) = 0) args) ->
  exists res, array_op alloc allocw addr allocb f fl args = Some res /\ outcome f n args ls res.
Proof.
  intros Fok Hl Ne R Hb. assert (Sz : forall a, In a args -> ar_size a = n).
  { destruct R as [F N]. clear -F N. induction F as [|a l args ls Ra _ IH]; [intros a []|]. inversion N; subst.
    intros b [<-|Hb]; [|apply IH; assumption]. apply ar_char in Ra. apply Ra. }
  destruct args as [|a t]; [congruence|]. unfold array_op.
  replace (forallb (fun b => ar_size a =? ar_size b) t) with true.
  2:{ symmetry. apply forallb_forall. intros b Hb'. rewrite (Sz a), (Sz b) by (simpl; auto). apply Nat.eqb_refl. }
  cbn [negb]. rewrite (Sz a) by (left; reflexivity).
  remember (a :: t) as args eqn:Ea.
  destruct (existsb (fun p => negb (fst p) && is_all_missing_form (snd p)) (combine (fn_opts f) args)) eqn:Am.
  - eexists; split; [reflexivity|]. cbn [outcome]. apply existsb_exists in Am as ([o b] & Hin & Hc). cbn [fst snd] in Hc.
    apply andb_true_iff in Hc as [Ho Hc]. unfold is_all_missing_form in Hc. apply andb_true_iff in Hc as [Hc Hp].
    assert (Bo : bounds_ids o b = true).
    { unfold bounds_ids. rewrite Ho. unfold has_missing_id_value. destruct (present_opt (ar_miss b)); [discriminate|].
      rewrite andb_false_r. reflexivity. }
    assert (Nb : forall i, ~ In i (fids n (ar_ids b))).
    { intros i. unfold is_const_form in Hc. destruct (ar_ids b); try discriminate. intros []. }
    assert (U : forall i, i < n -> row_defined (fn_opts f) (row ls i) = false).
    { intros i Hi. eapply bounds_undefined; try eassumption. apply Nb. }
    exists (map (fun _ => None) (seq 0 n)). split; [|split].
    + apply pointwise_inr. intros i Hi. unfold row_result. rewrite U by exact Hi. reflexivity.
    + replace (map (fun _ => None) (seq 0 n)) with (@repeat (option B) None n); [apply ar_const_rep|].
      clear. generalize 0. induction n as [|n IH]; intros k; [reflexivity|]. cbn [repeat seq map]. f_equal. apply IH.
    + intros e. unfold row_result. replace (row_defined (fn_opts f) (map ar_miss args)) with false; [discriminate|].
      symmetry. clear -Hl Hin Ho Hp. unfold row_defined. revert Hl Hin. generalize (fn_opts f) as opts.
      induction args as [|c args IH]; intros opts Hl Hin; destruct opts as [|q opts]; try discriminate; [destruct Hin|].
      cbn [combine map forallb fst snd]. destruct Hin as [E|Hin].
      * injection E as -> ->. destruct o; [discriminate|]. destruct (ar_miss b); [discriminate|]. reflexivity.
      * rewrite IH by (auto; cbn in Hl; lia). apply andb_false_r.
  - destruct (align_ok n (fn_opts f) args ls R Hl Ne) as (ids & ds & El & (W & Fd & Out) & B0 & Sm). rewrite El. cbn [bind].
    destruct (is_same_filters args && is_const_form a) eqn:C.
    + eexists; split; [reflexivity|]. apply andb_true_iff in C as [C1 C2]. rewrite (Sm C1) in *.
      assert (Ei : first_ids args = FEmpty).
      { subst args. cbn [first_ids]. unfold is_const_form in C2. destruct (ar_ids a); congruence. }
      rewrite Ei in *. apply finish_ok; auto. exists []. split; [apply rep_no_data|reflexivity].
    + set (fa := fids n ids) in *. destruct R as [Rf N].
      destruct (rows_at n ids ls W N) as [N2 Rw]. fold fa in N2, Rw.
      assert (Fd2 : Forall2 represents ds (map (fun l => at_ids l fa) ls)) by (apply Forall2_map_r; exact Fd).
      assert (Ls : length ls = length args) by (symmetry; eapply F2_len; exact Rf).
      assert (Ld : length ds = length ls) by (eapply F2_len; exact Fd).
      assert (Nd : match ds with [] => 0 | d :: _ => da_size d end = length fa).
      { destruct Fd2 as [|d l ds' ls' Rd _]; [subst args; cbn in Ls; cbn in Ld; lia|]. inversion N2; subst.
        destruct Rd as (_ & S & _). congruence. }
      rewrite Nd.
      destruct (dense_op_ok f {| run_on_missing := run_on_missing fl; no_bitmap_offset := no_bitmap_offset fl; no_size_validation := true |}
        ds _ (length fa) (allocb (length fa)) (allocw (bitmap_size (length fa + Bitmap_Model.W))) Fok ltac:(lia)
        ltac:(intros ->; subst args; cbn in Ls; cbn in Ld; lia) Fd2 N2) as (res & Er & O).
      * cbn [no_bitmap_offset]. auto.
      * apply HB.
      * destruct (HW (bitmap_size (length fa + Bitmap_Model.W))) as [Hw1 _]. rewrite Hw1. lia.
      * apply words_ok. apply HW.
      * rewrite Er. cbn [bind]. unfold op_outcome in O.
        assert (Ep : pointwise f (map (fun l => at_ids l fa) ls) (length fa) = collect (map (fun i => row_result f (row ls i)) fa)).
        { unfold pointwise. f_equal. apply (nth_ext _ _ (inr None) (inr None)); [rewrite !map_length, seq_length; reflexivity|].
          intros o Ho. rewrite map_length, seq_length in Ho.
          rewrite (nth_indep _ (inr None) ((fun i => row_result f (row (map (fun l => at_ids l fa) ls) i)) 0)) by (rewrite map_length, seq_length; exact Ho).
          rewrite (map_nth (fun i => row_result f (row (map (fun l => at_ids l fa) ls) i))), seq_nth by exact Ho. cbn [Nat.add].
          rewrite (nth_indep (map (fun i => row_result f (row ls i)) fa) (inr None) ((fun i => row_result f (row ls i)) 0)) by (rewrite map_length; exact Ho).
          rewrite (map_nth (fun i => row_result f (row ls i))). rewrite Rw by exact Ho. reflexivity. }
        rewrite Ep in O. destruct (collect (map (fun i => row_result f (row ls i)) fa)) as [e|rs] eqn:Cl.
        -- subst res. eexists; split; [reflexivity|]. cbn [outcome]. left. apply collect_inl in Cl.
           apply in_map_iff in Cl as (i & Ei & Hi). exists i. split; [|exact Ei].
           destruct (fids_asc n ids W) as [_ Bd]. rewrite Forall_forall in Bd. apply Bd. exact Hi.
        -- destruct O as (d & -> & Rd). eexists; split; [reflexivity|]. apply finish_ok; auto; [split; assumption|].
           exists rs. split; [exact Rd|]. apply collect_inr. exact Cl.
Qed.
End Op.

(** ** ArrayOpsUtil *)
(** [ids] before position [o] are below [id], the others are not. *)
Definition split_at (fa : list nat) (o id : nat) : Prop :=
  forall p, p < length fa -> if p <? o then nth p fa 0 < id else id <= nth p fa 0.

Lemma split_next fa o id : ascending fa -> o < length fa -> split_at fa o id -> split_at fa (S o) (S (nth o fa 0)).
Proof.
  intros As Ho H p Hp. destruct (p <? S o) eqn:Q.
  - destruct (Nat.eq_dec p o) as [->|Np]; [lia|]. pose proof (As p o ltac:(lia)). lia.
  - pose proof (As o p ltac:(lia)). lia.
Qed.
Lemma split_out fa o id j : o < length fa -> split_at fa o id -> id <= j < nth o fa 0 -> ascending fa -> ~ In j fa.
Proof.
  intros Ho H Hj As Hin. apply (In_nth _ _ 0) in Hin as (p & Hp & <-). specialize (H p Hp).
  destruct (p <? o) eqn:Q; [lia|]. destruct (Nat.eq_dec p o) as [->|]; [lia|]. pose proof (As o p ltac:(lia)). lia.
Qed.

Definition cov (opts : list bool) ls i : nat * option (list (option A)) := (i, row_at opts ls i).

Definition u_ok n opts ls (u : outil A) : Prop :=
  ou_size u = n /\ ou_opts u = opts /\ fwf n (ou_ids u) /\
  Forall (fun l => length l = n) ls /\ length (ou_dense u) = length opts /\
  Forall2 (fun d l => represents d (at_ids l (fids n (ou_ids u)))) (ou_dense u) ls /\
  (forall i, i < n -> ~ In i (fids n (ou_ids u)) -> row_at opts ls i = ou_default u) /\
  (ou_default u <> None -> 0 < n -> exists r, ou_default u = Some r /\ row_defined opts r = true).

Lemma not_full_raw n f : f <> FFull -> fids n f = map (fun x => x - raw_off f) (raw_ids f).
Proof. destruct f; intros H; try reflexivity. congruence. Qed.
Lemma raw_rd n f o : fwf n f -> f <> FFull -> o < length (fids n f) ->
  rd_id (raw_ids f) (raw_off f) o = Some (nth o (fids n f) 0).
Proof.
  intros W Nf Ho. destruct f as [| |ad l off]; [cbn in Ho; lia|congruence|]. cbn [raw_ids raw_off].
  assert (N : nth_error (fids n (FPartial ad l off)) o = Some (nth o (fids n (FPartial ad l off)) 0)) by (apply nth_error_nth'; exact Ho).
  destruct (ids_offset_to_id_ok n (FPartial ad l off) o _ W ltac:(eauto) N) as [E _]. exact E.
Qed.
Lemma raw_lower n f v : fwf n f -> f <> FFull -> v <= n ->
  let o := lower_bound (raw_ids f) (v + raw_off f) in
  o <= length (fids n f) /\ split_at (fids n f) o v.
Proof.
  intros W Nf Hv. destruct f as [| |ad l off]; [cbn; split; [lia|intros p Hp; cbn in Hp; lia]|congruence|].
  cbn [raw_ids raw_off fids]. rewrite map_length. cbn [fwf] in W. destruct W as (_ & _ & As & Fl).
  destruct (lower_bound_ok l (v + off) As) as (Lo & Lt & Ge). split; [exact Lo|].
  intros p Hp. rewrite map_length in Hp. rewrite (nth_indep _ 0 (0 - off)) by (rewrite map_length; exact Hp).
  rewrite (map_nth (fun x => x - off)). rewrite Forall_forall in Fl.
  assert (off <= nth p l 0 < off + n) by (apply Fl, nth_In; exact Hp).
  destruct (p <? lower_bound l (v + off)) eqn:Q.
  - specialize (Lt p ltac:(lia)). lia.
  - specialize (Ge p ltac:(lia)). lia.
Qed.

(** Rows covered by consecutive calls. *)
Lemma cov_default n opts ls u id k : u_ok n opts ls u -> id + k <= n ->
  (forall j, id <= j < id + k -> ~ In j (fids n (ou_ids u))) ->
  covers (default_call u id k) = map (cov opts ls) (seq id k).
Proof.
  intros (Sz & Op & W & N & Ld & Fd & Out & Df) Hk H. unfold default_call, cov.
  assert (E : forall j, id <= j < id + k -> row_at opts ls j = ou_default u) by (intros j Hj; apply Out; [lia|apply H; exact Hj]).
  destruct (ou_default u) as [r|]; cbn [covers]; apply map_ext_in; intros j Hj; apply in_seq in Hj; rewrite E by lia; reflexivity.
Qed.

Lemma it_fold n opts ls u : u_ok n opts ls u -> ou_ids u <> FFull ->
  let fa := fids n (ou_ids u) in
  forall cs o out id, Forall2 (row_call opts (map (fun l => at_ids l fa) ls)) cs (seq o (length cs)) ->
  o + length cs <= length fa -> split_at fa o id -> id <= n ->
  exists out' id', fold_opt (it_step u) cs (out, id) = Some (out', id') /\ id <= id' <= n /\
    (id' = id \/ exists p, p < o + length cs /\ id' = S (nth p fa 0)) /\
    split_at fa (o + length cs) id' /\
    flat_map covers out' = flat_map covers out ++ map (cov opts ls) (seq id (id' - id)).
Proof.
  intros U Nf fa. pose proof U as (_ & _ & W & N & Ld & Fd & Out & Df).
  destruct (fids_asc n (ou_ids u) W) as [As Bd]. fold fa in As, Bd.
  destruct (rows_at n (ou_ids u) ls W N) as [_ Rw]. fold fa in Rw.
  induction cs as [|c cs IH]; intros o out id F Ho Sp Hid; cbn [fold_opt length] in *.
  - exists out, id. split; [reflexivity|]. split; [lia|]. split; [auto|]. rewrite Nat.add_0_r. split; [exact Sp|].
    rewrite Nat.sub_diag. cbn [seq map]. rewrite app_nil_r. reflexivity.
  - cbn [seq] in F. inversion F as [|? ? ? ? Hc F']; subst. destruct c as [[o' valid] r]. destruct Hc as (-> & Hv & Hr).
    cbn [it_step]. rewrite (raw_rd n) by (auto; fold fa; lia). fold fa. cbn [bind].
    rewrite Rw in Hv, Hr by lia. set (x := nth o fa 0) in *.
    assert (Hx : x < n) by (rewrite Forall_forall in Bd; apply Bd, nth_In; lia).
    assert (Ix : id <= x). { specialize (Sp o ltac:(lia)). rewrite Nat.ltb_irrefl in Sp. exact Sp. }
    destruct (IH (S o) ((if id <? x then out ++ [default_call u id (x - id)] else out) ++ [if valid then CRow x r else CMiss x 1]) (S x) F' ltac:(lia)
      ltac:(apply (split_next fa o id); auto; lia) ltac:(lia)) as (out' & id' & E & I1 & I2 & I3 & I4).
    exists out', id'. rewrite E. split; [reflexivity|]. split; [lia|]. split; [|split].
    + right. destruct I2 as [->|(p & Hp & ->)]; [exists o; split; [lia|reflexivity]|exists p; split; [lia|reflexivity]].
    + replace (o + S (length cs)) with (S o + length cs) by lia. exact I3.
    + rewrite I4, flat_map_app. cbn [flat_map]. rewrite app_nil_r.
      replace (id' - id) with ((x - id) + (1 + (id' - S x))) by lia. rewrite seq_app, map_app, seq_app, map_app.
      replace (id + (x - id)) with x by lia. rewrite Nat.add_1_r.
      rewrite <- !app_assoc.
      assert (E1 : covers (if valid then CRow x r else CMiss x 1) = map (cov opts ls) (seq x 1)).
      { cbn [seq map]. unfold cov, row_at. rewrite <- Hv. destruct valid; cbn [covers seq map]; [rewrite (Hr eq_refl)|]; reflexivity. }
      rewrite E1, !app_assoc. f_equal. f_equal. destruct (id <? x) eqn:Q.
      * rewrite flat_map_app. f_equal. cbn [flat_map]. rewrite app_nil_r. apply (cov_default n); [exact U|lia|].
        intros j Hj. apply (split_out fa o id); auto; fold x; lia.
      * replace (x - id) with 0 by lia. cbn [seq map]. rewrite app_nil_r. reflexivity.
Qed.

Lemma dense_calls n opts ls u lo k : u_ok n opts ls u -> lo <= k <= length (fids n (ou_ids u)) ->
  exists cs, ops_iterate false lo k (combine opts (ou_dense u)) = Some cs /\
    Forall2 (row_call opts (map (fun l => at_ids l (fids n (ou_ids u))) ls)) cs (seq lo (k - lo)).
Proof.
  intros (Sz & Op & W & N & Ld & Fd & Out & Df) H.
  destruct (rows_at n (ou_ids u) ls W N) as [N2 _].
  apply (rep_iterate false (length (fids n (ou_ids u)))); auto; [|discriminate]. apply Forall2_map_r. exact Fd.
Qed.

Lemma iterate_ok n opts ls u from to : u_ok n opts ls u -> from <= to <= n -> (opts = [] -> ls = []) ->
  exists cs, ou_iterate u from to = Some cs /\ flat_map covers cs = map (cov opts ls) (seq from (to - from)).
Proof.
  intros U Hft Ho0. pose proof U as (Sz & Op & W & N & Ld & Fd & Out & Df). unfold ou_iterate. rewrite Op.
  destruct opts as [|q opts']; [|remember (q :: opts') as opts eqn:Eo].
  - eexists; split; [reflexivity|]. cbn [flat_map covers]. rewrite app_nil_r. apply map_ext. intros i.
    rewrite (Ho0 eq_refl). reflexivity.
  - destruct (ou_ids u) as [| |ad l off] eqn:Ei.
    2:{ destruct (dense_calls n opts ls u from to U) as (cs & Ec & Fc); [rewrite Ei; cbn [fids]; rewrite seq_length; exact Hft|].
        rewrite Ec. cbn [bind]. eexists; split; [reflexivity|].
        assert (Hlt : forall i, In i (seq from (to - from)) -> i < n) by (intros i Hi; apply in_seq in Hi; lia).
        destruct (rows_at n FFull ls I N) as [_ Rw]. cbn [fids] in Rw. rewrite seq_length in Rw. rewrite Ei in Fc. cbn [fids] in Fc.
        revert Fc Hlt. generalize (seq from (to - from)) as is. clear -Rw.
        induction cs as [|c cs IH]; intros is Fc Hlt; inversion Fc as [|? i ? is' Hc Fc']; subst; [reflexivity|].
        destruct c as [[o v] r]. destruct Hc as (-> & Hv & Hr). assert (Hi : i < n) by (apply Hlt; left; reflexivity).
        rewrite Rw in Hv, Hr by exact Hi. rewrite seq_nth in Hv, Hr by exact Hi. cbn [Nat.add] in Hv, Hr.
        cbn [map flat_map]. rewrite (IH is' Fc') by (intros j Hj; apply Hlt; right; exact Hj).
        replace (covers (if v then CRow i r else CMiss i 1)) with [cov opts ls i]; [reflexivity|].
        unfold cov, row_at. rewrite <- Hv. destruct v; cbn [covers seq map]; [rewrite (Hr eq_refl)|]; reflexivity. }
    all: rewrite <- Ei; assert (Nf : ou_ids u <> FFull) by (rewrite Ei; discriminate); rewrite <- Ei in W;
      destruct (raw_lower n (ou_ids u) from W Nf ltac:(lia)) as [L1 S1]; destruct (raw_lower n (ou_ids u) to W Nf ltac:(lia)) as [L2 S2];
      set (o1 := lower_bound (raw_ids (ou_ids u)) (from + raw_off (ou_ids u))) in *;
      set (o2 := lower_bound (raw_ids (ou_ids u)) (to + raw_off (ou_ids u))) in *;
      set (fa := fids n (ou_ids u)) in *;
      (assert (L12 : o1 <= o2) by
        (destruct (Nat.le_gt_cases o1 o2) as [L|L]; [exact L|exfalso]; specialize (S1 o2 ltac:(lia)); specialize (S2 o2 ltac:(lia));
         replace (o2 <? o1) with true in S1 by lia; rewrite Nat.ltb_irrefl in S2; lia));
      destruct (dense_calls n opts ls u o1 o2 U ltac:(fold fa; lia)) as (cs & Ec & Fc); fold fa in Fc; rewrite Ec; cbn [bind];
      (assert (Lc : length cs = o2 - o1) by (apply F2_len in Fc; rewrite seq_length in Fc; exact Fc));
      rewrite <- Lc in Fc;
      destruct (it_fold n opts ls u U Nf cs o1 [] from Fc ltac:(fold fa; lia) S1 ltac:(lia)) as (out & id & E & I1 & I2 & I3 & I4);
      rewrite E; cbn [bind]; eexists; (split; [reflexivity|]);
      rewrite Lc in I2, I3; replace (o1 + (o2 - o1)) with o2 in I2, I3 by lia; fold fa in I2, I3;
      (assert (id <= to) by (destruct I2 as [->|(p & Hp & ->)]; [lia|specialize (S2 p ltac:(lia)); replace (p <? o2) with true in S2 by lia; lia]));
      cbn [flat_map app] in I4;
      replace (to - from) with ((id - from) + (to - id)) by lia; rewrite seq_app, map_app; replace (from + (id - from)) with id by lia;
      (assert (Hout : forall j, id <= j < to -> ~ In j fa) by
        (intros j Hj Hin; apply (In_nth _ _ 0) in Hin as (p & Hp & <-); specialize (I3 p Hp); specialize (S2 p Hp); destruct (p <? o2); lia));
      (destruct (id <? to) eqn:Q;
        [rewrite flat_map_app, I4; f_equal; cbn [flat_map]; rewrite app_nil_r; apply (cov_default n); [exact U|lia|intros j Hj; apply Hout; lia]
        |rewrite I4; replace (to - id) with 0 by lia; cbn [seq map]; rewrite app_nil_r; reflexivity]).
Qed.

(** *** Only the defined rows *)
Definition keep (c : nat * option (list (option A))) : list (nat * list (option A)) :=
  match snd c with Some r => [(fst c, r)] | None => [] end.
Lemma rows_of_covers c : rows_of c = flat_map keep (@covers A c).
Proof.
  destruct c as [id r|first k r|first k]; cbn [rows_of covers]; [reflexivity| |].
  - transitivity (map (fun i => (i, r)) (seq first k)).
    + clear. revert first. induction k as [|k IH]; intros first; [reflexivity|]. cbn [seq map]. rewrite Nat.add_0_r. f_equal.
      rewrite <- (IH (S first)), <- seq_shift, map_map. apply map_ext. intros i. f_equal. lia.
    + generalize (seq first k). intros l. induction l as [|x l IH]; [reflexivity|]. cbn [map flat_map keep app fst snd]. rewrite IH. reflexivity.
  - generalize (seq first k). intros l. induction l as [|x l IH]; [reflexivity|]. cbn [map flat_map keep app fst snd]. exact IH.
Qed.
Lemma keep_map opts ls is : flat_map keep (map (cov opts ls) is) =
  flat_map (fun i => match row_at opts ls i with Some r => [(i, r)] | None => [] end) is.
Proof. induction is as [|i is IH]; [reflexivity|]. cbn [map flat_map]. rewrite IH. reflexivity. Qed.
Lemma flat_map_flat_map {X Y Z} (f : Y -> list Z) (g : X -> list Y) l : flat_map f (flat_map g l) = flat_map (fun x => flat_map f (g x)) l.
Proof. induction l as [|x l IH]; [reflexivity|]. cbn [flat_map]. rewrite flat_map_app, IH. reflexivity. Qed.
Lemma iterate_fn_ok n opts ls u from to : u_ok n opts ls u -> from <= to <= n -> (opts = [] -> ls = []) ->
  ou_iterate_fn u from to = Some (defined_rows opts ls from to).
Proof.
  intros U H H0. destruct (iterate_ok n opts ls u from to U H H0) as (cs & E & F). unfold ou_iterate_fn. rewrite E. cbn [bind].
  f_equal. unfold defined_rows. rewrite <- keep_map, <- F, flat_map_flat_map. apply flat_map_ext. intros c. apply rows_of_covers.
Qed.

Definition sel (opts : list bool) ls i : list (nat * list (option A)) :=
  match row_at opts ls i with Some r => [(i, r)] | None => [] end.
Lemma sel_default n opts ls u id k : u_ok n opts ls u -> id + k <= n ->
  (forall j, id <= j < id + k -> ~ In j (fids n (ou_ids u))) ->
  match ou_default u with Some d => map (fun i => (i, d)) (seq id k) | None => [] end = flat_map (sel opts ls) (seq id k).
Proof.
  intros (Sz & Op & W & N & Ld & Fd & Out & Df) Hk H. unfold sel.
  assert (E : forall j, In j (seq id k) -> row_at opts ls j = ou_default u) by (intros j Hj; apply in_seq in Hj; apply Out; [lia|apply H; lia]).
  revert E. generalize (seq id k) as is. clear. intros is E. induction is as [|i is IH]; [destruct (ou_default u); reflexivity|].
  cbn [flat_map]. rewrite <- IH by (intros j Hj; apply E; right; exact Hj). rewrite (E i) by (left; reflexivity).
  destruct (ou_default u); reflexivity.
Qed.
Lemma simple_fold n opts ls u : u_ok n opts ls u -> ou_ids u <> FFull ->
  let fa := fids n (ou_ids u) in
  forall cs o out id, Forall2 (row_call opts (map (fun l => at_ids l fa) ls)) cs (seq o (length cs)) ->
  o + length cs <= length fa -> split_at fa o id -> id <= n ->
  exists out' id', fold_opt (simple_step u) cs (out, id) = Some (out', id') /\ id <= id' <= n /\
    split_at fa (o + length cs) id' /\ out' = out ++ flat_map (sel opts ls) (seq id (id' - id)).
Proof.
  intros U Nf fa. pose proof U as (_ & _ & W & N & Ld & Fd & Out & Df).
  destruct (fids_asc n (ou_ids u) W) as [As Bd]. fold fa in As, Bd.
  destruct (rows_at n (ou_ids u) ls W N) as [_ Rw]. fold fa in Rw.
  induction cs as [|c cs IH]; intros o out id F Ho Sp Hid; cbn [fold_opt length] in *.
  - exists out, id. split; [reflexivity|]. split; [lia|]. rewrite Nat.add_0_r. split; [exact Sp|].
    rewrite Nat.sub_diag. cbn [seq flat_map]. rewrite app_nil_r. reflexivity.
  - cbn [seq] in F. inversion F as [|? ? ? ? Hc F']; subst. destruct c as [[o' valid] r]. destruct Hc as (-> & Hv & Hr).
    cbn [simple_step]. rewrite (raw_rd n) by (auto; fold fa; lia). fold fa. cbn [bind].
    rewrite Rw in Hv, Hr by lia. set (x := nth o fa 0) in *.
    assert (Hx : x < n) by (rewrite Forall_forall in Bd; apply Bd, nth_In; lia).
    assert (Ix : id <= x). { specialize (Sp o ltac:(lia)). rewrite Nat.ltb_irrefl in Sp. exact Sp. }
    set (out1 := match ou_default u with Some d => out ++ map (fun i => (i, d)) (seq id (x - id)) | None => out end).
    destruct (IH (S o) (if valid then out1 ++ [(x, r)] else out1) (S x) F' ltac:(lia)
      ltac:(apply (split_next fa o id); auto; lia) ltac:(lia)) as (out' & id' & E & I1 & I3 & I4).
    exists out', id'. rewrite E. split; [reflexivity|]. split; [lia|]. split.
    + replace (o + S (length cs)) with (S o + length cs) by lia. exact I3.
    + rewrite I4. replace (id' - id) with ((x - id) + (1 + (id' - S x))) by lia. rewrite seq_app, flat_map_app, seq_app, flat_map_app.
      replace (id + (x - id)) with x by lia. rewrite Nat.add_1_r.
      assert (E1 : (if valid then out1 ++ [(x, r)] else out1) = out1 ++ flat_map (sel opts ls) (seq x 1)).
      { cbn [seq flat_map]. unfold sel, row_at. rewrite <- Hv. destruct valid; [rewrite (Hr eq_refl)|rewrite !app_nil_r]; reflexivity. }
      assert (E2 : out1 = out ++ flat_map (sel opts ls) (seq id (x - id))).
      { rewrite <- (sel_default n opts ls u id (x - id)); [|exact U|lia|].
        - unfold out1. destruct (ou_default u); [reflexivity|rewrite app_nil_r; reflexivity].
        - intros j Hj. apply (split_out fa o id); auto; fold x; lia. }
      rewrite E1, E2, <- !app_assoc. reflexivity.
Qed.
Lemma dense_calls0 n opts ls u k : u_ok n opts ls u -> k <= length (fids n (ou_ids u)) ->
  exists cs, iterate_from_zero false k (combine opts (ou_dense u)) = Some cs /\
    Forall2 (row_call opts (map (fun l => at_ids l (fids n (ou_ids u))) ls)) cs (seq 0 k).
Proof.
  intros (Sz & Op & W & N & Ld & Fd & Out & Df) H.
  destruct (rows_at n (ou_ids u) ls W N) as [N2 _].
  apply (rep_iterate_from_zero false (length (fids n (ou_ids u)))); auto; [|discriminate]. apply Forall2_map_r. exact Fd.
Qed.
Lemma iterate_simple_ok n opts ls u : u_ok n opts ls u -> (opts = [] -> ls = []) ->
  ou_iterate_simple u = Some (defined_rows opts ls 0 n).
Proof.
  intros U Ho0. pose proof U as (Sz & Op & W & N & Ld & Fd & Out & Df). unfold ou_iterate_simple, defined_rows. rewrite Op, Nat.sub_0_r.
  change (fun i : nat => match row_at opts ls i with Some r => [(i, r)] | None => [] end) with (sel opts ls).
  destruct opts as [|q opts']; [|remember (q :: opts') as opts eqn:Eo].
  - f_equal. rewrite Sz, (Ho0 eq_refl). generalize (seq 0 n). intros l. induction l as [|x l IH]; [reflexivity|]. cbn [map flat_map]. rewrite IH. reflexivity.
  - destruct (ou_ids u) as [| |ad l off] eqn:Ei.
    2:{ destruct (dense_calls0 n opts ls u n U) as (cs & Ec & Fc); [rewrite Ei; cbn [fids]; rewrite seq_length; lia|].
        rewrite Sz, Ec. cbn [bind]. f_equal.
        assert (Hlt : forall i, In i (seq 0 n) -> i < n) by (intros i Hi; apply in_seq in Hi; lia).
        destruct (rows_at n FFull ls I N) as [_ Rw]. cbn [fids] in Rw. rewrite seq_length in Rw. rewrite Ei in Fc. cbn [fids] in Fc.
        assert (Rw2 : forall i, i < n -> row (map (fun l => at_ids l (seq 0 n)) ls) i = row ls i).
        { intros i Hi. rewrite Rw by exact Hi. rewrite seq_nth by exact Hi. reflexivity. }
        clear Rw. revert Fc Hlt Rw2. generalize (map (fun l => at_ids l (seq 0 n)) ls) as ls'. intros ls' Fc Hlt Rw. revert Fc Hlt.
        generalize (seq 0 n) as is. clear -Rw.
        induction cs as [|c cs IH]; intros is Fc Hlt; inversion Fc as [|? i ? is' Hc Fc']; subst; [reflexivity|].
        destruct c as [[o v] r]. destruct Hc as (-> & Hv & Hr). assert (Hi : i < n) by (apply Hlt; left; reflexivity).
        rewrite Rw in Hv, Hr by exact Hi.
        cbn [flat_map]. rewrite (IH is' Fc') by (intros j Hj; apply Hlt; right; exact Hj).
        f_equal. unfold sel, row_at. rewrite <- Hv. destruct v; [rewrite (Hr eq_refl)|]; reflexivity. }
    all: rewrite <- Ei; assert (Nf : ou_ids u <> FFull) by (rewrite Ei; discriminate); rewrite <- Ei in W;
      set (fa := fids n (ou_ids u)) in *;
      assert (Lr : length (raw_ids (ou_ids u)) = length fa) by (unfold fa; rewrite (not_full_raw n _ Nf), map_length; reflexivity);
      rewrite Lr;
      destruct (dense_calls0 n opts ls u (length fa) U ltac:(fold fa; lia)) as (cs & Ec & Fc); fold fa in Fc; rewrite Ec; cbn [bind];
      (assert (Lc : length cs = length fa) by (apply F2_len in Fc; rewrite seq_length in Fc; exact Fc));
      rewrite <- Lc in Fc;
      (assert (S0 : split_at fa 0 0) by (intros p Hp; cbn; lia));
      destruct (simple_fold n opts ls u U Nf cs 0 [] 0 Fc ltac:(fold fa; lia) S0 ltac:(lia)) as (out & id & E & I1 & I3 & I4);
      rewrite E; cbn [bind]; f_equal; fold fa in I3; cbn [app Nat.add] in I3, I4; rewrite Nat.sub_0_r in I4;
      (assert (Hout : forall j, id <= j < n -> ~ In j fa) by
        (intros j Hj Hin; apply (In_nth _ _ 0) in Hin as (p & Hp & <-); specialize (I3 p Hp); replace (p <? length cs) with true in I3 by lia; lia));
      replace n with (id + (n - id)) at 1 by lia; rewrite seq_app, flat_map_app; cbn [Nat.add]; rewrite <- I4, Sz;
      rewrite <- (sel_default n opts ls u id (n - id)); [|exact U|lia|intros j Hj; apply Hout; lia];
      destruct (ou_default u); [reflexivity|rewrite app_nil_r; reflexivity].
Qed.

(** The estimate bounds the number of defined rows. *)
Lemma filter_len_mem (l : list nat) : forall n, NoDup l -> length (filter (fun i => mem i l) (seq 0 n)) <= length l.
Proof.
  intros n H. apply NoDup_incl_length; [apply NoDup_filter, seq_NoDup|].
  intros x Hx. apply filter_In in Hx as [_ M]. apply mem_In. exact M.
Qed.
Lemma asc_nodup l : ascending l -> NoDup l.
Proof.
  intros As. apply (NoDup_nth l 0). intros i j Hi Hj E. destruct (Nat.lt_trichotomy i j) as [L|[->|L]]; [|reflexivity|].
  - pose proof (As i j ltac:(lia)). lia.
  - pose proof (As j i ltac:(lia)). lia.
Qed.
Lemma defined_len opts ls from to : length (defined_rows opts ls from to) =
  length (filter (fun i => is_some (@row_at A opts ls i)) (seq from (to - from))).
Proof.
  unfold defined_rows. generalize (seq from (to - from)). intros l. induction l as [|x l IH]; [reflexivity|].
  cbn [flat_map filter]. rewrite app_length, IH. destruct (row_at opts ls x); reflexivity.
Qed.
Lemma filter_le {X} (f g : X -> bool) l : (forall x, In x l -> f x = true -> g x = true) -> length (filter f l) <= length (filter g l).
Proof.
  intros H. induction l as [|x l IH]; [reflexivity|]. cbn [filter]. assert (IH' := IH ltac:(intros y Hy; apply H; right; exact Hy)).
  destruct (f x) eqn:F; [rewrite (H x ltac:(left; reflexivity) F); cbn [length]; lia|]. destruct (g x); cbn [length]; lia.
Qed.
Lemma estimate_ok n opts ls u : u_ok n opts ls u ->
  length (defined_rows opts ls 0 n) <= ou_estimate u <= n.
Proof.
  intros U. pose proof U as (Sz & Op & W & N & Ld & Fd & Out & Df). rewrite defined_len, Nat.sub_0_r.
  assert (L : length (filter (fun i => is_some (row_at opts ls i)) (seq 0 n)) <= n).
  { rewrite <- (seq_length n 0) at 2. generalize (seq 0 n). intros l. induction l as [|x l IH]; [reflexivity|].
    cbn [filter length]. destruct (is_some _); cbn [length]; lia. }
  unfold ou_estimate. rewrite Op, Sz. destruct opts as [|q opts']; [lia|]. remember (q :: opts') as opts.
  assert (B : ou_ids u <> FFull -> length (raw_ids (ou_ids u)) = length (fids n (ou_ids u))).
  { intros Nf. rewrite (not_full_raw n _ Nf), map_length. reflexivity. }
  assert (B2 : length (fids n (ou_ids u)) <= n).
  { destruct (ou_ids u) as [| |ad li off]; cbn [fids]; [cbn; lia|rewrite seq_length; lia|]. rewrite map_length. cbn [fwf] in W. lia. }
  destruct (ou_default u) as [d|] eqn:D; [destruct (ou_ids u); lia|].
  assert (C : ou_ids u <> FFull -> length (filter (fun i => is_some (row_at opts ls i)) (seq 0 n)) <= length (fids n (ou_ids u))).
  { intros Nf. destruct (fids_asc n _ W) as [As _]. eapply Nat.le_trans; [|apply (filter_len_mem _ n), asc_nodup; exact As].
    apply filter_le. intros i Hi Q. apply in_seq in Hi. destruct (mem i (fids n (ou_ids u))) eqn:M; [reflexivity|].
    apply mem_false in M. rewrite Out in Q by (auto; lia). discriminate. }
  destruct (ou_ids u) as [| |ad li off] eqn:Ei; [|lia|]; rewrite <- Ei in *; rewrite <- (B ltac:(congruence)) in *; specialize (C ltac:(congruence)); lia.
Qed.

(** *** The constructor *)
Lemma dense_forms_ok n args ls : args_rep n args ls ->
  exists ds, dense_forms alloc allocw args = Some ds /\ Forall2 represents ds ls.
Proof.
  intros [F N]. induction F as [|a l args ls R _ IH]; cbn [dense_forms].
  - exists []. split; [reflexivity|constructor].
  - inversion N as [|? ? Nl N']; subst. destruct (IH N') as (ds & Ed & Fd).
    destruct (to_dense_ok alloc allocw HA HW a l R) as (r & Er & Rr & Ei).
    rewrite Er. cbn [bind]. rewrite Ed. cbn [bind]. exists (ar_data r :: ds). split; [reflexivity|].
    constructor; [|exact Fd]. apply ar_char in Rr as (_ & _ & _ & Rd & _). rewrite Ei in Rd.
    destruct (length l =? 0) eqn:Z; cbn [fids] in Rd.
    + apply Nat.eqb_eq in Z. destruct l; [exact Rd|discriminate].
    + rewrite at_ids_seq in Rd. exact Rd.
Qed.
Lemma no_bounds_defined opts args : length args = length opts -> any_bounds opts args = false ->
  row_defined opts (map ar_miss args) = true.
Proof.
  unfold row_defined, any_bounds. revert opts. induction args as [|a args IH]; intros [|q opts] Hl H; try discriminate; [reflexivity|].
  cbn [map combine forallb existsb fst snd] in *. apply orb_false_iff in H as [H1 H2]. rewrite IH by (auto; cbn in Hl; lia).
  rewrite andb_true_r. unfold bounds_ids in H1. destruct q; [reflexivity|]. cbn [orb negb andb] in *.
  unfold has_missing_id_value in H1. destruct (ar_miss a); [reflexivity|]. cbn [present_opt] in H1. rewrite andb_false_r in H1. discriminate.
Qed.
Lemma make_ok to_dense n opts args ls : args_rep n args ls -> length args = length opts ->
  exists u, ou_make alloc allocw addr to_dense n opts args = Some u /\ u_ok n opts ls u.
Proof.
  intros R Hl. pose proof R as [F N]. assert (L2 := F2_len _ _ _ F). unfold ou_make. destruct to_dense.
  - destruct (dense_forms_ok n args ls R) as (ds & Ed & Fd). rewrite Ed. cbn [bind]. eexists; split; [reflexivity|].
    assert (L3 := F2_len _ _ _ Fd).
    split; [reflexivity|]. split; [reflexivity|]. split; [exact I|]. split; [exact N|]. split; [cbn [ou_dense]; lia|].
    cbn [ou_ids ou_dense ou_default fids]. split; [|split; [|congruence]].
    + clear -Fd N. induction Fd as [|d l ds ls Rd _ IH]; [constructor|]. inversion N; subst. constructor; [|apply IH; assumption].
      rewrite at_ids_seq. exact Rd.
    + intros i Hi Hx. exfalso. apply Hx. apply in_seq. lia.
  - destruct args as [|a args'].
    + inversion F; subst. destruct opts; [|discriminate]. cbn. eexists; split; [reflexivity|].
      split; [reflexivity|]. split; [reflexivity|]. split; [exact I|]. split; [constructor|]. split; [reflexivity|].
      split; [constructor|]. split; [reflexivity|]. intros _ _. exists []. split; reflexivity.
    + destruct (align_ok n opts (a :: args') ls R Hl ltac:(discriminate)) as (ids & ds & E & (W & Fd & Out) & _ & _).
      rewrite E. cbn [bind fst snd]. eexists; split; [reflexivity|]. assert (L3 := F2_len _ _ _ Fd).
      split; [reflexivity|]. split; [reflexivity|]. split; [exact W|]. split; [exact N|]. split; [cbn [ou_dense]; lia|].
      cbn [ou_ids ou_dense ou_default]. split; [exact Fd|]. destruct (any_bounds opts (a :: args')) eqn:Bd.
      * split; [|congruence]. intros i Hi Hx. unfold row_at. rewrite (Out i Hi Hx). reflexivity.
      * assert (D := no_bounds_defined opts (a :: args') Hl Bd). split.
        -- intros i Hi Hx. unfold row_at. rewrite (Out i Hi Hx), D. reflexivity.
        -- intros _ _. eexists; split; [reflexivity|exact D].
Qed.
End P.
