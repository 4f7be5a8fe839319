(** Proofs about [DenseOps_Model]. *)
From Verif Require Import Base Bits_Model Bits_Proofs Bitmap_Model Bitmap_Proofs
  Dense_Model Dense_Spec Dense_Proofs DenseOps_Model DenseOps_Spec.

Section Args.
Context {A : Type}.
Implicit Types args : list (arg A).

Definition args_ok (no_offset : bool) (n : nat) args : Prop :=
  Forall (fun g => da_valid (snd g) /\ da_size (snd g) = n /\ (no_offset = true -> boff (snd g) = 0)) args.
Definition arg_row args (i : nat) : list (option A) := map (fun g => da_elem (snd g) i) args.
Definition arg_def args (i : nat) : bool :=
  forallb (fun g : arg A => fst g || is_some (da_elem (snd g) i)) args.

Lemma get_mask_ok no (a : darr A) g : da_valid a -> (no = true -> boff a = 0) ->
  exists x, get_mask no a g = Some x /\
    forall r, r < W -> g * W + r < da_size a -> tb x r = is_some (da_elem a (g * W + r)).
Proof.
  intros Hv Hno. assert (Hv' := Hv). destruct Hv' as (Ho & Hw & Hb).
  assert (G : exists x, get_word_with_offset (bmp a) g (boff a) = Some x /\
    forall r, r < W -> g * W + r < da_size a -> tb x r = is_some (da_elem a (g * W + r))).
  { destruct (get_word_with_offset_ok (bmp a) g (boff a) (words_ok _ Hw) Ho) as (x & E & H).
    exists x. split; [exact E|]. intros r Hr Hi. rewrite H by exact Hr.
    assert (Hp := da_elem_pres a (g * W + r) Hi). unfold is_some. rewrite <- Hp. clear Hp. unfold da_pres.
    destruct (bmp a) as [|b0 b'] eqn:Eb; [cbn [length]; replace (g <? 0) with false by lia; reflexivity|].
    rewrite <- Eb in *. destruct Hb as [Hb|Hb]; [congruence|].
    pose proof (bitmap_size_ge (length (vals a) + boff a)). unfold da_size in Hi.
    replace (g <? length (bmp a)) with true by lia. f_equal. lia. }
  destruct no; [|exact G]. destruct G as (x & E & H). exists x. split; [|exact H]. clear H.
  rewrite (Hno eq_refl) in E. unfold get_mask, get_word. unfold get_word_with_offset in E.
  destruct (length (bmp a) <=? g); [exact E|]. destruct (rd (bmp a) g) as [y|]; [|discriminate].
  cbn [bind] in E. unfold wshr in E. replace (0 <? W) with true in E by lia. cbn [bind] in E.
  change (N.of_nat 0) with 0%N in E. rewrite N.shiftr_0_r in E. exact E.
Qed.

Lemma intersect_masks_ok no n args g : args_ok no n args ->
  exists m, intersect_masks no g args = Some m /\ wok W m /\
    forall r, r < W -> g * W + r < n -> tb m r = arg_def args (g * W + r).
Proof.
  induction 1 as [|[opt a] args (Hv & Hs & Hno) _ (m & E & Hm & H)]; cbn [intersect_masks snd] in *.
  - exists full_word. split; [reflexivity|]. split; [apply wok_ones|]. intros r Hr _.
    unfold full_word. rewrite tb_ones. cbn [arg_def forallb]. lia.
  - destruct (get_mask_ok no a g Hv Hno) as (x & Ex & Hx). rewrite Ex, E.
    exists (N.land (if opt then full_word else x) m). split; [destruct opt; reflexivity|]. split.
    + rewrite N.land_comm. apply wok_land. exact Hm.
    + intros r Hr Hi. rewrite tb_land, H by assumption. unfold arg_def. cbn [forallb fst snd]. f_equal.
      destruct opt; cbn [orb]; [unfold full_word; rewrite tb_ones; lia|]. apply Hx; [exact Hr|]. rewrite Hs. exact Hi.
Qed.

Lemma create_getters_ok no n args g : args_ok no n args ->
  exists gs, create_getters no g args = Some gs /\
    forall i, i < W -> g * W + i < n -> exists r, getters_get gs g i = Some r /\
      (arg_def args (g * W + i) = true -> r = arg_row args (g * W + i)).
Proof.
  induction 1 as [|[opt a] args (Hv & Hs & Hno) _ (gs & E & H)]; cbn [create_getters snd] in *.
  - exists []. split; [reflexivity|]. intros i Hi Hn. exists []. split; reflexivity.
  - destruct (get_mask_ok no a g Hv Hno) as (x & Ex & Hx). rewrite Ex, E.
    exists ((if opt then Some x else None, a) :: gs). split; [destruct opt; reflexivity|].
    intros i Hi Hn. destruct (H i Hi Hn) as (r & Er & Hr). cbn [getters_get].
    destruct (rd_lt (vals a) (g * W + i)) as [v Ev]; [unfold da_size in Hs; lia|].
    rewrite Ev, Er. cbn [bind]. eexists. split; [reflexivity|].
    unfold arg_def, arg_row in *. cbn [forallb map fst snd]. rewrite andb_true_iff. intros [H1 H2].
    rewrite (Hr H2). f_equal. assert (Hd : da_elem a (g * W + i) = if da_pres a (g * W + i) then Some v else None).
    { unfold da_elem. rewrite Ev. reflexivity. }
    destruct opt.
    + rewrite Hx by lia. rewrite Hd. destruct (da_pres a (g * W + i)); reflexivity.
    + cbn [orb] in H1. destruct (da_elem a (g * W + i)) eqn:Ed; [|discriminate].
      destruct (da_pres a (g * W + i)); congruence.
Qed.

(** ** Iterate *)
(** The call for row [i]: identifier, validity and, if valid, the row. *)
Definition call_ok args (c : nat * bool * list (option A)) (i : nat) : Prop :=
  fst (fst c) = i /\ snd (fst c) = arg_def args i /\ (arg_def args i = true -> snd c = arg_row args i).

Lemma group_fn_ok no n args g lf lt : args_ok no n args -> lf <= lt -> lt <= W -> g * W + lt <= n \/ lf = lt ->
  exists cs, group_fn no args g lf lt = Some cs /\ Forall2 (call_ok args) cs (seq (g * W + lf) (lt - lf)).
Proof.
  intros Hok H1 H2 H3. unfold group_fn.
  destruct (intersect_masks_ok no n args g Hok) as (m & Em & _ & Hm). rewrite Em. cbn [bind].
  destruct (create_getters_ok no n args g Hok) as (gs & Eg & Hg). rewrite Eg. cbn [bind].
  remember (lt - lf) as k eqn:Ek. revert lf H1 H3 Ek. induction k as [|k IH]; intros lf H1 H3 Ek; cbn [group_calls].
  - exists []. split; [reflexivity|constructor].
  - destruct (Hg lf) as (r & Er & Hr); [lia..|]. rewrite Er. cbn [bind].
    destruct (IH (S lf)) as (cs & E & F); [lia..|]. rewrite E. cbn [bind].
    eexists. split; [reflexivity|]. cbn [seq]. constructor.
    + split; [reflexivity|]. cbn [fst snd]. split; [apply Hm; lia|exact Hr].
    + rewrite <- plus_n_Sm in F. exact F.
Qed.

Lemma Forall2_app' {X Y} (P : X -> Y -> Prop) a b c d : Forall2 P a c -> Forall2 P b d -> Forall2 P (a ++ b) (c ++ d).
Proof. intros H1 H2. apply Forall2_app; assumption. Qed.

Lemma full_groups_ok no n args : args_ok no n args -> forall k g, k = 0 \/ (g + k) * W <= n ->
  exists cs, full_groups no args g k = Some cs /\ Forall2 (call_ok args) cs (seq (g * W) (k * W)).
Proof.
  intros Hok. induction k as [|k IH]; intros g Hg; cbn [full_groups].
  - exists []. split; [reflexivity|constructor].
  - destruct (group_fn_ok no n args g 0 W Hok) as (c & E & F); [lia..|]. rewrite E. cbn [bind].
    destruct (IH (S g)) as (t & Et & Ft); [lia|]. rewrite Et. cbn [bind].
    eexists. split; [reflexivity|]. replace (S k * W) with (W + k * W) by lia. rewrite seq_app.
    apply Forall2_app; [rewrite Nat.add_0_r, Nat.sub_0_r in F; exact F|].
    replace (g * W + W) with (S g * W) by lia. exact Ft.
Qed.

Lemma ops_iterate_ok no n args from to : args_ok no n args -> from <= to <= n ->
  exists cs, ops_iterate no from to args = Some cs /\ Forall2 (call_ok args) cs (seq from (to - from)).
Proof.
  intros Hok Hft. unfold ops_iterate.
  destruct (divmod W from H32) as [Ef Lf]. destruct (divmod W to H32) as [Et Lt].
  set (w0 := from / W) in *. set (lf := from mod W) in *. set (w1 := to / W) in *. set (lt := to mod W) in *.
  clearbody w0 lf w1 lt.
  assert (H1 : exists c w, (if 0 <? lf then
      let? c := group_fn no args w0 lf (Nat.min (to - from + lf) W) in Some (c, S w0) else Some ([], w0)) = Some (c, w) /\
    Forall2 (call_ok args) c (seq from (Nat.min to (w * W) - from)) /\ from <= w * W /\ w <= S w1 /\
    (w = S w1 -> to <= w * W)).
  { destruct (Nat.ltb_spec 0 lf) as [L|L].
    - destruct (group_fn_ok no n args w0 lf (Nat.min (to - from + lf) W) Hok) as (c & E & F); [lia..|].
      rewrite E. cbn [bind]. exists c, (S w0). split; [reflexivity|]. split; [|lia].
      replace (w0 * W + lf) with from in F by lia.
      replace (Nat.min to (S w0 * W) - from) with (Nat.min (to - from + lf) W - lf) by lia. exact F.
    - exists [], w0. split; [reflexivity|]. replace (Nat.min to (w0 * W) - from) with 0 by lia.
      split; [constructor|]. lia. }
  destruct H1 as (c & w & E1 & F1 & B1 & B2 & B3). rewrite E1. cbn [bind fst snd].
  destruct (full_groups_ok no n args Hok (w1 - w) w) as (mid & E2 & F2); [lia|]. rewrite E2. cbn [bind].
  set (w2 := Nat.max w w1).
  assert (H3 : exists l, (if 0 <? to - w2 * W then group_fn no args w2 0 (to - w2 * W) else Some []) = Some l /\
    Forall2 (call_ok args) l (seq (w2 * W) (to - w2 * W))).
  { destruct (Nat.ltb_spec 0 (to - w2 * W)) as [L|L].
    - destruct (group_fn_ok no n args w2 0 (to - w2 * W) Hok) as (l & E & F); [lia..|]. exists l.
      split; [exact E|]. rewrite Nat.add_0_r, Nat.sub_0_r in F. exact F.
    - exists []. split; [reflexivity|]. replace (to - w2 * W) with 0 by lia. constructor. }
  destruct H3 as (l & E3 & F3). rewrite E3. cbn [bind]. eexists. split; [reflexivity|].
  replace (to - from) with ((Nat.min to (w * W) - from) + ((w1 - w) * W + (to - w2 * W))) by lia.
  rewrite !seq_app. apply Forall2_app; [exact F1|]. apply Forall2_app.
  - destruct (Nat.eq_dec (w1 - w) 0) as [Z|Z]; [rewrite Z in *; exact F2|].
    replace (from + (Nat.min to (w * W) - from)) with (w * W) by lia. exact F2.
  - destruct (Nat.eq_dec (to - w2 * W) 0) as [Z|Z]; [rewrite Z in *; exact F3|].
    replace (from + (Nat.min to (w * W) - from) + (w1 - w) * W) with (w2 * W) by lia. exact F3.
Qed.

Lemma iterate_from_zero_ok no n args to : args_ok no n args -> to <= n ->
  exists cs, iterate_from_zero no to args = Some cs /\ Forall2 (call_ok args) cs (seq 0 to).
Proof.
  intros Hok Hn. unfold iterate_from_zero.
  assert (G : forall fuel k, k * W <= to + W -> to < k * W + fuel -> exists cs,
    iterate_from_zero_loop no args fuel (k * W) to = Some cs /\ Forall2 (call_ok args) cs (seq (k * W) (to - k * W))).
  { induction fuel as [|fuel IH]; intros k H1 H2; cbn [iterate_from_zero_loop].
    - exists []. split; [reflexivity|]. replace (to - k * W) with 0 by lia. constructor.
    - destruct (Nat.ltb_spec (k * W) to) as [L|L].
      + rewrite Nat.div_mul by lia.
        destruct (group_fn_ok no n args k 0 (Nat.min W (to - k * W)) Hok) as (c & E & F); [lia..|].
        rewrite E. cbn [bind]. replace (k * W + W) with (S k * W) by lia.
        destruct (IH (S k)) as (t & Et & Ft); [lia..|]. rewrite Et. cbn [bind].
        eexists. split; [reflexivity|]. rewrite Nat.add_0_r, Nat.sub_0_r in F.
        replace (to - k * W) with (Nat.min W (to - k * W) + (to - S k * W)) at 1 by lia.
        rewrite seq_app. apply Forall2_app; [exact F|].
        destruct (Nat.eq_dec (to - S k * W) 0) as [Z|Z]; [rewrite Z in *; exact Ft|].
        replace (k * W + Nat.min W (to - k * W)) with (S k * W) by lia. exact Ft.
      + exists []. split; [reflexivity|]. replace (to - k * W) with 0 by lia. constructor. }
  destruct (G (S to) 0) as (cs & E & F); [lia..|]. exists cs. split; [exact E|].
  rewrite Nat.mul_0_l, Nat.sub_0_r in F. exact F.
Qed.
End Args.

(** ** Universal implementation *)
Lemma collect_app {X E} (a b : list (E + X)) : collect (a ++ b) =
  match collect a with inl e => inl e | inr x => match collect b with inl e => inl e | inr y => inr (x ++ y) end end.
Proof.
  induction a as [|[e|x] a IH]; cbn [app collect]; [destruct (collect b); reflexivity|reflexivity|].
  rewrite IH. destruct (collect a); [reflexivity|]. destruct (collect b); reflexivity.
Qed.
Lemma collect_len {X E} (a : list (E + X)) l : collect a = inr l -> length l = length a.
Proof.
  revert l; induction a as [|[e|x] a IH]; intros l H; cbn [collect] in H; [injection H as <-; reflexivity|discriminate|].
  destruct (collect a); [discriminate|]. injection H as <-. cbn [length]. f_equal. apply IH. reflexivity.
Qed.

Section Uni.
Context {A B E : Type}.
Variable f : fn A B E.
Hypothesis Hf : fn_ok f.
Variables (skip no : bool) (n : nat) (args : list (arg A)).
Hypothesis Hok : args_ok no n args.
Hypothesis Hopts : map fst args = fn_opts f.

Definition out (i : nat) : E + option B := row_result f (arg_row args i).

Lemma row_defined_args i : row_defined (fn_opts f) (arg_row args i) = arg_def args i.
Proof.
  rewrite <- Hopts. unfold row_defined, arg_row, arg_def. clear. induction args as [|[o a] t IH]; [reflexivity|].
  cbn [map combine forallb fst snd]. rewrite IH. reflexivity.
Qed.

Definition outs (lo k : nat) : E + list (option B) := collect (map out (seq lo k)).

(** Values and presence of the outputs in a range of rows. *)
Definition vals_hold (vs : list B) (lo : nat) (l : list (option B)) : Prop :=
  forall r v, nth r l None = Some v -> rd vs (lo + r) = Some v.

Lemma eval_group_ok gs g c : create_getters no g args = Some gs -> c <= W -> g * W + c <= n ->
  forall k i mask vs, i + k = c -> length vs = n -> wok W mask ->
  (forall r, i <= r < c -> tb mask r = arg_def args (g * W + r)) ->
  match outs (g * W + i) k with
  | inl e => eval_group f skip gs g mask vs i k = Some (inl e)
  | inr l => exists mask' vs', eval_group f skip gs g mask vs i k = Some (inr (mask', vs')) /\
      wok W mask' /\ length vs' = n /\ length l = k /\
      (forall r, tb mask' r = if (i <=? r) && (r <? c) then is_some (nth (r - i) l None) else tb mask r) /\
      (forall j, ~ (g * W + i <= j < g * W + c) -> rd vs' j = rd vs j) /\
      vals_hold vs' (g * W + i) l
  end.
Proof.
  intros Eg Hc Hn.
  destruct (create_getters_ok no n args g Hok) as (gs' & Eg' & Hg). rewrite Eg in Eg'. injection Eg' as <-.
  induction k as [|k IH]; intros i mask vs Hi Lv Hw Hm; cbn [eval_group].
  - unfold outs. cbn [seq map collect]. exists mask, vs. split; [reflexivity|]. split; [exact Hw|].
    split; [exact Lv|]. split; [reflexivity|]. split.
    + intros r. replace ((i <=? r) && (r <? c)) with false by lia. reflexivity.
    + split; [reflexivity|]. intros r v. destruct r; discriminate.
  - unfold outs. cbn [seq map collect]. fold (outs (S (g * W + i)) k).
    destruct (wshl_def W 1 i) as [bit Eb]; [lia|]. rewrite Eb. cbn [bind].
    assert (Hbit : forall r, tb bit r = (r =? i)).
    { intros r. rewrite (tb_wshl _ _ _ _ _ Eb), tb_1. lia. }
    assert (Hz : (N.land mask bit =? 0)%N = negb (tb mask i)).
    { destruct (tb mask i) eqn:Et; cbn [negb].
      - apply N.eqb_neq. intros H0. assert (Hx : tb (N.land mask bit) i = false) by (rewrite H0; apply tb_0).
        rewrite tb_land, Et, Hbit, Nat.eqb_refl in Hx. discriminate.
      - apply N.eqb_eq, tb_inj. intros r. rewrite tb_land, Hbit, tb_0.
        destruct (Nat.eqb_spec r i) as [->|]; [rewrite Et; reflexivity|apply andb_false_r]. }
    rewrite Hz, (Hm i) by lia. replace (S (g * W + i)) with (g * W + S i) by lia.
    destruct (Hg i) as (rw & Er & Hr); [lia..|].
    (* generic continuation: the row's result is [o], the updated state fits it *)
    assert (Step : forall o mask1 vs1, out (g * W + i) = inr o -> length vs1 = n -> wok W mask1 ->
      (forall r, tb mask1 r = if r =? i then is_some o else tb mask r) ->
      (forall j, j <> g * W + i -> rd vs1 j = rd vs j) ->
      (forall v, o = Some v -> rd vs1 (g * W + i) = Some v) ->
      match (match out (g * W + i) with inl e => inl e | inr x =>
               match outs (g * W + S i) k with inl e => inl e | inr r => inr (x :: r) end end) with
        | inl e => eval_group f skip gs g mask1 vs1 (S i) k = Some (inl e)
        | inr l => exists mask' vs', eval_group f skip gs g mask1 vs1 (S i) k = Some (inr (mask', vs')) /\
            wok W mask' /\ length vs' = n /\ length l = S k /\
            (forall r, tb mask' r = if (i <=? r) && (r <? c) then is_some (nth (r - i) l None) else tb mask r) /\
            (forall j, ~ (g * W + i <= j < g * W + c) -> rd vs' j = rd vs j) /\
            vals_hold vs' (g * W + i) l
        end).
    { intros o mask1 vs1 Ho L1 W1 M1 V1 O1. rewrite Ho.
      specialize (IH (S i) mask1 vs1).
      destruct (outs (g * W + S i) k) as [e|l] eqn:Eo.
      - apply IH; [lia|exact L1|exact W1|]. intros r Hr'. rewrite M1. replace (r =? i) with false by lia. apply Hm. lia.
      - destruct IH as (mask' & vs' & E' & W' & L' & Ll & M' & V' & O'); [lia|exact L1|exact W1| |].
        { intros r Hr'. rewrite M1. replace (r =? i) with false by lia. apply Hm. lia. }
        exists mask', vs'. split; [exact E'|]. split; [exact W'|]. split; [exact L'|]. split; [cbn [length]; lia|].
        split; [|split].
        + intros r. rewrite M', M1. destruct (Nat.eqb_spec r i) as [->|Nr].
          * replace ((S i <=? i) && _) with false by lia. replace ((i <=? i) && (i <? c)) with true by lia.
            rewrite Nat.sub_diag. reflexivity.
          * replace ((i <=? r) && (r <? c)) with ((S i <=? r) && (r <? c)) by lia.
            destruct ((S i <=? r) && (r <? c)) eqn:Ec; [|reflexivity].
            replace (r - i) with (S (r - S i)) by lia. reflexivity.
        + intros j Hj. rewrite V' by lia. apply V1. lia.
        + intros r v Hrv. destruct r as [|r]; cbn [nth] in Hrv.
          * rewrite Nat.add_0_r. rewrite V' by lia. apply O1. exact Hrv.
          * replace (g * W + i + S r) with (g * W + S i + r) by lia. apply O'. exact Hrv. }
    destruct (arg_def args (g * W + i)) eqn:Ed; cbn [negb].
    + (* valid row *)
      rewrite andb_false_r. rewrite Er. cbn [bind]. rewrite (Hr eq_refl).
      assert (Hout : out (g * W + i) = match fn_eval f (arg_row args (g * W + i)) with
          inl e => inl e | inr (p, v) => inr (if p then Some v else None) end).
      { unfold out, row_result. rewrite row_defined_args, Ed. reflexivity. }
      destruct (fn_eval f (arg_row args (g * W + i))) as [e|[p v]] eqn:Ef.
      * rewrite Hout. reflexivity.
      * destruct (upd_lt vs (g * W + i) v) as [vs1 E1]; [lia|]. rewrite E1. cbn [bind].
        apply upd_spec in E1 as (_ & L1 & R1).
        apply (Step (if p then Some v else None)); [exact Hout|lia| | | |].
        -- destruct (fn_opt_res f); [apply wok_land; exact Hw|exact Hw].
        -- intros r. destruct (fn_opt_res f) eqn:Eor.
           ++ rewrite tb_land. destruct p; cbn [is_some].
              ** unfold full_word. rewrite tb_ones. destruct (Nat.eqb_spec r i) as [->|Nr].
                 --- rewrite Hm, Ed by lia. lia.
                 --- destruct (Nat.ltb_spec r W) as [L|L]; [apply andb_true_r|]. rewrite Hw by exact L. reflexivity.
              ** rewrite tb_wnot, Hbit. destruct (Nat.eqb_spec r i) as [->|Nr]; cbn [negb].
                 --- rewrite andb_false_r, andb_false_r. reflexivity.
                 --- destruct (Nat.ltb_spec r W) as [L|L]; [apply andb_true_r|]. rewrite Hw by exact L. reflexivity.
           ++ rewrite (proj2 Hf Eor _ _ _ Ef). cbn [is_some]. destruct (Nat.eqb_spec r i) as [->|Nr]; [|reflexivity].
              rewrite Hm by lia. exact Ed.
        -- intros j Hj. rewrite R1. replace (j =? g * W + i) with false by lia. reflexivity.
        -- intros v' Hv'. rewrite R1, Nat.eqb_refl. destruct p; congruence.
    + (* missing row *)
      assert (Hout : out (g * W + i) = inr None).
      { unfold out, row_result. rewrite row_defined_args, Ed. reflexivity. }
      rewrite andb_true_r. destruct (skip || fn_status f) eqn:Es.
      * apply (Step None); [exact Hout|exact Lv|exact Hw| |reflexivity|discriminate].
        intros r. destruct (Nat.eqb_spec r i) as [->|Nr]; [|reflexivity]. rewrite Hm by lia. exact Ed.
      * rewrite Er. cbn [bind]. apply orb_false_iff in Es as [_ Es].
        destruct (proj1 Hf Es rw) as [[p v] Ef]. rewrite Ef.
        destruct (upd_lt vs (g * W + i) v) as [vs1 E1]; [lia|]. rewrite E1. cbn [bind].
        apply upd_spec in E1 as (_ & L1 & R1).
        apply (Step None); [exact Hout|lia| | | |discriminate].
        -- destruct (fn_opt_res f); [apply wok_land; exact Hw|exact Hw].
        -- intros r. assert (Hmi : tb mask i = false) by (rewrite Hm by lia; exact Ed). destruct (fn_opt_res f).
           ++ rewrite tb_land. destruct p.
              ** unfold full_word. rewrite tb_ones. destruct (Nat.eqb_spec r i) as [->|Nr]; [rewrite Hmi; reflexivity|].
                 destruct (Nat.ltb_spec r W) as [L|L]; [apply andb_true_r|]. rewrite Hw by exact L. reflexivity.
              ** rewrite tb_wnot, Hbit. destruct (Nat.eqb_spec r i) as [->|Nr]; cbn [negb]; [rewrite Hmi; reflexivity|].
                 destruct (Nat.ltb_spec r W) as [L|L]; [apply andb_true_r|]. rewrite Hw by exact L. reflexivity.
           ++ destruct (Nat.eqb_spec r i) as [->|Nr]; [exact Hmi|reflexivity].
        -- intros j Hj. rewrite R1. replace (j =? g * W + i) with false by lia. reflexivity.
Qed.

(** Words [acc] hold the presence of the outputs [l], [vs] their values. *)
Definition state_ok (vs : list B) (acc : list N) (full : bool) (l : list (option B)) : Prop :=
  length vs = n /\ Forall (wok W) acc /\ vals_hold vs 0 l /\
  (forall j, j < length l -> bt acc j = is_some (nth j l None)) /\
  (full = true -> Forall (fun o => is_some o = true) l).

Lemma nth_is_some_all (l : list (option B)) : Forall (fun o => is_some o = true) l <->
  forall j, j < length l -> is_some (nth j l None) = true.
Proof.
  rewrite Forall_forall. split.
  - intros H j Hj. apply H, nth_In, Hj.
  - intros H o Ho. apply In_nth with (d := None) in Ho as (j & Hj & <-). apply H, Hj.
Qed.

Lemma bt_snoc acc m j : length acc * W <= j < S (length acc) * W -> bt (acc ++ [m]) j = tb m (j - length acc * W).
Proof.
  intros H. replace j with (W * length acc + (j - length acc * W)) at 1 by lia.
  apply bt_at; [|lia]. unfold rd. rewrite nth_error_app2 by lia. rewrite Nat.sub_diag. reflexivity.
Qed.
Lemma bt_app1 acc m j : j < length acc * W -> bt (acc ++ [m]) j = bt acc j.
Proof.
  intros H. unfold bit, get_bit, rd. destruct (divmod W j H32).
  rewrite nth_error_app1 by lia. reflexivity.
Qed.

Lemma state_step vs acc full l m vs' l2 full' : length l = length acc * W -> 0 < length l2 <= W ->
  state_ok vs acc full l -> wok W m -> length vs' = n ->
  (forall r, r < length l2 -> tb m r = is_some (nth r l2 None)) ->
  (forall j, j < length l -> rd vs' j = rd vs j) -> vals_hold vs' (length l) l2 ->
  (full' = true -> full = true /\ forall r, r < length l2 -> tb m r = true) ->
  state_ok vs' (acc ++ [m]) full' (l ++ l2).
Proof.
  intros Ll L2 (Lv & Fa & Va & Pa & Fu) Hm Lv' Hp Hv Hv2 Hfull.
  split; [exact Lv'|]. split; [apply Forall_app; split; [exact Fa|constructor; [exact Hm|constructor]]|].
  split; [|split].
  - intros r v Hr. destruct (Nat.lt_ge_cases r (length l)) as [L|L].
    + rewrite app_nth1 in Hr by exact L. cbn [Nat.add]. rewrite Hv by exact L. apply (Va r v Hr).
    + rewrite app_nth2 in Hr by exact L. replace (0 + r) with (length l + (r - length l)) by lia. apply Hv2, Hr.
  - intros j Hj. rewrite app_length in Hj. destruct (Nat.lt_ge_cases j (length l)) as [L|L].
    + rewrite app_nth1 by exact L. rewrite bt_app1 by lia. apply Pa, L.
    + rewrite app_nth2 by exact L. rewrite bt_snoc by lia. rewrite <- Ll. apply Hp. lia.
  - intros Hf1. destruct (Hfull Hf1) as [Hf2 Hf3]. apply Forall_app. split; [apply Fu, Hf2|].
    apply nth_is_some_all. intros j Hj. rewrite <- Hp by exact Hj. apply Hf3, Hj.
Qed.

Lemma universal_groups_ok k : forall g vs acc full l, (g + k) * W <= n -> length acc = g -> length l = g * W ->
  state_ok vs acc full l ->
  match outs (g * W) (k * W) with
  | inl e => universal_groups f skip no args g k vs acc full = Some (inl e)
  | inr l2 => exists vs' acc' full', universal_groups f skip no args g k vs acc full = Some (inr (vs', acc', full')) /\
      length acc' = g + k /\ length l2 = k * W /\ state_ok vs' acc' full' (l ++ l2)
  end.
Proof.
  induction k as [|k IH]; intros g vs acc full l Hn La Ll Hst; cbn [universal_groups].
  - unfold outs. cbn [Nat.mul seq map collect]. exists vs, acc, full. rewrite app_nil_r.
    split; [reflexivity|]. split; [lia|]. split; [reflexivity|exact Hst].
  - destruct (intersect_masks_ok no n args g Hok) as (m & Em & Wm & Hm). rewrite Em. cbn [bind].
    unfold outs. replace (S k * W) with (W + k * W) by lia. rewrite seq_app, map_app, collect_app.
    fold (outs (g * W) W). replace (g * W + W) with (S g * W) by lia. fold (outs (S g * W) (k * W)).
    assert (Hev : match outs (g * W) W with
      | inl e => (if (m =? 0)%N then Some (inr (m, vs))
                else let? gs := create_getters no g args in eval_group f skip gs g m vs 0 W) = Some (inl e)
      | inr l1 => exists mask' vs', (if (m =? 0)%N then Some (inr (m, vs))
                else let? gs := create_getters no g args in eval_group f skip gs g m vs 0 W) = Some (inr (mask', vs')) /\
          length l1 = W /\ forall full, state_ok vs acc full l ->
            state_ok vs' (acc ++ [mask']) (full && (mask' =? full_word)%N) (l ++ l1)
      end).
    { assert (Hlen : length vs = n) by apply Hst.
      destruct (create_getters_ok no n args g Hok) as (gs & Egs & _).
      destruct (N.eqb_spec m 0) as [Z|Z].
      - assert (Hnone : forall j c, outs (g * W + j) c = inr (repeat None c) \/ j + c > W).
        { intros j c. revert j. induction c as [|c IHc]; intros j; [left; reflexivity|].
          destruct (Nat.lt_ge_cases W (j + S c)) as [L|L]; [right; lia|left].
          unfold outs. cbn [seq map collect]. replace (S (g * W + j)) with (g * W + S j) by lia.
          fold (outs (g * W + S j) c). destruct (IHc (S j)) as [->|]; [|lia].
          unfold out, row_result. rewrite row_defined_args, <- Hm by lia. rewrite Z, tb_0. reflexivity. }
        destruct (Hnone 0 W) as [Hn0|]; [|lia]. rewrite Nat.add_0_r in Hn0. rewrite Hn0.
        exists m, vs. split; [reflexivity|]. split; [apply repeat_length|]. intros fu Hs.
        eapply state_step; [rewrite La; exact Ll| |exact Hs|exact Wm|exact Hlen| | | |].
        + rewrite repeat_length. lia.
        + intros r Hr. rewrite repeat_length in Hr. rewrite repeat_nth by exact Hr. rewrite Z. apply tb_0.
        + reflexivity.
        + intros r v Hr. exfalso. destruct (Nat.lt_ge_cases r W) as [L|L].
          * rewrite repeat_nth in Hr by exact L. discriminate.
          * rewrite nth_overflow in Hr by (rewrite repeat_length; exact L). discriminate.
        + rewrite Z. change (0 =? full_word)%N with false. rewrite andb_false_r. discriminate.
      - rewrite Egs. cbn [bind].
        pose proof (eval_group_ok gs g W Egs (le_n _)) as Hg.
        specialize (Hg ltac:(lia) W 0 m vs eq_refl Hlen Wm). rewrite Nat.add_0_r in Hg.
        specialize (Hg ltac:(intros r Hr; apply Hm; lia)).
        destruct (outs (g * W) W) as [e|l1]; [exact Hg|].
        destruct Hg as (mask' & vs' & E' & W' & L' & Ll1 & M' & V' & O').
        exists mask', vs'. split; [exact E'|]. split; [exact Ll1|]. intros fu Hs.
        eapply state_step; [rewrite La; exact Ll| |exact Hs|exact W'|exact L'| | | |].
        + rewrite Ll1. lia.
        + intros r Hr. rewrite M', Nat.sub_0_r. replace ((0 <=? r) && (r <? W)) with true by lia. reflexivity.
        + intros j Hj. apply V'. lia.
        + rewrite Ll. exact O'.
        + intros Hfu. apply andb_true_iff in Hfu as [-> Hfu]. split; [reflexivity|]. intros r Hr.
          apply N.eqb_eq in Hfu. rewrite Hfu. unfold full_word. rewrite tb_ones. lia. }
    destruct (outs (g * W) W) as [e|l1].
    + rewrite Hev. reflexivity.
    + destruct Hev as (mask' & vs' & E' & Ll1 & S'). rewrite E'. cbn [bind].
      specialize (IH (S g) vs' (acc ++ [mask']) (full && (mask' =? full_word)%N) (l ++ l1)).
      destruct (outs (S g * W) (k * W)) as [e|l2] eqn:Eo2.
      * apply IH; [lia| | |apply S', Hst].
        -- rewrite app_length, La. cbn [length]. lia.
        -- rewrite app_length. lia.
      * destruct IH as (vs2 & acc2 & full2 & E2 & La2 & Ll2 & S2).
        -- lia.
        -- rewrite app_length, La. cbn [length]. lia.
        -- rewrite app_length. lia.
        -- apply S', Hst.
        -- exists vs2, acc2, full2. split; [exact E2|]. split; [lia|].
           split; [rewrite app_length; lia|]. rewrite app_assoc. exact S2.
Qed.

(** The finished array of a state. *)
Lemma state_array vs acc full l : state_ok vs acc full l -> length l = n -> length acc = bitmap_size n ->
  represents (mkD vs (if full then [] else acc) 0) l.
Proof.
  intros (Lv & Fa & Va & Pa & Fu) Ll La. apply represents_elem. split; [|split].
  - split; [cbn; lia|]. cbn [bmp vals boff]. destruct full.
    + split; [constructor|left; reflexivity].
    + split; [apply wok_words; exact Fa|]. right. rewrite La, Lv, Nat.add_0_r. reflexivity.
  - unfold da_size. cbn [vals]. lia.
  - intros i Hi. unfold da_elem. cbn [vals]. destruct (rd_lt vs i) as [x Ex]; [lia|]. rewrite Ex.
    assert (Hp : da_pres (mkD vs (if full then [] else acc) 0) i = is_some (nth i l None)).
    { unfold da_pres. cbn [bmp boff]. destruct full.
      - symmetry. apply (proj1 (nth_is_some_all l) (Fu eq_refl)). exact Hi.
      - rewrite <- Pa by exact Hi. pose proof (bitmap_size_ge n).
        destruct acc as [|a0 t] eqn:Ea; [cbn [length] in La; lia|]. rewrite <- Ea. rewrite Nat.add_0_r. reflexivity. }
    rewrite Hp. destruct (nth i l None) as [v|] eqn:En; [|reflexivity]. cbn [is_some].
    rewrite <- Ex. exact (Va i v En).
Qed.

Lemma universal_op_ok mem : args <> [] -> length mem = n ->
  match outs 0 n with
  | inl e => universal_op f skip no args mem = Some (inl e)
  | inr l => exists r, universal_op f skip no args mem = Some (inr r) /\ represents r l
  end.
Proof.
  intros Hne Lm. unfold universal_op.
  assert (Hs : match args with [] => 0 | (_, a) :: _ => da_size a end = n).
  { destruct args as [|[o a] t]; [contradiction|]. inversion Hok as [|? ? H _]; subst. apply H. }
  rewrite Hs. destruct (divmod W n H32) as [En Ln]. set (q := n / W) in *. set (o := n mod W) in *.
  pose proof (universal_groups_ok q 0 mem [] true []) as Hg.
  specialize (Hg ltac:(lia) eq_refl eq_refl). cbn [Nat.mul app] in Hg.
  assert (H0 : state_ok mem [] true []).
  { split; [exact Lm|]. split; [constructor|]. split; [intros r v; destruct r; discriminate|].
    split; [intros j Hj; cbn [length] in Hj; lia|constructor]. }
  specialize (Hg H0).
  assert (Hsplit : outs 0 n = match outs 0 (q * W) with inl e => inl e | inr x =>
      match outs (q * W) o with inl e => inl e | inr y => inr (x ++ y) end end).
  { unfold outs. rewrite <- collect_app, <- map_app, <- seq_app. f_equal. f_equal. f_equal. lia. }
  rewrite Hsplit. destruct (outs 0 (q * W)) as [e|l1]; [rewrite Hg; reflexivity|].
  destruct Hg as (vs & acc & full & E1 & La & Ll1 & S1). rewrite E1. cbn [bind].
  destruct (Nat.eqb_spec o 0) as [Zo|No]; cbn [negb].
  - rewrite Zo. unfold outs. cbn [seq map collect]. rewrite app_nil_r. eexists. split; [reflexivity|].
    apply state_array; [exact S1|lia|]. rewrite La. unfold bitmap_size. lia.
  - destruct (wshr_def W full_word (W - o)) as [vb Evb]; [lia|]. rewrite Evb. cbn [bind].
    assert (Hvb : forall r, tb vb r = (r <? o)).
    { intros r. rewrite (tb_wshr _ _ _ _ _ Evb). unfold full_word. rewrite tb_ones. lia. }
    destruct (intersect_masks_ok no n args q Hok) as (m & Em & Wm & Hm). rewrite Em. cbn [bind].
    destruct (create_getters_ok no n args q Hok) as (gs & Egs & _). rewrite Egs. cbn [bind].
    pose proof (eval_group_ok gs q o Egs ltac:(lia) ltac:(lia) o 0 (N.land vb m) vs eq_refl (proj1 S1)) as Hg.
    assert (Wv : wok W (N.land vb m)).
    { apply wok_land. intros r Hr. rewrite Hvb. lia. }
    specialize (Hg Wv). rewrite Nat.add_0_r in Hg.
    specialize (Hg ltac:(intros r Hr; rewrite tb_land, Hvb, Hm by lia; replace (r <? o) with true by lia; reflexivity)).
    destruct (outs (q * W) o) as [e|l2]; [rewrite Hg; reflexivity|].
    destruct Hg as (mask' & vs' & E' & W' & L' & Ll2 & M' & V' & O'). rewrite E'. cbn [bind].
    eexists. split; [reflexivity|].
    assert (S2 : state_ok vs' (acc ++ [mask']) (full && (mask' =? vb)%N) (l1 ++ l2)).
    { eapply state_step; [rewrite La; lia| |exact S1|exact W'|exact L'| | | |].
      - lia.
      - intros r Hr. rewrite M', Nat.sub_0_r. replace ((0 <=? r) && (r <? o)) with true by lia. reflexivity.
      - intros j Hj. apply V'. lia.
      - rewrite Ll1. exact O'.
      - intros Hfu. apply andb_true_iff in Hfu as [-> Hfu]. split; [reflexivity|]. intros r Hr.
        apply N.eqb_eq in Hfu. rewrite Hfu, Hvb. lia. }
    apply state_array; [exact S2|rewrite app_length; lia|]. rewrite app_length, La. cbn [length].
    unfold bitmap_size. lia.
Qed.
End Uni.

(** ** Specialised implementations *)
Section Simple.
Context {A B Err : Type}.
Variable f : fn A B Err.
Hypothesis Hf : fn_ok f.
Hypothesis Hst : fn_status f = false.
Hypothesis Hor : fn_opt_res f = false.

Definition elems (arrs : list (darr A)) (i : nat) : list (option A) := map (fun a => da_elem a i) arrs.
Definition all_present (arrs : list (darr A)) (i : nat) : bool := forallb is_some (elems arrs i).

Lemma raw_row_ok arrs i n : Forall (fun a => da_size a = n) arrs -> i < n ->
  exists r, raw_row arrs i = Some r /\ (all_present arrs i = true -> r = elems arrs i).
Proof.
  intros H Hi. induction H as [|a arrs Ha _ (r & Er & Hr)]; cbn [raw_row].
  - exists []. split; reflexivity.
  - destruct (rd_lt (vals a) i) as [v Ev]; [unfold da_size in Ha; lia|]. rewrite Ev, Er. cbn [bind].
    eexists. split; [reflexivity|]. unfold all_present, elems in *. cbn [map forallb].
    rewrite andb_true_iff. intros [H1 H2]. rewrite (Hr H2). f_equal. unfold da_elem in *. rewrite Ev in *.
    destruct (da_pres a i); [reflexivity|discriminate].
Qed.

Definition span_vals (arrs : list (darr A)) (vs : list B) (lo hi : nat) : Prop :=
  forall j, lo <= j < hi -> all_present arrs j = true ->
    exists v, fn_eval f (elems arrs j) = inr (true, v) /\ rd vs j = Some v.

Lemma span_op_ok arrs n : Forall (fun a => da_size a = n) arrs -> forall k i vs, i + k = n -> length vs = n ->
  exists vs', span_op f arrs vs i k = Some vs' /\ length vs' = n /\
    (forall j, j < i -> rd vs' j = rd vs j) /\ span_vals arrs vs' i n.
Proof.
  intros Ha. induction k as [|k IH]; intros i vs Hi Lv; cbn [span_op].
  - exists vs. split; [reflexivity|]. split; [exact Lv|]. split; [reflexivity|]. intros j Hj. lia.
  - destruct (raw_row_ok arrs i n Ha) as (r & Er & Hr); [lia|]. rewrite Er. cbn [bind].
    destruct (proj1 Hf Hst r) as [[p v] Ev]. rewrite Ev.
    destruct (upd_lt vs i v) as [vs1 E1]; [lia|]. rewrite E1. cbn [bind]. apply upd_spec in E1 as (_ & L1 & R1).
    destruct (IH (S i) vs1) as (vs' & E & L & R & V); [lia..|]. exists vs'. split; [exact E|]. split; [exact L|].
    split.
    + intros j Hj. rewrite R by lia. rewrite R1. replace (j =? i) with false by lia. reflexivity.
    + intros j Hj Hp. destruct (Nat.eq_dec j i) as [->|Nj]; [|apply V; [lia|exact Hp]].
      exists v. rewrite <- (Hr Hp). rewrite (proj2 Hf Hor _ _ _ Ev) in Ev. split; [exact Ev|].
      rewrite R by lia. rewrite R1, Nat.eqb_refl. reflexivity.
Qed.

Lemma collect_inr {X} (g : nat -> X) l : @collect X Err (map (fun i => inr (g i)) l) = inr (map g l).
Proof. induction l as [|i l IH]; [reflexivity|]. cbn [map collect]. rewrite IH. reflexivity. Qed.

Definition simple_elem (arrs : list (darr A)) (i : nat) : option B :=
  if all_present arrs i then
    match fn_eval f (elems arrs i) with inr (_, v) => Some v | inl _ => None end
  else None.

Lemma simple_spec arrs n : length arrs = length (fn_opts f) -> existsb (fun x => x) (fn_opts f) = false ->
  collect (map (fun i => row_result f (elems arrs i)) (seq 0 n)) = inr (map (simple_elem arrs) (seq 0 n)).
Proof.
  intros Hl Ho. rewrite <- collect_inr. f_equal. apply map_ext. intros i. unfold row_result, simple_elem, all_present.
  assert (Hd : row_defined (fn_opts f) (elems arrs i) = forallb is_some (elems arrs i)).
  { unfold row_defined, elems. clear -Hl Ho. revert Hl Ho. generalize (fn_opts f) as opts. intros opts. revert arrs.
    induction opts as [|o opts IH]; intros [|a arrs] Hl Ho; try discriminate; [reflexivity|].
    cbn [existsb] in Ho. apply orb_false_iff in Ho as [-> Ho]. cbn [map combine forallb fst snd orb].
    f_equal. apply IH; [cbn [length] in Hl; lia|exact Ho]. }
  rewrite Hd. destruct (forallb is_some (elems arrs i)); [|reflexivity].
  destruct (proj1 Hf Hst (elems arrs i)) as [[p v] Ev]. rewrite Ev. rewrite (proj2 Hf Hor _ _ _ Ev). reflexivity.
Qed.

Lemma simple_array arrs n vs m o : length vs = n -> span_vals arrs vs 0 n ->
  da_valid (mkD vs m o) -> (forall i, i < n -> da_pres (mkD vs m o) i = all_present arrs i) ->
  represents (mkD vs m o) (map (simple_elem arrs) (seq 0 n)).
Proof.
  intros Lv V Hv Hp. apply represents_fn; [exact Hv|exact Lv|]. intros i Hi.
  unfold da_elem, simple_elem. rewrite Hp by exact Hi. cbn [vals].
  destruct (rd_lt vs i) as [x Ex]; [lia|]. rewrite Ex. destruct (all_present arrs i) eqn:Ea; [|reflexivity].
  destruct (V i) as (v & E1 & E2); [lia|exact Ea|]. rewrite E1. congruence.
Qed.

Lemma unary_op_ok a n mem : da_valid a -> da_size a = n -> length mem = n ->
  exists r, unary_op f a mem = Some r /\ represents r (map (simple_elem [a]) (seq 0 n)).
Proof.
  intros Hv Hs Lm. unfold unary_op. rewrite Hs.
  destruct (span_op_ok [a] n ltac:(repeat constructor; exact Hs) n 0 mem eq_refl Lm) as (vs & E & L & _ & V).
  rewrite E. cbn [bind]. eexists. split; [reflexivity|]. apply simple_array; [exact L|exact V| |].
  - destruct Hv as (H1 & H2 & H3). split; [exact H1|]. split; [exact H2|]. cbn [bmp vals boff].
    unfold da_size in Hs. rewrite L, <- Hs. exact H3.
  - intros i Hi. unfold all_present, elems. cbn [map forallb]. rewrite andb_true_r.
    unfold is_some. rewrite <- da_elem_pres by lia. reflexivity.
Qed.

Lemma all_present2 a b i : i < da_size a -> i < da_size b ->
  all_present [a; b] i = da_pres a i && da_pres b i.
Proof.
  intros H1 H2. unfold all_present, elems. cbn [map forallb]. rewrite andb_true_r. unfold is_some.
  rewrite <- !da_elem_pres by assumption. reflexivity.
Qed.

Lemma binary_op_ok no a b n mem bmem : da_valid a -> da_size a = n -> da_valid b -> da_size b = n ->
  (no = true -> boff a = 0 /\ boff b = 0) -> length mem = n -> bitmap_size (n + W) <= length bmem ->
  Forall (wok W) bmem ->
  exists r, binary_op f no a b mem bmem = Some r /\ represents r (map (simple_elem [a; b]) (seq 0 n)).
Proof.
  intros Ha Sa Hb Sb Hno Lm Lb Wb. unfold binary_op. rewrite Sa.
  destruct (span_op_ok [a; b] n ltac:(repeat constructor; assumption) n 0 mem eq_refl Lm) as (vs & E & L & _ & V).
  rewrite E. cbn [bind].
  destruct Ha as (Oa & Wa & Ba). destruct Hb as (Ob & Wb' & Bb). unfold da_size in Sa, Sb.
  destruct (bmp b) as [|b0 bt'] eqn:Eb.
  { eexists. split; [reflexivity|]. apply simple_array; [exact L|exact V| |].
    - split; [exact Oa|]. split; [exact Wa|]. cbn [bmp vals boff]. rewrite L, <- Sa. exact Ba.
    - intros i Hi. rewrite all_present2 by (unfold da_size; lia). unfold da_pres at 3. rewrite Eb, andb_true_r. reflexivity. }
  destruct (bmp a) as [|a0 at'] eqn:Ea.
  { rewrite <- Eb in *. eexists. split; [reflexivity|]. apply simple_array; [exact L|exact V| |].
    - split; [exact Ob|]. split; [exact Wb'|]. cbn [bmp vals boff]. rewrite L, <- Sb. exact Bb.
    - intros i Hi. rewrite all_present2 by (unfold da_size; lia). unfold da_pres at 2. rewrite Ea. reflexivity. }
  rewrite <- Ea, <- Eb in *.
  destruct Ba as [Ba|Ba]; [congruence|]. destruct Bb as [Bb|Bb]; [congruence|]. rewrite Sa in Ba. rewrite Sb in Bb.
  set (res := firstn (Nat.min (length (bmp a)) (length (bmp b))) bmem).
  assert (Lr : length res = Nat.min (length (bmp a)) (length (bmp b))).
  { unfold res. rewrite firstn_length, Ba, Bb.
    pose proof (bitmap_size_le (n + boff a) (n + W)). lia. }
  assert (Wres : Forall (wok W) res) by (apply Forall_firstn'; exact Wb).
  destruct (intersect_ok (bmp a) (bmp b) (boff a) (boff b) n res (words_ok _ Wa) (words_ok _ Wb') Oa Ob)
    as (m & Em & Lmm & Hcap & Hm).
  { rewrite Ba. f_equal. lia. } { rewrite Bb. f_equal. lia. } { exact Lr. }
  assert (Hfin : Forall (wok W) m -> represents (mkD vs m (Nat.min (boff a) (boff b))) (map (simple_elem [a; b]) (seq 0 n))).
  { intros Wm. apply simple_array; [exact L|exact V| |].
    - split; [cbn [boff]; lia|]. cbn [bmp vals boff]. split; [apply wok_words; exact Wm|]. right.
      rewrite Lmm, Lr, Ba, Bb, L. destruct (Nat.le_ge_cases (boff a) (boff b)) as [Ho|Ho].
      + rewrite !Nat.min_l; [reflexivity|lia|apply bitmap_size_le; lia].
      + rewrite !Nat.min_r; [reflexivity|lia|apply bitmap_size_le; lia].
    - intros i Hi. rewrite all_present2 by (unfold da_size; lia). unfold da_pres. cbn [bmp boff].
      specialize (Hm i Hi). destruct (bmp a) eqn:Ea2; [discriminate|]. destruct (bmp b) eqn:Eb2; [discriminate|].
      rewrite <- Ea2, <- Eb2 in *. destruct m as [|m0 mt] eqn:Emm.
      { cbn [length] in Hcap. lia. }
      rewrite <- Emm in *. rewrite Nat.add_comm. unfold bit at 1. rewrite Hm.
      f_equal; f_equal; lia. }
  assert (Wint : Forall (wok W) m).
  { clear -Em Wa Wb' Wres.
    assert (W1 := words_ok _ Wa). assert (W2 := words_ok _ Wb').
    assert (Hloop : forall k i x y r r', Forall (wok W) x -> Forall (wok W) r -> intersect_loop x y r i k = Some r' -> Forall (wok W) r').
    { induction k as [|k IH]; intros i x y r r' Hx Hr Hq; cbn [intersect_loop] in Hq; [congruence|].
      destruct (rd x i) as [p|] eqn:Ep; [|discriminate]. cbn [bind] in Hq.
      destruct (rd y i) as [q|] eqn:Eq; [|discriminate]. cbn [bind] in Hq.
      destruct (upd r i (N.land p q)) as [r1|] eqn:Er; [|discriminate]. cbn [bind] in Hq.
      eapply IH; [exact Hx| |exact Hq]. eapply Forall_upd; [exact Hr| |exact Er]. apply wok_land. exact (wok_rd _ _ _ Hx Ep). }
    assert (Hshift : forall k i x y r off r', Forall (wok W) x -> Forall (wok W) r -> intersect_shift_loop x y r off i k = Some r' -> Forall (wok W) r').
    { induction k as [|k IH]; intros i x y r off r' Hx Hr Hq; cbn [intersect_shift_loop] in Hq; [congruence|].
      destruct (rd y i) as [q|]; [|discriminate]. cbn [bind] in Hq.
      destruct (wshr W q off) as [q1|]; [|discriminate]. cbn [bind] in Hq.
      destruct (rd y (i + 1)) as [q2|]; [|discriminate]. cbn [bind] in Hq.
      destruct (wshl W q2 (W - off)) as [q3|]; [|discriminate]. cbn [bind] in Hq.
      destruct (rd x i) as [p|] eqn:Ep; [|discriminate]. cbn [bind] in Hq.
      destruct (upd r i _) as [r1|] eqn:Er; [|discriminate]. cbn [bind] in Hq.
      eapply IH; [exact Hx| |exact Hq]. eapply Forall_upd; [exact Hr| |exact Er]. apply wok_land. exact (wok_rd _ _ _ Hx Ep). }
    unfold intersect, intersect0 in Em. destruct (boff a =? boff b); [eapply Hloop; [exact W1|exact Wres|exact Em]|].
    assert (Hpair : forall x y off r', Forall (wok W) x ->
      (let? res1 := intersect_shift_loop x y res off 0 (Nat.min (length x) (length y - 1)) in
       if (0 <? length y) && (length y - 1 <? length x) then
         let? f0 := rd x (length y - 1) in let? x0 := rd y (length y - 1) in
         let? a0 := wshr W x0 off in upd res1 (length y - 1) (N.land f0 a0)
       else Some res1) = Some r' -> Forall (wok W) r').
    { intros x y off r' Hx Hq. destruct (intersect_shift_loop x y res off 0 _) as [r1|] eqn:E1; [|discriminate]. cbn [bind] in Hq.
      pose proof (Hshift _ _ _ _ _ _ _ Hx Wres E1) as H1.
      destruct (_ && _); [|congruence].
      destruct (rd x _) as [p|] eqn:Ep; [|discriminate]. cbn [bind] in Hq.
      destruct (rd y (length y - 1)) as [q|]; [|discriminate]. cbn [bind] in Hq.
      destruct (wshr W q off) as [q1|]; [|discriminate]. cbn [bind] in Hq.
      eapply Forall_upd; [exact H1| |exact Hq]. apply wok_land. exact (wok_rd _ _ _ Hx Ep). }
    destruct (boff b <? boff a); eapply Hpair; [|exact Em| |exact Em]; assumption. }
  assert (Hmain : exists r, (if no then let? m := intersect0 (bmp a) (bmp b) res in Some (mkD vs m 0)
     else let? m := intersect (bmp a) (bmp b) (boff a) (boff b) res in Some (mkD vs m (Nat.min (boff a) (boff b)))) = Some r /\
     represents r (map (simple_elem [a; b]) (seq 0 n))).
  { destruct no.
    - destruct (Hno eq_refl) as [Z1 Z2]. unfold intersect in Em. rewrite Z1, Z2 in *. cbn [Nat.eqb] in Em.
      rewrite Em. cbn [bind]. eexists. split; [reflexivity|]. apply Hfin. exact Wint.
    - rewrite Em. cbn [bind]. eexists. split; [reflexivity|]. apply Hfin. exact Wint. }
  destruct (bmp b) eqn:Eb2; [discriminate|]. rewrite <- Eb2 in *. destruct (bmp a) eqn:Ea2; [discriminate|].
  rewrite <- Ea2 in *. exact Hmain.
Qed.

Lemma memcpy_words_ok src n : n <= length src -> forall k i dst, i + k = n -> n <= length dst ->
  exists d, memcpy_words src dst i k = Some d /\ length d = length dst /\
    forall j, rd d j = if (i <=? j) && (j <? n) then rd src j else rd dst j.
Proof.
  intros Hs. induction k as [|k IH]; intros i dst Hi Hd; cbn [memcpy_words].
  - exists dst. split; [reflexivity|]. split; [reflexivity|]. intros j.
    replace ((i <=? j) && (j <? n)) with false by lia. reflexivity.
  - destruct (rd_lt src i) as [x Ex]; [lia|]. rewrite Ex. cbn [bind].
    destruct (upd_lt dst i x) as [d1 E1]; [lia|]. rewrite E1. cbn [bind]. apply upd_spec in E1 as (_ & L1 & R1).
    destruct (IH (S i) d1) as (d & E & L & R); [lia..|]. exists d. split; [exact E|]. split; [lia|].
    intros j. rewrite R, R1. destruct (Nat.eqb_spec j i) as [->|Nj].
    + replace ((S i <=? i) && (i <? n)) with false by lia. replace ((i <=? i) && (i <? n)) with true by lia. congruence.
    + replace ((S i <=? j) && (j <? n)) with ((i <=? j) && (j <? n)) by lia. reflexivity.
Qed.
Lemma and_words_ok src n : n <= length src -> forall k i dst, i + k = n -> n <= length dst ->
  exists d, and_words src dst i k = Some d /\ length d = length dst /\
    forall j, rd d j = if (i <=? j) && (j <? n) then let? x := rd src j in let? y := rd dst j in Some (N.land y x) else rd dst j.
Proof.
  intros Hs. induction k as [|k IH]; intros i dst Hi Hd; cbn [and_words].
  - exists dst. split; [reflexivity|]. split; [reflexivity|]. intros j.
    replace ((i <=? j) && (j <? n)) with false by lia. reflexivity.
  - destruct (rd_lt src i) as [x Ex]; [lia|]. rewrite Ex. cbn [bind].
    destruct (rd_lt dst i) as [y Ey]; [lia|]. rewrite Ey. cbn [bind].
    destruct (upd_lt dst i (N.land y x)) as [d1 E1]; [lia|]. rewrite E1. cbn [bind]. apply upd_spec in E1 as (_ & L1 & R1).
    destruct (IH (S i) d1) as (d & E & L & R); [lia..|]. exists d. split; [exact E|]. split; [lia|].
    intros j. rewrite R, R1. destruct (Nat.eqb_spec j i) as [->|Nj].
    + replace ((S i <=? i) && (i <? n)) with false by lia. replace ((i <=? i) && (i <? n)) with true by lia.
      rewrite Ex, Ey. reflexivity.
    + replace ((S i <=? j) && (j <? n)) with ((i <=? j) && (j <? n)) by lia. reflexivity.
Qed.

(** Presence bits accumulated so far. *)
Definition inter_ok (n : nat) (s : list N * bool) (P : nat -> bool) : Prop :=
  length (fst s) = bitmap_size n /\ Forall (wok W) (fst s) /\
  if snd s then forall i, i < n -> bt (fst s) i = P i else forall i, i < n -> P i = true.

Lemma intersect_fn_ok n s P (a : darr A) : inter_ok n s P -> da_valid a -> da_size a = n -> boff a = 0 ->
  exists s', intersect_fn (bitmap_size n) s (bmp a) = Some s' /\
    inter_ok n s' (fun i => P i && da_pres a i) /\ snd s' = snd s || negb (match bmp a with [] => true | _ => false end).
Proof.
  intros (Ls & Ws & Hs) (Oa & Wa & Ba) Sa Z. unfold intersect_fn, da_size in *.
  unfold inter_ok, da_pres. rewrite Z. destruct (bmp a) as [|a0 at'] eqn:Ea.
  - exists s. split; [reflexivity|]. split; [|rewrite orb_false_r; reflexivity].
    split; [exact Ls|]. split; [exact Ws|]. destruct (snd s); intros i Hi; rewrite andb_true_r; apply Hs, Hi.
  - rewrite <- Ea in *. destruct Ba as [Ba|Ba]; [congruence|]. rewrite Z, Nat.add_0_r, Sa in Ba.
    pose proof (bitmap_size_ge n) as Hge. assert (W1 := words_ok _ Wa).
    destruct (snd s) eqn:Es.
    + destruct (and_words_ok (bmp a) (bitmap_size n) ltac:(lia) (bitmap_size n) 0 (fst s) eq_refl ltac:(lia)) as (d & E & L & R).
      rewrite E. cbn [bind]. exists (d, true). split; [reflexivity|]. split; [|reflexivity]. cbn [fst snd].
      split; [lia|]. split.
      * apply Forall_forall. intros x Hx. apply In_nth_error in Hx as [j Hj]. fold (rd d j) in Hj. rewrite R in Hj.
        destruct ((0 <=? j) && (j <? bitmap_size n)).
        -- destruct (rd (bmp a) j) as [x1|]; [|discriminate]. cbn [bind] in Hj. destruct (rd (fst s) j) as [y1|] eqn:Ey; [|discriminate].
           cbn [bind] in Hj. assert (x = N.land y1 x1) by congruence. subst x. apply wok_land. exact (wok_rd _ _ _ Ws Ey).
        -- exact (wok_rd _ _ _ Ws Hj).
      * intros i Hi. rewrite Nat.add_0_r. rewrite <- Hs by exact Hi. unfold bit, get_bit. rewrite R.
        destruct (divmod W i H32). replace ((0 <=? i / W) && (i / W <? bitmap_size n)) with true by lia.
        destruct (rd_lt (bmp a) (i / W)) as [x1 E1]; [lia|]. destruct (rd_lt (fst s) (i / W)) as [y1 E2]; [lia|].
        rewrite E1, E2. cbn [bind]. apply tb_land.
    + destruct (memcpy_words_ok (bmp a) (bitmap_size n) ltac:(lia) (bitmap_size n) 0 (fst s) eq_refl ltac:(lia)) as (d & E & L & R).
      rewrite E. cbn [bind]. exists (d, true). split; [reflexivity|]. split; [|reflexivity]. cbn [fst snd].
      assert (Ed : d = bmp a).
      { apply list_eq_rd. intros j. rewrite R. destruct (Nat.ltb_spec j (bitmap_size n)) as [Lj|Lj]; [reflexivity|].
        assert (Ea1 : rd (fst s) j = None) by (apply rd_None_ge; lia).
        assert (Ea2 : rd (bmp a) j = None) by (apply rd_None_ge; lia).
        cbn [Nat.leb andb]. congruence. }
      rewrite Ed. split; [exact Ba|]. split; [exact W1|]. intros i Hi. rewrite (Hs i Hi), Nat.add_0_r. reflexivity.
Qed.

Lemma intersect_all_ok n (arrs : list (darr A)) : Forall (fun a : darr A => da_valid a /\ da_size a = n /\ boff a = 0) arrs ->
  forall s P, inter_ok n s P ->
  exists s', intersect_all (bitmap_size n) s arrs = Some s' /\
    inter_ok n s' (fun i => P i && all_present arrs i) /\
    snd s' = snd s || negb (forallb (fun x : darr A => match bmp x with [] => true | _ => false end) arrs).
Proof.
  intros H. induction H as [|a arrs (H1 & H2 & H3) _ IH]; intros s P Hs; cbn [intersect_all].
  - exists s. split; [reflexivity|]. split; [|rewrite orb_false_r; reflexivity].
    destruct Hs as (L & Ws & Hs). split; [exact L|]. split; [exact Ws|].
    destruct (snd s); intros i Hi; cbn [all_present elems map forallb]; unfold all_present; cbn [elems map forallb];
      rewrite andb_true_r; apply Hs, Hi.
  - destruct (intersect_fn_ok n s P a Hs H1 H2 H3) as (s1 & E1 & I1 & F1). rewrite E1. cbn [bind].
    destruct (IH s1 _ I1) as (s' & E & I & F). exists s'. split; [exact E|]. split.
    + destruct I as (L & Ws & I). split; [exact L|]. split; [exact Ws|].
      assert (Hext : forall i, i < n -> P i && all_present (a :: arrs) i = P i && da_pres a i && all_present arrs i).
      { intros i Hi. unfold all_present, elems. cbn [map forallb]. rewrite andb_assoc. f_equal. f_equal.
        unfold is_some. rewrite <- da_elem_pres by lia. reflexivity. }
      destruct (snd s'); intros i Hi; rewrite Hext by exact Hi; apply I, Hi.
    + rewrite F, F1. cbn [forallb]. destruct (snd s), (bmp a); cbn [orb negb andb]; try reflexivity.
Qed.

Lemma simple_op_ok a t n mem bmem : Forall (fun a : darr A => da_valid a /\ da_size a = n /\ boff a = 0) (a :: t) ->
  length mem = n -> bitmap_size n <= length bmem -> Forall (wok W) bmem ->
  exists r, simple_op f a t mem bmem = Some r /\ represents r (map (simple_elem (a :: t)) (seq 0 n)).
Proof.
  intros H Lm Lb Wb. inversion H as [|? ? (Ha & Sa & Za) Ht]; subst x l. unfold simple_op. rewrite Sa.
  destruct (span_op_ok (a :: t) n) with (k := n) (i := 0) (vs := mem) as (vs & E & L & _ & V); [|reflexivity|exact Lm|].
  { revert H. apply Forall_impl. tauto. }
  rewrite E. cbn [bind].
  destruct (forallb (fun x => match bmp x with [] => true | _ => false end) t) eqn:Ef.
  - eexists. split; [reflexivity|]. apply simple_array; [exact L|exact V| |].
    + destruct Ha as (Oa & Wa & Ba). split; [cbn; lia|]. split; [exact Wa|]. cbn [bmp vals boff].
      unfold da_size in Sa. rewrite L, <- Sa, <- Za. exact Ba.
    + intros i Hi. unfold all_present, elems. cbn [map forallb].
      assert (Hall : forallb is_some (map (fun a0 => da_elem a0 i) t) = true).
      { rewrite forallb_forall in Ef |- *. intros o Ho. apply in_map_iff in Ho as (b & <- & Hb).
        specialize (Ef b Hb). rewrite Forall_forall in Ht. destruct (Ht b Hb) as (_ & Sb & _).
        unfold is_some. rewrite <- da_elem_pres by lia. unfold da_pres. destruct (bmp b); [reflexivity|discriminate]. }
      rewrite Hall, andb_true_r. unfold is_some. rewrite <- da_elem_pres by lia. unfold da_pres. cbn [bmp boff]. rewrite Za. reflexivity.
  - destruct (intersect_all_ok n (a :: t) H (firstn (bitmap_size n) bmem, false) (fun _ => true)) as (s & Es & (Ls & Ws & Hs) & Fs).
    { split; [cbn [fst]; rewrite firstn_length; lia|]. split; [apply Forall_firstn'; exact Wb|]. cbn [snd]. reflexivity. }
    rewrite Es. cbn [bind]. eexists. split; [reflexivity|]. apply simple_array; [exact L|exact V| |].
    + split; [cbn; lia|]. split; [apply wok_words; exact Ws|]. right. cbn [bmp vals boff]. rewrite Ls, L, Nat.add_0_r. reflexivity.
    + assert (Hsn : snd s = true).
      { rewrite Fs. cbn [snd forallb]. rewrite Ef. rewrite andb_false_r. reflexivity. }
      rewrite Hsn in Hs. intros i Hi. unfold da_pres. cbn [bmp boff]. rewrite Nat.add_0_r. pose proof (bitmap_size_ge n).
      destruct (fst s) as [|w0 wt] eqn:E0; [cbn [length] in Ls; lia|]. rewrite Hs by exact Hi. reflexivity.
Qed.
End Simple.

(** ** The selected implementation *)
Lemma elems_row {A} (arrs : list (darr A)) ls i : Forall2 represents arrs ls ->
  Forall (fun l => i < length l) ls -> elems arrs i = row ls i.
Proof.
  intros H. induction H as [|a l arrs ls Hr _ IH]; intros Hi; [reflexivity|].
  inversion Hi as [|? ? Hl Ht]; subst. unfold elems, row in *. cbn [map]. rewrite IH by exact Ht. f_equal.
  apply represents_elem in Hr as (_ & _ & He). apply He, Hl.
Qed.

Lemma combine_map_fst {X Y} (a : list X) (b : list Y) : length a = length b -> map fst (combine a b) = a.
Proof. revert b; induction a as [|x a IH]; intros [|y b] H; try discriminate; [reflexivity|]. cbn. f_equal. apply IH. cbn in H. lia. Qed.
Lemma combine_map_snd {X Y} (a : list X) (b : list Y) : length a = length b -> map snd (combine a b) = b.
Proof. revert b; induction a as [|x a IH]; intros [|y b] H; try discriminate; [reflexivity|]. cbn. f_equal. apply IH. cbn in H. lia. Qed.

Lemma dense_op_base_ok {A B E} (f : fn A B E) fl arrs ls n mem bmem :
  fn_ok f -> length arrs = length (fn_opts f) -> arrs <> [] ->
  Forall2 represents arrs ls -> Forall (fun l => length l = n) ls ->
  (no_bitmap_offset fl = true -> Forall (fun a => boff a = 0) arrs) ->
  length mem = n -> bitmap_size (n + W) <= length bmem -> Forall (wok W) bmem ->
  exists res, dense_op_base f fl arrs mem bmem = Some res /\ op_outcome f ls n res.
Proof.
  intros Hf Hl Hne HR Hn Hno Lm Lb Wb.
  assert (Hva : Forall (fun a => da_valid a /\ da_size a = n) arrs).
  { clear -HR Hn. induction HR as [|a l arrs ls Hr _ IH]; [constructor|]. inversion Hn; subst.
    constructor; [|apply IH; assumption]. destruct Hr as (V & S & _). split; assumption. }
  assert (Hpw : pointwise f ls n = collect (map (fun i => row_result f (elems arrs i)) (seq 0 n))).
  { unfold pointwise. f_equal. apply map_ext_in. intros i Hi. apply in_seq in Hi. f_equal. symmetry.
    apply elems_row; [exact HR|]. revert Hn. apply Forall_impl. intros l ->. lia. }
  assert (Huni : forall skip no, (no = true -> Forall (fun a => boff a = 0) arrs) ->
     exists res, lift_st (universal_op f skip no (combine (fn_opts f) arrs) mem) = Some res /\ op_outcome f ls n res).
  { intros skip no Hno'. set (args := combine (fn_opts f) arrs).
    assert (Hargs : args_ok no n args).
    { unfold args_ok. apply Forall_forall. intros [o a] Hin. apply in_combine_r in Hin. cbn [snd].
      rewrite Forall_forall in Hva. destruct (Hva a Hin) as [H1 H2]. split; [exact H1|]. split; [exact H2|].
      intros Hb. specialize (Hno' Hb). rewrite Forall_forall in Hno'. apply Hno', Hin. }
    assert (Hopts : map fst args = fn_opts f) by (apply combine_map_fst; lia).
    assert (Hsnd : map snd args = arrs) by (apply combine_map_snd; lia).
    pose proof (universal_op_ok f Hf skip no n args Hargs Hopts mem) as Hu.
    assert (Hne' : args <> []). { intros Z. rewrite Z in Hsnd. cbn in Hsnd. congruence. }
    specialize (Hu Hne' Lm). unfold op_outcome. rewrite Hpw.
    replace (collect (map (fun i => row_result f (elems arrs i)) (seq 0 n))) with (outs f args 0 n).
    2:{ unfold outs, out. f_equal. apply map_ext. intros i. f_equal. unfold arg_row, elems. rewrite <- Hsnd, map_map. reflexivity. }
    destruct (outs f args 0 n) as [e|l].
    - rewrite Hu. exists (FnError e). split; reflexivity.
    - destruct Hu as (r & Er & R). rewrite Er. exists (OpOk r). split; [reflexivity|]. exists r. split; [reflexivity|exact R]. }
  unfold dense_op_base. destruct (complicated f fl) eqn:Ec.
  { apply Huni. exact Hno. }
  unfold complicated in Ec. apply orb_false_iff in Ec as [Ec Erm]. apply orb_false_iff in Ec as [Ec Eopt].
  apply orb_false_iff in Ec as [Ec _]. apply orb_false_iff in Ec as [Est Eor].
  assert (Hspec : pointwise f ls n = inr (map (simple_elem f arrs) (seq 0 n))).
  { rewrite Hpw. apply simple_spec; assumption. }
  assert (Hlift : forall o, (exists r, o = Some r /\ represents r (map (simple_elem f arrs) (seq 0 n))) ->
     exists res : op_result B E, lift_ok o = Some res /\ op_outcome f ls n res).
  { intros o (r & -> & R). exists (OpOk r). split; [reflexivity|]. unfold op_outcome. rewrite Hspec. exists r. split; [reflexivity|exact R]. }
  assert (Hbn : bitmap_size n <= length bmem) by (pose proof (bitmap_size_le n (n + W) ltac:(lia)); lia).
  destruct arrs as [|a [|b [|c t]]]; [contradiction| | |].
  - apply Hlift. inversion Hva as [|? ? [H1 H2] _]; subst. apply unary_op_ok; (assumption || reflexivity).
  - apply Hlift. inversion Hva as [|? ? [H1 H2] Hva']; subst x l. inversion Hva' as [|? ? [H3 H4] _]; subst x l.
    apply binary_op_ok; try assumption. intros Hb. specialize (Hno Hb). inversion Hno as [|? ? Z1 Hno']; subst x l.
    inversion Hno' as [|? ? Z2 _]; subst x l. split; assumption.
  - destruct (no_bitmap_offset fl) eqn:Enb; [|apply Huni; discriminate].
    apply Hlift. apply simple_op_ok; try assumption. specialize (Hno eq_refl).
    rewrite Forall_forall in *. intros x Hx. destruct (Hva x Hx) as [H1 H2]. split; [exact H1|]. split; [exact H2|]. apply Hno, Hx.
Qed.

Lemma sizes_equal_ok {A} (arrs : list (darr A)) : sizes_equal arrs = true <->
  forall a b, In a arrs -> In b arrs -> da_size a = da_size b.
Proof.
  unfold sizes_equal. destruct arrs as [|a t]; [split; [intros _ a b []|reflexivity]|].
  rewrite forallb_forall. split.
  - intros H. assert (H' : forall x, In x (a :: t) -> da_size x = da_size a).
    { intros x [->|Hx]; [reflexivity|]. specialize (H x Hx). apply Nat.eqb_eq in H. lia. }
    intros x y Hx Hy. rewrite (H' x Hx), (H' y Hy). reflexivity.
  - intros H x Hx. apply Nat.eqb_eq. apply H; [left; reflexivity|right; exact Hx].
Qed.

Lemma dense_op_ok {A B E} (f : fn A B E) fl arrs ls n mem bmem :
  fn_ok f -> length arrs = length (fn_opts f) -> arrs <> [] ->
  Forall2 represents arrs ls -> Forall (fun l => length l = n) ls ->
  (no_bitmap_offset fl = true -> Forall (fun a => boff a = 0) arrs) ->
  length mem = n -> bitmap_size (n + W) <= length bmem -> Forall (wok W) bmem ->
  exists res, dense_op f fl arrs mem bmem = Some res /\ op_outcome f ls n res.
Proof.
  intros Hf Hl Hne HR Hn Hno Lm Lb Wb. unfold dense_op.
  assert (Hs : sizes_equal arrs = true).
  { apply sizes_equal_ok. assert (H : forall a, In a arrs -> da_size a = n).
    { intros a Ha. clear -HR Hn Ha. induction HR as [|x l arrs ls Hr _ IH]; [destruct Ha|]. inversion Hn; subst.
      destruct Ha as [->|Ha]; [apply Hr|]. apply IH; assumption. }
    intros a b Ha Hb. rewrite (H a Ha), (H b Hb). reflexivity. }
  rewrite Hs. cbn [negb].
  destruct (negb (no_size_validation fl) && (1 <? length arrs)); apply dense_op_base_ok; assumption.
Qed.

Lemma dense_op_mismatch {A B E} (f : fn A B E) fl arrs mem bmem a b :
  In a arrs -> In b arrs -> da_size a <> da_size b -> no_size_validation fl = false ->
  dense_op f fl arrs mem bmem = Some SizeMismatch.
Proof.
  intros Ha Hb Hd Hv. unfold dense_op. rewrite Hv. cbn [negb andb].
  assert (Hs : sizes_equal arrs = false).
  { destruct (sizes_equal arrs) eqn:E0; [|reflexivity]. rewrite sizes_equal_ok in E0. elim Hd. apply E0; assumption. }
  rewrite Hs. cbn [negb]. replace (1 <? length arrs) with true; [reflexivity|].
  destruct arrs as [|x [|y t]]; [destruct Ha| |reflexivity].
  destruct Ha as [->|[]], Hb as [->|[]]. contradiction.
Qed.

Lemma rep_args {A} no n (opts : list bool) (arrs : list (darr A)) ls :
  Forall2 represents arrs ls -> Forall (fun l => length l = n) ls ->
  (no = true -> Forall (fun a => boff a = 0) arrs) -> args_ok no n (combine opts arrs).
Proof.
  intros HR Hn Hno. apply Forall_forall. intros [o a] Hin. apply in_combine_r in Hin. cbn [snd].
  assert (H : da_valid a /\ da_size a = n).
  { clear -HR Hn Hin. induction HR as [|x l arrs ls Hr _ IH]; [destruct Hin|]. inversion Hn; subst.
    destruct Hin as [->|Hin]; [|apply IH; assumption]. destruct Hr as (V & S & _). split; assumption. }
  destruct H as [H1 H2]. split; [exact H1|]. split; [exact H2|]. intros Hb. specialize (Hno Hb).
  rewrite Forall_forall in Hno. apply Hno, Hin.
Qed.
Lemma call_row {A} (opts : list bool) (arrs : list (darr A)) ls n cs lo k : length arrs = length opts ->
  Forall2 represents arrs ls -> Forall (fun l => length l = n) ls -> lo + k <= n ->
  Forall2 (call_ok (combine opts arrs)) cs (seq lo k) -> Forall2 (row_call opts ls) cs (seq lo k).
Proof.
  intros Hl HR Hn Hk H.
  assert (G : forall is, Forall (fun i => i < n) is -> Forall2 (call_ok (combine opts arrs)) cs is -> Forall2 (row_call opts ls) cs is).
  { clear H. intros is Hi H. induction H as [|[[id v] vs] i cs is Hc _ IH]; [constructor|]. inversion Hi; subst.
    constructor; [|apply IH; assumption]. unfold call_ok in Hc. cbn [fst snd] in Hc. destruct Hc as (H4 & H5 & H6).
    assert (Er : elems arrs i = row ls i).
    { apply elems_row; [exact HR|]. revert Hn. apply Forall_impl. intros l ->. assumption. }
    assert (Ea : arg_row (combine opts arrs) i = row ls i).
    { rewrite <- Er. unfold arg_row, elems. rewrite <- (combine_map_snd opts arrs) at 2 by lia. rewrite map_map. reflexivity. }
    assert (Ed : arg_def (combine opts arrs) i = row_defined opts (row ls i)).
    { rewrite <- Er. unfold arg_def, row_defined, elems. clear -Hl. revert opts Hl.
      induction arrs as [|a arrs IH]; intros [|o opts] Hl; try discriminate; [reflexivity|].
      cbn [combine map forallb fst snd]. f_equal. apply IH. cbn in Hl. lia. }
    rewrite Ea, Ed in *. split; [exact H4|]. split; [exact H5|]. intros ->. apply H6. symmetry. exact H5. }
  apply G; [|exact H]. apply Forall_forall. intros i Hi. apply in_seq in Hi. lia.
Qed.
Lemma rep_iterate {A} no n opts (arrs : list (darr A)) ls from to : length arrs = length opts ->
  Forall2 represents arrs ls -> Forall (fun l => length l = n) ls ->
  (no = true -> Forall (fun a => boff a = 0) arrs) -> from <= to <= n ->
  exists cs, ops_iterate no from to (combine opts arrs) = Some cs /\ Forall2 (row_call opts ls) cs (seq from (to - from)).
Proof.
  intros Hl HR Hn Hno Hft. destruct (ops_iterate_ok no n _ from to (rep_args no n opts arrs ls HR Hn Hno) Hft) as (cs & E & F).
  exists cs. split; [exact E|]. eapply call_row; try eassumption. lia.
Qed.
Lemma rep_iterate_from_zero {A} no n opts (arrs : list (darr A)) ls to : length arrs = length opts ->
  Forall2 represents arrs ls -> Forall (fun l => length l = n) ls ->
  (no = true -> Forall (fun a => boff a = 0) arrs) -> to <= n ->
  exists cs, iterate_from_zero no to (combine opts arrs) = Some cs /\ Forall2 (row_call opts ls) cs (seq 0 to).
Proof.
  intros Hl HR Hn Hno Hft. destruct (iterate_from_zero_ok no n _ to (rep_args no n opts arrs ls HR Hn Hno) Hft) as (cs & E & F).
  exists cs. split; [exact E|]. eapply call_row; try eassumption.
Qed.
