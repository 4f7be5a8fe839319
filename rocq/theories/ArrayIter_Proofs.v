From Verif Require Import Base Bits_Model Bits_Proofs Bitmap_Model Bitmap_Proofs Dense_Model Dense_Spec Dense_Proofs
  IdFilter_Model IdFilter_Spec IdFilter_Proofs GroupOps_Model Array_Model Array_Spec Array_Proofs.

Section P.
Context {A : Type}.
Implicit Types a : arr A.

Lemma asc_ext l : forall m, ascending l -> ascending m -> (forall x, In x l <-> In x m) -> l = m.
Proof.
  induction l as [|x t IH]; intros [|y u] Hl Hm H.
  - reflexivity.
  - exfalso. apply (H y). left. reflexivity.
  - exfalso. apply (H x). left. reflexivity.
  - destruct (asc_tail _ _ Hl) as [Ht Fx]. destruct (asc_tail _ _ Hm) as [Hu Fy].
    rewrite Forall_forall in Fx, Fy.
    assert (x = y).
    { destruct (proj1 (H x) (or_introl eq_refl)) as [C|C]; [congruence|]. apply Fy in C.
      destruct (proj2 (H y) (or_introl eq_refl)) as [D|D]; [congruence|]. apply Fx in D. lia. }
    subst y. f_equal. apply IH; auto. intros z. split; intros Hz.
    + destruct (proj1 (H z) (or_intror Hz)) as [C|C]; [|exact C]. subst z. apply Fx in Hz. lia.
    + destruct (proj2 (H z) (or_intror Hz)) as [C|C]; [|exact C]. subst z. apply Fy in Hz. lia.
Qed.
Lemma filter_mem fa n : ascending fa -> Forall (fun i => i < n) fa -> filter (fun i => mem i fa) (seq 0 n) = fa.
Proof.
  intros As F. apply asc_ext; [apply asc_filter, seq_asc|exact As|]. intros x. rewrite filter_In, mem_In, in_seq.
  rewrite Forall_forall in F. split; [tauto|]. intros H. specialize (F x H). split; [lia|exact H].
Qed.
Lemma filter_split {X} (p q : X -> bool) l :
  length (filter p l) = length (filter p (filter q l)) + length (filter p (filter (fun x => negb (q x)) l)).
Proof.
  induction l as [|x t IH]; [reflexivity|]. cbn [filter]. destruct (q x); cbn [negb filter]; destruct (p x); cbn [length]; lia.
Qed.
Lemma filter_map {X Y} (f : X -> Y) p l : filter p (map f l) = map f (filter (fun x => p (f x)) l).
Proof. induction l as [|x t IH]; [reflexivity|]. cbn [map filter]. destruct (p (f x)); cbn [map]; rewrite IH; reflexivity. Qed.

(** ** PresentCount *)
Lemma present_count_ok a l : ar_rep a l -> ar_present_count a = Some (length (filter is_some l)).
Proof.
  intros R. apply ar_char in R as (Wa & Sz & Fm & Rd & M).
  set (fa := fids (length l) (ar_ids a)) in *. destruct (fids_asc _ _ Wa) as [Aa Ba]. fold fa in Aa, Ba.
  pose proof (rep_count _ _ Rd) as C. unfold da_present_count in C.
  unfold ar_present_count. rewrite C. cbn [bind]. f_equal. rewrite Sz.
  replace (da_size (ar_data a)) with (length fa) by (destruct Rd as (_ & Q & _); rewrite at_ids_len in Q; auto).
  assert (E : length (filter is_some l) = length (filter (fun i => is_some (nth i l None)) (seq 0 (length l)))).
  { rewrite (list_as_map l None) at 1. rewrite filter_map, map_length. reflexivity. }
  rewrite E, (filter_split _ (fun i => mem i fa)), filter_mem by assumption.
  assert (E1 : length (filter is_some (at_ids l fa)) = length (filter (fun i => is_some (nth i l None)) fa)).
  { unfold at_ids. rewrite filter_map, map_length. reflexivity. }
  rewrite E1.
  pose proof (filter_split (fun _ : nat => true) (fun i => mem i fa) (seq 0 (length l))) as Q.
  do 3 rewrite (filter_all_true (fun _ : nat => true)) in Q by reflexivity. rewrite filter_mem, seq_length in Q by assumption.
  set (rest := filter (fun x => negb (mem x fa)) (seq 0 (length l))) in *.
  assert (Hr : forall i, In i rest -> nth i l None = ar_miss a).
  { intros i Hi. apply filter_In in Hi as [H1 H2]. apply in_seq in H1. apply M; [lia|].
    apply mem_false. destruct (mem i fa); [discriminate|reflexivity]. }
  unfold has_missing_id_value. destruct (ar_miss a) as [v|] eqn:Em; cbn [present_opt].
  - rewrite (filter_all_true (fun i => is_some (nth i l None)) rest) by (intros i Hi; rewrite Hr by exact Hi; reflexivity).
    assert (D : is_dense_form a = false).
    { destruct (is_dense_form a) eqn:D; [|reflexivity]. unfold is_dense_form in D.
      exfalso. assert (Some v = None); [|discriminate]. apply Fm. destruct (ar_ids a); congruence. }
    rewrite D, Sz. cbn [negb andb]. destruct (0 <? length l) eqn:L; [lia|].
    assert (length (filter (fun i => is_some (nth i l None)) fa) <= length fa) by apply filter_len. lia.
  - rewrite andb_false_r. cbn [andb].
    assert (filter (fun i => is_some (nth i l None)) rest = []) as ->; [|cbn [length]; lia].
    assert (G : forall r, (forall i, In i r -> nth i l None = None) -> filter (fun i => is_some (nth i l None)) r = []).
    { induction r as [|i t IH]; intros H; [reflexivity|]. cbn [filter]. rewrite (H i) by (left; reflexivity). cbn [is_some].
      apply IH. intros j Hj. apply H. right. exact Hj. }
    apply G. exact Hr.
Qed.

(** ** Slice *)
Lemma slice_ok a l s rc : ar_rep a l -> s + rc <= length l ->
  exists r, ar_slice a s rc = Some r /\ ar_rep r (firstn rc (skipn s l)).
Proof.
  intros R L. apply ar_char in R as (Wa & Sz & Fm & Rd & M).
  set (l' := firstn rc (skipn s l)).
  assert (Ll : length l' = rc) by (unfold l'; rewrite firstn_length, skipn_length; lia).
  assert (Hn : forall i, i < rc -> nth i l' None = nth (s + i) l None) by (intros; apply slice_nth; assumption).
  unfold ar_slice. destruct (ar_ids a) as [| |addr ids off] eqn:Ei; cbn [fids] in *.
  - eexists; split; [reflexivity|]. replace l' with (repeat (ar_miss a) rc); [apply ar_const_rep|].
    apply (nth_ext _ _ None None); [rewrite repeat_length; auto|]. rewrite repeat_length. intros i Hi.
    rewrite repeat_nth, Hn by exact Hi. symmetry. apply M; [lia|auto].
  - rewrite at_ids_seq in Rd. destruct (rep_slice _ _ s rc Rd L) as (d & E & Hd). rewrite E. cbn [bind].
    eexists; split; [reflexivity|]. apply ar_char. fold l'. rewrite Ll. cbn [ar_make ar_ids ar_size ar_miss ar_data fwf fids].
    split; [exact I|]. split; [reflexivity|]. split; [reflexivity|]. rewrite <- Ll at 1. rewrite at_ids_seq.
    split; [exact Hd|]. intros i Hi N. exfalso. apply N. apply in_seq. lia.
  - destruct Wa as (Ne & Lt & II). fold (zb off ids) in *. destruct II as [As Bd]. rewrite Forall_forall in Bd.
    destruct (lower_bound_ok ids (off + s) As) as (B1 & Lo1 & Hi1).
    destruct (lower_bound_ok ids (off + s + rc) As) as (B2 & Lo2 & Hi2).
    set (st := lower_bound ids (off + s)) in *. set (en := lower_bound ids (off + s + rc)) in *.
    assert (st <= en) as Hse.
    { destruct (le_lt_dec st en) as [C|C]; [exact C|]. specialize (Lo1 en C). specialize (Hi2 en ltac:(lia)). lia. }
    unfold slice_filter. destruct (buf_slice_ok ids st (en - st)) as (ni & Eni & Lni & Rni); [lia|].
    rewrite Eni. cbn [bind].
    assert (Hni : forall k, k < en - st -> nth k ni 0 = nth (st + k) ids 0).
    { intros k Hk. pose proof (Rni k) as Q. replace (k <? en - st) with true in Q by lia.
      rewrite !rd_nth in Q by lia. congruence. }
    destruct (rep_slice _ _ st (en - st) Rd) as (d & E & Hd); [rewrite at_ids_len, zb_len; lia|].
    rewrite E. cbn [bind]. eexists; split; [reflexivity|].
    assert (IN : ids_in rc (off + s) ni).
    { split.
      - intros i j Hij. rewrite !Hni by lia. apply As. lia.
      - apply Forall_forall. intros x Hx. destruct (In_nth _ _ 0 Hx) as (k & Lk & Ek). rewrite Lni in Lk.
        rewrite Hni in Ek by exact Lk. specialize (Hi1 (st + k) ltac:(lia)). specialize (Lo2 (st + k) ltac:(lia)). lia. }
    destruct (mk_filter_ok rc (addr + st) ni (off + s) IN) as [Wf Ff]. fold (zb (off + s) ni) in Ff.
    assert (Hids : forall o, o < length ids -> off <= nth o ids 0 < off + length l).
    { intros o Ho. apply Bd. apply nth_In. exact Ho. }
    apply ar_char. fold l'. rewrite Ll. cbn [ar_make ar_ids ar_size ar_miss ar_data].
    split; [exact Wf|]. split; [reflexivity|]. split; [intros ->; reflexivity|]. rewrite Ff. split.
    + replace (at_ids l' (zb (off + s) ni)) with (firstn (en - st) (skipn st (at_ids l (zb off ids)))); [exact Hd|].
      apply (nth_ext _ _ None None).
      * rewrite firstn_length, skipn_length, !at_ids_len, !zb_len. lia.
      * rewrite firstn_length, skipn_length, at_ids_len, zb_len. intros k Hk.
        rewrite slice_nth by lia. rewrite !at_ids_nth, !zb_nth by (rewrite zb_len; lia).
        rewrite Hni by lia. specialize (Hi1 (st + k) ltac:(lia)). specialize (Lo2 (st + k) ltac:(lia)).
        rewrite Hn by lia. f_equal. lia.
    + intros i Hi N. rewrite Hn by exact Hi.
      assert (nth (s + i) l None = ar_miss a) as ->.
      { apply M; [lia|]. intros Hin. destruct (In_nth _ _ 0 Hin) as (o & Lo & Eo). rewrite zb_len in Lo.
        rewrite zb_nth in Eo. specialize (Hids o Lo). apply N.
        assert (st <= o) by (destruct (le_lt_dec st o) as [C|C]; [exact C|]; specialize (Lo1 o C); lia).
        assert (o < en) by (destruct (le_lt_dec en o) as [C|C]; [|exact C]; specialize (Hi2 o ltac:(lia)); lia).
        replace i with (nth (o - st) (zb (off + s) ni) 0); [apply nth_In; rewrite zb_len; lia|].
        rewrite zb_nth, Hni by lia. replace (st + (o - st)) with o by lia. lia. }
      destruct (mk_filter rc (addr + st) ni (off + s)) eqn:Ek; try reflexivity.
      exfalso. apply N. rewrite <- Ff. cbn [fids]. apply in_seq. lia.
Qed.

(** ** Iteration *)
Definition pairs (l : list (option A)) (lo n : nat) : list (nat * option A) := map (fun i => (i, nth i l None)) (seq lo n).
Lemma pairs_app l lo n m : pairs l lo (n + m) = pairs l lo n ++ pairs l (lo + n) m.
Proof. unfold pairs. rewrite seq_app, map_app. reflexivity. Qed.
Lemma pairs_to l x y : x <= y -> pairs l 0 y = pairs l 0 x ++ pairs l x (y - x).
Proof. intros H. replace y with (x + (y - x)) at 1 by lia. rewrite pairs_app. reflexivity. Qed.
Lemma pairs_1 l x : pairs l x 1 = [(x, nth x l None)].
Proof. reflexivity. Qed.
Lemma pairs_many l x n v : (forall j, x <= j < x + n -> nth j l None = v) -> expand (Many x n v) = pairs l x n.
Proof.
  intros H. cbn [expand]. unfold pairs.
  apply nth_ext with (d := (x + 0, v)) (d' := (0, nth 0 l None)); [rewrite !map_length, !seq_length; reflexivity|].
  rewrite map_length, seq_length. intros k Hk.
  rewrite (map_nth (fun i => (x + i, v))), (map_nth (fun i => (i, nth i l None))).
  rewrite !seq_nth by exact Hk. rewrite H by lia. reflexivity.
Qed.
Lemma pairs_all l : pairs l 0 (length l) = combine (seq 0 (length l)) l.
Proof.
  assert (G : forall s, map (fun i => (i, nth i l None)) s = combine s (map (fun i => nth i l None) s)).
  { induction s as [|x t IH]; [reflexivity|]. cbn [map combine]. f_equal. exact IH. }
  unfold pairs. rewrite G. f_equal. symmetry. apply list_as_map.
Qed.

Lemma for_each_ok a l : ar_rep a l ->
  exists cs, ar_for_each a = Some cs /\ flat_map expand cs = combine (seq 0 (length l)) l.
Proof.
  intros R. pose proof R as R'. apply ar_char in R' as (Wa & Sz & Fm & Rd & M).
  set (fa := fids (length l) (ar_ids a)) in *. destruct (fids_asc _ _ Wa) as [Aa Ba]. fold fa in Aa, Ba.
  unfold ar_for_each. rewrite Sz. rewrite <- pairs_all. destruct (is_const_form a) eqn:C.
  - eexists; split; [reflexivity|]. cbn [flat_map]. rewrite app_nil_r. apply pairs_many. intros j Hj. apply M; [lia|].
    unfold fa, is_const_form in *. destruct (ar_ids a); [intros []|discriminate|discriminate].
  - destruct (is_dense_form a) eqn:D.
    + assert (Ea : ar_ids a = FFull) by (unfold is_dense_form in D; destruct (ar_ids a); congruence).
      unfold fa in Rd. rewrite Ea in Rd. cbn [fids] in Rd. rewrite at_ids_seq in Rd.
      destruct (rep_for_each _ _ Rd) as (r & Er & Hr). rewrite Er. cbn [bind].
      eexists; split; [reflexivity|]. rewrite pairs_all, <- Hr. clear.
      induction r as [|c t IH]; [reflexivity|]. cbn [map flat_map expand app]. f_equal. exact IH.
    + destruct (calls_ok _ _ Rd) as (cs & Ec & Lc & Hc). rewrite at_ids_len in Lc. rewrite Ec. cbn [bind].
      destruct (fold_inv (fe_step (ar_ids a) (ar_miss a))
        (fun k st => snd st = nextid fa k /\ flat_map expand (fst st) = pairs l 0 (nextid fa k)) cs ([], 0)) as ([out id] & Es & I1 & I2).
      * split; reflexivity.
      * intros k c [out id] Hk [I1 I2]. cbn [fst snd] in *.
        assert (k < length fa) as Lk by (rewrite <- Lc; apply nth_error_Some; congruence).
        destruct (Hc k c Hk) as (C1 & C2 & C3 & C4). destruct c as [[o p] v]. cbn [fst snd] in *. subst o.
        cbn [fe_step]. rewrite (offset_id a l) by (auto; eapply sparse_of_calls; eauto). fold fa. cbn [bind].
        eexists; split; [reflexivity|]. cbn [fst snd]. split; [reflexivity|]. cbn [nextid].
        pose proof (next_le fa k Aa Lk) as N1.
        assert (nth k fa 0 < length l) as N2 by (rewrite Forall_forall in Ba; apply Ba, nth_In; exact Lk).
        rewrite (pairs_to l (nth k fa 0) (S (nth k fa 0))) by lia.
        replace (S (nth k fa 0) - nth k fa 0) with 1 by lia. rewrite pairs_1.
        rewrite at_ids_nth in C2, C4 by exact Lk.
        assert (Eo : opt_of p v = nth (nth k fa 0) l None).
        { rewrite C2. unfold opt_of. destruct (nth (nth k fa 0) l None) as [z|]; cbn [is_some]; [|reflexivity].
          rewrite (C4 z eq_refl). reflexivity. }
        rewrite Eo, flat_map_app. cbn [flat_map expand app]. f_equal. subst id.
        rewrite (pairs_to l (nextid fa k) (nth k fa 0) N1).
        destruct (nextid fa k <? nth k fa 0) eqn:Q.
        -- rewrite flat_map_app, I2. f_equal. cbn [flat_map]. rewrite app_nil_r. apply pairs_many.
           intros j Hj. apply M; [lia|]. apply (gap fa k); auto; lia.
        -- rewrite I2. replace (nth k fa 0 - nextid fa k) with 0 by lia. cbn [pairs seq map]. rewrite app_nil_r. reflexivity.
      * rewrite Es. cbn [bind]. eexists; split; [reflexivity|]. cbn [fst snd] in *. rewrite Lc in *. subst id.
        pose proof (next_bound fa (length fa) (length l) Ba ltac:(lia)) as N.
        rewrite (pairs_to l (nextid fa (length fa)) (length l) N).
        destruct (nextid fa (length fa) <? length l) eqn:Q.
        -- rewrite flat_map_app, I2. f_equal. cbn [flat_map]. rewrite app_nil_r. apply pairs_many.
           intros j Hj. apply M; [lia|]. apply (gap fa (length fa)); auto; lia.
        -- rewrite I2. replace (length l - nextid fa (length fa)) with 0 by lia. cbn [pairs seq map]. rewrite app_nil_r. reflexivity.
Qed.

Definition pres (ps : list (nat * option A)) : list (nat * option A) := filter (fun c => is_some (snd c)) ps.
Lemma pres_app x y : pres (x ++ y) = pres x ++ pres y.
Proof. apply filter_app. Qed.
Lemma pres_all_none l x n : (forall j, x <= j < x + n -> nth j l None = None) -> pres (pairs l x n) = [].
Proof.
  revert x. induction n as [|n IH]; intros x H; [reflexivity|]. unfold pres, pairs. cbn [seq map filter snd].
  rewrite H by lia. cbn [is_some]. apply IH. intros j Hj. apply H. lia.
Qed.
Lemma pres_all_some l x n v : (forall j, x <= j < x + n -> nth j l None = Some v) -> pres (pairs l x n) = pairs l x n.
Proof.
  intros H. apply filter_all_true. intros [j e] Hin. unfold pairs in Hin. apply in_map_iff in Hin as (i & E & Hi).
  apply in_seq in Hi. injection E as <- <-. cbn [snd]. rewrite H by lia. reflexivity.
Qed.

Lemma for_each_present_ok a l : ar_rep a l ->
  exists cs, ar_for_each_present a = Some cs /\
    flat_map expand cs = filter (fun c => is_some (snd c)) (combine (seq 0 (length l)) l).
Proof.
  intros R. pose proof R as R'. apply ar_char in R' as (Wa & Sz & Fm & Rd & M).
  set (fa := fids (length l) (ar_ids a)) in *. destruct (fids_asc _ _ Wa) as [Aa Ba]. fold fa in Aa, Ba.
  unfold ar_for_each_present, is_all_missing_form. rewrite Sz. rewrite <- pairs_all. fold (pres (pairs l 0 (length l))).
  destruct (is_const_form a) eqn:C; cbn [andb].
  - assert (Hm : forall j, j < length l -> nth j l None = ar_miss a).
    { intros j Hj. apply M; [exact Hj|].
      unfold fa, is_const_form in *. destruct (ar_ids a); [intros []|discriminate|discriminate]. }
    destruct (ar_miss a) as [v|]; cbn [present_opt negb].
    + eexists; split; [reflexivity|]. cbn [flat_map]. rewrite app_nil_r.
      rewrite (pres_all_some l 0 (length l) v) by (intros; apply Hm; lia). apply pairs_many. intros; apply Hm; lia.
    + eexists; split; [reflexivity|]. symmetry. apply pres_all_none. intros; apply Hm; lia.
  - destruct (is_dense_form a) eqn:D.
    + assert (Ea : ar_ids a = FFull) by (unfold is_dense_form in D; destruct (ar_ids a); congruence).
      unfold fa in Rd. rewrite Ea in Rd. cbn [fids] in Rd. rewrite at_ids_seq in Rd.
      destruct (rep_for_each _ _ Rd) as (r & Er & Hr). rewrite Er. cbn [bind].
      eexists; split; [reflexivity|]. rewrite pairs_all, <- Hr. clear.
      induction r as [|[[o p] v] t IH]; [reflexivity|]. cbn [map flat_map fst snd]. unfold pres in *. cbn [filter snd].
      destruct p; cbn [is_some flat_map expand app]; [f_equal|]; exact IH.
    + destruct (calls_ok _ _ Rd) as (cs & Ec & Lc & Hc). rewrite at_ids_len in Lc. rewrite Ec. cbn [bind].
      assert (Hp : forall k c, nth_error cs k = Some c -> k < length fa /\
         fst (fst c) = k /\ ids_offset_to_id (ar_ids a) k = Some (nth k fa 0) /\
         opt_of (snd (fst c)) (snd c) = nth (nth k fa 0) l None /\ nth k fa 0 < length l).
      { intros k c Hk. assert (k < length fa) as Lk by (rewrite <- Lc; apply nth_error_Some; congruence).
        destruct (Hc k c Hk) as (C1 & C2 & C3 & C4). split; [exact Lk|]. split; [exact C1|]. split.
        - rewrite (offset_id a l) by (auto; eapply sparse_of_calls; eauto). reflexivity.
        - rewrite at_ids_nth in C2, C4 by exact Lk. split.
          + rewrite C2. unfold opt_of. destruct (nth (nth k fa 0) l None) as [z|]; cbn [is_some]; [|reflexivity].
            rewrite (C4 z eq_refl). reflexivity.
          + rewrite Forall_forall in Ba. apply Ba, nth_In. exact Lk. }
      unfold has_missing_id_value. rewrite D, Sz. cbn [negb andb].
      destruct (ar_miss a) as [m|] eqn:Em; cbn [present_opt andb].
      * destruct (0 <? length l) eqn:L0.
        2:{ (* empty array *)
            assert (cs = []) as ->.
            { destruct cs as [|c t]; [reflexivity|]. destruct (Hp 0 c eq_refl) as (_ & _ & _ & _ & H). lia. }
            eexists; split; [reflexivity|]. replace (length l) with 0 by lia. reflexivity. }
        destruct (fold_inv (fp_step (ar_ids a) (Some m))
          (fun k st => snd st = nextid fa k /\ flat_map expand (fst st) = pres (pairs l 0 (nextid fa k))) cs ([], 0)) as ([out id] & Es & I1 & I2).
        -- split; reflexivity.
        -- intros k c [out id] Hk [I1 I2]. cbn [fst snd] in *.
           destruct (Hp k c Hk) as (Lk & C1 & C2 & C3 & C4). destruct c as [[o p] v]. cbn [fst snd] in *. subst o.
           cbn [fp_step]. rewrite C2. cbn [bind].
           eexists; split; [reflexivity|]. cbn [fst snd]. split; [reflexivity|]. cbn [nextid].
           pose proof (next_le fa k Aa Lk) as N1.
           rewrite (pairs_to l (nth k fa 0) (S (nth k fa 0))) by lia.
           replace (S (nth k fa 0) - nth k fa 0) with 1 by lia. rewrite pairs_1, pres_app, <- C3.
           assert (E1 : flat_map expand (if id <? nth k fa 0 then out ++ [Many id (nth k fa 0 - id) (Some m)] else out)
                        = pres (pairs l 0 (nth k fa 0))).
           { subst id. rewrite (pairs_to l (nextid fa k) (nth k fa 0) N1), pres_app.
             destruct (nextid fa k <? nth k fa 0) eqn:Q.
             - rewrite flat_map_app, I2. f_equal. cbn [flat_map]. rewrite app_nil_r.
               assert (G : forall j, nextid fa k <= j < nextid fa k + (nth k fa 0 - nextid fa k) -> nth j l None = Some m).
               { intros j Hj. apply M; [lia|]. apply (gap fa k); auto; lia. }
               rewrite (pres_all_some l _ _ m G). apply pairs_many. exact G.
             - rewrite I2. replace (nth k fa 0 - nextid fa k) with 0 by lia. cbn [pairs seq map pres filter]. rewrite app_nil_r. reflexivity. }
           destruct p; unfold opt_of; cbn [pres filter snd is_some].
           ++ rewrite flat_map_app, E1. reflexivity.
           ++ rewrite E1, app_nil_r. reflexivity.
        -- rewrite Es. cbn [bind]. eexists; split; [reflexivity|]. cbn [fst snd] in *. rewrite Lc in *. subst id.
           pose proof (next_bound fa (length fa) (length l) Ba ltac:(lia)) as N.
           rewrite (pairs_to l (nextid fa (length fa)) (length l) N), pres_app.
           assert (G : forall j, nextid fa (length fa) <= j < nextid fa (length fa) + (length l - nextid fa (length fa)) -> nth j l None = Some m).
           { intros j Hj. apply M; [lia|]. apply (gap fa (length fa)); auto; lia. }
           destruct (nextid fa (length fa) <? length l) eqn:Q.
           ++ rewrite flat_map_app, I2. f_equal. cbn [flat_map]. rewrite app_nil_r. rewrite (pres_all_some l _ _ m G).
              apply pairs_many. exact G.
           ++ rewrite I2. replace (length l - nextid fa (length fa)) with 0 by lia. cbn [pairs seq map pres filter]. rewrite app_nil_r. reflexivity.
      * destruct (fold_inv (fp_sparse_step (ar_ids a))
          (fun k out => flat_map expand out = pres (pairs l 0 (nextid fa k))) cs []) as (out & Es & I2).
        -- reflexivity.
        -- intros k c out Hk I2.
           destruct (Hp k c Hk) as (Lk & C1 & C2 & C3 & C4). destruct c as [[o p] v]. cbn [fst snd] in *. subst o.
           pose proof (next_le fa k Aa Lk) as N1.
           assert (E1 : pres (pairs l 0 (S (nth k fa 0))) = flat_map expand out ++ pres [(nth k fa 0, nth (nth k fa 0) l None)]).
           { rewrite (pairs_to l (nth k fa 0) (S (nth k fa 0))) by lia.
             replace (S (nth k fa 0) - nth k fa 0) with 1 by lia. rewrite pairs_1, pres_app. f_equal.
             rewrite (pairs_to l (nextid fa k) (nth k fa 0) N1), pres_app, I2.
             rewrite (pres_all_none l (nextid fa k)); [apply app_nil_r|].
             intros j Hj. apply M; [lia|]. apply (gap fa k); auto; lia. }
           cbn [fp_sparse_step nextid]. rewrite E1, <- C3. destruct p; unfold opt_of; cbn [pres filter snd is_some].
           ++ rewrite C2. cbn [bind]. eexists; split; [reflexivity|]. rewrite flat_map_app. reflexivity.
           ++ eexists; split; [reflexivity|]. rewrite app_nil_r. reflexivity.
        -- exists out. split; [exact Es|]. rewrite Lc in I2. rewrite I2.
           pose proof (next_bound fa (length fa) (length l) Ba ltac:(lia)) as N.
           rewrite (pairs_to l (nextid fa (length fa)) (length l) N), pres_app.
           rewrite (pres_all_none l (nextid fa (length fa))); [rewrite app_nil_r; reflexivity|].
           intros j Hj. apply M; [lia|]. apply (gap fa (length fa)); auto; lia.
Qed.

(** ** ArraysAreEquivalent and ToSparseForm *)
Section Eq.
Variables (alloc : nat -> list A) (allocw : nat -> list N).
Hypothesis (HA : alloc_sz alloc) (HW : allocw_ok allocw).
Variable eqb : A -> A -> bool.

Lemma opt_eqb_ok : (forall x y, eqb x y = true <-> x = y) -> forall x y, opt_eqb eqb x y = true <-> x = y.
Proof.
  intros H [x|] [y|]; cbn [opt_eqb]; split; intros E; try congruence; try discriminate.
  - f_equal. apply H. exact E.
  - apply H. congruence.
Qed.

Lemma idf_full_dec (u : idf) : {u = FFull} + {u <> FFull}.
Proof. destruct u; [right|left|right]; congruence. Defined.
Lemma outside n f : fwf n f -> f <> FFull -> 0 < n -> exists i, i < n /\ ~ In i (fids n f).
Proof.
  intros Wf Nf Hn. destruct (fids_asc _ _ Wf) as [As F].
  assert (length (fids n f) < n) as L.
  { destruct f as [| |x ids off]; [cbn; exact Hn|congruence|]. destruct Wf as (_ & Q & _). cbn [fids]. rewrite map_length. exact Q. }
  destruct (existsb (fun i => negb (mem i (fids n f))) (seq 0 n)) eqn:E.
  - apply existsb_exists in E as (i & Hi & Hm). apply in_seq in Hi. exists i. split; [lia|]. apply mem_false.
    destruct (mem i (fids n f)); [discriminate|reflexivity].
  - exfalso. pose proof (filter_mem _ _ As F) as Q. rewrite filter_all_true in Q.
    + rewrite <- Q, seq_length in L. lia.
    + intros x Hx. destruct (mem x (fids n f)) eqn:M; [reflexivity|].
      assert (existsb (fun i => negb (mem i (fids n f))) (seq 0 n) = true); [|congruence].
      apply existsb_exists. exists x. rewrite M. auto.
Qed.

Lemma at_ids_inj (l m : list (option A)) ids : at_ids l ids = at_ids m ids <-> forall i, In i ids -> nth i l None = nth i m None.
Proof.
  unfold at_ids. induction ids as [|x t IH]; cbn [map In]; [split; [intros _ i []|reflexivity]|]. split.
  - intros H. injection H as H1 H2. intros i [<-|Hi]; [exact H1|]. apply IH; assumption.
  - intros H. f_equal; [apply H; auto|]. apply IH. intros i Hi. apply H. auto.
Qed.

Lemma equivalent_ok addr a b l m : (forall x y, eqb x y = true <-> x = y) -> ar_rep a l -> ar_rep b m ->
  exists r, ar_equivalent eqb alloc allocw addr a b = Some r /\
    (0 < length l \/ 0 < length m -> (r = true <-> l = m)) /\
    (length l = 0 -> length m = 0 -> (r = true <-> (is_dense_form a = true /\ is_dense_form b = true) \/ ar_miss a = ar_miss b)).
Proof.
  intros He Ra Rb. pose proof Ra as Ra'. pose proof Rb as Rb'.
  apply ar_char in Ra' as (Wa & Sa & Fa & Da & Ma). apply ar_char in Rb' as (Wb & Sb & Fb & Db & Mb).
  unfold ar_equivalent. rewrite Sa, Sb. destruct (Nat.eqb_spec (length l) (length m)) as [Lm|Lm]; cbn [negb].
  2:{ eexists; split; [reflexivity|]. split; [|lia]. intros _. split; [discriminate|]. intros ->. congruence. }
  destruct (is_dense_form a && is_dense_form b) eqn:DD.
  - apply andb_prop in DD as [D1 D2].
    assert (Ea : ar_ids a = FFull) by (unfold is_dense_form in D1; destruct (ar_ids a); congruence).
    assert (Eb : ar_ids b = FFull) by (unfold is_dense_form in D2; destruct (ar_ids b); congruence).
    rewrite Ea in Da. rewrite Eb in Db. cbn [fids] in Da, Db. rewrite at_ids_seq in Da, Db.
    destruct (rep_equivalent eqb _ _ _ _ He Da Db) as (r & E & H). exists r. split; [exact E|].
    split; [intros _; exact H|]. intros L1 L2. rewrite H. split; [auto|]. intros _.
    destruct l; [|discriminate]. destruct m; [reflexivity|discriminate].
  - rewrite <- Lm in Wb.
    assert (FF : Forall (fwf (length l)) [ar_ids a; ar_ids b]) by (repeat constructor; assumption).
    destruct (merge_all_ok (fun _ => addr) (length l) [ar_ids b] (ar_ids a) FF) as (u & Eu & Wu & Hu).
    rewrite Eu. cbn [bind].
    destruct (with_ids_ok alloc allocw HA HW a l u (ar_miss a) Ra Wu) as (x & Ex & Rx & Ix & Mx).
    rewrite Lm in Wu.
    destruct (with_ids_ok alloc allocw HA HW b m u (ar_miss b) Rb Wu) as (y & Ey & Ry & Iy & My).
    rewrite <- Lm in *. rewrite Ex, Ey. cbn [bind].
    assert (Ua : forall i, In i (fids (length l) (ar_ids a)) -> In i (fids (length l) u)).
    { intros i. apply (merge_contains (fun _ => addr) _ (ar_ids a) [ar_ids b]); auto. left. reflexivity. }
    assert (Ub : forall i, In i (fids (length l) (ar_ids b)) -> In i (fids (length l) u)).
    { intros i. apply (merge_contains (fun _ => addr) _ (ar_ids a) [ar_ids b]); auto. right. left. reflexivity. }
    assert (Sx : select (fun i => nth i l None) (fids (length l) u) (ar_miss a) (length l) = l).
    { apply (nth_ext _ _ None None); [apply select_len|]. rewrite select_len. intros i Hi. rewrite select_nth by exact Hi.
      destruct (mem i (fids (length l) u)) eqn:Q; [reflexivity|]. symmetry. apply Ma; [exact Hi|].
      intros C. apply mem_false in Q. auto. }
    assert (Sy : select (fun i => nth i m None) (fids (length l) u) (ar_miss b) (length l) = m).
    { apply (nth_ext _ _ None None); [rewrite select_len; exact Lm|]. rewrite select_len. intros i Hi. rewrite select_nth by exact Hi.
      destruct (mem i (fids (length l) u)) eqn:Q; [reflexivity|]. symmetry. apply Mb; [lia|].
      intros C. apply mem_false in Q. auto. }
    rewrite Sx in Rx. rewrite Sy in Ry.
    apply ar_char in Rx as (_ & _ & Fx & Dx & Mx'). apply ar_char in Ry as (_ & _ & Fy & Dy & My').
    rewrite Ix in *. rewrite Iy in *. rewrite <- Lm in *.
    destruct (Nat.eqb_spec (length l) 0) as [L0|L0].
    + rewrite (Mx ltac:(discriminate)), (My ltac:(discriminate)). cbn [fids at_ids map] in Dx, Dy.
      destruct (opt_eqb eqb (ar_miss a) (ar_miss b)) eqn:Q.
      * destruct (rep_equivalent eqb _ _ _ _ He Dx Dy) as (r & E & H). exists r. split; [exact E|].
        split; [lia|]. intros _ _. rewrite H. split; [intros _; right; apply (opt_eqb_ok He); exact Q|reflexivity].
      * eexists; split; [reflexivity|]. split; [lia|]. intros _ _. split; [discriminate|].
        intros [[H1 H2]|H].
        -- rewrite H1, H2 in DD. discriminate.
        -- apply (opt_eqb_ok He) in H. congruence.
    + destruct (opt_eqb eqb (ar_miss x) (ar_miss y)) eqn:Q.
      * destruct (rep_equivalent eqb _ _ _ _ He Dx Dy) as (r & E & H). exists r. split; [exact E|].
        split; [|lia]. intros _. rewrite H, at_ids_inj. apply (opt_eqb_ok He) in Q. split.
        -- intros G. apply (nth_ext _ _ None None); [exact Lm|]. intros i Hi.
           destruct (in_dec Nat.eq_dec i (fids (length l) u)) as [C|C]; [apply G; exact C|].
           rewrite Mx', My' by (auto; lia). exact Q.
        -- intros -> i _. reflexivity.
      * eexists; split; [reflexivity|]. split; [|lia]. intros _. split; [discriminate|]. intros ->. exfalso.
        assert (ar_miss x = ar_miss y) as C; [|apply (opt_eqb_ok He) in C; congruence].
        destruct (idf_full_dec u) as [Fu|Nu]; [rewrite (Fx Fu), (Fy Fu); reflexivity|].
        destruct (outside (length m) u Wu Nu ltac:(lia)) as (i & Hi & Ni).
        rewrite <- (Mx' i Hi Ni). apply My'; assumption.
Qed.

(** ToSparseForm as a whole.  [same_or_equal]: unchanged, or replaced by the new
    default because the two are equal for operator==. *)
Definition same_or_equal (m e' e : option A) : Prop :=
  e' = e \/ exists x y, m = Some x /\ e' = Some x /\ e = Some y /\ (eqb x y = true \/ eqb y x = true).
Definition null_case (a : arr A) (l : list (option A)) (m : option A) : Prop :=
  exists x, m = Some x /\ opt_eqb eqb m (ar_miss a) = true /\ null_bitmap eqb a l x.

Lemma sparse_form_not_dense a : is_sparse_form a = true -> is_dense_form a = false.
Proof. unfold is_sparse_form, is_dense_form. destruct (ar_ids a); congruence. Qed.
Lemma dense_all a (l : list (option A)) i : is_dense_form a = true -> i < length l -> In i (fids (length l) (ar_ids a)).
Proof. unfold is_dense_form. destruct (ar_ids a); try discriminate. intros _ H. cbn [fids]. apply in_seq. lia. Qed.

Lemma in_kept l fa x i : In i (kept_ids eqb l fa x) <-> In i fa /\ keptv eqb x (nth i l None) = true.
Proof.
  unfold kept_ids. rewrite in_map_iff. split.
  - intros (o & <- & Ho). apply filter_In in Ho as [H1 H2]. apply in_seq in H1. split; [apply nth_In; lia|exact H2].
  - intros [H1 H2]. destruct (In_nth _ _ 0 H1) as (o & Lo & Eo). exists o. split; [exact Eo|].
    apply filter_In. split; [apply in_seq; lia|]. rewrite Eo. exact H2.
Qed.

Lemma to_sparse_ok addr a l m : ar_rep a l -> ~ null_case a l m ->
  exists r l', to_sparse eqb alloc allocw addr a m = Some r /\ ar_rep r l' /\ length l' = length l /\
    (forall i, i < length l -> same_or_equal m (nth i l' None) (nth i l None)) /\
    (ar_ids r <> FFull -> ar_miss r = m) /\
    (forall i, In i (fids (length l) (ar_ids r)) ->
       opt_eqb eqb m (nth i l None) = false \/ opt_eqb eqb (nth i l None) m = false).
Proof.
  intros R NB. pose proof R as R'. apply ar_char in R' as (Wa & Sz & Fm & Rd & M).
  unfold to_sparse. destruct (negb (is_dense_form a) && negb (opt_eqb eqb m (ar_miss a))) eqn:C.
  - apply andb_prop in C as [C1 C2].
    assert (D : is_dense_form a = false) by (destruct (is_dense_form a); [discriminate|reflexivity]).
    destruct (changed_ok alloc allocw HA HW eqb addr a l m R D) as (r & E & Rr & Fr & Mr).
    eexists r, _. split; [exact E|]. split; [exact Rr|]. split; [apply select_len|]. split; [|split; [exact Mr|]].
    + intros i Hi. rewrite select_nth by exact Hi. destruct (mem i _) eqn:Q; [left; reflexivity|].
      apply mem_false in Q. rewrite filter_In in Q.
      destruct (index_of i (fids (length l) (ar_ids a))).
      2:{ exfalso. apply Q. split; [apply in_seq; lia|reflexivity]. }
      destruct (differs eqb (nth i l None) m) eqn:Df; [exfalso; apply Q; split; [apply in_seq; lia|reflexivity]|].
      unfold differs in Df. destruct (nth i l None) as [v|], m as [x|]; try discriminate; [|left; reflexivity].
      right. exists x, v. repeat (split; [reflexivity|]). left. destruct (eqb x v); [reflexivity|discriminate].
    + rewrite Fr. intros i Hi. apply filter_In in Hi as [H1 H2]. apply in_seq in H1. left.
      destruct (index_of i (fids (length l) (ar_ids a))) eqn:Ei.
      * unfold differs in H2. destruct (nth i l None) as [v|], m as [x|]; cbn [opt_eqb]; try discriminate; try reflexivity.
        destruct (eqb x v); [discriminate|reflexivity].
      * apply index_of_none in Ei. rewrite M by (auto; lia). destruct (opt_eqb eqb m (ar_miss a)); [discriminate|reflexivity].
  - destruct m as [x|].
    + destruct (to_sparse_with_ok alloc allocw HA HW eqb addr a l x R) as [H _].
      destruct H as (r & E & Rr & Fr & Mr).
      { intros N. apply NB. exists x. split; [reflexivity|]. split; [|exact N].
        destruct N as (N & _). apply sparse_form_not_dense in N. rewrite N in C. cbn [negb andb] in C.
        destruct (opt_eqb eqb (Some x) (ar_miss a)); [reflexivity|discriminate]. }
      eexists r, _. split; [exact E|]. split; [exact Rr|]. split; [apply select_len|]. split; [|split; [exact Mr|]].
      * intros i Hi. rewrite select_nth by exact Hi. destruct (mem i _) eqn:Q; [left; reflexivity|].
        apply mem_false in Q. rewrite in_kept in Q. right.
        destruct (in_dec Nat.eq_dec i (fids (length l) (ar_ids a))) as [I|I].
        -- destruct (nth i l None) as [v|] eqn:Ev.
           2:{ exfalso. apply Q. split; [exact I|reflexivity]. }
           exists x, v. repeat (split; [reflexivity|]). right. cbn [keptv] in Q.
           destruct (eqb v x); [reflexivity|]. exfalso. apply Q. split; [exact I|reflexivity].
        -- destruct (is_dense_form a) eqn:D; [exfalso; apply I; apply dense_all; assumption|].
           cbn [negb andb] in C. rewrite M by assumption. destruct (ar_miss a) as [y|]; cbn [opt_eqb] in C; [|discriminate].
           exists x, y. repeat (split; [reflexivity|]). left. destruct (eqb x y); [reflexivity|discriminate].
      * rewrite Fr. intros i Hi. apply in_kept in Hi as [_ H]. right.
        destruct (nth i l None) as [v|]; cbn [opt_eqb keptv] in *; [|reflexivity]. destruct (eqb v x); [discriminate|reflexivity].
    + assert (Hm : ar_miss a = None).
      { destruct (is_dense_form a) eqn:D.
        - apply Fm. unfold is_dense_form in D. destruct (ar_ids a); congruence.
        - cbn [negb andb opt_eqb] in C. destruct (ar_miss a); [discriminate|reflexivity]. }
      destruct (to_sparse_without_ok alloc HA eqb addr a l R Hm) as (r & E & Rr & Fr & Mr).
      eexists r, _. split; [exact E|]. split; [exact Rr|]. split; [apply select_len|]. split; [|split; [exact Mr|]].
      * intros i Hi. rewrite select_nth by exact Hi. destruct (mem i _) eqn:Q; [left; reflexivity|]. left.
        apply mem_false in Q. destruct (in_dec Nat.eq_dec i (fids (length l) (ar_ids a))) as [I|I].
        -- destruct (nth i l None) as [v|] eqn:Ev; [|reflexivity]. exfalso. apply Q.
           destruct (In_nth _ _ 0 I) as (o & Lo & Eo). apply in_map_iff. exists o. split; [exact Eo|].
           apply filter_In. split; [apply in_seq; lia|]. rewrite Eo, Ev. reflexivity.
        -- rewrite M by assumption. symmetry. exact Hm.
      * rewrite Fr. intros i Hi. apply in_map_iff in Hi as (o & <- & Ho). apply filter_In in Ho as [_ Ho].
        destruct (nth (nth o (fids (length l) (ar_ids a)) 0) l None); [left; reflexivity|discriminate].
Qed.
Lemma to_sparse_null addr a l m : ar_rep a l -> null_case a l m -> to_sparse eqb alloc allocw addr a m = None.
Proof.
  intros R (x & -> & E & N). unfold to_sparse. rewrite E. rewrite andb_false_r.
  apply (to_sparse_with_ok alloc allocw HA HW eqb addr a l x R). exact N.
Qed.
End Eq.

(** ** CreateArray(size, ids, values) and SparseArrayBuilder *)
Definition by_id (ids : list nat) (vs : list (option A)) (i : nat) : option A :=
  match index_of i ids with Some o => nth o vs None | None => None end.

Lemma set_put max (b : dbuilder A) f j v : db_inv max b f -> j < max -> f j = None ->
  exists b', db_set b j v = Some b' /\ db_inv max b' (put f j v).
Proof.
  intros I L N. destruct (db_set_ok max b f j v I L) as (b' & E & I'). exists b'. split; [exact E|].
  eapply db_ext; [exact I'|]. intros i _. unfold put. destruct v as [x|].
  - unfold write. destruct (Nat.eqb_spec i j) as [->|Ne].
    + replace ((j <=? j) && (j <? j + 1)) with true by lia. reflexivity.
    + replace ((j <=? i) && (i <? j + 1)) with false by lia. reflexivity.
  - unfold write. destruct (Nat.eqb_spec i j) as [->|]; [exact N|reflexivity].
Qed.

Lemma set_ids_ok max ids : forall vs (b : dbuilder A) f, ascending ids -> Forall (fun i => i < max) ids ->
  length ids = length vs -> db_inv max b f -> (forall i, In i ids -> f i = None) ->
  exists b', set_ids b ids vs = Some b' /\
    db_inv max b' (fun i => match index_of i ids with Some o => nth o vs None | None => f i end).
Proof.
  induction ids as [|j t IH]; intros [|v vs] b f As F L I N; try discriminate; cbn [set_ids].
  - exists b. split; [reflexivity|exact I].
  - apply asc_tail in As as [As Fj]. inversion F as [|? ? F1 F2]; subst.
    destruct (set_put max b f j v I F1) as (b1 & E1 & I1); [apply N; left; reflexivity|].
    rewrite E1. cbn [bind]. rewrite Forall_forall in Fj.
    destruct (IH vs b1 _ As F2 ltac:(cbn [length] in L; lia) I1) as (b' & E' & I').
    { intros i Hi. unfold put. replace (i =? j) with false by (apply Fj in Hi; lia). apply N. right. exact Hi. }
    exists b'. split; [exact E'|]. eapply db_ext; [exact I'|]. intros i Hi. cbv beta. cbn [index_of]. unfold put.
    rewrite (Nat.eqb_sym j i). destruct (Nat.eqb_spec i j) as [->|Ne].
    + rewrite (proj2 (index_of_none j t)); [reflexivity|]. intros C. apply Fj in C. lia.
    + destruct (index_of i t); reflexivity.
Qed.

Lemma seq_index n i : index_of i (seq 0 n) = if i <? n then Some i else None.
Proof.
  destruct (Nat.ltb_spec i n) as [L|L].
  - pose proof (index_of_nth (seq 0 n) i (seq_asc 0 n)) as Q. rewrite seq_length, seq_nth in Q by exact L. apply Q. exact L.
  - apply index_of_none. rewrite in_seq. lia.
Qed.

Lemma build_db max (b : dbuilder A) f : db_inv max b f -> represents (db_build b) (map f (seq 0 max)).
Proof.
  intros I. pose proof (db_build_full max b f I) as E. destruct (db_build_size_ok max b f max I ltac:(lia)) as (r & Er & V & S & G).
  rewrite E in Er. injection Er as <-. apply represents_fn; [exact V|exact S|]. intros i Hi. apply G. exact Hi.
Qed.
Lemma by_id_nth ids vs o : ascending ids -> o < length ids -> by_id ids vs (nth o ids 0) = nth o vs None.
Proof. intros As Ho. unfold by_id. rewrite index_of_nth by assumption. reflexivity. Qed.

Lemma sparse_make addr size ids vs d : ascending ids -> Forall (fun i => i < size) ids ->
  length ids = length vs -> represents d vs ->
  ar_rep (ar_make size (mk_filter size addr ids 0) d None) (map (by_id ids vs) (seq 0 size)).
Proof.
  intros As F L R.
  assert (II : ids_in size 0 ids) by (apply ids_in_0; [exact As|]; rewrite Forall_forall in F; exact F).
  destruct (mk_filter_ok size addr ids 0 II) as [Wf Ff]. fold (zb 0 ids) in Ff. rewrite zb_0 in Ff.
  replace (map (by_id ids vs) (seq 0 size)) with (select (by_id ids vs) (fids size (mk_filter size addr ids 0)) None size).
  - apply make_rep; [exact Wf|]. rewrite Ff.
    replace (map (by_id ids vs) ids) with vs; [exact R|].
    apply (nth_ext _ _ None None); [rewrite map_length; auto|]. intros o Ho. rewrite <- L in Ho.
    rewrite (nth_indep (map _ ids) None (by_id ids vs 0)) by (rewrite map_length; exact Ho).
    rewrite map_nth. symmetry. apply by_id_nth; assumption.
  - unfold select. apply map_ext. intros i. rewrite Ff. destruct (mem i ids) eqn:Q; [reflexivity|].
    apply mem_false in Q. unfold by_id. rewrite (proj2 (index_of_none i ids)) by exact Q. reflexivity.
Qed.

Lemma create_ids_ok (alloc : nat -> list A) addr size ids vs : alloc_sz alloc ->
  ascending ids -> Forall (fun i => i < size) ids -> length ids = length vs ->
  exists r, create_array_ids alloc addr size ids vs = Some r /\ ar_rep r (map (by_id ids vs) (seq 0 size)).
Proof.
  intros HA As F L. unfold create_array_ids. destruct (size <? 4 * length vs).
  - pose proof (db_init_inv (alloc size)) as I0. rewrite HA in I0.
    destruct (set_ids_ok size ids vs _ _ As F L I0) as (b & E & I); [reflexivity|]. rewrite E. cbn [bind].
    eexists; split; [reflexivity|]. apply ar_dense_rep. apply build_db in I. exact I.
  - pose proof (db_init_inv (alloc (length vs))) as I0. rewrite HA in I0.
    destruct (set_ids_ok (length vs) (seq 0 (length ids)) vs (db_init (alloc (length vs))) (fun _ => None) (seq_asc _ _)) with (3 := I0) as (b & E & I).
    + apply Forall_forall. intros x Hx. apply in_seq in Hx. lia.
    + rewrite seq_length. exact L.
    + reflexivity.
    + rewrite E. cbn [bind]. eexists; split; [reflexivity|]. apply sparse_make; auto.
      apply build_db in I.
      replace vs with (map (fun i => match index_of i (seq 0 (length ids)) with Some o => nth o vs None | None => None end) (seq 0 (length vs))); [exact I|].
      apply (nth_ext _ _ None None); [rewrite map_length, seq_length; reflexivity|]. rewrite map_length, seq_length. intros i Hi.
      rewrite nth_seq_map by exact Hi. rewrite seq_index. replace (i <? length ids) with true by lia. reflexivity.
Qed.

(** A sequence of Add(id, value) calls. *)
Fixpoint sb_adds (b : sbuilder A) (ops : list (nat * option A)) : option (sbuilder A) :=
  match ops with
  | [] => Some b
  | (id, v) :: t => let? b' := sb_add b id v in sb_adds b' t
  end.
Definition sb_inv (size max : nat) (b : sbuilder A) (ops : list (nat * option A)) : Prop :=
  sb_size b = size /\ sb_max b = max /\ sb_ids b = map fst ops /\
  db_inv max (sb_dense b) (fun j => nth j (map snd ops) None).
Lemma sb_adds_ok size max ops : forall b done, sb_inv size max b done -> length done + length ops <= max ->
  exists b', sb_adds b ops = Some b' /\ sb_inv size max b' (done ++ ops).
Proof.
  induction ops as [|[id v] t IH]; intros b done I L; cbn [sb_adds].
  - exists b. rewrite app_nil_r. auto.
  - cbn [length] in L. destruct I as (I1 & I2 & I3 & I4). unfold sb_add, sb_set, sb_add_id.
    rewrite I3, map_length.
    destruct (set_put max (sb_dense b) _ (length done) v I4 ltac:(lia)) as (d' & E & I').
    { apply nth_overflow. rewrite map_length. lia. }
    rewrite E. cbn [bind sb_ids sb_max sb_size sb_dense]. rewrite I2, push_ok by (rewrite map_length; lia).
    cbn [bind]. destruct (IH {| sb_size := sb_size b; sb_max := sb_max b; sb_ids := map fst done ++ [id]; sb_dense := d' |} (done ++ [(id, v)])) as (b' & Eb & Ib).
    + split; [exact I1|]. split; [exact I2|]. split; [cbn [sb_ids]; rewrite map_app; reflexivity|]. cbn [sb_dense].
      eapply db_ext; [exact I'|]. intros j _. unfold put. rewrite map_app. cbn [map snd].
      destruct (Nat.eqb_spec j (length done)) as [->|Ne].
      * rewrite app_nth2, map_length, Nat.sub_diag by (rewrite map_length; lia). reflexivity.
      * destruct (Nat.lt_ge_cases j (length done)).
        -- rewrite app_nth1 by (rewrite map_length; lia). reflexivity.
        -- rewrite !nth_overflow by (rewrite ?app_length, map_length; cbn [length]; lia). reflexivity.
    + rewrite app_length. cbn [length]. lia.
    + exists b'. split; [rewrite I2 in Eb; exact Eb|]. rewrite <- app_assoc in Ib. exact Ib.
Qed.
Lemma sparse_builder_ok (alloc : nat -> list A) addr size max ops : alloc_sz alloc ->
  ascending (map fst ops) -> Forall (fun c => fst c < size) ops -> length ops <= max ->
  exists b r, sb_adds (sb_init alloc size max) ops = Some b /\ sb_build addr b = Some r /\
    ar_rep r (map (by_id (map fst ops) (map snd ops)) (seq 0 size)).
Proof.
  intros HA As F L. destruct (sb_adds_ok size max ops (sb_init alloc size max) []) as (b & E & I1 & I2 & I3 & I4).
  - split; [reflexivity|]. split; [reflexivity|]. split; [reflexivity|]. cbn [sb_init sb_dense].
    pose proof (db_init_inv (alloc max)) as Q. rewrite HA in Q. eapply db_ext; [exact Q|]. intros [|i] _; reflexivity.
  - cbn [length]. lia.
  - cbn [app] in *. exists b. unfold sb_build. rewrite I1, I3, map_length.
    destruct (db_build_size_ok max (sb_dense b) _ (length ops) I4 L) as (r & Er & V & S & G).
    rewrite Er. cbn [bind]. eexists; split; [exact E|]. split; [reflexivity|]. apply sparse_make; [exact As| | |].
    + apply Forall_forall. intros x Hx. apply in_map_iff in Hx as (c & <- & Hc). rewrite Forall_forall in F. apply F. exact Hc.
    + rewrite !map_length. reflexivity.
    + apply represents_elem. rewrite map_length. split; [exact V|]. split; [exact S|]. exact G.
Qed.
End P.
