(** Proofs about the codecs of string arrays, arrays and edges. *)
From Verif Require Import Base Bits_Model Bits_Proofs Bitmap_Model Bitmap_Proofs Dense_Model Dense_Spec Dense_Proofs
  SBuf_Model IdFilter_Model IdFilter_Spec IdFilter_Proofs Array_Model Array_Spec Array_Proofs ArrayIter_Proofs ArrGroup_Proofs
  Edge_Model Edge_Spec Edge_Proofs ArrEdge_Model ArrEdge_Spec ArrEdge_Proofs
  Codec_Model Codec_Spec Codec_Proofs.

(** ** Strings *)
Lemma zslice_cut (chars : list Z) st en : (0 <= st <= en)%Z -> (en <= Z.of_nat (length chars))%Z ->
  zslice chars st (en - st) = Some (cut chars st en).
Proof.
  intros H L. unfold zslice, cut, zlen. destruct (Z.eqb_spec (en - st) 0) as [E|E]; [rewrite E; reflexivity|].
  replace ((0 <=? st) && (0 <=? en - st) && (st + (en - st) <=? Z.of_nat (length chars)))%Z with true; [reflexivity|].
  symmetry. rewrite !andb_true_iff, !Z.leb_le. lia.
Qed.
Definition off_cut (chars : list Z) (base : Z) (o : Z * Z) : list Z := cut chars (fst o - base) (snd o - base).
Lemma rep_rd {A} (a : darr A) l i x : represents a l -> i < length l -> nth i l None = Some x -> rd (vals a) i = Some x /\ da_pres a i = true.
Proof.
  intros R Hi E. apply represents_elem in R as (_ & _ & R). specialize (R i Hi). rewrite E in R. unfold da_elem in R.
  destruct (da_pres a i); [|destruct (rd (vals a) i); discriminate]. destruct (rd (vals a) i); [split; congruence|discriminate].
Qed.
Lemma rep_pres {A} (a : darr A) l i : represents a l -> i < length l -> da_pres a i = is_some (nth i l None).
Proof.
  intros R Hi. apply represents_elem in R as (_ & S & R). rewrite <- R by exact Hi. symmetry. rewrite (da_elem_pres a i) by lia. reflexivity.
Qed.

Lemma sd_rep_offsets a ol : sd_ok a -> represents (sd_arr a) ol -> sd_rep a (map (option_map (off_cut (sd_chars a) (sd_base a))) ol).
Proof.
  intros O R. pose proof R as (V & S & G). split; [exact V|]. rewrite map_length. split; [exact S|]. intros i Hi.
  unfold sd_get. rewrite G by exact Hi. cbn [bind].
  change (@None (list Z)) with (option_map (off_cut (sd_chars a) (sd_base a)) None). rewrite map_nth.
  destruct (nth i ol None) as [[st en]|] eqn:E; cbn [option_map]; [|reflexivity].
  destruct (rep_rd _ _ _ _ R Hi E) as [In_ _].
  pose proof (proj1 (Forall_forall _ _) O _ (nth_error_In _ _ In_)) as B. cbn [fst snd] in B.
  unfold off_cut. cbn [fst snd]. replace (en - st)%Z with ((en - sd_base a) - (st - sd_base a))%Z by lia. rewrite zslice_cut by lia. reflexivity.
Qed.
Lemma sd_rep_unique a l m : sd_rep a l -> sd_rep a m -> l = m.
Proof.
  intros (_ & L1 & H1) (_ & L2 & H2). apply nth_ext with (d := None) (d' := None); [lia|].
  intros i Hi. specialize (H1 i Hi). rewrite H2 in H1 by lia. congruence.
Qed.
Lemma sd_rep_char a l : sd_ok a -> sd_rep a l -> exists ol, represents (sd_arr a) ol /\ l = map (option_map (off_cut (sd_chars a) (sd_base a))) ol.
Proof.
  intros O R. destruct (represents_total (sd_arr a)) as (ol & Rol); [apply R|]. exists ol. split; [exact Rol|].
  apply (sd_rep_unique a); [exact R|apply sd_rep_offsets; assumption].
Qed.

Lemma skipn_nth_cons {A} (l : list A) i d : i < length l -> skipn i l = nth i l d :: skipn (S i) l.
Proof. revert i. induction l as [|y t IH]; intros [|i] H; cbn [length] in H; [lia|lia|reflexivity|]. cbn [skipn nth]. apply IH. lia. Qed.
Lemma offsets_loop_ok a ol : represents (sd_arr a) ol -> forall n i, i + n = length ol ->
  offsets_loop a i n = Some (map (fun o => (fst o - sd_base a)%Z) (somes (skipn i ol)), map (fun o => (snd o - sd_base a)%Z) (somes (skipn i ol))).
Proof.
  intros R. pose proof R as (V & S & G). induction n as [|n IH]; intros i Hi; cbn [offsets_loop].
  - rewrite skipn_all2 by lia. reflexivity.
  - rewrite da_present_ok by (try exact V; lia). cbn [bind]. rewrite (rep_pres _ _ _ R) by lia.
    rewrite (skipn_nth_cons ol i None) by lia. destruct (nth i ol None) as [[st en]|] eqn:E; cbn [is_some].
    + assert (Hl : i < length ol) by lia. destruct (rep_rd _ _ _ _ R Hl E) as [-> _]. cbn [bind]. rewrite IH by lia. cbn [bind somes flat_map app map fst snd]. reflexivity.
    + rewrite IH by lia. reflexivity.
Qed.
Lemma combine_map2 {A B C} (f : A -> B) (g : A -> C) l : combine (map f l) (map g l) = map (fun x => (f x, g x)) l.
Proof. induction l as [|x t IH]; [reflexivity|]. cbn [map combine]. f_equal. exact IH. Qed.
Lemma somes_map {A B} (f : A -> B) l : somes (map (option_map f) l) = map f (somes l).
Proof. unfold somes. induction l as [|[x|] t IH]; cbn [map option_map flat_map app]; [reflexivity|f_equal; exact IH|exact IH]. Qed.
Lemma nth_map_is_some {A B} (f : A -> B) l i : is_some (nth i (map (option_map f) l) None) = is_some (nth i l None).
Proof. change (@None B) with (option_map f None). rewrite map_nth. destruct (nth i l None); reflexivity. Qed.
Lemma tidy_map {A B} (f : A -> B) b l : tidy b l -> tidy b (map (option_map f) l).
Proof.
  intros (F & N & U). split; [exact F|]. rewrite map_length. split; [|exact U]. rewrite N. split; intros H o Ho E.
  - apply in_map_iff in Ho as (x & E2 & Hx). apply (H x Hx). destruct x; [subst; discriminate|reflexivity].
  - subst o. apply (H None); [|reflexivity]. apply in_map_iff. exists None. split; [reflexivity|exact Ho].
Qed.

Lemma encode_strings_ok a l : sd_ok a -> sd_rep a l ->
  exists p, encode_strings a = Some p /\ says_strings p l /\ tidy (sp_bitmap p) l.
Proof.
  intros O R. destruct (sd_rep_char a l O R) as (ol & Rol & ->). unfold encode_strings.
  destruct (gen_bitmap_ok (sd_arr a) ol Rol) as (b & -> & T & B & Sh). cbn [bind].
  assert (Sz : da_size (sd_arr a) = length ol) by apply Rol.
  rewrite (offsets_loop_ok a ol Rol) by (rewrite Sz; reflexivity). cbn [bind skipn]. eexists. split; [reflexivity|].
  cbn [sp_bitmap]. split; [|apply tidy_map; exact T].
  exists (sd_chars a). cbn [sp_chars sp_starts sp_ends sp_size sp_bitmap]. split; [reflexivity|]. split.
  - assert (I : forall o, In o (somes ol) -> In o (vals (sd_arr a))).
    { intros o Ho. unfold somes in Ho. apply in_flat_map in Ho as (x & Hx & Ho). destruct x as [x|]; [|destruct Ho]. destruct Ho as [->|[]].
      destruct (In_nth _ _ None Hx) as (i & Hi & E). destruct (rep_rd _ _ _ _ Rol Hi E) as [Er _]. eapply nth_error_In. exact Er. }
    unfold sd_ok in O. rewrite Forall_forall in O. induction (somes ol) as [|o t IH]; cbn [map]; [constructor|].
    constructor; [|apply IH; intros x Hx; apply I; right; exact Hx].
    specialize (O o (I o (or_introl eq_refl))). lia.
  - rewrite combine_map2, map_map. cbn [fst snd].
    apply (gen_describes (sd_arr a) ol _ _ b); [apply map_length|intros i _; apply nth_map_is_some|apply somes_map|exact B|exact Sh|exact Rol].
Qed.

Lemma check_offsets_ok size : forall ss es, length ss = length es ->
  match check_offsets ss es size with
  | None => Forall2 (fun st en => (0 <= st <= en)%Z /\ (en <= size)%Z) ss es
  | Some _ => ~ Forall2 (fun st en => (0 <= st <= en)%Z /\ (en <= size)%Z) ss es
  end.
Proof.
  induction ss as [|s ss IH]; intros [|e es] L; cbn [length] in L; try discriminate; cbn [check_offsets]; [constructor|].
  destruct (Z.ltb_spec s 0) as [H1|H1]; [intros F; inversion F; subst; lia|].
  destruct (Z.ltb_spec e s) as [H2|H2]; [intros F; inversion F; subst; lia|].
  destruct (Z.ltb_spec size e) as [H3|H3]; [intros F; inversion F; subst; lia|].
  specialize (IH es ltac:(lia)). destruct (check_offsets ss es size).
  - intros F. inversion F; subst. contradiction.
  - constructor; [lia|exact IH].
Qed.
Lemma Forall2_len {A B} (P : A -> B -> Prop) l m : Forall2 P l m -> length l = length m.
Proof. induction 1; cbn [length]; congruence. Qed.
Lemma Forall2_combine {A B} (P : A -> B -> Prop) l m : Forall2 P l m -> Forall (fun o => P (fst o) (snd o)) (combine l m).
Proof. induction 1; cbn [combine]; constructor; auto. Qed.

Lemma decode_strings_ok alloc p : (forall n, length (alloc n) = n) -> Forall (fun x => x < 2 ^ 32)%N (sp_bitmap p) ->
  fits (sp_size p) (sp_bitmap p) ->
  exists r, decode_strings alloc p = Some r /\
  match r with inl _ => forall l, ~ says_strings p l | inr a => sd_ok a /\ exists l, says_strings p l /\ sd_rep a l end.
Proof.
  intros HA F Fi. unfold decode_strings. destruct (header_ok _ _ Fi) as (r & -> & Hr). cbn [bind]. destruct r as [e|[n b]].
  { eexists. split; [reflexivity|]. intros l (ch & _ & _ & D). exact (Hr _ _ _ D). }
  destruct Hr as (-> & Es & Hb). destruct (sp_chars p) as [chars|] eqn:Ec.
  2: { eexists. split; [reflexivity|]. intros l (ch & E & _). congruence. }
  rewrite (count_shown _ _ Hb). cbn [bind]. set (bm := sp_bitmap p) in *.
  assert (NL : forall l, says_strings p l -> trues (bits_of bm n) = length (sp_starts p) /\ trues (bits_of bm n) = length (sp_ends p)).
  { intros l (ch & E & F2 & D). assert (Ln : length l = n). { destruct D as (A & _). rewrite Es in A. injection A as A. lia. }
    destruct (describes_eq _ _ _ _ n D Ln) as (_ & T). apply Forall2_len in F2. rewrite map_length, combine_length in T. unfold bm. lia. }
  destruct (Nat.eqb_spec (trues (bits_of bm n)) (length (sp_starts p))) as [C1|C1]; cbn [negb].
  2: { eexists. split; [reflexivity|]. intros l H. apply C1. apply (NL l H). }
  destruct (Nat.eqb_spec (trues (bits_of bm n)) (length (sp_ends p))) as [C2|C2]; cbn [negb].
  2: { eexists. split; [reflexivity|]. intros l H. apply C2. apply (NL l H). }
  pose proof (check_offsets_ok (Z.of_nat (length chars)) (sp_starts p) (sp_ends p) ltac:(lia)) as Ck.
  destruct (check_offsets (sp_starts p) (sp_ends p) (Z.of_nat (length chars))) as [e|].
  { eexists. split; [reflexivity|]. intros l (ch & E & F2 & _). assert (ch = chars) by congruence. subst. exact (Ck F2). }
  rewrite (iterate_shown _ _ Hb). cbn [bind].
  destruct (scatter_offsets_ok (bits_of bm n) (sp_starts p) (sp_ends p) 0 0 (alloc n)) as (d & Ed & Ld & _ & Pd & Qd); [rewrite HA, bits_length; reflexivity|lia|lia|].
  rewrite Ed. cbn [bind]. eexists. split; [reflexivity|]. cbn beta iota. cbn [skipn] in Pd.
  set (ol := place (bits_of bm n) (combine (sp_starts p) (sp_ends p))).
  assert (Cc : trues (bits_of bm n) = length (combine (sp_starts p) (sp_ends p))) by (rewrite combine_length; lia).
  assert (R : represents (mkD d bm 0) ol) by (apply placed_represents; try assumption; rewrite Ld; apply HA).
  assert (O : sd_ok (mkSD (mkD d bm 0) chars 0)).
  { unfold sd_ok. cbn [sd_base sd_chars sd_arr vals]. apply Forall_forall. intros o Ho. apply In_nth_error in Ho as (t & Et).
    assert (Lt : t < n). { rewrite <- (HA n), <- Ld. apply nth_error_Some. congruence. }
    destruct (nth t (bits_of bm n) false) eqn:B.
    - destruct (Pd t B) as (v & Ev & Pv). cbn [Nat.add] in Ev. unfold rd in Ev. assert (v = o) by congruence. subst v.
      assert (I : In o (combine (sp_starts p) (sp_ends p))).
      { rewrite <- (place_somes (bits_of bm n) (combine (sp_starts p) (sp_ends p)) Cc). unfold somes. apply in_flat_map. exists (Some o). split; [|left; reflexivity].
        rewrite <- Pv. apply nth_In. rewrite place_length, bits_length. exact Lt. }
      apply Forall2_combine in Ck. rewrite Forall_forall in Ck. specialize (Ck o I). lia.
    - specialize (Qd t ltac:(rewrite bits_length; exact Lt) B). cbn [Nat.add] in Qd. unfold rd in Qd. assert (o = (0%Z, 0%Z)) by congruence. subst o. cbn [fst snd]. lia. }
  split; [exact O|]. exists (map (option_map (fun o => cut chars (fst o) (snd o))) ol). split.
  - exists chars. split; [exact Ec|]. split; [exact Ck|]. fold bm. rewrite Es. apply describes_map. apply describes_place; assumption.
  - assert (E : map (option_map (fun o => cut chars (fst o) (snd o))) ol = map (option_map (off_cut chars 0)) ol).
    { apply map_ext. intros [[x y]|]; cbn [option_map]; [|reflexivity]. unfold off_cut. cbn [fst snd]. rewrite !Z.sub_0_r. reflexivity. }
    rewrite E. exact (sd_rep_offsets (mkSD (mkD d bm 0) chars 0) ol O R).
Qed.

Lemma says_unique {V} size bm (values : list V) l m : describes size bm values l -> describes size bm values m -> l = m.
Proof.
  intros D E. assert (L : length m = length l). { destruct D as (A & _). destruct E as (B & _). rewrite A in B. injection B as B. lia. }
  destruct (describes_eq _ _ _ _ _ D eq_refl) as (E1 & _). destruct (describes_eq _ _ _ _ _ E L) as (E2 & _). etransitivity; [exact E1|symmetry; exact E2].
Qed.

(** ** Arrays *)
Lemma descent_ok l : if has_descent l then exists i, S i < length l /\ (nth (S i) l 0 <= nth i l 0)%Z
  else forall i j, i < j < length l -> (nth i l 0 < nth j l 0)%Z.
Proof.
  induction l as [|x t IH]; [cbn [has_descent]; intros i j H; cbn [length] in H; lia|].
  destruct t as [|y t]; [cbn [has_descent]; intros i j H; cbn [length] in H; lia|].
  change (has_descent (x :: y :: t)) with ((y <=? x)%Z || has_descent (y :: t)). destruct (Z.leb_spec y x) as [H|H]; cbn [orb].
  - exists 0. cbn [length nth]. lia.
  - destruct (has_descent (y :: t)).
    + destruct IH as (i & L & Hi). exists (S i). cbn [length] in *. split; [lia|exact Hi].
    + assert (G : forall j, j < length (y :: t) -> (y <= nth j (y :: t) 0)%Z).
      { intros [|j] Hj; [cbn [nth]; lia|]. specialize (IH 0 (S j) ltac:(lia)). cbn [nth] in *. lia. }
      intros [|i] [|j] Hij; try lia.
      * change (nth 0 (x :: y :: t) 0%Z) with x. change (nth (S j) (x :: y :: t) 0%Z) with (nth j (y :: t) 0%Z). specialize (G j). cbn [length] in *. lia.
      * change (nth (S i) (x :: y :: t) 0%Z) with (nth i (y :: t) 0%Z). change (nth (S j) (x :: y :: t) 0%Z) with (nth j (y :: t) 0%Z). apply IH. cbn [length] in *. lia.
Qed.
Definition good_ids (limit : Z) (ids : list Z) : Prop :=
  (forall i j, i < j < length ids -> (nth i ids 0 < nth j ids 0)%Z) /\ Forall (fun x => (0 <= x < limit)%Z) ids.
Lemma decode_ids_ok n limit p : exists r, decode_ids n limit p = Some r /\
  match r with
  | inr ids => ids = ap_ids p /\ length ids = n /\ good_ids limit ids
  | inl _ => ~ (length (ap_ids p) = n /\ good_ids limit (ap_ids p))
  end.
Proof.
  unfold decode_ids. destruct (Nat.eqb_spec (length (ap_ids p)) n) as [L|L]; cbn [negb].
  2: { eexists. split; [reflexivity|]. intros [X _]. contradiction. }
  destruct (ap_ids p) as [|x t] eqn:E; [|rewrite <- E in *].
  { eexists. split; [reflexivity|]. cbn beta iota. split; [reflexivity|]. split; [exact L|]. split; [intros i j H; cbn [length] in H; lia|constructor]. }
  pose proof (descent_ok (ap_ids p)) as D. destruct (has_descent (ap_ids p)).
  { eexists. split; [reflexivity|]. intros [_ [A _]]. destruct D as (i & Hi & Hd). specialize (A i (S i) ltac:(lia)). lia. }
  assert (Hx : nth 0 (ap_ids p) 0%Z = x) by (rewrite E; reflexivity). assert (L0 : 0 < n) by (rewrite <- L, E; cbn [length]; lia).
  destruct (Z.ltb_spec x 0) as [N|N].
  { eexists. split; [reflexivity|]. intros [_ [_ F]]. rewrite Forall_forall in F. specialize (F x ltac:(rewrite E; left; reflexivity)). lia. }
  destruct (rd_lt (ap_ids p) (n - 1)) as [y Ey]; [lia|]. rewrite Ey. cbn [bind].
  assert (Hy : nth (n - 1) (ap_ids p) 0%Z = y) by (apply nth_error_nth; exact Ey).
  destruct (Z.leb_spec limit y) as [M|M].
  { eexists. split; [reflexivity|]. intros [_ [_ F]]. rewrite Forall_forall in F. specialize (F y (nth_error_In _ _ Ey)). lia. }
  eexists. split; [reflexivity|]. cbn beta iota. split; [reflexivity|]. split; [exact L|]. split; [exact D|].
  apply Forall_forall. intros z Hz. destruct (In_nth _ _ 0%Z Hz) as (k & Hk & <-).
  assert (nth 0 (ap_ids p) 0%Z <= nth k (ap_ids p) 0%Z)%Z by (destruct k; [lia|]; specialize (D 0 (S k)); lia).
  assert (nth k (ap_ids p) 0%Z <= nth (n - 1) (ap_ids p) 0%Z)%Z by (destruct (Nat.eq_dec k (n - 1)) as [->|]; [lia|]; specialize (D k (n - 1)); lia).
  lia.
Qed.

Lemma nth_to_nat ids i : nth i (map Z.to_nat ids) 0 = Z.to_nat (nth i ids 0%Z).
Proof. change 0 with (Z.to_nat 0) at 1. apply map_nth. Qed.
Lemma good_asc limit ids : good_ids limit ids -> ascending (map Z.to_nat ids) /\ Forall (fun i => i < Z.to_nat limit) (map Z.to_nat ids).
Proof.
  intros [A F]. rewrite Forall_forall in F. split.
  - intros i j H. rewrite map_length in H. rewrite !nth_to_nat. specialize (A i j H).
    assert (Hi : i < length ids) by lia. pose proof (F _ (nth_In ids 0%Z Hi)). lia.
  - apply Forall_forall. intros i Hi. apply in_map_iff in Hi as (z & <- & Hz). specialize (F z Hz). lia.
Qed.
Definition spread_list {V} (ids : list Z) (d : list (option V)) (m : option V) (n : nat) : list (option V) :=
  map (fun i => if mem i (map Z.to_nat ids) then by_id (map Z.to_nat ids) d i else m) (seq 0 n).
Lemma in_to_nat ids limit i : good_ids limit ids -> In i (map Z.to_nat ids) <-> In (Z.of_nat i) ids.
Proof.
  intros [_ F]. rewrite Forall_forall in F. rewrite in_map_iff. split.
  - intros (z & <- & Hz). specialize (F z Hz). rewrite Z2Nat.id by lia. exact Hz.
  - intros H. exists (Z.of_nat i). split; [apply Nat2Z.id|exact H].
Qed.
Lemma spread_ok {V} ids (d : list (option V)) m n : good_ids (Z.of_nat n) ids -> length ids = length d -> spread ids d m (spread_list ids d m n).
Proof.
  intros G L. destruct (good_asc _ _ G) as [As Bd]. rewrite Nat2Z.id in Bd. unfold spread, spread_list. rewrite map_length, seq_length.
  split; [exact L|]. split; [apply G|]. split; [apply G|]. split.
  - intros k Hk. rewrite <- nth_to_nat. rewrite Forall_forall in Bd.
    rewrite nth_seq_map by (apply Bd, nth_In; rewrite map_length; exact Hk).
    rewrite (proj2 (mem_In _ _)) by (apply nth_In; rewrite map_length; exact Hk).
    apply by_id_nth; [exact As|rewrite map_length; exact Hk].
  - intros i Hi N. rewrite nth_seq_map by exact Hi. rewrite (proj2 (mem_false _ _)); [reflexivity|].
    rewrite (in_to_nat _ _ _ G). exact N.
Qed.
Lemma spread_unique {V} ids (d : list (option V)) m l l' : length l = length l' -> spread ids d m l -> spread ids d m l' -> l = l'.
Proof.
  intros Ll (L & A & F & P & M) (_ & _ & _ & P' & M'). apply nth_ext with (d := None) (d' := None); [exact Ll|]. intros i Hi.
  destruct (in_dec Z.eq_dec (Z.of_nat i) ids) as [H|H].
  - destruct (In_nth _ _ 0%Z H) as (k & Hk & Ek). specialize (P k Hk). specialize (P' k Hk). rewrite Ek, Nat2Z.id in *. congruence.
  - rewrite M, M' by (try exact H; lia). reflexivity.
Qed.
Lemma spread_good {V} ids (d : list (option V)) m l : spread ids d m l -> length ids = length d /\ good_ids (Z.of_nat (length l)) ids.
Proof. intros (L & A & F & _). split; [exact L|]. split; assumption. Qed.

Lemma decode_array_ok {V} addr p (ins : list (input V)) : Forall good_input ins ->
  exists r, decode_array addr p ins = Some r /\
  match r with inl _ => forall l, ~ says_array p ins l | inr a => exists l, says_array p ins l /\ ar_rep a l end.
Proof.
  intros G. unfold decode_array, decode_array_size, says_array. destruct (ap_size p) as [n|] eqn:Es.
  2: { eexists. split; [reflexivity|]. intros l [E _]. discriminate. }
  destruct (Z.ltb_spec n 0) as [N|N]. { eexists. split; [reflexivity|]. intros l [E _]. injection E as E. lia. }
  destruct (Z.eqb_spec n 0) as [->|Nz].
  { destruct ins as [|i t].
    - destruct (ap_ids p) as [|x u] eqn:Ei.
      + eexists. split; [reflexivity|]. cbn beta iota. exists []. split; [split; [reflexivity|split; reflexivity]|]. exact (ar_const_rep 0 None).
      + eexists. split; [reflexivity|]. intros l (_ & _ & E). discriminate.
    - eexists. split; [reflexivity|]. intros l (E & H). injection E as E. destruct l as [|x u]; [|cbn [length] in E; lia].
      destruct i as [d| | |]; try contradiction. destruct t as [|[?|?|?|] [|? ?]]; try contradiction.
      + apply H. reflexivity.
      + destruct H as (dl & _ & H & _). cbn [length] in H. lia. }
  destruct ins as [|i t].
  { eexists. split; [reflexivity|]. intros l (E & -> & _). injection E as E. cbn [length] in E. lia. }
  destruct i as [d|o|a|]; try (eexists; split; [reflexivity|]; intros l (_ & []); fail).
  assert (Vd : da_valid d) by (inversion G; subst; assumption). destruct (represents_total d Vd) as (dl & Rd).
  assert (Sd : da_size d = length dl) by apply Rd.
  assert (One : forall l, Some n = Some (Z.of_nat (length l)) -> represents d l -> Z.of_nat (da_size d) = n).
  { intros l E R. injection E as E. destruct R as (_ & R & _). lia. }
  assert (Two : forall (l : list (option V)) dl', Some n = Some (Z.of_nat (length l)) -> represents d dl' -> length dl' < length l -> (Z.of_nat (da_size d) < n)%Z).
  { intros l dl' E R H. injection E as E. destruct R as (_ & R & _). lia. }
  destruct (Z.ltb_spec n (Z.of_nat (da_size d))) as [B|B].
  { eexists. split; [reflexivity|]. intros l (E & H). destruct t as [|[?|?|?|] [|? ?]]; try contradiction.
    - destruct H as (_ & _ & H). specialize (One l E H). lia.
    - destruct H as (dl' & R & H & _). specialize (Two l dl' E R H). lia. }
  destruct (Z.eqb_spec (Z.of_nat (da_size d)) n) as [Eq|Ne].
  { destruct t as [|i t].
    - destruct (ap_ids p) as [|x u] eqn:Ei.
      + eexists. split; [reflexivity|]. cbn beta iota. exists dl. split; [|apply ar_dense_rep; exact Rd]. split; [f_equal; lia|].
        split; [destruct dl; [cbn [length] in Sd; lia|discriminate]|]. split; [reflexivity|exact Rd].
      + eexists. split; [reflexivity|]. intros l (_ & _ & E & _). discriminate.
    - eexists. split; [reflexivity|]. intros l (E & H). destruct i as [?|?|?|]; try contradiction. destruct t; [|contradiction].
      destruct H as (dl' & R & H & _). specialize (Two l dl' E R H). lia. }
  destruct t as [|i t].
  { eexists. split; [reflexivity|]. intros l (E & _ & _ & R). specialize (One l E R). lia. }
  destruct i as [?|m|?|]; try (eexists; split; [reflexivity|]; intros l (_ & []); fail).
  destruct t as [|i t]; [|eexists; split; [reflexivity|]; intros l (_ & []); fail].
  destruct (decode_ids_ok (da_size d) n p) as (r & -> & Hr). cbn [bind]. destruct r as [e|ids].
  - eexists. split; [reflexivity|]. intros l (E & dl' & R & H & Sp). apply Hr. destruct (spread_good _ _ _ _ Sp) as [L Gi]. injection E as E.
    rewrite E. destruct R as (_ & R & _). split; [lia|exact Gi].
  - destruct Hr as (-> & L & Gi). eexists. split; [reflexivity|]. cbn beta iota. rewrite <- (Z2Nat.id n) in Gi by lia.
    exists (spread_list (ap_ids p) dl m (Z.to_nat n)). assert (Ln : length (spread_list (ap_ids p) dl m (Z.to_nat n)) = Z.to_nat n) by (unfold spread_list; rewrite map_length; apply seq_length).
    split.
    + split; [rewrite Ln; f_equal; lia|]. exists dl. split; [exact Rd|]. split; [lia|]. apply spread_ok; [exact Gi|lia].
    + destruct (good_asc _ _ Gi) as [As Bd]. rewrite Nat2Z.id in Bd. apply sparse_make_miss; [exact As|exact Bd|rewrite map_length; lia|exact Rd].
Qed.

Lemma encode_array_ok {V} (a : arr V) l : ar_rep a l -> let '(p, ins) := encode_array a in says_array p ins l /\ Forall good_input ins.
Proof.
  intros R. pose proof R as R0. apply ar_char in R. destruct R as (Wf & Sz & Fm & Rd & M). unfold encode_array. rewrite Sz.
  destruct (Nat.eqb_spec (length l) 0) as [Z|Z].
  { split; [|constructor]. unfold says_array. cbn [ap_size ap_ids]. destruct l; [|discriminate]. split; [reflexivity|]. split; reflexivity. }
  assert (Sd : da_size (ar_data a) = length (fids (length l) (ar_ids a))) by (destruct Rd as (_ & H & _); rewrite at_ids_len in H; exact H).
  assert (Vd : da_valid (ar_data a)) by apply Rd.
  destruct (Nat.eqb_spec (da_size (ar_data a)) (length l)) as [E|E].
  - split; [|constructor; [exact Vd|constructor]]. unfold says_array. cbn [ap_size ap_ids]. split; [reflexivity|].
    split; [destruct l; [cbn [length] in Z; lia|discriminate]|]. split; [reflexivity|].
    destruct (ar_ids a) as [| |ad ids off] eqn:Ei; cbn [fids length] in *; [lia|rewrite at_ids_seq in Rd; exact Rd|].
    rewrite map_length in Sd. destruct Wf as (_ & Wl & _). lia.
  - assert (K : exists ids off, filter_ids (ar_ids a) = (ids, off) /\ map (fun x => x - off) ids = fids (length l) (ar_ids a) /\ ids_in (length l) off ids).
    { destruct (ar_ids a) as [| |ad ids off]; cbn [fids filter_ids] in *.
      - exists [], 0. split; [reflexivity|]. split; [reflexivity|]. split; [intros i j H; cbn [length] in H; lia|constructor].
      - rewrite seq_length in Sd. lia.
      - exists ids, off. split; [reflexivity|]. split; [reflexivity|]. apply Wf. }
    destruct K as (ids & off & -> & Ef & As & Bd). split; [|constructor; [exact Vd|constructor; [exact I|constructor]]].
    unfold says_array. cbn [ap_size ap_ids]. split; [reflexivity|]. rewrite <- Ef in *. rewrite map_length in Sd.
    assert (Ll : length ids < length l).
    { destruct (Nat.lt_ge_cases (length ids) (length l)) as [Q|Q]; [exact Q|]. exfalso.
      destruct (fids_asc (length l) (ar_ids a)) as [A' B']. { destruct (ar_ids a); exact Wf || exact I. }
      rewrite <- Ef in A', B'. assert (Lq : length (map (fun x => x - off) ids) <= length l).
      { assert (Nd : NoDup (map (fun x => x - off) ids)).
        { apply (NoDup_nth _ 0). intros i j Hi Hj Eij. destruct (Nat.lt_trichotomy i j) as [Q1|[Q1|Q1]]; [specialize (A' i j ltac:(lia)); lia|exact Q1|specialize (A' j i ltac:(lia)); lia]. }
        rewrite <- (seq_length (length l) 0). apply NoDup_incl_length; [exact Nd|]. intros x Hx. rewrite Forall_forall in B'. specialize (B' x Hx). apply in_seq. lia. }
      rewrite map_length in Lq. lia. }
    set (zids := map (fun i => (Z.of_nat i - Z.of_nat off)%Z) ids). rewrite Forall_forall in Bd.
    assert (Nz : forall k, k < length ids -> nth k zids 0%Z = Z.of_nat (nth k ids 0 - off)).
    { intros k Hk. unfold zids. rewrite (nth_indep _ 0%Z (Z.of_nat 0 - Z.of_nat off)%Z) by (rewrite map_length; exact Hk).
      rewrite (map_nth (fun i => (Z.of_nat i - Z.of_nat off)%Z)). pose proof (Bd _ (nth_In ids 0 Hk)). lia. }
    assert (Lz : length zids = length ids) by apply map_length.
    exists (at_ids l (map (fun x => x - off) ids)). split; [exact Rd|]. rewrite at_ids_len, map_length. split; [exact Ll|].
    unfold spread. rewrite at_ids_len, map_length, Lz. split; [reflexivity|]. split; [|split; [|split]].
    + intros i j H. rewrite !Nz by lia. pose proof (As i j H). assert (Hi : i < length ids) by lia. pose proof (Bd _ (nth_In ids 0 Hi)). lia.
    + apply Forall_forall. intros z Hz. unfold zids in Hz. apply in_map_iff in Hz as (x & <- & Hx). specialize (Bd x Hx). lia.
    + intros k Hk. rewrite Nz by exact Hk. rewrite Nat2Z.id. rewrite at_ids_nth by (rewrite map_length; exact Hk).
      rewrite (nth_indep (map (fun x => x - off) ids) 0 (0 - off)) by (rewrite map_length; exact Hk). rewrite (map_nth (fun x => x - off)). reflexivity.
    + intros i Hi Ni. apply M; [exact Hi|]. intros Hin. apply Ni. apply in_map_iff in Hin as (x & Ex & Hx). unfold zids. apply in_map_iff. exists x. split; [|exact Hx]. specialize (Bd x Hx). lia.
Qed.

Lemma says_array_same {V} p (ins ins' : list (input V)) l : Forall2 same_input ins ins' -> says_array p ins l -> says_array p ins' l.
Proof.
  intros F (E & H). split; [exact E|]. destruct F as [|x x' t t' Fx F]; [exact H|].
  destruct x as [d|o|a|], x' as [d'|o'|a'|]; try contradiction; destruct F as [|y y' t t' Fy F]; try contradiction.
  - destruct Fx as (k & R & R'). destruct H as (H1 & H2 & H3). split; [exact H1|]. split; [exact H2|]. assert (k = l) by (apply (represents_unique d); assumption). congruence.
  - destruct y as [?|m|?|], y' as [?|m'|?|]; try contradiction. destruct F; [|contradiction]. cbn [same_input] in Fy. subst m'.
    destruct H as (dl & R & H). destruct Fx as (k & R1 & R'). exists dl. split; [|exact H]. assert (k = dl) by (apply (represents_unique d); assumption). congruence.
Qed.
Lemma same_good {V} (ins ins' : list (input V)) : Forall2 same_input ins ins' -> Forall good_input ins'.
Proof.
  induction 1 as [|x y t t' H F IH]; constructor; [|exact IH]. destruct x, y; try contradiction; cbn in *; try exact I.
  - destruct H as (l & _ & H). apply H.
  - destruct H as (l & _ & H). exists l. exact H.
Qed.
Lemma says_array_unique {V} p (ins : list (input V)) l l' : says_array p ins l -> says_array p ins l' -> l = l'.
Proof.
  intros (E & H) (E' & H'). assert (L : length l = length l') by (rewrite E in E'; injection E' as E'; lia).
  destruct ins as [|[d|?|?|] [|[?|m|?|] [|? ?]]]; try contradiction.
  - destruct H as [-> _]. destruct H' as [-> _]. reflexivity.
  - destruct H as (_ & _ & H). destruct H' as (_ & _ & H'). apply (represents_unique d); assumption.
  - destruct H as (dl & R & _ & S). destruct H' as (dl' & R' & _ & S'). assert (dl = dl') by (apply (represents_unique d); assumption). subst dl'.
    apply (spread_unique (ap_ids p) dl m); assumption.
Qed.

Lemma array_roundtrip_ok {V} addr (a : arr V) l ins' : ar_rep a l -> Forall2 same_input (snd (encode_array a)) ins' ->
  exists a', decode_array addr (fst (encode_array a)) ins' = Some (inr a') /\ ar_rep a' l /\
    (l <> [] -> fids (length l) (ar_ids a') = fids (length l) (ar_ids a) /\ ar_miss a' = ar_miss a /\
       is_const_form a' = is_const_form a /\ is_dense_form a' = is_dense_form a /\ is_sparse_form a' = is_sparse_form a).
Proof.
  intros R Sm. pose proof (encode_array_ok a l R) as En. destruct (decode_array_ok addr (fst (encode_array a)) ins' (same_good _ _ Sm)) as (r & Er & Hr).
  destruct (encode_array a) as [p ins] eqn:Ee. cbn [fst snd] in *. destruct En as [Sy _].
  pose proof (says_array_same _ _ _ _ Sm Sy) as Sy'. destruct r as [e|a']; [destruct (Hr l Sy')|].
  destruct Hr as (l' & S2 & R'). assert (l' = l) by (apply (says_array_unique p ins'); assumption). subst l'.
  exists a'. split; [exact Er|]. split; [exact R'|]. intros Nl.
  assert (L0 : length l <> 0) by (destruct l; [congruence|discriminate]).
  apply ar_char in R. destruct R as (Wf & Sz & Fm & Rd & M). unfold encode_array in Ee. rewrite Sz in Ee.
  destruct (Nat.eqb_spec (length l) 0) as [Z|_]; [contradiction|].
  assert (Sd : da_size (ar_data a) = length (fids (length l) (ar_ids a))) by (destruct Rd as (_ & H & _); rewrite at_ids_len in H; exact H).
  unfold decode_array in Er. unfold decode_array_size in Er.
  destruct (Nat.eqb_spec (da_size (ar_data a)) (length l)) as [E|E].
  - injection Ee as <- <-. cbn [ap_size ap_ids] in Er. inversion Sm as [|x y t t' Fx F]; subst. inversion F; subst. destruct y as [d'|?|?|]; try contradiction.
    assert (Sd' : da_size d' = length l). { destruct Fx as (k & (_ & K1 & _) & (_ & K2 & _)). lia. }
    rewrite (proj2 (Z.ltb_ge (Z.of_nat (length l)) 0)) in Er by lia.
    rewrite (proj2 (Z.eqb_neq (Z.of_nat (length l)) 0)) in Er by lia. rewrite Sd' in Er. rewrite Z.ltb_irrefl, Z.eqb_refl in Er. injection Er as <-.
    destruct (ar_ids a) as [| |ad ids off] eqn:Ei; cbn [fids length] in *; [lia| |rewrite map_length in Sd; destruct Wf as (_ & Wl & _); lia].
    unfold is_const_form, is_dense_form, is_sparse_form. rewrite Ei. cbn [ar_dense ar_ids ar_miss fids]. rewrite (Fm eq_refl). repeat split; reflexivity.
  - destruct (filter_ids (ar_ids a)) as [ids off] eqn:Ef. injection Ee as <- <-. cbn [ap_size ap_ids] in Er.
    inversion Sm as [|x y t t' Fx F]; subst. destruct y as [d'|?|?|]; try contradiction.
    inversion F as [|x2 y2 t2 t2' Fx2 F2]; subst. destruct y2 as [?|m'|?|]; try contradiction. inversion F2; subst. cbn [same_input] in Fx2. subst m'.
    assert (Sd' : da_size d' = da_size (ar_data a)). { destruct Fx as (k & (_ & K1 & _) & (_ & K2 & _)). lia. }
    destruct Sy' as (_ & dl & Rdl & Ldl & Sp). cbn [ap_ids] in Sp. assert (Ldd : da_size d' = length dl) by apply Rdl.
    rewrite (proj2 (Z.ltb_ge (Z.of_nat (length l)) 0)) in Er by lia.
    rewrite (proj2 (Z.eqb_neq (Z.of_nat (length l)) 0)) in Er by lia.
    rewrite (proj2 (Z.ltb_ge (Z.of_nat (length l)) (Z.of_nat (da_size d')))) in Er by lia.
    rewrite (proj2 (Z.eqb_neq (Z.of_nat (da_size d')) (Z.of_nat (length l)))) in Er by lia.
    destruct (decode_ids_ok (da_size d') (Z.of_nat (length l)) (mkAP (Some (Z.of_nat (length l))) (map (fun i => (Z.of_nat i - Z.of_nat off)%Z) ids))) as (q & Eq & Hq).
    rewrite Eq in Er. cbn [bind] in Er. destruct q as [e|zs]; [discriminate|]. destruct Hq as (Ez & Lz & Gz). cbn [ap_ids] in Ez.
    injection Er as Er. rewrite Nat2Z.id in Er. set (nids := map Z.to_nat zs) in *.
    destruct (good_asc _ _ Gz) as [As Bd]. rewrite Nat2Z.id in Bd. fold nids in As, Bd.
    assert (II : ids_in (length l) 0 nids) by (split; [exact As|]; eapply Forall_impl; [|exact Bd]; cbn beta; intros; lia).
    destruct (mk_filter_ok (length l) addr nids 0 II) as [_ Ff].
    assert (Ln : length nids < length l) by (unfold nids; rewrite map_length; lia).
    assert (En : nids = map (fun x => x - off) ids).
    { unfold nids. rewrite Ez, map_map. apply map_ext. intros x. lia. }
    assert (Ef2 : fids (length l) (ar_ids a) = nids).
    { destruct (ar_ids a) as [| |ad i2 o2]; cbn [filter_ids fids] in *; injection Ef as <- <-; [rewrite En; reflexivity| |rewrite En; reflexivity].
      rewrite seq_length in Sd. lia. }
    assert (Ff2 : fids (length l) (mk_filter (length l) addr nids 0) = nids).
    { rewrite Ff. rewrite <- (map_id nids) at 2. apply map_ext. intros x. lia. }
    assert (Nf : mk_filter (length l) addr nids 0 <> FFull).
    { unfold mk_filter. destruct nids eqn:En2; [discriminate|]. rewrite <- En2 in *. rewrite (proj2 (Nat.eqb_neq (length nids) (length l))) by lia. discriminate. }
    subst a'. cbn [ar_make ar_ids ar_miss]. split; [rewrite Ff2, Ef2; reflexivity|].
    split; [destruct (mk_filter (length l) addr nids 0); [reflexivity|congruence|reflexivity]|].
    unfold is_const_form, is_dense_form, is_sparse_form. cbn [ar_make ar_ids].
    destruct (ar_ids a) as [| |ad i2 o2]; cbn [fids filter_ids] in *.
    + rewrite <- Ef2. cbn [mk_filter]. repeat split; reflexivity.
    + rewrite seq_length in Sd. lia.
    + destruct Wf as (W1 & _). injection Ef as <- <-. destruct nids as [|x t] eqn:En2; [destruct i2; [congruence|discriminate]|].
      destruct (mk_filter (length l) addr (x :: t) 0) eqn:Em; [|congruence|repeat split; reflexivity].
      exfalso. unfold mk_filter in Em. destruct (_ =? _); discriminate.
Qed.

(** ** Edges *)
Definition points_of (l : list (option Z)) : list nat := map (fun o => match o with Some z => Z.to_nat z | None => 0 end) l.
Lemma points_of_zs s : points_of (map (fun x => Some (Z.of_nat x)) s) = s.
Proof. unfold points_of. rewrite map_map. rewrite <- (map_id s) at 2. apply map_ext. intros x. apply Nat2Z.id. Qed.
Definition oz_dec (x y : option Z) : {x = y} + {x <> y}.
Proof. decide equality. apply Z.eq_dec. Defined.
Lemma splits_dec l : (exists s, splits s /\ l = map (fun x => Some (Z.of_nat x)) s) \/ (forall s, splits s -> l <> map (fun x => Some (Z.of_nat x)) s).
Proof.
  set (s := points_of l). destruct (list_eq_dec oz_dec l (map (fun x => Some (Z.of_nat x)) s)) as [E|E].
  2: { right. intros s' _ E'. apply E. unfold s. rewrite E', points_of_zs. reflexivity. }
  assert (Us : forall s', l = map (fun x => Some (Z.of_nat x)) s' -> s' = s) by (intros s' E'; unfold s; rewrite E', points_of_zs; reflexivity).
  destruct (list_eq_dec Nat.eq_dec s []) as [E1|E1]; [right; intros s' (H & _) E'; apply Us in E'; subst s'; contradiction|].
  destruct (Nat.eq_dec (nth 0 s 0) 0) as [E2|E2]; [|right; intros s' (_ & H & _) E'; apply Us in E'; subst s'; contradiction].
  destruct (forallb (fun i => forallb (fun j => (j <? i) || (nth i s 0 <=? nth j s 0)) (seq 0 (length s))) (seq 0 (length s))) eqn:F.
  - left. exists s. split; [|exact E]. split; [exact E1|]. split; [exact E2|]. intros i j H.
    rewrite forallb_forall in F. specialize (F i ltac:(apply in_seq; lia)). rewrite forallb_forall in F. specialize (F j ltac:(apply in_seq; lia)).
    apply orb_true_iff in F as [F|F]; [apply Nat.ltb_lt in F; lia|apply Nat.leb_le in F; exact F].
  - right. intros s' (_ & _ & H) E'. apply Us in E'. subst s'. apply not_true_iff_false in F. apply F. apply forallb_forall. intros i Hi. apply forallb_forall. intros j Hj.
    apply in_seq in Hi, Hj. apply orb_true_iff. destruct (Nat.lt_ge_cases j i) as [Q|Q]; [left; apply Nat.ltb_lt; exact Q|right; apply Nat.leb_le; apply H; lia].
Qed.
Lemma range_dec l P : ((0 <= P)%Z /\ in_range l P) \/ ~ ((0 <= P)%Z /\ in_range l P).
Proof.
  destruct (Z.le_gt_cases 0 P) as [H|H]; [|right; lia].
  destruct (forallb (fun o => match o with Some v => (0 <=? v)%Z && (v <? P)%Z | None => true end) l) eqn:F.
  - left. split; [exact H|]. intros v Hv. rewrite forallb_forall in F. specialize (F _ Hv). cbn beta iota in F. apply andb_true_iff in F. lia.
  - right. intros [_ R]. apply not_true_iff_false in F. apply F. apply forallb_forall. intros [v|] Hv; [|reflexivity]. specialize (R v Hv). lia.
Qed.
Lemma in_range_zopt m q : in_range (map zopt m) (Z.of_nat q) <-> forall c r, nth c m None = Some r -> r < q.
Proof.
  split.
  - intros H c r E. specialize (H (Z.of_nat r)). assert (Hc : c < length m) by (destruct (Nat.lt_ge_cases c (length m)) as [Q|Q]; [exact Q|rewrite nth_overflow in E by exact Q; discriminate]).
    assert (I : In (Some (Z.of_nat r)) (map zopt m)) by (apply in_map_iff; exists (Some r); split; [reflexivity|rewrite <- E; apply nth_In; exact Hc]). specialize (H I). lia.
  - intros H v Hv. apply in_map_iff in Hv as ([r|] & E & Hr); [|discriminate]. cbn [zopt option_map] in E. injection E as <-.
    destruct (In_nth _ _ None Hr) as (c & _ & Ec). specialize (H c r Ec). lia.
Qed.
Lemma says_edge_unique strict p l b q m b' q' m' : says_edge strict p l b q m -> says_edge strict p l b' q' m' -> b = b' /\ q = q' /\ m = m'.
Proof.
  unfold says_edge. destruct b, b'.
  - intros (_ & _ & s & _ & -> & L & ->) (_ & _ & s' & _ & E & L' & ->). apply (f_equal points_of) in E. rewrite !points_of_zs in E. subst s'. split; [reflexivity|]. split; [lia|reflexivity].
  - intros (A & _) (B & _). congruence.
  - intros (A & _) (B & _). congruence.
  - intros (_ & P & -> & _) (_ & P' & E & _). apply map_zopt_inj in E. split; [reflexivity|]. split; [|exact E]. rewrite P in P'. injection P' as P'. lia.
Qed.
Lemma decode_edge_ok p a l : represents a l ->
  exists r, decode_edge p [InDense a] = Some r /\
  match r with
  | inl _ => forall b q m, ~ says_edge true p l b q m
  | inr e => exists q m, says_edge true p l (e_split e) q m /\ edge_rep e q m
  end.
Proof.
  intros R. unfold decode_edge, decode_edge_type. destruct (ep_type p) as [t|] eqn:Et.
  2: { eexists. split; [reflexivity|]. intros [] q m (E & _); congruence. }
  destruct (Z.eqb_spec t 1) as [->|N1].
  - destruct (ep_parent p) as [P|] eqn:Ep.
    2: { eexists. split; [reflexivity|]. intros [] q m; [intros (E & _)|intros (_ & E & _)]; congruence. }
    destruct (from_mapping_ok a l P R) as [Y N]. destruct (range_dec l P) as [D|D].
    + destruct (Y D) as (e & m & Ee & El & Es & Re). rewrite Ee. cbn [edge_result bind]. eexists. split; [reflexivity|]. cbn beta iota. exists (Z.to_nat P), m.
      split; [|exact Re]. rewrite Es. cbn [says_edge]. split; [exact Et|]. split; [rewrite Ep; f_equal; lia|]. split; [exact El|].
      apply in_range_zopt. rewrite <- El, Z2Nat.id by lia. apply D.
    + destruct (N D) as (err & ->). eexists. split; [reflexivity|]. intros [] q m; [intros (E & _); congruence|]. intros (_ & E & El & H).
      apply D. rewrite Ep in E. injection E as ->. split; [lia|]. rewrite El. apply in_range_zopt. exact H.
  - destruct (Z.eqb_spec t 2) as [->|N2].
    2: { eexists. split; [reflexivity|]. intros [] q m (E & _); congruence. }
    destruct (ep_parent p) as [P|] eqn:Ep.
    { eexists. split; [reflexivity|]. intros [] q m; [intros (_ & E & _); specialize (E eq_refl)|intros (E & _)]; congruence. }
    destruct (from_split_points_ok a l R) as [Y N]. destruct (splits_dec l) as [(s & Hs & El)|D].
    + destruct (Y s Hs El) as (e & Ee & Es & Re). rewrite Ee. cbn [edge_result bind]. eexists. split; [reflexivity|]. cbn beta iota.
      exists (length s - 1), (split_mapping s). split; [|exact Re]. rewrite Es. cbn [says_edge]. split; [exact Et|]. split; [intros _; exact Ep|].
      exists s. split; [exact Hs|]. split; [exact El|]. split; [|reflexivity]. destruct Hs as (Hs & _). destruct s; [congruence|cbn [length]; lia].
    + destruct (N D) as (err & ->). eexists. split; [reflexivity|]. intros [] q m; [|intros (E & _); congruence]. intros (_ & _ & s & Hs & El & _). exact (D s Hs El).
Qed.
Lemma split_of_mapping s p m : split_of s p m -> m = split_mapping s.
Proof.
  intros H. apply (split_unique_m s p); [exact H|]. pose proof H as (Hs & L & _). pose proof (split_mapping_ok s Hs) as K. rewrite L in K. replace (S p - 1) with p in K by lia. exact K.
Qed.
Lemma encode_edge_ok strict e q m : edge_rep e q m -> exists l, represents (e_vals e) l /\ says_edge strict (encode_edge (e_split e) (e_parent e)) l (e_split e) q m.
Proof.
  intros R. destruct (e_split e) eqn:Es.
  - apply edge_rep_split in R; [|exact Es]. destruct R as (_ & _ & s & H & R). rewrite <- zs_some in R. eexists. split; [exact R|]. cbn [says_edge encode_edge ep_type ep_parent].
    split; [reflexivity|]. split; [reflexivity|]. exists s. split; [apply H|]. split; [reflexivity|]. split; [apply H|]. exact (split_of_mapping _ _ _ H).
  - apply edge_rep_mapping in R; [|exact Es]. destruct R as (P & _ & H & R). eexists. split; [exact R|]. cbn [says_edge encode_edge ep_type ep_parent]. rewrite P.
    split; [reflexivity|]. split; [reflexivity|]. split; [reflexivity|exact H].
Qed.

Lemma decode_aedge_ok alloc allocw p a l : alloc_sz alloc -> allocw_ok allocw -> ar_rep a l ->
  exists r, decode_array_edge alloc allocw p [InArr a] = Some r /\
  match r with
  | inl _ => forall b q m, ~ says_edge false p l b q m
  | inr e => exists q m, says_edge false p l (ae_split e) q m /\ aedge_rep e q m
  end.
Proof.
  intros HA HW R. unfold decode_array_edge, decode_edge_type. destruct (ep_type p) as [t|] eqn:Et.
  2: { eexists. split; [reflexivity|]. intros [] q m (E & _); congruence. }
  destruct (Z.eqb_spec t 1) as [->|N1].
  - unfold decode_parent. destruct (ep_parent p) as [P|] eqn:Ep.
    2: { eexists. split; [reflexivity|]. intros [] q m; [intros (E & _)|intros (_ & E & _)]; congruence. }
    destruct (Z.ltb_spec P 0) as [Ng|Ng].
    { eexists. split; [reflexivity|]. intros [] q m; [intros (E & _); congruence|]. intros (_ & E & _). rewrite Ep in E. injection E as E. lia. }
    destruct (ae_from_mapping_ok a l P R) as [Y N]. destruct (range_dec l P) as [D|D].
    + destruct (Y D) as (e & m & Ee & El & Es & Re). rewrite Ee. cbn [edge_result bind]. eexists. split; [reflexivity|]. cbn beta iota. exists (Z.to_nat P), m.
      split; [|exact Re]. rewrite Es. cbn [says_edge]. split; [exact Et|]. split; [rewrite Ep; f_equal; lia|]. split; [exact El|].
      apply in_range_zopt. rewrite <- El, Z2Nat.id by lia. apply D.
    + destruct (N D) as (err & ->). eexists. split; [reflexivity|]. intros [] q m; [intros (E & _); congruence|]. intros (_ & E & El & H).
      apply D. rewrite Ep in E. injection E as ->. split; [lia|]. rewrite El. apply in_range_zopt. exact H.
  - destruct (Z.eqb_spec t 2) as [->|N2].
    2: { eexists. split; [reflexivity|]. intros [] q m (E & _); congruence. }
    destruct (ae_from_split_points_ok alloc allocw HA HW a l R) as [Y N]. destruct (splits_dec l) as [(s & Hs & El)|D].
    + destruct (Y s Hs El) as (e & Ee & Es & Re). rewrite Ee. cbn [edge_result bind]. eexists. split; [reflexivity|]. cbn beta iota.
      exists (length s - 1), (split_mapping s). split; [|exact Re]. rewrite Es. cbn [says_edge]. split; [exact Et|]. split; [discriminate|].
      exists s. split; [exact Hs|]. split; [exact El|]. split; [|reflexivity]. destruct Hs as (Hs & _). destruct s; [congruence|cbn [length]; lia].
    + destruct (N D) as (err & ->). eexists. split; [reflexivity|]. intros [] q m; [|intros (E & _); congruence]. intros (_ & _ & s & Hs & El & _). exact (D s Hs El).
Qed.
Lemma encode_aedge_ok strict e q m : aedge_rep e q m -> exists l, ar_rep (ae_vals e) l /\ says_edge strict (encode_edge (ae_split e) (ae_parent e)) l (ae_split e) q m.
Proof.
  intros (P & C & B & H). destruct (ae_split e) eqn:Es.
  - destruct H as (_ & s & H1 & H2 & H3 & H4 & H5). eexists. split; [exact H4|]. cbn [says_edge encode_edge ep_type ep_parent].
    split; [reflexivity|]. split; [reflexivity|]. exists s. split; [exact H1|]. split; [reflexivity|]. split; [exact H2|].
    apply (split_of_mapping s q). split; [exact H1|]. split; [exact H2|]. split; [exact H3|exact H5].
  - eexists. split; [exact H|]. cbn [says_edge encode_edge ep_type ep_parent]. rewrite P. split; [reflexivity|]. split; [reflexivity|]. split; [reflexivity|exact B].
Qed.
