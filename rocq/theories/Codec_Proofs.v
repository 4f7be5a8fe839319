(** Proofs about the codecs of dense arrays. *)
From Verif Require Import Base Bits_Model Bits_Proofs Bitmap_Model Bitmap_Proofs Dense_Model Dense_Spec Dense_Proofs
  SBuf_Model IdFilter_Model Array_Model Array_Spec Edge_Model ArrEdge_Model Codec_Model Codec_Spec.

Lemma wbit_bt ws i : wbit ws i = bt ws i.
Proof.
  unfold wbit, bit, get_bit, rd. destruct (nth_error ws (i / W)) as [x|] eqn:E; cbn [bind].
  - rewrite (nth_error_nth ws (i / 32) 0%N E). reflexivity.
  - apply nth_error_None in E. rewrite nth_overflow by exact E. apply N.bits_0.
Qed.
Lemma shown_pres {A} (v : list A) bm i : shown bm i = da_pres (mkD v bm 0) i.
Proof. unfold shown, da_pres. cbn [bmp boff]. destruct bm; [reflexivity|]. rewrite wbit_bt, Nat.add_0_r. reflexivity. Qed.

(** Two word lists of the same length with the same bits. *)
Lemma words_ext ws ws' : Forall (wok W) ws -> Forall (wok W) ws' -> length ws = length ws' ->
  (forall i, i < W * length ws -> bt ws i = bt ws' i) -> ws = ws'.
Proof.
  intros F F' L H. apply list_eq_rd. intros q.
  destruct (Nat.lt_ge_cases q (length ws)) as [Hq|Hq].
  2: { rewrite (proj2 (rd_None_ge ws q) Hq). symmetry. apply rd_None_ge. lia. }
  destruct (rd_lt ws q Hq) as [x Ex]. destruct (rd_lt ws' q) as [y Ey]; [lia|]. rewrite Ex, Ey. f_equal. apply tb_inj. intros r.
  pose proof (proj1 (Forall_forall _ _) F x (nth_error_In _ _ Ex)) as Wx.
  pose proof (proj1 (Forall_forall _ _) F' y (nth_error_In _ _ Ey)) as Wy.
  destruct (Nat.lt_ge_cases r W) as [Hr|Hr]; [|rewrite Wx, Wy by exact Hr; reflexivity].
  specialize (H (W * q + r)). unfold bit in H. rewrite !(get_bit_at W H32) in H by exact Hr. rewrite Ex, Ey in H. cbn [bind] in H.
  apply H. lia.
Qed.

Lemma gen_bitmap_ok {A} (a : darr A) l : represents a l ->
  exists b, gen_bitmap (bmp a) (boff a) (da_size a) = Some b /\ tidy b l /\
    (b = [] \/ length b = bitmap_size (length l)) /\
    forall i, i < length l -> is_some (nth i l None) = shown b i.
Proof.
  intros R. pose proof R as R0. apply represents_elem in R. destruct R as (V & S & E).
  assert (P : forall i, i < length l -> is_some (nth i l None) = da_pres a i).
  { intros i Hi. rewrite <- E by exact Hi. rewrite (da_elem_pres a i) by lia. unfold is_some. reflexivity. }
  unfold gen_bitmap. pose proof (rep_count a l R0) as C. unfold da_present_count in C. rewrite C. cbn [bind]. rewrite S.
  destruct (Nat.eqb_spec (length (filter is_some l)) (length l)) as [F|F].
  - exists []. split; [reflexivity|].
    assert (All : forall o, In o l -> o <> None).
    { intros o Ho ->.
      assert (G : length (filter is_some l) < length l).
      { clear - Ho. induction l as [|x t IH]; [destruct Ho|]. cbn [filter length]. destruct Ho as [->|Ho].
        - cbn [is_some]. assert (L : length (filter is_some t) <= length t) by (clear; induction t as [|y t IH]; [cbn; lia|cbn [filter]; destruct (is_some y); cbn [length]; lia]). lia.
        - specialize (IH Ho). destruct (is_some x); cbn [length]; lia. }
      lia. }
    split; [|split; [left; reflexivity|]].
    + split; [constructor|]. split; [tauto|]. intros N. destruct (N eq_refl).
    + intros i Hi. cbn [shown]. specialize (All (nth i l None) (nth_In _ _ Hi)). destruct (nth i l None); [reflexivity|destruct (All eq_refl)].
  - assert (Hm : exists o, In o l /\ o = None).
    { clear - F. induction l as [|x t IH]; [cbn in F; lia|]. destruct x as [x|]; [|exists None; cbn; auto].
      cbn [filter is_some length] in F. destruct IH as (o & Ho & E); [lia|]. exists o. split; [right; exact Ho|exact E]. }
    destruct Hm as (o & Ho & ->).
    assert (Nb : bmp a <> []).
    { intros Eb. destruct (In_nth _ _ None Ho) as (i & Hi & Ei). specialize (P i Hi). rewrite Ei in P. unfold da_pres in P. rewrite Eb in P. discriminate. }
    assert (L0 : 0 < length l) by (destruct l; [destruct Ho|cbn [length]; lia]).
    destruct V as (V1 & V2 & V3). destruct V3 as [V3|V3]; [destruct (Nb V3)|].
    set (n := length l) in *. set (k := bitmap_size n).
    assert (K1 : n <= W * k) by apply bitmap_size_ge. assert (K2 : W * k < n + W) by apply bitmap_size_lt.
    assert (K0 : 0 < k) by lia.
    destruct (words_with_offset_ok (bmp a) (boff a) k (words_ok _ V2) V1 0) as (ws & Ew & Lw & Fw & Bw).
    rewrite Ew. cbn [bind].
    assert (Bt : forall i, i < n -> bt ws i = is_some (nth i l None)).
    { intros i Hi. rewrite Bw by lia. cbn [Nat.add]. rewrite P by exact Hi. unfold da_pres.
      destruct (bmp a) as [|w0 wt] eqn:Eb; [destruct (Nb eq_refl)|]. rewrite <- Eb in *.
      destruct (Nat.ltb_spec (i / W) (length (bmp a))) as [Q|Q].
      - f_equal. lia.
      - exfalso. pose proof (divmod W i H32). pose proof (bitmap_size_ge (length (vals a) + boff a)) as G. rewrite <- V3 in G.
        unfold da_size in S. lia. }
    assert (Fin : forall b, length b = k -> Forall (wok W) b -> (forall i, i < W * k -> bt b i = (i <? n) && bt ws i) ->
      tidy b l /\ (b = [] \/ length b = bitmap_size n) /\ forall i, i < n -> is_some (nth i l None) = shown b i).
    { intros b Lb Fb Bb. assert (Nb' : b <> []) by (intros ->; cbn [length] in Lb; lia). split; [|split; [right; exact Lb|]].
      - split; [apply wok_words; exact Fb|]. split.
        + split; [intros ->; destruct (Nb' eq_refl)|]. intros H. destruct (H None Ho eq_refl).
        + intros _ i Hi. rewrite wbit_bt. destruct (Nat.lt_ge_cases i (W * k)) as [Hk|Hk].
          * rewrite Bb by exact Hk. replace (i <? n) with false by (symmetry; apply Nat.ltb_ge; exact Hi). reflexivity.
          * unfold bit. replace (gb b i) with (@None bool); [reflexivity|]. symmetry. apply (get_bit_None W H32). lia.
      - intros i Hi. unfold shown. destruct b as [|b0 bt'] eqn:Eb; [destruct (Nb' eq_refl)|]. rewrite <- Eb in *. rewrite wbit_bt.
        rewrite Bb by lia. rewrite Bt by exact Hi. replace (i <? n) with true by (symmetry; apply Nat.ltb_lt; exact Hi). reflexivity. }
    destruct (Nat.eqb_spec (n mod W) 0) as [M|M]; cbn [negb].
    + exists ws. split; [reflexivity|]. apply Fin; [exact Lw|exact Fw|]. intros i Hi.
      assert (Hn : W * k = n). { pose proof (divmod W n H32). lia. }
      replace (i <? n) with true by (symmetry; apply Nat.ltb_lt; lia). reflexivity.
    + pose proof (divmod W n H32) as D. assert (Hq : n / W = k - 1) by lia.
      destruct (rd_lt ws (k - 1)) as [x Ex]; [lia|]. rewrite Ex. cbn [bind].
      destruct (wshl_def W 1 (n mod W)) as [m Em]; [lia|]. rewrite Em. cbn [bind].
      destruct (upd_lt ws (k - 1) (N.land x (m - 1))) as [b Eb]; [lia|]. exists b. split; [exact Eb|].
      assert (Tm : forall i, i < W -> tb (m - 1) i = (i <? n mod W)).
      { intros i Hi. unfold wshl in Em. replace (n mod W <? W) with true in Em by (symmetry; apply Nat.ltb_lt; lia).
        assert (Em' : m = N.land (N.shiftl 1 (N.of_nat (n mod W))) (wones W)) by congruence. rewrite Em'. unfold wones.
        rewrite N.shiftl_1_l. rewrite N.land_ones. rewrite N.mod_small by (apply N.pow_lt_mono_r; lia).
        unfold tb. rewrite <- N.pred_sub, <- N.ones_equiv. 
        destruct (Nat.ltb_spec i (n mod W)); [apply N.ones_spec_low; lia|apply N.ones_spec_high; lia]. }
      destruct (upd_spec _ _ _ _ Eb) as (_ & Lb & Rb).
      apply Fin; [lia| |].
      * apply Forall_forall. intros y Hy. apply In_nth_error in Hy. destruct Hy as [q Hq']. fold (rd b q) in Hq'. rewrite Rb in Hq'.
        destruct (Nat.eqb_spec q (k - 1)) as [Eq|Nq].
        -- injection Hq' as <-. intros i Hi. rewrite tb_land. rewrite (proj1 (Forall_forall _ _) Fw x (nth_error_In _ _ Ex)) by exact Hi. reflexivity.
        -- exact (proj1 (Forall_forall _ _) Fw y (nth_error_In _ _ Hq')).
      * intros i Hi. pose proof (divmod W i H32) as Di. unfold bit, get_bit. rewrite Rb. destruct (Nat.eqb_spec (i / W) (k - 1)) as [Q|Q].
        -- cbn [bind]. rewrite Q, Ex. cbn [bind]. rewrite tb_land, Tm by lia. rewrite andb_comm. f_equal.
           destruct (Nat.ltb_spec (i mod W) (n mod W)), (Nat.ltb_spec i n); try reflexivity; lia.
        -- replace (i <? n) with true; [reflexivity|]. symmetry. apply Nat.ltb_lt.
           assert (i / W < k - 1). { assert (i / W < k) by (apply div_lt_iff; lia). lia. }
           lia.
Qed.

(** ** The elements of a message *)
Fixpoint place {V} (bits : list bool) (values : list V) : list (option V) :=
  match bits with
  | [] => []
  | true :: t => match values with v :: vs => Some v :: place t vs | [] => None :: place t [] end
  | false :: t => None :: place t values
  end.
Definition trues (bits : list bool) : nat := length (filter (fun b => b) bits).
Lemma place_length {V} bits : forall values : list V, length (place bits values) = length bits.
Proof. induction bits as [|[] t IH]; intros values; cbn [place length]; [reflexivity| |f_equal; apply IH]. destruct values; cbn [length]; f_equal; apply IH. Qed.
Lemma place_somes {V} bits : forall values : list V, trues bits = length values -> somes (place bits values) = values.
Proof.
  unfold somes, trues. induction bits as [|[] t IH]; intros values H; cbn [place filter length] in *.
  - destruct values; [reflexivity|discriminate].
  - destruct values as [|v vs]; [discriminate|]. cbn [flat_map app]. f_equal. apply IH. cbn [length] in H. lia.
  - cbn [flat_map app]. apply IH. exact H.
Qed.
Lemma place_some {V} bits : forall (values : list V) t, trues bits = length values -> is_some (nth t (place bits values) None) = nth t bits false.
Proof.
  unfold trues. induction bits as [|[] r IH]; intros values t H; cbn [place filter length] in *.
  - destruct t; reflexivity.
  - destruct values as [|v vs]; [discriminate|]. destruct t as [|t]; [reflexivity|]. cbn [nth]. apply IH. cbn [length] in H. lia.
  - destruct t as [|t]; [reflexivity|]. cbn [nth]. apply IH. exact H.
Qed.
Lemma somes_length {V} (l : list (option V)) : length (somes l) = trues (map is_some l).
Proof. unfold somes, trues. induction l as [|[x|] t IH]; cbn [flat_map map filter is_some app length]; [reflexivity|f_equal; exact IH|exact IH]. Qed.
Lemma place_unique {V} (l : list (option V)) : l = place (map is_some l) (somes l).
Proof. unfold somes. induction l as [|[x|] t IH]; cbn [flat_map map is_some app place]; [reflexivity|f_equal; exact IH|f_equal; exact IH]. Qed.

Definition bits_of (bitmap : list N) (n : nat) : list bool := map (shown bitmap) (seq 0 n).
Lemma bits_length bm n : length (bits_of bm n) = n.
Proof. unfold bits_of. rewrite map_length. apply seq_length. Qed.
Lemma bits_nth bm n i : i < n -> nth i (bits_of bm n) false = shown bm i.
Proof. intros H. unfold bits_of. apply nth_seq_map. exact H. Qed.
Lemma describes_bits {V} size bm (values : list V) l : describes size bm values l -> map is_some l = bits_of bm (length l).
Proof.
  intros (_ & _ & H & _). apply nth_ext with (d := false) (d' := false); [rewrite map_length, bits_length; reflexivity|].
  intros i Hi. rewrite map_length in Hi. rewrite bits_nth by exact Hi. rewrite <- H by exact Hi.
  change false with (is_some (@None V)). apply map_nth.
Qed.
Lemma describes_place {V} (n : nat) bm (values : list V) : bm = [] \/ length bm = bitmap_size n ->
  trues (bits_of bm n) = length values -> describes (Some (Z.of_nat n)) bm values (place (bits_of bm n) values).
Proof.
  intros Hb Hc. unfold describes. rewrite place_length, bits_length. split; [reflexivity|]. split; [|split].
  - destruct Hb as [Hb|Hb]; [left; exact Hb|right]. rewrite Hb. pose proof (bitmap_size_ge n). pose proof (bitmap_size_lt n). lia.
  - intros i Hi. rewrite place_some by exact Hc. apply bits_nth. exact Hi.
  - apply place_somes. exact Hc.
Qed.
Lemma describes_eq {V} size bm (values : list V) l n : describes size bm values l -> length l = n ->
  l = place (bits_of bm n) values /\ trues (bits_of bm n) = length values.
Proof.
  intros D <-. pose proof (describes_bits _ _ _ _ D) as E. destruct D as (_ & _ & _ & S). rewrite <- E, <- S. split; [apply place_unique|].
  symmetry. apply somes_length.
Qed.
Lemma describes_map {V U} (f : V -> U) size bm values l : describes size bm values l -> describes size bm (map f values) (map (option_map f) l).
Proof.
  intros (A & B & C & D). unfold describes. rewrite map_length. split; [exact A|]. split; [exact B|]. split.
  - intros i Hi. rewrite <- C by exact Hi. change (@None U) with (option_map f None). rewrite map_nth. destruct (nth i l None); reflexivity.
  - rewrite <- D. unfold somes. clear. induction l as [|[x|] t IH]; cbn [map option_map flat_map app]; [reflexivity|f_equal; exact IH|exact IH].
Qed.

Definition fits (size : option Z) (bitmap : list N) : Prop := forall n, size = Some n -> bitmap = [] \/ (n + 31 <= int64_max)%Z.
Lemma header_ok size bm : fits size bm ->
  exists r, decode_header size bm = Some r /\
  match r with
  | inl _ => forall V (values : list V) l, ~ describes size bm values l
  | inr (n, b) => b = bm /\ size = Some (Z.of_nat n) /\ (bm = [] \/ length bm = bitmap_size n)
  end.
Proof.
  intros F. unfold decode_header. destruct size as [n|].
  2: { eexists. split; [reflexivity|]. intros V values l (A & _). discriminate. }
  destruct (Z.ltb_spec n 0) as [Neg|Pos].
  { eexists. split; [reflexivity|]. intros V values l (A & _). injection A as A. lia. }
  destruct bm as [|w t] eqn:Eb; [|rewrite <- Eb in *].
  { eexists. split; [reflexivity|]. cbn beta iota. split; [reflexivity|]. split; [f_equal; lia|left; reflexivity]. }
  destruct (F n eq_refl) as [X|X]; [rewrite X in Eb; discriminate|].
  unfold bitmap_size_z. replace (n + 31 <=? int64_max)%Z with true by (symmetry; apply Z.leb_le; exact X). cbn [bind].
  assert (Bs : ((n + 31) / 32)%Z = Z.of_nat (bitmap_size (Z.to_nat n))).
  { unfold bitmap_size. rewrite Nat2Z.inj_div. f_equal. lia. }
  rewrite Bs. destruct (Z.eqb_spec (Z.of_nat (bitmap_size (Z.to_nat n))) (Z.of_nat (length bm))) as [E|E].
  - eexists. split; [reflexivity|]. cbn beta iota. split; [reflexivity|]. split; [f_equal; lia|right; lia].
  - eexists. split; [reflexivity|]. intros V values l (A & B & _). injection A as A. apply E.
    destruct B as [B|B]; [rewrite B in Eb; discriminate|].
    replace (Z.to_nat n) with (length l) by lia. pose proof (bitmap_size_ge (length l)). pose proof (bitmap_size_lt (length l)). lia.
Qed.

Lemma count_shown bm n : bm = [] \/ length bm = bitmap_size n -> count_bits bm 0 n = Some (trues (bits_of bm n)).
Proof.
  intros H. rewrite count_bits_ok. f_equal. unfold cnt, trues, bits_of.
  assert (G : forall i, i < n -> present_or_out bm i = shown bm i).
  { intros i Hi. unfold present_or_out, shown. destruct bm as [|w t] eqn:Eb; [unfold get_bit; destruct (i / W); reflexivity|]. rewrite <- Eb in *.
    destruct H as [H|H]; [rewrite H in Eb; discriminate|]. rewrite wbit_bt. rewrite gb_bt; [reflexivity|]. pose proof (bitmap_size_ge n). lia. }
  assert (K : forall k s, s + k <= n -> length (filter (present_or_out bm) (seq s k)) = length (filter (fun b => b) (map (shown bm) (seq s k)))).
  { induction k as [|k IH]; intros s Hs; cbn [seq map filter]; [reflexivity|]. rewrite G by lia. destruct (shown bm s); cbn [length]; rewrite IH by lia; reflexivity. }
  apply K. lia.
Qed.
Lemma iterate_shown bm n : bm = [] \/ length bm = bitmap_size n -> iterate bm 0 n = Some (bits_of bm n).
Proof.
  intros H. rewrite iterate_ok.
  2: { destruct H as [H|H]; [left; exact H|right]. rewrite H. pose proof (bitmap_size_ge n). lia. }
  f_equal. apply map_ext. intros i. cbn [Nat.add]. unfold shown. destruct bm; [reflexivity|]. symmetry. apply wbit_bt.
Qed.

Lemma nth_skipn_cons {A} (l : list A) j x : rd l j = Some x -> skipn j l = x :: skipn (S j) l.
Proof. unfold rd. revert j. induction l as [|y t IH]; intros [|j] H; cbn in *; try discriminate; [injection H as ->; reflexivity|]. apply IH. exact H. Qed.
Lemma scatter_ok {V} bits : forall (values : list V) i j data, length data = i + length bits -> j + trues bits <= length values ->
  exists data', scatter bits values i j data = Some data' /\ length data' = length data /\ (forall q, q < i -> rd data' q = rd data q) /\
    forall t, nth t bits false = true -> exists v, rd data' (i + t) = Some v /\ nth t (place bits (skipn j values)) None = Some v.
Proof.
  unfold trues. induction bits as [|b r IH]; intros values i j data L C; cbn [scatter filter length] in *.
  - exists data. split; [reflexivity|]. split; [reflexivity|]. split; [reflexivity|]. intros [|t] H; discriminate.
  - destruct b; cbn [length] in C.
    + destruct (rd_lt values j) as [v Ev]; [lia|]. rewrite Ev. cbn [bind].
      destruct (upd_lt data i v) as [d1 E1]; [lia|]. rewrite E1. cbn [bind]. destruct (upd_spec _ _ _ _ E1) as (_ & L1 & R1).
      destruct (IH values (S i) (S j) d1) as (d2 & E2 & L2 & K2 & P2); [lia|lia|]. exists d2. split; [exact E2|]. split; [lia|]. split.
      * intros q Hq. rewrite K2 by lia. rewrite R1. replace (q =? i) with false by (symmetry; apply Nat.eqb_neq; lia). reflexivity.
      * intros [|t] Ht; rewrite (nth_skipn_cons _ _ _ Ev); cbn [place nth].
        -- exists v. split; [|reflexivity]. rewrite Nat.add_0_r, K2 by lia. rewrite R1, Nat.eqb_refl. reflexivity.
        -- cbn [nth] in Ht. destruct (P2 t Ht) as (u & Eu & Pu). exists u. split; [|exact Pu]. rewrite <- Eu. f_equal. lia.
    + destruct (IH values (S i) j data) as (d2 & E2 & L2 & K2 & P2); [lia|lia|]. exists d2. split; [exact E2|]. split; [exact L2|]. split.
      * intros q Hq. apply K2. lia.
      * intros [|t] Ht; [discriminate|]. cbn [nth place] in *. destruct (P2 t Ht) as (u & Eu & Pu). exists u. split; [|exact Pu]. rewrite <- Eu. f_equal. lia.
Qed.
Lemma scatter_offsets_ok bits : forall ss es i j data, length data = i + length bits -> length ss = length es -> j + trues bits <= length ss ->
  exists data', scatter_offsets bits ss es i j data = Some data' /\ length data' = length data /\ (forall q, q < i -> rd data' q = rd data q) /\
    (forall t, nth t bits false = true -> exists v, rd data' (i + t) = Some v /\ nth t (place bits (skipn j (combine ss es))) None = Some v) /\
    forall t, t < length bits -> nth t bits false = false -> rd data' (i + t) = Some (0%Z, 0%Z).
Proof.
  unfold trues. induction bits as [|b r IH]; intros ss es i j data L Le C; cbn [scatter_offsets filter length] in *.
  - exists data. split; [reflexivity|]. split; [reflexivity|]. split; [reflexivity|]. split; [intros [|t] H; discriminate|intros t H; lia].
  - destruct b; cbn [length] in C.
    + destruct (rd_lt ss j) as [s Es]; [lia|]. rewrite Es. cbn [bind]. destruct (rd_lt es j) as [e Ee]; [lia|]. rewrite Ee. cbn [bind].
      assert (Ev : rd (combine ss es) j = Some (s, e)).
      { clear - Es Ee. unfold rd in *. revert es j Es Ee. induction ss as [|x t IH]; intros [|y u] [|j] H1 H2; cbn in *; try discriminate; [congruence|]. apply IH; assumption. }
      destruct (upd_lt data i (s, e)) as [d1 E1]; [lia|]. rewrite E1. cbn [bind]. destruct (upd_spec _ _ _ _ E1) as (_ & L1 & R1).
      destruct (IH ss es (S i) (S j) d1) as (d2 & E2 & L2 & K2 & P2 & Q2); [lia|lia|lia|]. exists d2. split; [exact E2|]. split; [lia|]. split; [|split].
      * intros q Hq. rewrite K2 by lia. rewrite R1. replace (q =? i) with false by (symmetry; apply Nat.eqb_neq; lia). reflexivity.
      * intros [|t] Ht; rewrite (nth_skipn_cons _ _ _ Ev); cbn [place nth].
        -- exists (s, e). split; [|reflexivity]. rewrite Nat.add_0_r, K2 by lia. rewrite R1, Nat.eqb_refl. reflexivity.
        -- cbn [nth] in Ht. destruct (P2 t Ht) as (u & Eu & Pu). exists u. split; [|exact Pu]. rewrite <- Eu. f_equal. lia.
      * intros [|t] Lt Ht; [discriminate|]. cbn [nth] in Ht. rewrite <- (Q2 t) by (try exact Ht; lia). f_equal. lia.
    + destruct (upd_lt data i (0%Z, 0%Z)) as [d1 E1]; [lia|]. rewrite E1. cbn [bind]. destruct (upd_spec _ _ _ _ E1) as (_ & L1 & R1).
      destruct (IH ss es (S i) j d1) as (d2 & E2 & L2 & K2 & P2 & Q2); [lia|lia|lia|]. exists d2. split; [exact E2|]. split; [lia|]. split; [|split].
      * intros q Hq. rewrite K2 by lia. rewrite R1. replace (q =? i) with false by (symmetry; apply Nat.eqb_neq; lia). reflexivity.
      * intros [|t] Ht; [discriminate|]. cbn [nth place] in *. destruct (P2 t Ht) as (u & Eu & Pu). exists u. split; [|exact Pu]. rewrite <- Eu. f_equal. lia.
      * intros [|t] Lt Ht; [rewrite Nat.add_0_r, K2 by lia; rewrite R1, Nat.eqb_refl; reflexivity|].
        cbn [nth] in Ht. rewrite <- (Q2 t) by (try exact Ht; lia). f_equal. lia.
Qed.

Lemma placed_represents {V} (data values : list V) bm n : Forall (fun x => x < 2 ^ 32)%N bm -> bm = [] \/ length bm = bitmap_size n -> length data = n ->
  trues (bits_of bm n) = length values ->
  (forall t, nth t (bits_of bm n) false = true -> exists v, rd data t = Some v /\ nth t (place (bits_of bm n) values) None = Some v) ->
  represents (mkD data bm 0) (place (bits_of bm n) values).
Proof.
  intros F Hb L C H. apply represents_elem. rewrite place_length, bits_length. split; [|split; [exact L|]].
  - split; [cbn; lia|]. split; [exact F|]. cbn [vals bmp boff]. rewrite Nat.add_0_r, L. exact Hb.
  - intros i Hi. unfold da_elem. cbn [vals]. rewrite <- (shown_pres data bm i). rewrite <- (bits_nth bm n i Hi).
    destruct (rd_lt data i) as [x Ex]; [lia|]. rewrite Ex. destruct (nth i (bits_of bm n) false) eqn:B.
    + destruct (H i B) as (v & Ev & Pv). rewrite Pv. congruence.
    + pose proof (place_some (bits_of bm n) values i C) as P. rewrite B in P. destruct (nth i (place (bits_of bm n) values) None); [discriminate|reflexivity].
Qed.

Lemma decode_values_ok {V} alloc (p : dproto V) : (forall n, length (alloc n) = n) -> Forall (fun x => x < 2 ^ 32)%N (dp_bitmap p) ->
  fits (dp_size p) (dp_bitmap p) ->
  exists r, decode_values alloc p = Some r /\
  match r with inl _ => forall l, ~ says p l | inr a => exists l, says p l /\ represents a l end.
Proof.
  intros HA F Fi. unfold decode_values, says. destruct (header_ok _ _ Fi) as (r & -> & Hr). cbn [bind]. destruct r as [e|[n b]].
  - eexists. split; [reflexivity|]. intros l. apply Hr.
  - destruct Hr as (-> & Es & Hb). rewrite (count_shown _ _ Hb). cbn [bind].
    destruct (Nat.eqb_spec (trues (bits_of (dp_bitmap p) n)) (length (dp_values p))) as [C|C]; cbn [negb].
    + rewrite (iterate_shown _ _ Hb). cbn [bind].
      destruct (scatter_ok (bits_of (dp_bitmap p) n) (dp_values p) 0 0 (alloc n)) as (d & Ed & Ld & _ & Pd); [rewrite HA, bits_length; reflexivity|lia|].
      rewrite Ed. cbn [bind]. eexists. split; [reflexivity|]. cbn beta iota. exists (place (bits_of (dp_bitmap p) n) (dp_values p)). split.
      * rewrite Es. apply describes_place; assumption.
      * apply placed_represents; try assumption. rewrite Ld. apply HA.
    + eexists. split; [reflexivity|]. intros l D. assert (Ln : length l = n). { destruct D as (A & _). rewrite Es in A. injection A as A. lia. }
      destruct (describes_eq _ _ _ _ n D Ln) as (_ & T). exact (C T).
Qed.
Lemma decode_unit_ok (p : dproto unit) : Forall (fun x => x < 2 ^ 32)%N (dp_bitmap p) -> fits (dp_size p) (dp_bitmap p) ->
  exists r, decode_unit p = Some r /\
  match r with
  | inl _ => forall (values : list unit) l, ~ describes (dp_size p) (dp_bitmap p) values l
  | inr a => exists l, describes (dp_size p) (dp_bitmap p) (somes l) l /\ represents a l
  end.
Proof.
  intros F Fi. unfold decode_unit. destruct (header_ok _ _ Fi) as (r & -> & Hr). cbn [bind]. destruct r as [e|[n b]].
  - eexists. split; [reflexivity|]. intros values l. apply Hr.
  - destruct Hr as (-> & Es & Hb). eexists. split; [reflexivity|]. cbn beta iota.
    set (m := trues (bits_of (dp_bitmap p) n)). exists (place (bits_of (dp_bitmap p) n) (repeat tt m)).
    assert (C : trues (bits_of (dp_bitmap p) n) = length (repeat tt m)) by (rewrite repeat_length; reflexivity).
    split.
    + rewrite Es. rewrite place_somes by exact C. apply describes_place; assumption.
    + apply placed_represents; try assumption; [apply repeat_length|]. intros t Ht. exists tt.
      assert (Hn : t < n). { destruct (Nat.lt_ge_cases t n) as [L|L]; [exact L|]. rewrite nth_overflow in Ht by (rewrite bits_length; exact L). discriminate. }
      split; [apply nth_error_repeat; exact Hn|]. pose proof (place_some (bits_of (dp_bitmap p) n) (repeat tt m) t C) as P. rewrite Ht in P.
      destruct (nth t (place (bits_of (dp_bitmap p) n) (repeat tt m)) None) as [[]|]; [reflexivity|discriminate].
Qed.

Lemma gen_describes {A V} (a : darr A) l (f : list V) (l' : list (option V)) b : length l' = length l -> (forall i, i < length l -> is_some (nth i l' None) = is_some (nth i l None)) ->
  somes l' = f -> (b = [] \/ length b = bitmap_size (length l)) -> (forall i, i < length l -> is_some (nth i l None) = shown b i) ->
  represents a l -> describes (Some (Z.of_nat (da_size a))) b f l'.
Proof.
  intros L I S B Sh (_ & R & _). rewrite R. unfold describes. rewrite L. split; [reflexivity|]. split; [|split].
  - destruct B as [B|B]; [left; exact B|right]. rewrite B. pose proof (bitmap_size_ge (length l)). pose proof (bitmap_size_lt (length l)). lia.
  - intros i Hi. rewrite I by exact Hi. apply Sh. exact Hi.
  - exact S.
Qed.
Lemma encode_values_ok {V} (a : darr V) l : represents a l ->
  exists p, encode_values a = Some p /\ says p l /\ tidy (dp_bitmap p) l.
Proof.
  intros R. unfold encode_values. destruct (gen_bitmap_ok a l R) as (b & -> & T & B & Sh). cbn [bind].
  destruct (rep_for_each a l R) as (r & -> & M). cbn [bind]. eexists. split; [reflexivity|]. split; [|exact T].
  unfold says. cbn [dp_size dp_bitmap dp_values]. apply (gen_describes a l _ l); auto.
  assert (E : l = map snd (combine (seq 0 (length l)) l)).
  { clear. generalize 0. induction l as [|x t IH]; intros s; [reflexivity|]. cbn [length seq combine map snd]. f_equal. apply IH. }
  rewrite E at 1. rewrite <- M. clear. unfold somes. induction r as [|[[i p] v] r IH]; [reflexivity|].
  cbn [map flat_map filter fst snd]. destruct p; cbn [app map snd]; [f_equal|]; exact IH.
Qed.
Lemma encode_unit_ok (a : darr unit) l : represents a l ->
  exists p, encode_unit a = Some p /\ describes (dp_size p) (dp_bitmap p) (somes l) l /\ tidy (dp_bitmap p) l /\ dp_values p = [].
Proof.
  intros R. unfold encode_unit. destruct (gen_bitmap_ok a l R) as (b & -> & T & B & Sh). cbn [bind].
  eexists. split; [reflexivity|]. cbn [dp_size dp_bitmap dp_values]. split; [|split; [exact T|reflexivity]]. apply (gen_describes a l _ l); auto.
Qed.

(** A tidy bitmap is determined by what it describes. *)
Lemma tidy_unique {A V} (l : list (option A)) (l1 l2 : list (option V)) s1 s2 f1 f2 b1 b2 : length l1 = length l -> length l2 = length l ->
  (forall i, i < length l -> is_some (nth i l1 None) = is_some (nth i l None)) -> (forall i, i < length l -> is_some (nth i l2 None) = is_some (nth i l None)) ->
  describes s1 b1 f1 l1 -> describes s2 b2 f2 l2 -> tidy b1 l -> tidy b2 l -> b1 = b2.
Proof.
  intros L1 L2 I1 I2 (_ & B1 & S1 & _) (_ & B2 & S2 & _) (F1 & N1 & U1) (F2 & N2 & U2). rewrite L1 in *. rewrite L2 in *.
  destruct B1 as [B1|B1]; destruct B2 as [B2|B2].
  - congruence.
  - rewrite B1. symmetry. apply N2. apply N1. exact B1.
  - rewrite B2. apply N1. apply N2. exact B2.
  - assert (X1 : b1 <> [] \/ length l = 0) by (destruct b1; [right; cbn [length] in B1; lia|left; discriminate]).
    destruct X1 as [X1|X1].
    2: { assert (E : forall o : option A, In o l -> o <> None) by (destruct l; [intros o []|discriminate]). rewrite (proj2 N1 E), (proj2 N2 E). reflexivity. }
    assert (X2 : b2 <> []) by (intros ->; apply X1, N1, N2; reflexivity).
    apply words_ext; [apply words_ok; exact F1|apply words_ok; exact F2|lia|]. intros i Hi. rewrite <- !wbit_bt.
    destruct (Nat.lt_ge_cases i (length l)) as [Q|Q].
    + assert (G1 : shown b1 i = wbit b1 i) by (unfold shown; destruct b1; [congruence|reflexivity]).
      assert (G2 : shown b2 i = wbit b2 i) by (unfold shown; destruct b2; [congruence|reflexivity]).
      rewrite <- G1, <- G2, <- S1, <- S2 by exact Q. rewrite I1, I2 by exact Q. reflexivity.
    + rewrite U1, U2 by assumption. reflexivity.
Qed.
