(** Proofs about [Dense_Model]. *)
From Verif Require Import Base Bits_Model Bits_Proofs Bitmap_Model Bitmap_Proofs
  Algo_Model Algo_Proofs Dense_Model Dense_Spec.

Lemma words_ok bm : Forall (fun x => x < 2 ^ 32)%N bm -> Forall (wok W) bm.
Proof. apply Forall_impl. intros x Hx. apply (proj2 (wok_lt W x)). exact Hx. Qed.
Lemma wok_words bm : Forall (wok W) bm -> Forall (fun x => x < 2 ^ 32)%N bm.
Proof. apply Forall_impl. intros x Hx. exact (proj1 (wok_lt W x) Hx). Qed.

Lemma firstn_skipn_rd {A} (l : list A) s n i :
  rd (firstn n (skipn s l)) i = if i <? n then rd l (s + i) else None.
Proof.
  unfold rd. destruct (Nat.ltb_spec i n) as [L|L].
  - revert l s i L. induction n as [|n IH]; intros l s i L; [lia|].
    destruct i as [|i].
    + rewrite Nat.add_0_r. clear. revert s. induction l as [|a l IH]; intros s.
      * rewrite skipn_nil. destruct s; reflexivity.
      * destruct s; [reflexivity|]. simpl. apply IH.
    + clear IH. assert (G : forall m (l : list A) j, j < m -> nth_error (firstn m l) j = nth_error l j).
      { induction m as [|m IHm]; intros l0 j Hj; [lia|]. destruct l0; [reflexivity|].
        destruct j; [reflexivity|]. simpl. apply IHm. lia. }
      rewrite G by lia. clear. revert s. induction l as [|a l IH]; intros s.
      * rewrite skipn_nil. destruct s; reflexivity.
      * destruct s; [reflexivity|]. simpl. apply IH.
  - apply nth_error_None. rewrite firstn_length. lia.
Qed.

Lemma buf_slice_ok {B} (l : list B) s n : s + n <= length l ->
  exists l', buf_slice l s n = Some l' /\ length l' = n /\
    forall i, rd l' i = if i <? n then rd l (s + i) else None.
Proof.
  intros H. unfold buf_slice. replace (s + n <=? length l) with true by lia.
  eexists. split; [reflexivity|]. split.
  - rewrite firstn_length, skipn_length. lia.
  - intros i. apply firstn_skipn_rd.
Qed.

Lemma Forall_slice {B} (P : B -> Prop) l s n l' : Forall P l -> buf_slice l s n = Some l' -> Forall P l'.
Proof.
  unfold buf_slice. destruct (s + n <=? length l); [|discriminate]. intros H E. injection E as <-.
  rewrite Forall_forall in *. intros x Hx. apply H.
  apply In_nth_error in Hx as [i Hi]. fold (rd (firstn n (skipn s l)) i) in Hi.
  rewrite firstn_skipn_rd in Hi. destruct (i <? n); [|discriminate].
  eapply nth_error_In. exact Hi.
Qed.

Section D.
Context {A : Type}.
Implicit Types a : darr A.

(** Presence of element [i]. *)
Definition da_pres a (i : nat) : bool :=
  match bmp a with [] => true | _ => bt (bmp a) (i + boff a) end.

Lemma da_cap a i : da_valid a -> i < da_size a -> bmp a = [] \/ i + boff a < W * length (bmp a).
Proof.
  intros (_ & _ & [E|E]) Hi; [left; exact E|right]. rewrite E.
  pose proof (bitmap_size_ge (length (vals a) + boff a)). unfold da_size in Hi. lia.
Qed.

Lemma da_present_ok a i : da_valid a -> i < da_size a -> da_present a i = Some (da_pres a i).
Proof.
  intros Hv Hi. unfold da_present, da_pres, bm_get_bit.
  destruct (da_cap a i Hv Hi) as [E|E]; [rewrite E; reflexivity|].
  destruct (bmp a) eqn:Eb; [reflexivity|]. apply gb_bt. exact E.
Qed.

(** Element [i] as an optional value. *)
Definition da_elem a (i : nat) : option A :=
  match rd (vals a) i with
  | Some v => if da_pres a i then Some v else None
  | None => None
  end.

Lemma da_get_ok a i : da_valid a -> i < da_size a -> da_get a i = Some (da_elem a i).
Proof.
  intros Hv Hi. unfold da_get, da_elem. rewrite da_present_ok by assumption. cbn [bind].
  destruct (rd_lt (vals a) i Hi) as [v E]. rewrite E. cbn [bind].
  destruct (da_pres a i); reflexivity.
Qed.

Lemma da_elem_some a i : i < da_size a -> da_pres a i = true -> exists v, rd (vals a) i = Some v /\ da_elem a i = Some v.
Proof.
  intros Hi Hp. destruct (rd_lt (vals a) i Hi) as [v E]. exists v. split; [exact E|].
  unfold da_elem. rewrite E, Hp. reflexivity.
Qed.
Lemma da_elem_pres a i : i < da_size a ->
  da_pres a i = match da_elem a i with Some _ => true | None => false end.
Proof.
  intros Hi. unfold da_elem. destruct (rd_lt (vals a) i Hi) as [v E]. rewrite E.
  destruct (da_pres a i); reflexivity.
Qed.

Lemma bt_slice bm s n bm' i : buf_slice bm s n = Some bm' -> i < W * n ->
  bt bm' i = bt bm (W * s + i).
Proof.
  intros E Hi. unfold buf_slice in E. destruct (Nat.leb_spec (s + n) (length bm)); [|discriminate].
  injection E as <-. unfold bit, get_bit. destruct (divmod W i H32) as [Ei Li].
  destruct (idx_divmod W H32 (s + i / W) (i mod W) Li) as [D M].
  replace (W * s + i) with (W * (s + i / W) + i mod W) by lia. rewrite D, M.
  rewrite firstn_skipn_rd. replace (i / W <? n) with true by lia. reflexivity.
Qed.

Lemma da_slice_ok a s n : da_valid a -> s + n <= da_size a ->
  exists r, da_slice a s n = Some r /\ da_valid r /\ da_size r = n /\
    forall i, i < n -> da_elem r i = da_elem a (s + i).
Proof.
  intros (Ho & Hw & Hb) Hs. unfold da_slice, da_size in *.
  destruct (buf_slice_ok (vals a) s n Hs) as (v & Ev & Lv & Rv). rewrite Ev. cbn [bind].
  assert (Hcase : bmp a = [] \/ (bmp a <> [] /\ length (bmp a) = bitmap_size (length (vals a) + boff a))).
  { destruct (bmp a); [left; reflexivity|right]. split; [discriminate|].
    destruct Hb; [discriminate|assumption]. }
  destruct Hcase as [E|[Hne E]].
  - rewrite E. eexists. split; [reflexivity|]. split; [|split].
    + split; [cbn; lia|]. split; [constructor|left; reflexivity].
    + exact Lv.
    + intros i Hi. unfold da_elem, da_pres. cbn [vals bmp]. rewrite Rv, E.
      replace (i <? n) with true by lia. reflexivity.
  - set (off := (s + boff a) mod W). set (q := (s + boff a) / W).
    destruct (divmod W (s + boff a) H32) as [Eo Lo]. fold off q in Eo, Lo.
    pose proof (bitmap_size_ge (length (vals a) + boff a)).
    pose proof (bitmap_size_ge (off + n)). pose proof (bitmap_size_lt (off + n)).
    destruct (buf_slice_ok (bmp a) q (bitmap_size (off + n))) as (m & Em & Lm & Rm); [lia|].
    assert (Hgoal : exists r, (let? bb := buf_slice (bmp a) q (bitmap_size (off + n)) in Some (mkD v bb off)) = Some r /\
      da_valid r /\ length (vals r) = n /\ forall i, i < n -> da_elem r i = da_elem a (s + i)).
    { rewrite Em. cbn [bind]. eexists. split; [reflexivity|]. split; [|split].
      - split; [exact Lo|]. split; [eapply Forall_slice; [exact Hw|exact Em]|].
        right. cbn [bmp vals boff]. rewrite Lm, Lv. f_equal. lia.
      - exact Lv.
      - intros i Hi. unfold da_elem, da_pres. cbn [vals bmp boff]. rewrite Rv.
        replace (i <? n) with true by lia.
        destruct (rd (vals a) (s + i)) as [x|]; [|reflexivity].
        destruct m as [|m0 m']; [cbn [length] in Lm; lia|]. destruct (bmp a) as [|b0 b'] eqn:Eb; [contradiction|].
        rewrite (bt_slice _ _ _ _ (i + off) Em) by lia.
        replace (W * q + (i + off)) with (s + i + boff a) by lia. reflexivity. }
    destruct (bmp a) as [|b0 b'] eqn:Eb; [contradiction|]. exact Hgoal.
Qed.

(** ** ForceNoBitmapBitOffset *)
Lemma words_with_offset_ok bm off n : Forall (wok W) bm -> off < W -> forall i,
  exists r, words_with_offset bm off i n = Some r /\ length r = n /\ Forall (wok W) r /\
    forall k, k < W * n -> bt r k =
      if i + k / W <? length bm then bt bm (off + W * i + k) else true.
Proof.
  intros Hok Ho. induction n as [|n IH]; intros i; cbn [words_with_offset].
  - exists []. split; [reflexivity|]. split; [reflexivity|]. split; [constructor|]. intros; lia.
  - destruct (get_word_with_offset_ok bm i off Hok Ho) as (x & Ex & Hx). rewrite Ex. cbn [bind].
    destruct (IH (S i)) as (t & Et & Lt & Ft & Ht). rewrite Et. cbn [bind].
    exists (x :: t). split; [reflexivity|]. split; [cbn [length]; lia|]. split.
    + constructor; [|exact Ft].
      unfold get_word_with_offset in Ex.
      destruct (length bm <=? i); [injection Ex as <-; apply wok_ones|].
      destruct (rd bm i) as [y|] eqn:Ey; [|discriminate]. cbn [bind] in Ex.
      destruct (wshr W y off) as [z|] eqn:Ez; [|discriminate]. cbn [bind] in Ex.
      assert (Hz : wok W z) by (eapply wok_wshr; [exact (wok_rd _ _ _ Hok Ey)|exact Ez]).
      destruct ((off =? 0) || (i + 1 =? length bm)); [injection Ex as <-; exact Hz|].
      destruct (rd bm (i + 1)) as [y2|]; [|discriminate]. cbn [bind] in Ex.
      destruct (wshl W y2 (W - off)) as [z2|] eqn:Ez2; [|discriminate]. cbn [bind] in Ex.
      injection Ex as <-. apply wok_lor; [exact Hz|]. eapply wok_wshl; exact Ez2.
    + intros k Hk. destruct (divmod W k H32) as [Ek Lk].
      destruct (Nat.lt_ge_cases k W) as [L|L].
      * replace (k / W) with 0 by lia. rewrite Nat.add_0_r.
        replace (bt (x :: t) k) with (tb x k).
        -- rewrite Hx by exact L. reflexivity.
        -- symmetry. apply (bt_at (x :: t) 0 k x); [reflexivity|exact L].
      * replace (bt (x :: t) k) with (bt t (k - W)).
        -- rewrite Ht by lia. replace (S i + (k - W) / W) with (i + k / W) by lia.
           destruct (i + k / W <? length bm); [f_equal; lia|reflexivity].
        -- unfold bit, get_bit. replace (k / W) with (S ((k - W) / W)) by lia.
           replace ((k - W) mod W) with (k mod W) by lia. reflexivity.
Qed.

Lemma da_force_ok a : da_valid a ->
  exists r, da_force_no_offset a = Some r /\ da_valid r /\ boff r = 0 /\ da_size r = da_size a /\
    forall i, i < da_size a -> da_elem r i = da_elem a i.
Proof.
  intros (Ho & Hw & Hb). unfold da_force_no_offset.
  destruct (Nat.ltb_spec 0 (boff a)) as [L|L].
  - destruct (words_with_offset_ok (bmp a) (boff a) (bitmap_size (da_size a)) (words_ok _ Hw) Ho 0)
      as (r & E & Lr & Fr & Hr). rewrite E. cbn [bind].
    eexists. split; [reflexivity|]. split; [|split; [reflexivity|split; [reflexivity|]]].
    + split; [cbn; lia|]. split; [apply wok_words; exact Fr|]. right. cbn [bmp vals boff].
      rewrite Lr, Nat.add_0_r. reflexivity.
    + intros i Hi. unfold da_elem, da_pres. cbn [vals bmp boff].
      destruct (rd (vals a) i); [|reflexivity]. pose proof (bitmap_size_ge (da_size a)).
      destruct r as [|r0 r']; [cbn [length] in Lr; lia|]. rewrite Nat.add_0_r, Hr by lia.
      destruct (divmod W i H32) as [Ei Li].
      destruct (bmp a) as [|b0 b'] eqn:Eb.
      * cbn [length]. replace (0 + i / W <? 0) with false by lia. reflexivity.
      * destruct Hb as [Hb|Hb]; [discriminate|]. rewrite Hb.
        pose proof (bitmap_size_ge (length (vals a) + boff a)). unfold da_size in Hi.
        replace (0 + i / W <? bitmap_size (length (vals a) + boff a)) with true by lia.
        replace (boff a + W * 0 + i) with (i + boff a) by lia. reflexivity.
  - exists a. split; [reflexivity|]. split; [split; [exact Ho|split; [exact Hw|exact Hb]]|].
    split; [lia|]. split; reflexivity.
Qed.

(** ** Counting *)
Lemma da_count_ok a : da_valid a ->
  da_present_count a = Some (cnt (da_pres a) 0 (da_size a)).
Proof.
  intros Hv. unfold da_present_count. rewrite count_bits_ok. f_equal.
  apply cnt_shift. intros i Hi. unfold present_or_out, da_pres. cbn [Nat.add].
  destruct (da_cap a i Hv Hi) as [E|E].
  - rewrite E. unfold get_bit. destruct ((boff a + i) / W); reflexivity.
  - rewrite gb_bt by lia. destruct (bmp a); [cbn [length] in E; lia|].
    f_equal. lia.
Qed.

Lemma cnt_le f from n : cnt f from n <= n.
Proof.
  revert from; induction n as [|n IH]; intros from; [unfold cnt; simpl; lia|].
  rewrite cnt_S. specialize (IH (S from)). destruct (f from); lia.
Qed.
Lemma cnt_0_iff f from n : cnt f from n = 0 <-> forall i, from <= i < from + n -> f i = false.
Proof.
  split; [|apply cnt_false]. revert from; induction n as [|n IH]; intros from H i Hi; [lia|].
  rewrite cnt_S in H. destruct (f from) eqn:E; [lia|].
  destruct (Nat.eq_dec i from) as [->|]; [exact E|]. apply (IH (S from)); lia.
Qed.
Lemma cnt_full_iff f from n : cnt f from n = n <-> forall i, from <= i < from + n -> f i = true.
Proof.
  split; [|apply cnt_true]. revert from; induction n as [|n IH]; intros from H i Hi; [lia|].
  rewrite cnt_S in H. pose proof (cnt_le f (S from) n). destruct (f from) eqn:E; [|lia].
  destruct (Nat.eq_dec i from) as [->|]; [exact E|]. apply (IH (S from)); lia.
Qed.

(** ** Iteration *)
Lemma attach_ok (vs : list A) (calls : list (nat * bool)) :
  Forall (fun c => fst c < length vs) calls ->
  exists r, attach vs calls = Some r /\
    map fst r = calls /\ Forall (fun c => rd vs (fst (fst c)) = Some (snd c)) r.
Proof.
  induction calls as [|[i p] t IH]; intros H; cbn [attach].
  - exists []. repeat split; constructor.
  - inversion H as [|? ? H1 H2]; subst. cbn [fst] in H1.
    destruct (rd_lt vs i H1) as [v E]. rewrite E. cbn [bind].
    destruct (IH H2) as (r & -> & M & F). cbn [bind].
    eexists. split; [reflexivity|]. split; [cbn [map fst]; f_equal; exact M|].
    constructor; [exact E|exact F].
Qed.

Lemma da_for_each_ok a : da_valid a ->
  exists r, da_for_each a = Some r /\
    map fst r = map (fun i => (i, da_pres a i)) (seq 0 (da_size a)) /\
    Forall (fun c => rd (vals a) (fst (fst c)) = Some (snd c)) r.
Proof.
  intros Hv. unfold da_for_each.
  assert (Hlt : forall f : nat -> bool, Forall (fun c => fst c < length (vals a))
                  (map (fun i => (i, f i)) (seq 0 (da_size a)))).
  { intros f. rewrite Forall_map. apply Forall_forall. intros i Hi. apply in_seq in Hi.
    cbn [fst]. unfold da_size in Hi. lia. }
  destruct (bmp a) as [|b0 b'] eqn:Eb.
  - destruct (attach_ok (vals a) _ (Hlt (fun _ => true))) as (r & E & M & F).
    exists r. split; [exact E|]. split; [|exact F]. rewrite M. apply map_ext.
    intros i. unfold da_pres. rewrite Eb. reflexivity.
  - rewrite <- Eb.
    destruct (iterate_by_groups_ok (bmp a) (boff a) (da_size a)) as (gs & Eg & Fg & _).
    { destruct Hv as (_ & _ & [H|H]); [congruence|]. rewrite H.
      pose proof (bitmap_size_ge (length (vals a) + boff a)). unfold da_size. lia. }
    rewrite Eg. cbn [bind]. fold (flat_calls gs). rewrite Fg. unfold calls_upto.
    destruct (attach_ok (vals a) _ (Hlt (fun i => bt (bmp a) (boff a + i)))) as (r & E & M & F).
    exists r. split; [exact E|]. split; [|exact F]. rewrite M. apply map_ext.
    intros i. unfold da_pres. rewrite Eb. f_equal. f_equal. lia.
Qed.

(** ** Equivalence *)
Lemma equiv_loop_ok eqb a (b : darr A) n : (forall x y, eqb x y = true <-> x = y) ->
  da_valid a -> da_valid b -> forall i, i + n <= da_size a -> i + n <= da_size b ->
  exists r, equiv_loop eqb a b i n = Some r /\
    (r = true <-> forall j, i <= j < i + n -> da_elem a j = da_elem b j).
Proof.
  intros Heq Ha Hb. induction n as [|n IH]; intros i Hi1 Hi2; cbn [equiv_loop].
  - exists true. split; [reflexivity|]. split; [intros; lia|reflexivity].
  - rewrite !da_get_ok by (assumption || lia). cbn [bind].
    set (same := match da_elem a i, da_elem b i with
                 | Some u, Some v => eqb u v | None, None => true | _, _ => false end).
    assert (Hs : same = true <-> da_elem a i = da_elem b i).
    { subst same. destruct (da_elem a i), (da_elem b i); try rewrite Heq; split; congruence. }
    clearbody same. destruct same; cbn [negb].
    + destruct (IH (S i)) as (r & E & H); [lia..|]. exists r. split; [exact E|]. rewrite H.
      split; intros K j Hj; [|apply K; lia].
      destruct (Nat.eq_dec j i) as [->|]; [apply Hs; reflexivity|apply K; lia].
    + exists false. split; [reflexivity|]. split; [discriminate|]. intros K.
      apply Hs. apply K. lia.
Qed.

Lemma list_eqb_ok eqb (l m : list A) : (forall x y, eqb x y = true <-> x = y) ->
  list_eqb eqb l m = true <-> l = m.
Proof.
  intros Heq. revert m; induction l as [|x l IH]; intros [|y m]; cbn [list_eqb];
    try (split; congruence).
  rewrite andb_true_iff, Heq, IH. split; [intros [-> ->]; reflexivity|intros E; injection E; auto].
Qed.

Lemma da_equivalent_ok eqb a (b : darr A) : (forall x y, eqb x y = true <-> x = y) ->
  da_valid a -> da_valid b ->
  exists r, da_equivalent eqb a b = Some r /\
    (r = true <-> da_size a = da_size b /\ forall i, i < da_size a -> da_elem a i = da_elem b i).
Proof.
  intros Heq Ha Hb. unfold da_equivalent.
  assert (Hgen : exists r, (if negb (da_size a =? da_size b) then Some false
            else equiv_loop eqb a b 0 (da_size a)) = Some r /\
    (r = true <-> da_size a = da_size b /\ forall i, i < da_size a -> da_elem a i = da_elem b i)).
  { destruct (Nat.eqb_spec (da_size a) (da_size b)) as [E|N]; cbn [negb].
    - destruct (equiv_loop_ok eqb a b (da_size a) Heq Ha Hb 0) as (r & Er & Hr); [lia..|].
      exists r. split; [exact Er|]. rewrite Hr. split; [intros H|intros [_ H] j Hj; apply H; lia].
      split; [exact E|]. intros i Hi. apply H. lia.
    - exists false. split; [reflexivity|]. split; [discriminate|]. intros [H _]. contradiction. }
  destruct (bmp a) eqn:Ea; [|exact Hgen]. destruct (bmp b) eqn:Eb; [|exact Hgen]. clear Hgen.
  eexists. split; [reflexivity|]. rewrite list_eqb_ok by exact Heq. unfold da_size. split.
  - intros E. split; [rewrite E; reflexivity|]. intros i Hi. unfold da_elem, da_pres.
    rewrite Ea, Eb, E. reflexivity.
  - intros [L H]. apply list_eq_rd. intros i. destruct (Nat.lt_ge_cases i (length (vals a))) as [Hi|Hi].
    + specialize (H i Hi). unfold da_elem, da_pres in H. rewrite Ea, Eb in H.
      destruct (rd_lt (vals a) i Hi) as [x Ex]. destruct (rd_lt (vals b) i) as [y Ey]; [lia|].
      rewrite Ex, Ey in *. exact H.
    + assert (E1 : rd (vals a) i = None) by (apply rd_None_ge; exact Hi).
      assert (E2 : rd (vals b) i = None) by (apply rd_None_ge; lia). congruence.
Qed.

(** ** Builder *)
Definition write (f : nat -> option A) (lo n : nat) (v : option A) : nat -> option A :=
  match v with
  | None => f
  | Some x => fun j => if (lo <=? j) && (j <? lo + n) then Some x else f j
  end.

Definition db_inv (max : nat) (b : dbuilder A) (f : nat -> option A) : Prop :=
  length (db_vals b) = max /\ length (db_bits b) = bitmap_size max /\
  Forall (wok W) (db_bits b) /\
  forall i, i < max ->
    bt (db_bits b) i = match f i with Some _ => true | None => false end /\
    forall x, f i = Some x -> rd (db_vals b) i = Some x.

Lemma set_bit_wok ws i ws' : Forall (wok W) ws -> set_bit W ws i = Some ws' -> Forall (wok W) ws'.
Proof.
  intros H E. unfold set_bit in E. destruct (rd ws (i / W)) as [x|] eqn:Ex; [|discriminate]. cbn [bind] in E.
  destruct (wshl W 1 (i mod W)) as [m|] eqn:Em; [|discriminate]. cbn [bind] in E.
  eapply Forall_upd; [exact H| |exact E]. apply wok_lor; [eapply wok_rd; eassumption|].
  eapply wok_wshl; exact Em.
Qed.
Lemma fill_words_wok n : forall ws p v ws', Forall (wok W) ws -> wok W v ->
  fill_words ws p n v = Some ws' -> Forall (wok W) ws'.
Proof.
  induction n as [|n IH]; intros ws p v ws' H Hv E; cbn [fill_words] in E; [congruence|].
  destruct (upd ws p v) as [ws1|] eqn:E1; [|discriminate]. cbn [bind] in E.
  eapply IH; [|exact Hv|exact E]. eapply Forall_upd; eassumption.
Qed.
Lemma set_bits_wok ws s e ws' : Forall (wok W) ws ->
  set_bits_in_range W ws s e = Some ws' -> Forall (wok W) ws'.
Proof.
  intros H E. unfold set_bits_in_range in E. destruct (s =? e); [congruence|]. cbv zeta in E.
  destruct (wshl W (wones W) (s mod W)) as [sm|] eqn:Es; [|discriminate]. cbn [bind] in E.
  destruct (wshr W (wones W) _) as [em|] eqn:Ee; [|discriminate]. cbn [bind] in E.
  assert (Hsm : wok W sm) by (eapply wok_wshl; exact Es).
  assert (Hem : wok W em) by (eapply wok_wshr; [apply wok_ones|exact Ee]).
  destruct (rd ws (s / W)) as [x|] eqn:Ex; [|discriminate]. cbn [bind] in E.
  assert (Hx : wok W x) by (eapply wok_rd; eassumption).
  destruct ((e - 1) / W =? s / W).
  - eapply Forall_upd; [exact H| |exact E]. apply wok_lor; [exact Hx|apply wok_land; exact Hsm].
  - destruct (upd ws (s / W) (N.lor x sm)) as [ws1|] eqn:E1; [|discriminate]. cbn [bind] in E.
    destruct (fill_words ws1 _ _ _) as [ws2|] eqn:E2; [|discriminate]. cbn [bind] in E.
    assert (H2 : Forall (wok W) ws2).
    { eapply fill_words_wok; [|apply wok_ones|exact E2]. eapply Forall_upd; [exact H| |exact E1].
      apply wok_lor; assumption. }
    destruct (rd ws2 _) as [y|] eqn:Ey; [|discriminate]. cbn [bind] in E.
    eapply Forall_upd; [exact H2| |exact E]. apply wok_lor; [eapply wok_rd; eassumption|exact Hem].
Qed.

Lemma fill_ok n : forall (l : list A) i x, i + n <= length l ->
  exists l', fill l i n x = Some l' /\ length l' = length l /\
    forall j, rd l' j = if (i <=? j) && (j <? i + n) then Some x else rd l j.
Proof.
  induction n as [|n IH]; intros l i x H; cbn [fill].
  - exists l. split; [reflexivity|]. split; [reflexivity|]. intros j.
    replace ((i <=? j) && (j <? i + 0)) with false by lia. reflexivity.
  - destruct (upd_lt l i x) as [l1 E1]; [lia|]. rewrite E1. cbn [bind].
    apply upd_spec in E1 as (_ & L1 & R1).
    destruct (IH l1 (S i) x) as (l' & E & L & R); [lia|]. exists l'. split; [exact E|]. split; [lia|].
    intros j. rewrite R, R1. destruct (Nat.eqb_spec j i) as [->|N].
    + replace ((S i <=? i) && _) with false by lia.
      replace ((i <=? i) && (i <? i + S n)) with true by lia. reflexivity.
    + replace ((i <=? j) && (j <? i + S n)) with ((S i <=? j) && (j <? S i + n)) by lia. reflexivity.
Qed.

Lemma db_set_n_ok max b f id n v : db_inv max b f -> id + n <= max ->
  exists b', db_set_n b id n v = Some b' /\ db_inv max b' (write f id n v).
Proof.
  intros (Lv & Lb & Fb & H) Hid. destruct v as [x|]; cbn [db_set_n write].
  2:{ exists b. split; [reflexivity|]. split; [exact Lv|]. split; [exact Lb|]. split; assumption. }
  destruct (fill_ok n (db_vals b) id x) as (vs & Ev & Lv' & Rv); [lia|]. rewrite Ev. cbn [bind].
  pose proof (bitmap_size_ge max).
  destruct (set_bits_in_range_ok W H32 (db_bits b) id (id + n)) as (bs & Eb & Lb' & Rb); [lia..|].
  rewrite Eb. cbn [bind]. eexists. split; [reflexivity|].
  split; [cbn [db_vals]; lia|]. split; [cbn [db_bits]; lia|].
  split; [eapply set_bits_wok; eassumption|]. cbn [db_vals db_bits].
  intros i Hi. destruct (H i Hi) as [H1 H2]. unfold bit. rewrite Rb, Rv.
  destruct ((id <=? i) && (i <? id + n)); [split; [reflexivity|congruence]|].
  fold (bt (db_bits b) i). split; [exact H1|exact H2].
Qed.

Lemma db_set_ok max b f id v : db_inv max b f -> id < max ->
  exists b', db_set b id v = Some b' /\ db_inv max b' (write f id 1 v).
Proof.
  intros (Lv & Lb & Fb & H) Hid. destruct v as [x|]; cbn [db_set write].
  2:{ exists b. split; [reflexivity|]. split; [exact Lv|]. split; [exact Lb|]. split; assumption. }
  destruct (upd_lt (db_vals b) id x) as [vs Ev]; [lia|]. rewrite Ev. cbn [bind].
  apply upd_spec in Ev as (_ & Lv' & Rv). pose proof (bitmap_size_ge max).
  destruct (set_bit_ok W H32 (db_bits b) id) as (bs & Eb & Lb' & Rb); [lia|].
  rewrite Eb. cbn [bind]. eexists. split; [reflexivity|].
  split; [cbn [db_vals]; lia|]. split; [cbn [db_bits]; lia|].
  split; [eapply set_bit_wok; eassumption|]. cbn [db_vals db_bits].
  intros i Hi. destruct (H i Hi) as [H1 H2]. unfold bit. rewrite Rb, Rv.
  destruct (Nat.eqb_spec i id) as [->|N].
  - replace ((id <=? id) && (id <? id + 1)) with true by lia. split; [reflexivity|congruence].
  - replace ((id <=? i) && (i <? id + 1)) with false by lia.
    fold (bt (db_bits b) i). split; [exact H1|exact H2].
Qed.

Definition wr_spec (f : nat -> option A) (w : wr A) : nat -> option A :=
  match w with WSet id v => write f id 1 v | WSetN id n v => write f id n v end.
Lemma wr_runs_ok max ws : forall b f, db_inv max b f -> Forall (wr_in max) ws ->
  exists b', wr_runs b ws = Some b' /\ db_inv max b' (fold_left wr_spec ws f).
Proof.
  induction ws as [|w t IH]; intros b f Hi Hf; cbn [wr_runs fold_left].
  - exists b. split; [reflexivity|exact Hi].
  - inversion Hf as [|? ? H1 H2]; subst.
    assert (H : exists b1, wr_run b w = Some b1 /\ db_inv max b1 (wr_spec f w)).
    { destruct w; [apply db_set_ok|apply db_set_n_ok]; assumption. }
    destruct H as (b1 & E1 & I1). rewrite E1. cbn [bind]. apply IH; assumption.
Qed.

Lemma db_init_inv mem : db_inv (length mem) (db_init mem) (fun _ => None).
Proof.
  split; [reflexivity|]. split; [apply repeat_length|]. split.
  - apply Forall_forall. intros x Hx. apply repeat_spec in Hx. subst x. intros i _. apply tb_0.
  - intros i Hi. split; [|discriminate]. unfold bit, get_bit. cbn [db_bits db_init].
    destruct (rd (repeat 0%N (bitmap_size (length mem))) (i / W)) as [x|] eqn:E; [|reflexivity].
    apply nth_error_In, repeat_spec in E. subst x. apply tb_0.
Qed.

Lemma db_build_size_ok max b f size : db_inv max b f -> size <= max ->
  exists r, db_build_size b size = Some r /\ da_valid r /\ da_size r = size /\
    forall i, i < size -> da_elem r i = f i.
Proof.
  intros (Lv & Lb & Fb & H) Hs. unfold db_build_size.
  destruct (buf_slice_ok (db_vals b) 0 size) as (v & Ev & L & Rv); [lia|]. rewrite Ev. cbn [bind].
  pose proof (bitmap_size_le _ _ Hs).
  destruct (buf_slice_ok (db_bits b) 0 (bitmap_size size)) as (m & Em & Lm & Rm); [lia|].
  rewrite Em. cbn [bind]. eexists. split; [reflexivity|]. split; [|split; [exact L|]].
  - split; [cbn; lia|]. split.
    + apply wok_words. eapply Forall_slice; [exact Fb|exact Em].
    + right. cbn [bmp vals boff]. rewrite Lm, L, Nat.add_0_r. reflexivity.
  - intros i Hi. unfold da_elem, da_pres. cbn [vals bmp boff]. rewrite Rv.
    replace (i <? size) with true by lia. cbn [Nat.add].
    destruct (H i) as [H1 H2]; [lia|]. pose proof (bitmap_size_ge size).
    destruct m as [|m0 m'] eqn:E; [cbn [length] in Lm; lia|]. rewrite <- E in *.
    rewrite Nat.add_0_r, (bt_slice _ _ _ _ i Em) by lia. rewrite Nat.mul_0_r. cbn [Nat.add].
    rewrite H1. destruct (rd_lt (db_vals b) i) as [x Ex]; [lia|]. rewrite Ex.
    destruct (f i) as [y|]; [|reflexivity]. rewrite <- (H2 y eq_refl), Ex. reflexivity.
Qed.

Lemma firstn_all' {B} (l : list B) n : length l <= n -> firstn n l = l.
Proof. apply firstn_all2. Qed.

Lemma db_build_full max b f : db_inv max b f -> db_build_size b max = Some (db_build b).
Proof.
  intros (Lv & Lb & Fb & H). unfold db_build_size, db_build, buf_slice.
  replace (0 + max <=? length (db_vals b)) with true by lia. cbn [bind].
  replace (0 + bitmap_size max <=? length (db_bits b)) with true by lia. cbn [bind].
  cbn [skipn]. rewrite !firstn_all2 by lia. reflexivity.
Qed.

(** ** Other constructors *)
Lemma builder_add_ok' n mem bits :
  length mem = bitmap_size n -> length bits = n ->
  exists b, builder_add (builder_init mem) bits = Some b /\
    (if forallb id bits then builder_build b = []
     else length (builder_build b) = bitmap_size n /\
          forall i, i < n -> gb (builder_build b) i = Some (nth i bits false)).
Proof.
  intros Hm Hn. destruct (builder_ok n mem [bits] Hm) as (b & E & H).
  { cbn [concat]. rewrite app_nil_r. exact Hn. }
  cbn [add_all] in E. destruct (builder_add (builder_init mem) bits) as [b1|] eqn:E1; [|discriminate].
  cbn [bind] in E. injection E as ->. exists b. split; [reflexivity|].
  cbn [concat] in H. rewrite app_nil_r in H. exact H.
Qed.

End D.

(** Words written by the bitmap builder stay below 2^32. *)
Lemma group_word_wok bits all x all' : length bits <= W -> group_word bits 0 0%N all = (x, all') -> wok W x.
Proof.
  intros Hl E. destruct (group_word_spec bits all Hl) as (y & E2 & Hy & _).
  assert (x = y) by congruence. subst y. intros i Hi. apply Hy. lia.
Qed.
Lemma add_aligned_wok fuel : forall data p bits all data' all', Forall (wok W) data ->
  add_aligned fuel data p bits all = Some (data', all') -> Forall (wok W) data'.
Proof.
  induction fuel as [|fuel IH]; intros data p bits all data' all' H E; cbn [add_aligned] in E.
  all: destruct (Nat.leb_spec W (length bits)) as [L|L]; try discriminate.
  2: { destruct (group_word (firstn W bits) 0 0%N all) as [x a2] eqn:Eg.
       destruct (upd data p x) as [d1|] eqn:E1; [|discriminate]. cbn [bind] in E.
       eapply IH; [|exact E]. eapply Forall_upd; [exact H| |exact E1].
       eapply group_word_wok; [|exact Eg]. rewrite firstn_length. lia. }
  all: destruct (0 <? length bits); [|congruence];
    destruct (group_word bits 0 0%N all) as [x a2] eqn:Eg;
    destruct (upd data p x) as [d1|] eqn:E1; [|discriminate]; cbn [bind] in E;
    injection E as <- <-; eapply Forall_upd; [exact H| |exact E1];
    eapply group_word_wok; [|exact Eg]; lia.
Qed.

Lemma create_dense_array_ok {A} (d : A) mem data :
  length mem = bitmap_size (length data) -> Forall (wok W) mem ->
  exists r, create_dense_array d mem data = Some r /\ da_valid r /\ da_size r = length data /\
    forall i, i < length data -> da_elem r i = nth i data None.
Proof.
  intros Hm Hw. unfold create_dense_array.
  set (bits := map (fun o : option A => match o with Some _ => true | None => false end) data).
  assert (Lb : length bits = length data) by apply map_length.
  destruct (builder_add_ok' (length data) mem bits Hm Lb) as (b & E & H). rewrite E. cbn [bind].
  assert (Hwb : Forall (wok W) (b_data b)).
  { unfold builder_add in E. cbn [builder_init b_cur b_data b_all] in E.
    change (0 mod W =? 0) with true in E. change (0 / W) with 0 in E. cbv iota in E.
    destruct (add_aligned (length bits) mem 0 bits true) as [[d1 a1]|] eqn:E1; [|discriminate].
    cbn [bind] in E. injection E as <-. cbn [b_data]. eapply add_aligned_wok; eassumption. }
  eexists. split; [reflexivity|].
  assert (Hsz : da_size (mkD (map (fun o : option A => match o with Some x => x | None => d end) data)
            (builder_build b) 0) = length data) by (unfold da_size; cbn [vals]; apply map_length).
  split; [|split; [exact Hsz|]].
  - split; [cbn; lia|]. cbn [bmp vals boff]. split.
    + unfold builder_build. destruct (b_all b); [constructor|apply wok_words; exact Hwb].
    + destruct (forallb id bits); [left; exact H|right]. destruct H as [H _]. rewrite H, map_length.
      f_equal. lia.
  - intros i Hi. unfold da_elem, da_pres. cbn [vals bmp boff].
    unfold rd. rewrite nth_error_map. destruct (nth_error data i) as [o|] eqn:Eo.
    2:{ apply nth_error_None in Eo. lia. }
    cbn [option_map]. rewrite (nth_error_nth _ _ None Eo).
    assert (Hp : (match builder_build b with [] => true | _ => bt (builder_build b) (i + 0) end)
                 = match o with Some _ => true | None => false end).
    { assert (Hnth : nth i bits false = match o with Some _ => true | None => false end).
      { apply nth_error_nth. unfold bits. rewrite nth_error_map, Eo. reflexivity. }
      destruct (forallb id bits) eqn:Ef.
      - rewrite H. rewrite forallb_forall in Ef. specialize (Ef (nth i bits false)).
        rewrite <- Hnth. symmetry. apply Ef. apply nth_In. lia.
      - destruct H as [H1 H2]. pose proof (bitmap_size_ge (length data)).
        destruct (builder_build b) eqn:Eb; [cbn [length] in H1; lia|]. rewrite <- Eb in *.
        rewrite Nat.add_0_r. unfold bit. rewrite H2 by exact Hi. exact Hnth. }
    rewrite Hp. destruct o; reflexivity.
Qed.

Lemma create_const_ok {A} n (x : A) : da_valid (create_const n x) /\ da_size (create_const n x) = n /\
  forall i, i < n -> da_elem (create_const n x) i = Some x.
Proof.
  split; [|split].
  - split; [cbn; lia|]. split; [constructor|left; reflexivity].
  - apply repeat_length.
  - intros i Hi. unfold da_elem, da_pres. cbn [vals bmp create_const].
    destruct (rd_lt (repeat x n) i) as [y E]; [rewrite repeat_length; exact Hi|].
    rewrite E. apply nth_error_In, repeat_spec in E. congruence.
Qed.

Lemma bt_zeros n i : bt (repeat 0%N n) i = false.
Proof.
  unfold bit, get_bit. destruct (rd (repeat 0%N n) (i / W)) as [x|] eqn:E; [|reflexivity].
  apply nth_error_In, repeat_spec in E. subst x. apply tb_0.
Qed.
Lemma wok_zeros n : Forall (wok W) (repeat 0%N n).
Proof. apply Forall_forall. intros x Hx. apply repeat_spec in Hx. subst x. intros i _. apply tb_0. Qed.

Lemma create_empty_ok {A} (mem : list A) : da_valid (create_empty mem) /\
  da_size (create_empty mem) = length mem /\
  forall i, i < length mem -> da_elem (create_empty mem) i = None.
Proof.
  split; [|split].
  - split; [cbn; lia|]. unfold create_empty, create_empty_bitmap. cbn [bmp vals boff].
    split; [apply wok_words, wok_zeros|]. right. rewrite repeat_length, Nat.add_0_r. reflexivity.
  - reflexivity.
  - intros i Hi. unfold da_elem, da_pres, create_empty, create_empty_bitmap. cbn [vals bmp boff].
    pose proof (bitmap_size_ge (length mem)).
    destruct (repeat 0%N (bitmap_size (length mem))) eqn:E.
    + pose proof (repeat_length 0%N (bitmap_size (length mem))) as L. rewrite E in L. cbn [length] in L. lia.
    + rewrite <- E, bt_zeros. destruct (rd mem i); reflexivity.
Qed.

(** ** Concat *)
Lemma patched_bt w0 ws ws' lo hi f k : patched w0 ws ws' lo hi f ->
  bit w0 ws' k = if (lo <=? k) && (k <? hi) then f k else bit w0 ws k.
Proof.
  intros [_ H]. unfold bit. rewrite H. destruct ((lo <=? k) && (k <? hi)); reflexivity.
Qed.

Lemma bt_app_skip (m : list N) q t k : q <= length m -> length t = length (skipn q m) ->
  bt (firstn q m ++ t) k = if k <? W * q then bt m k else bt t (k - W * q).
Proof.
  intros Hq Lt. unfold bit, get_bit. destruct (divmod W k H32) as [Ek Lk].
  assert (Lf : length (firstn q m) = q) by (rewrite firstn_length; lia).
  destruct (Nat.ltb_spec k (W * q)) as [L|L].
  - unfold rd. rewrite nth_error_app1 by lia.
    change (nth_error (firstn q m) (k / W)) with (rd (firstn q (skipn 0 m)) (k / W)).
    rewrite firstn_skipn_rd. replace (k / W <? q) with true by lia. reflexivity.
  - unfold rd. rewrite nth_error_app2 by lia. rewrite Lf.
    replace ((k - W * q) / W) with (k / W - q) by lia.
    replace ((k - W * q) mod W) with (k mod W) by lia. reflexivity.
Qed.

Lemma bt_full n k : k < W * n -> bt (repeat full_word n) k = true.
Proof.
  intros Hk. unfold bit, get_bit. destruct (divmod W k H32) as [Ek Lk].
  destruct (rd_lt (repeat full_word n) (k / W)) as [x E]; [rewrite repeat_length; lia|].
  rewrite E. apply nth_error_In, repeat_spec in E. subst x. cbn [bind]. unfold full_word. rewrite tb_ones. lia.
Qed.

Lemma rd_app {A} (l m : list A) i : rd (l ++ m) i = if i <? length l then rd l i else rd m (i - length l).
Proof.
  unfold rd. destruct (Nat.ltb_spec i (length l)); [apply nth_error_app1; assumption|apply nth_error_app2; assumption].
Qed.

Lemma merge_word_wok lhs p v m r : Forall (wok W) lhs -> wok W v -> merge_word W lhs p v m = Some r -> Forall (wok W) r.
Proof.
  intros H Hv E. unfold merge_word in E. destruct (rd lhs p) as [l|] eqn:El; [|discriminate]. cbn [bind] in E.
  eapply Forall_upd; [exact H| |exact E].
  apply wok_lor; apply wok_land; [exact (wok_rd _ _ _ H El)|exact Hv].
Qed.
Lemma copy_words_wok rhs n : Forall (wok W) rhs -> forall lhs rp lp r, Forall (wok W) lhs ->
  copy_words rhs lhs rp lp n = Some r -> Forall (wok W) r.
Proof.
  intros Hr. induction n as [|n IH]; intros lhs rp lp r H E; cbn [copy_words] in E; [congruence|].
  destruct (rd rhs rp) as [x|] eqn:Ex; [|discriminate]. cbn [bind] in E.
  destruct (upd lhs lp x) as [l1|] eqn:E1; [|discriminate]. cbn [bind] in E.
  eapply IH; [|exact E]. eapply Forall_upd; [exact H| |exact E1]. exact (wok_rd _ _ _ Hr Ex).
Qed.
Lemma copy_shift_loop_wok rhs s n : Forall (wok W) rhs -> forall lhs rp lp r, Forall (wok W) lhs ->
  copy_shift_loop W rhs lhs s rp lp n = Some r -> Forall (wok W) r.
Proof.
  intros Hr. induction n as [|n IH]; intros lhs rp lp r H E; cbn [copy_shift_loop] in E; [congruence|].
  destruct (rd rhs rp) as [x|] eqn:Ex; [|discriminate]. cbn [bind] in E.
  destruct (wshr W x s) as [x'|] eqn:Ex'; [|discriminate]. cbn [bind] in E.
  destruct (rd rhs (rp + 1)) as [y|] eqn:Ey; [|discriminate]. cbn [bind] in E.
  destruct (wshl W y (W - s)) as [y'|] eqn:Ey'; [|discriminate]. cbn [bind] in E.
  destruct (upd lhs lp _) as [l1|] eqn:E1; [|discriminate]. cbn [bind] in E.
  eapply IH; [|exact E]. eapply Forall_upd; [exact H| |exact E1].
  apply wok_lor; [eapply wok_wshr; [exact (wok_rd _ _ _ Hr Ex)|exact Ex']|eapply wok_wshl; exact Ey'].
Qed.
Lemma copy_first_val_wok rhs rw rs ls v : Forall (wok W) rhs ->
  copy_first_val W rhs rw rs ls = Some v -> wok W v.
Proof.
  intros Hr E. unfold copy_first_val in E. destruct (rd rhs 0) as [x|] eqn:Ex; [|discriminate]. cbn [bind] in E.
  pose proof (wok_rd _ _ _ Hr Ex) as Hx.
  destruct (ls =? rs); [assert (v = x) by congruence; subst v; exact Hx|]. destruct (ls <? rs); [|eapply wok_wshl; exact E].
  destruct (wshr W x (rs - ls)) as [x'|] eqn:Ex'; [|discriminate]. cbn [bind] in E.
  pose proof (wok_wshr _ _ _ _ Hx Ex') as Hx'.
  destruct (1 <? rw); [|assert (v = x') by congruence; subst v; exact Hx'].
  destruct (rd rhs 1) as [y|] eqn:Ey; [|discriminate]. cbn [bind] in E.
  destruct (wshl W y (W - (rs - ls))) as [y'|] eqn:Ey'; [|discriminate]. cbn [bind] in E.
  assert (v = N.lor x' y') by congruence. subst v. apply wok_lor; [exact Hx'|eapply wok_wshl; exact Ey'].
Qed.
Lemma copy_aligned_wok rhs lhs lp lw rp rw rs tail r : Forall (wok W) rhs -> Forall (wok W) lhs ->
  copy_aligned W rhs lhs lp lw rp rw rs tail = Some r -> Forall (wok W) r.
Proof.
  intros Hr Hl E. unfold copy_aligned in E. cbv zeta in E.
  set (full := if tail =? 0 then lw else lw - 1) in *. clearbody full.
  destruct (if 0 <? full then _ else _) as [l1|] eqn:E1 in E; [|discriminate]. cbn [bind] in E.
  assert (H1 : Forall (wok W) l1).
  { destruct (0 <? full); [|congruence]. destruct (rs =? 0); [exact (copy_words_wok _ _ Hr _ _ _ _ Hl E1)|].
    destruct (copy_shift_loop W rhs lhs rs rp lp _) as [l0|] eqn:E0; [|discriminate]. cbn [bind] in E1.
    pose proof (copy_shift_loop_wok _ _ _ Hr _ _ _ _ Hl E0) as H0.
    destruct (_ <? full); [|congruence].
    destruct (rd rhs _) as [x|] eqn:Ex; [|discriminate]. cbn [bind] in E1.
    destruct (wshr W x rs) as [x'|] eqn:Ex'; [|discriminate]. cbn [bind] in E1.
    eapply Forall_upd; [exact H0| |exact E1]. eapply wok_wshr; [exact (wok_rd _ _ _ Hr Ex)|exact Ex']. }
  clear E1. destruct (negb (tail =? 0)); [|congruence].
  destruct (rd rhs (rp + full)) as [x|] eqn:Ex; [|discriminate]. cbn [bind] in E.
  destruct (wshr W x rs) as [x'|] eqn:Ex'; [|discriminate]. cbn [bind] in E.
  pose proof (wok_wshr _ _ _ _ (wok_rd _ _ _ Hr Ex) Ex') as Hx'.
  destruct (if rw - full =? 2 then _ else _) as [v|] eqn:Ev in E; [|discriminate]. cbn [bind] in E.
  assert (Hv : wok W v).
  { destruct (rw - full =? 2); [|assert (v = x') by congruence; subst v; exact Hx'].
    destruct (rd rhs (rp + full + 1)) as [y|] eqn:Ey; [|discriminate]. cbn [bind] in Ev.
    destruct (wshl W y (W - rs)) as [y'|] eqn:Ey'; [|discriminate]. cbn [bind] in Ev.
    assert (v = N.lor x' y') by congruence. subst v. apply wok_lor; [exact Hx'|eapply wok_wshl; exact Ey']. }
  destruct (wshr W (wones W) tail) as [m|]; [|discriminate]. cbn [bind] in E.
  eapply merge_word_wok; [exact H1|exact Hv|exact E].
Qed.
Lemma copy_bits_wok n rhs rs lhs ls r : Forall (wok W) rhs -> Forall (wok W) lhs ->
  copy_bits W n rhs rs lhs ls = Some r -> Forall (wok W) r.
Proof.
  intros Hr Hl E. unfold copy_bits in E. destruct (n =? 0); [congruence|]. cbv zeta in E.
  destruct (negb (ls =? 0)).
  2:{ eapply copy_aligned_wok; [| |exact E]; assumption. }
  destruct (copy_first_val W rhs _ rs ls) as [v|] eqn:Ev; [|discriminate]. cbn [bind] in E.
  pose proof (copy_first_val_wok _ _ _ _ _ Hr Ev) as Hv.
  destruct (wshl W (wones W) ls) as [m1|]; [|discriminate]. cbn [bind] in E.
  destruct (_ =? 1).
  - destruct (wshr W (wones W) _) as [m2|]; [|discriminate]. cbn [bind] in E.
    eapply merge_word_wok; [exact Hl|exact Hv|exact E].
  - destruct (merge_word W lhs 0 v m1) as [l1|] eqn:E1; [|discriminate]. cbn [bind] in E.
    pose proof (merge_word_wok _ _ _ _ _ Hl Hv E1) as H1.
    destruct (rs <? ls); eapply copy_aligned_wok; [| |exact E| | |exact E]; assumption.
Qed.

Lemma Forall_firstn' {A} (P : A -> Prop) n l : Forall P l -> Forall P (firstn n l).
Proof. revert l; induction n; intros l H; [constructor|]. destruct H; constructor; auto. Qed.
Lemma Forall_skipn' {A} (P : A -> Prop) n l : Forall P l -> Forall P (skipn n l).
Proof. revert l; induction n; intros l H; [exact H|]. destruct H; [constructor|]. apply IHn. assumption. Qed.

Definition concat_elem {A} (a b : darr A) (i : nat) : option A :=
  if i <? da_size a then da_elem a i else da_elem b (i - da_size a).

Lemma da_concat_ok {A} (a b : darr A) : da_valid a -> da_valid b ->
  exists r, da_concat a b = Some r /\ da_valid r /\ da_size r = da_size a + da_size b /\
    forall i, i < da_size a + da_size b -> da_elem r i = concat_elem a b i.
Proof.
  intros Ha Hb. unfold da_concat.
  set (na := da_size a). set (nb := da_size b).
  assert (Lv : length (vals a ++ vals b) = na + nb) by (rewrite app_length; reflexivity).
  assert (Hel : forall m, (forall i, i < na + nb ->
      match m with [] => true | _ => bt m (i + 0) end =
      if i <? na then da_pres a i else da_pres b (i - na)) ->
    forall i, i < na + nb -> da_elem (mkD (vals a ++ vals b) m 0) i = concat_elem a b i).
  { intros m Hm i Hi. specialize (Hm i Hi). unfold concat_elem, da_elem.
    change (da_pres (mkD (vals a ++ vals b) m 0) i) with (match m with [] => true | _ => bt m (i + 0) end).
    cbn [vals]. rewrite rd_app, Hm. fold (da_size a). fold na. destruct (i <? na); reflexivity. }
  assert (Hempty : bmp a = [] -> bmp b = [] -> exists r, Some (mkD (vals a ++ vals b) [] 0) = Some r /\ da_valid r /\
     da_size r = na + nb /\ forall i, i < na + nb -> da_elem r i = concat_elem a b i).
  { intros Ea Eb. eexists. split; [reflexivity|]. split; [|split; [exact Lv|]].
    - split; [cbn; lia|]. split; [constructor|left; reflexivity].
    - apply Hel. intros i Hi. unfold da_pres. rewrite Ea, Eb. destruct (i <? na); reflexivity. }
  set (m0 := repeat full_word (bitmap_size (na + nb))).
  assert (L0 : length m0 = bitmap_size (na + nb)) by apply repeat_length.
  pose proof (bitmap_size_ge (na + nb)) as Hge. pose proof (bitmap_size_lt (na + nb)) as Hlt.
  assert (W0 : Forall (wok W) m0).
  { apply Forall_forall. intros x Hx. apply repeat_spec in Hx. subst x. apply wok_ones. }
  destruct Ha as (Hoa & Hwa & Hba). destruct Hb as (Hob & Hwb & Hbb).
  assert (H1 : exists m1, match bmp a with [] => Some m0 | _ :: _ => copy_bits W na (bmp a) (boff a) m0 0 end = Some m1 /\
     length m1 = length m0 /\ Forall (wok W) m1 /\
     forall k, k < na + nb -> bt m1 k = if k <? na then da_pres a k else true).
  { unfold da_pres. destruct (bmp a) as [|x t] eqn:Ea.
    - exists m0. split; [reflexivity|]. split; [reflexivity|]. split; [exact W0|]. intros k Hk.
      unfold m0. rewrite bt_full by lia. destruct (k <? na); reflexivity.
    - rewrite <- Ea in *. destruct Hba as [Hba|Hba]; [congruence|].
      pose proof (bitmap_size_ge (length (vals a) + boff a)) as G. change (length (vals a)) with na in *.
      destruct (copy_bits_ok W H32 na (bmp a) (boff a) m0 0 (words_ok _ Hwa) Hoa) as (m1 & E1 & P1); [lia..|].
      exists m1. split; [exact E1|]. split; [apply P1|]. split.
      + eapply copy_bits_wok; [apply words_ok; exact Hwa|exact W0|exact E1].
      + intros k Hk. rewrite (patched_bt _ _ _ _ _ _ _ P1). cbn [Nat.add].
        destruct (Nat.ltb_spec k na) as [L|L]; cbn [Nat.leb andb].
        * f_equal. lia.
        * unfold m0. apply bt_full. lia. }
  destruct H1 as (m1 & E1 & L1 & W1 & B1).
  assert (H2 : exists m2, match bmp b with [] => Some m1 | _ :: _ =>
       let? t := copy_bits W nb (bmp b) (boff b) (skipn (na / W) m1) (na mod W) in
       Some (firstn (na / W) m1 ++ t) end = Some m2 /\
     length m2 = length m0 /\ Forall (wok W) m2 /\
     forall k, k < na + nb -> bt m2 k = if k <? na then da_pres a k else da_pres b (k - na)).
  { unfold da_pres at 2. destruct (bmp b) as [|x t] eqn:Eb.
    - exists m1. split; [reflexivity|]. split; [exact L1|]. split; [exact W1|exact B1].
    - rewrite <- Eb in *. destruct Hbb as [Hbb|Hbb]; [congruence|].
      pose proof (bitmap_size_ge (length (vals b) + boff b)) as G. change (length (vals b)) with nb in *.
      destruct (divmod W na H32) as [En Ln]. set (q := na / W) in *. set (o := na mod W) in *.
      assert (Lq : q <= length m1) by lia.
      assert (Ls : length (skipn q m1) = length m1 - q) by apply skipn_length.
      destruct (copy_bits_ok W H32 nb (bmp b) (boff b) (skipn q m1) o (words_ok _ Hwb) Hob Ln) as (m2 & E2 & P2); [lia..|].
      rewrite E2. cbn [bind]. eexists. split; [reflexivity|]. split; [|split].
      + rewrite app_length, (proj1 P2), Ls, firstn_length. lia.
      + apply Forall_app. split; [apply Forall_firstn'; exact W1|].
        eapply copy_bits_wok; [apply words_ok; exact Hwb|apply Forall_skipn'; exact W1|exact E2].
      + intros k Hk. rewrite bt_app_skip by (exact Lq || apply P2).
        destruct (Nat.ltb_spec k (W * q)) as [L|L].
        * rewrite B1 by exact Hk. replace (k <? na) with true by lia. reflexivity.
        * rewrite (patched_bt _ _ _ _ _ _ _ P2).
          assert (Hsk : bt (skipn q m1) (k - W * q) = bt m1 k).
          { assert (Es : buf_slice m1 q (length m1 - q) = Some (skipn q m1)).
            { unfold buf_slice. replace (q + (length m1 - q) <=? length m1) with true by lia.
              rewrite firstn_all2 by lia. reflexivity. }
            rewrite (bt_slice _ _ _ _ (k - W * q) Es) by lia. f_equal. lia. }
          rewrite Hsk, B1 by exact Hk. destruct (Nat.ltb_spec k na) as [L2|L2].
          -- replace ((o <=? k - W * q) && (k - W * q <? o + nb)) with false by lia. reflexivity.
          -- replace ((o <=? k - W * q) && (k - W * q <? o + nb)) with true by lia. f_equal. lia. }
  destruct H2 as (m2 & E2 & L2 & W2 & B2).
  assert (Hmain : exists r,
     (let? m1 := match bmp a with [] => Some m0 | _ :: _ => copy_bits W na (bmp a) (boff a) m0 0 end in
      let? m2 := match bmp b with [] => Some m1 | _ :: _ =>
       let? t := copy_bits W nb (bmp b) (boff b) (skipn (na / W) m1) (na mod W) in
       Some (firstn (na / W) m1 ++ t) end in Some (mkD (vals a ++ vals b) m2 0)) = Some r /\ da_valid r /\
     da_size r = na + nb /\ forall i, i < na + nb -> da_elem r i = concat_elem a b i).
  { rewrite E1. cbn [bind]. rewrite E2. cbn [bind]. eexists. split; [reflexivity|]. split; [|split; [exact Lv|]].
    - split; [cbn; lia|]. split; [apply wok_words; exact W2|]. right. cbn [bmp vals boff].
      rewrite L2, L0, Lv, Nat.add_0_r. reflexivity.
    - apply Hel. intros i Hi. destruct m2 as [|y t] eqn:Em; [cbn [length] in L2; lia|]. rewrite <- Em in *.
      rewrite Nat.add_0_r. apply B2. exact Hi. }
  destruct (bmp a) as [|x t] eqn:Ea; [|exact Hmain].
  destruct (bmp b) as [|y u] eqn:Eb; [|exact Hmain]. apply Hempty; reflexivity.
Qed.

(** ** Arrays denote lists of optional values *)
Lemma represents_elem {A} (a : darr A) l : represents a l <->
  da_valid a /\ da_size a = length l /\ forall i, i < length l -> da_elem a i = nth i l None.
Proof.
  split; intros (H1 & H2 & H3); (split; [exact H1|split; [exact H2|]]); intros i Hi; specialize (H3 i Hi).
  - rewrite da_get_ok in H3 by (assumption || lia). congruence.
  - rewrite da_get_ok by (assumption || lia). congruence.
Qed.

Lemma nth_seq_map {B} (f : nat -> B) n i d : i < n -> nth i (map f (seq 0 n)) d = f i.
Proof.
  intros H. rewrite nth_indep with (d' := f 0) by (rewrite map_length, seq_length; exact H).
  rewrite map_nth, seq_nth by exact H. reflexivity.
Qed.
Lemma list_as_map {B} (l : list B) d : l = map (fun i => nth i l d) (seq 0 (length l)).
Proof.
  apply nth_ext with (d := d) (d' := d).
  - rewrite map_length, seq_length. reflexivity.
  - intros i Hi. rewrite (nth_seq_map (fun i => nth i l d)) by exact Hi. reflexivity.
Qed.

Lemma represents_fn {A} (a : darr A) n f : da_valid a -> da_size a = n ->
  (forall i, i < n -> da_elem a i = f i) -> represents a (map f (seq 0 n)).
Proof.
  intros H1 H2 H3. apply represents_elem. rewrite map_length, seq_length.
  split; [exact H1|]. split; [exact H2|]. intros i Hi. rewrite nth_seq_map by exact Hi. apply H3, Hi.
Qed.

Lemma represents_total {A} (a : darr A) : da_valid a -> exists l, represents a l.
Proof. intros H. eexists. apply (represents_fn a (da_size a) (da_elem a)); auto. Qed.
Lemma represents_unique {A} (a : darr A) l m : represents a l -> represents a m -> l = m.
Proof.
  intros (_ & L1 & H1) (_ & L2 & H2). apply nth_ext with (d := None) (d' := None); [lia|].
  intros i Hi. specialize (H1 i Hi). rewrite H2 in H1 by lia. congruence.
Qed.

Lemma slice_nth {B} (l : list B) s n i d : i < n -> nth i (firstn n (skipn s l)) d = nth (s + i) l d.
Proof.
  intros H. pose proof (firstn_skipn_rd l s n i) as E. replace (i <? n) with true in E by lia.
  unfold rd in E. destruct (nth_error l (s + i)) eqn:E2.
  - rewrite (nth_error_nth _ _ d E), (nth_error_nth _ _ d E2). reflexivity.
  - apply nth_error_None in E, E2. rewrite !nth_overflow by assumption. reflexivity.
Qed.

Lemma rep_slice {A} (a : darr A) l s n : represents a l -> s + n <= length l ->
  exists r, da_slice a s n = Some r /\ represents r (firstn n (skipn s l)).
Proof.
  rewrite represents_elem. intros (Hv & Hs & He) H.
  destruct (da_slice_ok a s n Hv) as (r & E & V & S & R); [lia|]. exists r. split; [exact E|].
  apply represents_elem. rewrite firstn_length, skipn_length. split; [exact V|]. split; [lia|].
  intros i Hi. rewrite slice_nth by lia. rewrite R by lia. apply He. lia.
Qed.

Lemma rep_force {A} (a : darr A) l : represents a l ->
  exists r, da_force_no_offset a = Some r /\ boff r = 0 /\ represents r l.
Proof.
  rewrite represents_elem. intros (Hv & Hs & He).
  destruct (da_force_ok a Hv) as (r & E & V & B & S & R). exists r. split; [exact E|]. split; [exact B|].
  apply represents_elem. split; [exact V|]. split; [lia|]. intros i Hi. rewrite R by lia. apply He, Hi.
Qed.

Lemma cnt_filter {B} (p : B -> bool) (l : list B) d :
  length (filter p l) = cnt (fun i => p (nth i l d)) 0 (length l).
Proof.
  rewrite (list_as_map l d) at 1. unfold cnt. generalize (seq 0 (length l)). intros s.
  induction s as [|i s IH]; [reflexivity|]. cbn [map filter]. destruct (p (nth i l d)); cbn [length]; lia.
Qed.
Lemma rep_count {A} (a : darr A) l : represents a l -> da_present_count a = Some (length (filter is_some l)).
Proof.
  rewrite represents_elem. intros (Hv & Hs & He). rewrite da_count_ok by exact Hv. f_equal.
  rewrite (cnt_filter is_some l None), Hs. apply cnt_ext. intros i Hi. rewrite <- He by lia.
  apply da_elem_pres. lia.
Qed.

Lemma filter_none {A} (l : list (option A)) : length (filter is_some l) = 0 <-> Forall (fun o => o = None) l.
Proof.
  induction l as [|[x|] l IH]; cbn [filter is_some length].
  - split; [constructor|reflexivity].
  - split; [lia|]. intros H. inversion H. discriminate.
  - rewrite IH. split; [constructor; auto|]. intros H. inversion H; assumption.
Qed.
Lemma filter_len {B} (p : B -> bool) l : length (filter p l) <= length l.
Proof. induction l as [|x l IH]; cbn [filter length]; [lia|]. destruct (p x); cbn [length]; lia. Qed.
Lemma filter_all {A} (l : list (option A)) :
  length (filter is_some l) = length l <-> Forall (fun o => o <> None) l.
Proof.
  induction l as [|[x|] l IH]; cbn [filter is_some length].
  - split; [constructor|reflexivity].
  - split; [intros H; constructor; [discriminate|]; apply IH; lia|]. intros H.
    inversion H; subst. f_equal. apply IH. assumption.
  - pose proof (filter_len is_some l). split; [lia|]. intros H'. inversion H'. congruence.
Qed.

Lemma rep_flags {A} (a : darr A) l : represents a l ->
  exists f1 f2 f3, da_is_all_missing a = Some f1 /\ da_is_full a = Some f2 /\ da_is_all_present a = Some f3 /\
    (f1 = true <-> Forall (fun o => o = None) l) /\
    (f2 = true <-> Forall (fun o => o <> None) l) /\
    (f3 = true <-> Forall (fun o => o <> None) l).
Proof.
  intros H. pose proof (rep_count a l H) as C. unfold da_is_all_missing, da_is_all_present, da_is_full.
  rewrite C. cbn [bind]. destruct (proj1 (represents_elem a l) H) as (Hv & Hs & He).
  rewrite Hs.
  exists (length (filter is_some l) =? 0), (length (filter is_some l) =? length l),
    (match bmp a with [] => true | _ => length (filter is_some l) =? length l end).
  split; [reflexivity|]. split; [reflexivity|]. split; [destruct (bmp a); reflexivity|].
  rewrite Nat.eqb_eq, filter_none. split; [reflexivity|].
  rewrite Nat.eqb_eq, filter_all. split; [reflexivity|].
  destruct (bmp a) eqn:Eb; [|rewrite Nat.eqb_eq; apply filter_all].
  split; [|reflexivity]. intros _. apply Forall_forall. intros o Ho.
  apply In_nth with (d := None) in Ho as (i & Hi & <-). rewrite <- He by exact Hi.
  destruct (rd_lt (vals a) i) as [v Ev]; [unfold da_size in Hs; lia|].
  unfold da_elem, da_pres. rewrite Ev, Eb. discriminate.
Qed.

Lemma rep_mask {A} (a : darr A) l : represents a l ->
  represents (da_to_mask a) (map (option_map (fun _ => tt)) l).
Proof.
  rewrite !represents_elem. intros ((V1 & V2 & V3) & Hs & He). unfold da_to_mask, da_valid, da_size in *.
  cbn [vals bmp boff]. rewrite repeat_length, map_length. split; [|split; [exact Hs|]].
  - split; [exact V1|]. split; [exact V2|exact V3].
  - intros i Hi. change (None : option unit) with (option_map (fun _ : A => tt) None).
    rewrite map_nth, <- He by exact Hi. unfold da_elem.
    change (da_pres (mkD (repeat tt (length (vals a))) (bmp a) (boff a)) i) with (da_pres a i). cbn [vals].
    destruct (rd_lt (repeat tt (length (vals a))) i) as [[] ->]; [rewrite repeat_length; lia|].
    destruct (rd_lt (vals a) i) as [v ->]; [lia|]. destruct (da_pres a i); reflexivity.
Qed.

(** The calls of ForEach: every index once, in order, its presence, and its value if present. *)
Lemma rep_for_each {A} (a : darr A) l : represents a l ->
  exists r, da_for_each a = Some r /\
    map (fun c : nat * bool * A => (fst (fst c), if snd (fst c) then Some (snd c) else None)) r =
    combine (seq 0 (length l)) l.
Proof.
  intros H. destruct (proj1 (represents_elem a l) H) as (Hv & Hs & He).
  destruct (da_for_each_ok a Hv) as (r & E & M & F). exists r. split; [exact E|].
  assert (G : forall (r : list (nat * bool * A)) s, map fst r = map (fun i => (i, da_pres a i)) s ->
    Forall (fun c => rd (vals a) (fst (fst c)) = Some (snd c)) r ->
    map (fun c : nat * bool * A => (fst (fst c), if snd (fst c) then Some (snd c) else None)) r = map (fun i => (i, da_elem a i)) s).
  { clear. induction r as [|[[i p] v] r IH]; intros [|j s] HM HF; try discriminate; [reflexivity|].
    cbn [map fst snd] in *. inversion HF as [|? ? H1 H2]; subst. cbn [fst snd] in H1.
    injection HM as -> -> HM. rewrite (IH s HM H2). f_equal. f_equal. unfold da_elem. rewrite H1. reflexivity. }
  rewrite (G r _ M F), Hs.
  assert (G2 : forall s, (forall i, In i s -> i < length l) -> map (fun i => (i, da_elem a i)) s = combine s (map (fun i => nth i l None) s)).
  { induction s as [|i s IH]; intros Hin; [reflexivity|]. cbn [map combine]. rewrite IH by (intros; apply Hin; right; assumption).
    rewrite He by (apply Hin; left; reflexivity). reflexivity. }
  rewrite (G2 (seq 0 (length l))) by (intros i Hi; apply in_seq in Hi; lia).
  rewrite <- (list_as_map l None). reflexivity.
Qed.

Lemma rep_for_each_present {A} (a : darr A) l : represents a l ->
  da_for_each_present a = Some (present_pairs l).
Proof.
  intros H. destruct (rep_for_each a l H) as (r & E & M). unfold da_for_each_present. rewrite E. cbn [bind]. f_equal.
  unfold present_pairs. rewrite <- M. clear. induction r as [|[[i p] v] r IH]; [reflexivity|].
  cbn [filter map flat_map fst snd]. destruct p; cbn [map fst snd app]; rewrite IH; reflexivity.
Qed.

Lemma rep_equivalent {A} (eqb : A -> A -> bool) a b l m : (forall x y, eqb x y = true <-> x = y) ->
  represents a l -> represents b m ->
  exists r, da_equivalent eqb a b = Some r /\ (r = true <-> l = m).
Proof.
  rewrite !represents_elem. intros Heq (Va & Sa & Ea) (Vb & Sb & Eb).
  destruct (da_equivalent_ok eqb a b Heq Va Vb) as (r & E & H). exists r. split; [exact E|]. rewrite H.
  split.
  - intros [HS HE]. apply nth_ext with (d := None) (d' := None); [lia|]. intros i Hi.
    rewrite <- Ea, <- Eb by lia. apply HE. lia.
  - intros <-. split; [lia|]. intros i Hi. rewrite Ea, Eb by lia. reflexivity.
Qed.

Lemma rep_concat {A} (a b : darr A) l m : represents a l -> represents b m ->
  exists r, da_concat a b = Some r /\ represents r (l ++ m).
Proof.
  rewrite !represents_elem. intros (Va & Sa & Ea) (Vb & Sb & Eb).
  destruct (da_concat_ok a b Va Vb) as (r & E & V & S & R). exists r. split; [exact E|].
  apply represents_elem. rewrite app_length. split; [exact V|]. split; [lia|]. intros i Hi.
  rewrite R by lia. unfold concat_elem. rewrite Sa. destruct (Nat.ltb_spec i (length l)).
  - rewrite app_nth1 by assumption. apply Ea. assumption.
  - rewrite app_nth2 by assumption. apply Eb. lia.
Qed.

(** ** Builder histories against lists *)
Lemma skipn_nth {B} (l : list B) s i d : nth i (skipn s l) d = nth (s + i) l d.
Proof.
  revert l; induction s as [|s IH]; intros l; [reflexivity|].
  destruct l as [|x l]; [destruct i; reflexivity|]. apply IH.
Qed.
Lemma firstn_nth {B} (l : list B) n i d : i < n -> nth i (firstn n l) d = nth i l d.
Proof. exact (slice_nth l 0 n i d). Qed.

Lemma list_write_len {A} (l : list (option A)) id n v : id + n <= length l -> length (list_write l id n v) = length l.
Proof.
  intros H. destruct v; [|reflexivity]. cbn [list_write].
  rewrite !app_length, repeat_length, firstn_length, skipn_length. lia.
Qed.
Lemma repeat_nth {B} (x : B) n i d : i < n -> nth i (repeat x n) d = x.
Proof. revert i; induction n; intros [|i] H; cbn; try lia; [reflexivity|]. apply IHn. lia. Qed.
Lemma list_write_nth {A} (l : list (option A)) f id n v i : id + n <= length l ->
  (forall i, i < length l -> nth i l None = f i) -> i < length l ->
  nth i (list_write l id n v) None = write f id n v i.
Proof.
  intros H Hf Hi. destruct v as [x|]; cbn [list_write write]; [|apply Hf, Hi].
  destruct (Nat.lt_ge_cases i id) as [L|L].
  - rewrite app_nth1 by (rewrite firstn_length; lia). rewrite firstn_nth by lia.
    replace ((id <=? i) && (i <? id + n)) with false by lia. apply Hf, Hi.
  - rewrite app_nth2 by (rewrite firstn_length; lia). rewrite firstn_length.
    replace (Nat.min id (length l)) with id by lia.
    destruct (Nat.lt_ge_cases i (id + n)) as [L2|L2].
    + rewrite app_nth1 by (rewrite repeat_length; lia). rewrite repeat_nth by lia.
      replace ((id <=? i) && (i <? id + n)) with true by lia. reflexivity.
    + rewrite app_nth2 by (rewrite repeat_length; lia). rewrite repeat_length, skipn_nth.
      replace ((id <=? i) && (i <? id + n)) with false by lia.
      replace (id + n + (i - id - n)) with i by lia. apply Hf, Hi.
Qed.

Lemma list_wrs_ok {A} max (ws : list (wr A)) : forall l f, length l = max -> Forall (wr_in max) ws ->
  (forall i, i < max -> nth i l None = f i) ->
  length (fold_left list_wr ws l) = max /\
  forall i, i < max -> nth i (fold_left list_wr ws l) None = fold_left wr_spec ws f i.
Proof.
  induction ws as [|w ws IH]; intros l f L F H; cbn [fold_left]; [split; assumption|].
  inversion F as [|? ? F1 F2]; subst. apply IH; [|exact F2|].
  - destruct w; cbn [list_wr wr_in] in *; apply list_write_len; lia.
  - intros i Hi. destruct w; cbn [list_wr wr_spec wr_in] in *; apply list_write_nth; (assumption || lia).
Qed.

Lemma rep_builder {A} (mem : list A) ws : Forall (wr_in (length mem)) ws ->
  exists b, wr_runs (db_init mem) ws = Some b /\
    represents (db_build b) (fold_left list_wr ws (repeat None (length mem))) /\
    forall size, size <= length mem -> exists r, db_build_size b size = Some r /\
      represents r (firstn size (fold_left list_wr ws (repeat None (length mem)))).
Proof.
  intros F. destruct (wr_runs_ok (length mem) ws (db_init mem) (fun _ => None) (db_init_inv mem) F) as (b & E & I).
  exists b. split; [exact E|].
  destruct (list_wrs_ok (length mem) ws (repeat None (length mem)) (fun _ => None)) as [L N].
  { apply repeat_length. } { exact F. } { intros i Hi. apply repeat_nth. exact Hi. }
  set (res := fold_left list_wr ws (repeat None (length mem))) in *.
  assert (G : forall size, size <= length mem -> exists r, db_build_size b size = Some r /\ represents r (firstn size res)).
  { intros size Hs. destruct (db_build_size_ok _ _ _ size I Hs) as (r & Er & V & S & R). exists r. split; [exact Er|].
    apply represents_elem. rewrite firstn_length. split; [exact V|]. split; [lia|]. intros i Hi.
    rewrite R by lia. rewrite firstn_nth by lia. symmetry. apply N. lia. }
  split; [|exact G]. destruct (G (length mem)) as (r & Er & R); [lia|].
  rewrite (db_build_full _ _ _ I) in Er. rewrite firstn_all2 in R by lia. congruence.
Qed.

Lemma rep_create {A} (d : A) mem data :
  length mem = bitmap_size (length data) -> Forall (fun x => x < 2 ^ 32)%N mem ->
  exists r, create_dense_array d mem data = Some r /\ represents r data.
Proof.
  intros L F. destruct (create_dense_array_ok d mem data L (words_ok _ F)) as (r & E & V & S & R).
  exists r. split; [exact E|]. apply represents_elem. split; [exact V|]. split; [exact S|exact R].
Qed.
Lemma rep_const {A} n (x : A) : represents (create_const n x) (repeat (Some x) n).
Proof.
  apply represents_elem. rewrite repeat_length. destruct (create_const_ok n x) as (V & S & R).
  split; [exact V|]. split; [exact S|]. intros i Hi. rewrite R by exact Hi. symmetry. apply repeat_nth. exact Hi.
Qed.
Lemma rep_empty {A} (mem : list A) : represents (create_empty mem) (repeat None (length mem)).
Proof.
  apply represents_elem. rewrite repeat_length. destruct (create_empty_ok mem) as (V & S & R).
  split; [exact V|]. split; [exact S|]. intros i Hi. rewrite R by exact Hi. symmetry. apply repeat_nth. exact Hi.
Qed.
