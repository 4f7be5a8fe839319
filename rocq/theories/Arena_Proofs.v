From Verif Require Import Base Arena_Model Arena_Spec.
Local Open Scope Z_scope.

Lemma p64_id x : 0 <= x <= 18446744073709551615 -> p64 x = x.
Proof. intros H. unfold p64. apply Z.mod_small. change (2 ^ 64) with 18446744073709551616. lia. Qed.
Lemma p64_neg x : -18446744073709551616 <= x < 0 -> p64 x = x + 18446744073709551616.
Proof.
  intros H. unfold p64. change (2 ^ 64) with 18446744073709551616. rewrite <- (Z_mod_plus_full x 1). apply Z.mod_small. lia.
Qed.

(** Bytes that may be handed out: the rest of the page and the pages after it. *)
Definition future (a : arena) (x : Z) : Prop :=
  exists i p, page_id a < Z.of_nat i /\ rd (pages a) i = Some p /\ p <= x < p + page_size a.
Definition free (a : arena) (x : Z) : Prop := current a <= x < end_ a \/ future a x.
Definition inv_a (a : arena) : Prop :=
  0 <= current a <= end_ a /\ end_ a <= top /\
  -1 <= page_id a /\ page_id a + 1 <= Z.of_nat (length (pages a)) /\ (page_id a = -1 -> pages a = [] /\ current a = 8 /\ end_ a = 8) /\
  (forall x, owned a x -> 16 <= x) /\
  (forall i p, rd (pages a) i = Some p -> 16 <= p /\ p mod 8 = 0 /\ 2 <= page_size a /\ p + page_size a <= top) /\
  (forall i j p q x, rd (pages a) i = Some p -> rd (pages a) j = Some q -> p <= x < p + page_size a -> q <= x < q + page_size a -> i = j) /\
  (forall x, current a <= x < end_ a -> ~ future a x) /\
  (forall x, free a x -> owned a x).
Definition buf_in (L : list (Z * Z)) (j : nat) (x : Z) : Prop := exists d s, rd L j = Some (d, s) /\ d <= x < d + s.
Definition inv (a : arena) (L : list (Z * Z)) : Prop :=
  inv_a a /\
  (forall j d s, rd L j = Some (d, s) -> 0 <= s <= top /\ d mod 8 = 0 /\ 0 <= d /\ d + s <= top /\ forall x, d <= x < d + s -> owned a x) /\
  (forall j x, buf_in L j x -> ~ free a x) /\
  (forall i j x, buf_in L i x -> buf_in L j x -> i = j).

Lemma owned_page a i p x : rd (pages a) i = Some p -> p <= x < p + page_size a -> owned a x.
Proof.
  intros H Hx. exists (p, page_size a). split; [|exact Hx]. apply in_app_iff. left. apply in_map_iff. exists p. split; [reflexivity|].
  eapply nth_error_In, H.
Qed.
Lemma owned_future a x : future a x -> owned a x.
Proof. intros (i & p & _ & H & Hx). eapply owned_page; eassumption. Qed.

Lemma init_inv ps : inv (a_init ps) [].
Proof.
  assert (N : forall i x, rd (@nil Z) i = Some x -> False) by (intros [|i] x H; discriminate).
  assert (NF : forall x, ~ free (a_init ps) x).
  { intros x [H|(i & p & _ & H & _)]; [cbn in H; lia|]. eapply N, H. }
  split; [|split; [|split]].
  - split; [cbn; lia|]. split; [cbn; lia|]. split; [cbn; lia|]. split; [cbn; lia|]. split; [auto|]. split; [intros x (r & [] & _)|].
    split; [intros i p H; destruct (N _ _ H)|]. split; [intros i j p q x H; destruct (N _ _ H)|].
    split; [cbn; lia|]. intros x H. destruct (NF x H).
  - intros [|j] d s H; discriminate.
  - intros j x (d & s & H & _). destruct j; discriminate.
  - intros i j x (d & s & H & _). destruct i; discriminate.
Qed.

(** A block obtained by [SlowAlloc]. *)
Lemma slow_alloc_ok a n f : inv_a a -> 0 <= n <= top ->
  exists a' d ask, slow_alloc a n f = Some (a', d, ask) /\ page_size a' = page_size a /\
   ((forall sz, ask = Some sz -> fresh a f sz) ->
    inv_a a' /\ 0 <= d /\ d mod 8 = 0 /\ d + n <= top /\
    (forall x, owned a x -> owned a' x) /\
    (forall x, d <= x < d + n -> (future a x \/ ~ owned a x) /\ owned a' x) /\
    (forall x, free a' x -> (free a x \/ ~ owned a x) /\ ~ (d <= x < d + n))).
Proof.
  intros (I1 & I2 & I3 & I4 & I4' & I9 & I5 & I6 & I7 & I8) Hn. unfold slow_alloc.
  destruct ((p64 (page_size a) <? n) || (Z.quot (page_size a) 2 <=? end_ a - current a)) eqn:E.
  - eexists _, f, (Some n). split; [reflexivity|]. split; [reflexivity|]. intros Hf. specialize (Hf n eq_refl).
    destruct Hf as (F1 & F2 & F3 & F4 & F5).
    assert (Ow : forall x, owned a x -> owned (mkA (page_size a) (page_id a) (current a) (end_ a) (pages a) (bigs a ++ [(f, n)])) x).
    { intros x (r & H1 & H2). exists r. split; [|exact H2]. unfold regions in *. cbn [page_size pages bigs]. rewrite app_assoc. apply in_app_iff. left. exact H1. }
    assert (On : forall x, owned (mkA (page_size a) (page_id a) (current a) (end_ a) (pages a) (bigs a ++ [(f, n)])) x -> 16 <= x).
    { intros x (r & H1 & H2). unfold regions in H1. cbn [page_size pages bigs] in H1. rewrite app_assoc in H1. apply in_app_iff in H1 as [H1|[<-|[]]].
      - apply I9. exists r. auto.
      - unfold inside in H2. cbn in H2. lia. }
    split; [|split; [exact F1|split; [exact F2|split; [exact F3|split; [exact Ow|split]]]]].
    + split; [exact I1|]. split; [exact I2|]. split; [exact I3|]. split; [exact I4|]. split; [exact I4'|]. split; [exact On|]. split; [exact I5|]. split; [exact I6|]. split; [exact I7|].
      intros x H. apply Ow, I8, H.
    + intros x Hx. split; [right; apply F5, Hx|]. exists (f, n). split; [|exact Hx]. unfold regions. apply in_app_iff. right.
      cbn [bigs]. apply in_app_iff. right. left. reflexivity.
    + intros x H. split; [left; exact H|]. intros Hx. apply (F5 x Hx), I8, H.
  - apply orb_false_iff in E as [E1 E2].
    assert (Hps : 2 <= page_size a).
    { destruct (Z_lt_le_dec (page_size a) 2) as [H|H]; [|exact H]. exfalso.
      assert (Z.quot (page_size a) 2 <= 0); [|lia].
      assert (K := Z.quot_le_mono (page_size a) 1 2 ltac:(lia) ltac:(lia)). change (1 ÷ 2) with 0 in K. exact K. }
    unfold next_page. destruct (Z.eqb_spec (page_id a + 1) (Z.of_nat (length (pages a)))) as [El|El].
    + cbn [bind current page_size page_id end_ pages bigs]. eexists _, f, (Some (page_size a)). split; [reflexivity|]. split; [reflexivity|].
      intros Hf. specialize (Hf _ eq_refl). destruct Hf as (F1 & F2 & F3 & F4 & F5). specialize (F4 ltac:(lia)).
      rewrite p64_id in E1 by lia. rewrite (p64_id (f + n)), (p64_id (f + page_size a)) by lia.
      set (a' := mkA _ _ _ _ _ _).
      assert (Ow : forall x, owned a x -> owned a' x).
      { intros x (r & H1 & H2). exists r. split; [|exact H2]. unfold regions in *. cbn [a' page_size pages bigs]. rewrite map_app, <- app_assoc.
        apply in_app_iff in H1 as [H1|H1]; apply in_app_iff; [left; exact H1|right; right; exact H1]. }
      assert (Rl : rd (pages a ++ [f]) (length (pages a)) = Some f) by (unfold rd; rewrite nth_error_app2, Nat.sub_diag by lia; reflexivity).
      assert (Ro : forall i p, rd (pages a ++ [f]) i = Some p -> (i < length (pages a))%nat /\ rd (pages a) i = Some p \/ i = length (pages a) /\ p = f).
      { intros i p H. destruct (Nat.lt_trichotomy i (length (pages a))) as [K|[K|K]].
        - left. split; [exact K|]. unfold rd in *. rewrite nth_error_app1 in H by exact K. exact H.
        - right. subst i. rewrite Rl in H. split; [reflexivity|congruence].
        - apply rd_Some_lt in H. rewrite app_length in H. cbn in H. lia. }
      assert (Onew : forall x, f <= x < f + page_size a -> owned a' x).
      { intros x Hx. apply (owned_page a' (length (pages a)) f x Rl Hx). }
      assert (NF : forall x, ~ future a' x).
      { intros x (i & p & H1 & H2 & _). cbn [a' page_id pages] in *. apply rd_Some_lt in H2. rewrite app_length in H2. cbn in H2. lia. }
      split; [|split; [exact F1|split; [exact F2|split; [lia|split; [exact Ow|split]]]]].
      * unfold inv_a. cbn [a' current end_ page_id pages page_size]. rewrite app_length. cbn [length].
        split; [lia|]. split; [lia|]. split; [lia|]. split; [lia|]. split; [lia|]. split.
        { intros x (r & H1 & H2). unfold regions in H1. cbn [a' page_size pages bigs] in H1. rewrite map_app, <- app_assoc in H1.
          apply in_app_iff in H1 as [H1|[<-|H1]].
          - apply I9. exists r. split; [apply in_app_iff; left; exact H1|exact H2].
          - unfold inside in H2. cbn in H2. lia.
          - apply I9. exists r. split; [apply in_app_iff; right; exact H1|exact H2]. }
        split.
        { intros i p H. apply Ro in H as [[_ H]|[_ ->]]; [apply (I5 i), H|]. lia. }
        split.
        { intros i j p q x Hi Hj Hp Hq. apply Ro in Hi as [[Ki Hi]|[-> ->]]; apply Ro in Hj as [[Kj Hj]|[-> ->]].
          - eapply I6; eassumption.
          - exfalso. apply (F5 x Hq). eapply owned_page; eassumption.
          - exfalso. apply (F5 x Hp). eapply owned_page; eassumption.
          - reflexivity. }
        split; [intros x _; apply NF|].
        intros x [H|H]; [|destruct (NF x H)]. cbn [a' current end_] in H. apply Onew. lia.
      * intros x Hx. assert (f <= x < f + page_size a) by lia. split; [right; apply F5; assumption|apply Onew; assumption].
      * intros x [H|H]; [|destruct (NF x H)]. cbn [a' current end_] in H. split; [right; apply F5; lia|lia].
    + assert (Hl : (Z.to_nat (page_id a + 1) < length (pages a))%nat) by lia.
      destruct (rd_lt (pages a) (Z.to_nat (page_id a + 1)) Hl) as [p Hp]. rewrite Hp. cbn [bind current page_size page_id end_ pages bigs].
      eexists _, p, None. split; [reflexivity|]. split; [reflexivity|]. intros _. destruct (I5 _ _ Hp) as (P1 & P2 & P3 & P4).
      rewrite p64_id in E1 by lia. rewrite (p64_id (p + n)), (p64_id (p + page_size a)) by lia.
      set (a' := mkA _ _ _ _ _ _).
      assert (Fut : forall x, p <= x < p + page_size a -> future a x).
      { intros x Hx. exists (Z.to_nat (page_id a + 1)), p. split; [lia|]. split; assumption. }
      assert (Fut' : forall x, future a' x -> future a x /\ ~ (p <= x < p + page_size a)).
      { intros x (i & q & H1 & H2 & H3). cbn [a' page_id pages page_size] in *. split; [exists i, q; split; [lia|split; assumption]|].
        intros Hx. assert (i = Z.to_nat (page_id a + 1)) by (eapply I6; eassumption). lia. }
      split; [|split; [lia|split; [exact P2|split; [lia|split; [auto|split]]]]].
      * unfold inv_a. cbn [a' current end_ page_id pages page_size].
        split; [lia|]. split; [lia|]. split; [lia|]. split; [lia|]. split; [lia|]. split; [exact I9|]. split; [exact I5|]. split; [exact I6|]. split.
        { intros x Hx K. apply Fut' in K as [_ K]. apply K. lia. }
        intros x [H|H]; [|apply owned_future, H]. cbn [a' current end_] in H. apply (owned_page a' _ p x Hp). cbn [a' page_size]. lia.
      * intros x Hx. split; [left; apply Fut; lia|]. apply (owned_page a' _ p x Hp). cbn [a' page_size]. lia.
      * intros x [H|H].
        -- cbn [a' current end_] in H. split; [left; right; apply Fut; lia|lia].
        -- apply Fut' in H as [H1 H2]. split; [left; right; exact H1|lia].
Qed.

(** Buffer [k] becomes a block that was free or did not exist. *)
Lemma put_ok a L a' L' k d n : inv a L -> inv_a a' -> 0 <= n <= top -> 0 <= d -> d mod 8 = 0 -> d + n <= top ->
  (forall x, owned a x -> owned a' x) ->
  (forall x, d <= x < d + n -> (free a x \/ ~ owned a x) /\ owned a' x) ->
  (forall x, free a' x -> (free a x \/ ~ owned a x) /\ ~ (d <= x < d + n)) ->
  rd L' k = Some (d, n) -> (forall j, j <> k -> rd L' j = rd L j) -> inv a' L'.
Proof.
  intros (IA & IB & IF & ID) IA' Hn Hd H8 Ht Ow Bl Fr Lk Lj. split; [exact IA'|].
  assert (Old : forall j x, j <> k -> buf_in L' j x -> buf_in L j x).
  { intros j x N (b & s & H & Hx). exists b, s. rewrite <- Lj by exact N. auto. }
  assert (OwB : forall j x, buf_in L j x -> owned a x).
  { intros j x (b & s & H & Hx). apply (IB j b s H). exact Hx. }
  assert (New : forall x, buf_in L' k x -> d <= x < d + n).
  { intros x (b & s & H & Hx). rewrite Lk in H. inversion H; subst. exact Hx. }
  assert (NB : forall j x, buf_in L j x -> ~ (d <= x < d + n)).
  { intros j x Hb Hx. destruct (Bl x Hx) as [[K|K] _]; [exact (IF j x Hb K)|exact (K (OwB j x Hb))]. }
  split; [|split].
  - intros j b s H. destruct (Nat.eq_dec j k) as [->|N].
    + rewrite Lk in H. inversion H; subst. repeat (split; [assumption|]). intros x Hx. apply Bl, Hx.
    + rewrite Lj in H by exact N. destruct (IB j b s H) as (K1 & K2 & K3 & K4 & K5). repeat (split; [assumption|]). auto.
  - intros j x Hb Hf. destruct (Fr x Hf) as [K1 K2]. destruct (Nat.eq_dec j k) as [->|N]; [exact (K2 (New x Hb))|].
    apply Old in Hb; [|exact N]. destruct K1 as [K1|K1]; [exact (IF j x Hb K1)|exact (K1 (OwB j x Hb))].
  - intros i j x Hi Hj. destruct (Nat.eq_dec i k) as [->|Ni], (Nat.eq_dec j k) as [->|Nj]; [reflexivity| | |].
    + exfalso. apply (NB j x); [apply Old; assumption|apply New, Hi].
    + exfalso. apply (NB i x); [apply Old; assumption|apply New, Hj].
    + apply (ID i j x); apply Old; assumption.
Qed.
(** A buffer shrinks. *)
Lemma shrink_ok a L L' k d s n : inv a L -> rd L k = Some (d, s) -> 0 <= n <= s ->
  rd L' k = Some (d, n) -> (forall j, j <> k -> rd L' j = rd L j) -> inv a L'.
Proof.
  intros (IA & IB & IF & ID) Hk Hn Lk Lj. split; [exact IA|].
  assert (Old : forall j x, buf_in L' j x -> buf_in L j x).
  { intros j x (b & z & H & Hx). destruct (Nat.eq_dec j k) as [->|N].
    - rewrite Lk in H. inversion H; subst. exists b, s. split; [exact Hk|lia].
    - exists b, z. rewrite <- Lj by exact N. auto. }
  split; [|split].
  - intros j b z H. destruct (Nat.eq_dec j k) as [->|N].
    + rewrite Lk in H. inversion H; subst. destruct (IB k b s Hk) as (K1 & K2 & K3 & K4 & K5). split; [lia|]. split; [exact K2|]. split; [lia|]. split; [lia|].
      intros x Hx. apply K5. lia.
    + rewrite Lj in H by exact N. apply (IB j), H.
  - intros j x Hb. apply (IF j), Old, Hb.
  - intros i j x Hi Hj. apply (ID i j x); apply Old; assumption.
Qed.
(** The last buffer becomes empty and its bytes free. *)
Lemma rollback_ok a L L' k d s : inv a L -> rd L k = Some (d, s) -> d + s = current a ->
  rd L' k = Some (d, 0) -> (forall j, j <> k -> rd L' j = rd L j) -> inv (set_current a d) L'.
Proof.
  intros I Hk He Lk Lj. pose proof I as (IA & IB & IF & ID). destruct (IB k d s Hk) as (B1 & B2 & B3 & B4 & B5).
  destruct (shrink_ok a L L' k d s 0 I Hk ltac:(lia) Lk Lj) as (_ & SB & SF & SD).
  destruct IA as (I1 & I2 & I3 & I4 & I4' & I9 & I5 & I6 & I7 & I8).
  assert (Fr : forall x, free (set_current a d) x -> free a x \/ d <= x < d + s).
  { intros x [H|H]; [|left; right; exact H]. cbn [set_current current end_] in H. destruct (Z_lt_le_dec x (current a)); [right; lia|left; left; lia]. }
  assert (H9 : page_id a = -1 -> pages a = [] /\ d = 8 /\ end_ a = 8).
  { intros H. destruct (I4' H) as (K1 & K2 & K3). split; [exact K1|]. split; [|exact K3].
    destruct (Z.eq_dec s 0) as [->|Ns]; [lia|]. assert (16 <= d) by (apply I9, B5; lia). lia. }
  split; [|split; [exact SB|split; [|exact SD]]].
  - split; [cbn; lia|]. split; [exact I2|]. split; [exact I3|]. split; [exact I4|]. split; [exact H9|]. split; [exact I9|]. split; [exact I5|]. split; [exact I6|]. split.
    + intros x Hx K. cbn [set_current current end_] in Hx. change (future a x) in K. destruct (Z_lt_le_dec x (current a)).
      * apply (IF k x); [exists d, s; split; [exact Hk|lia]|right; exact K].
      * apply (I7 x); [lia|exact K].
    + intros x H. change (owned a x). destruct (Fr x H) as [K|K]; [apply I8, K|apply B5, K].
  - intros j x Hb Hf. destruct (Fr x Hf) as [K|K]; [exact (SF j x Hb K)|].
    destruct (Nat.eq_dec j k) as [->|N]; [destruct Hb as (b & z & H & Hx); rewrite Lk in H; inversion H; subst; lia|].
    destruct Hb as (b & z & H & Hx). rewrite Lj in H by exact N.
    apply N. apply (ID j k x); [exists b, z; auto|exists d, s; auto].
Qed.
(** The next [n] bytes of the page, after some padding. *)
Lemma bump_ok a L L' k d n : inv a L -> current a <= d -> d mod 8 = 0 -> 0 <= n <= top -> d + n <= end_ a ->
  rd L' k = Some (d, n) -> (forall j, j <> k -> rd L' j = rd L j) -> inv (set_current a (d + n)) L'.
Proof.
  intros I Hd H8 Hn He Lk Lj. pose proof I as ((I1 & I2 & I3 & I4 & I4' & I9 & I5 & I6 & I7 & I8) & _).
  assert (Fr : forall x, free (set_current a (d + n)) x -> free a x /\ ~ (d <= x < d + n)).
  { intros x [H|H].
    - cbn [set_current current end_] in H. split; [left; lia|lia].
    - change (future a x) in H. split; [right; exact H|]. intros K. apply (I7 x); [lia|exact H]. }
  eapply (put_ok a L); try eassumption; try lia.
  - split; [cbn; lia|]. split; [exact I2|]. split; [exact I3|]. split; [exact I4|].
    split; [cbn; intros H; destruct (I4' H) as (K1 & K2 & K3); split; [exact K1|lia]|]. split; [exact I9|]. split; [exact I5|]. split; [exact I6|]. split.
    + intros x Hx K. cbn [set_current current end_] in Hx. apply (I7 x); [lia|exact K].
    + intros x H. apply (I8 x), Fr, H.
  - intros x H. exact H.
  - intros x Hx. assert (free a x) by (left; lia). split; [left; assumption|]. apply (I8 x). assumption.
  - intros x H. apply Fr in H as [H1 H2]. auto.
Qed.

Definition w_inv (w : world) : Prop := inv (ar w) (live w).

Lemma round8 c : 0 <= c <= top -> let d := p64 (c + 7) / 8 * 8 in d mod 8 = 0 /\ c <= d < c + 8.
Proof. intros H. rewrite p64_id by lia. cbn zeta. pose proof (Z.div_mod (c + 7) 8). pose proof (Z.mod_pos_bound (c + 7) 8). split; [apply Z.mod_mul; lia|lia]. Qed.
Lemma snoc_rd {A} (l : list A) x : rd (l ++ [x]) (length l) = Some x /\ forall j, j <> length l -> rd (l ++ [x]) j = rd l j.
Proof.
  unfold rd. split; [rewrite nth_error_app2, Nat.sub_diag by lia; reflexivity|]. intros j N. destruct (Nat.lt_ge_cases j (length l)).
  - apply nth_error_app1; assumption.
  - rewrite !(proj2 (nth_error_None _ _)); [reflexivity|lia|rewrite app_length; cbn; lia].
Qed.

Lemma create_ok a L n f : inv a L -> 0 <= n <= top -> exists a' d ask, create a n f = Some (a', d, ask) /\ page_size a' = page_size a /\
  ((forall sz, ask = Some sz -> fresh a f sz) -> inv a' (L ++ [(d, n)])).
Proof.
  intros I Hn. pose proof I as (IA & IB & IF & ID). pose proof IA as (I1 & I2 & _). unfold create.
  destruct (round8 (current a)) as [R1 R2]; [lia|]. set (d := p64 (current a + 7) / 8 * 8) in *. rewrite (p64_id (d + n)) by lia.
  destruct (snoc_rd L (d, n)) as [_ _].
  destruct (Z.ltb_spec (end_ a) (d + n)) as [H|H].
  - destruct (slow_alloc_ok a n f IA Hn) as (a' & b & ask & E & Eps & K). exists a', b, ask. split; [exact E|]. split; [exact Eps|].
    intros Hf. destruct (K Hf) as (K1 & K2 & K3 & K4 & K5 & K6 & K7). destruct (snoc_rd L (b, n)) as [S1 S2].
    eapply (put_ok a L); try eassumption. intros x Hx. destruct (K6 x Hx) as [[G|G] G2]; (split; [|exact G2]); [left; right; exact G|right; exact G].
  - exists (set_current a (d + n)), d, None. split; [reflexivity|]. split; [reflexivity|]. intros _. destruct (snoc_rd L (d, n)) as [S1 S2].
    eapply bump_ok; try eassumption; lia.
Qed.

Lemma realloc_ok a L L' k d s n f : inv a L -> rd L k = Some (d, s) -> 0 <= n <= top ->
  exists a' d' ask copy, realloc a d s n f = Some (a', d', ask, copy) /\ page_size a' = page_size a /\
  ((forall sz, ask = Some sz -> fresh a f sz) ->
   (rd L' k = Some (d', n) -> (forall j, j <> k -> rd L' j = rd L j) -> inv a' L') /\
   (if copy then s < n /\ (forall x, d' <= x < d' + n -> forall j, ~ buf_in L j x) else d' = d)).
Proof.
  intros I Hk Hn. pose proof I as (IA & IB & IF & ID). pose proof IA as (I1 & I2 & _). destruct (IB k d s Hk) as (B1 & B2 & B3 & B4 & B5).
  unfold realloc. assert (Hlast : (d =? p64 (current a - s)) = (d + s =? current a)).
  { destruct (Z_lt_le_dec (current a) s) as [H|H]; [rewrite p64_neg by lia|rewrite p64_id by lia]; lia. }
  rewrite Hlast.
  destruct (upd_lt L k (d, 0)) as [L0 U0]; [apply rd_Some_lt in Hk; exact Hk|]. destruct (upd_spec _ _ _ _ U0) as (_ & _ & U1).
  assert (Lk0 : rd L0 k = Some (d, 0)) by (rewrite U1, Nat.eqb_refl; reflexivity).
  assert (Lj0 : forall j, j <> k -> rd L0 j = rd L j) by (intros j N; rewrite U1; destruct (Nat.eqb_spec j k); [contradiction|reflexivity]).
  destruct (Z.eqb_spec (d + s) (current a)) as [He|He]; cbn [negb orb].
  - rewrite (p64_id (current a - s)) by lia. replace (current a - s) with d by lia. rewrite (p64_id (d + n)) by lia.
    pose proof (rollback_ok a L L0 k d s I Hk He Lk0 Lj0) as IR.
    destruct (Z.ltb_spec (end_ a) (d + n)) as [H|H].
    + destruct (Z.leb_spec n s) as [Hs|Hs].
      * exists a, d, None, false. split; [reflexivity|]. split; [reflexivity|]. intros _. split; [|reflexivity]. intros Lk Lj.
        eapply shrink_ok; try eassumption. lia.
      * destruct (slow_alloc_ok (set_current a d) n f (proj1 IR) Hn) as (a' & b & ask & E & Eps & K). rewrite E. cbn [bind].
        exists a', b, ask, true. split; [reflexivity|]. split; [exact Eps|]. intros Hf. destruct (K Hf) as (K1 & K2 & K3 & K4 & K5 & K6 & K7). split.
        { intros Lk Lj. apply (put_ok (set_current a d) L0 a' L' k b n); try assumption.
          - intros x Hx. destruct (K6 x Hx) as [[G|G] G2]; (split; [|exact G2]); [left; right; exact G|right; exact G].
          - intros j N. rewrite Lj, Lj0 by exact N. reflexivity. }
        { split; [lia|]. intros x Hx j Hj. destruct (K6 x Hx) as [[G|G] _].
          - apply (IF j x Hj). right. exact G.
          - apply G. destruct Hj as (b' & z & Hb & Hz). apply (IB j b' z Hb). exact Hz. }
    + exists (set_current a (d + n)), d, None, false. split; [reflexivity|]. split; [reflexivity|]. intros _. split; [|reflexivity]. intros Lk Lj.
      change (set_current a (d + n)) with (set_current (set_current a d) (d + n)). apply (bump_ok (set_current a d) L0 L' k d n); try assumption; cbn; try lia.
      intros j N. rewrite Lj, Lj0 by exact N. reflexivity.
  - destruct (Z.leb_spec n s) as [Hs|Hs].
    + exists a, d, None, false. split; [reflexivity|]. split; [reflexivity|]. intros _. split; [|reflexivity]. intros Lk Lj.
      eapply shrink_ok; try eassumption. lia.
    + destruct (slow_alloc_ok a n f IA Hn) as (a' & b & ask & E & Eps & K). rewrite E. cbn [bind].
      exists a', b, ask, true. split; [reflexivity|]. split; [exact Eps|]. intros Hf. destruct (K Hf) as (K1 & K2 & K3 & K4 & K5 & K6 & K7). split.
      { intros Lk Lj. assert (I0 : inv a L0) by (eapply shrink_ok; try eassumption; lia).
        apply (put_ok a L0 a' L' k b n); try assumption.
        - intros x Hx. destruct (K6 x Hx) as [[G|G] G2]; (split; [|exact G2]); [left; right; exact G|right; exact G].
        - intros j N. rewrite Lj, Lj0 by exact N. reflexivity. }
      { split; [lia|]. intros x Hx j Hj. destruct (K6 x Hx) as [[G|G] _].
        - apply (IF j x Hj). right. exact G.
        - apply G. destruct Hj as (b' & z & Hb & Hz). apply (IB j b' z Hb). exact Hz. }
Qed.

Lemma reset_ok a L : inv a L -> exists a', reset a = Some a' /\ inv a' [] /\ pages a' = pages a /\ bigs a' = [].
Proof.
  intros (IA & _). pose proof IA as (I1 & I2 & I3 & I4 & I4' & I9 & I5 & I6 & I7 & I8). unfold reset.
  assert (G : forall a', inv_a a' -> inv a' []).
  { intros a' H. split; [exact H|]. split; [intros [|j] d s K; discriminate|]. split.
    - intros j x (d & s & K & _). destruct j; discriminate.
    - intros i j x (d & s & K & _). destruct i; discriminate. }
  assert (O9 : forall id c e x, owned (mkA (page_size a) id c e (pages a) []) x -> 16 <= x).
  { intros id c e x (r & H1 & H2). apply I9. exists r. split; [|exact H2]. unfold regions in *. cbn [page_size pages bigs] in H1.
    rewrite app_nil_r in H1. apply in_app_iff. left. exact H1. }
  destruct (Z.leb_spec 0 (page_id a)) as [H|H].
  - destruct (rd_lt (pages a) 0) as [p Hp]; [lia|]. rewrite Hp. cbn [bind]. eexists. split; [reflexivity|]. split; [|split; reflexivity].
    apply G. destruct (I5 _ _ Hp) as (P1 & P2 & P3 & P4). rewrite p64_id by lia.
    split; [cbn; lia|]. split; [cbn; lia|]. split; [cbn; lia|]. split; [cbn; pose proof (rd_Some_lt _ _ _ Hp); lia|]. split; [cbn; lia|]. split; [apply O9|].
    split; [exact I5|]. split; [exact I6|]. split.
    + intros x Hx (i & q & K1 & K2 & K3). cbn [current end_ page_id pages page_size] in *.
      assert (0%nat = i) by (eapply I6; eassumption). lia.
    + intros x [Hx|Hx]; [|apply owned_future, Hx]. eapply owned_page; [exact Hp|exact Hx].
  - assert (page_id a = -1) as Hid by lia. destruct (I4' Hid) as (K1 & K2 & K3). eexists. split; [reflexivity|]. split; [|split; reflexivity]. apply G.
    split; [exact I1|]. split; [exact I2|]. split; [exact I3|]. split; [exact I4|]. split; [exact I4'|]. split; [apply O9|].
    split; [exact I5|]. split; [exact I6|]. split; [exact I7|].
    intros x [Hx|Hx]; [cbn in Hx; lia|apply owned_future, Hx].
Qed.

(** ** Contents *)
Lemma bytes_ext m m' b : (forall x, inside x b -> m x = m' x) -> bytes m b = bytes m' b.
Proof.
  intros H. unfold bytes. apply map_ext_in. intros i Hi. apply in_seq in Hi. apply H. unfold inside. lia.
Qed.
Lemma bytes_length m b : length (bytes m b) = Z.to_nat (snd b).
Proof. unfold bytes. rewrite map_length, seq_length. reflexivity. Qed.
Lemma seq_rd n i : (i < n)%nat -> nth_error (seq 0 n) i = Some i.
Proof. intros H. rewrite nth_error_nth' with (d := 0%nat) by (rewrite seq_length; exact H). rewrite seq_nth by exact H. reflexivity. Qed.
Lemma bytes_rd m b i : (i < Z.to_nat (snd b))%nat -> rd (bytes m b) i = Some (m (fst b + Z.of_nat i)).
Proof. intros H. unfold bytes, rd. rewrite nth_error_map, seq_rd by exact H. reflexivity. Qed.
Lemma rd_map {A B} (g : A -> B) l i : rd (map g l) i = option_map g (rd l i).
Proof. apply nth_error_map. Qed.
Lemma upd_pointwise {A} (l l' : list A) k x : length l' = length l -> (k < length l)%nat ->
  rd l' k = Some x -> (forall j, j <> k -> rd l' j = rd l j) -> upd l k x = Some l'.
Proof.
  intros Hl Hk Hx Hj. destruct (upd_lt l k x Hk) as [l2 E]. rewrite E. f_equal. destruct (upd_spec _ _ _ _ E) as (_ & E1 & E2).
  apply list_eq_rd. intros i. rewrite E2. destruct (Nat.eqb_spec i k) as [->|N]; [symmetry; exact Hx|symmetry; apply Hj, N].
Qed.

Lemma step_ok w o : w_inv w -> op_ok w o -> exists w', step w o = Some w' /\ w_inv w' /\
  page_size (ar w') = page_size (ar w) /\ spec_step (contents w) o (contents w').
Proof.
  destruct w as [a m L]. unfold w_inv. cbn [ar live mem]. intros I Hop. destruct o as [n f|k n f|k i v|]; cbn [op_ok] in Hop.
  - destruct Hop as [Hn Hf]. destruct (create_ok a L n f I Hn) as (a' & d & ask & E & Eps & K). cbn [step ar]. rewrite E. cbn [bind].
    eexists. split; [reflexivity|]. cbn [ar live mem asks] in *. rewrite E in Hf. cbn [bind] in Hf.
    split; [apply K, Hf|]. split; [exact Eps|]. exists (bytes m (d, n)). split; [|apply bytes_length]. unfold contents. cbn [live mem].
    rewrite map_app. reflexivity.
  - destruct Hop as (Hn & Hk & Hf). cbn [live] in Hk. destruct (rd_lt L k Hk) as [[d s] Hd]. cbn [asks live ar step mem] in *. rewrite Hd in *. cbn [bind] in *.
    assert (X : forall d', exists L', upd L k (d', n) = Some L' /\ rd L' k = Some (d', n) /\ (forall j, j <> k -> rd L' j = rd L j) /\ length L' = length L).
    { intros d'. destruct (upd_lt L k (d', n) Hk) as [L' U]. destruct (upd_spec _ _ _ _ U) as (_ & U1 & U2). exists L'. split; [exact U|].
      rewrite U2, Nat.eqb_refl. split; [reflexivity|]. split; [|exact U1]. intros j N. rewrite U2. destruct (Nat.eqb_spec j k); [contradiction|reflexivity]. }
    destruct (realloc_ok a L L k d s n f I Hd Hn) as (a' & d' & ask & copy & E & Eps & _). rewrite E in *. cbn [bind] in *.
    destruct (X d') as (L' & U & U1 & U2 & U3). rewrite U. cbn [bind].
    destruct (realloc_ok a L L' k d s n f I Hd Hn) as (a2 & d2 & ask2 & copy2 & E2 & _ & K). rewrite E in E2. inversion E2; subst a2 d2 ask2 copy2. clear E2.
    destruct (K Hf) as [K1 K2]. specialize (K1 U1 U2). pose proof I as (_ & IB & _ & ID). destruct (IB k d s Hd) as (B1 & B2 & B3 & B4 & B5).
    destruct copy.
    + destruct K2 as [Hs Hdis]. replace (Z.min s n) with s by lia.
      assert (Ov : overlap d' d s = false).
      { unfold overlap. destruct (Z.ltb_spec 0 s) as [P|P]; [|reflexivity]. cbn [andb].
        destruct (Z.ltb_spec d' (d + s)) as [P1|P1]; [|reflexivity]. destruct (Z.ltb_spec d (d' + s)) as [P2|P2]; [|reflexivity]. exfalso.
        apply (Hdis (Z.max d d')) with (j := k); [lia|]. exists d, s. split; [exact Hd|lia]. }
      rewrite Ov. eexists. split; [reflexivity|]. cbn [ar live mem]. split; [exact K1|]. split; [exact Eps|].
      exists (bytes m (d, s)), (bytes (memcpy m d' d s) (d', n)). unfold contents. cbn [live mem]. split; [rewrite rd_map, Hd; reflexivity|].
      split.
      { apply upd_pointwise; [rewrite !map_length; exact U3|rewrite map_length; exact Hk|rewrite rd_map, U1; reflexivity|].
        intros j N. rewrite !rd_map, U2 by exact N. destruct (rd L j) as [[b z]|] eqn:Ej; [|reflexivity]. cbn [option_map]. f_equal.
        apply bytes_ext. intros x Hx. unfold memcpy. destruct (Z.leb_spec d' x); [|reflexivity]. destruct (Z.ltb_spec x (d' + s)); [|reflexivity].
        exfalso. apply (Hdis x) with (j := j); [lia|]. exists b, z. split; [exact Ej|exact Hx]. }
      split; [apply bytes_length|]. intros i Hi1 Hi2. rewrite bytes_length in Hi1, Hi2. cbn [snd] in *. rewrite !bytes_rd by assumption. cbn [fst]. f_equal.
      unfold memcpy. replace (d' <=? d' + Z.of_nat i) with true by lia. replace (d' + Z.of_nat i <? d' + s) with true by lia. cbn [andb]. f_equal. lia.
    + subst d'. eexists. split; [reflexivity|]. cbn [ar live mem]. split; [exact K1|]. split; [exact Eps|].
      exists (bytes m (d, s)), (bytes m (d, n)). unfold contents. cbn [live mem]. split; [rewrite rd_map, Hd; reflexivity|].
      split.
      { apply upd_pointwise; [rewrite !map_length; exact U3|rewrite map_length; exact Hk|rewrite rd_map, U1; reflexivity|].
        intros j N. rewrite !rd_map, U2 by exact N. reflexivity. }
      split; [apply bytes_length|]. intros i Hi1 Hi2. rewrite bytes_length in Hi1, Hi2. cbn [snd] in *. rewrite !bytes_rd by assumption. reflexivity.
  - destruct Hop as (d & s & Hd & Hi). cbn [live step ar mem] in *. rewrite Hd. cbn [bind]. replace ((0 <=? i) && (i <? s)) with true by lia.
    eexists. split; [reflexivity|]. cbn [ar live mem]. split; [exact I|]. split; [reflexivity|].
    assert (Hk : (k < length L)%nat) by (apply rd_Some_lt in Hd; exact Hd). pose proof I as (_ & IB & _ & ID).
    exists (bytes m (d, s)), (bytes (poke m (d + i) v) (d, s)). unfold contents. cbn [live mem]. split; [rewrite rd_map, Hd; reflexivity|]. split.
    + apply upd_pointwise; [rewrite !bytes_length; reflexivity|rewrite bytes_length; cbn; lia| |].
      * rewrite bytes_rd by (cbn; lia). cbn [fst]. f_equal. unfold poke. rewrite Z2Nat.id by lia. rewrite Z.eqb_refl. reflexivity.
      * intros j N. destruct (Nat.lt_ge_cases j (Z.to_nat s)).
        -- rewrite !bytes_rd by (cbn; lia). cbn [fst]. f_equal. unfold poke. replace (d + Z.of_nat j =? d + i) with false by lia. reflexivity.
        -- rewrite !(proj2 (rd_None_ge _ _)); [reflexivity| |]; rewrite bytes_length; cbn; lia.
    + apply upd_pointwise; [rewrite !map_length; reflexivity|rewrite map_length; exact Hk|rewrite rd_map, Hd; reflexivity|].
      intros j N. rewrite !rd_map. destruct (rd L j) as [[b z]|] eqn:Ej; [|reflexivity]. cbn [option_map]. f_equal.
      apply bytes_ext. intros x Hx. unfold poke. destruct (Z.eqb_spec x (d + i)) as [->|]; [|reflexivity].
      exfalso. apply N. apply (ID j k (d + i)); [exists b, z; split; [exact Ej|exact Hx]|exists d, s; split; [exact Hd|lia]].
  - destruct (reset_ok a L I) as (a' & E & I' & _). cbn [step ar]. rewrite E. cbn [bind]. eexists. split; [reflexivity|]. cbn [ar live mem].
    split; [exact I'|]. split; [|reflexivity]. unfold reset in E. destruct (0 <=? page_id a); [destruct (rd (pages a) 0); [|discriminate]|]; cbn [bind] in E; inversion E; reflexivity.
Qed.

Lemma reach_inv ps m w : reach ps m w -> w_inv w /\ page_size (ar w) = ps.
Proof.
  induction 1 as [|w o w' H [IH1 IH2] Ho E]; [split; [apply init_inv|reflexivity]|].
  destruct (step_ok w o IH1 Ho) as (w2 & E2 & I2 & P2 & _). rewrite E in E2. inversion E2; subst. split; [exact I2|congruence].
Qed.

(** ** With a base factory that leaves gaps, a buffer lies in one region *)
Definition in_one (a : arena) (d s : Z) : Prop := exists r, In r (regions a) /\ fst r <= d /\ d + s <= fst r + snd r.
Definition gaps (a : arena) : Prop := forall r r', In r (regions a) -> In r' (regions a) -> 0 < snd r -> 0 < snd r' ->
  r = r' \/ fst r + snd r < fst r' \/ fst r' + snd r' < fst r.
Definition at_page (a : arena) : Prop :=
  page_id a = -1 /\ current a = end_ a \/ exists p, rd (pages a) (Z.to_nat (page_id a)) = Some p /\ p <= current a <= end_ a /\ end_ a = p + page_size a /\ 0 < page_size a.
Definition inv1 (a : arena) (L : list (Z * Z)) : Prop :=
  gaps a /\ at_page a /\ forall j d s, rd L j = Some (d, s) -> 0 < s -> in_one a d s.

Lemma page_region a i p : rd (pages a) i = Some p -> In (p, page_size a) (regions a).
Proof. intros H. apply in_app_iff. left. apply in_map_iff. exists p. split; [reflexivity|]. eapply nth_error_In, H. Qed.

Lemma slow_alloc_one a n f a' d ask : inv_a a -> gaps a -> at_page a -> 0 <= n <= top -> slow_alloc a n f = Some (a', d, ask) ->
  (forall sz, ask = Some sz -> fresh a f sz /\ apart a f sz) ->
  gaps a' /\ at_page a' /\ in_one a' d n /\ (forall r, In r (regions a) -> In r (regions a')).
Proof.
  intros (I1 & I2 & I3 & I4 & I4' & I9 & I5 & I6 & I7 & I8) G P Hn E Hf. unfold slow_alloc in E.
  assert (Add : forall R R' b z, (forall r, In r R' <-> In r R \/ r = (b, z)) -> R = regions a -> apart a b z ->
    forall r r', In r R' -> In r' R' -> 0 < snd r -> 0 < snd r' -> r = r' \/ fst r + snd r < fst r' \/ fst r' + snd r' < fst r).
  { intros R R' b z HR -> Ha r r' H1 H2 P1 P2. apply HR in H1 as [H1| ->]; apply HR in H2 as [H2| ->]; cbn [fst snd] in *.
    - apply G; assumption.
    - specialize (Ha P2 r H1 P1). lia.
    - specialize (Ha P1 r' H2 P2). lia.
    - left. reflexivity. }
  destruct (_ || _) eqn:Eb.
  - inversion E; subst. clear E. specialize (Hf n eq_refl). destruct Hf as [_ Ha].
    assert (HR : forall r, In r (regions (mkA (page_size a) (page_id a) (current a) (end_ a) (pages a) (bigs a ++ [(d, n)]))) <-> In r (regions a) \/ r = (d, n)).
    { intros r. unfold regions. cbn [page_size pages bigs]. rewrite app_assoc, in_app_iff. cbn [In]. intuition congruence. }
    split; [exact (Add _ _ _ _ HR eq_refl Ha)|]. split; [exact P|]. split; [|intros r H; apply HR; left; exact H].
    exists (d, n). split; [apply HR; right; reflexivity|]. cbn. lia.
  - apply orb_false_iff in Eb as [E1 E2].
    assert (Hps : 2 <= page_size a).
    { destruct (Z_lt_le_dec (page_size a) 2) as [H|H]; [|exact H]. exfalso.
      assert (K := Z.quot_le_mono (page_size a) 1 2 ltac:(lia) ltac:(lia)). change (1 ÷ 2) with 0 in K. lia. }
    unfold next_page in E. destruct (Z.eqb_spec (page_id a + 1) (Z.of_nat (length (pages a)))) as [El|El]; cbn [bind] in E.
    + inversion E; subst. clear E. specialize (Hf _ eq_refl). destruct Hf as [(F1 & F2 & F3 & F4 & F5) Ha].
      cbn [current page_size page_id end_ pages bigs] in *. specialize (F4 ltac:(lia)).
      rewrite p64_id in E1 by lia. rewrite (p64_id (d + n)), (p64_id (d + page_size a)) by lia.
      match goal with |- gaps ?x /\ _ => assert (HR : forall r, In r (regions x) <-> In r (regions a) \/ r = (d, page_size a)) end.
      { intros r. unfold regions. cbn [page_size pages bigs]. rewrite map_app. cbn [map]. rewrite !in_app_iff. cbn [In]. intuition congruence. }
      split; [exact (Add _ _ _ _ HR eq_refl Ha)|]. split.
      { right. exists d. cbn [pages page_id page_size current end_]. split; [|lia]. rewrite El, Nat2Z.id. apply snoc_rd. }
      split; [|intros r H; apply HR; left; exact H]. exists (d, page_size a). split; [apply HR; right; reflexivity|]. cbn. lia.
    + assert (Hl : (Z.to_nat (page_id a + 1) < length (pages a))%nat) by lia.
      destruct (rd_lt (pages a) (Z.to_nat (page_id a + 1)) Hl) as [p Hp]. rewrite Hp in E. cbn [bind] in E. inversion E; subst. clear E Hf.
      cbn [current page_size page_id end_ pages bigs] in *. destruct (I5 _ _ Hp) as (P1 & P2 & P3 & P4).
      rewrite p64_id in E1 by lia. rewrite (p64_id (d + n)), (p64_id (d + page_size a)) by lia.
      split; [exact G|]. split; [right; exists d; cbn [pages page_id page_size current end_]; split; [exact Hp|lia]|]. split; [|auto].
      exists (d, page_size a). split; [apply (page_region a _ d Hp)|]. cbn. lia.
Qed.

Lemma step_one w o w' : w_inv w -> inv1 (ar w) (live w) -> op_ok w o ->
  (forall sz f, asks w o = Some sz -> (exists n, o = Create n f) \/ (exists k n, o = Realloc k n f) -> apart (ar w) f sz) ->
  step w o = Some w' -> inv1 (ar w') (live w').
Proof.
  destruct w as [a m L]. unfold w_inv. cbn [ar live]. intros I (G & P & O) Hop Hap E. pose proof I as (IA & IB & IF & ID). pose proof IA as (I1 & I2 & _).
  assert (Bump : forall d n, current a <= d \/ (exists p, rd (pages a) (Z.to_nat (page_id a)) = Some p /\ p <= d) -> 0 <= n -> d + n <= end_ a ->
     at_page (set_current a (d + n)) /\ (0 < n -> in_one a d n)).
  { intros d n Hd Hn He. destruct P as [[P1 P2]|(p & P1 & P2 & P3 & P4)].
    - destruct Hd as [Hd|(p & Hp & _)].
      + split; [left; cbn; lia|lia].
      + destruct IA as (_ & _ & _ & _ & IA & _). destruct (IA P1) as [K _]. rewrite K in Hp. destruct (Z.to_nat (page_id a)); discriminate.
    - assert (p <= d) by (destruct Hd as [Hd|(q & Hq & Hd)]; [lia|congruence]). split.
      + right. exists p. cbn [set_current pages page_id page_size current end_]. split; [exact P1|lia].
      + intros _. exists (p, page_size a). split; [apply (page_region a _ p P1)|]. cbn. lia. }
  destruct o as [n f|k n f|k i v|]; cbn [op_ok] in Hop.
  - destruct Hop as [Hn Hf]. cbn [step ar] in E. destruct (create a n f) as [[[a' d] ask]|] eqn:Ec; [|discriminate]. cbn [bind] in E. inversion E; subst. clear E.
    cbn [ar live mem]. cbn [asks ar] in Hf, Hap. rewrite Ec in Hf, Hap. cbn [bind] in Hf, Hap. unfold create in Ec.
    destruct (round8 (current a)) as [R1 R2]; [lia|]. set (b := p64 (current a + 7) / 8 * 8) in *. rewrite (p64_id (b + n)) in Ec by lia.
    assert (Snoc : forall d a', (0 < n -> in_one a' d n) -> (forall r, In r (regions a) -> In r (regions a')) ->
      forall j b s, rd (L ++ [(d, n)]) j = Some (b, s) -> 0 < s -> in_one a' b s).
    { intros d0 a0 H1 H2 j b0 s Hj Hs. destruct (snoc_rd L (d0, n)) as [S1 S2]. destruct (Nat.eq_dec j (length L)) as [->|N].
      - rewrite S1 in Hj. inversion Hj; subst. apply H1, Hs.
      - rewrite S2 in Hj by exact N. destruct (O j b0 s Hj Hs) as (r & K1 & K2). exists r. auto. }
    destruct (Z.ltb_spec (end_ a) (b + n)) as [H|H].
    + destruct (slow_alloc_one a n f a' d ask IA G P Hn Ec) as (K1 & K2 & K3 & K4).
      { intros sz Hs. split; [apply Hf, Hs|]. apply (Hap sz f Hs). left. eauto. }
      split; [exact K1|]. split; [exact K2|]. apply Snoc; auto.
    + inversion Ec; subst a' d ask. destruct (Bump b n ltac:(left; lia) ltac:(lia) H) as [K1 K2]. split; [exact G|]. split; [exact K1|]. apply Snoc; auto.
  - destruct Hop as (Hn & Hk & Hf). cbn [live] in Hk. destruct (rd_lt L k Hk) as [[d s] Hd]. cbn [asks live ar step mem] in *. rewrite Hd in *. cbn [bind] in *.
    destruct (realloc a d s n f) as [[[[a' d'] ask] copy]|] eqn:Er; [|discriminate]. cbn [bind] in *.
    destruct (upd L k (d', n)) as [L'|] eqn:U; [|discriminate]. cbn [bind] in E.
    assert (Ew : ar w' = a' /\ live w' = L').
    { destruct copy; [destruct (overlap _ _ _); [discriminate|]|]; inversion E; split; reflexivity. }
    destruct Ew as [-> ->]. clear E. destruct (upd_spec _ _ _ _ U) as (_ & _ & U2).
    destruct (IB k d s Hd) as (B1 & B2 & B3 & B4 & B5).
    assert (Put : (0 < n -> in_one a' d' n) -> (forall r, In r (regions a) -> In r (regions a')) ->
      forall j b z, rd L' j = Some (b, z) -> 0 < z -> in_one a' b z).
    { intros H1 H2 j b0 z Hj Hz. rewrite U2 in Hj. destruct (Nat.eqb_spec j k) as [->|N].
      - inversion Hj; subst. apply H1, Hz.
      - destruct (O j b0 z Hj Hz) as (r & K1 & K2). exists r. auto. }
    assert (Hfa : forall sz, ask = Some sz -> fresh a f sz /\ apart a f sz).
    { intros sz Hs. split; [apply Hf, Hs|]. apply (Hap sz f Hs). right. eauto. }
    assert (Hsub : n <= s -> 0 < n -> in_one a d n).
    { intros H1 H2. destruct (O k d s Hd ltac:(lia)) as (r & K1 & K2 & K3). exists r. split; [exact K1|]. lia. }
    unfold realloc in Er. assert (Hlast : (d =? p64 (current a - s)) = (d + s =? current a)).
    { destruct (Z_lt_le_dec (current a) s) as [H|H]; [rewrite p64_neg by lia|rewrite p64_id by lia]; lia. }
    rewrite Hlast in Er. destruct (Z.eqb_spec (d + s) (current a)) as [He|He]; cbn [negb orb] in Er.
    + rewrite (p64_id (current a - s)) in Er by lia. replace (current a - s) with d in Er by lia. rewrite (p64_id (d + n)) in Er by lia.
      assert (Pg : current a <= d \/ exists p, rd (pages a) (Z.to_nat (page_id a)) = Some p /\ p <= d).
      { destruct (Z.eq_dec s 0) as [->|Ns]; [left; lia|]. destruct (O k d s Hd ltac:(lia)) as (r & K1 & K2 & K3).
        assert (Z16 : 16 <= d) by (destruct IA as (_ & _ & _ & _ & _ & I9 & _); apply I9, B5; lia).
        destruct P as [[P1 P2]|(p & P1 & P2 & P3 & P4)].
        - destruct IA as (_ & _ & _ & _ & IA & _). destruct (IA P1) as (_ & J1 & _). lia.
        - right. exists p. split; [exact P1|]. destruct (G r (p, page_size a) K1 (page_region a _ p P1)) as [-> |[Q|Q]]; cbn [fst snd] in *; lia. }
      assert (Pr : at_page (set_current a d)).
      { destruct (Bump d 0 Pg ltac:(lia) ltac:(lia)) as [K _]. rewrite Z.add_0_r in K. exact K. }
      destruct (Z.ltb_spec (end_ a) (d + n)) as [H|H].
      * destruct (Z.leb_spec n s) as [Hs|Hs]; [inversion Er; subst; split; [exact G|]; split; [exact P|]; apply Put; auto|].
        destruct (slow_alloc (set_current a d) n f) as [[[a2 d2] ask2]|] eqn:Es; [|discriminate]. cbn [bind] in Er. inversion Er; subst a2 d2 ask2 copy. clear Er.
        destruct (upd_lt L k (d, 0)) as [L0 U0]; [exact Hk|]. destruct (upd_spec _ _ _ _ U0) as (_ & _ & U1).
        assert (IR : inv (set_current a d) L0).
        { apply (rollback_ok a L L0 k d s I Hd He); [rewrite U1, Nat.eqb_refl; reflexivity|].
          intros j N. rewrite U1. destruct (Nat.eqb_spec j k); [contradiction|reflexivity]. }
        destruct (slow_alloc_one (set_current a d) n f a' d' ask (proj1 IR) G Pr Hn Es Hfa) as (K1 & K2 & K3 & K4).
        split; [exact K1|]. split; [exact K2|]. apply Put; auto.
      * inversion Er; subst. clear Er. destruct (Bump d' n Pg ltac:(lia) ltac:(lia)) as [K1 K2]. split; [exact G|]. split; [exact K1|]. apply Put; auto.
    + destruct (Z.leb_spec n s) as [Hs|Hs]; [inversion Er; subst; split; [exact G|]; split; [exact P|]; apply Put; auto|].
      destruct (slow_alloc a n f) as [[[a2 d2] ask2]|] eqn:Es; [|discriminate]. cbn [bind] in Er. inversion Er; subst a2 d2 ask2 copy. clear Er.
      destruct (slow_alloc_one a n f a' d' ask IA G P Hn Es Hfa) as (K1 & K2 & K3 & K4).
      split; [exact K1|]. split; [exact K2|]. apply Put; auto.
  - cbn [step live ar mem] in E. destruct (rd L k) as [[d s]|]; [|discriminate]. cbn [bind] in E. destruct (_ && _); [|discriminate].
    inversion E; subst. split; [exact G|]. split; [exact P|exact O].
  - destruct IA as (_ & _ & I3 & I4 & I4' & _ & I5 & _). cbn [step ar] in E. unfold reset in E.
    assert (Sub : forall id c e r, In r (regions (mkA (page_size a) id c e (pages a) [])) -> In r (regions a)).
    { intros id c e r H. unfold regions in *. cbn [page_size pages bigs] in H. rewrite app_nil_r in H. apply in_app_iff. left. exact H. }
    assert (No : forall j d s a', rd (@nil (Z * Z)) j = Some (d, s) -> 0 < s -> in_one a' d s) by (intros [|j] d s a' H; discriminate).
    destruct (Z.leb_spec 0 (page_id a)) as [H|H].
    + destruct (rd (pages a) 0) as [p|] eqn:Hp; [|discriminate]. cbn [bind] in E. inversion E; subst. cbn [ar live].
      destruct (I5 _ _ Hp) as (P1 & P2 & P3 & P4). rewrite p64_id by lia.
      split; [intros r r' H1 H2; apply G; eapply Sub; eassumption|]. split; [right; exists p; cbn; split; [exact Hp|lia]|]. intros j d s Hj. eapply No, Hj.
    + cbn [bind] in E. inversion E; subst. cbn [ar live]. split; [intros r r' H1 H2; apply G; eapply Sub; eassumption|].
      split; [left; cbn; assert (page_id a = -1) by lia; destruct (I4' H0) as (_ & K1 & K2); lia|]. intros j d s Hj. eapply No, Hj.
Qed.
Lemma reach_apart_inv ps m w : reach_apart ps m w -> reach ps m w /\ inv1 (ar w) (live w).
Proof.
  induction 1 as [|w o w' H [IH1 IH2] Ho Ha E].
  - split; [constructor|]. split; [intros r r' []|]. split; [left; cbn; lia|]. intros [|j] d s K; discriminate.
  - split; [econstructor; eassumption|]. eapply step_one; try eassumption. eapply reach_inv, IH1.
Qed.
