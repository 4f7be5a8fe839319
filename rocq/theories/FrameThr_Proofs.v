(** Proofs about the threads of ForEachFrame. *)
From Verif Require Import Base FrameIter_Model FrameIter_Main FrameThr_Model FrameThr_Spec.

(** ** Counting *)
Section cnt.
Context {X : Type}.
Definition cnt (f : X -> bool) (l : list X) : nat := length (filter f l).
Lemma cnt_le f l : cnt f l <= length l.
Proof. unfold cnt. induction l as [|x l IH]; cbn; [lia|]. destruct (f x); cbn; lia. Qed.
Lemma cnt_upd f (l : list X) : forall w x y l', rd l w = Some x -> upd l w y = Some l' -> cnt f l' + Nat.b2n (f x) = cnt f l + Nat.b2n (f y).
Proof.
  induction l as [|a l IH]; intros [|w] x y l' R U; cbn in R, U; try discriminate.
  - injection R as ->. injection U as <-. unfold cnt. cbn. destruct (f x), (f y); cbn; lia.
  - destruct (upd l w y) as [l1|] eqn:E; [|discriminate]. cbn in U. injection U as <-. specialize (IH w x y l1 R E). unfold cnt in *. cbn. destruct (f a); cbn; lia.
Qed.
Lemma cnt_pos f (l : list X) w x : rd l w = Some x -> f x = true -> 0 < cnt f l.
Proof.
  revert w. unfold cnt. induction l as [|a l IH]; intros [|w] R H; cbn in R; try discriminate; cbn.
  - injection R as ->. rewrite H. cbn. lia.
  - specialize (IH w R H). destruct (f a); cbn; lia.
Qed.
Lemma cnt_full f (l : list X) w x : cnt f l = length l -> rd l w = Some x -> f x = true.
Proof.
  revert w. unfold cnt. induction l as [|a l IH]; intros [|w] E R; cbn in R; try discriminate; cbn in E; pose proof (cnt_le f l) as H; unfold cnt in H; destruct (f a) eqn:Ea; cbn in E; try lia.
  - injection R as <-. exact Ea.
  - apply (IH w); [lia|exact R].
Qed.
Lemma cnt_less f (l : list X) : cnt f l < length l -> exists w x, rd l w = Some x /\ f x = false.
Proof.
  unfold cnt. induction l as [|a l IH]; cbn; intros H; [lia|]. destruct (f a) eqn:Ea.
  - cbn in H. destruct IH as (w & x & R & E); [lia|]. exists (S w), x. auto.
  - exists 0, a. auto.
Qed.
Lemma cnt_none f (l : list X) : (forall w x, rd l w = Some x -> f x = false) -> cnt f l = 0.
Proof.
  unfold cnt. induction l as [|a l IH]; intros H; cbn; [reflexivity|]. rewrite (H 0 a eq_refl). apply IH. intros w x R. exact (H (S w) x R).
Qed.
Lemma cnt_two f (l : list X) w w' x x' : w <> w' -> rd l w = Some x -> rd l w' = Some x' -> f x = true -> f x' = true -> 2 <= cnt f l.
Proof.
  revert w w'. induction l as [|a l IH]; intros [|w] [|w'] N R R' H H'; cbn in R, R'; try discriminate; try lia; unfold cnt; cbn.
  - injection R as ->. rewrite H. cbn. pose proof (cnt_pos f l w' x' R' H'). unfold cnt in *. lia.
  - injection R' as ->. rewrite H'. cbn. pose proof (cnt_pos f l w x R H). unfold cnt in *. lia.
  - specialize (IH w w' ltac:(lia) R R' H H'). unfold cnt in IH. destruct (f a); cbn; lia.
Qed.
End cnt.

Lemma run_frames_ok' {F} (fn : F -> F) k : forall i fs, i + k <= length fs -> exists fs', run_frames fn fs i k = Some fs' /\ length fs' = length fs /\
  forall j, rd fs' j = if (i <=? j) && (j <? i + k) then option_map fn (rd fs j) else rd fs j.
Proof.
  induction k as [|k IH]; intros i fs L; cbn [run_frames].
  - exists fs. split; [reflexivity|]. split; [reflexivity|]. intros j. replace ((i <=? j) && (j <? i + 0)) with false by lia. reflexivity.
  - destruct (rd_lt fs i) as [f Ef]; [lia|]. rewrite Ef. cbn [bind]. destruct (upd_lt fs i (fn f)) as [fs1 E1]; [lia|]. rewrite E1. cbn [bind]. destruct (upd_spec _ _ _ _ E1) as (_ & L1 & K1).
    destruct (IH (S i) fs1) as (fs' & E & L2 & K2); [lia|]. exists fs'. split; [exact E|]. split; [lia|]. intros j. rewrite K2, K1.
    destruct (Nat.eqb_spec j i) as [->|N].
    + replace ((S i <=? i) && (i <? S i + k)) with false by lia. replace ((i <=? i) && (i <? i + S k)) with true by lia. rewrite Ef. reflexivity.
    + replace ((i <=? j) && (j <? i + S k)) with ((S i <=? j) && (j <? S i + k)) by lia. reflexivity.
Qed.

Lemma same_block k w w' i : w * k <= i < (w + 1) * k -> w' * k <= i < (w' + 1) * k -> w = w'.
Proof.
  intros H H'. destruct (Nat.lt_trichotomy w w') as [X|[X|X]]; [|exact X|]; exfalso.
  - assert ((w + 1) * k <= w' * k) by (apply Nat.mul_le_mono_r; lia). lia.
  - assert ((w' + 1) * k <= w * k) by (apply Nat.mul_le_mono_r; lia). lia.
Qed.

Section P.
Context {F C : Type}.
Variable preload : nat -> C -> list F -> option (C * list F).
Variable save : nat -> C -> list F -> option C.
Variable fn : F -> F.
Variables (T n L : nat).
Hypothesis T1 : 0 < T.
Notation state := (state F C).
Notation thr := (thr F C). Notation bars := (bars F C). Notation cps := (cps F C). Notation frs := (frs F C).
Notation ptr := (ptr F C). Notation step := (step F C preload save fn T n). Notation runs := (runs F C preload save fn T n).

Definition fpw : nat := (L + T - 1) / T.
Definition cnt_at (off : nat) : nat := Nat.min L (n - off).
(** The sequential computation: the state before round [r]. *)
Variables (c0 : C) (fs0 : list F).
Fixpoint sq (r : nat) : option (C * list F) :=
  match r with
  | O => Some (c0, fs0)
  | S r' => let? (c, fs) := sq r' in if r' * L <? n then batch preload save fn n (r' * L) c fs else None
  end.
Hypothesis Sq : forall r, r * L < n -> exists c fs c1 fs1 fs2 c2, sq r = Some (c, fs) /\ length fs = L /\
  preload (cnt_at (r * L)) c fs = Some (c1, fs1) /\ length fs1 = L /\ run_frames fn fs1 0 (cnt_at (r * L)) = Some fs2 /\ length fs2 = L /\
  save (cnt_at (r * L)) c1 fs2 = Some c2 /\ sq (S r) = Some (c2, fs2).

Definition isw (b : bool) (t : thread) : bool := match snd t with Wait b' _ => Bool.eqb b b' | _ => false end.
Definition isr (b : bool) (t : thread) : bool := match snd t with Renew b' => Bool.eqb b b' | _ => false end.
(** Where thread [w] may be: the barrier that is being filled is [b], in round [r]. *)
Definition tok (p : bool -> nat) (b : bool) (r w : nat) (t : thread) : Prop :=
  match b, snd t with
  | false, Head => fst t = r * L
  | false, Done => fst t = r * L /\ n <= fst t
  | false, Load => w = 0 /\ fst t = r * L /\ fst t < n
  | false, Arrive false => fst t = r * L /\ fst t < n
  | false, Wait false o => fst t = r * L /\ fst t < n /\ o = p false
  | false, Save => w = 0 /\ fst t + L = r * L /\ fst t < n
  | false, Wait true o => fst t + L = r * L /\ fst t < n /\ o = p true
  | false, Renew true => fst t + L = r * L /\ fst t < n
  | true, Work j => fst t = r * L /\ fst t < n /\ w * fpw <= j /\ (j = w * fpw \/ j <= Nat.min (cnt_at (r * L)) ((w + 1) * fpw))
  | true, Arrive true => fst t = r * L /\ fst t < n
  | true, Renew false => fst t = r * L /\ fst t < n
  | true, Wait _ o => fst t = r * L /\ fst t < n /\ o = p (match snd t with Wait b' _ => b' | _ => true end)
  | _, _ => False
  end.
Definition bar_ok (h : list barrier) (l : list thread) (p : bool -> nat) (b : bool) : Prop :=
  p (negb b) <> p b /\
  rd h (p b) = Some {| to_block := T - cnt (isw b) l; to_exit := T; alive := true |} /\
  (if cnt (isw (negb b)) l + cnt (isr (negb b)) l =? 0 then rd h (p (negb b)) = Some (new_barrier T)
   else rd h (p (negb b)) = Some {| to_block := 0; to_exit := cnt (isw (negb b)) l; alive := true |} /\
        cnt (isr (negb b)) l = if cnt (isw (negb b)) l =? 0 then 1 else 0).
Definition mem_even (r : nat) (pl : place) (c : C) (fs : list F) : Prop :=
  match pl with
  | Save | Wait true _ | Renew true => exists r' c' fs' fs1, r = S r' /\ sq r' = Some (c', fs') /\
      preload (cnt_at (r' * L)) c' fs' = Some (c, fs1) /\ run_frames fn fs1 0 (cnt_at (r' * L)) = Some fs
  | Head | Load | Done => sq r = Some (c, fs)
  | _ => exists c' fs', sq r = Some (c', fs') /\ preload (cnt_at (r * L)) c' fs' = Some (c, fs)
  end.
Definition prog (r w : nat) (pl : place) : nat :=
  match pl with
  | Work j => j
  | Arrive true | Wait true _ => Nat.min (cnt_at (r * L)) ((w + 1) * fpw)
  | _ => 0
  end.
Definition mem_odd (r : nat) (l : list thread) (c : C) (fs : list F) : Prop :=
  exists c' fs' fs1, sq r = Some (c', fs') /\ preload (cnt_at (r * L)) c' fs' = Some (c, fs1) /\ length fs1 = L /\
  forall w t, rd l w = Some t -> forall i, w * fpw <= i < (w + 1) * fpw -> rd fs i = if i <? prog r w (snd t) then option_map fn (rd fs1 i) else rd fs1 i.
Definition mem_ok (b : bool) (r : nat) (l : list thread) (c : C) (fs : list F) : Prop :=
  if b then mem_odd r l c fs else forall t, rd l 0 = Some t -> mem_even r (snd t) c fs.
Definition core (s : state) (b : bool) (r : nat) : Prop :=
  length (thr s) = T /\ length (frs s) = L /\ (forall w t, rd (thr s) w = Some t -> tok (ptr s) b r w t) /\
  bar_ok (bars s) (thr s) (ptr s) b /\ mem_ok b r (thr s) (cps s) (frs s).
Definition inv (s : state) : Prop := exists b r, core s b r /\ cnt (isw b) (thr s) < T.

Lemma keep_tok p b r l w t' l' : (forall w t, rd l w = Some t -> tok p b r w t) -> upd l w t' = Some l' -> tok p b r w t' ->
  forall w t, rd l' w = Some t -> tok p b r w t.
Proof.
  intros H U K w1 t1 R. destruct (upd_spec _ _ _ _ U) as (_ & _ & E). rewrite E in R. destruct (Nat.eqb_spec w1 w) as [->|N]; [injection R as <-; exact K|exact (H w1 t1 R)].
Qed.
Lemma upd_len {X} (l : list X) w x l' : upd l w x = Some l' -> length l' = length l.
Proof. intros U. destruct (upd_spec _ _ _ _ U) as (_ & E & _). exact E. Qed.
Lemma upd_rd {X} (l : list X) w x l' k : upd l w x = Some l' -> rd l' k = if k =? w then Some x else rd l k.
Proof. intros U. destruct (upd_spec _ _ _ _ U) as (_ & _ & E). apply E. Qed.
Lemma bar_same h l p b w t t' l' : bar_ok h l p b -> rd l w = Some t -> upd l w t' = Some l' ->
  (forall b', isw b' t = isw b' t' /\ isr b' t = isr b' t') -> bar_ok h l' p b /\ forall b', cnt (isw b') l' = cnt (isw b') l.
Proof.
  intros B R U H. assert (E : forall b', cnt (isw b') l' = cnt (isw b') l /\ cnt (isr b') l' = cnt (isr b') l).
  { intros b'. pose proof (cnt_upd (isw b') l w t t' l' R U) as H1. pose proof (cnt_upd (isr b') l w t t' l' R U) as H2. destruct (H b') as [E1 E2]. rewrite E1 in H1. rewrite E2 in H2. lia. }
  split; [|intros b'; apply E]. unfold bar_ok in *. rewrite (proj1 (E b)), (proj1 (E (negb b))), (proj2 (E (negb b))). exact B.
Qed.
Lemma even_other r l w t' l' c fs : mem_ok false r l c fs -> upd l w t' = Some l' -> w <> 0 -> mem_ok false r l' c fs.
Proof. intros M U N t R. rewrite (upd_rd _ _ _ _ 0 U) in R. replace (0 =? w) with false in R by lia. exact (M t R). Qed.
Lemma even_zero r l t' l' c fs : upd l 0 t' = Some l' -> mem_even r (snd t') c fs -> mem_ok false r l' c fs.
Proof. intros U M t R. rewrite (upd_rd _ _ _ _ 0 U) in R. cbn in R. injection R as <-. exact M. Qed.
Lemma odd_same r l w t t' l' c fs : mem_ok true r l c fs -> rd l w = Some t -> upd l w t' = Some l' ->
  (forall i, w * fpw <= i < (w + 1) * fpw -> (i <? prog r w (snd t)) = (i <? prog r w (snd t'))) -> mem_ok true r l' c fs.
Proof.
  intros (c' & fs' & fs1 & H1 & H2 & H3 & H4) R U H. exists c', fs', fs1. split; [exact H1|]. split; [exact H2|]. split; [exact H3|].
  intros w1 t1 R1 i Hi. rewrite (upd_rd _ _ _ _ w1 U) in R1. destruct (Nat.eqb_spec w1 w) as [->|N]; [|exact (H4 w1 t1 R1 i Hi)]. injection R1 as <-. rewrite <- H by exact Hi. exact (H4 w t R i Hi).
Qed.

Lemma fpw_pos : 0 < L -> 0 < fpw.
Proof. intros H. unfold fpw. apply Nat.div_str_pos. lia. Qed.
Lemma fpw_all : L <= T * fpw.
Proof. unfold fpw. pose proof (Nat.div_mod (L + T - 1) T ltac:(lia)) as E. pose proof (Nat.mod_upper_bound (L + T - 1) T ltac:(lia)). lia. Qed.

Lemma core_isr s b r : core s b r -> cnt (isr b) (thr s) = 0.
Proof.
  intros (_ & _ & K & _). apply cnt_none. intros w [off pl] R. specialize (K w _ R). unfold tok in K. cbn [snd fst] in K. unfold isr. cbn [snd].
  destruct pl as [| |b'|b' o|b'|j| |]; try reflexivity. destruct b, b'; cbn in *; try reflexivity; contradiction.
Qed.
Lemma flip s b r : core s b r -> cnt (isw b) (thr s) = T -> exists r', core s (negb b) r' /\ cnt (isw (negb b)) (thr s) = 0.
Proof.
  intros (Lt & Lf & K & (P & B1 & B2) & M) E. rewrite <- Lt in E.
  assert (W : forall w t, rd (thr s) w = Some t -> exists o, snd t = Wait b o).
  { intros w [off pl] R. pose proof (cnt_full _ _ w _ E R) as Hw. unfold isw in Hw. cbn [snd] in *. destruct pl as [| |b'|b' o|b'|j| |]; try discriminate. exists o. destruct b, b'; try discriminate; reflexivity. }
  assert (Z1 : cnt (isw (negb b)) (thr s) = 0). { apply cnt_none. intros w t R. destruct (W w t R) as [o Ho]. unfold isw. rewrite Ho. destruct b; reflexivity. }
  assert (Z2 : forall b', cnt (isr b') (thr s) = 0). { intros b'. apply cnt_none. intros w t R. destruct (W w t R) as [o Ho]. unfold isr. rewrite Ho. reflexivity. }
  assert (Bo : bar_ok (bars s) (thr s) (ptr s) (negb b)).
  { unfold bar_ok. rewrite Bool.negb_involutive, Z1, Z2, Nat.add_0_r. rewrite Z1, Z2 in B2. cbn [Nat.add Nat.eqb] in B2. split; [congruence|]. rewrite Nat.sub_0_r. split; [exact B2|].
    replace (cnt (isw b) (thr s) =? 0) with false by (symmetry; apply Nat.eqb_neq; lia). split; [|reflexivity]. rewrite B1. do 2 f_equal; lia. }
  destruct b; cbn [negb] in *.
  - exists (S r). split; [|exact Z1]. split; [exact Lt|]. split; [exact Lf|]. split; [|split; [exact Bo|]].
    + intros w t R. destruct (W w t R) as [o Ho]. specialize (K w t R). unfold tok in *. rewrite Ho in *. cbn [Nat.mul]. destruct K as (K1 & K2 & K3). split; [lia|]. auto.
    + intros t R. destruct (W 0 t R) as [o Ho]. rewrite Ho. cbn [mem_even]. destruct M as (c' & fs' & fs1 & M1 & M2 & M3 & M4). exists r, c', fs', fs1. split; [reflexivity|]. split; [exact M1|]. split; [exact M2|].
      assert (Hr : r * L < n). { specialize (K 0 t R). unfold tok in K. rewrite Ho in K. destruct K as (K1 & K2 & _). rewrite <- K1. exact K2. }
      set (cn := cnt_at (r * L)). assert (Hc : cn <= L) by (unfold cn, cnt_at; lia).
      destruct (run_frames_ok' fn cn 0 fs1 ltac:(lia)) as (fs2 & E2 & L2 & R2). rewrite E2. f_equal. apply list_eq_rd.
      intros i. destruct (Nat.lt_ge_cases i L) as [Hi|Hi]; [|transitivity (@None F); [|symmetry]; unfold rd; apply nth_error_None; lia]. rewrite R2. assert (Fp : 0 < fpw) by (apply fpw_pos; lia).
      set (w := i / fpw). pose proof (Nat.div_mod i fpw ltac:(lia)) as Ei. pose proof (Nat.mod_upper_bound i fpw ltac:(lia)) as Ui. fold w in Ei.
      assert (Hw : w < T). { apply Nat.div_lt_upper_bound; [lia|]. pose proof fpw_all. lia. }
      destruct (rd_lt (thr s) w) as [tw Rw]; [lia|]. destruct (W w tw Rw) as [ow How]. assert (Hb : w * fpw <= i < (w + 1) * fpw) by lia. rewrite (M4 w tw Rw i Hb). rewrite How. cbn [prog]. fold cn.
      replace (i <? Nat.min cn ((w + 1) * fpw)) with ((0 <=? i) && (i <? 0 + cn)); [reflexivity|]. destruct (Nat.ltb_spec i (0 + cn)), (Nat.ltb_spec i (Nat.min cn ((w + 1) * fpw))); cbn [Nat.leb andb]; try reflexivity; lia.
  - exists r. split; [|exact Z1]. split; [exact Lt|]. split; [exact Lf|]. split; [|split; [exact Bo|]].
    + intros w t R. destruct (W w t R) as [o Ho]. specialize (K w t R). unfold tok in *. rewrite Ho in *. exact K.
    + destruct (rd_lt (thr s) 0) as [t0 R0]; [lia|]. specialize (M t0 R0). destruct (W 0 t0 R0) as [o0 Ho0]. rewrite Ho0 in M. cbn [mem_even] in M. destruct M as (c' & fs' & M1 & M2). exists c', fs', (frs s). split; [exact M1|]. split; [exact M2|]. split; [exact Lf|].
      intros w t R i Hi. destruct (W w t R) as [o Ho]. rewrite Ho. cbn [prog]. reflexivity.
Qed.

Definition good (o : outcome F C) : Prop := match o with Next _ _ s' => inv s' | Undef _ _ => False | _ => True end.
Lemma quiet s b r w t t' c fs : core s b r -> cnt (isw b) (thr s) < T -> rd (thr s) w = Some t ->
  (forall b', isw b' t = isw b' t' /\ isr b' t = isr b' t') -> tok (ptr s) b r w t' -> length fs = L ->
  (forall l', upd (thr s) w t' = Some l' -> mem_ok b r l' c fs) -> good (move F C (with_mem F C s c fs) w t').
Proof.
  intros (Lt & Lf & K & B & M) Lc R Sm Tk Ll Mm. unfold move. cbn [with_mem FrameThr_Model.thr FrameThr_Model.bars FrameThr_Model.cps FrameThr_Model.frs ptr1 ptr2].
  assert (Hw : w < length (thr s)) by (eapply rd_Some_lt; exact R). destruct (upd_lt (thr s) w t' Hw) as [l' U]. rewrite U. cbn [good].
  destruct (bar_same _ _ _ _ _ _ _ _ B R U Sm) as [B' Ec]. exists b, r. split; [|cbn [FrameThr_Model.thr]; rewrite Ec; exact Lc].
  split; [cbn; rewrite (upd_len _ _ _ _ U); exact Lt|]. split; [exact Ll|]. split; [exact (keep_tok _ _ _ _ _ _ _ K U Tk)|]. split; [exact B'|]. exact (Mm l' U).
Qed.
Lemma move_self s w t : move F C s w t = move F C (with_mem F C s (cps s) (frs s)) w t.
Proof. reflexivity. Qed.
Lemma core_same s b r : core s b r -> mem_ok b r (thr s) (cps s) (frs s).
Proof. intros (_ & _ & _ & _ & M). exact M. Qed.
Lemma eqs s off : length (frs s) = L -> count F C n s off = cnt_at off /\ per_worker F C T s = fpw.
Proof. intros E. unfold count, cnt_at, per_worker, fpw. rewrite E. split; reflexivity. Qed.
Lemma pick_zero {X} (w : nat) (a b : X) : (w = 0 /\ (if w =? 0 then a else b) = a) \/ (w <> 0 /\ (if w =? 0 then a else b) = b).
Proof. destruct w; cbn; [left|right]; split; auto. Qed.

Lemma step_even s r w off pl : core s false r -> cnt (isw false) (thr s) < T -> rd (thr s) w = Some (off, pl) ->
  match pl with Head | Load | Save => good (step s w) | _ => True end.
Proof.
  intros Co Lc R. pose proof Co as (Lt & Lf & K & B & M). pose proof (K w _ R) as Kw. destruct (eqs s off Lf) as [Ec Ep].
  destruct pl as [| |b'|b' o|b'|j| |]; try exact I; unfold FrameThr_Model.step; rewrite R; unfold tok in Kw; cbn [fst snd] in Kw.
  - destruct (Nat.ltb_spec off n) as [X|X]; rewrite move_self.
    + destruct (pick_zero w Load (Arrive false)) as [[-> ->]|[N ->]].
      * apply (quiet s false r 0 (off, Head)); try assumption; [auto|unfold tok; cbn; auto|]. intros l' U. eapply even_zero; [exact U|]. exact (M _ R).
      * apply (quiet s false r w (off, Head)); try assumption; [auto|unfold tok; cbn; auto|]. intros l' U. eapply even_other; [exact M|exact U|exact N].
    + apply (quiet s false r w (off, Head)); try assumption; [auto|unfold tok; cbn; auto|]. intros l' U. destruct (Nat.eq_dec w 0) as [->|N]; [|eapply even_other; eassumption].
      eapply even_zero; [exact U|]. exact (M _ R).
  - destruct Kw as (-> & Eo & Ho). assert (Ms := M _ R). cbn [snd mem_even] in Ms. rewrite Ec, Eo.
    destruct (Sq r ltac:(lia)) as (c & fs & c1 & fs1 & fs2 & c2 & S1 & S2 & S3 & S4 & _). rewrite S1 in Ms. injection Ms as -> ->. rewrite S3.
    apply (quiet s false r 0 (off, Load)); try assumption; [auto|unfold tok; cbn; rewrite <- Eo; auto|]. intros l' U. eapply even_zero; [exact U|]. exists (cps s), (frs s). auto.
  - destruct Kw as (-> & Eo & Ho). assert (Ms := M _ R). cbn [snd mem_even] in Ms. destruct Ms as (r' & c & fs & fs1 & -> & M1 & M2 & M3). rewrite Ec, Lf.
    assert (Er : off = r' * L) by (cbn [Nat.mul] in Eo; lia). rewrite Er. destruct (Sq r' ltac:(lia)) as (c' & fs' & c1' & fs1' & fs2 & c2 & S1 & S2 & S3 & S4 & S5 & S6 & S7 & S8).
    rewrite S1 in M1. injection M1 as -> ->. rewrite S3 in M2. injection M2 as -> ->. rewrite S5 in M3. injection M3 as ->. rewrite S7.
    apply (quiet s false (S r') 0 (off, Save)); try assumption; [auto|unfold tok; cbn; lia|]. intros l' U. eapply even_zero; [exact U|]. exact S8.
Qed.
Lemma step_work s r w off j : core s true r -> cnt (isw true) (thr s) < T -> rd (thr s) w = Some (off, Work j) -> good (step s w).
Proof.
  intros Co Lc R. pose proof Co as (Lt & Lf & K & B & M). pose proof (K w _ R) as Kw. destruct (eqs s off Lf) as [Ec Ep].
  unfold FrameThr_Model.step; rewrite R; unfold tok in Kw; cbn [fst snd] in Kw. destruct Kw as (Eo & Ho & Hl0 & Hj). unfold work_end. rewrite Ec, Ep, Eo.
  pose proof M as M'. destruct M as (c' & fs' & fs1 & M1 & M2 & M3 & M4).
  destruct (Nat.ltb_spec j (Nat.min (cnt_at (r * L)) ((w + 1) * fpw))) as [X|X].
  - assert (Hl : j < L) by (unfold cnt_at in X; lia). destruct (rd_lt (frs s) j) as [f Ef]; [lia|]. rewrite Ef. destruct (upd_lt (frs s) j (fn f)) as [fs2 E2]; [lia|]. rewrite E2.
    apply (quiet s true r w (off, Work j)); try assumption.
    + auto.
    + unfold tok. cbn [fst snd]. split; [reflexivity|]. split; [lia|]. split; [lia|]. right. lia.
    + rewrite (upd_len _ _ _ _ E2). exact Lf.
    + intros l' U. exists c', fs', fs1. split; [exact M1|]. split; [exact M2|]. split; [exact M3|].
      intros w1 t1 R1 i Hi. rewrite (upd_rd _ _ _ _ w1 U) in R1. rewrite (upd_rd _ _ _ _ i E2). destruct (Nat.eqb_spec w1 w) as [->|N].
      * injection R1 as <-. specialize (M4 w _ R). cbn [snd prog] in *. destruct (Nat.eqb_spec i j) as [->|Ni].
        -- replace (j <? S j) with true by (symmetry; apply Nat.ltb_lt; lia). pose proof (M4 j Hi) as Q. rewrite Nat.ltb_irrefl in Q. rewrite <- Q, Ef. reflexivity.
        -- rewrite (M4 i Hi). replace (i <? S j) with (i <? j); [reflexivity|]. destruct (Nat.ltb_spec i j), (Nat.ltb_spec i (S j)); try reflexivity; lia.
      * assert (Ni : i <> j). { intros ->. assert (Hj' : w * fpw <= j < (w + 1) * fpw) by lia. apply N. exact (same_block _ _ _ _ Hi Hj'). }
        replace (i =? j) with false by (symmetry; apply Nat.eqb_neq; exact Ni). exact (M4 w1 t1 R1 i Hi).
  - rewrite move_self. apply (quiet s true r w (off, Work j)); try assumption; [auto|unfold tok; cbn; lia|]. intros l' U. eapply odd_same; [exact M'|exact R|exact U|].
    intros i Hi. cbn [snd prog]. destruct (Nat.ltb_spec i j), (Nat.ltb_spec i (Nat.min (cnt_at (r * L)) ((w + 1) * fpw))); try reflexivity; lia.
Qed.

(** ** The barriers *)
Lemma step_arrive s b r w off b' : core s b r -> cnt (isw b) (thr s) < T -> rd (thr s) w = Some (off, Arrive b') -> good (step s w).
Proof.
  intros Co Lc R. pose proof Co as (Lt & Lf & K & (P & B1 & B2) & M). pose proof (K w _ R) as Kw. unfold tok in Kw. cbn [fst snd] in Kw.
  assert (b' = b) as -> by (destruct b, b'; cbn in Kw; try contradiction; reflexivity).
  assert (Kw' : off = r * L /\ off < n) by (destruct b; exact Kw). clear Kw. destruct Kw' as [Eo Ho].
  unfold FrameThr_Model.step. rewrite R. unfold arrive. rewrite B1. cbn [bind alive to_block to_exit andb]. replace (0 <? T - cnt (isw b) (thr s)) with true by (symmetry; apply Nat.ltb_lt; lia).
  destruct (upd_lt (bars s) (ptr s b) {| to_block := T - cnt (isw b) (thr s) - 1; to_exit := T; alive := true |}) as [h U1]; [eapply rd_Some_lt; exact B1|]. rewrite U1.
  unfold move. cbn [with_bars FrameThr_Model.thr FrameThr_Model.bars FrameThr_Model.cps FrameThr_Model.frs ptr1 ptr2].
  assert (Hw : w < length (thr s)) by (eapply rd_Some_lt; exact R). destruct (upd_lt (thr s) w (off, Wait b (ptr s b)) Hw) as [l' U]. rewrite U. cbn [good].
  match goal with |- inv ?x => set (s' := x) end.
  pose proof (cnt_upd (isw b) _ _ _ _ _ R U) as C1. pose proof (cnt_upd (isw (negb b)) _ _ _ _ _ R U) as C2. pose proof (cnt_upd (isr (negb b)) _ _ _ _ _ R U) as C3.
  unfold isw at 2 4 in C1. unfold isw at 2 4 in C2. unfold isr at 2 4 in C3. cbn [snd] in C1, C2, C3. rewrite Bool.eqb_reflx in C1. replace (Bool.eqb (negb b) b) with false in C2 by (destruct b; reflexivity). cbn [Nat.b2n] in C1, C2, C3.
  assert (Co' : core s' b r).
  { split; [cbn; rewrite (upd_len _ _ _ _ U); exact Lt|]. split; [exact Lf|]. split; [|split].
    - apply (keep_tok (ptr s) b r _ _ _ _ K U). unfold tok. cbn [fst snd]. destruct b; auto.
    - change (bar_ok h l' (ptr s) b). split; [exact P|]. rewrite (upd_rd _ _ _ _ (ptr s b) U1), Nat.eqb_refl. split; [do 2 f_equal; lia|].
      rewrite (upd_rd _ _ _ _ (ptr s (negb b)) U1). replace (ptr s (negb b) =? ptr s b) with false by (symmetry; apply Nat.eqb_neq; exact P).
      replace (cnt (isw (negb b)) l') with (cnt (isw (negb b)) (thr s)) by lia. replace (cnt (isr (negb b)) l') with (cnt (isr (negb b)) (thr s)) by lia. exact B2.
    - change (mem_ok b r l' (cps s) (frs s)). destruct b; [eapply odd_same; [exact M|exact R|exact U|]; reflexivity|]. destruct (Nat.eq_dec w 0) as [->|N]; [|eapply even_other; eassumption]. eapply even_zero; [exact U|]. exact (M _ R). }
  destruct (Nat.eq_dec (cnt (isw b) l') T) as [E|E].
  - destruct (flip s' b r Co' E) as (r' & Co2 & Z). exists (negb b), r'. split; [exact Co2|]. rewrite Z. exact T1.
  - exists b, r. split; [exact Co'|]. change (cnt (isw b) l' < T). lia.
Qed.
Lemma after_ok s (b : bool) r w off : length (frs s) = L -> (if b then off = r * L else off + L = r * L) -> off < n ->
  tok (ptr s) b r w (after F C T s w off (negb b)) /\ forall b', isw b' (after F C T s w off (negb b)) = false /\ isr b' (after F C T s w off (negb b)) = false.
Proof.
  intros Lf Ho Hn. destruct (eqs s off Lf) as [_ Ep]. unfold after. destruct b; cbn [negb].
  - rewrite Ep. split; [|intros b'; split; reflexivity]. unfold tok. cbn [fst snd]. split; [exact Ho|]. split; [exact Hn|]. split; [lia|left; reflexivity].
  - destruct (pick_zero w (off, Save) (off + length (frs s), Head)) as [[-> ->]|[N ->]]; (split; [|intros b'; split; reflexivity]); unfold tok; cbn [fst snd]; lia.
Qed.
Lemma after_mem s b r w off t l' : length (frs s) = L -> mem_ok b r (thr s) (cps s) (frs s) -> rd (thr s) w = Some t ->
  (exists o, snd t = Wait (negb b) o) \/ snd t = Renew (negb b) -> upd (thr s) w (after F C T s w off (negb b)) = Some l' -> mem_ok b r l' (cps s) (frs s).
Proof.
  intros Lf M R Ht U. destruct (eqs s off Lf) as [_ Ep]. unfold after in U. destruct b; cbn [negb] in *.
  - eapply odd_same; [exact M|exact R|exact U|]. intros i Hi. rewrite Ep. cbn [snd prog]. replace (i <? w * fpw) with false by (symmetry; apply Nat.ltb_ge; lia).
    destruct Ht as [[o ->]| ->]; reflexivity.
  - destruct (pick_zero w (off, Save) (off + length (frs s), Head)) as [[-> E]|[N E]]; rewrite E in U; [|eapply even_other; eassumption].
    eapply even_zero; [exact U|]. specialize (M _ R). cbn [snd]. destruct Ht as [[o Ht]|Ht]; rewrite Ht in M; exact M.
Qed.
Lemma step_wait s b r w off b' o : core s b r -> cnt (isw b) (thr s) < T -> rd (thr s) w = Some (off, Wait b' o) -> good (step s w).
Proof.
  intros Co Lc R. pose proof Co as (Lt & Lf & K & (P & B1 & B2) & M). pose proof (K w _ R) as Kw. unfold tok in Kw. cbn [fst snd] in Kw. unfold FrameThr_Model.step. rewrite R.
  assert (Eo : o = ptr s b') by (destruct b, b'; apply Kw). subst o. destruct (Bool.bool_dec b' b) as [->|Nb].
  - rewrite B1. cbn [alive to_block]. replace (T - cnt (isw b) (thr s) =? 0) with false by (symmetry; apply Nat.eqb_neq; lia). exact I.
  - assert (b' = negb b) as -> by (destruct b, b'; try reflexivity; exfalso; apply Nb; reflexivity). clear Nb.
    assert (Kw' : (if b then off = r * L else off + L = r * L) /\ off < n) by (destruct b; cbn in Kw; tauto). clear Kw. destruct Kw' as [Eo Ho].
    assert (E1 : 0 < cnt (isw (negb b)) (thr s)) by (eapply cnt_pos; [exact R|]; unfold isw; cbn; apply Bool.eqb_reflx). set (e := cnt (isw (negb b)) (thr s)) in *.
    replace (e + cnt (isr (negb b)) (thr s) =? 0) with false in B2 by (symmetry; apply Nat.eqb_neq; lia). destruct B2 as [B2 B3]. replace (e =? 0) with false in B3 by (symmetry; apply Nat.eqb_neq; lia).
    rewrite B2. cbn [alive to_block to_exit]. replace (0 =? 0) with true by reflexivity. unfold leave. cbn [to_exit to_block]. replace (0 <? e) with true by (symmetry; apply Nat.ltb_lt; lia).
    destruct (upd_lt (bars s) (ptr s (negb b)) {| to_block := 0; to_exit := e - 1; alive := true |}) as [h U1]; [eapply rd_Some_lt; exact B2|]. rewrite U1.
    unfold move. cbn [with_bars FrameThr_Model.thr FrameThr_Model.bars FrameThr_Model.cps FrameThr_Model.frs ptr1 ptr2].
    assert (Hw : w < length (thr s)) by (eapply rd_Some_lt; exact R). destruct (after_ok s b r w off Lf Eo Ho) as [Ka Kb].
    set (t' := if e =? 1 then (off, Renew (negb b)) else after F C T s w off (negb b)). destruct (upd_lt (thr s) w t' Hw) as [l' U]. rewrite U. cbn [good].
    assert (Ki : isw (negb b) t' = false /\ isw b t' = false /\ isr (negb b) t' = (e =? 1)).
    { unfold t'. destruct (e =? 1) eqn:E; [cbn; unfold isr, isw; cbn; rewrite Bool.eqb_reflx; auto|]. destruct (Kb (negb b)) as [-> ->]. destruct (Kb b) as [-> _]. auto. }
    destruct Ki as (I1 & I2 & I3).
    pose proof (cnt_upd (isw b) _ _ _ _ _ R U) as C1. pose proof (cnt_upd (isw (negb b)) _ _ _ _ _ R U) as C2. pose proof (cnt_upd (isr (negb b)) _ _ _ _ _ R U) as C3.
    rewrite I2 in C1. rewrite I1 in C2. rewrite I3 in C3. unfold isw at 2 in C1. unfold isw at 2 in C2. unfold isr at 2 in C3. cbn [snd] in C1, C2, C3. rewrite Bool.eqb_reflx in C2. replace (Bool.eqb b (negb b)) with false in C1 by (destruct b; reflexivity). cbn [Nat.b2n] in C1, C2, C3. fold e in C2.
    exists b, r. split; [|change (cnt (isw b) l' < T); lia].
    split; [cbn; rewrite (upd_len _ _ _ _ U); exact Lt|]. split; [exact Lf|]. split; [|split].
    + apply (keep_tok (ptr s) b r _ _ _ _ K U). unfold t'. destruct (e =? 1); [|exact Ka]. unfold tok. cbn [fst snd]. destruct b; cbn [negb]; auto.
    + change (bar_ok h l' (ptr s) b). split; [exact P|]. rewrite (upd_rd _ _ _ _ (ptr s b) U1). replace (ptr s b =? ptr s (negb b)) with false by (symmetry; apply Nat.eqb_neq; congruence).
      split; [rewrite B1; do 2 f_equal; lia|]. rewrite (upd_rd _ _ _ _ (ptr s (negb b)) U1), Nat.eqb_refl. rewrite B3 in C3. replace (cnt (isw (negb b)) l') with (e - 1) by lia.
      destruct (Nat.eqb_spec e 1) as [X|X]; cbn [Nat.b2n] in C3.
      * replace (cnt (isr (negb b)) l') with 1 by lia. replace (e - 1) with 0 by lia. split; reflexivity.
      * replace (cnt (isr (negb b)) l') with 0 by lia. rewrite Nat.add_0_r. replace (e - 1 =? 0) with false by (symmetry; apply Nat.eqb_neq; lia). split; reflexivity.
    + change (mem_ok b r l' (cps s) (frs s)). unfold t' in U. destruct (e =? 1); [|eapply after_mem; [exact Lf|exact M|exact R|left; eexists; reflexivity|exact U]].
      destruct b; [eapply odd_same; [exact M|exact R|exact U|]; reflexivity|]. destruct (Nat.eq_dec w 0) as [->|N]; [|eapply even_other; eassumption]. eapply even_zero; [exact U|]. exact (M _ R).
Qed.
Lemma step_renew s b r w off b' : core s b r -> cnt (isw b) (thr s) < T -> rd (thr s) w = Some (off, Renew b') -> good (step s w).
Proof.
  intros Co Lc R. pose proof Co as (Lt & Lf & K & (P & B1 & B2) & M). pose proof (K w _ R) as Kw. unfold tok in Kw. cbn [fst snd] in Kw. unfold FrameThr_Model.step. rewrite R.
  assert (b' = negb b) as -> by (destruct b, b'; cbn in Kw; try contradiction; reflexivity).
  assert (Kw' : (if b then off = r * L else off + L = r * L) /\ off < n) by (destruct b; cbn in Kw; tauto). clear Kw. destruct Kw' as [Eo Ho].
  assert (E1 : 0 < cnt (isr (negb b)) (thr s)) by (eapply cnt_pos; [exact R|]; unfold isr; cbn; apply Bool.eqb_reflx).
  replace (cnt (isw (negb b)) (thr s) + cnt (isr (negb b)) (thr s) =? 0) with false in B2 by (symmetry; apply Nat.eqb_neq; lia). destruct B2 as [B2 B3].
  destruct (Nat.eqb_spec (cnt (isw (negb b)) (thr s)) 0) as [Z|Z]; [|lia]. unfold renew. rewrite B2. cbn [bind alive to_block to_exit].
  destruct (upd_lt (bars s) (ptr s (negb b)) {| to_block := 0; to_exit := cnt (isw (negb b)) (thr s); alive := false |}) as [h U1]; [eapply rd_Some_lt; exact B2|]. rewrite U1. cbn [bind].
  unfold move. cbn [with_bars with_ptr FrameThr_Model.thr FrameThr_Model.bars FrameThr_Model.cps FrameThr_Model.frs ptr1 ptr2].
  assert (Hw : w < length (thr s)) by (eapply rd_Some_lt; exact R). destruct (after_ok s b r w off Lf Eo Ho) as [Ka Kb].
  set (t' := after F C T s w off (negb b)) in *. destruct (upd_lt (thr s) w t' Hw) as [l' U]. rewrite U. cbn [good]. match goal with |- inv ?x => set (s' := x) end.
  pose proof (cnt_upd (isw b) _ _ _ _ _ R U) as C1. pose proof (cnt_upd (isw (negb b)) _ _ _ _ _ R U) as C2. pose proof (cnt_upd (isr (negb b)) _ _ _ _ _ R U) as C3.
  destruct (Kb b) as [Kb1 _]. destruct (Kb (negb b)) as [Kb2 Kb3]. rewrite Kb1 in C1. rewrite Kb2 in C2. rewrite Kb3 in C3.
  unfold isw at 2 in C1. unfold isw at 2 in C2. unfold isr at 2 in C3. cbn [snd] in C1, C2, C3. rewrite Bool.eqb_reflx in C3. cbn [Nat.b2n] in C1, C2, C3.
  assert (Lh : length h = length (bars s)) by exact (upd_len _ _ _ _ U1). assert (Hb : ptr s b < length (bars s)) by (eapply rd_Some_lt; exact B1).
  assert (Pb : ptr s' b = ptr s b) by (destruct b; reflexivity). assert (Pn : ptr s' (negb b) = length h) by (destruct b; reflexivity).
  exists b, r. split; [|change (cnt (isw b) l' < T); lia].
  split; [cbn; rewrite (upd_len _ _ _ _ U); exact Lt|]. split; [exact Lf|]. split; [|split].
  - assert (Q : forall w t, rd l' w = Some t -> tok (ptr s) b r w t) by exact (keep_tok (ptr s) b r _ _ _ _ K U Ka).
    intros w1 [o1 p1] R1. specialize (Q w1 _ R1). destruct p1 as [| |b1|b1 o|b1|j| |]; try (unfold tok in *; cbn [fst snd] in *; exact Q).
    destruct (Bool.bool_dec b1 b) as [->|Nb].
    + unfold tok in *. cbn [fst snd] in *. rewrite Pb || idtac. destruct b; cbn [negb] in *; rewrite ?Pb; exact Q.
    + exfalso. assert (b1 = negb b) as -> by (destruct b, b1; try reflexivity; exfalso; apply Nb; reflexivity). pose proof (cnt_pos (isw (negb b)) l' w1 _ R1) as X. unfold isw at 1 in X. cbn [snd] in X. rewrite Bool.eqb_reflx in X. specialize (X eq_refl). lia.
  - change (bar_ok (h ++ [new_barrier T]) l' (ptr s') b). split; [rewrite Pb, Pn; lia|]. rewrite Pb, Pn. split.
    + unfold rd. rewrite nth_error_app1 by lia. change (rd h (ptr s b) = Some {| to_block := T - cnt (isw b) l'; to_exit := T; alive := true |}).
      rewrite (upd_rd _ _ _ _ (ptr s b) U1). replace (ptr s b =? ptr s (negb b)) with false by (symmetry; apply Nat.eqb_neq; congruence). rewrite B1. do 2 f_equal; lia.
    + replace (cnt (isw (negb b)) l' + cnt (isr (negb b)) l') with 0 by lia. cbn [Nat.eqb]. unfold rd. rewrite nth_error_app2, Nat.sub_diag by lia. reflexivity.
  - change (mem_ok b r l' (cps s) (frs s)). eapply after_mem; [exact Lf|exact M|exact R|right; reflexivity|exact U].
Qed.
Theorem step_ok s w : inv s -> good (step s w).
Proof.
  intros (b & r & Co & Lc). destruct (rd (thr s) w) as [[off pl]|] eqn:R; [|unfold FrameThr_Model.step; rewrite R; exact I].
  pose proof Co as (_ & _ & K & _). pose proof (K w _ R) as Kw. unfold tok in Kw. cbn [snd fst] in Kw.
  destruct pl as [| |b'|b' o|b'|j| |].
  - destruct b; [contradiction|]. exact (step_even s r w off Head Co Lc R).
  - destruct b; [contradiction|]. exact (step_even s r w off Load Co Lc R).
  - exact (step_arrive s b r w off b' Co Lc R).
  - exact (step_wait s b r w off b' o Co Lc R).
  - exact (step_renew s b r w off b' Co Lc R).
  - destruct b; [|contradiction]. exact (step_work s r w off j Co Lc R).
  - destruct b; [contradiction|]. exact (step_even s r w off Save Co Lc R).
  - unfold FrameThr_Model.step. rewrite R. exact I.
Qed.
End P.
