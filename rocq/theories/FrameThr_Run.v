(** Proofs about executions of the threads of ForEachFrame. *)
From Verif Require Import Base FrameIter_Model FrameIter_Main FrameThr_Model FrameThr_Spec FrameThr_Proofs.

Section P.
Context {F C : Type}.
Variable preload : nat -> C -> list F -> option (C * list F).
Variable save : nat -> C -> list F -> option C.
Variable fn : F -> F.
Variables (T n L : nat).
Hypothesis T1 : 0 < T.
Variables (c0 : C) (fs0 : list F) (fuel : nat) (cE : C) (fsE : list F).
Hypothesis Pl : forall k c fs c' fs', preload k c fs = Some (c', fs') -> length fs' = length fs.
Hypothesis L0 : length fs0 = L.
Hypothesis Fe : for_each preload save fn fuel n 0 c0 fs0 = Finished (cE, fsE).
Notation state := (state F C).
Notation thr := (thr F C). Notation bars := (bars F C). Notation cps := (cps F C). Notation frs := (frs F C).
Notation ptr := (ptr F C). Notation step := (step F C preload save fn T n). Notation runs := (runs F C preload save fn T n).
Notation fpw := (fpw T L). Notation cnt_at := (cnt_at n L).
Notation sq := (sq preload save fn n L c0 fs0).
Notation core := (core preload save fn T n L c0 fs0). Notation inv := (inv preload save fn T n L c0 fs0).

Lemma batch_inv o c fs c2 fs2 : length fs = L -> batch preload save fn n o c fs = Some (c2, fs2) ->
  exists c1 fs1, preload (cnt_at o) c fs = Some (c1, fs1) /\ length fs1 = L /\ run_frames fn fs1 0 (cnt_at o) = Some fs2 /\ length fs2 = L /\ save (cnt_at o) c1 fs2 = Some c2.
Proof.
  intros E B. unfold batch in B. rewrite E in B. fold (cnt_at o) in B. destruct (preload (cnt_at o) c fs) as [[c1 fs1]|] eqn:E1; [|discriminate]. cbn [bind] in B.
  destruct (run_frames fn fs1 0 (cnt_at o)) as [f2|] eqn:E2; [|discriminate]. cbn [bind] in B. destruct (save (cnt_at o) c1 f2) as [c3|] eqn:E3; [|discriminate]. cbn [bind] in B. injection B as <- <-.
  pose proof (Pl _ _ _ _ _ E1) as Lp. exists c1, fs1. split; [reflexivity|]. split; [lia|]. split; [exact E2|]. split; [|exact E3].
  assert (Hc : 0 + cnt_at o <= length fs1) by (unfold FrameThr_Proofs.cnt_at; lia). destruct (run_frames_ok' fn (cnt_at o) 0 fs1 Hc) as (f & E4 & L4 & _). rewrite E2 in E4. injection E4 as <-. lia.
Qed.
Lemma Lpos : 0 < L \/ n = 0.
Proof.
  destruct n as [|n'] eqn:En; [auto|left]. destruct L as [|l] eqn:EL; [|lia]. exfalso. revert Fe L0 Pl. clear. intros Fe L0 Pl. revert c0 fs0 Fe L0. induction fuel as [|k IH]; intros c fs Fe E; cbn [for_each] in Fe; [discriminate|].
  replace (0 <? S n') with true in Fe by reflexivity. destruct (batch preload save fn (S n') 0 c fs) as [[c' fs']|] eqn:B; [|discriminate]. rewrite E in Fe. cbn [Nat.add] in Fe. apply (IH c' fs' Fe).
  unfold batch in B. rewrite E in B. cbn [Nat.min] in B. destruct (preload 0 c fs) as [[c1 f1]|] eqn:E1; [|discriminate]. cbn [bind run_frames] in B. destruct (save 0 c1 f1); [|discriminate]. cbn [bind] in B. injection B as <- <-.
  rewrite (Pl _ _ _ _ _ E1). exact E.
Qed.
Lemma sq_run r : (forall r', r' < r -> r' * L < n) -> exists k c fs, sq r = Some (c, fs) /\ length fs = L /\ for_each preload save fn k n (r * L) c fs = Finished (cE, fsE).
Proof.
  induction r as [|r IH]; intros H; [exists fuel, c0, fs0; auto|].
  destruct IH as (k & c & fs & E & Ll & Ef); [intros r' X; apply H; lia|]. specialize (H r ltac:(lia)). cbn [FrameThr_Proofs.sq]. rewrite E. cbn [bind]. replace (r * L <? n) with true by (symmetry; apply Nat.ltb_lt; exact H).
  destruct k as [|k]; cbn [for_each] in Ef; replace (r * L <? n) with true in Ef by (symmetry; apply Nat.ltb_lt; exact H); [discriminate|].
  destruct (batch preload save fn n (r * L) c fs) as [[c2 fs2]|] eqn:B; [|discriminate]. exists k, c2, fs2. split; [reflexivity|]. destruct (batch_inv _ _ _ _ _ Ll B) as (_ & _ & _ & _ & _ & L2 & _). split; [exact L2|].
  rewrite Ll in Ef. replace (S r * L) with (r * L + L) by lia. exact Ef.
Qed.
Lemma below r : r * L < n -> forall r', r' < r -> r' * L < n.
Proof. intros H r' X. assert (r' * L <= r * L) by (apply Nat.mul_le_mono_r; lia). lia. Qed.
Lemma Sq : forall r, r * L < n -> exists c fs c1 fs1 fs2 c2, sq r = Some (c, fs) /\ length fs = L /\
  preload (cnt_at (r * L)) c fs = Some (c1, fs1) /\ length fs1 = L /\ run_frames fn fs1 0 (cnt_at (r * L)) = Some fs2 /\ length fs2 = L /\
  save (cnt_at (r * L)) c1 fs2 = Some c2 /\ sq (S r) = Some (c2, fs2).
Proof.
  intros r H. destruct (sq_run r (below r H)) as (k & c & fs & E & Ll & Ef).
  destruct (sq_run (S r)) as (k2 & c2 & fs2 & E2 & _). { intros r' X. destruct (Nat.eq_dec r' r) as [->|N]; [exact H|]. apply (below r H). lia. }
  pose proof E2 as B. cbn [FrameThr_Proofs.sq] in B. rewrite E in B. cbn [bind] in B. replace (r * L <? n) with true in B by (symmetry; apply Nat.ltb_lt; exact H).
  destruct (batch_inv _ _ _ _ _ Ll B) as (c1 & fs1 & B1 & B2 & B3 & B4 & B5). exists c, fs, c1, fs1, fs2, c2. auto 10.
Qed.
Lemma sq_defined r c fs : sq r = Some (c, fs) -> forall r', r' < r -> r' * L < n.
Proof.
  revert c fs. induction r as [|r IH]; intros c fs E r' X; [lia|]. cbn [FrameThr_Proofs.sq] in E. destruct (sq r) as [[c1 f1]|] eqn:E1; [|discriminate]. cbn [bind] in E.
  destruct (Nat.ltb_spec (r * L) n) as [Y|Y]; [|discriminate]. destruct (Nat.eq_dec r' r) as [->|N]; [exact Y|]. apply (IH c1 f1 eq_refl). lia.
Qed.
Lemma sq_final r c fs : sq r = Some (c, fs) -> n <= r * L -> (c, fs) = (cE, fsE).
Proof.
  intros E H. destruct (sq_run r (sq_defined r c fs E)) as (k & c1 & f1 & E1 & _ & Ef). rewrite E in E1. injection E1 as <- <-.
  destruct k; cbn [for_each] in Ef; replace (r * L <? n) with false in Ef by (symmetry; apply Nat.ltb_ge; exact H); congruence.
Qed.

Lemma inv_start : inv (start F C T c0 fs0).
Proof.
  assert (R : forall w t, rd (repeat (0, Head) T) w = Some t -> t = (0, Head)) by (intros w t E; apply (repeat_spec T (0, Head)); eapply nth_error_In; exact E).
  assert (Z : forall b, cnt (isw b) (repeat (0, Head) T) = 0 /\ cnt (isr b) (repeat (0, Head) T) = 0) by (intros b; split; apply cnt_none; intros w t E; rewrite (R w t E); reflexivity).
  exists false, 0. split; [|cbn [start FrameThr_Model.thr]; rewrite (proj1 (Z false)); exact T1].
  split; [apply repeat_length|]. split; [exact L0|]. split; [|split].
  - intros w t E. rewrite (R w t E). reflexivity.
  - unfold bar_ok. cbn [start FrameThr_Model.thr negb FrameThr_Model.bars]. destruct (Z true) as [-> ->]. destruct (Z false) as [-> _]. cbn [Nat.add Nat.eqb]. rewrite Nat.sub_0_r. split; [discriminate|]. split; reflexivity.
  - intros t E. rewrite (R 0 t E). reflexivity.
Qed.
Lemma inv_runs k s : runs k (start F C T c0 fs0) s -> inv s.
Proof.
  intros H. remember (start F C T c0 fs0) as s0 eqn:E0. induction H as [s|k s s' w s'' H IH St]; [rewrite E0; exact inv_start|].
  specialize (IH E0). pose proof (step_ok preload save fn T n L T1 c0 fs0 Sq s' w IH) as G. rewrite St in G. exact G.
Qed.

(** ** No races *)
Inductive use_kind (s : state) (b : bool) (w : nat) (t : thread) : loc -> access -> Prop :=
| U_batch l a : b = false -> w = 0 -> (l = L_copiers \/ exists i, l = L_frame i) -> use_kind s b w t l a
| U_work i a : b = true -> w * fpw <= i < (w + 1) * fpw -> use_kind s b w t (L_frame i) a
| U_ptr : use_kind s b w t (L_ptr b) Reads
| U_bar : use_kind s b w t (L_barrier (ptr s b)) Synchronised
| U_old : isw (negb b) t = true -> use_kind s b w t (L_barrier (ptr s (negb b))) Synchronised
| U_new_ptr : isr (negb b) t = true -> use_kind s b w t (L_ptr (negb b)) Writes
| U_new_bar : isr (negb b) t = true -> use_kind s b w t (L_barrier (ptr s (negb b))) Writes.
Lemma uses_kind s b r w l a : core s b r -> In (l, a) (uses F C T n s w) -> exists t, rd (thr s) w = Some t /\ use_kind s b w t l a.
Proof.
  intros (Lt & Lf & K & _) H. unfold uses in H. destruct (rd (thr s) w) as [[off pl]|] eqn:R; [|destruct H]. exists (off, pl). split; [reflexivity|].
  specialize (K w _ R). unfold tok in K. cbn [fst snd] in K. destruct (eqs T n L s off Lf) as [Ec Ep].
  destruct pl as [| |b'|b' o|b'|j| |]; try (destruct H; fail).
  - destruct b; [contradiction|]. apply U_batch; [reflexivity|exact (proj1 K)|]. destruct H as [H|H]; [left; congruence|right]. apply in_map_iff in H. destruct H as (i & H & _). exists i. congruence.
  - assert (b' = b) as -> by (destruct b, b'; try contradiction; reflexivity). destruct H as [H|[H|[]]]; injection H as <- <-; [apply U_ptr|apply U_bar].
  - destruct H as [H|[]]. injection H as <- <-. assert (Eo : o = ptr s b') by (destruct b, b'; apply K). subst o. destruct (Bool.bool_dec b' b) as [->|N]; [apply U_bar|].
    assert (b' = negb b) as -> by (destruct b, b'; try reflexivity; exfalso; apply N; reflexivity). apply U_old. unfold isw. cbn. apply Bool.eqb_reflx.
  - assert (b' = negb b) as -> by (destruct b, b'; try contradiction; reflexivity). destruct H as [H|[H|[]]]; injection H as <- <-; [apply U_new_ptr|apply U_new_bar]; unfold isr; cbn; apply Bool.eqb_reflx.
  - destruct b; [|contradiction]. unfold work_end in H. rewrite Ec, Ep in H. destruct (Nat.ltb_spec j (Nat.min (cnt_at off) ((w + 1) * fpw))) as [X|X]; [|destruct H]. destruct H as [H|[]]. injection H as <- <-. apply U_work; [reflexivity|]. lia.
  - destruct b; [contradiction|]. apply U_batch; [reflexivity|exact (proj1 K)|]. destruct H as [H|H]; [left; congruence|right]. apply in_map_iff in H. destruct H as (i & H & _). exists i. congruence.
Qed.
Lemma no_race s : inv s -> ~ race T n s.
Proof.
  intros (b & r & Co & Lc) (w & w' & l & a & a' & N & U & U' & Cf). pose proof Co as (_ & _ & _ & (P & _ & B2) & _).
  destruct (uses_kind s b r w l a Co U) as (t & R & K). destruct (uses_kind s b r w' l a' Co U') as (t' & R' & K'). clear U U'.
  assert (B3 : (forall x v tx tv, x <> v -> rd (thr s) x = Some tx -> rd (thr s) v = Some tv -> isr (negb b) tx = true -> isw (negb b) tv = true \/ isr (negb b) tv = true -> False)).
  { intros x v tx tv Nx Rx Rv Ix Iv. assert (X : 0 < cnt (isr (negb b)) (thr s)) by exact (cnt_pos _ _ x tx Rx Ix).
    replace (cnt (isw (negb b)) (thr s) + cnt (isr (negb b)) (thr s) =? 0) with false in B2 by (symmetry; apply Nat.eqb_neq; lia). destruct B2 as [_ B2].
    destruct (Nat.eqb_spec (cnt (isw (negb b)) (thr s)) 0) as [Z|Z]; [|lia]. destruct Iv as [Iv|Iv].
    - pose proof (cnt_pos (isw (negb b)) (thr s) v tv Rv Iv). lia.
    - pose proof (cnt_two (isr (negb b)) (thr s) x v tx tv Nx Rx Rv Ix Iv). lia. }
  assert (Nb : negb b <> b) by (destruct b; discriminate).
  destruct K as [l a Eb Ew El|i a Eb Hi| | |I1|I1|I1].
  - inversion K' as [l' a1 Eb' Ew' El'|i' a1 Eb' Hi'| | |I2|I2|I2]; subst; try (destruct El as [El|[i El]]; discriminate); try congruence.
  - inversion K' as [l' a1 Eb' Ew' El'|i' a1 Eb' Hi'| | |I2|I2|I2]; subst; try congruence. apply N. exact (same_block fpw w w' i Hi Hi').
  - inversion K' as [l' a1 Eb' Ew' El'|i' a1 Eb' Hi'| | |I2|I2|I2]; subst; try (destruct El' as [El'|[i El']]; discriminate); try exact Cf; congruence.
  - inversion K' as [l' a1 Eb' Ew' El'|i' a1 Eb' Hi'| | |I2|I2|I2]; subst; try (destruct El' as [El'|[i El']]; discriminate); try exact Cf; congruence.
  - inversion K' as [l' a1 Eb' Ew' El'|i' a1 Eb' Hi'| | |I2|I2|I2]; subst; try (destruct El' as [El'|[i El']]; discriminate); try exact Cf; try congruence. exact (B3 w' w t' t ltac:(congruence) R' R I2 (or_introl I1)).
  - inversion K' as [l' a1 Eb' Ew' El'|i' a1 Eb' Hi'| | |I2|I2|I2]; subst; try (destruct El' as [El'|[i El']]; discriminate); try congruence; exact (B3 w w' t t' N R R' I1 (or_intror I2)).
  - inversion K' as [l' a1 Eb' Ew' El'|i' a1 Eb' Hi'| | |I2|I2|I2]; subst; try (destruct El' as [El'|[i El']]; discriminate); try congruence; [exact (B3 w w' t t' N R R' I1 (or_introl I2))|exact (B3 w w' t t' N R R' I1 (or_intror I2))].
Qed.

(** ** Progress *)
Lemma step_cases s w : step s w = Waits F C \/ step s w = Ended F C -> forall t, rd (thr s) w = Some t -> snd t <> Done ->
  exists b o x, snd t = Wait b o /\ rd (bars s) o = Some x /\ to_block x <> 0.
Proof.
  intros H [off pl] R Nd. assert (Mv : forall s' t', ~ (move F C s' w t' = Waits F C \/ move F C s' w t' = Ended F C)) by (intros s' t' [X|X]; unfold move in X; destruct (upd _ _ _); discriminate).
  unfold FrameThr_Model.step in H. rewrite R in H. cbn [snd] in *. destruct pl as [| |b'|b' o|b'|j| |]; try congruence.
  all: try (repeat match type of H with context [match ?x with _ => _ end] => destruct x eqn:?; try (exfalso; eapply Mv; exact H); try (exfalso; destruct H; discriminate) end; fail).
  destruct (rd (bars s) o) as [x|] eqn:Ex; [|exfalso; destruct H; discriminate]. exists b', o, x. split; [reflexivity|]. split; [exact Ex|]. intros Z. rewrite Z in H. destruct (alive x); [|destruct H; discriminate]. cbn [Nat.eqb] in H.
  destruct (leave (bars s) o x); [exact (Mv _ _ H)|destruct H; discriminate].
Qed.
Lemma progress s : inv s -> finished s \/ exists w s', step s w = Next F C s'.
Proof.
  intros Iv. pose proof Iv as (b & r & Co & Lc). pose proof Co as (Lt & Lf & K & (P & B1 & B2) & _).
  assert (Go : forall w t, rd (thr s) w = Some t -> snd t <> Done -> isw b t = false -> exists s', step s w = Next F C s').
  { intros w t R Nd Nw. pose proof (step_ok preload save fn T n L T1 c0 fs0 Sq s w Iv) as G. destruct (step s w) as [s'| | |] eqn:E; [eauto| | |destruct G]; exfalso.
    all: destruct (step_cases s w) with (t := t) as (b' & o & x & Et & Eo & Nz); [auto|exact R|exact Nd|]; pose proof (K w t R) as Kw; unfold isw in Nw; unfold tok in Kw; rewrite Et in *;
      assert (b' = negb b) as -> by (destruct b, b'; try discriminate; reflexivity); assert (o = ptr s (negb b)) as -> by (destruct b; apply Kw);
      assert (X : 0 < cnt (isw (negb b)) (thr s)) by (eapply cnt_pos; [exact R|]; unfold isw; rewrite Et; apply Bool.eqb_reflx);
      replace (cnt (isw (negb b)) (thr s) + cnt (isr (negb b)) (thr s) =? 0) with false in B2 by (symmetry; apply Nat.eqb_neq; lia); destruct B2 as [B2 _]; rewrite B2 in Eo; injection Eo as <-; apply Nz; reflexivity. }
  set (dn := fun t : thread => match snd t with Done => true | _ => false end).
  destruct (Nat.eq_dec (cnt dn (thr s)) (length (thr s))) as [E|E].
  - left. intros w t R. pose proof (cnt_full dn (thr s) w t E R) as D. unfold dn in D. destruct (snd t); try discriminate; reflexivity.
  - right. destruct (cnt_less dn (thr s)) as (w & t & R & D); [pose proof (cnt_le dn (thr s)); lia|]. assert (Nd : snd t <> Done) by (intros X; unfold dn in D; rewrite X in D; discriminate).
    destruct (isw b t) eqn:Iw; [|exists w; exact (Go w t R Nd Iw)].
    rewrite <- Lt in Lc. destruct (cnt_less (isw b) (thr s) Lc) as (w' & t' & R' & Iw'). exists w'. apply (Go w' t' R'); [|exact Iw'].
    intros X. pose proof (K w t R) as K1. pose proof (K w' t' R') as K2. unfold isw in Iw. unfold tok in K1, K2. rewrite X in K2. destruct b; [contradiction|]. destruct (snd t) as [| |b1|b1 o1|b1|j| |]; try discriminate. destruct b1; [discriminate|]. lia.
Qed.

(** ** Termination *)
Definition weight (w : nat) (t : thread) : nat :=
  let K := 10 + fpw in
  match snd t with
  | Done => 0
  | Head => (n - fst t) * K + 1
  | Load => (n - fst t - 1) * K + 10 + fpw
  | Arrive false => (n - fst t - 1) * K + 9 + fpw
  | Wait false _ => (n - fst t - 1) * K + 8 + fpw
  | Renew false => (n - fst t - 1) * K + 7 + fpw
  | Work i => (n - fst t - 1) * K + 6 + ((w + 1) * fpw - i)
  | Arrive true => (n - fst t - 1) * K + 5
  | Wait true _ => (n - fst t - 1) * K + 4
  | Renew true => (n - fst t - 1) * K + 3
  | Save => (n - fst t - 1) * K + 2
  end.
Fixpoint total (w : nat) (l : list thread) : nat := match l with [] => 0 | t :: r => weight w t + total (S w) r end.
Lemma total_upd l : forall k w t t' l', rd l w = Some t -> upd l w t' = Some l' -> total k l' + weight (k + w) t = total k l + weight (k + w) t'.
Proof.
  induction l as [|a l IH]; intros k [|w] t t' l' R U; cbn in R, U; try discriminate.
  - injection R as ->. injection U as <-. cbn [total]. rewrite Nat.add_0_r. lia.
  - destruct (upd l w t') as [l1|] eqn:E; [|discriminate]. cbn in U. injection U as <-. specialize (IH (S k) w t t' l1 R E). cbn [total]. replace (k + S w) with (S k + w) by lia. lia.
Qed.
Lemma moved s w t s' : move F C s w t = Next F C s' -> upd (thr s) w t = Some (thr s').
Proof. unfold move. destruct (upd (thr s) w t) as [l|]; [|discriminate]. intros E. injection E as <-. reflexivity. Qed.
Lemma step_weight s w s' : inv s -> step s w = Next F C s' -> total 0 (thr s') < total 0 (thr s).
Proof.
  intros (b & r & (Lt & Lf & K & _) & _) E. unfold FrameThr_Model.step in E. destruct (rd (thr s) w) as [[off pl]|] eqn:R; [|discriminate].
  specialize (K w _ R). unfold tok in K. cbn [fst snd] in K. destruct (eqs T n L s off Lf) as [Ec Ep]. pose proof Lpos as Lp.
  assert (Fin : forall t', upd (thr s) w t' = Some (thr s') -> weight w t' < weight w (off, pl) -> total 0 (thr s') < total 0 (thr s)).
  { intros t' U Hw. pose proof (total_upd (thr s) 0 w (off, pl) t' (thr s') R U) as X. cbn [Nat.add] in X. lia. }
  assert (St : off < n -> (n - off) * (10 + fpw) = (n - off - 1) * (10 + fpw) + (10 + fpw)). { intros X. replace (n - off) with (S (n - off - 1)) at 1 by lia. cbn [Nat.mul]. lia. }
  assert (Nx : off < n -> (n - (off + L)) * (10 + fpw) <= (n - off - 1) * (10 + fpw)) by (intros X; apply Nat.mul_le_mono_r; lia).
  assert (Af : forall b', off < n -> weight w (after F C T s w off b') < (n - off - 1) * (10 + fpw) + (if b' then 3 else 7 + fpw)).
  { intros b' X. unfold after. rewrite Lf, Ep. specialize (Nx X). destruct b'; [destruct (pick_zero w (off, Save) (off + L, Head)) as [[_ ->]|[_ ->]]|]; unfold weight; cbn [fst snd]; lia. }
  destruct pl as [| |b'|b' o|b'|j| |].
  - destruct (Nat.ltb_spec off n) as [X|X]; apply moved in E; (eapply Fin; [exact E|]).
    + specialize (St X). destruct (pick_zero w Load (Arrive false)) as [[_ ->]|[_ ->]]; unfold weight; cbn [fst snd]; lia.
    + unfold weight; cbn [fst snd]; lia.
  - destruct (preload _ _ _) as [[c fs]|]; [|discriminate]. apply moved in E. eapply Fin; [exact E|]. unfold weight; cbn [fst snd]; lia.
  - destruct (arrive _ _) as [h|]; [|discriminate]. apply moved in E. eapply Fin; [exact E|]. unfold weight; cbn [fst snd]. destruct b'; lia.
  - destruct (rd (bars s) o) as [x|]; [|discriminate]. destruct (alive x); [|discriminate]. destruct (to_block x =? 0); [|discriminate]. destruct (leave _ _ _) as [h|]; [|discriminate]. apply moved in E. eapply Fin; [exact E|].
    assert (X : off < n) by (destruct b, b'; apply K). specialize (Af b' X). destruct (to_exit x =? 1); unfold weight at 1 3 || idtac; cbn [fst snd] in *.
    + unfold weight. cbn [fst snd]. destruct b'; lia.
    + unfold weight at 2. cbn [fst snd]. destruct b'; lia.
  - destruct (renew F C T s b') as [s1|] eqn:Er; [|discriminate]. apply moved in E. assert (Et : thr s1 = thr s). { unfold renew in Er. destruct (rd (bars s) (ptr s b')) as [x|]; [|discriminate]. cbn [bind] in Er. destruct (alive x); [|discriminate]. destruct (upd _ _ _); [|discriminate]. cbn [bind] in Er. injection Er as <-. reflexivity. }
    rewrite Et in E. eapply Fin; [exact E|]. assert (X : off < n) by (destruct b, b'; try contradiction; apply K). specialize (Af b' X). unfold weight at 2. cbn [fst snd]. destruct b'; lia.
  - destruct b; [|contradiction]. unfold work_end in E. rewrite Ec, Ep in E. destruct (Nat.ltb_spec j (Nat.min (cnt_at off) ((w + 1) * fpw))) as [X|X].
    + destruct (rd (frs s) j); [|discriminate]. destruct (upd (frs s) j _); [|discriminate]. apply moved in E. eapply Fin; [exact E|]. unfold weight; cbn [fst snd]; lia.
    + apply moved in E. eapply Fin; [exact E|]. unfold weight; cbn [fst snd]; lia.
  - destruct (save _ _ _) as [c|]; [|discriminate]. apply moved in E. eapply Fin; [exact E|]. rewrite Lf. destruct b; [contradiction|]. assert (X : off < n) by apply K. specialize (Nx X). unfold weight; cbn [fst snd]; lia.
  - discriminate.
Qed.
Lemma total_start k : forall w, total w (repeat (0, Head) k) = k * (n * (10 + fpw) + 1).
Proof. induction k as [|k IH]; intros w; cbn [repeat total]; [reflexivity|]. rewrite IH. unfold weight. cbn [fst snd]. rewrite Nat.sub_0_r. lia. Qed.
Lemma runs_bound k s : runs k (start F C T c0 fs0) s -> k + total 0 (thr s) <= T * (n * (10 + fpw) + 1).
Proof.
  intros H. remember (start F C T c0 fs0) as s0 eqn:E0. induction H as [s|k s s' w s'' H IH St]; [rewrite E0; cbn [start FrameThr_Model.thr]; rewrite total_start; lia|].
  specialize (IH E0). rewrite E0 in H. pose proof (step_weight s' w s'' (inv_runs k s' H) St). lia.
Qed.
Lemma runs_result k s : runs k (start F C T c0 fs0) s -> finished s -> (cps s, frs s) = (cE, fsE).
Proof.
  intros H Fi. destruct (inv_runs k s H) as (b & r & (Lt & Lf & K & _ & M) & _). destruct (rd_lt (thr s) 0) as [t0 R0]; [lia|]. pose proof (K 0 t0 R0) as K0. pose proof (Fi 0 t0 R0) as D0. unfold tok in K0. rewrite D0 in K0.
  destruct b; [contradiction|]. specialize (M t0 R0). rewrite D0 in M. cbn [mem_even] in M. apply (sq_final r _ _ M). lia.
Qed.
End P.
