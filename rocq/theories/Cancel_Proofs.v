From Verif Require Import Base Cancel_Model Cancel_Spec.

Lemma fset_eq {B} (f : nat -> B) a v : fset f a v a = v.
Proof. unfold fset. rewrite Nat.eqb_refl. reflexivity. Qed.
Lemma fset_ne {B} (f : nat -> B) a b v : a <> b -> fset f a v b = f b.
Proof. intros H. unfold fset. replace (a =? b) with false by lia. reflexivity. Qed.

Ltac unf := unfold goto, log, set_lock, set_list, set_flag, set_status, set_handles, take_id in *;
  cbn [flag status head heap fresh lock handles pcs tr] in *.

(** ** Layer 1: the mutex *)
Definition locked (p : pc) : bool :=
  match p with
  | CBody _ | CFlag _ | CUnlock _ | SBody _ | SUnlockOk _ | SUnlockLate _
  | DBody _ | DUnlockGone _ | DUnlock _ | GBody | GUnlock => true
  | _ => false
  end.
Definition inv_lock (s : ctx) : Prop := forall t, locked (pcs s t) = true <-> lock s = Some t.

(** All ways to make a step. *)
Ltac step_cases H :=
  unfold step in H;
  match type of H with match pcs ?s ?t with _ => _ end = _ => destruct (pcs s t) eqn:?Ep end;
  unfold start, continue, acquire, release, ok, bind in H;
  repeat match type of H with
         | context [link ?a ?b ?c] => destruct (link a b c) as [[?hd ?m]|] eqn:?El; try discriminate
         | context [unlink ?a ?b ?c] => destruct (unlink a b c) as [[?hd ?m]|] eqn:?El; try discriminate
         | match ?c with _ => _ end = _ => destruct c eqn:?; try discriminate
         end;
  try discriminate;
  match type of H with Next _ = Next _ => injection H as <- | _ => idtac end; unf.

Lemma lock_step s t c s' : inv_lock s -> step s t c = Next s' -> inv_lock s'.
Proof.
  intros I H. assert (It := I t). step_cases H; intros u; unfold fset; unf;
    try (specialize (I u); destruct (Nat.eqb_spec t u) as [<-|]; rewrite ?Ep in *; cbn [locked] in *;
         try (destruct (load _ _)); cbn [locked] in *; try tauto; try (split; congruence);
         try (split; [intros K; try apply I in K; congruence|intros K; congruence]);
         intuition congruence).
Qed.

(** ** Layer 2: flag, status and history *)
Fixpoint wf_tr (h : list ev) : Prop :=
  match h with
  | [] => True
  | e :: p => wf_tr p /\
      match e with
      | EvCancel _ => ~ cancelled p
      | EvCall _ => cancelled p
      | EvPoll b => b = true -> cancelled p
      | EvStatus None => ~ cancelled p
      | EvStatus (Some c) => In (EvCancel c) p
      | _ => True
      end
  end.
Definition late (p : pc) : bool :=
  match p with
  | CFlag _ | CUnlock _ | CCall _ | CFree _ | SNow _ | SUnlockLate _ | SCallLate _ | DUnlockGone _ => true
  | _ => false
  end.
Definition is_cflag (p : pc) : bool := match p with CFlag _ => true | _ => false end.
Record inv2 (s : ctx) : Prop := {
  i_wf : wf_tr (tr s);
  i_flag : flag s = true -> status s <> None;
  i_status : forall e, status s = Some e -> In (EvCancel e) (tr s);
  i_none : status s = None -> ~ cancelled (tr s);
  i_late : forall t, late (pcs s t) = true -> status s <> None;
  i_cflag : forall t, is_cflag (pcs s t) = true -> flag s = false;
  i_mid : flag s = false -> status s <> None -> exists t, is_cflag (pcs s t) = true }.
Lemma status_cancelled s : inv2 s -> status s <> None -> cancelled (tr s).
Proof. intros I H. destruct (status s) as [e|] eqn:E; [|contradiction]. exists e. apply (i_status s I e E). Qed.
Lemma cancelled_cons e h : cancelled h -> cancelled (e :: h).
Proof. intros [x H]. exists x. right. exact H. Qed.
Lemma cancelled_inv e h : cancelled (e :: h) -> (exists x, e = EvCancel x) \/ cancelled h.
Proof. intros [x [H|H]]; [left; eauto|right; exists x; exact H]. Qed.
Lemma inv2_step s t c s' : inv_lock s -> inv2 s -> step s t c = Next s' -> inv2 s'.
Proof.
  intros IL I H.
  step_cases H.
  all: destruct I as [W F St No La Cf Mi]; assert (Lt := La t); assert (Ct := Cf t); rewrite Ep in Lt, Ct.
  all: assert (HC : status s <> None -> cancelled (tr s)) by
    (intros K; destruct (status s) as [e1|] eqn:E; [exists e1; apply St; reflexivity|contradiction]).
  all: constructor; unf; cbn [wf_tr].
  all: try solve [first [exact W | exact F | exact St | exact No | exact La | exact Cf | exact Mi]].
  all: try match goal with |- wf_tr _ /\ _ => split; [exact W|] end.
  all: try solve [exact Logic.I | discriminate | intros _; exact (Lt eq_refl) | apply HC; exact (Lt eq_refl) | apply No; assumption].
  all: try solve [intros e0 K; injection K as <-; left; reflexivity].
  all: try solve [intros e0 K; right; apply St; congruence].
  all: try solve [intros K X; apply cancelled_inv in X; destruct X as [[x X]|X]; [discriminate|apply (No K X)]].
  all: unfold load in *.
  all: try solve [intros u K; destruct (Nat.eq_dec t u) as [E|E]; [subst u; rewrite fset_eq in K|rewrite fset_ne in K by exact E; first [apply (La u K) | apply (Cf u K)]];
       first [discriminate K | exact (Lt eq_refl) | apply F; assumption | congruence |
              destruct (flag s) eqn:Ef; cbn in K; [apply F; reflexivity|discriminate K] |
              destruct (flag s && negb stale); discriminate K | idtac]].
  all: try solve [intros K1 K2; exists t; rewrite fset_eq; reflexivity].
  all: try solve [intros K1 K2; destruct (Mi K1 K2) as [u Hu]; exists u; rewrite fset_ne; [exact Hu|intros ->; rewrite Ep in Hu; discriminate]].
  all: try solve [intros K; apply HC, F; destruct (flag s); [reflexivity|discriminate]].
  - intros u K. destruct (Nat.eq_dec t u) as [E|E]; [subst u|rewrite fset_ne in K by exact E; apply (Cf u K)].
    destruct (flag s); [|reflexivity]. exfalso. apply F; auto.
  - intros u K. exfalso. destruct (Nat.eq_dec t u) as [E|E]; [subst u; rewrite fset_eq in K; discriminate|]. rewrite fset_ne in K by exact E.
    assert (Lu : lock s = Some u) by (apply IL; destruct (pcs s u); try discriminate; reflexivity).
    assert (Lt' : lock s = Some t) by (apply IL; rewrite Ep; reflexivity). congruence.
  - destruct (status s) as [e1|] eqn:E; [apply St; reflexivity|apply No; reflexivity].
Qed.

(** ** Layer 3: the nodes *)
Definition prev_at (l : list nat) (i : nat) : option nat := match i with O => None | S j => nth_error l j end.
Definition dll (m : nat -> option node) (hd : option nat) (l : list nat) : Prop :=
  hd = nth_error l 0 /\ forall i a, nth_error l i = Some a -> m a = Some (mkN (prev_at l i) (nth_error l (S i))).
Fixpoint sll (m : nat -> option node) (n : option nat) (l : list nat) : Prop :=
  match l with
  | [] => n = None
  | a :: r => n = Some a /\ exists k, m a = Some k /\ sll m (n_next k) r
  end.
Lemma dll_sll m hd l : dll m hd l -> sll m hd l.
Proof.
  intros [Hh D]. subst hd.
  assert (G : forall n i, length l - i = n -> sll m (nth_error l i) (skipn i l)).
  { induction n as [|n IH]; intros i Hn.
    - rewrite skipn_all2 by lia. cbn. apply nth_error_None. lia.
    - destruct (nth_error l i) as [a|] eqn:E; [|apply nth_error_None in E; lia].
      assert (Hs : skipn i l = a :: skipn (S i) l).
      { clear -E. revert i E. induction l as [|x l IH]; intros [|i] E; cbn in *; try discriminate; [congruence|]. apply IH, E. }
      rewrite Hs. cbn [sll]. split; [reflexivity|]. eexists. split; [apply D, E|]. cbn [n_next]. apply IH. lia. }
  specialize (G _ 0 eq_refl). rewrite skipn_O in G. exact G.
Qed.
Lemma sll_frame m m' l : forall n, (forall a, In a l -> m' a = m a) -> sll m n l -> sll m' n l.
Proof.
  induction l as [|a r IH]; intros n F; cbn [sll]; [auto|]. intros (-> & k & E & H). split; [reflexivity|]. exists k. rewrite F by (left; reflexivity).
  split; [exact E|]. apply IH; [|exact H]. intros b Hb. apply F. right. exact Hb.
Qed.
Lemma nth_inj (l : list nat) i j a : NoDup l -> nth_error l i = Some a -> nth_error l j = Some a -> i = j.
Proof.
  intros N Hi Hj. rewrite NoDup_nth_error in N. apply N; [|congruence]. apply nth_error_Some. congruence.
Qed.
Lemma dll_link m hd l a : dll m hd l -> NoDup l -> ~ In a l -> m a = Some (mkN None None) ->
  exists m', link hd m a = Some (Some a, m') /\ dll m' (Some a) (a :: l) /\
    (forall b, b <> a -> ~ In b l -> m' b = m b) /\ (forall b, m' b <> None -> m b <> None).
Proof.
  intros [Hh D] N Ha Em. unfold link. rewrite Em. cbn [bind n_prev].
  destruct l as [|b r].
  - cbn in Hh. subst hd. eexists. split; [reflexivity|]. split; [|split].
    + split; [reflexivity|]. intros [|i] c Hc; cbn in Hc; [|destruct i; discriminate]. injection Hc as <-. rewrite fset_eq. reflexivity.
    + intros c Hc _. apply fset_ne. congruence.
    + intros c. unfold fset. destruct (Nat.eqb_spec a c) as [<-|]; [congruence|auto].
  - cbn in Hh. subst hd. assert (Hab : a <> b) by (intros ->; apply Ha; left; reflexivity).
    rewrite fset_ne by congruence. pose proof (D 0 b eq_refl) as Eb. rewrite Eb. cbn [bind n_next]. eexists. split; [reflexivity|]. split; [|split].
    + split; [reflexivity|]. intros [|[|i]] c Hc; cbn in Hc.
      * injection Hc as <-. rewrite fset_ne by congruence. rewrite fset_eq. reflexivity.
      * injection Hc as <-. rewrite fset_eq. reflexivity.
      * assert (In c r) by (apply nth_error_In in Hc; exact Hc). inversion N; subst.
        rewrite !fset_ne; [|intros ->; apply Ha; right; assumption|intros ->; contradiction].
        rewrite (D (S i) c Hc). reflexivity.
    + intros c Hc Hn. rewrite !fset_ne; [reflexivity|congruence|]. intros ->. apply Hn. left. reflexivity.
    + intros c. unfold fset. destruct (Nat.eqb_spec b c) as [<-|]; [congruence|]. destruct (Nat.eqb_spec a c) as [<-|]; [congruence|auto].
Qed.
Definition cut_at (i : nat) (l : list nat) : list nat := firstn i l ++ skipn (S i) l.
Lemma cut_nth i l j : i < length l -> nth_error (cut_at i l) j = nth_error l (if j <? i then j else S j).
Proof.
  intros Hi. unfold cut_at. destruct (Nat.ltb_spec j i) as [H|H].
  - rewrite nth_error_app1 by (rewrite firstn_length; lia). clear Hi. revert i j H. induction l as [|x l IH]; intros [|i] [|j] H; cbn; try lia; try reflexivity. apply IH. lia.
  - rewrite nth_error_app2 by (rewrite firstn_length; lia). rewrite firstn_length. replace (Nat.min i (length l)) with i by lia.
    replace (S j) with (S i + (j - i)) by lia. generalize (S i) as k. generalize (j - i) as q. clear. intros q k. revert l. induction k as [|k IH]; intros l; [reflexivity|].
    destruct l as [|x l]; [cbn; destruct q; reflexivity|]. cbn. apply IH.
Qed.
Lemma cut_in i l a : nth_error l i = Some a -> NoDup l -> forall b, In b (cut_at i l) <-> In b l /\ b <> a.
Proof.
  intros E N b. assert (Hi : i < length l) by (apply nth_error_Some; congruence). split.
  - intros H. apply In_nth_error in H. destruct H as [j Hj]. rewrite cut_nth in Hj by exact Hi. split; [eapply nth_error_In; exact Hj|].
    intros ->. pose proof (nth_inj l _ _ _ N E Hj). destruct (Nat.ltb_spec j i); lia.
  - intros [H Hn]. apply In_nth_error in H. destruct H as [j Hj]. destruct (Nat.lt_trichotomy j i) as [L|[L|L]].
    + apply nth_error_In with j. rewrite cut_nth by exact Hi. replace (j <? i) with true by lia. exact Hj.
    + subst j. congruence.
    + apply nth_error_In with (j - 1). rewrite cut_nth by exact Hi. replace (j - 1 <? i) with false by lia. replace (S (j - 1)) with j by lia. exact Hj.
Qed.
Lemma cut_nodup i l : i < length l -> NoDup l -> NoDup (cut_at i l).
Proof.
  intros Hi N. apply NoDup_nth_error. intros j k Hj E. rewrite !cut_nth in E by exact Hi.
  assert (Lj : (if j <? i then j else S j) < length l).
  { unfold cut_at in Hj. rewrite app_length, firstn_length, skipn_length in Hj. destruct (Nat.ltb_spec j i); lia. }
  rewrite NoDup_nth_error in N. apply N in E; [|exact Lj]. destruct (Nat.ltb_spec j i), (Nat.ltb_spec k i); lia.
Qed.
Lemma dll_unlink m hd l a : dll m hd l -> NoDup l -> In a l ->
  exists i hd' m', nth_error l i = Some a /\ unlink hd m a = Some (hd', m') /\ dll m' hd' (cut_at i l) /\
    (forall b, b = a \/ ~ In b l -> m' b = m b) /\ (forall b, m' b <> None -> m b <> None).
Proof.
  intros [Hh D] N Ha. apply In_nth_error in Ha. destruct Ha as [i Hi]. exists i.
  assert (Li : i < length l) by (apply nth_error_Some; congruence). unfold unlink. rewrite (D i a Hi). cbn [bind n_prev n_next].
  (* the two neighbours *)
  assert (Step1 : exists hd1 m1, (match prev_at l i with
                    | None => Some (nth_error l (S i), m)
                    | Some p => let? k := m p in Some (hd, fset m p (Some (mkN (n_prev k) (nth_error l (S i)))))
                    end) = Some (hd1, m1) /\ hd1 = nth_error (cut_at i l) 0 /\
             (forall j b, nth_error l j = Some b -> m1 b = Some (mkN (prev_at l j) (if S j =? i then nth_error l (S i) else nth_error l (S j)))) /\
             (forall b, b = a \/ ~ In b l -> m1 b = m b) /\ (forall b, m1 b <> None -> m b <> None)).
  { destruct i as [|i]; cbn [prev_at].
    - eexists _, _. split; [reflexivity|]. split; [rewrite cut_nth by exact Li; reflexivity|]. split; [|split; auto].
      intros j b Hb. rewrite (D j b Hb). reflexivity.
    - destruct (nth_error l i) as [p|] eqn:Ep; [|apply nth_error_None in Ep; lia]. rewrite (D i p Ep). cbn [bind n_prev].
      eexists _, _. split; [reflexivity|]. split; [rewrite cut_nth by exact Li; cbn; exact Hh|]. split; [|split].
      + intros j b Hb. destruct (Nat.eq_dec p b) as [<-|Hp].
        * pose proof (nth_inj l _ _ _ N Ep Hb). subst j. rewrite fset_eq, Nat.eqb_refl. reflexivity.
        * rewrite fset_ne by exact Hp. rewrite (D j b Hb). replace (S j =? S i) with false; [reflexivity|]. symmetry. apply Nat.eqb_neq. intros K. injection K as ->. congruence.
      + intros b [->|Hb]; apply fset_ne.
        * intros ->. pose proof (nth_inj l _ _ _ N Ep Hi). lia.
        * intros ->. apply Hb. eapply nth_error_In. exact Ep.
      + intros b. unfold fset. destruct (Nat.eqb_spec p b) as [<-|]; [|auto]. intros _. rewrite (D i p Ep). discriminate. }
  destruct Step1 as (hd1 & m1 & E1 & Hh1 & D1 & F1 & N1). rewrite E1. cbn [bind].
  assert (Goal' : forall m2, (forall j b, nth_error l j = Some b -> j <> i ->
        m2 b = Some (mkN (if j =? S i then prev_at l i else prev_at l j) (if S j =? i then nth_error l (S i) else nth_error l (S j)))) ->
      dll m2 hd1 (cut_at i l)).
  { intros m2 D2. split; [exact Hh1|]. intros j b Hb. rewrite cut_nth in Hb by exact Li. destruct (Nat.ltb_spec j i) as [L|L].
    - rewrite (D2 j b Hb) by lia. replace (j =? S i) with false by lia. f_equal. f_equal.
      + destruct j as [|j]; [reflexivity|]. cbn [prev_at]. rewrite cut_nth by exact Li. replace (j <? i) with true by lia. reflexivity.
      + rewrite cut_nth by exact Li. destruct (Nat.eqb_spec (S j) i) as [<-|Hji].
        * replace (S j <? S j) with false by lia. reflexivity.
        * replace (S j <? i) with true by lia. reflexivity.
    - rewrite (D2 (S j) b Hb) by lia. replace (S (S j) =? i) with false by lia. f_equal. f_equal.
      + destruct (Nat.eqb_spec (S j) (S i)) as [K|K].
        * injection K as ->. destruct i as [|i]; [reflexivity|]. cbn [prev_at]. rewrite cut_nth by exact Li. replace (i <? S i) with true by lia. reflexivity.
        * destruct j as [|j]; [lia|]. cbn [prev_at]. rewrite cut_nth by exact Li. replace (j <? i) with false by lia. reflexivity.
      + rewrite cut_nth by exact Li. replace (S j <? i) with false by lia. reflexivity. }
  destruct (nth_error l (S i)) as [q|] eqn:Eq.
  - rewrite (D1 (S i) q Eq). cbn [bind n_next n_prev]. eexists _, _. split; [exact Hi|]. split; [reflexivity|]. split; [apply Goal'|split].
    + intros j b Hb Hj. destruct (Nat.eq_dec q b) as [<-|Hq].
      * pose proof (nth_inj l _ _ _ N Eq Hb). subst j. rewrite fset_eq, Nat.eqb_refl. reflexivity.
      * rewrite fset_ne by exact Hq. rewrite (D1 j b Hb). replace (j =? S i) with false; [reflexivity|]. symmetry. apply Nat.eqb_neq. intros ->. congruence.
    + intros b Hb. rewrite fset_ne; [apply F1; exact Hb|]. intros ->. destruct Hb as [->|Hb].
      * pose proof (nth_inj l _ _ _ N Hi Eq). lia.
      * apply Hb. eapply nth_error_In. exact Eq.
    + intros b. unfold fset. destruct (Nat.eqb_spec q b) as [<-|]; [|apply N1]. intros _. apply N1. rewrite (D1 (S i) q Eq). discriminate.
  - eexists _, _. split; [exact Hi|]. split; [reflexivity|]. split; [apply Goal'|split; assumption].
    intros j b Hb Hj. rewrite (D1 j b Hb). replace (j =? S i) with false; [reflexivity|]. symmetry. apply Nat.eqb_neq. intros ->. congruence.
Qed.

(** What a thread owns at a point of its program. *)
Definition tok (m : nat -> option node) (p : pc) (o : list nat) : Prop :=
  match p with
  | CFlag n | CUnlock n | CCall n => sll m n o
  | CFree a => exists k r, o = a :: r /\ m a = Some k /\ sll m (n_next k) r
  | SCheck a | SAlloc a | SNow a => o = [a] /\ m a = None
  | SLock a | SBody a => o = [a] /\ m a = Some (mkN None None)
  | SUnlockLate a | SCallLate a | SFree a | DUnlock a | DFree a => o = [a] /\ m a <> None
  | _ => o = []
  end.
Lemma tok_frame m m' p o : (forall a, In a o -> m' a = m a) -> tok m p o -> tok m' p o.
Proof.
  intros F. destruct p; cbn [tok]; try solve [auto | apply sll_frame; exact F].
  - intros (k & r & -> & E & S). exists k, r. split; [reflexivity|]. split; [rewrite F by (left; reflexivity); exact E|].
    apply sll_frame with m; [|exact S]. intros b Hb. apply F. right. exact Hb.
  - intros [-> E]. split; [reflexivity|]. rewrite F by (left; reflexivity). exact E.
  - intros [-> E]. split; [reflexivity|]. rewrite F by (left; reflexivity). exact E.
  - intros [-> E]. split; [reflexivity|]. rewrite F by (left; reflexivity). exact E.
  - intros [-> E]. split; [reflexivity|]. rewrite F by (left; reflexivity). exact E.
  - intros [-> E]. split; [reflexivity|]. rewrite F by (left; reflexivity). exact E.
  - intros [-> E]. split; [reflexivity|]. rewrite F by (left; reflexivity). exact E.
  - intros [-> E]. split; [reflexivity|]. rewrite F by (left; reflexivity). exact E.
  - intros [-> E]. split; [reflexivity|]. rewrite F by (left; reflexivity). exact E.
  - intros [-> E]. split; [reflexivity|]. rewrite F by (left; reflexivity). exact E.
  - intros [-> E]. split; [reflexivity|]. rewrite F by (left; reflexivity). exact E.
Qed.
(** The ids that the thread may still call. *)
Definition pend (p : pc) (o : list nat) : list nat :=
  match p with CFree _ => tl o | SFree _ | DUnlock _ | DFree _ => [] | _ => o end.
(** A subscription object that belongs to a running operation. *)
Definition held (p : pc) : option nat :=
  match p with DCheck a | DLock a | DBody a | SUnlockOk a => Some a | _ => None end.
Definition drops (p : pc) : option nat :=
  match p with DCheck a | DLock a | DBody a | DUnlockGone a | DUnlock a | DFree a => Some a | _ => None end.

Notation early := before_cancel.
Lemma early_cons e x h : early e h -> early e (x :: h).
Proof. intros (q & p & -> & H). exists (x :: q), p. auto. Qed.
Lemma early_inv e x h : early e (x :: h) -> early e h \/ (x = e /\ ~ cancelled (x :: h)).
Proof.
  intros (q & p & E & Hi & Hc). destruct q as [|y q]; cbn in E.
  - subst p. destruct Hi as [Hi|Hi]; [right; auto|]. left. exists [], h. split; [reflexivity|]. split; [exact Hi|]. intros K. apply Hc, cancelled_cons, K.
  - injection E as -> E. left. exists q, p. auto.
Qed.

Record inv3 (s : ctx) (L : list nat) (own : nat -> list nat) : Prop := {
  n_dll : dll (heap s) (head s) L;
  n_nd : NoDup L;
  n_tok : forall t, tok (heap s) (pcs s t) (own t);
  n_ndo : forall t, NoDup (own t);
  n_dis : forall t u a, In a (own t) -> In a (own u) -> t = u;
  n_disl : forall t a, In a (own t) -> ~ In a L;
  n_heap : forall a, heap s a <> None -> In a L \/ exists t, In a (own t);
  n_fresh : forall a, In a L \/ (exists t, In a (own t)) -> a < fresh s;
  n_late : status s <> None -> L = [];
  n_hl : status s = None -> forall a, In a (handles s) \/ (exists t, held (pcs s t) = Some a) -> In a L;
  n_hf : forall a, In a (handles s) \/ (exists t, held (pcs s t) = Some a) -> a < fresh s;
  n_hnd : NoDup (handles s);
  n_hd : forall t a, held (pcs s t) = Some a -> ~ In a (handles s);
  n_hh : forall t u a, held (pcs s t) = Some a -> held (pcs s u) = Some a -> t = u;
  (* history *)
  n_evf : forall a, In (EvCall a) (tr s) \/ In (EvStart a) (tr s) \/ In (EvDropped a) (tr s) \/ In (EvDrop a) (tr s) -> a < fresh s;
  n_nc : NoDup (calls (tr s));
  n_lnc : forall a, In a L -> ~ In (EvCall a) (tr s);
  n_pnc : forall t a, In a (pend (pcs s t) (own t)) -> ~ In (EvCall a) (tr s);
  n_drop : forall t a, drops (pcs s t) = Some a -> In (EvDrop a) (tr s);
  n_dnc : forall t a, (pcs s t = DUnlock a \/ pcs s t = DFree a) -> ~ In (EvCall a) (tr s) /\ early (EvDrop a) (tr s);
  n_started : forall a, In (EvStart a) (tr s) -> In a L \/ (exists t, In a (pend (pcs s t) (own t))) \/
                In (EvCall a) (tr s) \/ early (EvDrop a) (tr s);
  n_ed : forall a, early (EvDropped a) (tr s) -> ~ In a L /\ (forall t, ~ In a (own t)) /\ ~ In (EvCall a) (tr s) }.

Lemma pend_own p o a : In a (pend p o) -> In a o.
Proof. destruct p; cbn; auto; try contradiction. destruct o; cbn; auto. Qed.
Lemma calls_in h a : In a (calls h) <-> In (EvCall a) h.
Proof.
  induction h as [|e h IH]; [reflexivity|]. unfold calls. cbn [flat_map]. fold (calls h). rewrite in_app_iff, IH. cbn [In].
  destruct e; cbn [In]; split; intros H; try (right; tauto); try (destruct H as [H|H]; [|tauto]); try discriminate H.
  - left. destruct H as [->|[]]. reflexivity.
  - left. left. congruence.
Qed.
Definition hist (oe : option ev) (h : list ev) : list ev := match oe with Some e => e :: h | None => h end.
Lemma in_hist e oe h : In e (hist oe h) <-> oe = Some e \/ In e h.
Proof. destruct oe as [x|]; cbn; [|intuition discriminate]. split; intros [H|H]; auto; [left; congruence|injection H as ->; auto]. Qed.

Lemma inv3_upd s s' t p' oe L L' own o' : inv3 s L own ->
  (forall u, pcs s' u = fset (pcs s) t p' u) -> tr s' = hist oe (tr s) -> fresh s <= fresh s' ->
  dll (heap s') (head s') L' -> NoDup L' -> tok (heap s') p' o' -> NoDup o' ->
  (forall a, In a L' \/ In a o' -> In a L \/ In a (own t) \/ fresh s <= a < fresh s') ->
  (forall a, In a o' -> ~ In a L') ->
  (forall u a, u <> t -> In a (own u) -> heap s' a = heap s a) ->
  (forall a, heap s' a <> None -> heap s a <> None \/ In a o') ->
  (forall a, In a L \/ In a (own t) -> In a L' \/ In a o' \/ heap s' a = None) ->
  (status s' <> None -> L' = []) ->
  (status s' = None -> status s = None /\ (forall a, In a (handles s') \/ held p' = Some a -> In a L') /\
     (forall a, In a L -> ~ In a L' -> held (pcs s t) = Some a)) ->
  (forall a, In a (handles s') \/ held p' = Some a -> In a (handles s) \/ held (pcs s t) = Some a \/ (In a (own t) /\ status s = None)) ->
  NoDup (handles s') -> (forall a, held p' = Some a -> ~ In a (handles s')) ->
  (forall a, oe = Some (EvCall a) -> In a (pend (pcs s t) (own t)) /\ ~ In a L' /\ ~ In a (pend p' o')) ->
  (forall a, oe = Some (EvStart a) \/ oe = Some (EvDropped a) \/ oe = Some (EvDrop a) -> a < fresh s') ->
  (forall a, In a L' \/ In a (pend p' o') -> In a L \/ In a (pend (pcs s t) (own t)) \/ fresh s <= a) ->
  (forall a, drops p' = Some a -> drops (pcs s t) = Some a \/ oe = Some (EvDrop a)) ->
  (forall a, p' = DUnlock a \/ p' = DFree a -> (pcs s t = DUnlock a \/ pcs s t = DFree a) \/ (In a L /\ early (EvDrop a) (tr s'))) ->
  (forall a, In a L \/ In a (pend (pcs s t) (own t)) -> In a L' \/ In a (pend p' o') \/ oe = Some (EvCall a) \/ early (EvDrop a) (tr s')) ->
  (forall a, oe = Some (EvStart a) -> In a (pend p' o')) ->
  (forall a, oe = Some (EvDropped a) -> cancelled (tr s) \/ (pcs s t = DFree a /\ ~ In a o' /\ ~ In a L')) ->
  inv3 s' L' (fset own t o').
Proof.
  intros I Hp Ht Hf Hdll Hnd Htok Hno Hprov Hdis Hfr Hheap Hcov Hlate Hst Hh Hhnd Hhd Hcall Hevf Hpp Hdr Hdn Hstd Hnew Hed.
  assert (Pt : pcs s' t = p') by (rewrite Hp; apply fset_eq).
  assert (Pu : forall u, u <> t -> pcs s' u = pcs s u) by (intros u Hu; rewrite Hp; apply fset_ne; congruence).
  assert (Ot : fset own t o' t = o') by apply fset_eq.
  assert (Ou : forall u, u <> t -> fset own t o' u = own u) by (intros u Hu; apply fset_ne; congruence).
  assert (Fo : forall u a, In a (own u) -> a < fresh s) by (intros u a Ha; apply (n_fresh s L own I); right; exists u; exact Ha).
  assert (Fl : forall a, In a L -> a < fresh s) by (intros a Ha; apply (n_fresh s L own I); left; exact Ha).
  assert (Out : forall u a, u <> t -> In a (own u) -> ~ In a L' /\ ~ In a o').
  { intros u a Hu Ha. assert (K : ~ (In a L' \/ In a o')); [|tauto]. intros K. destruct (Hprov a K) as [X|[X|X]].
    - apply (n_disl s L own I u a Ha X).
    - apply Hu. apply (n_dis s L own I u t a Ha X).
    - specialize (Fo u a Ha). lia. }
  assert (Eh : forall e, early e (tr s) -> early e (tr s')).
  { intros e K. rewrite Ht. destruct oe; [apply early_cons|]; exact K. }
  assert (Call : forall a, In (EvCall a) (tr s') -> oe = Some (EvCall a) \/ In (EvCall a) (tr s)) by (intros a; rewrite Ht; apply in_hist).
  constructor.
  - exact Hdll.
  - exact Hnd.
  - intros u. destruct (Nat.eq_dec u t) as [->|Hu]; [rewrite Pt, Ot; exact Htok|]. rewrite Pu, Ou by exact Hu.
    apply tok_frame with (heap s); [|apply (n_tok s L own I)]. intros a Ha. apply (Hfr u a Hu Ha).
  - intros u. destruct (Nat.eq_dec u t) as [->|Hu]; [rewrite Ot; exact Hno|]. rewrite Ou by exact Hu. apply (n_ndo s L own I).
  - intros u v a Ha Hb. destruct (Nat.eq_dec u t) as [->|Hu], (Nat.eq_dec v t) as [->|Hv]; rewrite ?Ot, ?Ou in * by assumption.
    + reflexivity.
    + destruct (Out v a Hv Hb). contradiction.
    + destruct (Out u a Hu Ha). contradiction.
    + apply (n_dis s L own I u v a Ha Hb).
  - intros u a Ha. destruct (Nat.eq_dec u t) as [->|Hu]; [rewrite Ot in Ha; apply Hdis, Ha|]. rewrite Ou in Ha by exact Hu. apply (Out u a Hu Ha).
  - intros a Ha. destruct (Hheap a Ha) as [K|K]; [|right; exists t; rewrite Ot; exact K].
    destruct (n_heap s L own I a K) as [X|[u X]].
    + destruct (Hcov a (or_introl X)) as [Y|[Y|Y]]; [left; exact Y|right; exists t; rewrite Ot; exact Y|contradiction].
    + destruct (Nat.eq_dec u t) as [->|Hu].
      * destruct (Hcov a (or_intror X)) as [Y|[Y|Y]]; [left; exact Y|right; exists t; rewrite Ot; exact Y|contradiction].
      * right. exists u. rewrite Ou by exact Hu. exact X.
  - assert (K : forall a, In a L' \/ In a o' -> a < fresh s').
    { intros a Ha. destruct (Hprov a Ha) as [X|[X|X]]; [specialize (Fl a X); lia|specialize (Fo t a X); lia|lia]. }
    intros a [Ha|[u Ha]]; [apply K; left; exact Ha|]. destruct (Nat.eq_dec u t) as [->|Hu]; [rewrite Ot in Ha; apply K; right; exact Ha|].
    rewrite Ou in Ha by exact Hu. specialize (Fo u a Ha). lia.
  - exact Hlate.
  - intros K. destruct (Hst K) as (K1 & K2 & K3). intros a [Ha|[u Ha]]; [apply K2; left; exact Ha|].
    destruct (Nat.eq_dec u t) as [->|Hu]; [rewrite Pt in Ha; apply K2; right; exact Ha|]. rewrite Pu in Ha by exact Hu.
    destruct (in_dec Nat.eq_dec a L') as [|Hn]; [assumption|]. exfalso. apply Hu. apply (n_hh s L own I u t a Ha).
    apply K3; [|exact Hn]. apply (n_hl s L own I K1). right. exists u. exact Ha.
  - assert (K : forall a, In a (handles s') \/ held p' = Some a -> a < fresh s').
    { intros a Ha. destruct (Hh a Ha) as [X|[X|[X _]]].
      - pose proof (n_hf s L own I a (or_introl X)). lia.
      - pose proof (n_hf s L own I a (or_intror (ex_intro _ t X))). lia.
      - specialize (Fo t a X). lia. }
    intros a [Ha|[u Ha]]; [apply K; left; exact Ha|]. destruct (Nat.eq_dec u t) as [->|Hu]; [rewrite Pt in Ha; apply K; right; exact Ha|].
    rewrite Pu in Ha by exact Hu. pose proof (n_hf s L own I a (or_intror (ex_intro _ u Ha))). lia.
  - exact Hhnd.
  - intros u a Ha. destruct (Nat.eq_dec u t) as [->|Hu]; [rewrite Pt in Ha; apply Hhd, Ha|]. rewrite Pu in Ha by exact Hu. intros K.
    destruct (Hh a (or_introl K)) as [X|[X|[X Y]]].
    + apply (n_hd s L own I u a Ha X).
    + apply Hu, (n_hh s L own I u t a Ha X).
    + apply (n_disl s L own I t a X). apply (n_hl s L own I Y). right. exists u. exact Ha.
  - assert (K : forall u a, u <> t -> held (pcs s u) = Some a -> held p' = Some a -> False).
    { intros u a Hu Ha Hb. destruct (Hh a (or_intror Hb)) as [X|[X|[X Y]]].
      - apply (n_hd s L own I u a Ha X).
      - apply Hu, (n_hh s L own I u t a Ha X).
      - apply (n_disl s L own I t a X). apply (n_hl s L own I Y). right. exists u. exact Ha. }
    intros u v a Ha Hb. destruct (Nat.eq_dec u t) as [->|Hu], (Nat.eq_dec v t) as [->|Hv]; rewrite ?Pt, ?Pu in * by assumption.
    + reflexivity.
    + destruct (K v a Hv Hb Ha).
    + destruct (K u a Hu Ha Hb).
    + apply (n_hh s L own I u v a Ha Hb).
  - intros a. rewrite Ht, !in_hist. intros K. assert (N := n_evf s L own I a).
    destruct K as [[K|K]|[[K|K]|[[K|K]|[K|K]]]]; try (assert (a < fresh s) by tauto; lia); try (apply Hevf; tauto).
    destruct (Hcall a K) as [X _]. apply pend_own in X. specialize (Fo t a X). lia.
  - rewrite Ht. destruct oe as [e|]; [|apply (n_nc s L own I)]. cbn [hist]. unfold calls. cbn [flat_map]. fold (calls (tr s)).
    destruct e; cbn [app]; try apply (n_nc s L own I). constructor; [|apply (n_nc s L own I)]. rewrite calls_in.
    destruct (Hcall a eq_refl) as [X _]. apply (n_pnc s L own I t a X).
  - intros a Ha K. apply Call in K. destruct K as [K|K]; [destruct (Hcall a K) as (_ & X & _); contradiction|].
    destruct (Hpp a (or_introl Ha)) as [X|[X|X]].
    + apply (n_lnc s L own I a X K).
    + apply (n_pnc s L own I t a X K).
    + pose proof (n_evf s L own I a (or_introl K)). lia.
  - intros u a Ha K. apply Call in K. destruct (Nat.eq_dec u t) as [->|Hu]; rewrite ?Pt, ?Ot, ?Pu, ?Ou in Ha by assumption.
    + destruct K as [K|K]; [destruct (Hcall a K) as (_ & _ & X); contradiction|].
      destruct (Hpp a (or_intror Ha)) as [X|[X|X]].
      * apply (n_lnc s L own I a X K).
      * apply (n_pnc s L own I t a X K).
      * pose proof (n_evf s L own I a (or_introl K)). lia.
    + destruct K as [K|K]; [|apply (n_pnc s L own I u a Ha K)]. destruct (Hcall a K) as (X & _ & _). apply Hu.
      apply (n_dis s L own I u t a); eapply pend_own; eassumption.
  - intros u a Ha. rewrite Ht, in_hist. destruct (Nat.eq_dec u t) as [->|Hu]; rewrite ?Pt, ?Pu in Ha by assumption.
    + destruct (Hdr a Ha) as [X|X]; [right; apply (n_drop s L own I t a X)|left; exact X].
    + right. apply (n_drop s L own I u a Ha).
  - intros u a Ha.
    assert (Own : forall v, pcs s v = DUnlock a \/ pcs s v = DFree a -> In a (own v)).
    { intros v Hv. pose proof (n_tok s L own I v) as T. destruct Hv as [Hv|Hv]; rewrite Hv in T; destruct T as [-> _]; left; reflexivity. }
    assert (Old : forall v, pcs s v = DUnlock a \/ pcs s v = DFree a -> ~ In (EvCall a) (tr s') /\ early (EvDrop a) (tr s')).
    { intros v Hv. destruct (n_dnc s L own I v a Hv) as [X Y]. split; [|apply Eh, Y]. intros K. apply Call in K. destruct K as [K|K]; [|contradiction].
      destruct (Hcall a K) as (Z & _ & _). assert (v = t) by (apply (n_dis s L own I v t a); [apply Own, Hv|eapply pend_own; exact Z]). subst v.
      destruct Hv as [Hv|Hv]; rewrite Hv in Z; cbn in Z; contradiction. }
    destruct (Nat.eq_dec u t) as [->|Hu]; rewrite ?Pt, ?Pu in Ha by assumption; [|apply (Old u Ha)].
    destruct (Hdn a Ha) as [X|[X Y]]; [apply (Old t X)|]. split; [|exact Y]. intros K. apply Call in K. destruct K as [K|K]; [|apply (n_lnc s L own I a X K)].
    destruct (Hcall a K) as (Z & _ & _). apply pend_own in Z. apply (n_disl s L own I t a Z X).
  - intros a Ha. rewrite Ht, in_hist in Ha. destruct Ha as [Ha|Ha]; [right; left; exists t; rewrite Pt, Ot; apply Hnew, Ha|].
    assert (K : In a L \/ In a (pend (pcs s t) (own t)) \/ (exists u, u <> t /\ In a (pend (pcs s u) (own u))) \/ In (EvCall a) (tr s) \/ early (EvDrop a) (tr s)).
    { destruct (n_started s L own I a Ha) as [X|[[u X]|[X|X]]]; auto. destruct (Nat.eq_dec u t) as [->|Hu]; [auto|]. right. right. left. exists u. auto. }
    assert (G : In a L' \/ In a (pend p' o') \/ oe = Some (EvCall a) \/ early (EvDrop a) (tr s') ->
      In a L' \/ (exists u, In a (pend (pcs s' u) (fset own t o' u))) \/ In (EvCall a) (tr s') \/ early (EvDrop a) (tr s')).
    { intros [X|[X|[X|X]]]; auto. right. left. exists t. rewrite Pt, Ot. exact X. right. right. left. rewrite Ht, in_hist. auto. }
    destruct K as [X|[X|[(u & Hu & X)|[X|X]]]]; [apply G, Hstd; auto|apply G, Hstd; auto| | |].
    + right. left. exists u. rewrite Pu, Ou by exact Hu. exact X.
    + right. right. left. rewrite Ht, in_hist. auto.
    + right. right. right. apply Eh, X.
  - intros a Ha.
    assert (Old : early (EvDropped a) (tr s) -> ~ In a L' /\ (forall u, ~ In a (fset own t o' u)) /\ ~ In (EvCall a) (tr s')).
    { intros K. destruct (n_ed s L own I a K) as (K1 & K2 & K3).
      assert (Fa : a < fresh s). { destruct K as (q & p & E & X & _). apply (n_evf s L own I). right. right. left. rewrite E. apply in_or_app. right. exact X. }
      assert (NN : ~ (In a L' \/ In a o')). { intros X. destruct (Hprov a X) as [Y|[Y|Y]]; [contradiction|apply (K2 t Y)|lia]. }
      split; [tauto|]. split.
      - intros u. destruct (Nat.eq_dec u t) as [->|Hu]; [rewrite Ot; tauto|]. rewrite Ou by exact Hu. apply K2.
      - intros X. apply Call in X. destruct X as [X|X]; [|contradiction]. destruct (Hcall a X) as (Y & _). apply pend_own in Y. apply (K2 t Y). }
    rewrite Ht in Ha. destruct oe as [e|]; [|apply Old, Ha]. cbn [hist] in Ha. apply early_inv in Ha. destruct Ha as [Ha|[-> Ha]]; [apply Old, Ha|].
    destruct (Hed a eq_refl) as [X|(X & Y & Z)]; [exfalso; apply Ha, cancelled_cons, X|].
    pose proof (n_tok s L own I t) as T. rewrite X in T. destruct T as [T _]. split; [exact Z|]. split.
    + intros u. destruct (Nat.eq_dec u t) as [->|Hu]; [rewrite Ot; exact Y|]. rewrite Ou by exact Hu. intros K.
      apply Hu. apply (n_dis s L own I u t a K). rewrite T. left. reflexivity.
    + intros K. apply Call in K. destruct K as [K|K]; [discriminate|]. apply (n_dnc s L own I t a (or_intror X)). exact K.
Qed.

Lemma fset_self {B} (f : nat -> B) t v u : f t = v -> f u = fset f t v u.
Proof. intros <-. unfold fset. destruct (Nat.eqb_spec t u) as [->|]; reflexivity. Qed.
Lemma remove_in a l b : In b (remove_handle a l) <-> In b l /\ b <> a.
Proof. unfold remove_handle. rewrite filter_In. destruct (Nat.eqb_spec a b); cbn; intuition congruence. Qed.
Lemma owns_in a s : owns a s = true <-> In a (handles s).
Proof. unfold owns. rewrite existsb_exists. split; [intros (x & H & E); apply Nat.eqb_eq in E; subst; exact H|intros H; exists a; split; [exact H|apply Nat.eqb_refl]]. Qed.

Lemma inv3_init : inv3 init [] (fun _ => []).
Proof.
  constructor; cbn.
  all: try solve [constructor | reflexivity | intros; constructor | intros; contradiction | intros; discriminate | intros; reflexivity | intros ? ? ? [] | congruence].
  all: try solve [intros a [[]|[? []]] | intros _ a [[]|[? K]]; discriminate K | intros a [[]|[? K]]; discriminate K | intros a [[]|[[]|[[]|[]]]] | intros ? ? [?|?]; discriminate].
  - split; [reflexivity|]. intros i a H. destruct i; discriminate.
  - intros a (q & p & E & H & _). destruct q, p; try discriminate. destruct H.
Qed.

(** A step that leaves nodes, handles and the status alone. *)
Lemma inv3_quiet s s' t p' oe L own : inv3 s L own ->
  (forall u, pcs s' u = fset (pcs s) t p' u) -> tr s' = hist oe (tr s) -> fresh s' = fresh s -> heap s' = heap s -> head s' = head s ->
  status s' = status s -> handles s' = handles s ->
  tok (heap s) p' (own t) -> pend p' (own t) = pend (pcs s t) (own t) ->
  (forall a, held p' = Some a -> held (pcs s t) = Some a) -> (forall a, drops p' = Some a -> drops (pcs s t) = Some a) ->
  (forall a, p' = DUnlock a \/ p' = DFree a -> pcs s t = DUnlock a \/ pcs s t = DFree a) ->
  (forall a, oe <> Some (EvCall a)) -> (forall a, oe <> Some (EvStart a)) -> (forall a, oe = Some (EvDropped a) -> cancelled (tr s) /\ a < fresh s) -> (forall a, oe <> Some (EvDrop a)) ->
  exists L' o', inv3 s' L' (fset own t o').
Proof.
  intros I Hp Ht Hf Hm Hh Hs Hha Tk Pe He Hd Hu N1 N2 N3 N4. exists L, (own t). apply inv3_upd with (s := s) (p' := p') (oe := oe) (L := L);
    rewrite ?Hf, ?Hm, ?Hh, ?Hs, ?Hha, ?Pe; try assumption.
  - lia.
  - apply (n_dll s L own I).
  - apply (n_nd s L own I).
  - apply (n_ndo s L own I).
  - tauto.
  - apply (n_disl s L own I).
  - reflexivity.
  - tauto.
  - tauto.
  - apply (n_late s L own I).
  - intros K. split; [exact K|]. split; [|tauto]. intros a Ha. apply (n_hl s L own I K). destruct Ha as [Ha|Ha]; [left; exact Ha|right; exists t; apply He, Ha].
  - intros a [Ha|Ha]; auto.
  - apply (n_hnd s L own I).
  - intros a Ha. apply (n_hd s L own I t). apply He, Ha.
  - intros a K. destruct (N1 a K).
  - intros a [K|[K|K]]; [destruct (N2 a K)|apply N3, K|destruct (N4 a K)].
  - tauto.
  - intros a K. left. apply Hd, K.
  - intros a K. left. apply Hu, K.
  - tauto.
  - intros a K. destruct (N2 a K).
  - intros a K. left. exact (proj1 (N3 a K)).
Qed.

Ltac quiet := eapply inv3_quiet;
  [ eassumption
  | intros u; unf; first [reflexivity | eapply fset_self; eassumption]
  | unf; first [exact (eq_refl (hist None _)) | match goal with |- ?e :: ?h = _ => exact (eq_refl (hist (Some e) h)) end]
  | reflexivity | reflexivity | reflexivity | reflexivity | reflexivity
  | cbn [tok]; auto | cbn [pend]; repeat match goal with E : pcs _ _ = _ |- _ => rewrite E end; auto
  | cbn [held]; repeat match goal with E : pcs _ _ = _ |- _ => rewrite E end; cbn [held]; auto; try discriminate
  | cbn [drops]; repeat match goal with E : pcs _ _ = _ |- _ => rewrite E end; cbn [drops]; auto; try discriminate
  | intros ?a [?K|?K]; try discriminate K; auto
  | intros; discriminate | intros; discriminate | intros ?a ?K; try discriminate K | intros; discriminate ].
Lemma dll_frame m m' hd L : (forall a, In a L -> m' a = m a) -> dll m hd L -> dll m' hd L.
Proof. intros F [H D]. split; [exact H|]. intros i a Hi. rewrite F by (eapply nth_error_In; exact Hi). apply D, Hi. Qed.
Lemma remove_nodup a l : NoDup l -> NoDup (remove_handle a l).
Proof. apply NoDup_filter. Qed.

Ltac dis := repeat match goal with
  | H : _ /\ _ |- _ => destruct H
  | H : _ \/ _ |- _ => destruct H
  | H : exists _, _ |- _ => destruct H
  | H : In _ [] |- _ => destruct H
  | H : In _ (_ :: _) |- _ => cbn [In] in H
  | H : Some _ = Some _ |- _ => injection H as H; subst
  | H : EvStart _ = EvStart _ |- _ => injection H as H; subst
  | H : EvCall _ = EvCall _ |- _ => injection H as H; subst
  | H : In _ (remove_handle _ _) |- _ => apply remove_in in H
  | H : None = Some _ |- _ => discriminate H
  | H : Idle = _ |- _ => discriminate H
  end; subst.
Ltac upd p oe L' o' := exists L', o';
  match goal with I : inv3 ?s ?L ?own |- inv3 ?s' _ (fset _ ?t _) => apply (inv3_upd s s' t p oe L L' own o' I) end; unf;
  repeat match goal with E : pcs ?s ?t = _ |- context [pcs ?s ?t] => rewrite E end; cbn [tok held drops pend hist tl];
  [ intros u; first [reflexivity | eapply fset_self; eassumption] | reflexivity | lia | .. ];
  match goal with I : inv3 _ _ ?own |- _ =>
    repeat match goal with E : own ?t = _ |- context [own ?t] => rewrite E
           | E : own ?t = _, K : context [own ?t] |- _ => lazymatch K with E => fail | _ => rewrite E in K end end end;
  try assumption;
  try solve [constructor | reflexivity | intros; assumption | intros; discriminate | apply remove_nodup; assumption
    | intros; dis; first [discriminate | lia | solve [cbn [In]; auto 9] | congruence | contradiction
       | repeat split; intros; dis; first [discriminate | solve [cbn [In]; auto 9] | congruence | contradiction]]
    | intros ? ? ? ?; rewrite fset_ne; [reflexivity|intros <-; eauto]
    | eapply dll_frame; [|eassumption]; intros; apply fset_ne; intros <-; eauto].
Ltac mine Dsl Fu Eo a :=
  match type of Dsl with forall _, _ -> ~ In _ ?L => assert (Na : ~ In a L) by (apply Dsl; rewrite Eo; left; reflexivity) end;
  match type of Fu with forall _ _, _ <> ?t -> In _ (?own _) -> _ =>
    assert (Nu : forall u, u <> t -> ~ In a (own u)) by (intros u Hu K; apply (Fu u a Hu K); rewrite Eo; left; reflexivity) end.

Lemma inv3_step s t c s' L own : inv_lock s -> inv2 s -> inv3 s L own -> step s t c = Next s' -> exists L' o', inv3 s' L' (fset own t o').
Proof.
  intros IL I2 I H. 
  assert (ML : locked (pcs s t) = true -> is_cflag (pcs s t) = false -> flag s = false -> status s = None).
  { intros K1 K2 K3. destruct (status s) eqn:E; [|reflexivity]. exfalso. destruct (i_mid s I2 K3 ltac:(congruence)) as [u Hu].
    assert (lock s = Some t) by (apply IL, K1). assert (lock s = Some u) by (apply IL; destruct (pcs s u); try discriminate; reflexivity).
    assert (u = t) by congruence. congruence. }
  assert (Tk := n_tok s L own I t).
  assert (Hs := fun K => i_flag s I2 K).
  assert (HC := status_cancelled s I2). assert (LA := i_late s I2 t).
  assert (Ndo := n_ndo s L own I t). assert (Dl := n_dll s L own I). assert (Nl := n_nd s L own I). assert (Lt := n_late s L own I).
  assert (Hl := n_hl s L own I). assert (Hhn := n_hnd s L own I). assert (Hhd := n_hd s L own I t). assert (Pnc := n_pnc s L own I t).
  assert (Dsl := n_disl s L own I t).
  assert (Hheld : status s = None -> forall a, held (pcs s t) = Some a -> In a L) by (intros K a Ha; apply Hl; [exact K|right; exists t; exact Ha]).
  assert (Hdrop := n_drop s L own I t).
  assert (Hnone := i_none s I2).
  assert (Fd : forall a, drops (pcs s t) = Some a -> a < fresh s) by (intros a Ha; apply (n_evf s L own I); right; right; right; apply Hdrop, Ha).
  assert (Fo : forall a, In a (own t) -> a < fresh s) by (intros a Ha; apply (n_fresh s L own I); right; exists t; exact Ha).
  assert (Fh : forall a, In a (handles s) \/ held (pcs s t) = Some a -> a < fresh s).
  { intros a [Ha|Ha]; apply (n_hf s L own I); [left; exact Ha|right; exists t; exact Ha]. }
  assert (Fu : forall u a, u <> t -> In a (own u) -> ~ In a (own t)) by (intros u a Hu Ha Hb; apply Hu, (n_dis s L own I u t a Ha Hb)).
  assert (Ful : forall u a, In a (own u) -> ~ In a L) by (intros u a; apply (n_disl s L own I)).
  assert (Fl : forall a, In a L -> a < fresh s) by (intros a Ha; apply (n_fresh s L own I); left; exact Ha).
  assert (Fheap : heap s (fresh s) = None).
  { destruct (heap s (fresh s)) eqn:E; [|reflexivity]. exfalso. assert (fresh s < fresh s); [|lia]. apply (n_fresh s L own I), (n_heap s L own I). congruence. }
  clear IL I2.
  unfold step in H. destruct (pcs s t) eqn:Ep; cbn [tok] in Tk; cbn [held drops pend locked is_cflag late] in *;
    [|destruct c; try discriminate H; cbn [continue] in H; unfold acquire, release, ok in H ..].
  - destruct c as [[e|]| |a|a| |stale|stale]; cbn [start] in H.
    + injection H as <-. quiet.
    + injection H as <-. quiet.
    + injection H as <-. upd (SCheck (fresh s)) (Some (EvStart (fresh s))) L [fresh s].
      * constructor; [intros []|constructor].
      * intros a [<-|[]] K. specialize (Fl _ K). lia.
    + destruct (owns a s) eqn:Eo; [|discriminate]. apply owns_in in Eo. injection H as <-.
      upd (DCheck a) (Some (EvDrop a)) L (own t).
      intros b K X. injection K as <-. apply remove_in in X. tauto.
    + destruct (owns a s) eqn:Eo; [|discriminate]. apply owns_in in Eo. injection H as <-.
      upd Idle (@None ev) L (own t).
    + injection H as <-. quiet.
    + injection H as <-. quiet.
    + discriminate.
  - injection H as <-. destruct (load _ _); quiet.
  - destruct (lock s); [discriminate|]. injection H as <-. quiet.
  - (* CBody *) destruct (status s) eqn:Es; injection H as <-; [quiet; rewrite Tk; reflexivity|].
    assert (Sl := dll_sll _ _ _ Dl). upd (CFlag (head s)) (Some (EvCancel e)) (@nil nat) L.
    split; [reflexivity|]. intros i a K. destruct i; discriminate.
  - injection H as <-. quiet.
  - injection H as <-. quiet.
  - destruct n as [a|]; [|injection H as <-; quiet; destruct (own t); [reflexivity|destruct Tk; discriminate]].
    assert (X : exists r k, own t = a :: r /\ heap s a = Some k /\ sll (heap s) (n_next k) r).
    { destruct (own t) as [|a' r]; [discriminate|]. destruct Tk as (E & k & Em & Sl). injection E as <-. eauto. }
    destruct X as (r & k & Eo & Em & Sl). mine Dsl Fu Eo a. rewrite Em in H. injection H as <-.
    upd (CFree a) (Some (EvCall a)) L (a :: r).
    + eauto.
    + intros b K. injection K as <-. split; [left; reflexivity|]. split; [exact Na|]. inversion Ndo; assumption.
  - destruct Tk as (k & r & Eo & Em & Sl). mine Dsl Fu Eo a. rewrite Em in H. injection H as <-.
    upd (CCall (n_next k)) (@None ev) L r.
    + apply sll_frame with (heap s); [|exact Sl]. intros b Hb. apply fset_ne. intros <-. inversion Ndo; contradiction.
    + inversion Ndo; assumption.
    + intros b Hb. apply Dsl. right. exact Hb.
    + intros u b Hu Hb. apply fset_ne. intros <-. apply (Nu u Hu Hb).
    + intros b. unfold fset. destruct (a =? b); [congruence|auto].
    + intros b [Hb|[<-|Hb]]; auto. right. right. apply fset_eq.
  - injection H as <-. destruct (load _ _); quiet.
  - (* SNow *) destruct Tk as [Eo Tk]. mine Dsl Fu Eo a. injection H as <-. upd Idle (Some (EvCall a)) L (@nil nat).
  - (* SAlloc *) destruct Tk as [Eo Tk]. mine Dsl Fu Eo a. injection H as <-. upd (SLock a) (@None ev) L [a].
    + split; [reflexivity|apply fset_eq].
    + intros u b Hu Hb. apply fset_ne. intros <-. apply (Nu u Hu Hb).
    + intros b. unfold fset. destruct (Nat.eqb_spec a b) as [<-|]; [right; left; reflexivity|auto].
  - destruct (lock s); [discriminate|]. injection H as <-. quiet.
  - (* SBody *) destruct (flag s) eqn:Ef; [injection H as <-; quiet; destruct Tk as [E Tk]; split; [exact E|congruence]|].
    destruct Tk as [Eo Em]. mine Dsl Fu Eo a. destruct (dll_link _ _ _ a Dl Nl) as (m' & El & Dl' & Fr & Mo); [exact Na|exact Em|].
    rewrite El in H. cbn [bind] in H. injection H as <-. upd (SUnlockOk a) (@None ev) (a :: L) (@nil nat).
    + constructor; assumption.
    + intros u b Hu Hb. apply Fr; [|apply (Ful u b Hb)]. intros ->. apply (Nu u Hu Hb).
    + intros K. destruct (K (ML eq_refl eq_refl eq_refl)).
    + intros K. split; [exact K|]. split.
      * intros b [Hb|Hb]; [right; apply Hl; auto|injection Hb as <-; left; reflexivity].
      * intros b Hb K2. destruct K2. right. exact Hb.
  - (* SUnlockOk *) injection H as <-. upd Idle (@None ev) L (own t). constructor; auto.
  - injection H as <-. quiet.
  - (* SCallLate *) destruct Tk as [Eo Tk]. mine Dsl Fu Eo a. destruct (heap s a) eqn:Em; [|discriminate]. injection H as <-. upd (SFree a) (Some (EvCall a)) L [a].
  - (* SFree *) destruct Tk as [Eo Tk]. mine Dsl Fu Eo a. destruct (heap s a) eqn:Em; [|discriminate]. injection H as <-. upd Idle (@None ev) L (@nil nat).
    + intros u b Hu Hb. apply fset_ne. intros <-. apply (Nu u Hu Hb).
    + intros b. unfold fset. destruct (a =? b); [congruence|auto].
    + intros b [Hb|[<-|Hb]]; auto. right. right. apply fset_eq.
  - (* DCheck *) destruct (load stale s) eqn:El; injection H as <-; [|quiet]. quiet. 
    injection K as <-. unfold load in El. apply andb_prop in El. split; [apply HC, Hs, El|auto].
  - destruct (lock s); [discriminate|]. injection H as <-. quiet.
  - (* DBody *) destruct (flag s) eqn:Ef; [injection H as <-; quiet|].
    assert (Hin : In a L) by auto.
    destruct (dll_unlink _ _ _ a Dl Nl Hin) as (i & hd' & m' & Hi & El & Dl' & Fr & Mo).
    rewrite El in H. cbn [bind] in H. injection H as <-. upd (DUnlock a) (@None ev) (cut_at i L) [a].
    all: assert (Cut := cut_in i L a Hi Nl).
    + apply cut_nodup; [apply nth_error_Some; congruence|exact Nl].
    + split; [reflexivity|]. rewrite Fr by (left; reflexivity). destruct Dl as [_ D]. rewrite (D i a Hi). discriminate.
    + constructor; [intros []|constructor].
    + intros b [Hb|[<-|[]]]; [apply Cut in Hb; tauto|auto].
    + intros b [<-|[]] Hb. apply Cut in Hb. tauto.
    + intros u b Hu Hb. apply Fr. right. apply (Ful u b Hb).
    + intros b [Hb|[]]. destruct (Nat.eq_dec b a) as [->|Hn]; [right; left; left; reflexivity|]. left. apply Cut. auto.
    + intros K. destruct (K (ML eq_refl eq_refl eq_refl)).
    + intros K. split; [exact K|]. split.
      * intros b [Hb|Hb]; [|discriminate]. apply Cut. split; [apply Hl; auto|]. intros ->. apply (Hhd a eq_refl Hb).
      * intros b Hb Hn. f_equal. destruct (Nat.eq_dec b a) as [->|Hne]; [reflexivity|]. destruct Hn. apply Cut. auto.
    + intros b [Hb|[]]. apply Cut in Hb. tauto.
    + intros b [K|K]; [|discriminate]. injection K as <-. right. split; [exact Hin|]. exists [], (tr s). auto.
    + intros b [Hb|[]]. destruct (Nat.eq_dec b a) as [->|Hn]; [|left; apply Cut; auto]. right. right. right. exists [], (tr s). auto.
  - (* DUnlockGone *) injection H as <-. quiet. injection K as <-. split; [apply HC, LA; reflexivity|auto].
  - injection H as <-. quiet. injection K as <-. auto.
  - (* DFree *) destruct Tk as [Eo Tk]. mine Dsl Fu Eo a. destruct (heap s a) eqn:Em; [|discriminate]. injection H as <-. upd Idle (Some (EvDropped a)) L (@nil nat).
    + intros u b Hu Hb. apply fset_ne. intros <-. apply (Nu u Hu Hb).
    + intros b. unfold fset. destruct (a =? b); [congruence|auto].
    + intros b [Hb|[<-|Hb]]; auto. right. right. apply fset_eq.
  - destruct (lock s); [discriminate|]. injection H as <-. quiet.
  - injection H as <-. quiet.
  - injection H as <-. quiet.
Qed.

(** ** Consequences *)
Lemma reach_inv s : reach s -> inv_lock s /\ inv2 s /\ exists L own, inv3 s L own.
Proof.
  induction 1 as [|s t c s' _ (IL & I2 & L & own & I3) H].
  - split; [|split].
    + intros t. cbn. split; discriminate.
    + constructor; cbn; try discriminate; try congruence; [exact Logic.I|]. intros _ [e []].
    + exists [], (fun _ => []). apply inv3_init.
  - split; [eapply lock_step; eassumption|]. split; [eapply inv2_step; eassumption|].
    destruct (inv3_step s t c s' L own IL I2 I3 H) as (L' & o' & I'). eauto.
Qed.

Lemma safe_step s t c : reach s -> step s t c <> Undef.
Proof.
  intros R. destruct (reach_inv s R) as (IL & I2 & L & own & I).
  assert (ML : locked (pcs s t) = true -> is_cflag (pcs s t) = false -> flag s = false -> status s = None).
  { intros K1 K2 K3. destruct (status s) eqn:E; [|reflexivity]. exfalso. destruct (i_mid s I2 K3 ltac:(congruence)) as [u Hu].
    assert (lock s = Some t) by (apply IL, K1). assert (lock s = Some u) by (apply IL; destruct (pcs s u); try discriminate; reflexivity).
    assert (u = t) by congruence. congruence. }
  assert (Tk := n_tok s L own I t). assert (Dl := n_dll s L own I). assert (Nl := n_nd s L own I). assert (Dsl := n_disl s L own I t).
  assert (Hh : status s = None -> forall a, held (pcs s t) = Some a -> In a L).
  { intros K a Ha. apply (n_hl s L own I K). right. exists t. exact Ha. }
  unfold step. destruct (pcs s t) eqn:Ep; cbn [tok held locked is_cflag] in *;
    [|destruct c; [discriminate|discriminate|discriminate|discriminate|discriminate|discriminate|]; cbn [continue]; unfold acquire, release, ok ..].
  - destruct c as [[e|]| |a|a| |stale|stale]; cbn [start]; try discriminate; destruct (owns a s); discriminate.
  - discriminate.
  - destruct (lock s); discriminate.
  - destruct (status s); discriminate.
  - discriminate.
  - discriminate.
  - destruct n as [a|]; [|discriminate]. destruct (own t); [discriminate|]. destruct Tk as (E & k & Em & _). injection E as <-. rewrite Em. discriminate.
  - destruct Tk as (k & r & _ & -> & _). discriminate.
  - discriminate.
  - discriminate.
  - discriminate.
  - destruct (lock s); discriminate.
  - destruct (flag s) eqn:Ef; [discriminate|]. destruct Tk as [Eo Em].
    destruct (dll_link _ _ _ a Dl Nl) as (m' & -> & _); [apply Dsl; rewrite Eo; left; reflexivity|exact Em|]. discriminate.
  - discriminate.
  - discriminate.
  - destruct Tk as [_ Tk]. destruct (heap s a); [discriminate|destruct (Tk eq_refl)].
  - destruct Tk as [_ Tk]. destruct (heap s a); [discriminate|destruct (Tk eq_refl)].
  - destruct (load stale s); discriminate.
  - destruct (lock s); discriminate.
  - destruct (flag s) eqn:Ef; [discriminate|].
    assert (Hin : In a L) by (apply Hh; auto). destruct (dll_unlink _ _ _ a Dl Nl Hin) as (i & hd' & m' & _ & -> & _). discriminate.
  - discriminate.
  - discriminate.
  - destruct Tk as [_ Tk]. destruct (heap s a); [discriminate|destruct (Tk eq_refl)].
  - destruct (lock s); discriminate.
  - discriminate.
  - discriminate.
Qed.

Lemma step_tr s t c s' : step s t c = Next s' -> exists oe, tr s' = hist oe (tr s) /\
  (fresh s' = fresh s /\ (forall a, oe <> Some (EvStart a)) \/ fresh s' = S (fresh s) /\ oe = Some (EvStart (fresh s))).
Proof.
  intros H. step_cases H; try solve [exists None; split; [reflexivity|left; split; [reflexivity|discriminate]]];
    match goal with |- exists _, ?e :: _ = _ /\ _ => exists (Some e) end; (split; [reflexivity|]);
    try solve [left; split; [reflexivity|discriminate]]. right. split; reflexivity.
Qed.
Lemma reach_start s : reach s -> forall a, a < fresh s <-> In (EvStart a) (tr s).
Proof.
  induction 1 as [|s t c s' R IH H]; intros a; [cbn; split; [lia|intros []]|].
  destruct (step_tr s t c s' H) as (oe & E & [[F N]|[F ->]]); rewrite E, F, in_hist.
  - rewrite IH. split; [auto|]. intros [K|K]; [destruct (N a K)|exact K].
  - split.
    + intros K. assert (a = fresh s \/ a < fresh s) as [->|K2] by lia; [left; reflexivity|right; apply IH, K2].
    + intros [K|K]; [injection K as <-; lia|]. apply IH in K. lia.
Qed.
Lemma reach_past s q p : reach s -> tr s = q ++ p -> exists s0, reach s0 /\ tr s0 = p.
Proof.
  intros R. revert q p. induction R as [|s t c s' R IH H]; intros q p E.
  - cbn in E. destruct q, p; try discriminate. exists init. split; [constructor|reflexivity].
  - destruct (step_tr s t c s' H) as (oe & Et & _). destruct oe as [e|]; cbn [hist] in Et.
    + destruct q as [|x q]; cbn in E; [exists s'; split; [eapply reach_step; eassumption|exact E]|].
      apply (IH q p). congruence.
    + apply (IH q p). congruence.
Qed.
Lemma wf_tr_at q e p : wf_tr (q ++ e :: p) ->
  match e with
  | EvCancel _ => ~ cancelled p
  | EvCall _ => cancelled p
  | EvPoll b => b = true -> cancelled p
  | EvStatus None => ~ cancelled p
  | EvStatus (Some c) => In (EvCancel c) p
  | _ => True
  end.
Proof. induction q as [|x q IH]; cbn [app wf_tr]; [intros [_ H]; exact H|intros [H _]; apply IH, H]. Qed.

Lemma idle_own s L own : inv3 s L own -> quiescent s -> forall t, own t = [].
Proof. intros I Q t. pose proof (n_tok s L own I t) as T. rewrite (Q t) in T. exact T. Qed.
Lemma destroy_sll l : forall m n, sll m n l -> NoDup l -> exists m', destroy (length l) m n = Some m' /\ forall a, m' a = if in_dec Nat.eq_dec a l then None else m a.
Proof.
  induction l as [|a r IH]; intros m n; cbn [sll length].
  - intros -> _. exists m. split; [reflexivity|]. intros b. destruct (in_dec Nat.eq_dec b []) as [[]|]; reflexivity.
  - intros (-> & k & E & S) N. cbn [destroy]. rewrite E. cbn [bind]. inversion N; subst.
    destruct (IH (fset m a None) (n_next k)) as (m' & Em & Hm); [|assumption|].
    + apply sll_frame with m; [|exact S]. intros b Hb. apply fset_ne. intros <-. contradiction.
    + exists m'. split; [exact Em|]. intros b. rewrite Hm. destruct (in_dec Nat.eq_dec b (a :: r)) as [[<-|K]|K].
      * destruct (in_dec Nat.eq_dec a r); [reflexivity|apply fset_eq].
      * destruct (in_dec Nat.eq_dec b r); [reflexivity|contradiction].
      * destruct (in_dec Nat.eq_dec b r) as [K2|K2]; [destruct K; right; exact K2|]. apply fset_ne. intros <-. apply K. left. reflexivity.
Qed.

(** ScopeGuard *)
Fixpoint chain (m : nat -> option (option nat * option nat)) (g : option nat) (st : list (nat * option nat)) : Prop :=
  match st with
  | [] => g = None
  | (a, c) :: r => g = Some a /\ exists p, m a = Some (c, p) /\ chain m p r
  end.
Lemma chain_frame m m' st : forall g, (forall a, In a (map fst st) -> m' a = m a) -> chain m g st -> chain m' g st.
Proof.
  induction st as [|[a c] r IH]; intros g F; cbn [chain]; [auto|]. intros (-> & p & E & H). split; [reflexivity|]. exists p. rewrite F by (left; reflexivity).
  split; [exact E|]. apply IH; [|exact H]. intros b Hb. apply F. right. exact Hb.
Qed.
Definition top_ctx (st : list (nat * option nat)) : option nat := match st with (_, c) :: _ => c | [] => None end.
Lemma gsteps_scopes l : forall s st st', chain (t_guards s) (t_guard s) st -> NoDup (map fst st) -> t_ctx s = top_ctx st -> scopes st l = Some st' ->
  exists s', gsteps s l = Some s' /\ t_ctx s' = top_ctx st' /\ t_guard s' = hd_error (map fst st').
Proof.
  induction l as [|o l IH]; intros s st st' C N T E; cbn [scopes gsteps] in *.
  - injection E as <-. exists s. split; [reflexivity|]. split; [exact T|]. destruct st as [|[a c] r]; cbn in *; [exact C|apply C].
  - destruct o as [a c|a]; cbn [gstep].
    + destruct (existsb _ st) eqn:Ex; [discriminate|]. unfold guard_ctor, update_tls. cbn [t_guards]. rewrite fset_eq. cbn [bind].
      assert (Na : ~ In a (map fst st)).
      { intros K. apply in_map_iff in K. destruct K as ([b d] & <- & K). assert (existsb (fun e => b =? fst e) st = true) as X; [|cbn in Ex; congruence].
        apply existsb_exists. exists (b, d). split; [exact K|apply Nat.eqb_refl]. }
      apply IH with ((a, c) :: st); [|constructor; assumption|reflexivity|exact E]. cbn [t_guards t_guard chain]. split; [reflexivity|].
      exists (t_guard s). split; [apply fset_eq|]. apply chain_frame with (t_guards s); [|exact C]. intros b Hb. apply fset_ne. intros <-. contradiction.
    + destruct st as [|[b c] r]; [discriminate|]. destruct (Nat.eqb_spec a b) as [<-|]; [|discriminate]. cbn [chain] in C. destruct C as (Eg & p & Em & C).
      unfold guard_dtor. rewrite Em, Eg. cbn [bind]. rewrite Nat.eqb_refl. cbn [guard bind].
      cbn [map fst] in N. inversion N as [|? ? Na N']; subst.
      assert (U : exists s1, update_tls p s = Some s1 /\ t_guards s1 = t_guards s /\ t_guard s1 = p /\ t_ctx s1 = top_ctx r).
      { destruct r as [|[b d] r']; cbn [chain] in C.
        - subst p. eexists. split; [reflexivity|]. repeat split.
        - destruct C as (-> & p2 & Em2 & _). cbn [update_tls]. rewrite Em2. cbn [bind]. eexists. split; [reflexivity|]. repeat split. }
      destruct U as (s1 & -> & G1 & G2 & G3). cbn [bind]. apply IH with r; [|exact N'|exact G3|exact E].
      cbn [t_guards t_guard]. rewrite G1, G2. apply chain_frame with (t_guards s); [|exact C]. intros b Hb. apply fset_ne. intros <-. contradiction.
Qed.
