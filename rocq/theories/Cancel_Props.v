(** C24: CancellationContext. *)
From Verif Require Import Base Cancel_Model Cancel_Spec Cancel_Proofs.

(** A finite execution, for the examples. *)
Fixpoint exec (s : ctx) (l : list (nat * choice)) : option ctx :=
  match l with
  | [] => Some s
  | (t, c) :: r => match step s t c with Next s1 => exec s1 r | _ => None end
  end.
Lemma exec_reach l : forall s s', reach s -> exec s l = Some s' -> reach s'.
Proof.
  induction l as [|[t c] r IH]; intros s s' R E; cbn in E; [injection E as <-; exact R|].
  destruct (step s t c) as [| |s1] eqn:Es; try discriminate. apply (IH s1 s'); [eapply reach_step; eassumption|exact E].
Qed.
Definition go (t n : nat) : list (nat * choice) := repeat (t, Go false) n.
(** Thread 0 subscribes three callbacks, drops the second one and detaches the first one;
    thread 1 starts to subscribe a fourth one and is suspended before the mutex; thread 2
    cancels, thread 3 cancels with another error at the same time; then a thread drops the
    third subscription. *)
Definition script : list (nat * choice) :=
  ((0, OSubscribe) :: go 0 5) ++ ((0, OSubscribe) :: go 0 5) ++ ((0, OSubscribe) :: go 0 5) ++
  ((0, ODrop 1) :: go 0 5) ++ [(0, ODetach 0)] ++ ((1, OSubscribe) :: go 1 2) ++
  ((2, OCancel (Some 7%Z)) :: go 2 1) ++ ((3, OCancel (Some 9%Z)) :: go 3 1) ++ [(0, OPoll false)] ++ go 2 4 ++ go 1 3 ++ go 3 4 ++ go 2 5 ++
  [(4, OPoll true); (4, OPoll false)] ++ go 1 2 ++ ((0, ODrop 2) :: go 0 1) ++ ((4, OStatus) :: go 4 3).
Definition final : option ctx := exec init script.
Lemma final_reach s : final = Some s -> reach s.
Proof. unfold final. generalize script. intros l. apply exec_reach. constructor. Qed.
Example script_events : option_map (fun s => rev (tr s)) final =
  Some [EvStart 0; EvStart 1; EvStart 2; EvDrop 1; EvDropped 1; EvStart 3; EvPoll false; EvCancel 7; EvCall 2; EvCall 0;
        EvPoll false; EvPoll true; EvCall 3; EvDrop 2; EvDropped 2; EvStatus (Some 7%Z)].
Proof. vm_compute. reflexivity. Qed.

(** No interleaving dereferences a freed node or frees a node twice. *)
Theorem C24_safe s t c : reach s -> step s t c <> Undef.
Proof. apply safe_step. Qed.
Print Assumptions C24_safe.

(** The first error wins: there is at most one cancellation, and it never changes. *)
Theorem C24_first_error s q e p : reach s -> tr s = q ++ EvCancel e :: p -> ~ cancelled p /\ ~ cancelled q.
Proof.
  intros R E. destruct (reach_inv s R) as (_ & I2 & _). pose proof (i_wf s I2) as W. rewrite E in W. split; [apply (wf_tr_at _ _ _ W)|].
  intros [e2 K]. apply in_split in K. destruct K as (q1 & q2 & ->). rewrite <- app_assoc in W. cbn [app] in W. apply wf_tr_at in W. apply W.
  exists e. apply in_or_app. right. left. reflexivity.
Qed.
Print Assumptions C24_first_error.

(** GetStatus returns the error of the cancellation, or OK when there was none yet. *)
Theorem C24_status s q r p : reach s -> tr s = q ++ EvStatus r :: p -> forall e, r = Some e <-> In (EvCancel e) p.
Proof.
  intros R E e. destruct (reach_inv s R) as (_ & I2 & _). pose proof (i_wf s I2) as W. rewrite E in W. apply wf_tr_at in W.
  destruct r as [d|].
  - split; [intros K; injection K as <-; exact W|]. intros K. f_equal. apply in_split in K. destruct K as (p1 & p2 & ->). rewrite app_comm_cons, app_assoc in E.
    destruct (C24_first_error s _ e p2 R E) as [N1 N2]. apply in_app_or in W. destruct W as [W|[W|W]].
    + destruct N2. exists d. apply in_or_app. right. right. exact W.
    + congruence.
    + destruct N1. exists d. exact W.
  - split; [discriminate|]. intros K. destruct W. exists e. exact K.
Qed.
Print Assumptions C24_status.

(** Cancelled() is never true before the cancellation, and it is true for any thread that
    reads the flag after Cancel has left its critical section. *)
Theorem C24_poll s q p : reach s -> tr s = q ++ EvPoll true :: p -> cancelled p.
Proof. intros R E. destruct (reach_inv s R) as (_ & I2 & _). pose proof (i_wf s I2) as W. rewrite E in W. apply wf_tr_at in W. apply W. reflexivity. Qed.
Print Assumptions C24_poll.
Theorem C24_poll_settled s t : reach s -> cancelled (tr s) -> lock s = None -> pcs s t = Idle ->
  exists s', step s t (OPoll false) = Next s' /\ tr s' = EvPoll true :: tr s.
Proof.
  intros R C E Ep. destruct (reach_inv s R) as (IL & I2 & _). unfold step. rewrite Ep. cbn [start]. eexists. split; [reflexivity|]. cbn [log tr].
  unfold load. destruct (flag s) eqn:F; [reflexivity|]. exfalso. destruct (status s) eqn:Es; [|apply (i_none s I2 Es C)].
  destruct (i_mid s I2 F) as [u Hu]; [congruence|]. assert (lock s = Some u) by (apply IL; destruct (pcs s u); try discriminate; reflexivity). congruence.
Qed.
Print Assumptions C24_poll_settled.

(** A callback is called at most once, after it was subscribed and after the cancellation. *)
Theorem C24_call_once s : reach s -> NoDup (calls (tr s)).
Proof. intros R. destruct (reach_inv s R) as (_ & _ & L & own & I). apply (n_nc s L own I). Qed.
Print Assumptions C24_call_once.
Theorem C24_call_after s q a p : reach s -> tr s = q ++ EvCall a :: p -> cancelled p /\ In (EvStart a) p.
Proof.
  intros R E. split.
  - destruct (reach_inv s R) as (_ & I2 & _). pose proof (i_wf s I2) as W. rewrite E in W. apply (wf_tr_at _ _ _ W).
  - destruct (reach_past s q (EvCall a :: p) R E) as (s0 & R0 & E0). destruct (reach_inv s0 R0) as (_ & _ & L & own & I).
    assert (K : In (EvStart a) (tr s0)). { apply (reach_start s0 R0). apply (n_evf s0 L own I). left. rewrite E0. left. reflexivity. }
    rewrite E0 in K. destruct K as [K|K]; [discriminate|exact K].
Qed.
Print Assumptions C24_call_after.

(** When all operations have returned and the context is cancelled, every subscribed
    callback was called, except for the ones whose subscription was dropped before the
    cancellation.  (Detached subscriptions are called.) *)
Theorem C24_call_all s a : reach s -> quiescent s -> cancelled (tr s) -> In (EvStart a) (tr s) ->
  In (EvCall a) (tr s) \/ before_cancel (EvDrop a) (tr s).
Proof.
  intros R Q C Ha. destruct (reach_inv s R) as (_ & I2 & L & own & I). destruct (n_started s L own I a Ha) as [K|[[t K]|[K|K]]]; auto; exfalso.
  - assert (L = []) as ->; [|destruct K]. apply (n_late s L own I). intros E. apply (i_none s I2 E C).
  - rewrite (Q t) in K. cbn in K. rewrite (idle_own s L own I Q t) in K. destruct K.
Qed.
Print Assumptions C24_call_all.

(** When the destructor of a subscription has returned before the cancellation, the
    callback is never called. *)
Theorem C24_drop s a : reach s -> before_cancel (EvDropped a) (tr s) -> ~ In (EvCall a) (tr s).
Proof. intros R K. destruct (reach_inv s R) as (_ & _ & L & own & I). apply (n_ed s L own I a K). Qed.
Print Assumptions C24_drop.

(** The mutex is free for the callback: a callback may use the context. *)
Theorem C24_call_unlocked s t c s' a : reach s -> step s t c = Next s' -> tr s' = EvCall a :: tr s -> lock s <> Some t /\ lock s' = lock s.
Proof.
  intros R H E. destruct (reach_inv s R) as (IL & _). assert (It := IL t).
  step_cases H; try (exfalso; clear -E; apply (f_equal (@length ev)) in E; cbn in E; lia); try discriminate E;
    (split; [intros K; apply It in K; try rewrite Ep in K; discriminate K|reflexivity]).
Qed.
Print Assumptions C24_call_unlocked.

(** No deadlock: while an operation is running, some thread can make a step. *)
Theorem C24_progress s : reach s -> (exists t, pcs s t <> Idle) -> exists t s', pcs s t <> Idle /\ step s t (Go false) = Next s'.
Proof.
  intros R [t Ht]. destruct (reach_inv s R) as (IL & _).
  assert (G : forall u, pcs s u <> Idle -> (lock s = None \/ locked (pcs s u) = true) -> exists s', step s u (Go false) = Next s').
  { intros u Hu Hl. pose proof (safe_step s u (Go false) R) as Sf. unfold step in *.
    destruct (pcs s u) eqn:Ep; cbn [continue locked] in *; unfold acquire, release, ok in *; try congruence;
      repeat match goal with
        | |- context [match ?c with _ => _ end] => destruct c eqn:?
        end; try congruence; try solve [eexists; reflexivity]; destruct Hl as [Hl|Hl]; congruence. }
  destruct (lock s) as [u|] eqn:El.
  - assert (Lu : locked (pcs s u) = true) by (apply IL; exact El). exists u.
    assert (pcs s u <> Idle) by (intros K; rewrite K in Lu; discriminate). destruct (G u) as [s' E]; [assumption|auto|]. exists s'. auto.
  - destruct (G t) as [s' E]; [exact Ht|auto|]. exists t, s'. auto.
Qed.
Print Assumptions C24_progress.

(** All nodes are released: by the cancellation, or else by the destructor of the context,
    which visits every node that is alive exactly once. *)
Theorem C24_no_leak s : reach s -> quiescent s ->
  (cancelled (tr s) -> forall a, heap s a = None) /\
  exists n m, destroy n (heap s) (head s) = Some m /\ forall a, m a = None.
Proof.
  intros R Q. destruct (reach_inv s R) as (_ & I2 & L & own & I).
  assert (H : forall a, heap s a <> None -> In a L).
  { intros a K. destruct (n_heap s L own I a K) as [X|[t X]]; [exact X|]. rewrite (idle_own s L own I Q t) in X. destruct X. }
  split.
  - intros C a. destruct (heap s a) eqn:E; [|reflexivity]. exfalso.
    assert (L = []) by (apply (n_late s L own I); intros Es; apply (i_none s I2 Es C)). specialize (H a). rewrite E, H0 in H. apply H. discriminate.
  - destruct (destroy_sll L (heap s) (head s) (dll_sll _ _ _ (n_dll s L own I)) (n_nd s L own I)) as (m & E & Hm).
    exists (length L), m. split; [exact E|]. intros a. rewrite Hm. destruct (in_dec Nat.eq_dec a L) as [|Hn]; [reflexivity|].
    destruct (heap s a) eqn:Ea; [|reflexivity]. destruct Hn. apply H. congruence.
Qed.
Print Assumptions C24_no_leak.

(** Scope guards that are destroyed in reverse order: the current context is the one of the
    innermost guard, and there is none when no guard is left. *)
Theorem C24_scope l st : scopes [] l = Some st ->
  exists s, gsteps tls0 l = Some s /\ t_ctx s = match st with (_, c) :: _ => c | [] => None end.
Proof.
  intros E. destruct (gsteps_scopes l tls0 [] st) as (s & Es & T & _); [reflexivity|constructor|reflexivity|exact E|]. exists s. split; [exact Es|].
  rewrite T. destruct st as [|[a c] r]; reflexivity.
Qed.
Print Assumptions C24_scope.
Example scope_ex : scopes [] [GPush 5 (Some 1); GPush 6 None; GPush 7 (Some 2); GPop 7; GPop 6] = Some [(5, Some 1)] /\
  option_map t_ctx (gsteps tls0 [GPush 5 (Some 1); GPush 6 None; GPush 7 (Some 2); GPop 7; GPop 6]) = Some (Some 1) /\
  gsteps tls0 [GPush 5 (Some 1); GPush 6 None; GPop 5] = None.
Proof. vm_compute. auto. Qed.

Example script_lock : option_map lock final = Some None.
Proof. vm_compute. reflexivity. Qed.
(** The example execution meets the hypotheses. *)
Example script_reach : exists s, final = Some s /\ reach s /\ cancelled (tr s) /\ lock s = None /\
  In (EvStart 3) (tr s) /\ before_cancel (EvDropped 1) (tr s) /\ calls (tr s) = [3; 0; 2].
Proof.
  pose proof script_events as D. destruct final as [s|] eqn:E; [|discriminate D]. exists s. split; [reflexivity|].
  split; [apply final_reach, E|].
  assert (T : tr s = [EvStatus (Some 7%Z); EvDropped 2; EvDrop 2; EvCall 3; EvPoll true; EvPoll false; EvCall 0; EvCall 2; EvCancel 7;
     EvPoll false; EvStart 3; EvDropped 1; EvDrop 1; EvStart 2; EvStart 1; EvStart 0]).
  { cbn [option_map] in D. assert (Y := f_equal (fun o => match o with Some l => rev l | None => [] end) D).
    cbn beta iota in Y. rewrite rev_involutive in Y. exact Y. }
  assert (K : lock s = None) by (pose proof script_lock as X; rewrite E in X; cbn [option_map] in X; congruence).
  rewrite T. split; [exists 7%Z; cbn; tauto|]. split; [exact K|]. split; [cbn; tauto|]. split; [|reflexivity].
  exists [EvStatus (Some 7%Z); EvDropped 2; EvDrop 2; EvCall 3; EvPoll true; EvPoll false; EvCall 0; EvCall 2; EvCancel 7],
    [EvPoll false; EvStart 3; EvDropped 1; EvDrop 1; EvStart 2; EvStart 1; EvStart 0].
  split; [reflexivity|]. split; [cbn; tauto|]. intros [e X]. cbn in X. repeat (destruct X as [X|X]; try discriminate X). exact X.
Qed.
