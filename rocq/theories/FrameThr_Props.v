(** C55: iterating over rows with several threads. *)
From Coq Require Import Permutation.
From Verif Require Import Base Bits_Model Bitmap_Model Dense_Model Dense_Spec IdFilter_Model Array_Model Array_Spec Array_Props
  FrameIter_Model FrameIter_Spec FrameIter_Main FrameIter_Props FrameThr_Model FrameThr_Spec FrameThr_Proofs FrameThr_Run.

Section C55.
Context {F C : Type} (preload : nat -> C -> list F -> option (C * list F)) (save : nat -> C -> list F -> option C) (fn : F -> F) (T n : nat) (c0 : C) (fs0 : list F) (fuel : nat) (cE : C) (fsE : list F).
Hypothesis T1 : 0 < T.
Hypothesis Pl : forall k c fs c' fs', preload k c fs = Some (c', fs') -> length fs' = length fs.
(** ForEachFrame without threads ends in [(cE, fsE)]. *)
Hypothesis Fe : for_each preload save fn fuel n 0 c0 fs0 = Finished (cE, fsE).
Notation runs := (runs F C preload save fn T n). Notation step := (step F C preload save fn T n).

(** No step is undefined: no barrier is used after it was freed, blocked on by too many
    threads or left too often, and no access is out of bounds.  No two threads are about to
    access the same memory in conflicting ways. *)
Theorem C55_safe k s : runs k (start F C T c0 fs0) s -> (forall w, step s w <> Undef F C) /\ ~ race T n s.
Proof.
  intros H. pose proof (inv_runs preload save fn T n (length fs0) T1 c0 fs0 fuel cE fsE Pl eq_refl Fe k s H) as I. split.
  - intros w E. assert (G : good preload save fn T n (length fs0) c0 fs0 (step s w)) by (apply step_ok; [exact T1|eapply Sq; [exact T1|exact Pl|reflexivity|exact Fe]|exact I]). rewrite E in G. exact G.
  - exact (no_race preload save fn T n (length fs0) T1 c0 fs0 cE fsE Pl eq_refl s I).
Qed.
(** No deadlock: unless all threads have returned, one can take a step. *)
Theorem C55_progress k s : runs k (start F C T c0 fs0) s -> finished s \/ exists w s', step s w = Next F C s'.
Proof.
  intros H. pose proof (inv_runs preload save fn T n (length fs0) T1 c0 fs0 fuel cE fsE Pl eq_refl Fe k s H) as I.
  exact (progress preload save fn T n (length fs0) T1 c0 fs0 fuel cE fsE Pl eq_refl Fe s I).
Qed.
(** Every execution ends. *)
Theorem C55_terminates k s : runs k (start F C T c0 fs0) s -> k <= T * (n * (10 + (length fs0 + T - 1) / T) + 1).
Proof. intros H. pose proof (runs_bound preload save fn T n (length fs0) T1 c0 fs0 fuel cE fsE Pl eq_refl Fe k s H) as X. unfold fpw in X. lia. Qed.
(** All executions end with the result of the loop without threads. *)
Theorem C55_result k s : runs k (start F C T c0 fs0) s -> finished s -> cps F C s = cE /\ frs F C s = fsE.
Proof. intros H Fi. pose proof (runs_result preload save fn T n (length fs0) T1 c0 fs0 fuel cE fsE Pl eq_refl Fe k s H Fi) as X. injection X as E1 E2. auto. Qed.
End C55.
Print Assumptions C55_safe.
Print Assumptions C55_progress.
Print Assumptions C55_terminates.
Print Assumptions C55_result.

Lemma set_cells_len {A} ws : forall (fs fs' : list (frame A)) k, set_cells A fs k ws = Some fs' -> length fs' = length fs.
Proof.
  induction ws as [|[i c] ws IH]; intros fs fs' k E; cbn [set_cells] in E; [congruence|]. destruct (set_cell A fs i k c) as [f1|] eqn:E1; [|discriminate]. cbn [bind] in E. rewrite (IH _ _ _ E).
  unfold set_cell in E1. destruct (rd fs i) as [f|]; [|discriminate]. cbn [bind] in E1. destruct (upd f k c) as [f'|]; [|discriminate]. cbn [bind] in E1. exact (upd_len _ _ _ _ E1).
Qed.
Lemma copy_maps_len {A} (dflt : A) ms : forall row k fs fs', copy_maps A dflt ms row k fs = Some fs' -> length fs' = length fs.
Proof.
  induction ms as [|[s sl] ms IH]; intros row k fs fs' E; cbn [copy_maps] in E; [congruence|]. destruct (writes A dflt s (sl_opt sl) row k) as [ws|]; [|discriminate]. cbn [bind] in E.
  destruct (set_cells A fs (sl_id sl) ws) as [f1|] eqn:E1; [|discriminate]. cbn [bind] in E. rewrite (IH _ _ _ _ E). exact (set_cells_len _ _ _ _ E1).
Qed.
Lemma ics_next_len {A} (dflt : A) cs : forall fs cs' fs', ics_next A dflt cs fs = Some (cs', fs') -> length fs' = length fs.
Proof.
  induction cs as [|c cs IH]; intros fs cs' fs' E; cbn [ics_next] in E; [congruence|]. destruct (ic_next A dflt c fs) as [[c1 f1]|] eqn:E1; [|discriminate]. cbn [bind] in E. destruct (ics_next A dflt cs f1) as [[r f2]|] eqn:E2; [|discriminate]. cbn [bind] in E. injection E as <- <-. rewrite (IH _ _ _ E2).
  unfold ic_next in E1. destruct (copy_maps A dflt (ic_maps A c) (ic_row A c) (length fs) fs) as [f3|] eqn:E3; [|discriminate]. cbn [bind] in E1. injection E1 as _ <-. exact (copy_maps_len _ _ _ _ _ _ E3).
Qed.
Lemma preload_len {A} (dflt : A) k c fs c' fs' : preload A dflt k c fs = Some (c', fs') -> length fs' = length fs.
Proof.
  unfold preload. destruct (Nat.leb_spec k (length fs)) as [X|X]; [|discriminate]. destruct (ics_next A dflt (fst c) (firstn k fs)) as [[cs f1]|] eqn:E; [|discriminate]. cbn [bind]. intros H. injection H as _ <-.
  apply ics_next_len in E. rewrite firstn_length in E. rewrite app_length, skipn_length. lia.
Qed.

(** The whole: with any number of threads the output arrays consist of the computed rows. *)
Theorem C55_frame_iterator {A} (dflt : A) alloc allocw iorder oorder arrays islots outs oslots fresh want buffer it
    (finit fn : frame A -> frame A) (Inv : frame A -> Prop) cols g T :
  alloc_sz alloc -> allocw_ok allocw -> (forall l, Permutation (iorder l) l) -> (forall l, Permutation (oorder l) l) ->
  create A alloc allocw iorder oorder arrays islots outs oslots fresh want buffer = Some it ->
  Forall2 (fun t l => column (ts_src A t) l) arrays cols ->
  NoDup (map sl_id islots) -> (forall s, In s islots -> sl_id s < length (finit fresh)) -> Inv (finit fresh) ->
  computes Inv islots oslots cols (it_rows A it) fn g ->
  (forall j s, nth_error oslots j = Some s -> sl_opt s = false -> forall i, i < it_rows A it -> nth j (g i) None <> None) ->
  buffer > 0 \/ it_rows A it = 0 -> 0 < T ->
  forall k s, runs _ _ (preload A dflt) (save A) fn T (it_rows A it) k (start _ _ T (it_cp A it) (map finit (it_frames A it))) s ->
  (forall w, step _ _ (preload A dflt) (save A) fn T (it_rows A it) s w <> Undef _ _) /\ ~ race T (it_rows A it) s /\
  ((exists w s', step _ _ (preload A dflt) (save A) fn T (it_rows A it) s w = Next _ _ s') \/
   length (store_output A (cps _ _ s)) = length outs /\
   forall j o, nth_error outs j = Some o -> exists v, In (as_id o, v) (store_output A (cps _ _ s)) /\ is_arr A v = as_arr o /\
    column v (map (fun i => nth j (g i) None) (seq 0 (it_rows A it)))).
Proof.
  intros Ha Hw IO OO Ec Fc Nd In1 Iv Cmp Nn Hb HT k s H.
  destruct (C54_for_each dflt alloc allocw iorder oorder arrays islots outs oslots fresh want buffer it finit fn Inv cols g Ha Hw IO OO Ec Fc Nd In1 Iv Cmp Nn Hb (it_rows A it) (le_n _)) as (c & fs & E & Q1 & Q2).
  unfold iterate_frames, custom_init in E. cbn [it_rows it_cp it_frames] in E.
  destruct (C55_safe _ _ fn T _ _ _ _ _ _ HT (preload_len dflt) E k s H) as [S1 S2]. split; [exact S1|]. split; [exact S2|].
  destruct (C55_progress _ _ fn T _ _ _ _ _ _ HT (preload_len dflt) E k s H) as [Fi|P]; [right|left; exact P].
  destruct (C55_result _ _ fn T _ _ _ _ _ _ HT (preload_len dflt) E k s H Fi) as [-> _]. auto.
Qed.
Print Assumptions C55_frame_iterator.

(** The example of C54 with three threads, scheduled by turns until nothing moves. *)
Fixpoint turns (fuel : nat) (it : iterator nat) (w : nat) (s : state (frame nat) (copiers nat)) : state (frame nat) (copiers nat) :=
  match fuel with
  | O => s
  | S k => match step _ _ (preload nat 0) (save nat) ex_fn 3 (it_rows nat it) s (w mod 3) with Next _ _ s' => turns k it (S w) s' | _ => turns k it (S w) s end
  end.
Example C55_ex :
  match ex_it with
  | Some it =>
    let s := turns 200 it 0 (start _ _ 3 (it_cp nat it) (it_frames nat it)) in
    (map snd (thr _ _ s), length (bars _ _ s),
     map (fun p => (fst p, map (match snd p with SD _ a => fun i => match da_get a i with Some o => o | None => None end | SA _ a => fun i => match ar_get a i with Some o => o | None => None end end) (seq 0 6))) (store_output nat (cps _ _ s)))
  | None => ([], 0, [])
  end = ([Done; Done; Done], 6, [(11, map Some [2; 2; 2; 0; 2; 2]); (10, [Some 8; Some 7; Some 10; None; Some 13; Some 13])]).
Proof. vm_compute. reflexivity. Qed.
