(** C25: RefcountPtr. *)
From Verif Require Import Base Ref_Model Ref_Spec Ref_Proofs.

Fixpoint exec (s : st) (l : list (nat * op)) : option st :=
  match l with
  | [] => Some s
  | (t, c) :: r => match step s t c with Next s1 => exec s1 r | _ => None end
  end.
Lemma exec_reach l : forall s s', reach s -> exec s l = Some s' -> reach s'.
Proof.
  induction l as [|[t c] r IH]; intros s s' R E; cbn in E; [injection E as <-; exact R|].
  destruct (step s t c) as [| |s1] eqn:Es; try discriminate. apply (IH s1 s'); [eapply reach_step; eassumption|exact E].
Qed.
(** Two threads; thread 0 makes a chain of three objects, copies the head for thread 1, then
    both of them walk the chain by [x = x->next] at the same time. *)
Definition walk (t : nat) : list (nat * op) := [(t, OAssign 0 (SField 0 0))].
Definition script : list (nat * op) :=
  [(0, OSpawn 3); (0, OSpawn 2); (0, OMake 0 []); (0, OMake 1 [0]); (0, OMake 0 [1]); (0, OCopy 1 (SVar 0)); (0, Go false); (0, OSend 1 1 0)] ++
  walk 0 ++ walk 1 ++ [(1, Go false); (0, Go false); (0, Go true); (1, Go false); (0, Go false)].
Example script_mid : option_map (fun s => (map (option_map cnt) (objs s), map work (ths s), dels s)) (exec init script) =
  Some ([Some 1%Z; Some 3%Z; Some 0%Z], [[WDel 2]; []], []).
Proof. vm_compute. reflexivity. Qed.
Definition script2 : list (nat * op) := script ++ [(0, Go false); (0, Go true); (0, Go true); (0, Go false)] ++
  [(0, OReset 0); (0, Go false); (1, OReset 0); (1, Go true)].
Example script_end : option_map (fun s => (map (option_map cnt) (objs s), map work (ths s), dels s)) (exec init script2) =
  Some ([Some 1%Z; Some 1%Z; None], [[]; [WDel 1]], [2]).
Proof. vm_compute. reflexivity. Qed.
Definition script3 : list (nat * op) := script2 ++ repeat (1, Go true) 5.
Example script_all : option_map (fun s => (objs s, ths s, dels s)) (exec init script3) =
  Some ([None; None; None], [mkTh [None; None; None] []; mkTh [None; None] []], [0; 1; 2]).
Proof. vm_compute. reflexivity. Qed.

(** No interleaving uses an object after its memory was released, or releases it twice. *)
Theorem C25_safe s t c : reach s -> step s t c <> Undef.
Proof. intros R. apply (inv_step s t c (reach_inv s R)). Qed.
Print Assumptions C25_safe.

Lemma handles_refs s o : handles_to s o <= refs s o.
Proof.
  unfold handles_to, refs. assert (G : forall l, list_sum (map (fun th => occ o (vars th)) l) <= sm (fr o) l).
  { induction l as [|x r IH]; [apply le_n|]. rewrite sm_cons. cbn [map]. change (list_sum (?a :: ?b)) with (a + list_sum b). unfold fr at 1. lia. }
  specialize (G (ths s)). unfold sm, fo in *. lia.
Qed.
(** While there is a handle to an object (also in the middle of operations), the object is
    alive and its destructor has not started. *)
Theorem C25_alive s o : reach s -> 1 <= handles_to s o -> (exists ob, rd (objs s) o = Some (Some ob)) /\ ~ In o (dels s).
Proof.
  intros R H. pose proof (reach_inv s R) as I. pose proof (handles_refs s o). destruct (ref_live s o I ltac:(lia)) as [ob L]. split; [exists ob; exact L|].
  rewrite (v_del s I o). destruct (ref_ok s o ob I ltac:(lia) L) as (_ & F & _). unfold live in L. rewrite L. intros (_ & [K|K]); [discriminate|lia].
Qed.
Print Assumptions C25_alive.

(** A destructor runs at most once. *)
Theorem C25_once s : reach s -> NoDup (dels s).
Proof. intros R. apply (v_nd s (reach_inv s R)). Qed.
Print Assumptions C25_once.

Lemma idle_sums s : idle s -> forall o, refs s o = handles_to s o /\ incs s o = 0 /\ delp s o = 0 /\ frees s o = 0.
Proof.
  intros Q o. assert (E : forall th, In th (ths s) -> fr o th = occ o (vars th) /\ fi o th = 0 /\ fd o th = 0 /\ ff o th = 0).
  { intros th H. unfold fr, fi, fd, ff. rewrite (Q th H). change (sm _ []) with 0. rewrite Nat.add_0_r. auto. }
  split; [|unfold incs, delp, frees; split; [|split]; apply sm_zero; intros a Ha; apply (E a Ha)].
  unfold refs, handles_to. change (sm (fo o) (objs s)) with (list_sum (map (fun x => match x with Some ob => occ o (flds ob) | None => 0 end) (objs s))). f_equal.
  unfold sm. f_equal. apply map_ext_in. intros a Ha. apply (E a Ha).
Qed.
(** When all operations have returned, the counter of an object is the number of its
    handles, at least one, and all other objects were destroyed and released. *)
Theorem C25_count s o : reach s -> idle s -> o < length (objs s) ->
  match rd (objs s) o with
  | Some (Some ob) => cnt ob = Z.of_nat (handles_to s o) /\ 1 <= handles_to s o /\ ~ In o (dels s)
  | _ => handles_to s o = 0 /\ In o (dels s)
  end.
Proof.
  intros R Q Ho. pose proof (reach_inv s R) as I. destruct (idle_sums s Q o) as (E1 & E2 & E3 & E4). destruct (rd (objs s) o) as [[ob|]|] eqn:E.
  - destruct (v_live s I o ob E) as [K|(K1 & K2 & K3)]; [lia|]. split; [lia|]. split; [lia|]. apply C25_alive; [exact R|lia].
  - destruct (v_dead s I o) as (_ & _ & K & _); [intros ob K; unfold live in K; congruence|]. split; [lia|]. apply (v_del s I o). auto.
  - apply rd_None_ge in E. lia.
Qed.
Print Assumptions C25_count.

Lemma handles_in s o : 1 <= handles_to s o -> (exists th, In th (ths s) /\ In (Some o) (vars th)) \/ (exists p ob, rd (objs s) p = Some (Some ob) /\ In (Some o) (flds ob)).
Proof.
  intros H. unfold handles_to in H. destruct (Nat.eq_dec (list_sum (map (fun th => occ o (vars th)) (ths s))) 0) as [E|E].
  - right. rewrite E in H. destruct (sm_pos (fo o) (objs s)) as (p & x & Hp & Hx); [unfold sm, fo; lia|]. destruct x as [ob|]; cbn [fo] in Hx; [|lia].
    exists p, ob. split; [exact Hp|]. apply occ_in, Hx.
  - left. destruct (sm_pos (fun th => occ o (vars th)) (ths s)) as (t & th & Ht & Hx); [unfold sm; lia|]. exists th. split; [eapply nth_error_In; exact Ht|apply occ_in, Hx].
Qed.
(** When all operations have returned, exactly the objects that are reachable from the
    variables are alive: no leak.  (Objects are created after the objects of their
    handles, so there are no cycles.) *)
Theorem C25_no_leak s o : reach s -> idle s -> reachable s o <-> exists ob, rd (objs s) o = Some (Some ob).
Proof.
  intros R Q. pose proof (reach_inv s R) as I. split.
  - intros H. destruct H as [th o Ht Hv|p ob o Hp L Hin].
    + apply In_nth_error in Ht. destruct Ht as [t Ht]. pose proof (th_refs s t th o Ht) as G. apply occ_in in Hv. unfold fr in G. apply (ref_live s o I). lia.
    + pose proof (fld_refs s p ob o L Hin). apply (ref_live s o I). unfold refs. lia.
  - assert (G : forall n a ob, length (objs s) - a <= n -> rd (objs s) a = Some (Some ob) -> reachable s a).
    { induction n as [|n IH]; intros a ob Hn L; pose proof (rd_Some_lt _ _ _ L) as La; [lia|].
      pose proof (C25_count s a R Q La) as C. rewrite L in C. destruct C as (_ & C & _). destruct (handles_in s a C) as [(th & Ht & Hv)|(p & op & Lp & Hin)]; [eapply r_var; eassumption|].
      apply r_fld with p op; [|exact Lp|exact Hin]. pose proof (v_acyc s I p op a Lp Hin). apply (IH p op); [lia|exact Lp]. }
    intros [ob L]. apply (G (length (objs s)) o ob); [lia|exact L].
Qed.
Print Assumptions C25_no_leak.
Corollary C25_all_freed s : reach s -> idle s -> (forall th, In th (ths s) -> forall h, In h (vars th) -> h = None) ->
  forall o, o < length (objs s) -> rd (objs s) o = Some None /\ In o (dels s).
Proof.
  intros R Q V o Ho. pose proof (C25_count s o R Q Ho) as C. destruct (rd (objs s) o) as [[ob|]|] eqn:E; [|split; [reflexivity|apply C]|apply rd_None_ge in E; lia].
  exfalso. assert (H : reachable s o) by (apply C25_no_leak; [exact R|exact Q|exists ob; exact E]). clear - H V. induction H as [th o Ht Hv|p ob o Hp IH L Hin]; [|exact IH].
  discriminate (V th Ht _ Hv).
Qed.
Print Assumptions C25_all_freed.

(** An operation always can go on, and the cascade of destructors ends. *)
Theorem C25_progress s t th b : reach s -> rd (ths s) t = Some th -> work th <> [] -> exists s', step s t (Go b) = Next s'.
Proof.
  intros R Ht Hw. pose proof (C25_safe s t (Go b) R) as S0. unfold step in *. rewrite Ht in *. destruct (work th) as [|w rest]; [congruence|].
  destruct w; cbn [continue] in *; unfold fetch_sub, with_obj in *; try (destruct b); destruct (rd (objs s) o) as [[ob|]|]; try congruence; eauto.
Qed.
Print Assumptions C25_progress.
Definition weight (w : item) : nat := match w with WInc _ | WFree _ => 1 | WDel _ => 3 | WSub _ => 4 | WDec _ => 5 end.
Definition measure (s : st) : nat :=
  sm (fun th => sm weight (work th)) (ths s) + sm (fun x => match x with Some ob => 5 * length (flds ob) | None => 0 end) (objs s).
Theorem C25_terminates s t b s' : step s t (Go b) = Next s' -> measure s' < measure s.
Proof.
  intros H. unfold step in H. destruct (rd (ths s) t) as [th|] eqn:Ht; [|discriminate]. destruct (work th) as [|w rest] eqn:Hw; [discriminate|].
  set (f := fun th0 => sm weight (work th0)). set (g := fun x => match x with Some ob => 5 * length (flds ob) | None => 0 end).
  assert (Mt : forall th', sm f (set_nth (ths s) t th') + (weight w + sm weight rest) = sm f (ths s) + sm weight (work th')).
  { intros th'. pose proof (sm_set f (ths s) t th th' Ht) as K. unfold f in K at 2 4. rewrite Hw, sm_cons in K. exact K. }
  assert (Mo : forall o ob x, rd (objs s) o = Some (Some ob) -> sm g (set_nth (objs s) o x) + 5 * length (flds ob) = sm g (objs s) + g x).
  { intros o ob x Ho. exact (sm_set g (objs s) o (Some ob) x Ho). }
  assert (Dw : forall l, sm weight (flat_map decs_of l) <= 5 * length l).
  { induction l as [|h l IH]; [apply le_n|]. cbn [flat_map length]. rewrite sm_app. destruct h; cbn [decs_of]; rewrite ?sm_cons; change (sm weight []) with 0; cbn [weight]; lia. }
  assert (Gs : forall ob, g (Some ob) = 5 * length (flds ob)) by reflexivity. assert (Gn : g None = 0) by reflexivity.
  unfold measure. fold f g. clearbody f g.
  destruct w as [o|o|o|o|o]; cbn [continue] in H; unfold fetch_sub, with_obj in H; try (destruct b); destruct (rd (objs s) o) as [[ob|]|] eqn:Eo; try discriminate; injection H as <-; unfold put; cbn [ths objs];
    match goal with |- context [set_nth (ths s) t ?x] => pose proof (Mt x) as K1 end; cbn [work weight] in K1;
    try match goal with |- context [set_nth (objs s) ?a ?x] => pose proof (Mo a ob x Eo) as K2; rewrite ?Gs, ?Gn in K2; cbn [flds] in K2 end;
    try (destruct (cnt ob =? 1)%Z); cbn [app] in K1 |- *; rewrite ?sm_app, ?sm_cons in K1; cbn [weight] in K1; try (change (sm weight []) with 0 in K1); try lia.
  all: pose proof (Dw (rev (flds ob))) as K3; rewrite rev_length in K3; cbn [length] in K2; lia.
Qed.
Print Assumptions C25_terminates.

(** The examples meet the hypotheses. *)
Example script_idle : exists s, exec init script3 = Some s /\ reach s /\ idle s /\ (forall th, In th (ths s) -> forall h, In h (vars th) -> h = None) /\ length (objs s) = 3.
Proof.
  eexists. split; [vm_compute; reflexivity|]. split; [apply (exec_reach script3 init); [constructor|vm_compute; reflexivity]|].
  split; [intros th [<-|[<-|[]]]; reflexivity|]. split; [|reflexivity]. intros th [<-|[<-|[]]] h K; cbn in K; intuition congruence.
Qed.
Example script_alive : exists s, exec init script = Some s /\ reach s /\ handles_to s 1 = 3 /\ handles_to s 2 = 0.
Proof.
  eexists. split; [vm_compute; reflexivity|]. split; [apply (exec_reach script init); [constructor|vm_compute; reflexivity]|]. split; vm_compute; reflexivity.
Qed.
