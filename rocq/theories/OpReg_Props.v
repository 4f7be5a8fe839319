(** C65: the registry of operators and generic operators. *)
From Coq Require Import Sorted.
From Verif Require Import Base Strings_Model Strings_Spec Strings_Proofs OpReg_Model OpReg_Conc OpReg_Spec OpReg_Proofs OpReg_Seq OpReg_Decay OpReg_Thr OpReg_Snap OpReg_Fresh.

(** Names of the examples: a, b, a.f, a.g, a.h, x. *)
Definition nA : name := [97]%Z. Definition nB : name := [98]%Z. Definition nAf : name := [97; 46; 102]%Z. Definition nAg : name := [97; 46; 103]%Z. Definition nX : name := [120]%Z.

(** Any sequence of registrations, removals and acquisitions, by one thread: the
    answers are those of a directory; the operators are listed once each, in the
    order of registration; every name means what was registered for it; the revision
    of a namespace is the number of changes inside it. *)
Theorem C65_sequential cs : exists r as_ ops h, exec_all empty_registry cs = Some (r, as_) /\ history cs as_ (ops, h) /\
  (forall a d, history cs a d -> a = as_ /\ d = (ops, h)) /\ listed r = map fst ops /\ NoDup (listed r) /\
  (forall n, implementation r n = find_op ops n) /\
  (forall n, match lookup r n with Some i => find_op ops n <> None /\ exists x, rd (recs r) i = Some x /\ r_name x = n | None => find_op ops n = None end) /\
  (forall n, match find_rec (recs r) n with Some i => rev_at r (Some i) = count_in n h | None => count_in n h = 0 end).
Proof. apply sequential. Qed.
Print Assumptions C65_sequential.
Theorem C65_encloses m n : enclosesb m n = true <-> encloses m n.
Proof. apply enclosesb_ok. Qed.
Print Assumptions C65_encloses.
Example C65_ex_sequential : exists r, exec_all empty_registry [CAcquire nA; CRegister nAf (Overload 1); CRegister nX (Plain 2); CRegister nAf (Plain 3); CRegister [46]%Z (Plain 3); CUnregister nAf; CRegister nAg (Overload 4)] =
    Some (r, [ANothing; ARegistered (inr nAf); ARegistered (inr nX); ARegistered (inl AlreadyExists); ARegistered (inl InvalidName); ANothing; ARegistered (inr nAg)]) /\
  listed r = [nX; nAg] /\ rev_at r (find_rec (recs r) nA) = 3 /\ rev_at r (find_rec (recs r) []) = 4 /\ rev_at r (find_rec (recs r) nAf) = 2.
Proof. eexists. vm_compute. repeat split. Qed.

(** Decaying ends always: with the operator at the end of the chain, with the first
    name that means nothing, or with an error exactly if the chain has no end. *)
Theorem C65_decay r o : exists d, decay r o = Some d /\ (forall x, d = Is x <-> leads (implementation r) o x) /\
  (forall n, d = NotFound n <-> breaks (implementation r) o n) /\ ((exists c, d = Circular c) <-> forall k, goes_on (implementation r) k o).
Proof. apply decay_iff. Qed.
Print Assumptions C65_decay.
Example C65_ex_decay : exists r as_, exec_all empty_registry [CRegister nA (Registered nB); CRegister nB (Registered nA); CRegister nAf (Registered nAg); CRegister nAg (Registered nX); CRegister nX (Plain 7)] = Some (r, as_) /\
  decay r (Registered nA) = Some (Circular (Registered nA)) /\ decay r (Registered nAf) = Some (Is (Plain 7)).
Proof. eexists _, _. vm_compute. repeat split. Qed.

(** GetOverload: several matches are an error that names them all, in order; else an
    overload that is not ready defers; else the match; else an error. *)
Theorem C65_select l : exists s, select l = Some s /\ match s with
  | Several i js => js <> [] /\ StronglySorted lt (i :: js) /\ forall j, In j (i :: js) <-> rd l j = Some (true, true)
  | NotReady => (forall i j, rd l i = Some (true, true) -> rd l j = Some (true, true) -> i = j) /\ exists i c, rd l i = Some (false, c)
  | Matched i => (forall j, rd l j = Some (true, true) <-> j = i) /\ forall j a c, rd l j = Some (a, c) -> a = true
  | NoOverload => (forall j, rd l j <> Some (true, true)) /\ forall j a c, rd l j = Some (a, c) -> a = true end.
Proof. exact (select_ok l). Qed.
Print Assumptions C65_select.
Example C65_ex_select : select [(true, false); (true, true); (false, true); (true, true)] = Some (Several 1 [3]) /\ select [(true, true); (false, true)] = Some NotReady /\ select [(true, false); (true, true)] = Some (Matched 1) /\ select [] = Some NoOverload.
Proof. vm_compute. repeat split. Qed.

(** The detector of circular calls: a call that would end gives its own answer; with
    finitely many tokens every call ends; the state of the thread is restored. *)
Theorem C65_detector_right {K R : Type} (dec : forall a b : K, {a = b} + {a <> b}) (bodies : K -> @body K R) (circular : K -> R) k x :
  answers bodies k x -> exists f, forall f', f <= f' -> call dec bodies circular f' (0, []) k = Some ((0, []), x).
Proof. intros H. destruct (answers_ev dec bodies circular k x H) as (f & E). exists f. intros f' L. apply (call_mono dec bodies circular f); [exact L|]. apply call_right; [exact E|intros u []]. Qed.
Print Assumptions C65_detector_right.
Theorem C65_detector_ends {K R : Type} (dec : forall a b : K, {a = b} + {a <> b}) (bodies : K -> @body K R) (circular : K -> R) (tokens : list K) k :
  (forall k k', In k tokens -> occurs_in k' (bodies k) -> In k' tokens) -> In k tokens ->
  exists x, call dec bodies circular (24 + length tokens + 1) (0, []) k = Some ((0, []), x).
Proof. intros C I. apply (call_ends dec bodies circular tokens C); [constructor|intros u []|exact I|]. unfold room, ignore_depth. cbn [length]. lia. Qed.
Print Assumptions C65_detector_ends.
Theorem C65_detector_restores {K R : Type} (dec : forall a b : K, {a = b} + {a <> b}) (bodies : K -> @body K R) (circular : K -> R) f s k s' x :
  call dec bodies circular f s k = Some (s', x) -> s' = s.
Proof. apply call_keeps. Qed.
Print Assumptions C65_detector_restores.
(** A chain of 30 ends with its value; a circle of 3 ends with the error. *)
Example C65_ex_detector : call Nat.eq_dec (fun k => match k with 0 => Return (inr 5) | S j => Call j (fun x => Return x) end) (fun k => @inl nat nat k) 40 (0, []) 30 = Some ((0, []), inr 5) /\
  call Nat.eq_dec (fun k => Call (match k with 0 => 1 | 1 => 2 | _ => 0 end) (fun x => Return x)) (fun k => @inl nat nat k) 40 (0, []) 0 = Some ((0, []), inl 0).
Proof. vm_compute. split; reflexivity. Qed.

(** One thread: a kept snapshot that is served again is what would be built now, if
    the overloads' chains were inside the namespace when it was built. *)
Theorem C65_snapshot ns g cs1 cs2 r1 r2 a1 a2 s : exec_all empty_registry cs1 = Some (r1, a1) -> exec_all r1 cs2 = Some (r2, a2) -> find_rec (recs r1) ns = Some g ->
  (forall n, In n (listed r1) -> in_namespace ns n = true -> through (implementation r1) (encloses ns) (Registered n)) ->
  build_snapshot r1 ns g = Some s -> get_snapshot r2 ns g (Some s) = build_snapshot r2 ns g /\ build_snapshot r2 ns g <> None.
Proof. apply snapshot_fresh. Qed.
Print Assumptions C65_snapshot.
Theorem C65_visit r ns n : exists l, visit r ns n = Some l /\ ((in_namespace ns n = false \/ implementation r n = None) -> l = []) /\
  (in_namespace ns n = true -> implementation r n <> None -> (exists k, l = [k] /\ leads (implementation r) (Registered n) (Overload k)) \/ l = [] /\ forall k, ~ leads (implementation r) (Registered n) (Overload k)).
Proof. apply visit_ok. Qed.
Print Assumptions C65_visit.
Theorem C65_namespace ns n : in_namespace ns n = true <-> exists rest, n = ns ++ 46%Z :: rest.
Proof. apply in_namespace_ok. Qed.
Print Assumptions C65_namespace.
Definition ex_r1 : option registry := match exec_all empty_registry [CAcquire nA; CRegister nAf (Overload 1); CRegister nX (Overload 9)] with Some (r, _) => Some r | None => None end.
Example C65_ex_snapshot : exists r1 r2 s, ex_r1 = Some r1 /\ (exists a, exec_all r1 [CRegister nAg (Registered nAf); CRegister nB (Plain 3)] = Some (r2, a)) /\ find_rec (recs r1) nA = Some 1 /\
  (forall n, In n (listed r1) -> in_namespace nA n = true -> through (implementation r1) (encloses nA) (Registered n)) /\
  build_snapshot r1 nA 1 = Some s /\ s_overloads s = [1] /\ get_snapshot r2 nA 1 (Some s) = Some (mkSnapshot 2 [1; 1]).
Proof.
  eexists _, _, _. split; [vm_compute; reflexivity|]. split; [eexists; vm_compute; reflexivity|]. split; [reflexivity|]. split; [|vm_compute; repeat split].
  intros n [<-|[<-|[]]] N; [|discriminate N]. apply TNext; [apply enclosesb_ok; reflexivity|]. intros o H. vm_compute in H. injection H as <-. apply TEnd. discriminate.
Qed.
(** Without that: an overload that is an alias to an operator elsewhere stays unseen
    when the other is registered later. *)
Theorem C65_snapshot_alias_refuted : ~ (forall ns g cs1 cs2 r1 r2 a1 a2 s, exec_all empty_registry cs1 = Some (r1, a1) -> exec_all r1 cs2 = Some (r2, a2) -> find_rec (recs r1) ns = Some g ->
  build_snapshot r1 ns g = Some s -> get_snapshot r2 ns g (Some s) = build_snapshot r2 ns g).
Proof.
  intros H. specialize (H nA 1 [CAcquire nA; CRegister nAf (Registered nX)] [CRegister nX (Overload 9)] _ _ _ _ _ eq_refl eq_refl eq_refl eq_refl). vm_compute in H. discriminate H.
Qed.
Print Assumptions C65_snapshot_alias_refuted.

(** ** Several threads *)
Definition started (r : registry) (thr : list thread) : Prop := (exists cs as_, exec_all empty_registry cs = Some (r, as_)) /\ forall t x, rd thr t = Some x -> x = mkThread Idle [].
(** If no name is being registered twice at once: nothing undefined happens; a
    registration that has succeeded is listed and is what its name means; one that
    was refused found a listed name; when nobody is registering, exactly the listed
    names mean something, and every revision is the number of changes inside. *)
Theorem C65_threads ns g r0 slot thr w : started r0 thr -> reaches ns g polite (mkWorld r0 slot thr) w ->
  NoDup (listed (w_reg w)) /\ (exists more, listed (w_reg w) = listed r0 ++ more) /\
  (forall t x, rd (w_thr w) t = Some x -> idle (t_pc x) = false -> step ns g w (Run t) <> None) /\
  (forall t x n o i, rd (w_thr w) t = Some x -> t_pc x = RDone n o (inr i) -> In n (listed (w_reg w)) /\ ~ In n (listed r0) /\ name_at (w_reg w) i = n /\ implementation (w_reg w) n = Some o) /\
  (forall t x n o, rd (w_thr w) t = Some x -> t_pc x = RDone n o (inl AlreadyExists) -> In n (listed (w_reg w))) /\
  ((forall t x, rd (w_thr w) t = Some x -> active (t_pc x) = None) ->
     (forall n, implementation (w_reg w) n <> None <-> In n (listed (w_reg w))) /\
     forall i x, rd (recs (w_reg w)) i = Some x -> exists old, r_rev x = old + count_in (r_name x) (skipn (length (listed r0)) (listed (w_reg w))) /\ old = match find_rec (recs r0) (r_name x) with Some j => rev_at r0 (Some j) | None => 0 end).
Proof.
  intros ((cs & as_ & E) & Th0) R. assert (Th : forall t x, rd thr t = Some x -> t_pc x = Idle) by (intros t x H; rewrite (Th0 t x H); reflexivity). destruct (exec_all_ok cs) as (r' & as' & ops & h & E' & _ & P). rewrite E in E'. injection E' as <- <-. destruct (reach_inv ns g ops h _ w (inv_init ns ops h r0 slot thr P Th) R) as (new & I). pose proof P as (W0 & Li0 & _ & V0 & Kn0). pose proof I as (W & Li & Nd & L & _ & _ & _ & _ & _).
  split; [rewrite Li; exact Nd|]. split; [exists (map fst new); rewrite Li, Li0; apply map_app|]. split; [intros t x Hx Id; eapply run_total; eauto|]. split; [|split].
  - intros t x n o i Hx Ep. specialize (L t x Hx). rewrite Ep in L. destruct L as (Nm & Fn & F0). assert (F : find_op (ops ++ new) n = Some o) by (rewrite find_op_app_l, F0; exact Fn). split; [rewrite Li; destruct (in_dec name_dec n (map fst (ops ++ new))) as [J|J]; [exact J|apply find_op_None in J; congruence]|]. split; [rewrite Li0; apply find_op_None, F0|]. split; [apply named_at, Nm|eapply inv_implementation; eauto].
  - intros t x n o Hx Ep. specialize (L t x Hx). rewrite Ep in L. cbn in L. rewrite Li. exact L.
  - intros Q. destruct (inv_quiet ns ops h w new I Q) as [Im Rv]. split.
    + intros n. rewrite Im, Li. split; [intros H; destruct (in_dec name_dec n (map fst (ops ++ new))) as [J|J]; [exact J|apply find_op_None in J; contradiction]|intros J H; apply find_op_None in H; contradiction].
    + intros i x Hx. eexists. split; [|reflexivity]. rewrite (Rv i x Hx), count_in_app2, Li, Li0, map_app, skipn_app, skipn_all, Nat.sub_diag. cbn [skipn app]. f_equal. destruct (find_rec (recs r0) (r_name x)) as [j|] eqn:Ej.
      * destruct (find_rec_Some _ _ _ Ej) as (y & Ry & Ny). cbn. rewrite Ry. rewrite (proj2 (V0 j y Ry)), Ny. reflexivity.
      * apply count_in_0. intros m J En. apply (proj2 (find_rec_known (recs r0) (r_name x))); [|exact Ej]. eapply known_up; [exact W0|apply Kn0; right; exact J|exact En].
Qed.
Print Assumptions C65_threads.
(** If moreover no snapshot is begun while a change is announced only: a snapshot has
    every overload that was listed when it was asked for, and only registered ones. *)
Theorem C65_fresh ns g r0 thr w : started r0 thr -> find_rec (recs r0) ns = Some g -> reaches ns g (orderly ns) (mkWorld r0 None thr) w ->
  forall t x s, rd (w_thr w) t = Some x -> t_pc x = SDone s ->
  (forall n k, In n (t_seen x) -> in_namespace ns n = true -> implementation (w_reg w) n = Some (Overload k) -> In k (s_overloads s)) /\
  (forall k, In k (s_overloads s) -> exists n, In n (listed (w_reg w)) /\ in_namespace ns n = true /\ leads (implementation (w_reg w)) (Registered n) (Overload k)).
Proof.
  intros ((cs & as_ & E) & Th0) Eg R t x s Hx Ep. assert (Th : forall t x, rd thr t = Some x -> t_pc x = Idle) by (intros t' x' H; rewrite (Th0 t' x' H); reflexivity). destruct (exec_all_ok cs) as (r' & as' & ops & h & E' & _ & P). rewrite E in E'. injection E' as <- <-.
  assert (S0 : sinv ns g ops h (mkWorld r0 None thr) []).
  { split; [destruct (find_rec_Some _ _ _ Eg) as (y & Ry & Ny); exists y; auto|]. split; [|discriminate]. cbn. intros t0 x0 H0. rewrite (Th0 t0 x0 H0). split; [intros n []|exact I]. }
  destruct (reach_sinv ns g ops h _ w (inv_init ns ops h r0 None thr P Th) S0 R) as (new & I1 & (_ & Sl & _)). destruct (Sl t x Hx) as [Se H]. rewrite Ep in H. destruct H as [So Fu]. split.
  - intros n k J N Im. apply (Fu n k J); [|exact N]. specialize (Se n J). apply find_op_in in Se. destruct (find_op (ops ++ new) n) as [q|] eqn:Eq; [|congruence]. rewrite (inv_implementation ops h w new n q I1 Eq) in Im. exact Im.
  - intros k J. destruct (So k J) as (n & [A B] & Le). exists n. auto.
Qed.
Print Assumptions C65_fresh.
(** Threads that register a.f and a.g, and a third that takes a snapshot of a twice. *)
Definition ex_r0 : registry := match exec_all empty_registry [CAcquire nA] with Some (r, _) => r | None => empty_registry end.
Definition ex_w0 : world := mkWorld ex_r0 None [mkThread Idle []; mkThread Idle []; mkThread Idle []].
Fixpoint play (w : world) (es : list event) : option world := match es with [] => Some w | e :: t => match step nA 1 w e with Some w' => play w' t | None => None end end.
(** Every event of the run is orderly. *)
Definition politeb (w : world) (e : event) : bool :=
  match e with Start _ (Register n _) => forallb (fun x => match active (t_pc x) with Some m => if name_dec m n then false else true | None => true end) (w_thr w) | _ => true end.
Definition orderlyb (w : world) (e : event) : bool :=
  politeb w e && match e with Run t => match rd (w_thr w) t with Some x => match t_pc x with SRev => forallb (fun y => negb (announced (w_reg w) nA (t_pc y))) (w_thr w) | _ => true end | None => true end | _ => true end.
Fixpoint playb (ok : world -> event -> bool) (w : world) (es : list event) : bool := match es with [] => true | e :: t => ok w e && match step nA 1 w e with Some w' => playb ok w' t | None => false end end.
Lemma politeb_ok w e : politeb w e = true -> polite w e.
Proof.
  destruct e as [t [n o|]|t]; cbn; auto. rewrite forallb_forall. intros H t' x Hx E. specialize (H x (nth_error_In _ _ Hx)). rewrite E in H. destruct (name_dec n n); congruence.
Qed.
Lemma orderlyb_ok w e : orderlyb w e = true -> orderly nA w e.
Proof.
  unfold orderlyb. rewrite andb_true_iff. intros [P H]. split; [apply politeb_ok, P|]. destruct e as [t q|t]; [exact I|]. intros x Hx Ep t' y Hy. rewrite Hx, Ep in H. rewrite forallb_forall in H. specialize (H y (nth_error_In _ _ Hy)). destruct (announced _ _ _); [discriminate|reflexivity].
Qed.
Lemma play_reaches (allowed : world -> event -> Prop) ok : (forall w e, ok w e = true -> allowed w e) -> forall es w0 w w', reaches nA 1 allowed w0 w -> playb ok w es = true -> play w es = Some w' -> reaches nA 1 allowed w0 w'.
Proof.
  intros Ok. induction es as [|e es IH]; intros w0 w w' R B P; cbn in *; [injection P as <-; exact R|]. apply andb_true_iff in B as [B1 B2]. destruct (step nA 1 w e) as [w1|] eqn:E; [|discriminate]. eapply IH; [|exact B2|exact P]. eapply reach_step; [exact R|apply Ok, B1|exact E].
Qed.
Lemma ex_started : started ex_r0 [mkThread Idle []; mkThread Idle []; mkThread Idle []].
Proof. split; [eexists [CAcquire nA], _; vm_compute; reflexivity|]. intros t x H. apply nth_error_In in H. destruct H as [<-|[<-|[<-|[]]]]; reflexivity. Qed.
Definition ex_run : list event :=
  [Start 0 (Register nAf (Overload 1)); Run 0; Start 1 (Register nAg (Overload 2)); Run 1; Run 0; Run 1; Run 0; Run 1; Run 0; Run 0; Run 0; Run 0;
   Start 2 GetSnapshot; Run 2; Run 2; Run 1; Run 2; Run 2; Run 2; Run 2; Run 2; Run 1; Run 1; Run 1; Start 2 GetSnapshot; Run 2; Run 2; Run 2; Run 2; Run 2; Run 2; Run 2; Run 2; Run 2; Run 2].
Example C65_ex_threads : playb orderlyb ex_w0 ex_run = true /\ exists w, play ex_w0 ex_run = Some w /\ reaches nA 1 (orderly nA) ex_w0 w /\ reaches nA 1 polite ex_w0 w /\
  map t_pc (w_thr w) = [RDone nAf (Overload 1) (inr 2); RDone nAg (Overload 2) (inr 3); SDone (mkSnapshot 2 [1; 2])] /\ listed (w_reg w) = [nAf; nAg].
Proof.
  assert (B : playb orderlyb ex_w0 ex_run = true) by (vm_compute; reflexivity). assert (B2 : playb politeb ex_w0 ex_run = true) by (vm_compute; reflexivity). split; [exact B|].
  assert (exists w, play ex_w0 ex_run = Some w /\ map t_pc (w_thr w) = [RDone nAf (Overload 1) (inr 2); RDone nAg (Overload 2) (inr 3); SDone (mkSnapshot 2 [1; 2])] /\ listed (w_reg w) = [nAf; nAg]) as (w & P & F1 & F2) by (eexists; vm_compute; repeat split).
  exists w. split; [exact P|]. split; [eapply play_reaches; [apply orderlyb_ok|constructor|exact B|exact P]|]. split; [eapply play_reaches; [apply politeb_ok|constructor|exact B2|exact P]|auto].
Qed.
(** Two threads that register the same name: both succeed, the name is listed twice,
    and what the first has registered is lost. *)
Theorem C65_register_race_refuted : ~ (forall w t x n o i, reaches nA 1 (fun _ _ => True) ex_w0 w -> rd (w_thr w) t = Some x -> t_pc x = RDone n o (inr i) -> NoDup (listed (w_reg w)) /\ implementation (w_reg w) n = Some o).
Proof.
  intros H. set (es := [Start 0 (Register nAf (Overload 1)); Run 0; Start 1 (Register nAf (Overload 2)); Run 1; Run 0; Run 1; Run 0; Run 1; Run 0; Run 0; Run 0; Run 0; Run 1; Run 1; Run 1; Run 1]).
  assert (exists w, play ex_w0 es = Some w /\ rd (w_thr w) 0 = Some (mkThread (RDone nAf (Overload 1) (inr 2)) []) /\ implementation (w_reg w) nAf = Some (Overload 2) /\ listed (w_reg w) = [nAf; nAf]) as (w & P & F & G & L) by (eexists; vm_compute; repeat split).
  destruct (H w 0 _ nAf (Overload 1) 2 (play_reaches (fun _ _ => True) (fun _ _ => true) (fun _ _ _ => I) es ex_w0 ex_w0 w (reach_refl _ _ _ _) ltac:(vm_compute; reflexivity) P) F eq_refl) as [_ A]. rewrite G in A. discriminate A.
Qed.
Print Assumptions C65_register_race_refuted.
(** Register changes the revisions before it lists the name: a snapshot that begins in
    between is kept with the new revision and without the overload, so a call made
    after the registration has returned does not see it either. *)
Theorem C65_stale_refuted : ~ (forall w t x s, reaches nA 1 polite ex_w0 w -> rd (w_thr w) t = Some x -> t_pc x = SDone s ->
  forall n k, In n (t_seen x) -> in_namespace nA n = true -> implementation (w_reg w) n = Some (Overload k) -> In k (s_overloads s)).
Proof.
  intros H. set (es := [Start 0 (Register nAf (Overload 1)); Run 0; Run 0; Run 0; Run 0; Run 0; Start 2 GetSnapshot; Run 2; Run 2; Run 2; Run 2; Run 2; Run 0; Run 0; Start 1 GetSnapshot; Run 1; Run 1]).
  assert (exists w, play ex_w0 es = Some w /\ rd (w_thr w) 0 = Some (mkThread (RDone nAf (Overload 1) (inr 2)) []) /\ rd (w_thr w) 1 = Some (mkThread (SDone (mkSnapshot 1 [])) [nAf]) /\ implementation (w_reg w) nAf = Some (Overload 1)) as (w & P & _ & F & G) by (eexists; vm_compute; repeat split).
  exact (H w 1 _ (mkSnapshot 1 []) (play_reaches polite politeb politeb_ok es ex_w0 ex_w0 w (reach_refl _ _ _ _) ltac:(vm_compute; reflexivity) P) F eq_refl nAf 1 (or_introl eq_refl) eq_refl G).
Qed.
Print Assumptions C65_stale_refuted.
