(** * C61: initializers run once, after what they need, in any link order *)
From Coq Require Import Permutation.
From Verif Require Import Base Visit_Model Init_Model Init_Spec Init_Graph Init_Build Init_Exec Init_Proofs Init_Det Init_Proc.

(** The set of completed names that the coordinator keeps: no empty name, no phony name. *)
Definition completed (P : list name) : Prop := forall x, In x P -> x <> [] /\ ~ phony x.

(** No call is undefined: it ends, with a status. *)
Theorem C61_total ok P tr0 l : completed P -> exists P' ran e, run ok P tr0 l = Some (P', tr0 ++ ran, e).
Proof. intros H. destruct (run_cases ok P H tr0 l) as (P' & ran & e & E & _). eauto. Qed.
Print Assumptions C61_total.

(** Whatever the status, what ran is a part of the batch, each initializer at
    most once, and nothing ran before what must precede it. *)
Theorem C61_order ok P tr0 l P' tr e : completed P -> run ok P tr0 l = Some (P', tr, e) ->
  exists ran rest, tr = tr0 ++ ran /\ ran_in_order l ran rest /\ (e = None -> rest = []).
Proof.
  intros H E. destruct (run_cases ok P H tr0 l) as (Q & ran & e' & E' & (rest & O & R) & _). rewrite E in E'. injection E' as -> -> ->. eauto.
Qed.
Print Assumptions C61_order.

(** OK is returned for the feasible batches whose functions report success. *)
Theorem C61_accepts ok P tr0 l P' tr e : completed P -> run ok P tr0 l = Some (P', tr, e) ->
  (e = None -> feasible P l /\ (exists ran, tr = tr0 ++ ran /\ all_succeeded ok tr0 ran) /\
     forall x, In x P' <-> In x P \/ (x <> [] /\ exists i, In i l /\ i_name i = x)) /\
  (feasible P l -> e = None \/ exists n, e = Some (EInit n)).
Proof.
  intros H E. destruct (run_cases ok P H tr0 l) as (Q & ran & e' & E' & _ & K). rewrite E in E'. injection E' as -> -> ->. destruct e' as [e'|].
  - split; [discriminate|]. intros F. right. destruct K as [_ K]. destruct (K F) as [n ->]. eauto.
  - split; [intros _; destruct K as (A & B & C); eauto|auto].
Qed.
Print Assumptions C61_accepts.

(** An error describes something wrong with the batch, or a failed function. *)
Theorem C61_errors ok P tr0 l P' tr e : completed P -> run ok P tr0 l = Some (P', tr, Some e) ->
  exists ran, tr = tr0 ++ ran /\ justified ok P tr0 l ran e.
Proof.
  intros H E. destruct (run_cases ok P H tr0 l) as (Q & ran & e' & E' & _ & K). rewrite E in E'. injection E' as -> -> <-. destruct K as [K _]. eauto.
Qed.
Print Assumptions C61_errors.

(** The order of registration (the order of linking) changes neither what runs,
    nor in which order, nor the status, if every initializer has a name; when
    the declarations themselves are wrong it may change which one is reported. *)
Theorem C61_link_order ok P tr0 l1 l2 P1 t1 e1 P2 t2 e2 : completed P -> Permutation l1 l2 ->
  (forall i, In i l1 -> i_name i <> [] /\ ~ In [] (i_deps i)) ->
  run ok P tr0 l1 = Some (P1, t1, e1) -> run ok P tr0 l2 = Some (P2, t2, e2) ->
  P1 = P2 /\ t1 = t2 /\
  (e1 = e2 \/ exists a b, e1 = Some a /\ e2 = Some b /\
     (match a with EPhonyName _ | ECollision _ | ELate _ _ => True | _ => False end) /\
     (match b with EPhonyName _ | ECollision _ | ELate _ _ => True | _ => False end)).
Proof. intros H Pm N E1 E2. exact (run_perm ok P tr0 l1 l2 P1 t1 e1 P2 t2 e2 H Pm N E1 E2). Qed.
Print Assumptions C61_link_order.

(** Any history of registrations, InitArolla() and InitArollaSecondary(): either
    the process ends with an error, having run no initializer twice, or every
    registered initializer either ran once or waits, the order asked by name holds
    across all the batches, and nothing runs before InitArolla(). *)
Theorem C61_process ok os : exists r, psteps ok proc0 os = Some r /\
  match r with
  | inl (tr, e) => exists rest, Permutation (tr ++ rest) (registered os)
  | inr p => Permutation (p_trace p ++ p_head p) (registered os) /\ history_ok (p_trace p) /\ (~ In CallInit os -> p_trace p = [])
  end.
Proof.
  destruct (psteps_ok ok os) as (r & E & Q). exists r. split; [exact E|]. destruct r as [[tr e]|p]; [exact Q|]. destruct Q. auto.
Qed.
Print Assumptions C61_process.

(** The first InitArolla(), and every InitArollaSecondary() after it, leave
    nothing waiting; another InitArolla() does nothing. *)
Theorem C61_flush ok os p : psteps ok proc0 os = Some (inr p) ->
  (forall p', pstep ok p CallInit = Some (inr p') -> if existsb (fun o => match o with CallInit => true | _ => false end) os then p' = p else p_head p' = []) /\
  (forall p', pstep ok p Secondary = Some (inr p') -> if existsb (fun o => match o with CallInit => true | _ => false end) os then p_head p' = [] else p' = p).
Proof.
  intros E. destruct (psteps_ok ok os) as (r & E' & Q). rewrite E in E'. injection E' as <-.
  assert (Ex : existsb (fun o => match o with CallInit => true | _ => false end) os = true <-> In CallInit os).
  { rewrite existsb_exists. split; [intros ([| |] & H & K); try discriminate; exact H|intros H; exists CallInit; auto]. }
  pose proof (pi_called _ _ Q) as Hc. pose proof (pi_once _ _ Q) as Ho.
  split; intros p' Hp.
  - destruct (pstep_ok ok os p CallInit Q) as (r & E' & K). rewrite Hp in E'. injection E' as <-. destruct (existsb _ os) eqn:Eb.
    + cbn [pstep] in Hp. rewrite Ho, (proj2 Hc) in Hp by (apply Ex; reflexivity). injection Hp as <-. reflexivity.
    + apply (proj2 K). intros H. apply Ex in H. congruence.
  - destruct (pstep_ok ok os p Secondary Q) as (r & E' & K). rewrite Hp in E'. injection E' as <-. destruct (existsb _ os) eqn:Eb.
    + apply (proj2 K), Ex. reflexivity.
    + cbn [pstep] in Hp. destruct (p_called p) eqn:Ec; [exfalso|injection Hp as <-; reflexivity]. pose proof (proj1 Hc eq_refl) as C. apply Ex in C. discriminate.
Qed.
Print Assumptions C61_flush.

(** ** Examples *)
Definition ph : name := phony_prefix ++ [47; 120].
Definition iA := mkI [97] [] [ph] (VoidFn 1).
Definition iB := mkI [98] [ph; [97]] [] (StatusFn 2).
Definition iC := mkI [] [[97]] [ph] (StatusFn 3).
Definition iD := mkI [100] [] [[97]] NoFn.
Example C61_ex_run : run (fun _ _ => true) [] [] [iB; iC; iA; iD] = Some ([[100]; [98]; [97]], [iD; iA; iC; iB], None).
Proof. reflexivity. Qed.
Example C61_ex_link : run (fun _ _ => true) [] [] [iA; iB; iD] = run (fun _ _ => true) [] [] [iD; iB; iA] /\
  forall i, In i [iA; iB; iD] -> i_name i <> [] /\ ~ In [] (i_deps i).
Proof. split; [reflexivity|]. intros i [<-|[<-|[<-|[]]]]; (split; [discriminate|cbn; intuition discriminate]). Qed.
(** [iB] fails: what needed to precede it did run. *)
Example C61_ex_fails : run (fun _ f => negb (f =? 2)) [] [] [iB; iC; iA] = Some ([[97]], [iA; iC; iB], Some (EInit [98])).
Proof. reflexivity. Qed.
Example C61_ex_cycle : run (fun _ _ => true) [] [] [mkI [99] [[97]] [[97]] NoFn; iA] = Some ([], [], Some (ECycle [[97]; [99]; [97]])).
Proof. reflexivity. Qed.
Example C61_ex_missing : run (fun _ _ => true) [] [] [iB] = Some ([], [], Some (EMissing [98] [97])).
Proof. reflexivity. Qed.
(** A later batch: [iC] may still use the phony name, [iD] is too late. *)
Example C61_ex_process : psteps (fun _ _ => true) proc0 [Register iB; Register iA; Secondary; CallInit; Register iC; Secondary]
  = Some (inr (mkP true true [] [[98]; [97]] [iA; iB; iC])).
Proof. reflexivity. Qed.
Example C61_ex_late : psteps (fun _ _ => true) proc0 [Register iA; CallInit; Register iD; Secondary] = Some (inl ([iA], ELate [100] [97])).
Proof. reflexivity. Qed.
(** Without names the order of registration shows. *)
Example C61_link_order_anonymous_refuted : 
  run (fun _ _ => true) [] [] [iC; mkI [] [] [ph] (VoidFn 4); iA] <> run (fun _ _ => true) [] [] [mkI [] [] [ph] (VoidFn 4); iC; iA].
Proof. discriminate. Qed.
(** A reverse dependency on a name that nobody defines is accepted silently. *)
Example C61_ex_unknown_reverse : run (fun _ _ => true) [] [] [mkI [97] [] [[122]] NoFn] = Some ([[97]], [mkI [97] [] [[122]] NoFn], None).
Proof. reflexivity. Qed.
