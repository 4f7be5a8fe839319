(** C60: conditionals and loops run as jumps and double-buffered states, with errors and
    cancellation. *)
From Verif Require Import Base Jump_Model Jump_Spec Jump_Proofs Jump_Run Jump_Top Jump_Loop.

(** Every program without empty alternatives is bound, and no other; no operator is missing. *)
Theorem C60_binds {F err node : Type} (note : err -> option node -> err) (tr : bool) (p : list (code F err node)) :
  (proper p <-> exists be, compile note tr p = Some be) /\
  forall be, compile note tr p = Some be -> no_nulls (be_ops be) = true.
Proof.
  split; [split|].
  - intros P. destruct (compile_binds note tr p P) as (be & E & _). eauto.
  - intros (be & E). unfold compile in E. destruct (emit p _) as [b|] eqn:G; [|discriminate]. exact (emit_proper p _ _ G).
  - intros be E. assert (P : proper p).
    { unfold compile in E. destruct (emit p _) as [b|] eqn:G; [|discriminate]. exact (emit_proper p _ _ G). }
    destruct (compile_binds note tr p P) as (be2 & E2 & B). rewrite E in E2. injection E2 as <-.
    rewrite (bi_ops _ _ _ _ B). unfold no_nulls. apply forallb_forall. intros o H. apply in_map_iff in H as (q & <- & _). reflexivity.
Qed.
Print Assumptions C60_binds.

(** Running it is evaluating the nested program: it ends if evaluation does, with the same
    frame after the same number of questions to the cancellation context, with the error if
    it fails, which names the operator that failed if there is a stack trace. *)
Theorem C60_runs {F err node : Type} (cancel : nat -> option err) (note : err -> option node -> err) (tr : bool) (p : list (code F err node)) be :
  compile note tr p = Some be -> all_tame p -> forall f t f1 t1,
  (ends cancel be f t f1 t1 None <-> Ev cancel p f t (OK f1 t1)) /\
  forall e, ends cancel be f t f1 t1 (Some e) <-> exists e0 w, Ev cancel p f t (KO f1 t1 e0 w) /\ e = if tr then note e0 w else e0.
Proof.
  intros E T f t f1 t1. assert (P : proper p) by (apply (proj1 (C60_binds note tr p)); eauto).
  destruct (compile_binds note tr p P) as (be2 & E2 & B). rewrite E in E2. injection E2 as <-.
  split; [exact (ends_ok cancel note tr p be B T P f t f1 t1)|]. intros e. exact (ends_err cancel note tr p be B T P f t f1 t1 e).
Qed.
Print Assumptions C60_runs.

(** It leaves no signals behind, breaks no check, whatever its operators do, and its result
    does not depend on fuel: so it can be an operator itself. *)
Theorem C60_tame {F err node : Type} (cancel : nat -> option err) (note : err -> option node -> err) (tr : bool) (p : list (code F err node)) be :
  compile note tr p = Some be -> all_tame p -> tame (fun n s => execute cancel n be s).
Proof.
  intros E T. assert (P : proper p) by (apply (proj1 (C60_binds note tr p)); eauto).
  destruct (compile_binds note tr p P) as (be2 & E2 & B). rewrite E in E2. injection E2 as <-.
  exact (exec_tame cancel note tr p be B T P).
Qed.
Print Assumptions C60_tame.
(** Operators made of functions are such operators, and loops of such programs are. *)
Theorem C60_functor {F err : Type} (g : F -> F * option err) : tame (functor_op g).
Proof. exact (functor_tame g). Qed.
Print Assumptions C60_functor.
Theorem C60_loop_tame {F err : Type} (cancel : nat -> option err) (co bo ct bt : bexpr F err) cond init fin :
  tame (fun n s => execute cancel n co s) -> tame (fun n s => execute cancel n bo s) ->
  tame (fun n s => execute cancel n ct s) -> tame (fun n s => execute cancel n bt s) ->
  tame (while_op cancel co bo ct bt cond init fin).
Proof. intros A B C D. exact (while_tame cancel co bo ct bt cond init fin A B C D). Qed.
Print Assumptions C60_loop_tame.

(** A loop applies the body to the initial state while the condition holds, whichever of the
    two slots the state is in; it ends if that ends, and fails as that fails.  The slots of
    constant inputs keep their values. *)
Theorem C60_loop {F err K V : Type} (cancel : nat -> option err) (co bo ct bt : bexpr F err) (cond : F -> bool) (init fin : F -> F)
  (k : F -> K) (rin rout rtmp : F -> V) (cnd : K -> V -> bool + err -> Prop) (bdy : K -> V -> V + err -> Prop) :
  tame (fun n s => execute cancel n co s) -> tame (fun n s => execute cancel n bo s) ->
  tame (fun n s => execute cancel n ct s) -> tame (fun n s => execute cancel n bt s) ->
  (forall x v a b, cnd x v a -> cnd x v b -> a = b) -> (forall x v a b, bdy x v a -> bdy x v b -> a = b) ->
  computes cancel co k rout cnd cond rout -> computes cancel bo k rout bdy rtmp (fun _ => tt) ->
  computes cancel ct k rtmp cnd cond rtmp -> computes cancel bt k rtmp bdy rout (fun _ => tt) ->
  (forall f, rout (init f) = rin f /\ k (init f) = k f) -> (forall f, rout (fin f) = rtmp f /\ k (fin f) = k f) ->
  forall f t,
  (forall f1 t1, does (while_op cancel co bo ct bt cond init fin) f t f1 t1 None -> Loops (cnd (k f)) (bdy (k f)) (rin f) (inl (rout f1)) /\ k f1 = k f) /\
  (forall f1 t1 e, does (while_op cancel co bo ct bt cond init fin) f t f1 t1 (Some e) -> Loops (cnd (k f)) (bdy (k f)) (rin f) (inr e)) /\
  (forall r, Loops (cnd (k f)) (bdy (k f)) (rin f) r -> exists f1 t1 e, does (while_op cancel co bo ct bt cond init fin) f t f1 t1 e).
Proof.
  intros A B C D Fc Fb Cc Cb Dc Db Hi Hf f t.
  exact (while_value cancel co bo ct bt cond init fin A B C D k rin rout rtmp cnd bdy Fc Fb Cc Cb Dc Db Hi Hf f t).
Qed.
Print Assumptions C60_loop.

(** A cancelled program that has operators does not succeed. *)
Theorem C60_stops {F err node : Type} (cancel : nat -> option err) (note : err -> option node -> err) (tr : bool) (p : list (code F err node)) be t0 :
  compile note tr p = Some be -> all_tame p -> p <> [] -> (forall u, t0 <= u -> cancel u <> None) ->
  forall f t f1 t1 e, ends cancel be f t f1 t1 e -> t0 <= t -> e <> None.
Proof.
  intros E T N S f t f1 t1 e H L ->. assert (P : proper p) by (apply (proj1 (C60_binds note tr p)); eauto).
  destruct (compile_binds note tr p P) as (be2 & E2 & B). rewrite E in E2. injection E2 as <-.
  destruct (bound_asks cancel note tr p be B T P N f t f1 t1 H) as (u & U & V). apply (S u); [lia|exact V].
Qed.
Print Assumptions C60_stops.
(** A loop ends once it is cancelled, even if its condition always holds, provided that its
    parts end. *)
Theorem C60_cancel {F err node : Type} (cancel : nat -> option err) (note : err -> option node -> err) (tr : bool) (p : list (code F err node))
  (co bo ct bt : bexpr F err) (cond : F -> bool) (init fin : F -> F) t0 :
  compile note tr p = Some co -> all_tame p -> p <> [] ->
  tame (fun n s => execute cancel n bo s) -> tame (fun n s => execute cancel n ct s) -> tame (fun n s => execute cancel n bt s) ->
  (forall be f t, In be [co; bo; ct; bt] -> exists f1 t1 e, ends cancel be f t f1 t1 e) ->
  (forall u, t0 <= u -> cancel u <> None) ->
  forall f t, exists f1 t1 e, does (while_op cancel co bo ct bt cond init fin) f t f1 t1 e.
Proof.
  intros E T N Tb Tc Td Q S f t. assert (P : proper p) by (apply (proj1 (C60_binds note tr p)); eauto).
  destruct (compile_binds note tr p P) as (be2 & E2 & B). rewrite E in E2. injection E2 as <-.
  apply (while_ends cancel co bo ct bt cond init fin (exec_tame cancel note tr p co B T P) Tb Tc Td) with (lim := t0).
  - intros f' t'. apply Q. left. reflexivity.
  - intros f' t'. apply Q. right. left. reflexivity.
  - intros f' t'. apply Q. right. right. left. reflexivity.
  - intros f' t'. apply Q. right. right. right. left. reflexivity.
  - exact (bound_asks cancel note tr p co B T P N).
  - exact S.
Qed.
Print Assumptions C60_cancel.

(** Programs of one operator compute its function, so the hypotheses of [C60_loop] can be met. *)
Theorem C60_operator {F err node K V W D : Type} (note : err -> option node -> err) (tr : bool) (g : F -> F * option err) (nd : option node)
  (k : F -> K) (rd : F -> V) (R : K -> V -> W + err -> Prop) (wr : F -> W) (keep : F -> D) be :
  compile note tr [Atom (functor_op g) nd] = Some be ->
  (forall f, match g f with (f1, None) => R (k f) (rd f) (inl (wr f1)) /\ k f1 = k f /\ keep f1 = keep f
    | (_, Some e) => R (k f) (rd f) (inr (if tr then note e nd else e)) end) ->
  computes (fun _ => None) be k rd R wr keep.
Proof.
  intros E H. assert (T : all_tame [Atom (node := node) (functor_op g) nd]) by (constructor; [apply functor_tame|constructor]).
  pose proof (fun f t f1 t1 => C60_runs (fun _ => None) note tr _ be E T f t f1 t1) as R0. split.
  - intros f t f1 t1 X. apply R0 in X. inversion X as [|? ? ? ? ? f2 t2 ? (n & Dn) C V0| | | | | | | |]; subst.
    inversion V0; subst. unfold functor_op in Dn. cbn [s_fr s_ctx s_t] in Dn. specialize (H f). destruct (g f) as [f2 [e|]]; [discriminate|].
    injection Dn as <- <-. exact H.
  - intros f t f1 t1 e X. apply R0 in X as (e0 & w & X & ->). inversion X as [|? ? ? ? ? f2 t2 ? (n & Dn) C V0|? ? ? ? ? ? ? ? (n & Dn)|? ? ? ? ? ? ? ? ? C| | | | | |]; subst; [inversion V0| |discriminate].
    unfold functor_op in Dn. cbn [s_fr s_ctx s_t] in Dn. specialize (H f). destruct (g f) as [f2 [e1|]]; [|discriminate].
    injection Dn as <- <- <-. exact H.
  - intros f t r _. destruct (g f) as [f1 [e|]] eqn:G.
    + exists f1, t, (Some (if tr then note e nd else e)). apply R0. exists e, nd. split; [|reflexivity]. apply E_atom_err. exists 0. unfold functor_op. cbn [s_fr]. rewrite G. reflexivity.
    + exists f1, (S t), None. apply R0. eapply E_atom; [|reflexivity|constructor]. exists 0. unfold functor_op. cbn [s_fr]. rewrite G. reflexivity.
Qed.
Print Assumptions C60_operator.

(** ** Cases *)
(** Frames: input, output, temporary state, condition.  Errors: the operator and the number. *)
Definition fr : Type := nat * nat * nat * bool.
Definition xnote (e : nat * nat) (w : option nat) : nat * nat := (match w with Some n => n | None => 0 end, snd e).
Definition on_out : fr -> nat := fun f => let '(_, o, _, _) := f in o.
Definition on_tmp : fr -> nat := fun f => let '(_, _, t, _) := f in t.
Definition xcond (rd : fr -> nat) (f : fr) : fr * option (nat * nat) := let '(i, o, t, _) := f in ((i, o, t, rd f <? 10), None).
Definition xstep (n : nat) : nat + nat * nat := if n =? 7 then inr (0, 77) else inl (n + 3).
Definition xbody_out (f : fr) : fr * option (nat * nat) := let '(i, o, t, c) := f in match xstep o with inl v => ((i, o, v, c), None) | inr e => (f, Some e) end.
Definition xbody_tmp (f : fr) : fr * option (nat * nat) := let '(i, o, t, c) := f in match xstep t with inl v => ((i, v, t, c), None) | inr e => (f, Some e) end.
Definition xb (g : fr -> fr * option (nat * nat)) : bexpr fr (nat * nat) :=
  match compile xnote true [Atom (functor_op g) (Some 5)] with Some b => b | None => {| be_ops := []; be_note := None |} end.
Definition xwhile (cancel : nat -> option (nat * nat)) : bop fr (nat * nat) :=
  while_op cancel (xb (xcond on_out)) (xb xbody_out) (xb (xcond on_tmp)) (xb xbody_tmp) (fun f => snd f)
    (fun f => let '(i, o, t, c) := f in (i, i, t, c)) (fun f => let '(i, o, t, c) := f in (i, t, t, c)).
(** From 0 in four rounds, from 3 in three; 1 meets an error; cancelled at the fifth question. *)
Example C60_ex_loop :
  xwhile (fun _ => None) 20 (St clean (0, 0, 0, false) 0) = Done (St clean (0, 12, 9, false) 9) /\
  xwhile (fun _ => None) 20 (St clean (3, 0, 0, false) 0) = Done (St clean (3, 12, 12, false) 7) /\
  xwhile (fun _ => None) 20 (St clean (1, 0, 0, false) 0) = Done (St (Ctx true 0 (Some (5, 77))) (1, 7, 4, true) 5) /\
  xwhile (fun t => if t <? 4 then None else Some (9, 99)) 20 (St clean (0, 0, 0, false) 0) = Done (St (Ctx true 0 (Some (5, 99))) (0, 6, 3, true) 5).
Proof. repeat split; vm_compute; reflexivity. Qed.
(** The hypotheses of [C60_loop] for it. *)
Example C60_ex_loop_value : forall f t f1 t1, does (xwhile (fun _ => None)) f t f1 t1 None ->
  Loops (fun v r => r = inl (v <? 10)) (fun v r => r = match xstep v with inl w => inl w | inr e => inr (xnote e (Some 5)) end) (let '(i, _, _, _) := f in i) (inl (on_out f1)).
Proof.
  intros f t f1 t1 H.
  assert (Cx : forall g, compile xnote true [Atom (functor_op g) (Some 5)] = Some (xb g)) by reflexivity.
  assert (Tx : forall g, tame (fun n s => execute (fun _ => None) n (xb g) s)).
  { intros g. apply (C60_tame _ xnote true _ _ (Cx g)). constructor; [apply C60_functor|constructor]. }
  refine (proj1 (proj1 (C60_loop (fun _ => None) (xb (xcond on_out)) (xb xbody_out) (xb (xcond on_tmp)) (xb xbody_tmp) (fun f => snd f) _ _
    (fun f : fr => let '(i, _, _, _) := f in i) (fun f : fr => let '(i, _, _, _) := f in i) on_out on_tmp
    (fun _ v r => r = inl (v <? 10)) (fun _ v r => r = match xstep v with inl w => inl w | inr e => inr (xnote e (Some 5)) end)
    (Tx _) (Tx _) (Tx _) (Tx _) _ _ _ _ _ _ _ _ f t) f1 t1 H)).
  - congruence.
  - congruence.
  - apply (C60_operator xnote true (xcond on_out) (Some 5)); [apply Cx|]. intros [[[i o] u] c]. repeat split.
  - apply (C60_operator xnote true xbody_out (Some 5)); [apply Cx|]. intros [[[i o] u] c]. cbn [xbody_out on_out]. destruct (xstep o) as [v|e]; [repeat split|reflexivity].
  - apply (C60_operator xnote true (xcond on_tmp) (Some 5)); [apply Cx|]. intros [[[i o] u] c]. repeat split.
  - apply (C60_operator xnote true xbody_tmp (Some 5)); [apply Cx|]. intros [[[i o] u] c]. cbn [xbody_tmp on_tmp]. destruct (xstep u) as [v|e]; [repeat split|reflexivity].
  - intros [[[i o] u] c]. split; reflexivity.
  - intros [[[i o] u] c]. split; reflexivity.
Qed.
(** A conditional within a branch; frames are lists of the operators that ran. *)
Definition ylog (n : nat) : code (list nat) (nat * nat) nat := Atom (functor_op (fun l => (l ++ [n], if n =? 6 then Some (0, 66) else None))) (Some n).
Definition yprog : list (code (list nat) (nat * nat) nat) :=
  [ylog 1; Cond (fun l => length l =? 1) 50 [ylog 2; Cond (fun l => length l =? 3) 51 [] [ylog 3]; ylog 4] [ylog 5]; ylog 6].
Definition yrun (cancel : nat -> option (nat * nat)) (f : list nat) : option (res (st (list nat) (nat * nat))) :=
  match compile xnote true yprog with Some be => Some (execute cancel 30 be (St clean f 0)) | None => None end.
Example C60_ex_where :
  yrun (fun _ => None) [] = Some (Done (St (Ctx true 0 (Some (6, 66))) [1; 2; 3; 4; 6] 7)) /\
  yrun (fun _ => None) [0] = Some (Done (St (Ctx true 0 (Some (6, 66))) [0; 1; 5; 6] 3)) /\
  yrun (fun t => if t =? 1 then Some (9, 99) else None) [] = Some (Done (St (Ctx true 0 (Some (50, 99))) [1] 2)) /\
  match compile xnote true yprog with Some be => length (be_ops be) = 10 | None => False end /\
  compile xnote true [ylog 1; Cond (fun l => true) 50 [ylog 2] []] = None.
Proof. repeat split; vm_compute; reflexivity. Qed.
(** Cancelled right after the first branch: the error names operator 5, the last of the branch
    that was not run. *)
Example C60_blame_refuted : yrun (fun t => if t =? 6 then Some (9, 99) else None) [] = Some (Done (St (Ctx true 0 (Some (5, 99))) [1; 2; 3; 4] 7)).
Proof. vm_compute. reflexivity. Qed.
