(** Compiled programs, their errors, and when there are none. *)
From Verif Require Import Base Jump_Model Jump_Spec Jump_Proofs Jump_Run.

Section T.
Context {F err node : Type}.
Notation code := (code F err node). Notation bop := (bop F err).
Variable cancel : nat -> option err.
Variable note : err -> option node -> err.
Notation exec := (@exec F err cancel).

(** ** More fuel does not change results *)
Definition reg (o : bop) : Prop := forall n m f t s, n <= m -> o n (ok f t) = Done s ->
  o m (ok f t) = Done s /\ (s_ctx s = clean \/ (exists e, s_ctx s = Ctx true 0 (Some e)) \/ exists j, s_ctx s = Ctx true j None).
Lemma exec_mono (ops : list (option bop)) : (forall i o, nth_error ops i = Some (Some o) -> reg o) ->
  forall k n ip f t x, exec n ops k ip (ok f t) = Done x -> forall m k2, n <= m -> k <= k2 -> exec m ops k2 ip (ok f t) = Done x.
Proof.
  intros R. induction k as [|k IH]; intros n ip f t x H m k2 L1 L2.
  - cbn [Jump_Model.exec] in H. destruct k2; cbn [Jump_Model.exec]; destruct (nth_error ops ip) as [[o|]|]; congruence.
  - cbn [Jump_Model.exec] in H. destruct k2 as [|k2]; [lia|]. cbn [Jump_Model.exec].
    destruct (nth_error ops ip) as [[o|]|] eqn:N; [|discriminate|exact H].
    destruct (o n (ok f t)) as [s1| |] eqn:O; [|discriminate|discriminate].
    destruct (R _ _ N n m f t s1 L1 O) as [O' C]. rewrite O'. cbn [rbind] in *.
    destruct s1 as [c1 f1 t1]. cbn [s_ctx s_fr s_t] in *.
    destruct C as [->|[(e & ->)|(j & ->)]]; cbn [c_sig c_st c_jump clean] in *.
    + destruct (cancel t1); [exact H|]. apply (IH n _ _ _ _ H); lia.
    + exact H.
    + destruct (j =? 0)%Z; [destruct (cancel t1); [exact H|]; apply (IH n _ _ _ _ H); lia|].
      destruct ((0 <=? Z.of_nat ip + j)%Z && (Z.of_nat ip + j <? Z.of_nat (length ops))%Z); [|discriminate].
      destruct (cancel t1); [exact H|]. apply (IH n _ _ _ _ H); lia.
Qed.
Lemma tame_reg o : tame o -> reg o.
Proof.
  intros T n m f t s L H. split; [exact (tame_fuel o T n m f t s L H)|].
  destruct (tame_done o T n f t s H) as [C|C]; auto.
Qed.
Lemma jump_reg j : reg (jump_op j).
Proof. intros n m f t s L H. split; [exact H|]. injection H as <-. right; right. exists j. reflexivity. Qed.
Lemma jump_if_not_reg c j : reg (jump_if_not_op c j).
Proof.
  intros n m f t s L H. split; [exact H|]. unfold jump_if_not_op in H. cbn [s_fr ok] in H. injection H as <-.
  destruct (c f); [left; reflexivity|]. right; right. exists j. reflexivity.
Qed.
Lemma flat_reg (p : list code) : all_tame p -> forall o, In o (flat p) -> reg o.
Proof.
  intros T. induction T as [|o nd p To Tp IH|c nd a b p Ta IHa Tb IHb Tp IHp]; intros q H.
  - destruct H.
  - cbn [flat flat1 app] in H. destruct H as [<-|H]; [apply tame_reg, To|apply IH, H].
  - cbn [flat] in H. apply in_app_or in H as [H|H]; [|apply IHp, H]. rewrite flat1_cond in H.
    destruct H as [<-|H]; [apply jump_if_not_reg|]. apply in_app_or in H as [H|[<-|H]]; [apply IHa, H|apply jump_reg|apply IHb, H].
Qed.

Lemma exec_end n (ops : list (option bop)) k s : exec n ops k (length ops) s = Done (s, Z.of_nat (length ops) - 1)%Z.
Proof. destruct k; cbn [Jump_Model.exec]; rewrite (proj2 (nth_error_None ops (length ops))) by lia; reflexivity. Qed.

Lemma ev_time (p : list code) f t r : Ev cancel p f t r -> all_tame p -> t <= match r with OK _ t1 => t1 | KO _ t1 _ _ => t1 end.
Proof.
  assert (D : forall (o : bop) f t f1 t1 e, tame o -> does o f t f1 t1 e -> t <= t1).
  { intros o f0 t0 f1 t1 e T (n & H). exact (tame_time o T n f0 t0 _ H). }
  intros H. induction H; intros T; inversion T; subst; try lia;
    repeat match goal with
    | X : tame ?o, Y : does ?o _ _ _ _ _ |- _ => apply (D _ _ _ _ _ _ X) in Y
    | X : all_tame ?a, IH : all_tame ?a -> _ |- _ => specialize (IH X) end; try lia; destruct r; lia.
Qed.

(** A program without operators is bound to nothing. *)
Lemma emit_proper (p : list code) : forall b b1, emit p b = Some b1 -> proper p.
Proof. clear cancel.
  revert p; apply (code_ind2 (fun p => forall b b1, emit p b = Some b1 -> proper p)).
  - constructor.
  - intros o nd p IH b b1 H. cbn [emit emit1 bind] in H. constructor. eapply IH, H.
  - intros c nd t e p It Ie Ip b b1 H. rewrite emit_cond in H.
    destruct (compile_where c nd (emit t) (emit e) b) as [b2|] eqn:W; [|discriminate]. cbn [bind] in H.
    unfold compile_where in W. destruct (skip_op b) as [n0 b0].
    destruct (emit t b0) as [bt|] eqn:Et; [|discriminate]. cbn [bind] in W.
    unfold skip_op, add_op in W.
    set (b3 := {| b_ops := b_ops bt ++ [None]; b_trace := register (length (b_ops bt)) None (b_trace bt) |}) in W.
    destruct (emit e b3) as [bf|] eqn:Ee; [|discriminate]. cbn [bind] in W.
    constructor; [eapply It, Et|eapply Ie, Ee| |eapply Ip, H].
    intros ->. cbn [emit] in Ee. injection Ee as <-. exfalso.
    destruct (Z.of_nat (length (b_ops bt)) - Z.of_nat n0 =? 0)%Z; [discriminate|].
    destruct (set_op n0 _ (Some nd) b3) as [b4|] eqn:SO; [|discriminate]. cbn [bind] in W.
    assert (L : length (b_ops b4) = S (length (b_ops bt))).
    { unfold set_op in SO. destruct (nth_error (b_ops b3) n0) as [[o|]|]; [discriminate| |discriminate].
      destruct (upd (b_ops b3) n0 _) as [ops|] eqn:U; [|discriminate]. cbn [bind] in SO. injection SO as <-. cbn [b_ops].
      apply upd_spec in U as (_ & U & _). rewrite U. unfold b3. cbn [b_ops]. rewrite app_length. cbn [length]. lia. }
    rewrite L in W. rewrite (proj2 (Z.eqb_eq _ _)) in W by lia. discriminate.
Qed.

Definition exec_of (be : bexpr F err) : bop := fun n s => execute cancel n be s.
Record binds (tr : bool) (p : list code) (be : bexpr F err) : Prop := {
  bi_ops : be_ops be = map Some (flat p);
  bi_none : tr = false -> be_note be = None;
  bi_note : tr = true -> exists g, be_note be = Some g /\ forall e i w, nth_error (labels p) i = Some w -> g e (Z.of_nat i) = note e w }.
Lemma compile_binds tr (p : list code) : proper p -> exists be, compile note tr p = Some be /\ binds tr p be.
Proof. clear cancel.
  intros P. destruct (emit_all p P (Bld [] (if tr then Some [] else None))) as (b1 & E1 & E2 & E3).
  unfold compile. rewrite E1. cbn [bind]. eexists. split; [reflexivity|]. cbn [b_ops b_trace app length] in *.
  split; cbn [be_ops be_note build].
  - exact E2.
  - intros ->. unfold traced in E3. now rewrite E3.
  - intros ->. unfold traced in E3. destruct E3 as (l2 & E3 & L). rewrite E3. cbn [app]. eexists. split; [reflexivity|].
    intros e i w H. cbv beta. rewrite (L (Z.of_nat i)). rewrite (proj2 (Z.leb_le _ _)) by lia.
    replace (Z.to_nat (Z.of_nat i) - 0) with i by lia. now rewrite H.
Qed.

Section Bound.
Variables (tr : bool) (p : list code) (be : bexpr F err).
Hypothesis B : binds tr p be.
Hypothesis T : all_tame p.
Hypothesis P : proper p.
Definition noted (e : err) (w : option node) : err := if tr then note e w else e.
Lemma noted_exec (e : err) (f : F) (t i : nat) (w : option node) : nth_error (labels p) i = Some w ->
  match c_st (s_ctx (bad e f t)), be_note be with
  | Some e', Some g => Done (St (set_status (Some (g e' (Z.of_nat i))) (s_ctx (bad e f t))) (s_fr (bad e f t)) (s_t (bad e f t)))
  | _, _ => Done (bad e f t)
  end = Done (bad (noted e w) f t).
Proof.
  intros H. unfold noted. cbn [bad s_ctx c_st s_fr s_t].
  destruct tr eqn:E; [|rewrite (bi_none _ _ _ B eq_refl); reflexivity].
  destruct (bi_note _ _ _ B eq_refl) as (g & -> & G). rewrite (G _ _ _ H). reflexivity.
Qed.
Lemma exec_back n f t x : x <> More -> execute cancel n be (ok f t) = x ->
  (exists f1 t1, Ev cancel p f t (OK f1 t1) /\ x = Done (ok f1 t1)) \/
  (exists f1 t1 e w, Ev cancel p f t (KO f1 t1 e w) /\ x = Done (bad (noted e w) f1 t1)).
Proof.
  intros Hx H. unfold execute, run_bound in H. cbn [ok s_ctx clean c_st c_jump c_sig negb andb Z.eqb] in H. rewrite (bi_ops _ _ _ B) in H.
  assert (E : map Some (flat p) = [] ++ map Some (flat p) ++ []) by (rewrite app_nil_r; reflexivity).
  change (St clean f t) with (@ok F err f t) in H.
  destruct (exec n (map Some (flat p)) n 0 (ok f t)) as [[s1 ip]| |] eqn:X.
  - destruct (back cancel p T P n _ _ _ 0 n f t (Done (s1, ip)) ltac:(discriminate) E eq_refl X) as [(f1 & t1 & k1 & _ & V & G)|(f1 & t1 & e & w & i & V & G & L)].
    + left. exists f1, t1. split; [exact V|]. cbn [Nat.add] in G. rewrite <- (map_length Some), exec_end in G. injection G as <- <-.
      cbn [rbind ok s_ctx clean c_st] in H. congruence.
    + right. exists f1, t1, e, w. split; [exact V|]. injection G as -> ->. cbn [rbind Nat.add] in H. rewrite <- H. apply noted_exec, L.
  - cbn [rbind] in H. congruence.
  - exfalso. destruct (back cancel p T P n _ _ _ 0 n f t Stuck ltac:(discriminate) E eq_refl X) as [(f1 & t1 & k1 & _ & V & G)|(f1 & t1 & e & w & i & V & G & L)]; [|discriminate].
    cbn [Nat.add] in G. rewrite <- (map_length Some), exec_end in G. discriminate.
Qed.
Lemma exec_done n f t s : execute cancel n be (ok f t) = Done s ->
  (exists f1 t1, Ev cancel p f t (OK f1 t1) /\ Done s = Done (ok f1 t1)) \/
  (exists f1 t1 e w, Ev cancel p f t (KO f1 t1 e w) /\ Done s = Done (bad (noted e w) f1 t1)).
Proof. apply exec_back. discriminate. Qed.
Lemma exec_forth f t r : Ev cancel p f t r -> exists n, execute cancel n be (ok f t) =
  Done (match r with OK f1 t1 => ok f1 t1 | KO f1 t1 e w => bad (noted e w) f1 t1 end).
Proof.
  intros V. destruct (forth cancel p f t r V T P) as (N & K & G). exists (N + K).
  assert (E : map Some (flat p) = [] ++ map Some (flat p) ++ []) by (rewrite app_nil_r; reflexivity).
  specialize (G (N + K) ltac:(lia) _ _ _ 0 N E eq_refl). unfold execute, run_bound.
  cbn [ok s_ctx clean c_st c_jump c_sig negb andb Z.eqb]. rewrite (bi_ops _ _ _ B).
  change (St clean f t) with (@ok F err f t). rewrite (Nat.add_comm K N) in G.
  destruct r as [f1 t1|f1 t1 e w].
  - rewrite G. cbn [Nat.add]. rewrite <- (map_length Some), exec_end. reflexivity.
  - destruct G as (i & G & L). rewrite G. cbn [rbind Nat.add]. rewrite noted_exec with (w := w) by exact L. reflexivity.
Qed.
Lemma exec_tame : tame (exec_of be).
Proof.
  split.
  - intros n f t s H. destruct (exec_done n f t _ H) as [(f1 & t1 & _ & G)|(f1 & t1 & e & w & _ & G)]; injection G as ->; [left; reflexivity|right; eexists; reflexivity].
  - intros n f t H. destruct (exec_back n f t Stuck ltac:(discriminate) H) as [(f1 & t1 & _ & G)|(f1 & t1 & e & w & _ & G)]; discriminate.
  - intros n m f t s L H. unfold exec_of, execute, run_bound in *. cbn [s_ctx clean c_st c_jump c_sig negb andb Z.eqb] in *.
    rewrite (bi_ops _ _ _ B) in *. change (St clean f t) with (@ok F err f t) in *.
    destruct (exec n (map Some (flat p)) n 0 (ok f t)) as [[s1 ip]| |] eqn:X; [|discriminate|discriminate].
    rewrite (exec_mono (map Some (flat p)) ltac:(intros i o Ho; apply nth_error_In, in_map_iff in Ho as (o' & Eo & Ho); injection Eo as ->; exact (flat_reg p T _ Ho)) _ _ _ _ _ _ X m m L L). exact H.
  - intros n f t s H. destruct (exec_done n f t _ H) as [(f1 & t1 & V & G)|(f1 & t1 & e & w & V & G)]; injection G as ->; exact (ev_time _ _ _ _ V T).
Qed.
Lemma ends_ok f t f1 t1 : ends cancel be f t f1 t1 None <-> Ev cancel p f t (OK f1 t1).
Proof.
  split.
  - intros (n & H). destruct (exec_done n f t _ H) as [(f2 & t2 & V & G)|(f2 & t2 & e & w & _ & G)]; unfold ok, bad, clean in G; inversion G; subst; exact V.
  - intros V. exact (exec_forth _ _ _ V).
Qed.
Lemma ends_err f t f1 t1 e : ends cancel be f t f1 t1 (Some e) <-> exists e0 w, Ev cancel p f t (KO f1 t1 e0 w) /\ e = noted e0 w.
Proof.
  split.
  - intros (n & H). destruct (exec_done n f t _ H) as [(f2 & t2 & _ & G)|(f2 & t2 & e2 & w & V & G)]; unfold ok, bad, clean in G; inversion G; subst.
    exists e2, w. split; [exact V|reflexivity].
  - intros (e0 & w & V & ->). exact (exec_forth _ _ _ V).
Qed.
(** A run that succeeds has asked, and was not cancelled. *)
Definition asks (b : bexpr F err) : Prop := forall f t f1 t1, ends cancel b f t f1 t1 None -> exists u, t <= u < t1 /\ cancel u = None.
Lemma bound_asks : p <> [] -> asks be.
Proof.
  intros Hp f t f1 t1 H. apply ends_ok in H. clear B. destruct p as [|[o nd|c nd a b] q]; [congruence| |].
  - inversion T as [|? ? ? To Tq|]; subst. inversion H as [|? ? ? ? ? f2 t2 ? D C V| | | | | | | |]; subst.
    destruct D as (n & D). pose proof (tame_time o To n _ _ _ D) as L. cbn [s_t] in L. pose proof (ev_time _ _ _ _ V Tq) as L2. cbn in L2.
    exists t2. split; [lia|exact C].
  - inversion T as [| |? ? ? ? ? Ta Tb Tq]; subst.
    inversion H as [| | | | |? ? ? ? ? ? ? f2 t2 ? C Ca Va Cb V| | |? ? ? ? ? ? ? f2 t2 ? C Ca Vb V|]; subst.
    + apply ev_time in Va; [|exact Ta]. apply ev_time in V; [|exact Tq]. exists t. split; [lia|exact Ca].
    + apply ev_time in Vb; [|exact Tb]. apply ev_time in V; [|exact Tq]. exists t. split; [lia|exact Ca].
Qed.
End Bound.

Lemma functor_tame g : tame (functor_op (err := err) (F := F) g).
Proof. clear cancel note.
  split.
  - intros n f t s H. unfold functor_op in H. cbn [s_fr s_ctx s_t] in H. destruct (g f) as [f1 [e|]]; injection H as <-; [right; exists e; reflexivity|left; reflexivity].
  - intros n f t H. unfold functor_op in H. cbn [s_fr] in H. destruct (g f); discriminate.
  - intros n m f t s L H. exact H.
  - intros n f t s H. unfold functor_op in H. cbn [s_fr s_ctx s_t] in H. destruct (g f) as [f1 e]; injection H as <-. cbn [s_t]. lia.
Qed.
End T.
