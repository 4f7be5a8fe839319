(** Loops. *)
From Verif Require Import Base Jump_Model Jump_Spec Jump_Proofs Jump_Run Jump_Top.

Section L.
Context {F err node : Type}.
Notation bop := (bop F err).
Variable cancel : nat -> option err.
Notation exec_of := (@exec_of F err cancel).
Variables (co bo ct bt : bexpr F err) (cond : F -> bool) (init fin : F -> F).
Hypothesis Tco : tame (exec_of co).
Hypothesis Tbo : tame (exec_of bo).
Hypothesis Tct : tame (exec_of ct).
Hypothesis Tbt : tame (exec_of bt).
Notation wl := (while_loop cancel co bo ct bt cond fin).

(** The second half of a round. *)
Definition half (fuel k : nat) (s : st F err) : res (st F err) :=
  let! s3 := execute cancel fuel ct s in
  if failed s3 || negb (cond (s_fr s3)) then Done (copy fin s3) else
  let! s4 := execute cancel fuel bt s3 in
  if failed s4 then Done s4 else wl fuel k s4.
Lemma wl_S fuel k s : wl fuel (S k) s =
  (let! s1 := execute cancel fuel co s in
   if failed s1 || negb (cond (s_fr s1)) then Done s1 else
   let! s2 := execute cancel fuel bo s1 in
   if failed s2 then Done s2 else half fuel k s2).
Proof. reflexivity. Qed.

Lemma tame_cases be n f t : tame (exec_of be) ->
  execute cancel n be (ok f t) = More \/
  (exists f1 t1, t <= t1 /\ execute cancel n be (ok f t) = Done (ok f1 t1)) \/
  (exists f1 t1 e, t <= t1 /\ execute cancel n be (ok f t) = Done (bad e f1 t1)).
Proof.
  intros T. destruct (execute cancel n be (ok f t)) as [[c f1 t1]| |] eqn:E.
  - right. pose proof (tame_time _ T n f t _ E) as L. cbn [s_t] in L.
    destruct (tame_done _ T n f t _ E) as [C|(e & C)]; cbn [s_ctx] in C; subst c; [left; exists f1, t1|right; exists f1, t1, e]; auto.
  - left. reflexivity.
  - exfalso. exact (tame_stuck _ T n f t E).
Qed.
Ltac step be T := match goal with |- context [execute cancel ?n be (ok ?f ?t)] =>
  let f1 := fresh "f" in let t1 := fresh "t" in let e := fresh "e" in let L := fresh "L" in let E := fresh "E" in
  destruct (tame_cases be n f t T) as [E|[(f1 & t1 & L & E)|(f1 & t1 & e & L & E)]]; rewrite E; cbn [rbind failed ok bad s_ctx clean c_st orb s_fr]; fold (@ok F err f1 t1) end.
Ltac hstep be T := match goal with H : context [execute cancel ?n be (ok ?f ?t)] |- _ =>
  let f1 := fresh "f" in let t1 := fresh "t" in let e := fresh "e" in let L := fresh "L" in let E := fresh "E" in
  destruct (tame_cases be n f t T) as [E|[(f1 & t1 & L & E)|(f1 & t1 & e & L & E)]]; rewrite E in H;
  cbn [rbind failed ok bad s_ctx clean c_st orb s_fr] in H; try fold (@ok F err f1 t1) in H; try discriminate H end.

Definition good (t : nat) (s : st F err) : Prop := t <= s_t s /\ (s_ctx s = clean \/ exists e, s_ctx s = Ctx true 0 (Some e)).
Lemma wl_good : forall k n f t s, wl n k (ok f t) = Done s -> good t s.
Proof.
  induction k as [|k IH]; intros n f t s H; [discriminate|]. rewrite wl_S in H. unfold half in H.
  hstep co Tco.
  2:{ injection H as <-. split; [exact L|]. right. exists e. reflexivity. }
  destruct (cond f0) eqn:C; cbn [negb] in H.
  2:{ injection H as <-. split; [exact L|left; reflexivity]. }
  hstep bo Tbo.
  2:{ injection H as <-. split; [unfold ok, bad, copy; cbn [s_t]; lia|]. right. exists e. reflexivity. }
  hstep ct Tct.
  2:{ injection H as <-. split; [unfold ok, bad, copy; cbn [s_t]; lia|]. right. exists e. reflexivity. }
  destruct (cond f2) eqn:C2; cbn [negb] in H.
  2:{ injection H as <-. split; [unfold ok, bad, copy; cbn [s_t]; lia|left; reflexivity]. }
  hstep bt Tbt.
  2:{ injection H as <-. split; [unfold ok, bad, copy; cbn [s_t]; lia|]. right. exists e. reflexivity. }
  apply IH in H as [A B]. split; [lia|exact B].
Qed.
Lemma wl_not_stuck : forall k n f t, wl n k (ok f t) <> Stuck.
Proof.
  induction k as [|k IH]; intros n f t H; [discriminate|]. rewrite wl_S in H. unfold half in H.
  hstep co Tco. destruct (cond f0) eqn:C; cbn [negb] in H; [|discriminate].
  hstep bo Tbo. hstep ct Tct. destruct (cond f2) eqn:C2; cbn [negb] in H; [|discriminate].
  hstep bt Tbt. exact (IH _ _ _ H).
Qed.
Lemma wl_mono : forall k n f t s, wl n k (ok f t) = Done s -> forall m k2, n <= m -> k <= k2 -> wl m k2 (ok f t) = Done s.
Proof.
  assert (Up : forall be n m f t s, tame (exec_of be) -> n <= m -> execute cancel n be (ok f t) = Done s -> execute cancel m be (ok f t) = Done s).
  { intros be n m f t s T L. exact (tame_fuel _ T n m f t s L). }
  induction k as [|k IH]; intros n f t s H m k2 L1 L2; [discriminate|]. destruct k2 as [|k2]; [lia|].
  rewrite wl_S in H |- *. unfold half in *.
  hstep co Tco; apply (Up _ _ m _ _ _ Tco L1) in E; rewrite E; cbn [rbind failed ok bad s_ctx clean c_st orb s_fr].
  2:{ exact H. }
  destruct (cond f0) eqn:C; cbn [negb] in H |- *; [|exact H]. fold (@ok F err f0 t0).
  hstep bo Tbo; apply (Up _ _ m _ _ _ Tbo L1) in E0; rewrite E0; cbn [rbind failed ok bad s_ctx clean c_st orb s_fr].
  2:{ exact H. }
  fold (@ok F err f1 t1).
  hstep ct Tct; apply (Up _ _ m _ _ _ Tct L1) in E1; rewrite E1; cbn [rbind failed ok bad s_ctx clean c_st orb s_fr].
  2:{ exact H. }
  destruct (cond f2) eqn:C2; cbn [negb] in H |- *; [|exact H]. fold (@ok F err f2 t2).
  hstep bt Tbt; apply (Up _ _ m _ _ _ Tbt L1) in E2; rewrite E2; cbn [rbind failed ok bad s_ctx clean c_st orb s_fr].
  2:{ exact H. }
  fold (@ok F err f3 t3). apply (IH n _ _ _ H); lia.
Qed.
Lemma while_tame : tame (while_op cancel co bo ct bt cond init fin).
Proof.
  split.
  - intros n f t s H. apply wl_good in H. exact (proj2 H).
  - intros n f t H. exact (wl_not_stuck _ _ _ _ H).
  - intros n m f t s L H. exact (wl_mono _ _ _ _ _ H m m L L).
  - intros n f t s H. apply wl_good in H. exact (proj1 H).
Qed.

(** ** What it computes *)
Section Value.
Context {K V : Type} (k : F -> K) (rin rout rtmp : F -> V).
Variables (cnd : K -> V -> bool + err -> Prop) (bdy : K -> V -> V + err -> Prop).
Hypothesis Fc : forall x v a b, cnd x v a -> cnd x v b -> a = b.
Hypothesis Fb : forall x v a b, bdy x v a -> bdy x v b -> a = b.
Hypothesis Cco : computes cancel co k rout cnd cond rout.
Hypothesis Cbo : computes cancel bo k rout bdy rtmp (fun _ => tt).
Hypothesis Cct : computes cancel ct k rtmp cnd cond rtmp.
Hypothesis Cbt : computes cancel bt k rtmp bdy rout (fun _ => tt).
Hypothesis Hinit : forall f, rout (init f) = rin f /\ k (init f) = k f.
Hypothesis Hfin : forall f, rout (fin f) = rtmp f /\ k (fin f) = k f.
Notation Loops x := (Loops (cnd x) (bdy x)).

Definition says (x : K) (v : V) (s : st F err) : Prop :=
  match c_st (s_ctx s) with
  | None => Loops x v (inl (rout (s_fr s))) /\ k (s_fr s) = x
  | Some e => Loops x v (inr e)
  end.
Lemma wl_sound : forall j n f t s, wl n j (ok f t) = Done s -> says (k f) (rout f) s.
Proof.
  induction j as [|j IH]; intros n f t s H; [discriminate|]. rewrite wl_S in H. unfold half in H.
  hstep co Tco.
  2:{ injection H as <-. cbn. apply L_cond. apply (comp_err _ _ _ _ _ _ _ Cco f t f0 t0 e). exists n. exact E. }
  destruct (comp_ok _ _ _ _ _ _ _ Cco f t f0 t0) as (A1 & A2 & A3); [exists n; exact E|].
  destruct (cond f0) eqn:C; cbn [negb] in H.
  2:{ injection H as <-. cbn. rewrite A3, A2. split; [apply L_stop; exact A1|reflexivity]. }
  hstep bo Tbo.
  2:{ injection H as <-. cbn. apply L_body; [exact A1|]. rewrite <- A2, <- A3. apply (comp_err _ _ _ _ _ _ _ Cbo f0 t0 f1 t1 e). exists n. exact E0. }
  destruct (comp_ok _ _ _ _ _ _ _ Cbo f0 t0 f1 t1) as (B1 & B2 & _); [exists n; exact E0|]. rewrite A2 in B2. rewrite A2, A3 in B1.
  assert (Step : forall r, Loops (k f) (rtmp f1) r -> Loops (k f) (rout f) r) by (intros r R; eapply L_step; [exact A1|exact B1|exact R]).
  hstep ct Tct.
  2:{ injection H as <-. cbn. apply Step, L_cond. rewrite <- B2. apply (comp_err _ _ _ _ _ _ _ Cct f1 t1 f2 t2 e). exists n. exact E1. }
  destruct (comp_ok _ _ _ _ _ _ _ Cct f1 t1 f2 t2) as (C1 & C2 & C3); [exists n; exact E1|]. rewrite B2 in C1, C2.
  destruct (cond f2) eqn:Cc; cbn [negb] in H.
  2:{ injection H as <-. cbn. destruct (Hfin f2) as [-> ->]. rewrite C2, C3. split; [|reflexivity]. apply Step, L_stop. exact C1. }
  hstep bt Tbt.
  2:{ injection H as <-. cbn. apply Step, L_body; [exact C1|]. rewrite <- C2, <- C3. apply (comp_err _ _ _ _ _ _ _ Cbt f2 t2 f3 t3 e). exists n. exact E2. }
  destruct (comp_ok _ _ _ _ _ _ _ Cbt f2 t2 f3 t3) as (D1 & D2 & _); [exists n; exact E2|]. rewrite C2 in D1, D2. rewrite C3 in D1.
  apply IH in H. unfold says in *. rewrite D2 in H. destruct (c_st (s_ctx s)) as [e|].
  - apply Step. eapply L_step; [exact C1|exact D1|exact H].
  - destruct H as [H1 H2]. split; [|exact H2]. apply Step. eapply L_step; [exact C1|exact D1|exact H1].
Qed.
Lemma wl_complete x v r : Loops x v r ->
  (forall f t, k f = x -> rout f = v -> exists n j s, wl n j (ok f t) = Done s) /\
  (forall f t, k f = x -> rtmp f = v -> exists n j s, half n j (ok f t) = Done s).
Proof.
  assert (Ends : forall be n f t f1 t1 e, ends cancel be f t f1 t1 e -> tame (exec_of be) -> exists N, forall m, N <= m -> n <= m ->
    execute cancel m be (ok f t) = Done (match e with Some x => bad x f1 t1 | None => ok f1 t1 end)).
  { intros be n f t f1 t1 e (N & H) T. exists N. intros m L _. etransitivity; [exact (tame_fuel _ T N m f t _ L H)|destruct e; reflexivity]. }
  induction 1 as [v H|v e H|v e H1 H2|v w r H1 H2 _ (IHA & IHB)].
  - split; intros f t <- <-.
    + destruct (comp_all _ _ _ _ _ _ _ Cco f t _ H) as (f1 & t1 & e & E). destruct (Ends _ 0 _ _ _ _ _ E Tco) as (N & G).
      exists N, 1. destruct e as [e|].
      * eexists. rewrite wl_S, G by lia. reflexivity.
      * pose proof (Fc _ _ _ _ H (proj1 (comp_ok _ _ _ _ _ _ _ Cco f t f1 t1 E))) as Q. injection Q as Q. symmetry in Q.
        exists (ok f1 t1). rewrite wl_S, G by lia. cbn [rbind failed ok s_ctx clean c_st orb s_fr]. rewrite Q. reflexivity.
    + destruct (comp_all _ _ _ _ _ _ _ Cct f t _ H) as (f1 & t1 & e & E). destruct (Ends _ 0 _ _ _ _ _ E Tct) as (N & G).
      exists N, 1. unfold half. rewrite G by lia. destruct e as [e|]; [eexists; reflexivity|].
      pose proof (Fc _ _ _ _ H (proj1 (comp_ok _ _ _ _ _ _ _ Cct f t f1 t1 E))) as Q. injection Q as Q. symmetry in Q.
      cbn [rbind failed ok s_ctx clean c_st orb s_fr]. rewrite Q. eexists; reflexivity.
  - split; intros f t <- <-.
    + destruct (comp_all _ _ _ _ _ _ _ Cco f t _ H) as (f1 & t1 & e1 & E). destruct (Ends _ 0 _ _ _ _ _ E Tco) as (N & G).
      exists N, 1. destruct e1 as [e1|]; [eexists; rewrite wl_S, G by lia; reflexivity|].
      pose proof (Fc _ _ _ _ H (proj1 (comp_ok _ _ _ _ _ _ _ Cco f t f1 t1 E))) as Q. discriminate.
    + destruct (comp_all _ _ _ _ _ _ _ Cct f t _ H) as (f1 & t1 & e1 & E). destruct (Ends _ 0 _ _ _ _ _ E Tct) as (N & G).
      exists N, 1. unfold half. rewrite G by lia. destruct e1 as [e1|]; [eexists; reflexivity|].
      pose proof (Fc _ _ _ _ H (proj1 (comp_ok _ _ _ _ _ _ _ Cct f t f1 t1 E))) as Q. discriminate.
  - split; intros f t <- <-.
    + destruct (comp_all _ _ _ _ _ _ _ Cco f t _ H1) as (f1 & t1 & e1 & E). destruct (Ends _ 0 _ _ _ _ _ E Tco) as (N & G).
      destruct e1 as [e1|]; [exists N, 1; eexists; rewrite wl_S, G by lia; reflexivity|].
      destruct (comp_ok _ _ _ _ _ _ _ Cco f t f1 t1 E) as (A1 & A2 & A3).
      pose proof (Fc _ _ _ _ H1 A1) as Q. injection Q as Q. symmetry in Q. rewrite <- A2, <- A3 in H2.
      destruct (comp_all _ _ _ _ _ _ _ Cbo f1 t1 _ H2) as (f2 & t2 & e2 & E2). destruct (Ends _ 0 _ _ _ _ _ E2 Tbo) as (N2 & G2).
      destruct e2 as [e2|].
      2:{ pose proof (Fb _ _ _ _ H2 (proj1 (comp_ok _ _ _ _ _ _ _ Cbo f1 t1 f2 t2 E2))) as Q2. discriminate. }
      exists (max N N2), 1. rewrite wl_S, G by lia. cbn [rbind failed ok s_ctx clean c_st orb s_fr]. rewrite Q. cbn [negb]. fold (@ok F err f1 t1).
      rewrite G2 by lia. eexists; reflexivity.
    + destruct (comp_all _ _ _ _ _ _ _ Cct f t _ H1) as (f1 & t1 & e1 & E). destruct (Ends _ 0 _ _ _ _ _ E Tct) as (N & G).
      destruct e1 as [e1|]; [exists N, 1; eexists; unfold half; rewrite G by lia; reflexivity|].
      destruct (comp_ok _ _ _ _ _ _ _ Cct f t f1 t1 E) as (A1 & A2 & A3).
      pose proof (Fc _ _ _ _ H1 A1) as Q. injection Q as Q. symmetry in Q. rewrite <- A2, <- A3 in H2.
      destruct (comp_all _ _ _ _ _ _ _ Cbt f1 t1 _ H2) as (f2 & t2 & e2 & E2). destruct (Ends _ 0 _ _ _ _ _ E2 Tbt) as (N2 & G2).
      destruct e2 as [e2|].
      2:{ pose proof (Fb _ _ _ _ H2 (proj1 (comp_ok _ _ _ _ _ _ _ Cbt f1 t1 f2 t2 E2))) as Q2. discriminate. }
      exists (max N N2), 1. unfold half. rewrite G by lia. cbn [rbind failed ok s_ctx clean c_st orb s_fr]. rewrite Q. cbn [negb]. fold (@ok F err f1 t1).
      rewrite G2 by lia. eexists; reflexivity.
  - split; intros f t <- <-.
    + destruct (comp_all _ _ _ _ _ _ _ Cco f t _ H1) as (f1 & t1 & e1 & E). destruct (Ends _ 0 _ _ _ _ _ E Tco) as (N & G).
      destruct e1 as [e1|]; [exists N, 1; eexists; rewrite wl_S, G by lia; reflexivity|].
      destruct (comp_ok _ _ _ _ _ _ _ Cco f t f1 t1 E) as (A1 & A2 & A3).
      pose proof (Fc _ _ _ _ H1 A1) as Q. injection Q as Q. symmetry in Q. rewrite <- A2, <- A3 in H2.
      destruct (comp_all _ _ _ _ _ _ _ Cbo f1 t1 _ H2) as (f2 & t2 & e2 & E2). destruct (Ends _ 0 _ _ _ _ _ E2 Tbo) as (N2 & G2).
      destruct e2 as [e2|].
      { exists (max N N2), 1. rewrite wl_S, G by lia. cbn [rbind failed ok s_ctx clean c_st orb s_fr]. rewrite Q. cbn [negb]. fold (@ok F err f1 t1).
        rewrite G2 by lia. eexists; reflexivity. }
      destruct (comp_ok _ _ _ _ _ _ _ Cbo f1 t1 f2 t2 E2) as (B1 & B2 & _).
      pose proof (Fb _ _ _ _ H2 B1) as Q2. injection Q2 as Q2. symmetry in Q2.
      destruct (IHB f2 t2) as (n3 & j3 & s & S3); [congruence|exact Q2|].
      exists (max n3 (max N N2)), (S j3), s. rewrite wl_S, G by lia. cbn [rbind failed ok s_ctx clean c_st orb s_fr]. rewrite Q. cbn [negb]. fold (@ok F err f1 t1).
      rewrite G2 by lia. cbn [rbind failed ok s_ctx clean c_st orb s_fr]. fold (@ok F err f2 t2).
      unfold half in S3 |- *.
      hstep ct Tct; pose proof (tame_fuel _ Tct n3 (max n3 (max N N2)) f2 t2 _ (Nat.le_max_l _ _) E0) as U; unfold Jump_Top.exec_of in U; unfold ok at 1; rewrite U; cbn [rbind failed ok bad s_ctx clean c_st orb s_fr]; [|exact S3].
      destruct (cond f0) eqn:C0; cbn [negb] in S3 |- *; [|exact S3].
      hstep bt Tbt; pose proof (tame_fuel _ Tbt n3 (max n3 (max N N2)) f0 t0 _ (Nat.le_max_l _ _) E1) as U2; unfold Jump_Top.exec_of in U2; unfold ok at 1; rewrite U2; cbn [rbind failed ok bad s_ctx clean c_st orb s_fr]; [|exact S3].
      exact (wl_mono _ _ _ _ _ S3 _ _ (Nat.le_max_l _ _) (le_n _)).
    + destruct (comp_all _ _ _ _ _ _ _ Cct f t _ H1) as (f1 & t1 & e1 & E). destruct (Ends _ 0 _ _ _ _ _ E Tct) as (N & G).
      destruct e1 as [e1|]; [exists N, 1; eexists; unfold half; rewrite G by lia; reflexivity|].
      destruct (comp_ok _ _ _ _ _ _ _ Cct f t f1 t1 E) as (A1 & A2 & A3).
      pose proof (Fc _ _ _ _ H1 A1) as Q. injection Q as Q. symmetry in Q. rewrite <- A2, <- A3 in H2.
      destruct (comp_all _ _ _ _ _ _ _ Cbt f1 t1 _ H2) as (f2 & t2 & e2 & E2). destruct (Ends _ 0 _ _ _ _ _ E2 Tbt) as (N2 & G2).
      destruct e2 as [e2|].
      { exists (max N N2), 1. unfold half. rewrite G by lia. cbn [rbind failed ok s_ctx clean c_st orb s_fr]. rewrite Q. cbn [negb]. fold (@ok F err f1 t1).
        rewrite G2 by lia. eexists; reflexivity. }
      destruct (comp_ok _ _ _ _ _ _ _ Cbt f1 t1 f2 t2 E2) as (B1 & B2 & _).
      pose proof (Fb _ _ _ _ H2 B1) as Q2. injection Q2 as Q2. symmetry in Q2.
      destruct (IHA f2 t2) as (n3 & j3 & s & S3); [congruence|exact Q2|].
      exists (max n3 (max N N2)), j3, s. unfold half. rewrite G by lia. cbn [rbind failed ok s_ctx clean c_st orb s_fr]. rewrite Q. cbn [negb]. fold (@ok F err f1 t1).
      rewrite G2 by lia. cbn [rbind failed ok s_ctx clean c_st orb s_fr]. fold (@ok F err f2 t2).
      exact (wl_mono _ _ _ _ _ S3 _ _ (Nat.le_max_l _ _) (le_n _)).
Qed.
Lemma while_value f t :
  (forall f1 t1, does (while_op cancel co bo ct bt cond init fin) f t f1 t1 None -> Loops (k f) (rin f) (inl (rout f1)) /\ k f1 = k f) /\
  (forall f1 t1 e, does (while_op cancel co bo ct bt cond init fin) f t f1 t1 (Some e) -> Loops (k f) (rin f) (inr e)) /\
  (forall r, Loops (k f) (rin f) r -> exists f1 t1 e, does (while_op cancel co bo ct bt cond init fin) f t f1 t1 e).
Proof.
  destruct (Hinit f) as [I1 I2]. split; [|split].
  - intros f1 t1 (n & H). apply wl_sound in H. unfold says in H. cbn [s_ctx c_st clean s_fr] in H. rewrite I1, I2 in H. exact H.
  - intros f1 t1 e (n & H). apply wl_sound in H. unfold says in H. cbn [s_ctx c_st s_fr] in H. rewrite I1, I2 in H. exact H.
  - intros r H. destruct (proj1 (wl_complete _ _ _ H) (init f) t I2 I1) as (n & j & s & G).
    pose proof (wl_mono _ _ _ _ _ G (max n j) (max n j) (Nat.le_max_l _ _) (Nat.le_max_r _ _)) as G2.
    destruct (wl_good _ _ _ _ _ G) as (_ & [C|(e & C)]); destruct s as [c f1 t1]; cbn [s_ctx] in C; subst c.
    + exists f1, t1, None. exists (max n j). exact G2.
    + exists f1, t1, (Some e). exists (max n j). exact G2.
Qed.
End Value.

(** ** Cancellation ends loops *)
Section Cancel.
Definition total (be : bexpr F err) : Prop := forall f t, exists f1 t1 e, ends cancel be f t f1 t1 e.
Hypothesis Qco : total co.
Hypothesis Qbo : total bo.
Hypothesis Qct : total ct.
Hypothesis Qbt : total bt.
Hypothesis Asks : asks cancel co.
Variable lim : nat.
Hypothesis Sticky : forall u, lim <= u -> cancel u <> None.
Lemma wl_ends : forall d f t, lim - t <= d -> exists n j s, wl n j (ok f t) = Done s.
Proof.
  assert (Run : forall be f t, total be -> tame (exec_of be) -> exists f1 t1 e N, t <= t1 /\ ends cancel be f t f1 t1 e /\
    forall m, N <= m -> execute cancel m be (ok f t) = Done (match e with Some x => bad x f1 t1 | None => ok f1 t1 end)).
  { intros be f t Q T. destruct (Q f t) as (f1 & t1 & e & N & H). exists f1, t1, e, N.
    split; [exact (tame_time _ T N f t _ H)|]. split; [exists N; exact H|]. intros m L.
    etransitivity; [exact (tame_fuel _ T N m f t _ L H)|destruct e; reflexivity]. }
  induction d as [|d IH]; intros f t L.
  all: destruct (Run co f t Qco Tco) as (f1 & t1 & e1 & N1 & L1 & E1 & G1).
  all: destruct e1 as [e1|]; [exists N1, 1; eexists; rewrite wl_S, G1 by lia; reflexivity|].
  all: destruct (Asks f t f1 t1 E1) as (u & U1 & U2).
  - exfalso. apply (Sticky u); [lia|exact U2].
  - assert (UL : u < lim) by (destruct (le_lt_dec lim u) as [X|X]; [exfalso; exact (Sticky u X U2)|exact X]).
    destruct (cond f1) eqn:C.
    2:{ exists N1, 1. eexists. rewrite wl_S, G1 by lia. cbn [rbind failed ok s_ctx clean c_st orb s_fr]. rewrite C. reflexivity. }
    destruct (Run bo f1 t1 Qbo Tbo) as (f2 & t2 & e2 & N2 & L2 & _ & G2).
    destruct e2 as [e2|].
    { exists (max N1 N2), 1. eexists. rewrite wl_S, G1 by lia. cbn [rbind failed ok s_ctx clean c_st orb s_fr]. rewrite C. cbn [negb]. fold (@ok F err f1 t1). rewrite G2 by lia. reflexivity. }
    destruct (Run ct f2 t2 Qct Tct) as (f3 & t3 & e3 & N3 & L3 & _ & G3).
    destruct (match e3 with Some _ => false | None => cond f3 end) eqn:C3.
    2:{ exists (max N1 (max N2 N3)), 1. rewrite wl_S, G1 by lia. cbn [rbind failed ok s_ctx clean c_st orb s_fr]. rewrite C. cbn [negb]. fold (@ok F err f1 t1). rewrite G2 by lia.
        cbn [rbind failed ok s_ctx clean c_st orb s_fr]. fold (@ok F err f2 t2). unfold half. rewrite G3 by lia. destruct e3 as [e3|]; cbn [rbind failed ok bad s_ctx clean c_st orb s_fr]; [eexists; reflexivity|]. rewrite C3. eexists; reflexivity. }
    destruct e3 as [e3|]; [discriminate|].
    destruct (Run bt f3 t3 Qbt Tbt) as (f4 & t4 & e4 & N4 & L4 & _ & G4).
    destruct (IH f4 t4 ltac:(lia)) as (n & j & s & G).
    exists (max n (max (max N1 N2) (max N3 N4))), (S j). rewrite wl_S, G1 by lia. cbn [rbind failed ok s_ctx clean c_st orb s_fr]. rewrite C. cbn [negb]. fold (@ok F err f1 t1). rewrite G2 by lia.
    cbn [rbind failed ok s_ctx clean c_st orb s_fr]. fold (@ok F err f2 t2). unfold half. rewrite G3 by lia. cbn [rbind failed ok s_ctx clean c_st orb s_fr]. rewrite C3. cbn [negb]. fold (@ok F err f3 t3). rewrite G4 by lia.
    destruct e4 as [e4|]; cbn [rbind failed ok bad s_ctx clean c_st orb s_fr]; [eexists; reflexivity|]. fold (@ok F err f4 t4).
    exists s. exact (wl_mono _ _ _ _ _ G _ _ (Nat.le_max_l _ _) (le_n _)).
Qed.
Lemma while_ends f t : exists f1 t1 e, does (while_op cancel co bo ct bt cond init fin) f t f1 t1 e.
Proof.
  destruct (wl_ends (lim - t) (init f) t (le_n _)) as (n & j & s & G).
  pose proof (wl_mono _ _ _ _ _ G (max n j) (max n j) (Nat.le_max_l _ _) (Nat.le_max_r _ _)) as G2.
  destruct (wl_good _ _ _ _ _ G) as (_ & [C|(e & C)]); destruct s as [c f1 t1]; cbn [s_ctx] in C; subst c.
  - exists f1, t1, None. exists (max n j). exact G2.
  - exists f1, t1, (Some e). exists (max n j). exact G2.
Qed.
End Cancel.
End L.
