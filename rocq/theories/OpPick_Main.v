(** Proofs for [OpPick_Spec]: constraints, overloads and the operators built on them. *)
From Coq Require Import Sorted.
From Verif Require Import Base Visit_Model Visit_Proofs Lambda_Model Lambda_Spec Lambda_Proofs OpPick_Model OpPick_Spec OpPick_Proofs.

Lemma rd_mid {T} (pre : list T) x l i : length pre = i -> rd (pre ++ x :: l) i = Some x.
Proof. intros <-. unfold rd. rewrite nth_error_app2 by lia. rewrite Nat.sub_diag. reflexivity. Qed.
Lemma F2_len {A B} (R : A -> B -> Prop) l m : Forall2 R l m -> length l = length m.
Proof. induction 1; cbn; congruence. Qed.

Section Run.
Context {E : Type}.
Variable I : nat -> list val -> E + val.
Variable tuple_type : list nat -> nat.
Hypothesis tuple_known : forall l, tuple_type l <> 0.
Notation known := (known tuple_type).
Notation ready := (ready tuple_type).
Notation agrees := (agrees tuple_type).
Notation run := (run I tuple_type).
Notation run_all := (run_all I tuple_type).
Notation mean := (mean I).
Notation seen := (seen I tuple_type).
Notation decides := (decides I).
Notation names_type := (names_type I).

Lemma agrees_exists s seq : NoDup (s_names s) -> fits s (length seq) -> exists rho, agrees s seq rho.
Proof.
  intros Hn Hf. pose (e k := XPar k).
  exists (fun k => if existsb (key_eqb k) (s_names s)
                   then match field_of [k] (s_names s) 1 k with
                        | Some i => match OpPick_Model.run (fun _ (_ : list val) => inl tt) tuple_type seq (RField (pattern (s_variadic s) [k] (s_names s)) i) with Some (inr (VT t)) => t | _ => 0 end
                        | None => 0
                        end
                   else 0).
  intros k t K. assert (Hk : In k (s_names s)) by (destruct K as [_ [j [Hj _]]]; eapply nth_error_In; exact Hj).
  rewrite (proj2 (kin k _) Hk). destruct (field_some [k] (s_names s) 1 k (or_introl eq_refl) Hk) as [i Hi]. rewrite Hi.
  assert (Hu : forall x, In x [k] -> In x (s_names s)) by (intros x [<-|[]]; exact Hk).
  destruct (fields (fun _ (_ : list val) => inl tt) tuple_type tuple_known s [k] seq Hn Hf Hu) as [[_ [_ H]]|[H _]].
  - destruct (H k i Hi) as [t' [Ht K']]. etransitivity; [rewrite Ht; reflexivity|]. apply (known_fun tuple_type s seq k t' t Hn K' K).
  - exfalso. apply H. intros x [<-|[]]. eauto.
Qed.

(** Constraints. *)
Lemma prepare_constraints_total s cs : exists a, prepare_constraints s cs = Some a /\ ((exists l, a = inr l) <-> forall c, In c cs -> good s c).
Proof.
  induction cs as [|c t [a [Ha G]]]; cbn [prepare_constraints].
  - exists (inr []). split; [reflexivity|]. split; [intros _ c []|eauto].
  - destruct (resolve_total s c) as [b [-> Gb]]. cbn [bind]. destruct b as [e|[r rdy]].
    + exists (inl e). split; [reflexivity|]. split; [intros [l H]; discriminate|]. intros H. destruct (proj2 Gb (H c (or_introl eq_refl))); discriminate.
    + rewrite Ha. cbn [bind]. eexists. split; [reflexivity|]. destruct a as [e|l].
      * split; [intros [l H]; discriminate|]. intros H. destruct (proj2 G) as [l Hl]; [intros; apply H; right; assumption|discriminate].
      * split; [|eauto]. intros _ d [<-|Hd]; [apply Gb; eauto|]. apply G; eauto.
Qed.
Lemma prepare_inference_total s cs out : exists a, prepare_inference s cs out = Some a /\ ((exists l, a = inr l) <-> forall c, In c (out :: cs) -> good s c).
Proof.
  unfold prepare_inference. destruct (prepare_constraints_total s cs) as [a [-> G]]. cbn [bind]. destruct a as [e|l].
  - exists (inl e). split; [reflexivity|]. split; [intros [l H]; discriminate|]. intros H. destruct (proj2 G) as [l Hl]; [intros; apply H; right; assumption|discriminate].
  - destruct (resolve_total s out) as [b [-> Gb]]. cbn [bind]. eexists. split; [reflexivity|]. destruct b as [e|[r rdy]].
    + split; [intros [l' H]; discriminate|]. intros H. destruct (proj2 Gb (H out (or_introl eq_refl))); discriminate.
    + split; [|eauto]. intros _ d [<-|Hd]; [apply Gb; eauto|]. apply G; eauto.
Qed.
Definition pair_of s seq rho (c : ex) (p : bool * (E + val)) : Prop := (fst p = true <-> ready s seq c) /\ seen s seq rho c (snd p).
Lemma prepared_run s seq rho cs l : NoDup (s_names s) -> fits s (length seq) -> agrees s seq rho -> prepare_constraints s cs = Some (inr l) ->
  exists ps, Forall2 (pair_of s seq rho) cs ps /\ Forall2 (fun r x => run seq r = Some x) l (flat_map (fun p => [inr (VU (fst p)); snd p]) ps).
Proof.
  intros Hn Hf Hr. revert l. induction cs as [|c t IH]; intros l H; cbn [prepare_constraints] in H.
  - injection H as <-. exists []. split; constructor.
  - destruct (resolve s c) as [[e|[r rdy]]|] eqn:Ec; cbn [bind] in H; [discriminate| |discriminate].
    destruct (prepare_constraints s t) as [[e|l']|] eqn:Et; cbn [bind] in H; [discriminate| |discriminate]. injection H as <-.
    destruct (IH l' eq_refl) as [ps [H1 H2]]. destruct (resolve_run I tuple_type tuple_known s c seq r rdy rho Hn Hf Hr Ec) as [b [x [R1 [R2 [R3 R4]]]]].
    exists ((b, x) :: ps). split; [constructor; [split; assumption|exact H1]|]. cbn [flat_map app fst snd]. constructor; [exact R1|]. constructor; [exact R2|exact H2].
Qed.
Lemma inference_run s seq rho cs out l : NoDup (s_names s) -> fits s (length seq) -> agrees s seq rho -> prepare_inference s cs out = Some (inr l) ->
  exists ps p, Forall2 (pair_of s seq rho) cs ps /\ pair_of s seq rho out p /\
    run_all seq l = Some (join (flat_map (fun p => [inr (VU (fst p)); snd p]) (ps ++ [p]))).
Proof.
  intros Hn Hf Hr H. unfold prepare_inference in H. destruct (prepare_constraints s cs) as [[e|l']|] eqn:Ec; cbn [bind] in H; [discriminate| |discriminate].
  destruct (resolve s out) as [[e|[r rdy]]|] eqn:Eo; cbn [bind] in H; [discriminate| |discriminate]. injection H as <-.
  destruct (prepared_run s seq rho cs l' Hn Hf Hr Ec) as [ps [H1 H2]]. destruct (resolve_run I tuple_type tuple_known s out seq r rdy rho Hn Hf Hr Eo) as [b [x [R1 [R2 [R3 R4]]]]].
  exists ps, (b, x). split; [exact H1|]. split; [split; assumption|]. apply run_all_join. rewrite flat_map_app. apply Forall2_app; [exact H2|].
  cbn. constructor; [exact R1|]. constructor; [exact R2|constructor].
Qed.
Fixpoint find_bad (ps : list (bool * bool)) (i : nat) : option nat :=
  match ps with [] => None | p :: t => if fst p && negb (snd p) then Some i else find_bad t (S i) end.
Lemma constraint_loop_spec ps : forall pre i ar tl, length pre = 2 * i ->
  constraint_loop (E := E) (pre ++ flat_map (fun p => [VU (fst p); VU (snd p)]) ps ++ tl) (length ps) i ar =
  Some (match find_bad ps i with Some k => inl (Unsatisfied k) | None => inr (ar && forallb fst ps) end).
Proof.
  induction ps as [|[a b] t IH]; intros pre i ar tl Hl.
  - cbn. rewrite andb_true_r. reflexivity.
  - cbn [length constraint_loop flat_map app fst snd find_bad forallb]. rewrite (rd_mid pre) by exact Hl. cbn [bind as_unit].
    replace (pre ++ VU a :: VU b :: flat_map (fun p => [VU (fst p); VU (snd p)]) t ++ tl) with ((pre ++ [VU a; VU b]) ++ flat_map (fun p => [VU (fst p); VU (snd p)]) t ++ tl) by (rewrite <- app_assoc; reflexivity).
    assert (L : length (pre ++ [VU a; VU b]) = 2 * S i) by (rewrite app_length; cbn [length]; lia).
    destruct a; cbn [negb andb].
    + replace ((pre ++ [VU true; VU b]) ++ flat_map (fun p => [VU (fst p); VU (snd p)]) t ++ tl) with ((pre ++ [VU true]) ++ VU b :: flat_map (fun p => [VU (fst p); VU (snd p)]) t ++ tl) by (rewrite <- !app_assoc; reflexivity).
      rewrite rd_mid by (rewrite app_length; cbn [length]; lia). cbn [bind as_unit].
      destruct b; cbn [negb]; [|reflexivity].
      replace ((pre ++ [VU true]) ++ VU true :: flat_map (fun p => [VU (fst p); VU (snd p)]) t ++ tl) with ((pre ++ [VU true; VU true]) ++ flat_map (fun p => [VU (fst p); VU (snd p)]) t ++ tl) by (rewrite <- !app_assoc; reflexivity).
      apply IH. exact L.
    + rewrite IH by exact L. destruct (find_bad t (S i)); [reflexivity|]. rewrite andb_false_r. reflexivity.
Qed.
Definition verdict s seq rho (c : ex) (p : bool * bool) : Prop :=
  (fst p = true <-> ready s seq c) /\ (fst p = true -> mean rho seq c = inr (VU (snd p))).
Lemma find_bad_some s seq rho cs ps : Forall2 (verdict s seq rho) cs ps -> forall i k, find_bad ps i = Some k ->
  exists n c, k = i + n /\ nth_error cs n = Some c /\ ready s seq c /\ mean rho seq c = inr (VU false) /\
    forall j c', j < n -> nth_error cs j = Some c' -> ready s seq c' -> mean rho seq c' = inr (VU true).
Proof.
  induction 1 as [|c p cs ps [V1 V2] H IH]; intros i k Hk; [discriminate|]. cbn [find_bad] in Hk. destruct p as [a b]. cbn [fst snd] in *.
  destruct (a && negb b) eqn:Eb.
  - apply andb_true_iff in Eb. destruct Eb as [-> Eb]. destruct b; [discriminate|]. injection Hk as <-. exists 0, c. split; [lia|]. split; [reflexivity|].
    split; [apply V1; reflexivity|]. split; [apply V2; reflexivity|]. intros; lia.
  - destruct (IH (S i) k Hk) as [n [d [-> [H1 [H2 [H3 H4]]]]]]. exists (S n), d. split; [lia|]. split; [exact H1|]. split; [exact H2|]. split; [exact H3|].
    intros j c' Hj Hc Hrd. destruct j as [|j].
    + injection Hc as <-. apply V1 in Hrd. subst a. rewrite V2 by reflexivity. destruct b; [reflexivity|discriminate].
    + apply (H4 j c'); [lia|exact Hc|exact Hrd].
Qed.
Lemma find_bad_none s seq rho cs ps : Forall2 (verdict s seq rho) cs ps -> forall i, find_bad ps i = None ->
  (forall c, In c cs -> ready s seq c -> mean rho seq c = inr (VU true)) /\
  (if forallb fst ps then forall c, In c cs -> ready s seq c else exists c, In c cs /\ ~ ready s seq c).
Proof.
  induction 1 as [|c p cs ps [V1 V2] H IH]; intros i Hk; [split; [intros c []|intros c []]|]. cbn [find_bad] in Hk. destruct p as [a b]. cbn [fst snd] in *.
  destruct (a && negb b) eqn:Eb; [discriminate|]. destruct (IH (S i) Hk) as [H1 H2]. split.
  - intros d [<-|Hd] Hrd; [|apply H1; assumption]. apply V1 in Hrd. subst a. rewrite V2 by reflexivity. destruct b; [reflexivity|discriminate].
  - cbn [forallb fst]. destruct a; cbn [andb].
    + destruct (forallb fst ps).
      * intros d [<-|Hd]; [apply V1; reflexivity|auto].
      * destruct H2 as [d [Hd Hn]]. exists d. split; [right; exact Hd|exact Hn].
    + exists c. split; [left; reflexivity|]. intros Hrd. apply V1 in Hrd. discriminate.
Qed.
Lemma decided s seq rho cs ps : (forall c, In c cs -> decides seq c) -> Forall2 (pair_of s seq rho) cs ps ->
  exists bs, Forall2 (verdict s seq rho) cs bs /\ flat_map (fun p => [inr (VU (fst p)); snd p]) ps = map inr (flat_map (fun p => [VU (fst p); VU (snd p)]) bs) :> list (E + val).
Proof.
  intros Hd. induction 1 as [|c [a x] cs ps [P1 P2] H IH].
  - exists []. split; [constructor|reflexivity].
  - destruct IH as [bs [H1 H2]]; [intros; apply Hd; right; assumption|]. cbn [fst snd] in *.
    assert (exists b, x = inr (VU b) /\ (a = true -> mean rho seq c = inr (VU b))) as [b [-> Hb]].
    { destruct P2 as [[R ->]|[R ->]].
      - destruct (Hd c (or_introl eq_refl) rho) as [b Hb]. eauto.
      - destruct (Hd c (or_introl eq_refl) (fun _ => 0)) as [b Hb]. exists b. split; [exact Hb|]. intros Ha. apply P1 in Ha. contradiction. }
    exists ((a, b) :: bs). split; [constructor; [split; assumption|exact H1]|]. cbn [flat_map app map fst snd]. rewrite H2. reflexivity.
Qed.
Theorem infer_outcome s cs out l seq rho : NoDup (s_names s) -> fits s (length seq) -> agrees s seq rho ->
  (forall c, In c cs -> decides seq c) -> names_type seq out -> prepare_inference s cs out = Some (inr l) ->
  exists r, infer_type I tuple_type (length cs) l seq = Some r /\ outcome I tuple_type s cs out seq rho r.
Proof.
  intros Hn Hf Hr Hd Ht H. destruct (inference_run s seq rho cs out l Hn Hf Hr H) as [ps [[a x] [P1 [[P2 P3] P4]]]]. cbn [fst snd] in *.
  destruct (decided s seq rho cs ps Hd P1) as [bs [B1 B2]].
  assert (exists t, x = inr (VT t) /\ (a = true -> mean rho seq out = inr (VT t))) as [t [-> Hb]].
  { destruct P3 as [[R ->]|[R ->]].
    - destruct (Ht rho) as [b Hb]. eauto.
    - destruct (Ht (fun _ => 0)) as [b Hb]. exists b. split; [exact Hb|]. intros Ha. apply P2 in Ha. contradiction. }
  unfold infer_type. rewrite P4, flat_map_app, B2. cbn [flat_map app fst snd].
  change ([inr (VU a); inr (VT t)] : list (E + val)) with (map inr [VU a; VT t] : list (E + val)). rewrite <- map_app, join_inr. cbn [bind].
  rewrite (F2_len _ _ _ B1). set (vs := flat_map (fun p => [VU (fst p); VU (snd p)]) bs).
  assert (L : length vs = 2 * length bs).
  { unfold vs. clear. induction bs as [|p bs IH]; [reflexivity|]. cbn [flat_map app length] in *. lia. }
  rewrite (constraint_loop_spec bs [] 0 true [VU a; VT t] eq_refl : constraint_loop (E := E) (vs ++ [VU a; VT t]) (length bs) 0 true = _). cbn [bind andb].
  destruct (find_bad bs 0) as [k|] eqn:Ek.
  - eexists. split; [reflexivity|]. destruct (find_bad_some s seq rho cs bs B1 0 k Ek) as [n [c [-> [H1 [H2 [H3 H4]]]]]]. cbn [plus].
    apply (out_violated _ _ s cs out seq rho n c); assumption.
  - destruct (find_bad_none s seq rho cs bs B1 0 Ek) as [H1 H2]. destruct (forallb fst bs).
    + rewrite (rd_mid vs) by exact L. cbn [bind as_unit]. destruct a; cbn [negb].
      * replace (vs ++ [VU true; VT t]) with ((vs ++ [VU true]) ++ [VT t]) by (rewrite <- app_assoc; reflexivity).
        rewrite rd_mid by (rewrite app_length; cbn [length]; lia). cbn [bind as_type]. eexists. split; [reflexivity|].
        destruct (t =? 0) eqn:E0.
        -- apply Nat.eqb_eq in E0. subst t. apply out_nothing; [intros; split; [apply H2|apply H1; [|apply H2]]; assumption|apply P2; reflexivity|apply Hb; reflexivity].
        -- apply out_type; [intros; split; [apply H2|apply H1; [|apply H2]]; assumption|apply P2; reflexivity|apply Hb; reflexivity|apply Nat.eqb_neq; exact E0].
      * eexists. split; [reflexivity|]. apply (out_unknown _ _ s cs out seq rho out); [exact H1|left; reflexivity|]. intros R. apply P2 in R. discriminate.
    + cbn [bind negb]. eexists. split; [reflexivity|]. destruct H2 as [c [Hc Hc']]. apply (out_unknown _ _ s cs out seq rho c); [exact H1|right; exact Hc|exact Hc'].
Qed.
Lemma F2_in_l {A B} (R : A -> B -> Prop) l m x : Forall2 R l m -> In x l -> exists y, In y m /\ R x y.
Proof. induction 1 as [|a b l m Hab H IH]; intros Hx; [contradiction|]. destruct Hx as [<-|Hx]; [exists b; split; [left; reflexivity|exact Hab]|]. destruct (IH Hx) as [y [H1 H2]]. exists y. split; [right; exact H1|exact H2]. Qed.
Theorem infer_error s cs out l seq rho c e : NoDup (s_names s) -> fits s (length seq) -> agrees s seq rho ->
  prepare_inference s cs out = Some (inr l) -> In c (out :: cs) -> (ready s seq c \/ ~ ready s seq c) -> (forall x, seen s seq rho c x -> x = inl e) ->
  exists e', infer_type I tuple_type (length cs) l seq = Some (inl (EvalError e')).
Proof.
  intros Hn Hf Hr H Hc _ Hs. destruct (inference_run s seq rho cs out l Hn Hf Hr H) as [ps [p [P1 [P2 P3]]]].
  assert (exists q, In q (ps ++ [p]) /\ snd q = inl e) as [q [Hq Eq]].
  { destruct Hc as [<-|Hc].
    - exists p. split; [apply in_or_app; right; left; reflexivity|]. apply Hs, P2.
    - destruct (F2_in_l _ _ _ _ P1 Hc) as [y [Hy [_ Hy']]]. exists y. split; [apply in_or_app; left; exact Hy|]. apply Hs, Hy'. }
  unfold infer_type. rewrite P3. cbn [bind]. destruct (join_inl (flat_map (fun p => [inr (VU (fst p)); snd p]) (ps ++ [p])) e) as [e' ->].
  - apply in_flat_map. exists q. split; [exact Hq|]. right. left. exact Eq.
  - eauto.
Qed.

(** Overloads. *)
Fixpoint trues (bs : list bool) (i : nat) : list nat :=
  match bs with [] => [] | b :: t => if b then i :: trues t (S i) else trues t (S i) end.
Lemma in_trues bs : forall i j, In j (trues bs i) <-> exists k, j = i + k /\ nth_error bs k = Some true.
Proof.
  induction bs as [|b t IH]; intros i j; cbn [trues].
  - split; [intros []|intros [k [_ H]]; destruct k; discriminate].
  - assert (T : In j (trues t (S i)) <-> exists k, j = i + S k /\ nth_error t k = Some true).
    { rewrite IH. split; intros [k [-> H]]; exists k; split; auto; lia. }
    destruct b; cbn [In]; rewrite T; split.
    + intros [<-|[k [-> H]]]; [exists 0; split; [lia|reflexivity]|exists (S k); split; [reflexivity|exact H]].
    + intros [k [-> H]]. destruct k as [|k]; [left; lia|right; exists k; split; [reflexivity|exact H]].
    + intros [k [-> H]]. exists (S k). split; [reflexivity|exact H].
    + intros [k [-> H]]. destruct k as [|k]; [discriminate|]. exists k. split; [reflexivity|exact H].
Qed.
Lemma trues_sorted bs : forall i, StronglySorted lt (trues bs i).
Proof.
  induction bs as [|b t IH]; intros i; cbn [trues]; [constructor|]. destruct b; [|apply IH]. constructor; [apply IH|].
  apply Forall_forall. intros j Hj. apply in_trues in Hj. destruct Hj as [k [-> _]]. lia.
Qed.
Lemma other_matches_spec bs : forall pre i, length pre = S i -> other_matches (pre ++ map VU bs) (length bs) i = Some (trues bs i).
Proof.
  induction bs as [|b t IH]; intros pre i Hl; [reflexivity|]. cbn [length other_matches map trues]. rewrite rd_mid by exact Hl. cbn [bind as_unit].
  replace (pre ++ VU b :: map VU t) with ((pre ++ [VU b]) ++ map VU t) by (rewrite <- app_assoc; reflexivity).
  rewrite IH by (rewrite app_length; cbn [length]; lia). cbn [bind]. destruct b; reflexivity.
Qed.
Lemma first_match_spec bs : forall pre i, length pre = S i ->
  match first_match (pre ++ map VU bs) (length bs) i with
  | Some None => trues bs i = []
  | Some (Some k) => i <= k < i + length bs /\ trues bs i = k :: trues (skipn (S (k - i)) bs) (S k)
  | None => False
  end.
Proof.
  induction bs as [|b t IH]; intros pre i Hl; [reflexivity|]. cbn [length first_match map trues]. rewrite rd_mid by exact Hl. cbn [bind as_unit].
  destruct b.
  - split; [lia|]. rewrite Nat.sub_diag. reflexivity.
  - replace (pre ++ VU false :: map VU t) with ((pre ++ [VU false]) ++ map VU t) by (rewrite <- app_assoc; reflexivity).
    specialize (IH (pre ++ [VU false]) (S i)). rewrite app_length in IH. cbn [length] in IH. specialize (IH ltac:(lia)).
    destruct (first_match ((pre ++ [VU false]) ++ map VU t) (length t) (S i)) as [[k|]|]; [|exact IH|exact IH].
    destruct IH as [H1 H2]. split; [lia|]. rewrite H2. replace (k - i) with (S (k - S i)) by lia. reflexivity.
Qed.
Lemma matches_spec bs total a : length bs <= total ->
  (let vs := VU a :: map VU bs in
   let n := length vs - 1 in
   let? m := first_match vs n 0 in
   let first := match m with Some i => i | None => n end in
   let? others := other_matches vs (n - S first) (S first) in
   match others with
   | _ :: _ => Some (inl (Multiple (E := E) first others))
   | [] => Some (if first <? total then inr (Some first) else inl NoOverload)
   end) = Some (match trues bs 0 with
                | [] => if length bs <? total then inr (Some (length bs)) else inl NoOverload
                | [i] => inr (Some i)
                | i :: l => inl (Multiple i l)
                end).
Proof.
  intros Ht. cbv zeta. cbn [length]. rewrite map_length. replace (S (length bs) - 1) with (length bs) by lia.
  assert (F := first_match_spec bs [VU a] 0 eq_refl). cbn [app] in F. destruct (first_match (VU a :: map VU bs) (length bs) 0) as [[k|]|] eqn:Ef; [| |contradiction]; cbn [bind].
  - destruct F as [F1 F2]. rewrite Nat.sub_0_r in F2. 
    assert (O : other_matches (VU a :: map VU bs) (length bs - S k) (S k) = Some (trues (skipn (S k) bs) (S k))).
    { rewrite <- (firstn_skipn (S k) bs) at 1. rewrite map_app. change (VU a :: map VU (firstn (S k) bs) ++ map VU (skipn (S k) bs)) with ((VU a :: map VU (firstn (S k) bs)) ++ map VU (skipn (S k) bs)).
      rewrite <- (skipn_length (S k) bs). apply other_matches_spec. cbn [length]. rewrite map_length, firstn_length. lia. }
    rewrite O. cbn [bind]. rewrite F2. destruct (trues (skipn (S k) bs) (S k)); [|reflexivity].
    destruct (k <? total) eqn:El; [reflexivity|]. apply Nat.ltb_ge in El. lia.
  - rewrite F. replace (length bs - S (length bs)) with 0 by lia. reflexivity.
Qed.
Lemma good_op s o cs : (forall c, In c cs -> good s c) -> good s (XOp o cs).
Proof.
  intros H. split; intros k Hk.
  - inversion Hk; subst. destruct (H d) as [G _]; auto.
  - inversion Hk; subst. destruct (H d) as [_ G]; auto.
Qed.
Lemma ready_op s seq o cs : ready s seq (XOp o cs) <-> forall c, In c cs -> ready s seq c.
Proof.
  split.
  - intros H c Hc k Hk. apply H. apply (uses_op k o cs c); assumption.
  - intros H k Hk. inversion Hk; subst. apply (H d); assumption.
Qed.
Lemma prepare_dispatch_total s cs : exists a, prepare_dispatch s cs = Some a /\ ((exists l, a = inr l) <-> forall c, In c cs -> good s c).
Proof.
  assert (V : exists v, verify_conditions s cs = Some v /\ (v = None <-> forall c, In c cs -> good s c)).
  { induction cs as [|c t [v [Hv G]]]; cbn [verify_conditions].
    - exists None. split; [reflexivity|]. split; [intros _ c []|reflexivity].
    - destruct (resolve_total s c) as [b [-> Gb]]. cbn [bind]. destruct b as [e|p].
      + exists (Some e). split; [reflexivity|]. split; [discriminate|]. intros H. destruct (proj2 Gb (H c (or_introl eq_refl))); discriminate.
      + exists v. split; [exact Hv|]. rewrite G. split; [|intros; apply H; right; assumption]. intros H d [<-|Hd]; [apply Gb; eauto|auto]. }
  destruct V as [v [Hv G]]. unfold prepare_dispatch. rewrite Hv. cbn [bind]. destruct v as [e|].
  - exists (inl e). split; [reflexivity|]. split; [intros [l H]; discriminate|]. intros H. apply G in H. discriminate.
  - destruct (resolve_total s (XOp 0 cs)) as [b [Hb Gb]]. destruct (proj2 Gb (good_op s 0 cs (proj1 G eq_refl))) as [[r rdy] ->].
    destruct (resolve_parts s (XOp 0 cs) r rdy Hb) as [_ [_ Hr]]. rewrite Hb. cbn [bind]. rewrite replace_op in Hr.
    destruct (replace_all _ _ cs) as [rs|]; [|discriminate]. cbn [bind] in Hr. injection Hr as <-. eexists. split; [reflexivity|]. split; [intros _; apply G; reflexivity|eauto].
Qed.
Lemma dispatch_run s seq rho cs l : NoDup (s_names s) -> fits s (length seq) -> agrees s seq rho -> prepare_dispatch s cs = Some (inr l) ->
  exists b rho', run_all seq l = Some (join (inr (VU b) :: map (mean rho' seq) cs)) /\
    ((b = true /\ rho' = rho /\ forall c, In c cs -> ready s seq c) \/ (b = false /\ rho' = (fun _ => 0) /\ ~ forall c, In c cs -> ready s seq c)).
Proof.
  intros Hn Hf Hr H. unfold prepare_dispatch in H. destruct (verify_conditions s cs) as [[e|]|]; cbn [bind] in H; [discriminate| |discriminate].
  destruct (resolve s (XOp 0 cs)) as [[e|[r rdy]]|] eqn:Er; cbn [bind] in H; [discriminate| |discriminate].
  destruct (resolve_parts s (XOp 0 cs) r rdy Er) as [G [-> Hp]]. rewrite replace_op in Hp.
  destruct (replace_all _ _ cs) as [rs|] eqn:Ea; [|discriminate]. cbn [bind] in Hp. injection Hp as <-. injection H as <-.
  destruct (fields_rho I tuple_type tuple_known s (XOp 0 cs) seq Hn Hf G) as [[H1 [H2 H3]]|[H1 [H2 H3]]].
  - exists true, rho. split; [|left; split; [reflexivity|]; split; [reflexivity|]; apply (ready_op s seq 0), H1]. apply run_all_join. constructor.
    + exact (f_equal (fun b => Some (inr (VU b))) H2).
    + exact (replace_all_run I tuple_type seq _ _ rho 0 cs rs (H3 rho Hr) Ea).
  - exists false, (fun _ => 0). split; [|right; split; [reflexivity|]; split; [reflexivity|]; rewrite <- (ready_op s seq 0); exact H1]. apply run_all_join. constructor.
    + exact (f_equal (fun b => Some (inr (VU b))) H2).
    + exact (replace_all_run I tuple_type seq _ _ _ 0 cs rs H3 Ea).
Qed.
Lemma parse_dec s seq c : NoDup (s_names s) -> fits s (length seq) -> good s c -> ready s seq c \/ ~ ready s seq c.
Proof. intros Hn Hf G. destruct (fields_rho I tuple_type tuple_known s c seq Hn Hf G) as [[H _]|[H _]]; auto. Qed.
Theorem dispatch_choice s cs (dflt : bool) l seq rho : NoDup (s_names s) -> fits s (length seq) -> agrees s seq rho ->
  (forall c, In c cs -> decides seq c) -> prepare_dispatch s cs = Some (inr l) ->
  exists r, get_overload I tuple_type (length cs + if dflt then 1 else 0) l seq = Some r /\ choice I tuple_type s cs dflt seq rho r.
Proof.
  intros Hn Hf Hr Hd H. destruct (dispatch_run s seq rho cs l Hn Hf Hr H) as [b [rho' [R1 R2]]].
  assert (exists bs, map (mean rho' seq) cs = map (@inr E val) (map VU bs) /\ length bs = length cs) as [bs [Hb Lb]].
  { clear - Hd. induction cs as [|c t IH]; [exists []; split; reflexivity|]. destruct IH as [bs [H1 H2]]; [intros; apply Hd; right; assumption|].
    destruct (Hd c (or_introl eq_refl) rho') as [x Hx]. exists (x :: bs). cbn [map length]. rewrite Hx, H1, H2. split; reflexivity. }
  unfold get_overload. rewrite R1, Hb. change (inr (VU b) :: map inr (map VU bs)) with (map inr (VU b :: map VU bs) : list (E + val)). rewrite join_inr. cbn [bind].
  change (rd (VU b :: map VU bs) 0) with (Some (VU b)). cbn [bind as_unit]. destruct R2 as [[-> [-> R]]|[-> [_ R]]]; cbn [negb].
  - assert (Ht : length bs <= length cs + (if dflt then 1 else 0)) by lia.
    assert (M := matches_spec bs (length cs + if dflt then 1 else 0) true Ht). cbv zeta in M. rewrite M. clear M. eexists. split; [reflexivity|].
    assert (HH : forall j, holds I cs seq rho j <-> In j (trues bs 0)).
    { intros j. rewrite in_trues. unfold holds. split.
      - intros [c [Hc Hm]]. exists j. split; [reflexivity|]. assert (X : nth_error (map (mean rho seq) cs) j = Some (inr (VU true))) by (rewrite (map_nth_error _ _ _ Hc), Hm; reflexivity).
        rewrite Hb in X. destruct (nth_error bs j) as [x|] eqn:Ex.
        + rewrite (map_nth_error _ _ _ (map_nth_error VU _ _ Ex)) in X. injection X as ->. reflexivity.
        + apply nth_error_None in Ex. assert (nth_error (map inr (map VU bs)) j = None :> option (E + val)) by (apply nth_error_None; rewrite !map_length; exact Ex). congruence.
      - intros [k [-> Hk]]. cbn [plus]. destruct (nth_error cs k) as [c|] eqn:Ec.
        + exists c. split; [reflexivity|]. assert (X := map_nth_error (mean rho seq) _ _ Ec). rewrite Hb, (map_nth_error _ _ _ (map_nth_error VU _ _ Hk)) in X. congruence.
        + apply nth_error_None in Ec. assert (k < length bs) by (apply nth_error_Some; congruence). lia. }
    assert (S := trues_sorted bs 0). destruct (trues bs 0) as [|i [|j t]] eqn:Et.
    + rewrite Lb. destruct dflt.
      * rewrite (proj2 (Nat.ltb_lt _ _)) by lia. apply ch_default; [exact R| |reflexivity]. intros j Hj. apply HH in Hj. exact Hj.
      * rewrite (proj2 (Nat.ltb_ge _ _)) by lia. apply ch_none; [exact R| |reflexivity]. intros j Hj. apply HH in Hj. exact Hj.
    + apply ch_one; [exact R|]. intros j. rewrite HH. cbn [In]. intuition congruence.
    + apply ch_many; [exact R|discriminate|exact S|]. intros j0. rewrite HH. reflexivity.
  - eexists. split; [reflexivity|].
    assert (exists c, In c cs /\ ~ ready s seq c) as [c [Hc Hc']].
    { destruct (prepare_dispatch_total s cs) as [a [Ha G]]. rewrite H in Ha. injection Ha as <-. assert (G' := proj1 G (ex_intro _ l eq_refl)). clear - I R G' Hn Hf tuple_known.
      induction cs as [|c t IH]; [exfalso; apply R; intros c []|]. destruct (parse_dec s seq c Hn Hf (G' c (or_introl eq_refl))) as [Hc|Hc].
      - destruct IH as [d [H1 H2]]; [intros H; apply R; intros d [<-|Hd]; auto|intros; apply G'; right; assumption|]. exists d. split; [right; exact H1|exact H2].
      - exists c. split; [left; reflexivity|exact Hc]. }
    apply (ch_unknown _ _ s cs dflt seq rho c); assumption.
Qed.

(** More is known about the inputs. *)
Lemma refines_len seq seq' : refines seq seq' -> length seq = length seq'.
Proof. apply F2_len. Qed.
Lemma F2_nth {A B} (R : A -> B -> Prop) l m : Forall2 R l m -> forall i x, nth_error l i = Some x -> exists y, nth_error m i = Some y /\ R x y.
Proof. induction 1 as [|a b l m Hab H IH]; intros i x Hx; [destruct i; discriminate|]. destruct i as [|i]; [injection Hx as <-; exists b; split; [reflexivity|exact Hab]|]. exact (IH i x Hx). Qed.
Lemma F2_skipn {A B} (R : A -> B -> Prop) n : forall l m, Forall2 R l m -> Forall2 R (skipn n l) (skipn n m).
Proof. induction n as [|n IH]; intros l m H; [exact H|]. destruct H; [constructor|]. cbn. apply IH. assumption. Qed.
Lemma refines_full l m : refines l m -> ~ In 0 l -> l = m.
Proof. induction 1 as [|a b l m Hab H IH]; intros Hz; [reflexivity|]. destruct Hab as [->| ->]; [exfalso; apply Hz; left; reflexivity|]. f_equal. apply IH. intros X. apply Hz. right. exact X. Qed.
Lemma known_refines s seq seq' k t : refines seq seq' -> known s seq k t -> known s seq' k t.
Proof.
  intros Hr [Hz [j [Hj Hb]]]. split; [exact Hz|]. exists j. split; [exact Hj|]. destruct (s_variadic s && (S j =? length (s_names s))).
  - destruct Hb as [H1 ->]. assert (skipn j seq = skipn j seq') as <- by (apply refines_full; [apply F2_skipn, Hr|exact H1]). auto.
  - destruct (F2_nth _ _ _ Hr j t Hb) as [y [Hy [->| ->]]]; [congruence|exact Hy].
Qed.
Lemma ready_refines s seq seq' e : refines seq seq' -> ready s seq e -> ready s seq' e.
Proof. intros Hr H k Hk. destruct (H k Hk) as [t Ht]. exists t. exact (known_refines s seq seq' k t Hr Ht). Qed.
Lemma agrees_refines s seq seq' rho : refines seq seq' -> agrees s seq' rho -> agrees s seq rho.
Proof. intros Hr H k t Hk. apply H. exact (known_refines s seq seq' k t Hr Hk). Qed.
Lemma mean_same rho seq seq' e : (forall k, ~ reads k e) -> mean rho seq e = mean rho seq' e.
Proof.
  induction e as [v|k|k|o ds IH] using ex_rec'; intros H; try reflexivity.
  - exfalso. apply (H k). constructor.
  - rewrite !mean_op. assert (map (mean rho seq) ds = map (mean rho seq') ds) as ->; [|reflexivity]. apply map_ext_in. intros d Hd.
    rewrite Forall_forall in IH. apply IH; [exact Hd|]. intros k Hk. apply (H k). apply (reads_op k o ds d); assumption.
Qed.
Lemma outcome_fun s cs out seq rho r r' : outcome I tuple_type s cs out seq rho r -> outcome I tuple_type s cs out seq rho r' -> r = r'.
Proof.
  intros H H'. destruct H as [i c N R M F|c A C R|t A R M Z|A R M]; destruct H' as [i' c' N' R' M' F'|c' A' C' R'|t' A' R' M' Z'|A' R' M']; try reflexivity;
    try (assert (IN := nth_error_In _ _ N)); try (assert (IN' := nth_error_In _ _ N')).
  - destruct (Nat.lt_trichotomy i i') as [L|[->|L]]; [|reflexivity|].
    + rewrite (F' i c L N R) in M. discriminate.
    + rewrite (F i' c' L N' R') in M'. discriminate.
  - rewrite (A' c IN R) in M. discriminate.
  - rewrite (proj2 (A' c IN)) in M. discriminate.
  - rewrite (proj2 (A' c IN)) in M. discriminate.
  - rewrite (A c' IN' R') in M'. discriminate.
  - destruct C as [<-|C]; [contradiction|]. destruct (R (proj1 (A' c C))).
  - destruct C as [<-|C]; [contradiction|]. destruct (R (proj1 (A' c C))).
  - rewrite (proj2 (A c' IN')) in M'. discriminate.
  - destruct C' as [<-|C']; [contradiction|]. destruct (R' (proj1 (A c' C'))).
  - rewrite M in M'. injection M' as ->. reflexivity.
  - rewrite M in M'. injection M' as ->. contradiction.
  - rewrite (proj2 (A c' IN')) in M'. discriminate.
  - destruct C' as [<-|C']; [contradiction|]. destruct (R' (proj1 (A c' C'))).
  - rewrite M in M'. injection M' as <-. contradiction.
Qed.
Theorem infer_stable s cs out l seq seq' rho : NoDup (s_names s) -> fits s (length seq) -> agrees s seq' rho -> refines seq seq' ->
  (forall c k, In c (out :: cs) -> ~ reads k c) -> (forall c, In c cs -> decides seq c) -> names_type seq out -> prepare_inference s cs out = Some (inr l) ->
  match infer_type I tuple_type (length cs) l seq with
  | Some (inr (Some t)) => infer_type I tuple_type (length cs) l seq' = Some (inr (Some t))
  | Some (inl (Unsatisfied i)) => exists j, j <= i /\ infer_type I tuple_type (length cs) l seq' = Some (inl (Unsatisfied j))
  | _ => True
  end.
Proof.
  intros Hn Hf Hr Hs Hl Hd Ht H. assert (Hf' : fits s (length seq')) by (rewrite <- (refines_len _ _ Hs); exact Hf).
  assert (S : forall c rho, In c (out :: cs) -> mean rho seq c = mean rho seq' c) by (intros c rho0 Hc; apply mean_same; intros k; apply Hl, Hc).
  assert (Hd' : forall c, In c cs -> decides seq' c) by (intros c Hc r; destruct (Hd c Hc r) as [b Hb]; exists b; rewrite <- S; [exact Hb|right; exact Hc]).
  assert (Ht' : names_type seq' out) by (intros r; destruct (Ht r) as [b Hb]; exists b; rewrite <- S; [exact Hb|left; reflexivity]).
  destruct (infer_outcome s cs out l seq rho Hn Hf (agrees_refines s seq seq' rho Hs Hr) Hd Ht H) as [r [-> O]].
  destruct (infer_outcome s cs out l seq' rho Hn Hf' Hr Hd' Ht' H) as [r' [-> O']].
  destruct O as [i c N R M F|c A C R|t A R M Z|A R M]; try exact Logic.I.
  - assert (IN := nth_error_In _ _ N). assert (R2 := ready_refines s seq seq' c Hs R). rewrite S in M by (right; exact IN).
    destruct O' as [i' c' N' R' M' F'|c' A' C' R'|t' A' R' M' Z'|A' R' M'].
    + exists i'. split; [|reflexivity]. destruct (le_lt_dec i' i) as [L|L]; [exact L|]. rewrite (F' i c L N R2) in M. discriminate.
    + rewrite (A' c IN R2) in M. discriminate.
    + rewrite (proj2 (A' c IN)) in M. discriminate.
    + rewrite (proj2 (A' c IN)) in M. discriminate.
  - f_equal. apply (outcome_fun s cs out seq' rho); [exact O'|]. apply out_type; [|exact (ready_refines s seq seq' out Hs R)|rewrite <- S; [exact M|left; reflexivity]|exact Z].
    intros c Hc. destruct (A c Hc) as [A1 A2]. split; [exact (ready_refines s seq seq' c Hs A1)|]. rewrite <- S; [exact A2|right; exact Hc].
Qed.
Theorem dispatch_stable s cs (dflt : bool) l seq seq' rho : NoDup (s_names s) -> fits s (length seq) -> agrees s seq' rho -> refines seq seq' ->
  (forall c k, In c cs -> ~ reads k c) -> (forall c, In c cs -> decides seq c) -> prepare_dispatch s cs = Some (inr l) ->
  let g q := get_overload I tuple_type (length cs + if dflt then 1 else 0) l q in
  g seq = Some (inr None) \/ g seq' = g seq.
Proof.
  intros Hn Hf Hr Hs Hl Hd H g. assert (Hf' : fits s (length seq')) by (rewrite <- (refines_len _ _ Hs); exact Hf).
  destruct (dispatch_run s seq rho cs l Hn Hf (agrees_refines s seq seq' rho Hs Hr) H) as [b [r1 [R1 R2]]].
  destruct (dispatch_run s seq' rho cs l Hn Hf' Hr H) as [b' [r2 [R1' R2']]].
  destruct R2 as [[-> [-> R]]|[-> [_ R]]].
  - right. assert (R' : forall c, In c cs -> ready s seq' c) by (intros c Hc; apply (ready_refines s seq seq' c Hs), R, Hc).
    destruct R2' as [[-> [-> _]]|[_ [_ X]]]; [|contradiction]. unfold g, get_overload. rewrite R1, R1'.
    assert (map (mean rho seq) cs = map (mean rho seq') cs) as ->; [|reflexivity]. apply map_ext_in. intros c Hc. apply mean_same. intros k. apply Hl, Hc.
  - left. destruct (dispatch_choice s cs (dflt : bool) l seq rho Hn Hf (agrees_refines s seq seq' rho Hs Hr) Hd H) as [r [Hg O]]. unfold g. rewrite Hg.
    destruct O; [reflexivity|contradiction..].
Qed.
End Run.
