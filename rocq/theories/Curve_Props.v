(** C71: piecewise linear curves. *)
From Coq Require Import QArith Lqa.
From Verif Require Import Base Curve_Model Curve_Spec Curve_Num Curve_Build Curve_Proofs Curve_Accept.
Local Open Scope nat_scope.
Local Open Scope list_scope.

(** A lower bound for the examples: the number of leading [true]s. *)
Fixpoint leading (l : list bool) : nat := match l with true :: t => S (leading t) | _ => 0 end.
Lemma leading_ok : lower_bound_ok leading.
Proof. intros i j. induction i as [|i IH]; cbn; [destruct j; reflexivity|f_equal; exact IH]. Qed.
Definition P (x y : Q) : point := mkPt (Fin x) (Fin y).
Definition ex_curve : list point := [P 0 1; P 1 1; P 2 5; P 4 6; P 5 6].
Definition ex_ray : list point := [mkPt NInf PInf; P 0 3; P 2 1; mkPt PInf NInf].
Definition get (o : option (unit + curve)) : curve := match o with Some (inr c) => c | _ => Constant NaN end.

(** The constructor never reads outside the points. *)
Theorem C71_total h ps : build h ps <> None.
Proof. apply build_total. Qed.
Print Assumptions C71_total.

(** The value of an accepted curve is the one on each part of the curve that [x] is on. *)
Theorem C71_value lb h ps c x y : lower_bound_ok lb -> hook_ok h -> no_nan ps -> spread h ps -> build h ps = Some (inr c) ->
  on_curve (h_in h) ps x y -> exists v, eval lb h c x = Some v /\ same v y.
Proof.
  intros LB HK NN SP Hc H. destruct (build_inv h ps c NN Hc) as (Inc & Ne & [(y0 & -> & Ny & Fl & _)|(b & e & b' & e' & first & last & front & back & B & ->)]).
  - apply const_rules with (ps := ps); assumption.
  - apply (rules h ps NN HK SP lb LB Inc b e b' e' first last front back B x y H).
Qed.
Print Assumptions C71_value.
(** Every number but NaN is on some part of the curve. *)
Theorem C71_everywhere h ps c x : hook_ok h -> no_nan ps -> build h ps = Some (inr c) -> x <> NaN -> exists y, on_curve (h_in h) ps x y.
Proof.
  intros HK NN Hc Nx. destruct (build_inv h ps c NN Hc) as (Inc & Ne & [(y0 & -> & Ny & Fl & _)|(b & e & b' & e' & first & last & front & back & B & ->)]).
  - apply const_covered with (y := y0); assumption.
  - apply (covered h ps NN HK Inc b e b' e' first last front back B x Nx).
Qed.
Print Assumptions C71_everywhere.
Example C71_value_ex : no_nan ex_curve /\ spread identity_hook ex_curve /\ hook_ok identity_hook /\ (exists c, build identity_hook ex_curve = Some (inr c)) /\
  map (fun x => match eval leading identity_hook (get (build identity_hook ex_curve)) x with Some (Fin q) => Some (Qred q) | _ => None end)
    [Fin (1 # 2); Fin (3 # 2); Fin 2; Fin 3; Fin 9; NInf] = [Some 1; Some 3; Some 5; Some (11 # 2); Some 6; Some 1]%Q /\
  on_curve (h_in identity_hook) ex_curve (Fin (3 # 2)) (Fin (line 1 1 2 5 (3 # 2))).
Proof.
  split; [|split; [|split; [|split; [|split]]]].
  - intros p H. cbn in H. repeat (destruct H as [<-|H]; [split; discriminate|]). destruct H.
  - intros i p q Hp Hq. do 5 (destruct i as [|i]; [try discriminate; injection Hp as <-; injection Hq as <-; cbn; lra|]). destruct i; discriminate.
  - apply identity_ok.
  - eexists. vm_compute. reflexivity.
  - vm_compute. reflexivity.
  - apply (oc_segment _ _ _ 1 (P 1 1) (P 2 5)); try reflexivity; [left; cbn; lra|left; cbn; lra| |]; split; reflexivity.
Qed.
Print Assumptions C71_value_ex.
Example C71_ray_ex : no_nan ex_ray /\ spread identity_hook ex_ray /\ (exists c, build identity_hook ex_ray = Some (inr c)) /\
  map (fun x => match eval leading identity_hook (get (build identity_hook ex_ray)) x with Some (Fin q) => Fin (Qred q) | Some v => v | None => NaN end)
    [Fin (-7); Fin 1; Fin 9; NInf; PInf] = [Fin 10; Fin 2; Fin (-6); PInf; NInf].
Proof.
  split; [|split; [|split]].
  - intros p H. cbn in H. repeat (destruct H as [<-|H]; [split; discriminate|]). destruct H.
  - intros i p q Hp Hq. do 4 (destruct i as [|i]; [try discriminate; injection Hp as <-; injection Hq as <-; cbn; try lra; exact I|]). destruct i; discriminate.
  - eexists. vm_compute. reflexivity.
  - vm_compute. reflexivity.
Qed.

(** All the parts of the curve agree: its value is determined. *)
Theorem C71_unique h ps c x y y' : hook_ok h -> no_nan ps -> spread h ps -> build h ps = Some (inr c) ->
  on_curve (h_in h) ps x y -> on_curve (h_in h) ps x y' -> same y y'.
Proof.
  intros HK NN SP Hc H H'. destruct (C71_value leading h ps c x y leading_ok HK NN SP Hc H) as (v & E & V). destruct (C71_value leading h ps c x y' leading_ok HK NN SP Hc H') as (v' & E' & V').
  rewrite E in E'. injection E' as <-. apply same_trans with v; [apply same_sym, V|exact V'].
Qed.
Print Assumptions C71_unique.

(** At a control point with finite coordinates the value is its y. *)
Theorem C71_control_point lb h ps c i p a y : lower_bound_ok lb -> hook_ok h -> no_nan ps -> spread h ps -> build h ps = Some (inr c) ->
  rd ps i = Some p -> h_in h (px p) = Fin a -> py p = Fin y -> exists v, eval lb h c (px p) = Some (Fin v) /\ (v == y)%Q.
Proof.
  intros LB HK NN SP Hc Hp Ha Hy. assert (Nx : px p <> NaN) by (apply NN, (nth_error_In _ _ Hp)).
  assert (K : exists w, on_curve (h_in h) ps (px p) w /\ same w (Fin y)).
  { destruct (Nat.eq_dec (S i) (List.length ps)) as [El|Nl].
    - exists (py p). split; [|rewrite Hy; cbn; lra]. apply oc_right; [rewrite <- Hp; f_equal; lia|apply nle_refl, Nx].
    - destruct (Nat.eq_dec i 0) as [->|N0]; [exists (py p); split; [|rewrite Hy; cbn; lra]; apply oc_left; [exact Hp|apply nle_refl, Nx]|].
      destruct (rd_lt ps (S i)) as (q & Hq); [apply rd_Some_lt in Hp; lia|].
      destruct (build_inv h ps c NN Hc) as (Inc & _ & [(y0 & -> & Ny & Fl & _)|(b & e & b' & e' & first & last & front & back & B & ->)]).
      + exists (py p). split; [|rewrite Hy; cbn; lra]. apply (oc_flat _ _ _ i p q); [exact Hp|exact Hq|apply nle_refl, Nx|apply nlt_le, (Inc i); assumption|apply same_trans with y0; [apply (Fl _ _ Hp)|apply same_sym, (Fl _ _ Hq)]].
      + (* the segment to the right, or the ray *)
        destruct (covered h ps NN HK Inc b e b' e' first last front back B (px p) Nx) as (w & Hw). exists w. split; [exact Hw|].
        assert (Lt : forall j k r s, j < k -> rd ps j = Some r -> rd ps k = Some s -> nlt (px r) (px s)) by (intros j k r s; apply (chain px ps Inc)).
        assert (Idx : forall j r, rd ps j = Some r -> nle (px r) (px p) -> j <= i) by (intros j r Hr L; destruct (Nat.le_gt_cases j i) as [K|K]; [exact K|]; destruct (nlt_irrefl _ _ (Lt i j p r K Hp Hr) L)).
        assert (Idx' : forall j r, rd ps j = Some r -> nle (px p) (px r) -> i <= j) by (intros j r Hr L; destruct (Nat.le_gt_cases i j) as [K|K]; [exact K|]; destruct (nlt_irrefl _ _ (Lt j i r p K Hr Hp) L)).
        inversion Hw as [r Hr L|r Hr L|j r s Hr Hs L1 L2 Sm|j r s a1 b1 c1 d1 t Hr Hs L1 L2 (R1 & R2) (S1 & S2) Et|p0 r s a1 b1 c1 d1 t H0 Hr Hs L1 L2 I0 (R1 & R2) (S1 & S2) Nd Et|p0 r s a1 b1 c1 d1 t Ln Hs Hr H0 L1 L2 I0 (R1 & R2) (S1 & S2) Nd Et|p0 r a1 c1 t H0 Hr L1 L2 I0 (R1 & R2) C Et|p0 r a1 c1 t Ln Hr H0 L1 L2 I0 (R1 & R2) C Et]; subst.
        * pose proof (Idx' _ _ Hr L). lia.
        * pose proof (Idx _ _ Hr L). apply rd_Some_lt in Hq. lia.
        * pose proof (Idx _ _ Hr L1) as K1. pose proof (Idx' _ _ Hs L2) as K2. assert (j = i \/ S j = i) as [->|<-] by lia.
          -- rewrite Hp in Hr. injection Hr as <-. rewrite Hy. cbn. lra.
          -- rewrite Hp in Hs. injection Hs as <-. rewrite Hy in Sm. exact Sm.
        * rewrite Ha in Et. injection Et as <-. pose proof (Idx _ _ Hr L1) as K1. pose proof (Idx' _ _ Hs L2) as K2. assert (j = i \/ S j = i) as [->|<-] by lia.
          -- rewrite Hp in Hr. injection Hr as <-. rewrite Ha in R1. rewrite Hy in R2. injection R1 as <-. injection R2 as <-. cbn. apply line_left. lra.
          -- rewrite Hp in Hs. injection Hs as <-. pose proof (SP _ _ _ Hr Hp) as K. rewrite R1, Ha in K. rewrite Ha in S1. rewrite Hy in S2. injection S1 as <-. injection S2 as <-. cbn. apply line_right; [exact K|lra].
        * rewrite Ha in Et. injection Et as <-. pose proof (Idx' _ _ Hr L2) as K2. assert (i = 1) as -> by lia. rewrite Hp in Hr. injection Hr as <-.
          rewrite Ha in R1. rewrite Hy in R2. injection R1 as <-. injection R2 as <-. cbn. apply line_left. lra.
        * rewrite Ha in Et. injection Et as <-. pose proof (Idx _ _ Hr L2) as K2. apply rd_Some_lt in Hq. assert (i = List.length ps - 2) as Ei by lia. rewrite <- Ei, Hp in Hr. injection Hr as <-.
          rewrite Ha in R1. rewrite Hy in R2. injection R1 as <-. injection R2 as <-. cbn. apply line_left. lra.
        * rewrite Ha in Et. injection Et as <-. pose proof (Idx' _ _ Hr L2) as K2. assert (i = 1) as -> by lia. rewrite Hp in Hr. injection Hr as <-.
          rewrite Ha in R1. rewrite Hy in R2. injection R1 as <-. injection R2 as <-. destruct (upward _ _); cbn; lra.
        * rewrite Ha in Et. injection Et as <-. pose proof (Idx _ _ Hr L2) as K2. apply rd_Some_lt in Hq. assert (i = List.length ps - 2) as Ei by lia. rewrite <- Ei, Hp in Hr. injection Hr as <-.
          rewrite Ha in R1. rewrite Hy in R2. injection R1 as <-. injection R2 as <-. destruct (upward _ _); cbn; lra. }
  destruct K as (w & Hw & Sw). destruct (C71_value lb h ps c (px p) w LB HK NN SP Hc Hw) as (v & E & V). pose proof (same_trans _ _ _ V Sw) as K.
  destruct (same_fin v y) as (z & -> & Ez); [apply same_sym, K|]. exists z. split; [exact E|]. rewrite Ez. reflexivity.
Qed.
Print Assumptions C71_control_point.

(** Points without infinities are accepted exactly if their x are increasing and the first is in
    the domain, or all y are the same. *)
Theorem C71_accept h ps : all_finite h ps ->
  ((exists c, build h ps = Some (inr c)) <->
   (forall i p q, rd ps i = Some p -> rd ps (S i) = Some q -> nlt (px p) (px q)) /\
   exists first, rd ps 0 = Some first /\ (validate_min h (px first) = true \/ forall i p q, rd ps i = Some p -> rd ps (S i) = Some q -> same (py p) (py q))).
Proof. apply build_finite. Qed.
Print Assumptions C71_accept.
Example C71_accept_ex : all_finite identity_hook ex_curve /\ build identity_hook [P 0 1; P 0 2] = Some (inl tt) /\ build (log_hook (fun x => x)) [P (-1) 1; P 0 2] = Some (inl tt) /\
  (exists c, build (log_hook (fun x => x)) [P (-1) 1; P 0 1] = Some (inr c)).
Proof.
  repeat split; try (vm_compute; reflexivity).
  - intros p H. cbn in H. repeat (destruct H as [<-|H]; [repeat eexists; reflexivity|]). destruct H.
  - eexists. vm_compute. reflexivity.
Qed.

(** In an accepted curve that is not constant, infinite y are at the ends only, at x that are
    infinite on the transformed axis. *)
Theorem C71_infinite h ps c i p : hook_ok h -> no_nan ps -> build h ps = Some (inr c) -> rd ps i = Some p -> infinite (py p) ->
  (exists y, c = Constant y /\ same y (py p)) \/ ((i = 0 \/ S i = List.length ps) /\ infinite (h_in h (px p))).
Proof.
  intros HK NN Hc Hp I. destruct (build_inv h ps c NN Hc) as (Inc & Ne & [(y0 & -> & Ny & Fl & _)|(b & e & b' & e' & first & last & front & back & B & ->)]).
  - left. exists y0. split; [reflexivity|]. apply same_sym, (Fl _ _ Hp).
  - right. apply (built_inf h ps b e b' e' first last front back NN HK Inc B i p Hp I).
Qed.
Print Assumptions C71_infinite.

(** The four hooks, given the library functions. *)
Theorem C71_hooks log log1p : lib_ok (Fin 0) log -> lib_ok (Fin (-1)) log1p -> same (log1p (Fin 0)) (Fin 0) ->
  hook_ok identity_hook /\ hook_ok (log_hook log) /\ hook_ok (log1p_hook log1p) /\ hook_ok (symlog1p_hook log1p).
Proof.
  intros H1 H2 H3. split; [apply identity_ok|]. split; [apply lib_hook; [discriminate|exact H1]|]. split; [apply lib_hook; [discriminate|exact H2]|]. apply symlog_ok; assumption.
Qed.
Print Assumptions C71_hooks.
Definition ex_log (x : num) : num := match x with Fin q => if Qle_bool q 0 then NInf else if Qle_bool q 1 then Fin (1 - (1 / q)) else Fin (q - 1) | PInf => PInf | _ => NaN end.
Example C71_hooks_ex : lib_ok (Fin (-1)) (fun x => x) /\ same ((fun x => x) (Fin 0)) (Fin 0) /\
  (exists c, build (log_hook ex_log) [mkPt (Fin 0) NInf; P 1 0; P 2 1] = Some (inr c)) /\ build (log_hook ex_log) [P 0 0; P 1 1] = Some (inl tt).
Proof.
  split; [|split; [|split]].
  - split; [intros x y _ H; exact H|]. intros x y H1 H2. destruct x, y; cbn in *; try tauto; eauto.
  - cbn. lra.
  - eexists. vm_compute. reflexivity.
  - vm_compute. reflexivity.
Qed.

(** Evaluation of a span, and at NaN. *)
Theorem C71_all lb h c xs ys : eval_all lb h c xs = Some ys <-> Forall2 (fun x y => eval lb h c x = Some y) xs ys.
Proof.
  revert ys. induction xs as [|x xs IH]; intros ys; cbn [eval_all fold_right].
  - split; [injection 1 as <-; constructor|]. intros H. inversion H. reflexivity.
  - change (fold_right _ (Some []) xs) with (eval_all lb h c xs). destruct (eval lb h c x) as [y|] eqn:E; cbn [bind].
    + destruct (eval_all lb h c xs) as [ys'|] eqn:E2; cbn [bind].
      * split; [injection 1 as <-; constructor; [exact E|apply IH; reflexivity]|]. intros H. inversion H as [|? ? ? ? H1 H2]; subst. apply IH in H2. congruence.
      * split; [discriminate|]. intros H. inversion H as [|? ? ? ? H1 H2]; subst. apply IH in H2. discriminate.
    + split; [discriminate|]. intros H. inversion H as [|? ? ? ? H1 H2]; subst. congruence.
Qed.
Print Assumptions C71_all.

(** NaN as the x of a control point is accepted. *)
Theorem C71_nan_refuted : exists c, build identity_hook [P 0 0; mkPt NaN (Fin 1); P 2 2] = Some (inr c) /\ eval leading identity_hook c (Fin 1) = Some NaN.
Proof. eexists. split; vm_compute; reflexivity. Qed.
Print Assumptions C71_nan_refuted.
(** Writing the constant part on the left with an explicit infinite point changes what is accepted. *)
Theorem C71_constant_start_refuted :
  (exists c, build identity_hook [P 0 5; P 1 6; P 2 6; P 3 7] = Some (inr c)) /\
  (exists c, build identity_hook [mkPt NInf (Fin 5); P 0 5; P 1 6; P 3 7] = Some (inr c)) /\
  build identity_hook [mkPt NInf (Fin 5); P 0 5; P 1 6; P 2 6; P 3 7] = Some (inl tt).
Proof. split; [eexists; vm_compute; reflexivity|]. split; [eexists; vm_compute; reflexivity|vm_compute; reflexivity]. Qed.
Print Assumptions C71_constant_start_refuted.
