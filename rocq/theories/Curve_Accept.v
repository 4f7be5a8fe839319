From Coq Require Import QArith Lqa.
From Verif Require Import Base Curve_Model Curve_Spec Curve_Num Curve_Build Curve_Proofs.
Local Open Scope nat_scope.
Local Open Scope list_scope.

Ltac in_range := repeat match goal with |- context [rd ?l ?i] => let x := fresh "x" in let H := fresh "H" in destruct (rd_lt l i) as (x & H); [lia|rewrite H; cbn [bind]] end.
Lemma build_total h ps : build h ps <> None.
Proof.
  unfold build, common_checks. destruct ps as [|first ps0]; [cbn [bind]; discriminate|]. remember (first :: ps0) as ps eqn:Eps.
  assert (Ne : ps <> []) by (rewrite Eps; discriminate). clear Eps. destruct (negb (increasing ps)); [cbn [bind]; discriminate|].
  destruct (trim_ok ps Ne) as (b & e & B1 & B2 & -> & _). pose proof (slice_length b e ps B2) as SL. destruct (rd_last ps Ne) as (last & Hl). rewrite Hl.
  set (l := slice b e ps) in *. destruct (Nat.eqb_spec (List.length l) 1) as [E1|N1]; cbn [bind].
  - rewrite E1. cbn [Nat.eqb]. in_range. discriminate.
  - match goal with |- context [bind (if 3 <=? List.length l then ?X else Some false) ?F] => assert (EX : exists v, (if 3 <=? List.length l then X else Some false) = Some v) end.
    { destruct (Nat.leb_spec 3 (List.length l)); [|eauto]. cbn [bind]. in_range. eauto. }
    destruct EX as (bad & ->). cbn [bind]. destruct bad; [discriminate|]. destruct (validate_min h (px first)); cbn [bind]; [|discriminate].
    in_range. destruct (Nat.eqb_spec (List.length l) 1) as [|_]; [contradiction|]. in_range.
    match goal with |- context [bind (if 3 <=? List.length l then ?X else Some false) ?F] => assert (EX : exists v, (if 3 <=? List.length l then X else Some false) = Some v) end.
    { destruct (Nat.leb_spec 3 (List.length l)); [|eauto]. in_range. eauto. }
    destruct EX as (wrong & ->). cbn [bind]. destruct wrong; [discriminate|].
    match goal with |- bind ?X _ <> _ => assert (EX : exists v, X = Some v) end.
    { destruct (isinf (px _)); [destruct (negb _); [eauto|destruct (tl l); eauto]|destruct (isinf _); eauto]. }
    destruct EX as ([[l1 tf]|] & ->); cbn [bind]; [|discriminate].
    match goal with |- bind ?X _ <> _ => assert (EX : exists v, X = Some v) end.
    { destruct (isinf (px _)); [destruct (negb _); [eauto|destruct (removelast l1); eauto]|destruct (isinf _); eauto]. }
    destruct EX as ([l2|] & ->); cbn [bind]; [|discriminate]. destruct (existsb _ _); discriminate.
Qed.

(** ** Points without infinities *)
Definition all_finite (h : hook) (ps : list point) : Prop := forall p, In p ps -> exists x a c, px p = Fin x /\ h_in h (px p) = Fin a /\ py p = Fin c.
Lemma finite_no_nan h ps : all_finite h ps -> no_nan ps.
Proof. intros H p Hp. destruct (H p Hp) as (x & a & c & -> & _ & ->). split; discriminate. Qed.
Lemma build_finite h ps : all_finite h ps ->
  ((exists c, build h ps = Some (inr c)) <->
   (forall i p q, rd ps i = Some p -> rd ps (S i) = Some q -> nlt (px p) (px q)) /\
   exists first, rd ps 0 = Some first /\ (validate_min h (px first) = true \/ forall i p q, rd ps i = Some p -> rd ps (S i) = Some q -> same (py p) (py q))).
Proof.
  intros AF. pose proof (finite_no_nan h ps AF) as NN. split.
  - intros (c & H). destruct (build_inv h ps c NN H) as (Inc & Ne & C). split; [exact Inc|].
    destruct (rd_lt ps 0) as (first & H0); [destruct ps; [congruence|cbn; lia]|]. exists first. split; [exact H0|].
    destruct C as [(y & _ & _ & Fl & _)|(b & e & b' & e' & first' & last & front & back & B & _)].
    + right. intros i p q Hp Hq. apply same_trans with y; [apply (Fl _ _ Hp)|apply same_sym, (Fl _ _ Hq)].
    + left. pose proof (bt_first _ _ _ _ _ _ _ _ _ _ B) as K. rewrite H0 in K. injection K as <-. apply (bt_valid _ _ _ _ _ _ _ _ _ _ B).
  - intros (Inc & first & H0 & C). unfold build, common_checks. destruct ps as [|first' ps0]; [discriminate|]. injection H0 as ->. remember (first :: ps0) as ps eqn:Eps.
    assert (Ne : ps <> []) by (rewrite Eps; discriminate). assert (Hin : In first ps) by (rewrite Eps; left; reflexivity). clear Eps ps0.
    rewrite (proj2 (increasing_ok ps (fun p Hp => proj1 (NN p Hp))) Inc). cbn [negb].
    destruct (trim_ok ps Ne) as (b & e & B1 & B2 & -> & _ & _ & B5). pose proof (slice_length b e ps B2) as SL. destruct (rd_last ps Ne) as (last & Hl). rewrite Hl.
    assert (Sub : forall p, In p (slice b e ps) -> In p ps).
    { intros p Hp. unfold slice in Hp. rewrite <- (firstn_skipn b ps). apply in_or_app. right. rewrite <- (firstn_skipn (e - b) (skipn b ps)). apply in_or_app. left. exact Hp. }
    assert (Rd : forall i p, rd (slice b e ps) i = Some p -> exists x a c, px p = Fin x /\ h_in h (px p) = Fin a /\ py p = Fin c) by (intros i p Hp; apply AF, Sub, (nth_error_In _ _ Hp)).
    destruct (Nat.eqb_spec (List.length (slice b e ps)) 1) as [E1|N1]; cbn [bind].
    + rewrite E1. cbn [Nat.eqb]. set (l := slice b e ps) in *. in_range. eauto.
    + destruct C as [Val|Fl].
      2:{ exfalso. destruct B5 as [B5 _]; [lia|]. destruct (rd_lt ps b) as (p & Hp); [lia|]. destruct (rd_lt ps (S b)) as (q & Hq); [lia|]. apply (B5 p q Hp Hq), (Fl b); assumption. }
      destruct (AF first Hin) as (x1 & a1 & c1 & X1 & X2 & X3). destruct (AF last (nth_error_In _ _ Hl)) as (x2 & a2 & c2 & Y1 & Y2 & Y3).
      rewrite X1, X3, Y1, Y3. cbn [bind isinf orb andb].
      set (l := slice b e ps) in *.
      match goal with |- context [bind (if 3 <=? List.length l then ?X else Some false) ?F] => assert (EX : (if 3 <=? List.length l then X else Some false) = Some false) end.
      { destruct (Nat.leb_spec 3 (List.length l)); [|reflexivity]. in_range. reflexivity. }
      rewrite EX. clear EX. cbn [bind]. rewrite <- X1, Val. cbn [bind].
      destruct (rd_lt l 0) as (front & Hf); [lia|]. rewrite Hf. cbn [bind]. destruct (Nat.eqb_spec (List.length l) 1) as [|_]; [contradiction|].
      destruct (rd_lt l (List.length l - 1)) as (back & Hb); [lia|]. rewrite Hb. cbn [bind].
      destruct (Rd _ _ Hf) as (xf & af & cf & F1 & F2 & F3). destruct (Rd _ _ Hb) as (xb & ab & cb & G1 & G2 & G3).
      unfold transform. cbn [px py]. rewrite F2, F3, G2, G3. cbn [isinf andb orb].
      match goal with |- context [bind (if 3 <=? List.length l then ?X else Some false) ?F] => assert (EX : (if 3 <=? List.length l then X else Some false) = Some false) end.
      { destruct (Nat.leb_spec 3 (List.length l)); [|reflexivity]. in_range. reflexivity. }
      rewrite EX. clear EX. cbn [bind].
      assert (EX : existsb (fun p => isinf (py p)) l = false).
      { destruct (existsb _ l) eqn:E; [|reflexivity]. apply existsb_exists in E. destruct E as (p & Hp & I). destruct (AF p (Sub p Hp)) as (x & a & c & _ & _ & E). rewrite E in I. discriminate. }
      rewrite EX. eauto.
Qed.

(** Infinite values are at the ends only. *)
Lemma built_inf h ps b e b' e' first last front back : no_nan ps -> hook_ok h ->
  (forall i p q, rd ps i = Some p -> rd ps (S i) = Some q -> nlt (px p) (px q)) ->
  built h ps b e b' e' first last front back -> forall i p, rd ps i = Some p -> infinite (py p) -> (i = 0 \/ S i = List.length ps) /\ infinite (h_in h (px p)).
Proof.
  intros NN HK Inc B i p Hp I. pose proof (bt_range _ _ _ _ _ _ _ _ _ _ B) as R. pose proof (bt_front _ _ _ _ _ _ _ _ _ _ B) as Hf. pose proof (bt_back _ _ _ _ _ _ _ _ _ _ B) as Hb.
  pose proof (bt_first _ _ _ _ _ _ _ _ _ _ B) as H0. pose proof (bt_last _ _ _ _ _ _ _ _ _ _ B) as Hl.
  assert (Fin_ : forall x y, nlt (px first) x -> nlt x y -> ~ infinite (h_in h x)).
  { intros x y L1 L2 K. destruct (proj2 (HK _ (bt_valid _ _ _ _ _ _ _ _ _ _ B)) x y L1 L2) as (q & E). rewrite E in K. destruct K; discriminate. }
  pose proof (chain px ps Inc) as Lt.
  assert (FI : infinite (py front) -> b = 0 /\ infinite (h_in h (px front))).
  { intros K. destruct (bt_b _ _ _ _ _ _ _ _ _ _ B) as [(_ & _ & K2)|(_ & K2 & _)]; [contradiction|]. split; [|exact K2]. destruct (Nat.eq_dec b 0) as [E|N]; [exact E|].
    exfalso. apply (Fin_ (px front) (px back)); [apply (Lt b 0); [lia|exact H0|exact Hf]|apply (Lt (e - 1) b); [lia|exact Hf|exact Hb]|exact K2]. }
  assert (BI : infinite (py back) -> e = List.length ps /\ infinite (h_in h (px back))).
  { intros K. destruct (bt_e _ _ _ _ _ _ _ _ _ _ B) as [(_ & _ & K2)|(_ & K2 & _)]; [contradiction|]. split; [|exact K2]. destruct (Nat.eq_dec e (List.length ps)) as [E|N]; [exact E|].
    exfalso. apply (Fin_ (px back) (px last)); [apply (Lt (e - 1) 0); [lia|exact H0|exact Hb]|apply (Lt (List.length ps - 1) (e - 1)); [lia|exact Hb|exact Hl]|exact K2]. }
  destruct (Nat.lt_trichotomy i b) as [L|[->|G]].
  - destruct FI as [-> _]; [|lia]. apply same_inf with (py p); [apply (bt_pre _ _ _ _ _ _ _ _ _ _ B i); assumption|exact I].
  - rewrite Hf in Hp. injection Hp as <-. destruct (FI I) as [-> K]. auto.
  - destruct (Nat.lt_trichotomy i (e - 1)) as [L|[->|G2]].
    + exfalso. apply (bt_fin _ _ _ _ _ _ _ _ _ _ B i p); [destruct (bt_b _ _ _ _ _ _ _ _ _ _ B) as [(-> & _)|(-> & _)]; lia|destruct (bt_e _ _ _ _ _ _ _ _ _ _ B) as [(-> & _)|(E & _)]; lia|exact Hp|exact I].
    + rewrite Hb in Hp. injection Hp as <-. destruct (BI I) as [E K]. split; [right; lia|exact K].
    + destruct BI as [E _]; [|apply rd_Some_lt in Hp; lia]. apply same_inf with (py p); [apply (bt_post _ _ _ _ _ _ _ _ _ _ B i); [lia|exact Hp]|exact I].
Qed.

(** ** The hooks *)
Lemma identity_ok : hook_ok identity_hook.
Proof.
  intros m _. split; [intros x y _ H; exact H|]. cbn. intros x y H1 H2. destruct m, x, y; cbn in *; try tauto; eauto.
Qed.
(** What is asked of a library function that is increasing from [lo] on, and finite in between. *)
Definition lib_ok (lo : num) (f : num -> num) : Prop :=
  (forall x y, nle lo x -> nle x y -> nle (f x) (f y)) /\ (forall x y, nlt lo x -> nlt x y -> exists q, f x = Fin q).
Lemma lib_hook lo f : lo <> NaN -> lib_ok lo f -> hook_ok (mkHook (fun m => negb (num_lt m lo)) f).
Proof.
  intros Nl [F1 F2] m Hm. cbn in *. apply negb_true_iff in Hm.
  assert (K : m <> NaN -> nle lo m).
  { intros Nm. destruct (nle_or_lt lo m Nl Nm) as [H|H]; [exact H|]. apply num_lt_ok in H. congruence. }
  split.
  - intros x y H1 H2. apply F1; [|exact H2]. apply nle_trans with m; [apply K, (nle_nan _ _ H1)|exact H1].
  - intros x y H1 H2. apply (F2 x y); [|exact H2]. apply nle_lt_trans with m; [apply K, (nlt_nan _ _ H1)|exact H1].
Qed.
Lemma neg_le a b : nle a b -> nle (neg b) (neg a).
Proof. nums. Qed.
Lemma neg_lt a b : nlt a b -> nlt (neg b) (neg a).
Proof. nums. Qed.
Lemma symlog_ok f : lib_ok (Fin (-1)) f -> same (f (Fin 0)) (Fin 0) -> hook_ok (symlog1p_hook f).
Proof.
  intros [F1 F2] F0 m _. cbn.
  assert (P : forall x, nle (Fin 0) x -> nle (Fin 0) (f x)).
  { intros x H. apply nle_trans with (f (Fin 0)); [apply same_le, same_sym, F0|]. apply F1; [left; cbn; lra|exact H]. }
  assert (Z : forall x, x <> NaN -> num_le (Fin 0) x = false -> nlt x (Fin 0)).
  { intros x N E. destruct (nle_or_lt (Fin 0) x) as [H|H]; [discriminate|exact N|apply num_le_ok in H; congruence|exact H]. }
  assert (Q0 : forall x, nlt x (Fin 0) -> nlt (Fin 0) (neg x)) by (intros x H; apply neg_lt in H; destruct x; cbn in *; try tauto; lra).
  assert (M1 : forall x, nle (Fin 0) x -> nle (Fin (-1)) x) by (intros x H; apply nle_trans with (Fin 0); [left; cbn; lra|exact H]).
  split.
  - intros x y _ H. destruct (nle_nan _ _ H) as [Nx Ny]. destruct (num_le (Fin 0) x) eqn:Ex.
    + apply num_le_ok in Ex. pose proof (nle_trans _ _ _ Ex H) as Ey. rewrite (proj2 (num_le_ok _ _) Ey). apply F1; [apply M1, Ex|exact H].
    + apply (Z x Nx) in Ex. pose proof (nlt_le _ _ (Q0 x Ex)) as Px. destruct (num_le (Fin 0) y) eqn:Ey.
      * apply num_le_ok in Ey. apply nle_trans with (Fin 0); [|apply P, Ey]. pose proof (neg_le _ _ (P _ Px)) as K. apply nle_trans with (neg (Fin 0)); [exact K|]. right. cbn. lra.
      * apply (Z y Ny) in Ey. apply neg_le, F1; [apply M1, nlt_le, (Q0 y Ey)|apply neg_le, H].
  - intros x y H1 H2. destruct (nlt_nan _ _ H2) as [Nx _]. destruct (num_le (Fin 0) x) eqn:Ex.
    + apply num_le_ok in Ex. apply (F2 x y); [|exact H2]. apply nlt_le_trans with (Fin 0); [cbn; lra|exact Ex].
    + apply (Z x Nx) in Ex. destruct (F2 (neg x) (neg m)) as (q & E); [apply nlt_trans with (Fin 0); [cbn; lra|apply Q0, Ex]|apply neg_lt, H1|]. rewrite E. eexists. reflexivity.
Qed.
