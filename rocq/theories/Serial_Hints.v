(** Decoding with hints. *)
From Verif Require Import Base Visit_Model Visit_Spec Serial_Model Serial_Spec Serial_Proofs Serial_Round.

Section hints.
Context {X : Type}.
Variable provider : str -> option (vdec X).
Variable as_op : nat -> option nat.
Variable infer : nat -> list attr -> unit + attr.
Variable infer_on : bool.
Notation dst := (dst X).
Notation result := (result X).
Notation on_step := (on_step X provider as_op infer infer_on).
Notation on_steps := (on_steps X provider as_op infer infer_on).

Definition emptied (r : result) : result := {| r_slot := Empty; r_codec := r_codec r; r_usage := r_usage r |}.
Definition drop1 (x : nat) (r : result) : result := if r_usage r =? x then emptied r else r.
Definition fit1 (x : nat) (r : result) : bool := (r_usage r <=? x) && (is_empty (r_slot r) || (1 <=? x)).
Fixpoint drops (cs : list nat) (rs : list result) : list result := match cs, rs with x :: cs, r :: rs => drop1 x r :: drops cs rs | _, _ => rs end.
Fixpoint fitb (cs : list nat) (rs : list result) : bool := match cs, rs with x :: cs, r :: rs => fit1 x r && fitb cs rs | _, _ => true end.
Definition drop (cs : list nat) (d : dst) : dst := {| d_results := drops cs (d_results d); d_expected := cs; d_known := d_known d; d_vals := d_vals d; d_exprs := d_exprs d |}.
Definition fits (cs : list nat) (d : dst) : bool := fitb cs (d_results d).

Lemma drops_length cs : forall rs, length (drops cs rs) = length rs.
Proof. induction cs as [|x cs IH]; intros [|r rs]; cbn; auto. Qed.
Lemma drops_rd cs : forall rs i, rd (drops cs rs) i = match rd rs i with Some r => Some (match rd cs i with Some x => drop1 x r | None => r end) | None => None end.
Proof.
  unfold rd. induction cs as [|x cs IH]; intros [|r rs] [|i]; cbn; auto; try (destruct (nth_error _ _); reflexivity).
Qed.
Lemma fitb_rd cs : forall rs, fitb cs rs = true <-> forall i x r, rd cs i = Some x -> rd rs i = Some r -> fit1 x r = true.
Proof.
  unfold rd. induction cs as [|x cs IH]; intros [|r rs]; cbn; try (split; [intros _ [|i] y z H; discriminate|reflexivity]); try (split; [intros _ [|i] y z H; cbn; discriminate|reflexivity]).
  - rewrite andb_true_iff, IH. split; [intros [A B] [|i] y z; cbn; [congruence|apply B]|intros H; split; [apply (H 0); reflexivity|intros i; apply (H (S i))]].
Qed.
Lemma fitb_upd cs rs rs' i r r' : upd rs i r' = Some rs' -> rd rs i = Some r -> fitb cs rs = true -> fitb cs rs' = match rd cs i with Some x => fit1 x r' | None => true end.
Proof.
  intros U R F. apply upd_spec in U. destruct U as (L & Le & U). destruct (rd cs i) as [x|] eqn:E.
  - destruct (fit1 x r') eqn:Ef.
    + apply fitb_rd. intros j y z Hy. rewrite U. destruct (Nat.eqb_spec j i) as [->|]; [congruence|apply (proj1 (fitb_rd cs rs) F); exact Hy].
    + destruct (fitb cs rs') eqn:Fb; [|reflexivity]. rewrite <- Ef. symmetry. apply (proj1 (fitb_rd cs rs') Fb i x r' E). rewrite U, Nat.eqb_refl. reflexivity.
  - apply fitb_rd. intros j y z Hy. rewrite U. destruct (Nat.eqb_spec j i) as [->|]; [congruence|apply (proj1 (fitb_rd cs rs) F); exact Hy].
Qed.
Lemma upd_ok {A} (l : list A) i x : i < length l -> exists l', upd l i x = Some l'.
Proof. intros L. destruct (upd l i x) as [l'|] eqn:E; [eauto|]. pose proof (upd_lt l i x L) as H. destruct H as [l' H]. congruence. Qed.
Lemma drops_upd cs rs rs' i r' : upd rs i r' = Some rs' -> upd (drops cs rs) i (match rd cs i with Some x => drop1 x r' | None => r' end) = Some (drops cs rs').
Proof.
  intros U. apply upd_spec in U. destruct U as (L & Le & U). destruct (upd_ok (drops cs rs) i (match rd cs i with Some x => drop1 x r' | None => r' end)) as [l' E]; [rewrite drops_length; exact L|].
  rewrite E. f_equal. apply upd_spec in E. destruct E as (_ & Ll & E). apply list_eq_rd. intros j. rewrite E, !drops_rd, U. destruct (Nat.eqb_spec j i) as [->|]; reflexivity.
Qed.

(** An operation of the decoder on states with [n] results, without and with hints. *)
Section ops.
Variable cs : list nat.
Variable n : nat.
Definition hinty {T} (op : dst -> dres (T * dst)) : Prop :=
  forall d, length (d_results d) = n -> d_expected d = [] ->
  match op d with DOk (t, d') => length (d_results d') = n /\ d_expected d' = [] /\ (fits cs d = false -> fits cs d' = false) | DErr => True | DUndef => False end /\
  (fits cs d = true -> op (drop cs d) = match op d with DOk (t, d') => if fits cs d' then DOk (t, drop cs d') else DErr | e => e end).
Lemma hinty_bind {T U} (op : dst -> dres (T * dst)) (f : T -> dst -> dres (U * dst)) : hinty op -> (forall t, hinty (f t)) -> hinty (fun d => dbind (op d) (fun x => f (fst x) (snd x))).
Proof.
  intros A B d L E. destruct (A d L E) as [A1 A2]. destruct (op d) as [[t d']| |] eqn:Eo; cbn [dbind fst snd]; [|split; [exact I|]; intros F; rewrite (A2 F); reflexivity|contradiction].
  destruct A1 as (L1 & E1 & M1). destruct (B t d' L1 E1) as [B1 B2]. split.
  - destruct (f t d') as [[u d'']| |]; auto. destruct B1 as (L2 & E2 & M2). auto.
  - intros F. rewrite (A2 F). destruct (fits cs d') eqn:F'; [cbn [dbind fst snd]; auto|]. cbn [dbind]. destruct (f t d') as [[u d'']| |]; [|reflexivity|contradiction]. destruct B1 as (_ & _ & M2). rewrite (M2 eq_refl). reflexivity.
Qed.
Lemma hinty_ret {T} (t : T) : hinty (fun d => DOk (t, d)).
Proof. intros d L E. split; [auto|]. intros F. rewrite F. reflexivity. Qed.
Lemma hinty_err {T} : hinty (fun _ => @DErr (T * dst)).
Proof. intros d L E. split; [exact I|]. reflexivity. Qed.
Lemma hinty_ext {T} (f g : dst -> dres (T * dst)) : (forall d, f d = g d) -> hinty g -> hinty f.
Proof. intros E H d. rewrite !E. apply H. Qed.
Definition setr (i : nat) (r : result) (d : dst) rs : dst := with_results X rs d.
Lemma check_plain i d : d_expected d = [] -> check_usage X i d = DOk d.
Proof. intros E. unfold check_usage. rewrite E. destruct i; reflexivity. Qed.
Lemma check_hint i x r d : rd (d_expected d) i = Some x -> rd (d_results d) i = Some r ->
  check_usage X i d = if fit1 x r then if r_usage r =? x then set_result X i (emptied r) d else DOk d else DErr.
Proof.
  intros E R. unfold check_usage, fit1. rewrite E, R. cbn [d_undef dbind]. rewrite Nat.ltb_antisym. destruct (r_usage r <=? x); [|reflexivity]. cbn [negb andb]. rewrite (Nat.ltb_antisym 1 x).
  destruct (is_empty (r_slot r)); [reflexivity|]. destruct (1 <=? x); reflexivity.
Qed.
Lemma fits_mono_upd rs rs' i r r' : upd rs i r' = Some rs' -> rd rs i = Some r -> (forall x, fit1 x r = false -> fit1 x r' = false) -> fitb cs rs = false -> fitb cs rs' = false.
Proof.
  intros U R M F. destruct (fitb cs rs') eqn:F'; [|reflexivity]. rewrite <- F. symmetry. apply fitb_rd. intros j x z Hx Hz. apply upd_spec in U. destruct U as (L & Le & U). pose proof (proj1 (fitb_rd cs rs') F' j x) as Q. setoid_rewrite U in Q.
  destruct (Nat.eqb_spec j i) as [->|]; [|apply (Q z Hx Hz)]. rewrite R in Hz. injection Hz as <-. destruct (fit1 x r) eqn:E; [reflexivity|]. rewrite <- (M x E). apply (Q r' Hx eq_refl).
Qed.
(** Setting a result and checking its usage. *)
Definition put_check (i : nat) (r' : result) (d : dst) : dres (unit * dst) := dbind (set_result X i r' d) (fun d => dbind (check_usage X i d) (fun d => DOk (tt, d))).
Lemma rs_eq (d : dst) : with_results X (d_results d) d = d.
Proof. destruct d; reflexivity. Qed.
Lemma upd_upd {A} (l l1 : list A) i x y l2 : upd l i x = Some l1 -> upd l i y = Some l2 -> upd l1 i y = Some l2.
Proof.
  intros U V. apply upd_spec in U. destruct U as (L & Le & U). destruct (upd_ok l1 i y) as [l3 E]; [lia|]. rewrite E. f_equal. apply upd_spec in E. destruct E as (_ & _ & E). apply upd_spec in V. destruct V as (_ & _ & V).
  apply list_eq_rd. intros j. rewrite E, V, U. destruct (j =? i); reflexivity.
Qed.
Lemma put_check_ok i r r' d : i < length (d_results d) -> d_expected d = [] -> rd (d_results d) i = Some r -> fits cs d = true -> (r_usage r' = 0 -> is_empty (r_slot r') = true -> True) ->
  exists rs', upd (d_results d) i r' = Some rs' /\ put_check i r' d = DOk (tt, with_results X rs' d) /\ put_check i r' (drop cs d) = if fitb cs rs' then DOk (tt, drop cs (with_results X rs' d)) else DErr.
Proof.
  intros L E R F _. destruct (upd_ok (d_results d) i r' L) as [rs' U]. exists rs'. split; [exact U|]. split.
  - unfold put_check, set_result. rewrite U. cbn [d_undef dbind]. rewrite check_plain by exact E. reflexivity.
  - rewrite (fitb_upd cs _ _ i r r' U R F). unfold put_check, set_result. destruct (upd_ok (drops cs (d_results d)) i r') as [l1 U1]; [rewrite drops_length; exact L|]. cbn [drop d_results]. rewrite U1. cbn [d_undef dbind].
    pose proof (drops_upd cs _ _ i r' U) as U2. destruct (rd cs i) as [x|] eqn:Ex.
    + rewrite (check_hint i x r'); [|exact Ex|]. 2:{ cbn. apply upd_spec in U1. destruct U1 as (_ & _ & U1). rewrite U1, Nat.eqb_refl. reflexivity. }
      destruct (fit1 x r') eqn:Ef; [|reflexivity]. unfold drop1 in U2. destruct (r_usage r' =? x).
      * unfold set_result. cbn [with_results d_results]. rewrite (upd_upd _ _ _ _ _ _ U1 U2). reflexivity.
      * cbn [dbind]. rewrite U2 in U1. injection U1 as <-. reflexivity.
    + unfold check_usage. cbn [with_results drop d_expected]. rewrite Ex. cbn [dbind]. rewrite U2 in U1. injection U1 as <-. reflexivity.
Qed.
Lemma load_alt i d : load X i d = match rd (d_results d) i with None => DErr | Some r => dbind (put_check i {| r_slot := r_slot r; r_codec := r_codec r; r_usage := S (r_usage r) |} d) (fun x => DOk (r_slot r, snd x)) end.
Proof. unfold load, put_check. destruct (rd (d_results d) i); [|reflexivity]. destruct (set_result X i _ d); cbn [dbind]; [|reflexivity..]. destruct (check_usage X i a); reflexivity. Qed.
Lemma load_hinty i : hinty (load X i).
Proof.
  intros d L E. rewrite !load_alt. cbn [drop d_results]. rewrite drops_rd. destruct (rd (d_results d) i) as [r|] eqn:R; [|split; [exact I|reflexivity]]. pose proof (rd_Some_lt _ _ _ R) as Li.
  set (r' := {| r_slot := r_slot r; r_codec := r_codec r; r_usage := S (r_usage r) |}). split.
  - destruct (upd_ok (d_results d) i r' Li) as [rs' U]. assert (P : put_check i r' d = DOk (tt, with_results X rs' d)) by (unfold put_check, set_result; rewrite U; cbn [d_undef dbind]; rewrite check_plain by exact E; reflexivity).
    rewrite P. cbn [dbind snd]. split; [cbn; apply upd_spec in U; lia|]. split; [exact E|]. apply (fits_mono_upd _ _ i r r' U R). intros x. unfold fit1, r'. cbn [r_usage r_slot]. destruct (Nat.leb_spec (r_usage r) x), (Nat.leb_spec (S (r_usage r)) x); cbn; auto; lia.
  - intros F. destruct (put_check_ok i r r' d Li E R F (fun _ _ => I)) as (rs' & U & P1 & P2). rewrite P1. cbn [dbind snd]. unfold fits at 1. cbn [with_results d_results].
    pose proof (fitb_upd cs _ _ i r r' U R F) as Fu. destruct (rd cs i) as [x|] eqn:Ex; [|fold r'; fold (drop cs d); rewrite P2, Fu; reflexivity].
    unfold drop1. destruct (Nat.eqb_spec (r_usage r) x) as [Eu|Nu].
    + rewrite Fu. assert (Ef : fit1 x r' = false) by (unfold fit1, r'; cbn [r_usage]; rewrite (proj2 (Nat.leb_gt (S (r_usage r)) x)) by lia; reflexivity). rewrite Ef.
      cbn [emptied r_slot r_codec r_usage]. unfold put_check, set_result. cbn [drop d_results]. destruct (upd_ok (drops cs (d_results d)) i {| r_slot := Empty; r_codec := r_codec r; r_usage := S (r_usage r) |}) as [l1 U1]; [rewrite drops_length; exact Li|].
      change (d_results (drop cs d)) with (drops cs (d_results d)). rewrite U1. cbn [d_undef dbind]. erewrite (check_hint i x); [|exact Ex|cbn; apply upd_spec in U1; destruct U1 as (_ & _ & U1); rewrite U1, Nat.eqb_refl; reflexivity].
      unfold fit1. cbn [r_usage]. rewrite (proj2 (Nat.leb_gt (S (r_usage r)) x)) by lia. reflexivity.
    + fold r'. fold (drop cs d). rewrite P2. destruct (fitb cs rs'); reflexivity.
Qed.
Lemma load_value_hinty i : hinty (load_value X i).
Proof. apply (hinty_bind (load X i) (fun s d => match s with HasVal v => DOk (v, d) | _ => DErr end)); [apply load_hinty|]. intros [|v|e]; [apply hinty_err|apply hinty_ret|apply hinty_err]. Qed.
Lemma load_expr_hinty i : hinty (load_expr X i).
Proof. apply (hinty_bind (load X i) (fun s d => match s with HasExpr v => DOk (v, d) | _ => DErr end)); [apply load_hinty|]. intros [|v|e]; [apply hinty_err|apply hinty_err|apply hinty_ret]. Qed.
Lemma loads_hinty {T} (f : nat -> dst -> dres (T * dst)) is : (forall i, hinty (f i)) -> hinty (loads X f is).
Proof.
  intros H. induction is as [|i is IH]; cbn [loads]; [apply hinty_ret|]. apply (hinty_bind (f i) (fun t d => dbind (loads X f is d) (fun y => DOk (t :: fst y, snd y)))); [apply H|].
  intros t. apply (hinty_bind (loads X f is) (fun l d => DOk (t :: l, d))); [exact IH|]. intros l. apply hinty_ret.
Qed.
Definition unitd (op : dst -> dres dst) (d : dst) : dres (unit * dst) := dbind (op d) (fun d => DOk (tt, d)).
Lemma store_hinty i s : i < n -> is_empty s = false -> hinty (unitd (store X i s)).
Proof.
  intros Li Ns d L E. rewrite <- L in Li. destruct (rd_lt _ _ Li) as [r R]. set (r' := {| r_slot := s; r_codec := r_codec r; r_usage := r_usage r |}).
  assert (Alt : forall d r, rd (d_results d) i = Some r -> unitd (store X i s) d = if negb (is_empty (r_slot r)) || (0 <? r_usage r) then DErr else put_check i {| r_slot := s; r_codec := r_codec r; r_usage := r_usage r |} d).
  { intros d0 r0 R0. unfold unitd, store, put_check. rewrite R0. cbn [d_undef dbind]. destruct (_ || _); [reflexivity|]. destruct (set_result X i _ d0); cbn [dbind]; [|reflexivity..]. reflexivity. }
  rewrite (Alt d r R). fold r'. destruct (negb (is_empty (r_slot r)) || (0 <? r_usage r)) eqn:B.
  - split; [exact I|]. intros F. erewrite Alt by (cbn; rewrite drops_rd, R; reflexivity). destruct (rd cs i) as [x|] eqn:Ex; [|rewrite B; reflexivity]. unfold drop1. destruct (Nat.eqb_spec (r_usage r) x) as [Eu|]; [|rewrite B; reflexivity].
    cbn [emptied r_slot r_usage is_empty negb orb]. destruct (Nat.ltb_spec 0 (r_usage r)); [reflexivity|]. exfalso. pose proof (proj1 (fitb_rd cs _) F i x r Ex R) as Q. unfold fit1 in Q. apply andb_true_iff in Q. destruct Q as [_ Q].
    destruct (is_empty (r_slot r)); [discriminate|]. cbn in Q. destruct x; [discriminate|]. lia.
  - apply orb_false_iff in B. destruct B as [B1 B2]. apply Nat.ltb_ge in B2. assert (U0 : r_usage r = 0) by lia. apply negb_false_iff in B1. split.
    + destruct (upd_ok (d_results d) i r' Li) as [rs' U]. assert (P : put_check i r' d = DOk (tt, with_results X rs' d)) by (unfold put_check, set_result; rewrite U; cbn [d_undef dbind]; rewrite check_plain by exact E; reflexivity).
      rewrite P. cbn [with_results d_results]. split; [apply upd_spec in U; lia|]. split; [exact E|]. apply (fits_mono_upd _ _ i r r' U R). intros x. unfold fit1, r'. cbn [r_usage r_slot]. rewrite U0, B1. cbn. discriminate.
    + intros F. destruct (put_check_ok i r r' d Li E R F (fun _ _ => I)) as (rs' & U & P1 & P2). rewrite P1. unfold fits. cbn [with_results d_results].
      erewrite Alt by (cbn; rewrite drops_rd, R; reflexivity). assert (Dr : forall x, drop1 x r = r). { intros x. unfold drop1. destruct (r_usage r =? x); [|reflexivity]. unfold emptied. destruct r as [sl co us]. cbn in B1. destruct sl; [reflexivity|discriminate..]. }
      assert (Er : match rd cs i with Some x => drop1 x r | None => r end = r) by (destruct (rd cs i); auto). rewrite Er, B1, U0. cbn [negb orb Nat.ltb Nat.leb]. rewrite <- U0. exact P2.
Qed.
Lemma store_codec_hinty i c : i < n -> hinty (unitd (store_codec X i c)).
Proof.
  intros Li d L E. rewrite <- L in Li. destruct (rd_lt _ _ Li) as [r R]. unfold unitd, store_codec. rewrite R. cbn [d_undef dbind drop d_results]. rewrite drops_rd, R. cbn [d_undef dbind].
  assert (Rc : r_codec (match rd cs i with Some x => drop1 x r | None => r end) = r_codec r) by (destruct (rd cs i); [unfold drop1; destruct (_ =? _)|]; reflexivity). rewrite Rc. destruct (r_codec r) as [f|]; [split; [exact I|reflexivity]|].
  set (r' := {| r_slot := r_slot r; r_codec := Some c; r_usage := r_usage r |}). destruct (upd_ok (d_results d) i r' Li) as [rs' U]. unfold set_result. rewrite U. cbn [d_undef dbind with_results d_results d_expected d_known d_vals d_exprs]. split.
  - split; [apply upd_spec in U; lia|]. split; [exact E|]. apply (fits_mono_upd _ _ i r r' U R). auto.
  - intros F. unfold fits. cbn [d_results]. pose proof (fitb_upd cs _ _ i r r' U R F) as Fu. assert (Ft : fitb cs rs' = true) by (rewrite Fu; destruct (rd cs i) as [x|] eqn:Ex; [exact (proj1 (fitb_rd cs _) F i x r Ex R)|reflexivity]). rewrite Ft.
    pose proof (drops_upd cs _ _ i r' U) as U2. match goal with |- context [upd _ i ?y] => replace y with (match rd cs i with Some x => drop1 x r' | None => r' end) end.
    + cbn [drop d_results]. rewrite U2. reflexivity.
    + destruct (rd cs i); [|reflexivity]. unfold drop1, r'. cbn. destruct (_ =? _); reflexivity.
Qed.
Lemma decode_op_hinty o is : hinty (decode_op X as_op infer infer_on o is).
Proof.
  destruct o as [i|]; [|apply hinty_err]. cbn [decode_op]. apply (hinty_bind (load_value X i) (fun v d => match as_op v with None => DErr | Some op => dbind (loads X (load_expr X) is d) (fun y => match make_node infer infer_on op (fst y) with Some n => DOk (n, snd y) | None => DErr end) end)); [apply load_value_hinty|].
  intros v. destruct (as_op v) as [op|]; [|apply hinty_err]. apply (hinty_bind (loads X (load_expr X) is) (fun l d => match make_node infer infer_on op l with Some n => DOk (n, d) | None => DErr end)); [apply loads_hinty, load_expr_hinty|].
  intros l. destruct (make_node infer infer_on op l); [apply hinty_ret|apply hinty_err].
Qed.
Lemma decode_value_hinty p : hinty (decode_value X p).
Proof.
  unfold decode_value. apply (hinty_bind (loads X (load_value X) (p_vals p)) (fun vs d => dbind (loads X (load_expr X) (p_exprs p) d) (fun y => let d := snd y in dbind (match p_codec p with
         | Some c => match rd (d_results d) c with None => DErr | Some r => match r_codec r with None => DErr | Some f => match f p vs (fst y) with VOk v => DOk v | _ => DErr end end end
         | None => try_codecs X (d_known d) p vs (fst y) end) (fun v => DOk (v, d))))); [apply loads_hinty, load_value_hinty|].
  intros vs. apply (hinty_bind (loads X (load_expr X) (p_exprs p)) (fun es d => dbind (match p_codec p with
         | Some c => match rd (d_results d) c with None => DErr | Some r => match r_codec r with None => DErr | Some f => match f p vs es with VOk v => DOk v | _ => DErr end end end
         | None => try_codecs X (d_known d) p vs es end) (fun v => DOk (v, d)))); [apply loads_hinty, load_expr_hinty|].
  intros es d L E. destruct (p_codec p) as [c|].
  - cbn [drop d_results]. rewrite drops_rd. destruct (rd (d_results d) c) as [r|]; [|split; [exact I|reflexivity]].
    assert (Rc : r_codec (match rd cs c with Some x => drop1 x r | None => r end) = r_codec r) by (destruct (rd cs c); [unfold drop1; destruct (_ =? _)|]; reflexivity). rewrite Rc.
    destruct (r_codec r) as [f|]; [|split; [exact I|reflexivity]]. destruct (f p vs es); cbn [dbind]; (split; [auto|intros F; try rewrite F; reflexivity]).
  - cbn [drop d_known]. assert (Nu : try_codecs X (d_known d) p vs es <> DUndef) by (induction (d_known d) as [|g gs IH]; cbn [try_codecs]; [discriminate|destruct (g p vs es); [discriminate|exact IH|discriminate]]).
    destruct (try_codecs X (d_known d) p vs es); cbn [dbind]; [|split; [auto|reflexivity]|congruence]. split; [auto|]. intros F. rewrite F. reflexivity.
Qed.
(** The part of a step after the hints. *)
Definition act (i : nat) (s : step X) (d : dst) : dres dst :=
  match s with
  | SLit None => DErr
  | SLit (Some k) => dbind (load_value X k d) (fun x => store X i (HasExpr (Lit (fst x))) (snd x))
  | SLeaf None => DErr
  | SLeaf (Some k) => store X i (HasExpr (Leaf k)) d
  | SPlh None => DErr
  | SPlh (Some k) => store X i (HasExpr (Plh k)) d
  | SOp o is => dbind (decode_op X as_op infer infer_on o is d) (fun x => store X i (HasExpr (fst x)) (snd x))
  | SVal p => dbind (decode_value X p d) (fun x => store X i (HasVal (fst x)) (snd x))
  | SCodec n => match provider n with None => DErr | Some c => store_codec X i c d end
  | SOutV k => dbind (load_value X k d) (fun x =>
      DOk {| d_results := d_results (snd x); d_expected := d_expected (snd x); d_known := d_known (snd x); d_vals := d_vals (snd x) ++ [fst x]; d_exprs := d_exprs (snd x) |})
  | SOutE k => dbind (load_expr X k d) (fun x =>
      DOk {| d_results := d_results (snd x); d_expected := d_expected (snd x); d_known := d_known (snd x); d_vals := d_vals (snd x); d_exprs := d_exprs (snd x) ++ [fst x] |})
  | SNone => DOk d
  end.
Lemma hinty_then {T} (op : dst -> dres (T * dst)) (f : T -> dst -> dres dst) : hinty op -> (forall t, hinty (unitd (f t))) -> hinty (unitd (fun d => dbind (op d) (fun x => f (fst x) (snd x)))).
Proof. intros A B. eapply hinty_ext; [|exact (hinty_bind op (fun t d => unitd (f t) d) A B)]. intros d. unfold unitd. destruct (op d); reflexivity. Qed.
Lemma hinty_then' {T} (op : dst -> dres (T * dst)) (f : T -> dst -> dst) : hinty op -> (forall t d, d_results (f t d) = d_results d /\ d_expected (f t d) = d_expected d /\ f t (drop cs d) = drop cs (f t d)) -> hinty (unitd (fun d => dbind (op d) (fun x => DOk (f (fst x) (snd x))))).
Proof.
  intros A B. apply (hinty_then op (fun t d => DOk (f t d)) A). intros t d L E. cbn. destruct (B t d) as (B1 & B2 & B3). unfold fits. rewrite B1, B2. split; [auto|]. intros ->. rewrite B3. reflexivity.
Qed.
Lemma act_hinty i s : i < n -> hinty (unitd (act i s)).
Proof.
  intros L. assert (St : forall s, is_empty s = false -> hinty (unitd (store X i s))) by (intros s0; apply store_hinty, L).
  destruct s as [[k|]|[k|]|[k|]|o is|p|m|k|k|]; cbn [act]; try (exact hinty_err); try (apply St; reflexivity).
  - apply (hinty_then (load_value X k) (fun t d => store X i (HasExpr (Lit t)) d)); [apply load_value_hinty|intros t; apply St; reflexivity].
  - apply (hinty_then (decode_op X as_op infer infer_on o is) (fun t d => store X i (HasExpr t) d)); [apply decode_op_hinty|intros t; apply St; reflexivity].
  - apply (hinty_then (decode_value X p) (fun t d => store X i (HasVal t) d)); [apply decode_value_hinty|intros t; apply St; reflexivity].
  - change (hinty (unitd (fun d => match provider m with None => DErr | Some c => store_codec X i c d end))). destruct (provider m) as [c|]; [apply store_codec_hinty, L|exact hinty_err].
  - apply (hinty_then' (load_value X k) (fun t d => {| d_results := d_results d; d_expected := d_expected d; d_known := d_known d; d_vals := d_vals d ++ [t]; d_exprs := d_exprs d |})); [apply load_value_hinty|]. auto.
  - apply (hinty_then' (load_expr X k) (fun t d => {| d_results := d_results d; d_expected := d_expected d; d_known := d_known d; d_vals := d_vals d; d_exprs := d_exprs d ++ [t] |})); [apply load_expr_hinty|]. auto.
  - exact (hinty_ret tt).
Qed.
End ops.

Definition extend (i : nat) (d : dst) : dst := if i =? length (d_results d) then with_results X (d_results d ++ [empty_result X]) d else d.
Lemma on_step_eq i s d : on_step i s d = if length (d_results d) <? i then DErr else dbind (hints X (s_hints s) (extend i d)) (act i (s_type s)).
Proof. reflexivity. Qed.
Lemma drops_snoc cs : forall rs, drops cs (rs ++ [empty_result X]) = drops cs rs ++ [empty_result X].
Proof.
  induction cs as [|x cs IH]; intros [|r rs]; cbn [drops app]; try reflexivity; [|f_equal; apply IH]. assert (E : drop1 x (empty_result X) = empty_result X) by (unfold drop1; destruct (r_usage (empty_result X) =? x); reflexivity).
  rewrite E. destruct cs; reflexivity.
Qed.
Lemma fitb_snoc cs : forall rs, fitb cs (rs ++ [empty_result X]) = fitb cs rs.
Proof. induction cs as [|x cs IH]; intros [|r rs]; cbn [fitb app]; try reflexivity; [destruct cs; reflexivity|]. rewrite IH. reflexivity. Qed.
Lemma extend_drop cs i d : extend i (drop cs d) = drop cs (extend i d).
Proof. unfold extend. cbn [drop d_results]. rewrite drops_length. destruct (i =? length (d_results d)); [|reflexivity]. unfold drop, with_results. cbn. rewrite drops_snoc. reflexivity. Qed.
Lemma extend_fits cs i d : fits cs (extend i d) = fits cs d.
Proof. unfold extend, fits. destruct (i =? length (d_results d)); [apply fitb_snoc|reflexivity]. Qed.
Lemma extend_expected i d : d_expected (extend i d) = d_expected d.
Proof. unfold extend. destruct (i =? length (d_results d)); reflexivity. Qed.
Lemma extend_lt i d : i <= length (d_results d) -> i < length (d_results (extend i d)).
Proof. intros L. unfold extend. destruct (Nat.eqb_spec i (length (d_results d))) as [->|]; [cbn; rewrite app_length; cbn|]; lia. Qed.

(** Processing the hints. *)
Fixpoint drops_to (k : nat) (cs : list nat) (rs : list result) : list result :=
  match k, cs, rs with S k, x :: cs, r :: rs => drop1 x r :: drops_to k cs rs | _, _, _ => rs end.
Lemma drops_to_all cs : forall rs k, Nat.min (length cs) (length rs) <= k -> drops_to k cs rs = drops cs rs.
Proof. induction cs as [|x cs IH]; intros [|r rs] [|k] L; cbn in *; try reflexivity; [lia|]. f_equal. apply IH. lia. Qed.
Lemma drops_to_rd k : forall cs rs i, rd (drops_to k cs rs) i = match rd rs i with Some r => Some (match rd cs i with Some x => if i <? k then drop1 x r else r | None => r end) | None => None end.
Proof.
  unfold rd. induction k as [|k IH]; intros cs rs i; [cbn [drops_to]; destruct (nth_error rs i); [|reflexivity]; destruct (nth_error cs i); reflexivity|].
  destruct cs as [|x cs], rs as [|r rs], i as [|i]; cbn [drops_to nth_error]; try reflexivity; [destruct (nth_error rs i); reflexivity|]. rewrite IH. destruct (nth_error rs i); [|reflexivity]. destruct (nth_error cs i); reflexivity.
Qed.
Lemma drops_to_length k : forall cs rs, length (drops_to k cs rs) = length rs.
Proof. induction k as [|k IH]; intros [|x cs] [|r rs]; cbn; auto. Qed.
Definition part (k : nat) (cs : list nat) (d : dst) : dst := {| d_results := drops_to k cs (d_results d); d_expected := cs; d_known := d_known d; d_vals := d_vals d; d_exprs := d_exprs d |}.
Lemma check_part cs d k : k < length cs -> k < length (d_results d) ->
  exists x r, rd cs k = Some x /\ rd (d_results d) k = Some r /\ check_usage X k (part k cs d) = if fit1 x r then DOk (part (S k) cs d) else DErr.
Proof.
  intros L1 L2. destruct (rd_lt _ _ L1) as [x Ex]. destruct (rd_lt _ _ L2) as [r Er]. exists x, r. split; [exact Ex|]. split; [exact Er|].
  assert (Ep : rd (d_results (part k cs d)) k = Some r) by (cbn; rewrite drops_to_rd, Er, Ex, Nat.ltb_irrefl; reflexivity). rewrite (check_hint k x r (part k cs d) Ex Ep). destruct (fit1 x r); [|reflexivity].
  assert (Nx : forall j, j <> k -> (j <? S k) = (j <? k)) by (intros j Nj; destruct (Nat.ltb_spec j (S k)), (Nat.ltb_spec j k); lia || reflexivity).
  assert (Sk : (k <? S k) = true) by (apply Nat.ltb_lt; lia).
  destruct (r_usage r =? x) eqn:Eu.
  - unfold set_result. cbn [part d_results]. destruct (upd_ok (drops_to k cs (d_results d)) k (emptied r)) as [l U]; [rewrite drops_to_length; exact L2|]. rewrite U. cbn [d_undef dbind]. unfold with_results, part. cbn [d_results d_expected d_known d_vals d_exprs]. f_equal. f_equal.
    apply upd_spec in U. destruct U as (_ & _ & U). apply list_eq_rd. intros j. rewrite U, !drops_to_rd. destruct (Nat.eqb_spec j k) as [->|Nj]; [rewrite Er, Ex, Sk; unfold drop1; rewrite Eu; reflexivity|]. rewrite (Nx j Nj). reflexivity.
  - f_equal. unfold part. f_equal. apply list_eq_rd. intros j. rewrite !drops_to_rd. destruct (Nat.eqb_spec j k) as [->|Nj]; [rewrite Er, Ex, Sk, Nat.ltb_irrefl; unfold drop1; rewrite Eu; reflexivity|]. rewrite (Nx j Nj). reflexivity.
Qed.
Lemma check_all_ok cs d m : forall k, k + m = Nat.min (length cs) (length (d_results d)) -> (forall j x r, j < k -> rd cs j = Some x -> rd (d_results d) j = Some r -> fit1 x r = true) ->
  check_all X (seq k m) (part k cs d) = if fits cs d then DOk (drop cs d) else DErr.
Proof.
  induction m as [|m IH]; intros k E P; cbn [seq check_all].
  - assert (F : fits cs d = true). { apply fitb_rd. intros i x r Hx Hr. apply (P i); [|exact Hx|exact Hr]. pose proof (rd_Some_lt _ _ _ Hx). pose proof (rd_Some_lt _ _ _ Hr). lia. }
    rewrite F. unfold part, drop. rewrite drops_to_all by lia. reflexivity.
  - destruct (check_part cs d k) as (x & r & Ex & Er & ->); [lia..|]. destruct (fit1 x r) eqn:Ef; cbn [dbind].
    + apply IH; [lia|]. intros j y z Hj Hy Hz. destruct (Nat.eq_dec j k) as [->|]; [congruence|]. apply (P j); [lia|assumption..].
    + destruct (fits cs d) eqn:F; [|reflexivity]. rewrite (proj1 (fitb_rd _ _) F k x r Ex Er) in Ef. discriminate.
Qed.
Lemma hints_plain cs d : d_expected d = [] -> cs <> [] -> hints X cs d = if fits cs d then DOk (drop cs d) else DErr.
Proof.
  intros E N. unfold hints. destruct cs as [|c cs]; [congruence|]. rewrite E. rewrite <- (check_all_ok (c :: cs) d (Nat.min (length (c :: cs)) (length (d_results d))) 0); [reflexivity|lia|intros; lia].
Qed.

Lemma act_unit i s d : act i s d = match unitd (act i s) d with DOk (_, d') => DOk d' | DErr => DErr | DUndef => DUndef end.
Proof. unfold unitd. destruct (act i s d); reflexivity. Qed.
Lemma plain_step cs i s d : d_expected d = [] ->
  match on_step i (plain s) d with DOk d' => d_expected d' = [] /\ (fits cs d = false -> fits cs d' = false) | DErr => True | DUndef => False end.
Proof.
  intros E. rewrite on_step_eq. cbn [plain s_hints s_type hints dbind]. destruct (Nat.ltb_spec (length (d_results d)) i) as [|L]; [exact I|].
  destruct (act_hinty cs _ i s (extend_lt i d L) (extend i d) eq_refl) as [A _]; [rewrite extend_expected; exact E|]. rewrite act_unit. destruct (unitd (act i s) (extend i d)) as [[u d']| |]; auto. rewrite extend_fits in A. destruct A as (_ & A & B). auto.
Qed.
Lemma hinted_step cs i s d : d_expected d = [] -> cs <> [] -> fits cs d = true ->
  on_step i s (drop cs d) = match on_step i (plain (s_type s)) d with DOk d' => match s_hints s with [] => if fits cs d' then DOk (drop cs d') else DErr | _ => DErr end | e => e end.
Proof.
  intros E N F. pose proof (plain_step cs i (s_type s) d E) as Np. rewrite !on_step_eq in *. cbn [plain s_hints s_type hints dbind] in *. cbn [drop d_results]. rewrite drops_length. destruct (Nat.ltb_spec (length (d_results d)) i) as [|L]; [reflexivity|].
  fold (drop cs d). rewrite extend_drop. destruct (s_hints s) as [|h hs].
  - cbn [hints dbind]. destruct (act_hinty cs _ i (s_type s) (extend_lt i d L) (extend i d) eq_refl) as [_ A]; [rewrite extend_expected; exact E|]. rewrite extend_fits in A. specialize (A F).
    rewrite (act_unit i (s_type s) (drop cs _)), A, (act_unit i (s_type s) (extend i d)). destruct (unitd (act i (s_type s)) (extend i d)) as [[u d']| |]; try reflexivity. destruct (fits cs d'); reflexivity.
  - unfold hints. cbn [drop d_expected]. destruct cs as [|c cs]; [congruence|]. cbn [dbind]. destruct (act i (s_type s) (extend i d)); [reflexivity..|contradiction].
Qed.
Lemma steps_mono cs L : forall d, d_expected d = [] -> match on_steps (strip L) d with DOk d' => d_expected d' = [] /\ (fits cs d = false -> fits cs d' = false) | DErr => True | DUndef => False end.
Proof.
  induction L as [|[i s] L IH]; intros d E; cbn [strip map Serial_Model.on_steps]; [auto|]. cbn [fst snd]. pose proof (plain_step cs i (s_type s) d E) as A. destruct (on_step i (plain (s_type s)) d) as [d1| |]; cbn [dbind]; auto. destruct A as [A1 A2].
  specialize (IH d1 A1). fold (strip L). destruct (on_steps (strip L) d1); auto. destruct IH. auto.
Qed.
Lemma steps_drop cs L : forall d, d_expected d = [] -> cs <> [] -> fits cs d = true ->
  on_steps L (drop cs d) = match on_steps (strip L) d with DOk d' => match all_hints L with [] => if fits cs d' then DOk (drop cs d') else DErr | _ => DErr end | e => e end.
Proof.
  induction L as [|[i s] L IH]; intros d E N F; cbn [strip map Serial_Model.on_steps].
  - cbn. rewrite F. reflexivity.
  - cbn [fst snd]. rewrite (hinted_step cs i s d E N F). pose proof (plain_step cs i (s_type s) d E) as A. destruct (on_step i (plain (s_type s)) d) as [d1| |]; cbn [dbind]; [|reflexivity|contradiction]. destruct A as [A1 A2]. fold (strip L).
    pose proof (steps_mono cs L d1 A1) as M. unfold all_hints. cbn [map snd filter]. destruct (s_hints s) as [|h hs]; [|destruct (on_steps (strip L) d1); [reflexivity..|contradiction]].
    fold (all_hints L). destruct (fits cs d1) eqn:F1; [cbn [dbind]; apply IH; assumption|]. cbn [dbind]. destruct (on_steps (strip L) d1) as [d'| |]; [|reflexivity|contradiction]. destruct M as [_ M]. rewrite (M eq_refl). destruct (all_hints L); reflexivity.
Qed.
Lemma steps_hints L : forall d, d_expected d = [] ->
  on_steps L d = match on_steps (strip L) d with DOk d' => match all_hints L with [] => DOk d' | [cs] => if fits cs d' then DOk (drop cs d') else DErr | _ => DErr end | e => e end.
Proof.
  induction L as [|[i s] L IH]; intros d E; cbn [strip map Serial_Model.on_steps]; [reflexivity|]. cbn [fst snd]. fold (strip L). unfold all_hints. cbn [map snd filter]. fold (all_hints L). pose proof (plain_step (s_hints s) i (s_type s) d E) as A. destruct (s_hints s) as [|h hs] eqn:Eh.
  - assert (Es : on_step i s d = on_step i (plain (s_type s)) d) by (rewrite !on_step_eq, Eh; reflexivity). rewrite Es. destruct (on_step i (plain (s_type s)) d) as [d1| |]; cbn [dbind]; [|reflexivity..]. apply IH, A.
  - set (cs := h :: hs) in *. assert (N : cs <> []) by discriminate. rewrite on_step_eq, Eh. fold cs. rewrite on_step_eq in A |- *. cbn [plain s_hints s_type hints dbind] in *. destruct (Nat.ltb_spec (length (d_results d)) i) as [|L0]; [reflexivity|].
    rewrite (hints_plain cs (extend i d)); [|rewrite extend_expected; exact E|exact N]. rewrite extend_fits. destruct (act_hinty cs _ i (s_type s) (extend_lt i d L0) (extend i d) eq_refl) as [_ B]; [rewrite extend_expected; exact E|]. rewrite extend_fits in B.
    pose proof (steps_mono cs L) as M.
    destruct (fits cs d) eqn:F; cbn [dbind].
    + rewrite (act_unit i (s_type s) (drop cs _)), (B eq_refl). rewrite (act_unit i (s_type s) (extend i d)) in A |- *. destruct (unitd (act i (s_type s)) (extend i d)) as [[u d1]| |]; cbn [dbind]; [|reflexivity|contradiction]. destruct A as [A1 A2]. specialize (M d1 A1).
      destruct (fits cs d1) eqn:F1; cbn [dbind]; [rewrite (steps_drop cs L d1 A1 N F1)|].
      * destruct (on_steps (strip L) d1); [|reflexivity..]. destruct (all_hints L); reflexivity.
      * destruct (on_steps (strip L) d1); [|reflexivity|contradiction]. destruct M as [_ M]. rewrite (M eq_refl). destruct (all_hints L); reflexivity.
    + destruct (act i (s_type s) (extend i d)) as [d1| |]; cbn [dbind]; [|reflexivity|contradiction]. destruct A as [A1 A2]. specialize (M d1 A1). destruct (on_steps (strip L) d1); [|reflexivity|contradiction]. destruct M as [_ M]. rewrite (M (A2 eq_refl)). destruct (all_hints L); reflexivity.
Qed.
End hints.
