(** C57: values and expressions are serialized and deserialized. *)
From Verif Require Import Base Visit_Model Visit_Spec Visit_Proofs Visit_Props Serial_Model Serial_Spec Serial_Proofs Serial_Round Serial_Total Serial_Hints Serial_Uses Serial_Meaning.

Section props.
Context {X : Type}.
Variable venc : nat -> prog X.
Variable opval : nat -> nat.
Variable provider : str -> option (vdec X).
Variable as_op : nat -> option nat.
Variable infer : nat -> list attr -> unit + attr.
Variable infer_on : bool.
Variable G : nat -> Prop.
Notation good_call := (good_call opval provider infer infer_on G).
Notation good_expr := (good_expr opval infer infer_on G).
Notation on_steps := (on_steps X provider as_op infer infer_on).

Lemma outs vs es : flat_map (out_vals 0) (map CVal vs ++ map CExpr es) = vs /\ flat_map (out_exprs 0) (map CVal vs ++ map CExpr es) = es.
Proof.
  rewrite !flat_map_app. assert (A : flat_map (out_vals 0) (map CVal vs) = vs /\ flat_map (out_exprs 0) (map CVal vs) = []) by (induction vs as [|v vs [H1 H2]]; [auto|]; cbn; rewrite H1, H2; auto).
  assert (B : flat_map (out_exprs 0) (map CExpr es) = es /\ flat_map (out_vals 0) (map CExpr es) = []) by (clear A; induction es as [|v vl [H1 H2]]; [auto|]; cbn; rewrite H1, H2; auto).
  destruct A as [-> ->], B as [-> ->]. rewrite app_nil_r. auto.
Qed.
Lemma good_calls vs es : Forall G vs -> Forall good_expr es -> forall c, In c (map CVal vs ++ map CExpr es) -> good_call c.
Proof. intros V E c I. rewrite Forall_forall in V, E. apply in_app_or in I. destruct I as [I|I]; apply in_map_iff in I; destruct I as (x & <- & I); [apply V, I|apply E, I]. Qed.
Lemma round vs es fuel l : (forall o, as_op (opval o) = Some o) -> faithful venc opval provider infer infer_on G -> Forall G vs -> Forall good_expr es -> encode_steps X venc opval fuel vs es = EOk l ->
  exists d st, on_steps (numbered l) (dst0 X) = DOk d /\ d_vals d = vs /\ d_exprs d = es /\ (forall s, In s l -> s_type s <> SNone) /\ e_steps st = l /\ Known provider st d /\ enc_all X venc opval fuel (map CVal vs ++ map CExpr es) (est0 X) = EOk st.
Proof.
  intros O F V E. unfold encode_steps. destruct (enc_all X venc opval fuel _ _) as [st| | |] eqn:Ea; try discriminate. cbn [ebind]. intros [= <-].
  destruct (start provider as_op infer infer_on) as [D0 K0].
  destruct (enc_all_sound venc opval provider as_op infer infer_on G O F fuel _ (est0 X) (dst0 X) st D0 K0 eq_refl (good_calls vs es V E) Ea) as (d & D & K & Ov & Oe).
  destruct (outs vs es) as [H1 H2]. rewrite H1 in Ov. rewrite H2 in Oe. destruct D as (D1 & D2 & D3 & D4). exists d, st. auto 10.
Qed.
End props.

(** Everything that Encode writes is read back by Decode: the values and the expressions, in
    order, for all codecs that decode what they encode.  An expression is read back if its
    operators, made from their dependencies, have the attributes that they had. *)
Theorem C57_round_trip {X} (venc : nat -> prog X) opval provider as_op infer infer_on G vs es fuel c :
  (forall o, as_op (opval o) = Some o) -> faithful venc opval provider infer infer_on G -> Forall G vs -> Forall (good_expr opval infer infer_on G) es ->
  encode X venc opval fuel vs es = EOk c -> decode X provider as_op infer infer_on c = DOk (vs, es).
Proof.
  intros O F V E. unfold encode. destruct (encode_steps X venc opval fuel vs es) as [l| | |] eqn:El; try discriminate. cbn [ebind]. intros [= <-].
  destruct (round venc opval provider as_op infer infer_on G vs es fuel l O F V E El) as (d & st & D & Ov & Oe & _). unfold decode, container_steps. cbn [c_version version_ok c_codecs c_steps c_out_vals c_out_exprs map]. cbn [Z.eqb orb Pos.eqb].
  change (numbered []) with (@nil (nat * dstep X)). rewrite app_nil_r. cbn [app]. rewrite D. cbn [dbind]. unfold finish. rewrite Ov, Oe. reflexivity.
Qed.
Print Assumptions C57_round_trip.

(** The same for records, with anything behind them, which is not read. *)
Theorem C57_records {X} (venc : nat -> prog X) opval provider as_op infer infer_on G vs es fuel l rest :
  (forall o, as_op (opval o) = Some o) -> faithful venc opval provider infer infer_on G -> Forall G vs -> Forall (good_expr opval infer infer_on G) es ->
  encode_records X venc opval fuel vs es = EOk l ->
  decode_records X provider as_op infer infer_on (l ++ rest) = DOk (vs, es) /\ exists d, read_records X provider as_op infer infer_on (l ++ rest) 0 (dst0 X) = DOk (d, rest).
Proof.
  intros O F V E. unfold encode_records. destruct (encode_steps X venc opval fuel vs es) as [l0| | |] eqn:El; try discriminate. cbn [ebind]. intros [= <-].
  destruct (round venc opval provider as_op infer infer_on G vs es fuel l0 O F V E El) as (d & st & D & Ov & Oe & N & _).
  assert (H : read_records X provider as_op infer infer_on (((l0 ++ [plain SNone])) ++ rest) 0 (dst0 X) = DOk (d, rest)).
  { rewrite <- app_assoc. cbn [app]. unfold numbered in D. revert D N. generalize (dst0 X) as d0. generalize 0 as i. clear El. induction l0 as [|s l0 IH]; intros i d0 D N; cbn [app read_records].
    - cbn in D. injection D as <-. reflexivity.
    - cbn [length seq combine Serial_Model.on_steps] in D. destruct (on_step X provider as_op infer infer_on i s d0) as [d1| |]; try discriminate. cbn [dbind] in D |- *. specialize (IH (S i) d1 D (fun s' I => N s' (or_intror I))).
      pose proof (N s (or_introl eq_refl)) as Ns. rewrite IH. destruct (s_type s); try reflexivity. congruence. }
  unfold decode_records. rewrite H. cbn [dbind fst]. unfold finish. rewrite Ov, Oe. split; [reflexivity|]. exists d. reflexivity.
Qed.
Print Assumptions C57_records.

(** If values are made of smaller values and codecs do not fail, then encoding succeeds; the
    result does not depend on the depth of calls that is available. *)
Theorem C57_encodes {X} (venc : nat -> prog X) opval (provider : str -> option (vdec X)) infer infer_on G rank vs es :
  faithful venc opval provider infer infer_on G -> encodable venc opval G rank -> Forall G vs -> Forall (good_expr opval infer infer_on G) es ->
  exists c l k, forall fuel, k <= fuel -> encode X venc opval fuel vs es = EOk c /\ encode_records X venc opval fuel vs es = EOk l.
Proof.
  intros F Ec V E. destruct (encode_total venc opval provider infer infer_on G rank F Ec (map CVal vs ++ map CExpr es) (good_calls opval provider infer infer_on G vs es V E)) as (st & _ & H).
  eexists; eexists; eexists. intros fuel L. unfold encode, encode_records, encode_steps. rewrite (H fuel L). cbn [ebind]. split; reflexivity.
Qed.
Print Assumptions C57_encodes.

(** Every value, expression and codec is written once: different steps that store a value
    (an expression, a codec) store different ones.  [vat d i] is what the decoder has at
    index [i]. *)
Theorem C57_once {X} (venc : nat -> prog X) opval provider as_op infer infer_on G rank vs es fuel c :
  (forall o, as_op (opval o) = Some o) -> faithful venc opval provider infer infer_on G -> encodable venc opval G rank -> Forall G vs -> Forall (good_expr opval infer infer_on G) es ->
  encode X venc opval fuel vs es = EOk c ->
  exists d, on_steps X provider as_op infer infer_on (numbered (c_steps c)) (dst0 X) = DOk d /\
  forall i s, nth_error (c_steps c) i = Some s -> (is_val (s_type s) = true -> exists v, vat d i = HasVal v) /\ (is_expr (s_type s) = true -> exists e, vat d i = HasExpr e) /\
  forall j t, nth_error (c_steps c) j = Some t -> i <> j ->
  (is_val (s_type s) = true -> is_val (s_type t) = true -> vat d i <> vat d j) /\ (is_expr (s_type s) = true -> is_expr (s_type t) = true -> vat d i <> vat d j) /\ (forall m n, s_type s = SCodec m -> s_type t = SCodec n -> m <> n).
Proof.
  intros O F Ec V E. unfold encode. destruct (encode_steps X venc opval fuel vs es) as [l| | |] eqn:El; try discriminate. cbn [ebind]. intros [= <-]. cbn [c_steps].
  destruct (round venc opval provider as_op infer infer_on G vs es fuel l O F V E El) as (d & st & D & _ & _ & _ & Es & K & Ea). exists d. split; [exact D|].
  destruct (encode_total venc opval provider infer infer_on G rank F Ec (map CVal vs ++ map CExpr es) (good_calls opval provider infer infer_on G vs es V E)) as (st' & I & H).
  set (cs := map CVal vs ++ map CExpr es) in *. pose proof (enc_all_mono venc opval fuel (Nat.max fuel (needs opval rank cs)) cs (Nat.le_max_l _ _) _ _ Ea) as E1. rewrite H in E1 by apply Nat.le_max_r. injection E1 as ->. rewrite <- Es. clear H Ea. destruct K as (K1 & K2 & _).
  assert (Val : forall i s, nth_error (e_steps st) i = Some s -> is_val (s_type s) = true -> exists v, find Nat.eqb v (e_vals st) = Some i /\ vat d i = HasVal v).
  { intros i s Hs. destruct (I i s Hs) as (_ & _ & S). destruct (s_type s); try discriminate. cbn in S. destruct S as [v S]. eauto. }
  assert (Ex : forall i s, nth_error (e_steps st) i = Some s -> is_expr (s_type s) = true -> exists v, find node_eqb v (e_exprs st) = Some i /\ vat d i = HasExpr v).
  { intros i s Hs. destruct (I i s Hs) as (_ & _ & S). destruct (s_type s); try discriminate; cbn in S; destruct S as [v S]; eauto. }
  intros i s Hs. split; [intros B; destruct (Val i s Hs B) as (v & _ & H); eauto|]. split; [intros B; destruct (Ex i s Hs B) as (v & _ & H); eauto|]. intros j t Ht N. split; [|split].
  - intros Bs Bt Q. destruct (Val i s Hs Bs) as (v & Fv & Hv). destruct (Val j t Ht Bt) as (w & Fw & Hw). rewrite Hv, Hw in Q. injection Q as ->. congruence.
  - intros Bs Bt Q. destruct (Ex i s Hs Bs) as (v & Fv & Hv). destruct (Ex j t Ht Bt) as (w & Fw & Hw). rewrite Hv, Hw in Q. injection Q as ->. congruence.
  - intros m n Em En ->. destruct (I i s Hs) as (_ & _ & S). destruct (I j t Ht) as (_ & _ & T). rewrite Em in S. rewrite En in T. cbn in S, T. congruence.
Qed.
Print Assumptions C57_once.

(** Decoding is total: any container and any records give a result or an error. *)
Theorem C57_total {X} provider as_op infer infer_on (c : container X) l :
  decode X provider as_op infer infer_on c <> DUndef /\ decode_records X provider as_op infer infer_on l <> DUndef.
Proof.
  assert (S : forall L, Serial_Model.on_steps X provider as_op infer infer_on L (dst0 X) <> DUndef).
  { intros L. rewrite steps_hints by reflexivity. pose proof (steps_mono provider as_op infer infer_on [] L (dst0 X) eq_refl) as M. destruct (Serial_Model.on_steps X provider as_op infer infer_on (strip L) (dst0 X)); [|discriminate|contradiction].
    destruct (all_hints L) as [|cs [|]]; [discriminate| |discriminate]. destruct (fits cs a); discriminate. }
  split.
  - unfold decode. destruct (version_ok (c_version c)); [|discriminate]. specialize (S (container_steps X c)). destruct (Serial_Model.on_steps _ _ _ _ _ _ _); cbn; [discriminate..|congruence].
  - unfold decode_records. assert (R : forall l i L, Serial_Model.on_steps X provider as_op infer infer_on L (dst0 X) <> DErr -> forall d, Serial_Model.on_steps X provider as_op infer infer_on L (dst0 X) = DOk d -> read_records X provider as_op infer infer_on l i d <> DUndef).
    { clear l. induction l as [|s l IH]; intros i L N d E; cbn [read_records]; [discriminate|]. pose proof (S (L ++ [(i, s)])) as S1. rewrite on_steps_app, E in S1. cbn [dbind Serial_Model.on_steps] in S1.
      destruct (on_step X provider as_op infer infer_on i s d) as [d1| |] eqn:E1; cbn [dbind] in S1 |- *; [|destruct (s_type s); discriminate|congruence].
      assert (E2 : Serial_Model.on_steps X provider as_op infer infer_on (L ++ [(i, s)]) (dst0 X) = DOk d1) by (rewrite on_steps_app, E; cbn [dbind Serial_Model.on_steps]; rewrite E1; reflexivity).
      specialize (IH (Datatypes.S i) (L ++ [(i, s)])). rewrite E2 in IH. specialize (IH ltac:(discriminate) d1 eq_refl). destruct (s_type s); try exact IH. discriminate. }
    specialize (R l 0 [] ltac:(discriminate) (dst0 X) eq_refl). destruct (read_records X provider as_op infer infer_on l 0 (dst0 X)); cbn; [discriminate..|congruence].
Qed.
Print Assumptions C57_total.

(** Hints change neither values nor expressions: decoding with hints succeeds with a result
    exactly if decoding without them does, there is one list of hints at most, and no count
    in it is exceeded, nor is it 0 for a step that stores something. *)
Definition unhinted {X} (c : container X) : container X :=
  {| c_version := c_version c; c_codecs := c_codecs c; c_steps := map (fun s => plain (s_type s)) (c_steps c); c_out_vals := c_out_vals c; c_out_exprs := c_out_exprs c |}.
Lemma unhinted_steps {X} (c : container X) : container_steps X (unhinted c) = strip (container_steps X c).
Proof.
  unfold container_steps, strip, unhinted. cbn. rewrite !map_app, !map_map. f_equal; [|f_equal].
  - unfold numbered. rewrite map_length. generalize 0. induction (c_codecs c) as [|n l IH]; intros k; [reflexivity|]. cbn. f_equal. apply IH.
  - unfold numbered. rewrite map_length. generalize 0. induction (c_steps c) as [|n l IH]; intros k; [reflexivity|]. cbn. f_equal. apply IH.
Qed.
Theorem C57_hints {X} provider as_op infer infer_on (c : container X) r :
  decode X provider as_op infer infer_on c = DOk r <->
  decode X provider as_op infer infer_on (unhinted c) = DOk r /\
  match all_hints (container_steps X c) with [] => True | [counts] => covers counts (container_steps X c) | _ => False end.
Proof.
  unfold decode. cbn [unhinted c_version]. destruct (version_ok (c_version c)); [|split; [discriminate|intros [H _]; exact H]]. fold (unhinted c). rewrite unhinted_steps, (steps_hints provider as_op infer infer_on (container_steps X c) (dst0 X) eq_refl).
  destruct (Serial_Model.on_steps X provider as_op infer infer_on (strip (container_steps X c)) (dst0 X)) as [d| |] eqn:E; cbn [dbind]; [|split; [discriminate|intros [H _]; exact H]..].
  destruct (all_hints (container_steps X c)) as [|cs [|]]; [tauto| |split; [discriminate|tauto]]. pose proof (covers_fits provider as_op infer infer_on cs (container_steps X c) d E) as C. destruct (fits cs d); cbn [dbind].
  - unfold finish. cbn [drop d_vals d_exprs]. tauto.
  - split; [discriminate|]. intros [_ H]. apply C in H. discriminate.
Qed.
Print Assumptions C57_hints.

(** A container that is decoded refers to earlier steps only, to values and to expressions
    where these are needed. *)
Theorem C57_refs {X} provider as_op infer infer_on (c : container X) r : c_codecs c = [] -> decode X provider as_op infer infer_on c = DOk r ->
  forall i s, nth_error (c_steps c) i = Some s ->
  (forall k, In k (val_refs (s_type s)) -> k < i /\ exists t, nth_error (c_steps c) k = Some t /\ is_val (s_type t) = true) /\
  (forall k, In k (expr_refs (s_type s)) -> k < i /\ exists t, nth_error (c_steps c) k = Some t /\ is_expr (s_type t) = true).
Proof.
  intros C E. apply C57_hints in E. destruct E as [E _]. unfold decode in E. destruct (version_ok _); [|discriminate]. unfold container_steps in E. cbn [unhinted c_codecs c_steps] in E. rewrite C in E. cbn [map] in E. change (numbered []) with (@nil (nat * dstep X)) in E. cbn [app] in E. rewrite on_steps_app in E.
  destruct (Serial_Model.on_steps X provider as_op infer infer_on (numbered (map (fun s => plain (s_type s)) (c_steps c))) (dst0 X)) as [d| |] eqn:D; try discriminate.
  destruct (numbered_refs provider as_op infer infer_on (c_steps c) d D) as (_ & _ & _ & H). exact H.
Qed.
Print Assumptions C57_refs.

(** A container that is decoded says what it is decoded to: every step makes, from the values
    and expressions at the indices it refers to, the value or expression at its own index;
    a message without codec is decoded by the first codec declared before it that does not
    decline; the result is the values and expressions of the output steps, then those listed
    in the container. *)
Theorem C57_meaning {X} provider as_op infer infer_on (c : container X) vs es : decode X provider as_op infer infer_on c = DOk (vs, es) ->
  exists V E, (forall i s, nth_error (c_steps c) i = Some s -> step_means provider as_op infer infer_on V E (declared provider c i) i (s_type s)) /\
  (forall n, In n (c_codecs c) -> provider n <> None) /\
  Forall2 (fun j v => V j = Some v) (outv_of (c_steps c) ++ c_out_vals c) vs /\ Forall2 (fun j e => E j = Some e) (oute_of (c_steps c) ++ c_out_exprs c) es.
Proof.
  intros H. apply C57_hints in H. destruct H as [H _]. unfold decode in H. destruct (version_ok _); [|discriminate]. rewrite unhinted_steps in H.
  destruct (Serial_Model.on_steps X provider as_op infer infer_on (strip (container_steps X c)) (dst0 X)) as [d| |] eqn:D; try discriminate. cbn [dbind] in H. unfold finish in H. injection H as <- <-.
  destruct (steps_effect provider as_op infer infer_on (container_steps X c) (dst0 X) d [] eq_refl) as (_ & M & _ & vs & es & [O1 O2] & F1 & F2); [split; [reflexivity|intros i f; unfold cat; cbn; destruct i; discriminate]|exact D|].
  cbn [app d_vals d_exprs dst0] in O1, O2. rewrite O1, O2. cbn [app] in M. exists (Vof d), (Eof d).
  assert (Nf : forall (l : list (dstep X)) k i s, nth_error l i = Some s -> exists r, combine (seq k (length l)) l = combine (seq k i) l ++ (k + i, s) :: r).
  { induction l as [|t l IH]; intros k i s E; [destruct i; discriminate|]. destruct i as [|i]; [injection E as ->; exists (combine (seq (S k) (length l)) l); cbn; rewrite Nat.add_0_r; reflexivity|].
    destruct (IH (S k) i s E) as (r & R). exists r. cbn [length seq combine app]. rewrite R. rewrite Nat.add_succ_r. reflexivity. }
  assert (Sn : forall A (l : list A), map snd (numbered l) = l).
  { intros A l. unfold numbered. generalize 0. induction l as [|x l IH]; intros k; [reflexivity|]. cbn. rewrite IH. reflexivity. }
  assert (Ov : outv_of (map snd (container_steps X c)) = outv_of (c_steps c) ++ c_out_vals c /\ oute_of (map snd (container_steps X c)) = oute_of (c_steps c) ++ c_out_exprs c).
  { unfold container_steps. rewrite !map_app, !Sn, !map_map. unfold outv_of, oute_of. rewrite !flat_map_app.
    assert (A1 : flat_map (fun s : dstep X => match s_type s with SOutV j => [j] | _ => [] end) (map (fun n => plain (SCodec n)) (c_codecs c)) = []) by (clear; induction (c_codecs c) as [|n l IH]; [reflexivity|exact IH]).
    assert (A2 : flat_map (fun s : dstep X => match s_type s with SOutE j => [j] | _ => [] end) (map (fun n => plain (SCodec n)) (c_codecs c)) = []) by (clear; induction (c_codecs c) as [|n l IH]; [reflexivity|exact IH]).
    assert (B1 : forall l, flat_map (fun s : dstep X => match s_type s with SOutV j => [j] | _ => [] end) (map (fun x => snd (0, plain (SOutV x))) l) = l) by (induction l as [|n l IH]; [reflexivity|cbn in *; rewrite IH; reflexivity]).
    assert (B2 : forall l, flat_map (fun s : dstep X => match s_type s with SOutE j => [j] | _ => [] end) (map (fun x => snd (0, plain (SOutE x))) l) = l) by (induction l as [|n l IH]; [reflexivity|cbn in *; rewrite IH; reflexivity]).
    assert (B3 : forall l, flat_map (fun s : dstep X => match s_type s with SOutV j => [j] | _ => [] end) (map (fun x => snd (0, plain (SOutE x))) l) = []) by (induction l as [|n l IH]; [reflexivity|exact IH]).
    assert (B4 : forall l, flat_map (fun s : dstep X => match s_type s with SOutE j => [j] | _ => [] end) (map (fun x => snd (0, plain (SOutV x))) l) = []) by (induction l as [|n l IH]; [reflexivity|exact IH]).
    rewrite A1, A2, B1, B2, B3, B4, app_nil_r. auto. }
  destruct Ov as [Ov Oe]. rewrite Ov in F1. rewrite Oe in F2. split; [|split; [|auto]].
  - intros i s Ei. destruct (Nf (c_steps c) 0 i s Ei) as (r & R). cbn [Nat.add] in R.
    pose proof (M (numbered (map (fun n => plain (SCodec n)) (c_codecs c)) ++ combine (seq 0 i) (c_steps c)) i s (r ++ map (fun i => (0, plain (SOutV i))) (c_out_vals c) ++ map (fun i => (0, plain (SOutE i))) (c_out_exprs c))) as Q.
    unfold declared. replace (codecs_of provider (combine (seq 0 (length (c_codecs c))) (map (fun n => plain (SCodec n)) (c_codecs c))) ++ codecs_of provider (combine (seq 0 i) (c_steps c)))
      with (codecs_of provider (numbered (map (fun n => plain (SCodec n)) (c_codecs c)) ++ combine (seq 0 i) (c_steps c))) by (unfold codecs_of, numbered; rewrite flat_map_app, map_length; reflexivity).
    apply Q. unfold container_steps. unfold numbered at 2. rewrite R, <- !app_assoc. reflexivity.
  - intros n In0. apply In_nth_error in In0. destruct In0 as (k & Ek). destruct (Nf (map (fun n => plain (SCodec n)) (c_codecs c)) 0 k (plain (SCodec n))) as (r & R); [rewrite nth_error_map, Ek; reflexivity|]. cbn [Nat.add] in R.
    apply (M (combine (seq 0 k) (map (fun n => plain (SCodec n)) (c_codecs c))) k (plain (SCodec n)) (r ++ numbered (c_steps c) ++ map (fun i => (0, plain (SOutV i))) (c_out_vals c) ++ map (fun i => (0, plain (SOutE i))) (c_out_exprs c))).
    unfold container_steps. unfold numbered at 1. rewrite R, <- app_assoc. reflexivity.
Qed.
Print Assumptions C57_meaning.
(** A record stream that is decoded has a stop record, and is decoded as the container of the
    steps before it. *)
Theorem C57_stop {X} provider as_op infer infer_on (l : list (dstep X)) r : decode_records X provider as_op infer infer_on l = DOk r ->
  exists l1 s rest, l = l1 ++ s :: rest /\ s_type s = SNone /\ (forall t, In t l1 -> s_type t <> SNone) /\
  decode X provider as_op infer infer_on {| c_version := Some 2%Z; c_codecs := []; c_steps := l1; c_out_vals := []; c_out_exprs := [] |} = DOk r.
Proof.
  unfold decode_records, decode. cbn [c_version version_ok Z.eqb orb Pos.eqb]. unfold container_steps. cbn [c_codecs c_steps c_out_vals c_out_exprs map app]. change (numbered []) with (@nil (nat * dstep X)). unfold numbered. cbn [app].
  generalize (dst0 X) as d. generalize 0 as i. induction l as [|s l IH]; intros i d; cbn [read_records]; [discriminate|].
  assert (St : s_type s <> SNone -> dbind (dbind (on_step X provider as_op infer infer_on i s d) (read_records X provider as_op infer infer_on l (S i))) (fun x => finish X (fst x)) = DOk r ->
    exists l1 t rest, s :: l = l1 ++ t :: rest /\ s_type t = SNone /\ (forall t', In t' l1 -> s_type t' <> SNone) /\ dbind (Serial_Model.on_steps X provider as_op infer infer_on (combine (seq i (length l1)) l1 ++ []) d) (finish X) = DOk r).
  { intros N H. destruct (on_step X provider as_op infer infer_on i s d) as [d1| |] eqn:E; try discriminate. cbn [dbind] in H. destruct (IH (S i) d1 H) as (l1 & t & rest & -> & A & B & C). exists (s :: l1), t, rest. split; [reflexivity|]. split; [exact A|].
    split; [intros t' [<-|I]; [exact N|apply B, I]|]. cbn [length seq combine app Serial_Model.on_steps]. rewrite E. exact C. }
  destruct (s_type s) eqn:Es; try (apply St; discriminate). intros H. exists [], s, l. split; [reflexivity|]. split; [exact Es|]. split; [intros t []|exact H].
Qed.
Print Assumptions C57_stop.

(** ** Codecs of scalars, of a pair, of a quoted expression and of operators. *)
Definition xe : node := Op 0 (AType 5) [Leaf [7]; Op 1 (AType 5) [Lit 10; Leaf [7]]].
Definition xvenc (v : nat) : prog nat :=
  if v <? 10 then Call (CCodec [1]) (fun c => Ret {| p_vals := []; p_exprs := []; p_codec := Some c; p_ext := v |})
  else if v =? 10 then Call (CCodec [2]) (fun c => Call (CVal 3) (fun i => Call (CVal 4) (fun j => Ret {| p_vals := [i; j; i]; p_exprs := []; p_codec := Some c; p_ext := 0 |})))
  else if v =? 11 then Call (CExpr xe) (fun i => Call (CVal 10) (fun j => Call (CCodec [3]) (fun c => Ret {| p_vals := [j]; p_exprs := [i]; p_codec := Some c; p_ext := 0 |})))
  else if v <? 20 then Fail
  else Call (CCodec [4]) (fun c => Ret {| p_vals := []; p_exprs := []; p_codec := Some c; p_ext := v |}).
Definition xopval (o : nat) : nat := 20 + o.
Definition xas_op (v : nat) : option nat := if v <? 20 then None else Some (v - 20).
Definition xprov (n : str) : option (vdec nat) :=
  match n with
  | [1] | [4] => Some (fun p vs es => match vs, es with [], [] => VOk (p_ext p) | _, _ => VErr end)
  | [2] => Some (fun p vs es => match vs with [3; 4; 3] => VOk 10 | _ => VErr end)
  | [3] => Some (fun p vs es => match vs, es with [10], [e] => if node_eqb e xe then VOk 11 else VErr | _, _ => VErr end)
  | _ => None
  end.
Definition xinfer (o : nat) (l : list attr) : unit + attr := inr (AType 5).
Definition xG (v : nat) : Prop := v < 12 \/ 20 <= v.
Definition xrank (v : nat) : nat := if v =? 10 then 1 else if v =? 11 then 2 else 0.
Lemma xops o : xas_op (xopval o) = Some o.
Proof. unfold xas_op, xopval. destruct (Nat.ltb_spec (20 + o) 20); [lia|]. f_equal. lia. Qed.
Lemma xe_sub n : sub n xe -> n = xe \/ n = Op 1 (AType 5) [Lit 10; Leaf [7]] \/ n = Lit 10 \/ n = Leaf [7].
Proof.
  assert (L : forall k, sub n (Leaf k) -> n = Leaf k) by (intros k H; inversion H; [reflexivity|contradiction]). assert (V : forall k, sub n (Lit k) -> n = Lit k) by (intros k H; inversion H; [reflexivity|contradiction]).
  intros H. inversion H as [|x d I S]; subst; [auto|]. destruct I as [<-|[<-|[]]]; [right; right; right; apply L, S|]. inversion S as [|x d I T]; subst; [auto|]. destruct I as [<-|[<-|[]]]; [right; right; left; apply V, T|right; right; right; apply L, T].
Qed.
Lemma xe_good : good_expr xopval xinfer true xG xe.
Proof. intros n H. apply xe_sub in H. destruct H as [->|[->|[->| ->]]]; cbn; unfold xG; repeat split; try lia. Qed.
Lemma reach_ret {X} (p : vproto X) t q : reach (Ret p) t q -> t = [] /\ q = Ret p.
Proof. intros H. inversion H; auto. Qed.
Lemma reach_inv {X} c (k : nat -> prog X) t q : reach (Call c k) t q -> (t = [] /\ q = Call c k) \/ exists i t', t = (c, i) :: t' /\ reach (k i) t' q.
Proof. intros H. inversion H; subst; [auto|]. right. eauto. Qed.
Ltac rinv := repeat match goal with
  | H : reach (Ret _) _ _ |- _ => apply reach_ret in H; destruct H; subst
  | H : reach (Call _ _) _ _ |- _ => apply reach_inv in H; destruct H as [[? ?]|(? & ? & ? & ?)]; subst end.
Lemma xfaithful : faithful xvenc xopval xprov xinfer true xG.
Proof.
  intros v t q Gv R. unfold xvenc in R. destruct (Nat.ltb_spec v 10) as [L|L]; [|destruct (Nat.eqb_spec v 10) as [->|N1]; [|destruct (Nat.eqb_spec v 11) as [->|N2]; [|destruct (Nat.ltb_spec v 20) as [L2|L2]; [red in Gv; lia|]]]]; rinv;
  (split; [intros c k [= <- <-]; cbn; try discriminate; try apply xe_good; red; lia || idtac|]); intros g p Ep St; try discriminate Ep; injection Ep as <-.
  - eexists [], [], _, [1], _. split; [constructor|]. split; [constructor|]. split; [reflexivity|]. split; [apply (St (CCodec [1])); left; reflexivity|]. split; reflexivity.
  - eexists [3; 4; 3], [], _, [2], _. split; [repeat constructor; [apply (St (CVal 3))|apply (St (CVal 4))|apply (St (CVal 3))]; cbn; auto|]. split; [constructor|]. split; [reflexivity|]. split; [apply (St (CCodec [2])); left; reflexivity|]. split; reflexivity.
  - eexists [10], [xe], _, [3], _. split; [repeat constructor; apply (St (CVal 10)); cbn; auto|]. split; [repeat constructor; apply (St (CExpr xe)); cbn; auto|]. split; [reflexivity|]. split; [apply (St (CCodec [3])); cbn; auto|]. split; reflexivity.
  - eexists [], [], _, [4], _. split; [constructor|]. split; [constructor|]. split; [reflexivity|]. split; [apply (St (CCodec [4])); left; reflexivity|]. split; reflexivity.
Qed.
Lemma xencodable : encodable xvenc xopval xG xrank.
Proof.
  intros v t q Gv R. unfold xvenc in R. destruct (Nat.ltb_spec v 10) as [L|L]; [|destruct (Nat.eqb_spec v 10) as [->|N1]; [|destruct (Nat.eqb_spec v 11) as [->|N2]; [|destruct (Nat.ltb_spec v 20) as [L2|L2]; [red in Gv; lia|]]]]; rinv;
  (split; [discriminate|]; intros c k [= <- <-]); cbn; auto; try lia.
  intros n H. apply xe_sub in H. destruct H as [->|[->|[->| ->]]]; cbn; lia || exact I.
Qed.
(** The hypotheses hold, and this is what is written for the quoted expression, a scalar
    and the expression. *)
Definition xval (vs es : list nat) (c x : nat) : step nat := SVal {| p_vals := vs; p_exprs := es; p_codec := Some c; p_ext := x |}.
Definition xsteps : list (step nat) :=
  [SLeaf (Some [7]); SCodec [2]; SCodec [1]; xval [] [] 2 3; xval [] [] 2 4; xval [3; 4; 3] [] 1 0; SLit (Some 5); SCodec [4]; xval [] [] 7 21; SOp (Some 8) [6; 0];
   xval [] [] 7 20; SOp (Some 10) [0; 9]; SCodec [3]; xval [5] [11] 12 0; SOutV 13; SOutV 3; SOutE 11].
Definition xcont (l : list (dstep nat)) : container nat := {| c_version := Some 2%Z; c_codecs := []; c_steps := l; c_out_vals := []; c_out_exprs := [] |}.
Example C57_ex : encode nat xvenc xopval 9 [11; 3] [xe] = EOk (xcont (map plain xsteps)) /\ decode nat xprov xas_op xinfer true (xcont (map plain xsteps)) = DOk ([11; 3], [xe]).
Proof. split; vm_compute; reflexivity. Qed.
Example C57_ex_hyps : (forall o, xas_op (xopval o) = Some o) /\ faithful xvenc xopval xprov xinfer true xG /\ encodable xvenc xopval xG xrank /\ Forall xG [11; 3] /\ Forall (good_expr xopval xinfer true xG) [xe].
Proof. split; [exact xops|]. split; [exact xfaithful|]. split; [exact xencodable|]. split; repeat constructor; unfold xG; try lia. exact xe_good. Qed.
Example C57_ex_records : exists l, encode_records nat xvenc xopval 9 [11; 3] [xe] = EOk l /\ decode_records nat xprov xas_op xinfer true (l ++ [plain (SOutV 99)]) = DOk ([11; 3], [xe]).
Proof. eexists. split; vm_compute; reflexivity. Qed.
(** With hints at the fifth step: the exact counts are accepted, and a smaller one is not. *)
Definition xhinted (counts : list nat) : container nat := xcont (map plain (firstn 4 xsteps) ++ {| s_type := xval [] [] 2 4; s_hints := counts |} :: map plain (skipn 5 xsteps)).
Example C57_ex_hints : decode nat xprov xas_op xinfer true (xhinted [2; 0; 0; 3; 1; 2; 1; 0; 1; 1; 1; 2; 0; 1]) = DOk ([11; 3], [xe]) /\
  decode nat xprov xas_op xinfer true (xhinted [2; 0; 0; 2]) = DErr /\ decode nat xprov xas_op xinfer true (xhinted [2; 0; 0; 3; 0]) = DErr.
Proof. repeat split; vm_compute; reflexivity. Qed.
Example C57_ex_covers : all_hints (container_steps nat (xhinted [2; 0; 0; 3])) = [[2; 0; 0; 3]] /\ covers [2; 0; 0; 3] (container_steps nat (xhinted [2; 0; 0; 3])).
Proof.
  split; [reflexivity|]. pose proof (proj1 (C57_hints xprov xas_op xinfer true (xhinted [2; 0; 0; 3]) ([11; 3], [xe])) ltac:(vm_compute; reflexivity)) as [_ H]. exact H.
Qed.

(** Version 1: codecs and outputs are listed apart; the first codec declines messages with
    large numbers, the second takes them. *)
Definition yprov (n : str) : option (vdec nat) :=
  match n with
  | [1] => Some (fun p vs es => if p_ext p <? 10 then VOk (p_ext p) else VNone)
  | [2] => Some (fun p vs es => VOk (100 + p_ext p))
  | _ => None
  end.
Definition ymsg (x : nat) : dstep nat := plain (SVal {| p_vals := []; p_exprs := []; p_codec := None; p_ext := x |}).
Definition ycont : container nat := {| c_version := Some 1%Z; c_codecs := [[1]; [2]]; c_steps := [ymsg 7; ymsg 20; plain (SLit (Some 1)); plain (SLeaf (Some [5])); plain (SOp (Some 1) [3; 2])]; c_out_vals := [1; 0; 1]; c_out_exprs := [4] |}.
Example C57_ex_version1 : decode nat yprov xas_op xinfer false ycont = DOk ([120; 7; 120], [Op 100 ANone [Leaf [5]; Lit 120]]) /\
  decode_records nat yprov xas_op xinfer false [plain (SLeaf (Some [5])); plain (SOutE 0)] = DErr.
Proof. split; vm_compute; reflexivity. Qed.

(** Expressions with attributes are not read back if the decoder does not infer them. *)
Theorem C57_attributes_refuted : exists e c e', encode nat xvenc xopval 9 [] [e] = EOk c /\ decode nat xprov xas_op xinfer true c = DOk ([], [e]) /\ decode nat xprov xas_op xinfer false c = DOk ([], [e']) /\ e <> e'.
Proof. exists xe. eexists. eexists. split; [vm_compute; reflexivity|]. split; [vm_compute; reflexivity|]. split; [vm_compute; reflexivity|discriminate]. Qed.
Print Assumptions C57_attributes_refuted.
(** A step that consists of hints only is no step of a container, but the end of records. *)
Theorem C57_hint_record_refuted : exists l : list (dstep nat),
  decode nat xprov xas_op xinfer true (xcont l) = DOk ([], [Leaf [7]]) /\ decode_records nat xprov xas_op xinfer true (l ++ [plain SNone]) = DOk ([], []).
Proof. exists [plain (SLeaf (Some [7])); {| s_type := SNone; s_hints := [1] |}; plain (SOutE 0)]. split; vm_compute; reflexivity. Qed.
Print Assumptions C57_hint_record_refuted.
