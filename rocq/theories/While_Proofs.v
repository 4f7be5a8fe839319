(** Lemmas for C67: the value of the node. *)
From Verif Require Import Base While_Model While_Spec While_Fold While_Extract While_Make.

(** ** The loop over two slots *)
Section Loop.
Variables (G : lang) (w : wnode) (ts : list (T G)) (consts : list (V G)) (junk : V G).
Let C (v : V G) : option bool := option_map (truthy G) (call G w ts consts (w_cond w) v).
Let B (v : V G) : option (V G) := call G w ts consts (w_body w) v.
Inductive big : nat -> V G -> option (V G) -> Prop :=
  | big_ce n v : C v = None -> big n v None
  | big_done n v : C v = Some false -> big n v (Some v)
  | big_be n v : C v = Some true -> B v = None -> big n v None
  | big_next n v v' r : C v = Some true -> B v = Some v' -> big n v' r -> big (S n) v r.
Definition res (x : option (bool * frame G)) : option (option (V G)) := let? (ok, f) := x in Some (if (ok : bool) then Some (f_out G f) else None).
Lemma run_big fuel : forall f r, res (run w ts consts junk fuel f) = Some r -> exists n, big n (f_out G f) r.
Proof.
  induction fuel as [|k IH]; intros [o t c0] r H; [discriminate|]. cbn [f_out]. cbn [run] in H. unfold exec_cond in H. cbn [f_out f_tmp f_cond] in H.
  destruct (call G w ts consts (w_cond w) o) as [c|] eqn:EC.
  2:{ cbn in H. injection H as <-. exists 0. apply big_ce. unfold C. rewrite EC. reflexivity. }
  cbn [f_cond f_out f_tmp negb orb] in H. destruct (truthy G c) eqn:ET; cbn [negb] in H.
  2:{ cbn in H. injection H as <-. exists 0. apply big_done. unfold C. cbn [f_out]. rewrite EC. cbn. congruence. }
  assert (C1 : C o = Some true) by (unfold C; rewrite EC; cbn; congruence).
  unfold exec_body in H. cbn [f_cond f_out f_tmp] in H. destruct (call G w ts consts (w_body w) o) as [v1|] eqn:EB.
  2:{ cbn in H. injection H as <-. exists 0. apply big_be; assumption. }
  cbn [negb f_cond f_out f_tmp] in H. destruct (call G w ts consts (w_cond w) v1) as [c1|] eqn:EC1.
  2:{ cbn in H. injection H as <-. exists 1. eapply big_next; [exact C1|exact EB|]. apply big_ce. unfold C. rewrite EC1. reflexivity. }
  cbn [f_cond f_out f_tmp negb orb] in H. destruct (truthy G c1) eqn:ET1; cbn [negb] in H.
  2:{ cbn in H. injection H as <-. exists 1. eapply big_next; [exact C1|exact EB|]. apply big_done. unfold C. rewrite EC1. cbn. congruence. }
  assert (C2 : C v1 = Some true) by (unfold C; rewrite EC1; cbn; congruence).
  destruct (call G w ts consts (w_body w) v1) as [v2|] eqn:EB1.
  2:{ cbn in H. injection H as <-. exists 1. eapply big_next; [exact C1|exact EB|]. apply big_be; assumption. }
  cbn [negb] in H. destruct (IH _ _ H) as (n & Hn). exists (S (S n)). eapply big_next; [exact C1|exact EB|]. eapply big_next; [exact C2|exact EB1|exact Hn].
Qed.
Lemma big_run n : forall v r, big n v r -> forall t c0, exists fuel, res (run w ts consts junk fuel (mkF G v t c0)) = Some r.
Proof.
  induction n as [n IH] using lt_wf_ind. intros v r H t c0.
  assert (U : forall x b, C x = Some b -> exists c, call G w ts consts (w_cond w) x = Some c /\ truthy G c = b).
  { intros x b. unfold C. destruct (call G w ts consts (w_cond w) x) as [c|]; [|discriminate]. cbn. intros I; injection I as <-. eauto. }
  assert (U0 : forall x, C x = None -> call G w ts consts (w_cond w) x = None).
  { intros x. unfold C. destruct (call G w ts consts (w_cond w) x); [discriminate|reflexivity]. }
  inversion H as [? ? HC|? ? HC|? ? HC HB|m ? v' ? HC HB H']; subst.
  - exists 1. cbn [run]. unfold exec_cond. cbn [f_out f_tmp f_cond]. rewrite (U0 _ HC). reflexivity.
  - exists 1. destruct (U _ _ HC) as (c & E & ET). cbn [run]. unfold exec_cond. cbn [f_out f_tmp f_cond]. rewrite E. cbn [f_cond]. rewrite ET. reflexivity.
  - exists 1. destruct (U _ _ HC) as (c & E & ET). cbn [run]. unfold exec_cond. cbn [f_out f_tmp f_cond]. rewrite E. cbn [f_cond]. rewrite ET. cbn [negb orb].
    unfold exec_body. cbn [f_out f_tmp f_cond]. unfold B in HB. rewrite HB. reflexivity.
  - destruct (U _ _ HC) as (c & E & ET). unfold B in HB.
    assert (F : forall fuel, run w ts consts junk (S fuel) (mkF G v t c0) =
      let '(ok, f) := exec_cond G w ts consts false (mkF G v v' true) in
      if negb ok || negb (f_cond G f) then Some (ok, mkF G (f_tmp G f) (f_tmp G f) (f_cond G f)) else
      let '(ok, f) := exec_body G w ts consts junk false f in
      if negb ok then Some (ok, f) else run w ts consts junk fuel f).
    { intros fuel. cbn [run]. unfold exec_cond at 1. cbn [f_out f_tmp f_cond]. rewrite E. cbn [f_cond]. rewrite ET. cbn [negb orb].
      unfold exec_body at 1. cbn [f_out f_tmp f_cond]. rewrite HB. cbn [negb]. reflexivity. }
    inversion H' as [? ? HC'|? ? HC'|? ? HC' HB'|m' ? v'' ? HC' HB' H'']; subst.
    + exists 1. rewrite F. unfold exec_cond. cbn [f_out f_tmp f_cond]. rewrite (U0 _ HC'). reflexivity.
    + exists 1. rewrite F. destruct (U _ _ HC') as (c' & E' & ET'). unfold exec_cond. cbn [f_out f_tmp f_cond]. rewrite E'. cbn [f_cond]. rewrite ET'. reflexivity.
    + exists 1. rewrite F. destruct (U _ _ HC') as (c' & E' & ET'). unfold exec_cond. cbn [f_out f_tmp f_cond]. rewrite E'. cbn [f_cond]. rewrite ET'. cbn [negb orb].
      unfold exec_body. cbn [f_out f_tmp f_cond]. unfold B in HB'. rewrite HB'. reflexivity.
    + destruct (IH m' ltac:(lia) _ _ H'' v' true) as (fuel & R). exists (S fuel). rewrite F.
      destruct (U _ _ HC') as (c' & E' & ET'). unfold exec_cond. cbn [f_out f_tmp f_cond]. rewrite E'. cbn [f_cond]. rewrite ET'. cbn [negb orb].
      unfold exec_body. cbn [f_out f_tmp f_cond]. unfold B in HB'. rewrite HB'. cbn [negb]. exact R.
Qed.
End Loop.

Section Node.
Variables (G : lang) (ident : key -> bool) (init : items) (cond : expr) (body : items) (w : wnode).
Variables (init' : items) (cond' : expr) (body' casts : items) (c b : expr) (es bs ds : list expr).
Hypotheses (OK : lang_ok G) (LI : loop_inputs init cond body) (NR : no_reserved init)
  (M : made G ident init cond body w init' cond' body' casts c b es bs ds).
Variables (LT PT : key -> option (T G)) (L P : key -> option (V G)).
Let names := names_of body.
Let imm := filter (fun k => negb (memk k names)) (names_of init').

Lemma moved : exists ns, init_ok init ns init' /\ dep_ok ns init' cond cond' /\
  Forall2 (fun c c' => fst c' = fst c /\ dep_ok ns init' (snd c) (snd c')) body body' /\
  (forall x, In x ns -> plcs x = [] /\ exists e, (e = cond \/ In e (map snd body)) /\ sub x e).
Proof. apply move_ok; [exact NR|apply LI|apply M]. Qed.
Lemma names_eq : names_of body' = names.
Proof. destruct moved as (ns & _ & _ & F & _). unfold names, names_of. rewrite (keys_same _ _ _ _ F). reflexivity. Qed.
Lemma names_nodup : NoDup names. Proof. apply sort_nodup, LI. Qed.
Lemma names_In k : In k names <-> In k (keys body). Proof. apply sort_In. Qed.
Lemma names_init : incl names (keys init).
Proof. intros k K. apply names_In in K. destruct LI as (_ & _ & _ & _ & H & _). apply H, K. Qed.
Lemma get_body_In k e : get body k = Some e -> In (k, e) body /\ incl (plcs e) (keys init) /\ plain e.
Proof. intros H. apply get_In in H. destruct LI as (_ & _ & _ & A & _ & _ & B). split; [exact H|]. eauto. Qed.
Lemma names_get k : In k names -> exists e, get body k = Some e.
Proof. intros K. apply names_In, get_Some_keys in K. exact K. Qed.

(** The constants: types and values. *)
Definition ity (k : key) : option (T G) := let? e := get init' k in ety LT PT e.
Definition ival (k : key) : option (V G) := let? e := get init' k in eval LT PT L P e.
Lemma init_get k : In k (keys init) -> get init' k = get init k.
Proof.
  intros K. destruct moved as (ns & (_ & A & _) & _). apply get_Some_keys in K. destruct K as (x & K). rewrite K. apply A, K.
Qed.
Lemma ity_init k : In k (keys init) -> ity k = ty0 G LT PT init k.
Proof. intros K. unfold ity, ty0. rewrite init_get by exact K. reflexivity. Qed.
Lemma ival_init k : In k (keys init) -> ival k = val0 G LT PT L P init k.
Proof. intros K. unfold ival, val0. rewrite init_get by exact K. reflexivity. Qed.
Lemma closed_fold {X} (lv : nat -> X) ov L0 P1 P2 x : plcs x = [] -> fold lv ov L0 P1 x = fold lv ov L0 P2 x.
Proof. intros H. apply fold_ext; [reflexivity|]. rewrite H. intros k []. Qed.
Lemma root_plain e : e = cond \/ In e (map snd body) -> plain e.
Proof.
  destruct LI as (_ & _ & A & B & _). intros [->|H]; [exact A|]. apply in_map_iff in H. destruct H as ([k x] & <- & H). eapply B; exact H.
Qed.

Lemma imm_In k : In k imm <-> In k (keys init') /\ ~ In k names.
Proof.
  unfold imm. rewrite filter_In, negb_true_iff, <- not_true_iff_false, memk_iff. unfold names_of at 1. rewrite sort_In. tauto.
Qed.
Lemma casts_get k : get casts k = match get body' k with
    | Some e => match subst true init' e, get init' k with Some e1, Some i => Some (Op CastLike [i; e1]) | _, _ => None end
    | None => None end /\ (forall e, get body' k = Some e -> subst true init' e <> None /\ get init' k <> None).
Proof. apply add_casts_get, M. Qed.
Lemma ds_get : map_opt (get init') imm = Some ds.
Proof.
  destruct M as [_ _ _ _ _ H _ _ _ _]. rewrite names_eq in H. fold imm in H. rewrite <- H. apply map_opt_ext. intros k K. apply imm_In in K.
  rewrite with_casts_get. destruct (casts_get k) as [E _]. rewrite E. destruct (get init' k); [|reflexivity].
  destruct (get body' k) as [e'|] eqn:EB; [|reflexivity]. exfalso. apply K. rewrite <- names_eq. apply sort_In, get_Some_keys. eauto.
Qed.
Lemma map_opt_get {A} (f : expr -> option A) m ks r : map_opt (get m) ks = Some r -> map_opt f r = map_opt (fun k => let? e := get m k in f e) ks.
Proof.
  intros H. apply map_opt_Some in H. induction H as [|k x t t' E F IH]; [reflexivity|]. cbn [map_opt]. rewrite E, IH. reflexivity.
Qed.
Lemma ds_ty : map_opt (ety LT PT) ds = map_opt ity imm. Proof. apply (map_opt_get _ _ _ _ ds_get). Qed.
Lemma ds_val : map_opt (eval LT PT L P) ds = map_opt ival imm. Proof. apply (map_opt_get _ _ _ _ ds_get). Qed.

(** The type that a variable is converted to. *)
Lemma cast_target k e' e1 : get body' k = Some e' -> subst true init' e' = Some e1 -> exists e, get body k = Some e /\ ety LT PT e1 = ety LT (ty0 G LT PT init) e.
Proof.
  intros HB HS. destruct moved as (ns & I & _ & F & Q). pose proof (body_get _ _ _ _ k F) as BG. rewrite HB in BG.
  destruct (get body k) as [e|] eqn:E; [|contradiction]. exists e. split; [reflexivity|]. rewrite !ety_fold.
  rewrite (fold_subst _ _ LT PT _ _ _ _ HS). destruct (get_body_In _ _ E) as (_ & HP & _).
  apply (dep_sem _ _ ns init' e e' LT _ _ BG).
  - intros q K. apply NR. auto.
  - intros q K. apply HP in K. rewrite init_get by exact K. apply get_Some_keys in K. destruct K as (x & K). unfold ty0. rewrite K. reflexivity.
  - intros i x Hi Gi. rewrite Gi. apply closed_fold. apply Q. eapply nth_error_In; exact Hi.
Qed.
Definition cty (k : key) : option (T G) := let? a := ty0 G LT PT init k in let? e := get body k in let? t := ety LT (ty0 G LT PT init) e in cast_ty G t a.
Definition cval (k : key) : option (V G) := let? v := val0 G LT PT L P init k in let? e := get body k in let? t := ety LT (ty0 G LT PT init) e in cast G t v.
Lemma es_gets {A} (f : expr -> option A) g : (forall k e' i e1, In k names -> get body' k = Some e' -> get init' k = Some i -> subst true init' e' = Some e1 -> f (Op CastLike [i; e1]) = g k) ->
  map_opt f es = map_opt g names.
Proof.
  intros H. destruct M as [_ _ _ ES _ _ _ _ _ _]. rewrite names_eq in ES. rewrite (map_opt_get f _ _ _ ES). apply map_opt_ext. intros k K.
  rewrite with_casts_get. destruct (casts_get k) as [E U]. rewrite E.
  assert (KB : In k (keys body')) by (rewrite <- names_eq in K; exact (proj1 (sort_In (keys body') k) K)). apply get_Some_keys in KB. destruct KB as (e' & KB).
  destruct (U e' KB) as [U1 U2]. rewrite KB. destruct (subst true init' e') as [e1|] eqn:ES1; [|contradiction].
  destruct (get init' k) as [i|] eqn:EI; [|contradiction]. cbn. eapply H; eauto.
Qed.
Lemma es_ty : map_opt (ety LT PT) es = map_opt cty names.
Proof.
  apply es_gets. intros k e' i e1 K HB HI HS. destruct (cast_target _ _ _ HB HS) as (e & E & TE). unfold cty. rewrite E.
  unfold ty0 at 1. rewrite <- init_get by (apply names_init, K). rewrite HI. cbn [ety map_opt bind]. rewrite <- TE.
  destruct (ety LT PT i); cbn; [|reflexivity]. destruct (ety LT PT e1); reflexivity.
Qed.
Lemma es_val : map_opt (eval LT PT L P) es = map_opt cval names.
Proof.
  apply es_gets. intros k e' i e1 K HB HI HS. destruct (cast_target _ _ _ HB HS) as (e & E & TE). unfold cval. rewrite E.
  unfold val0. rewrite <- init_get by (apply names_init, K). rewrite HI. cbn [eval bind]. rewrite <- TE. reflexivity.
Qed.
Lemma start_eq : start G LT PT L P init body names = map_opt cval names. Proof. reflexivity. Qed.

(** The condition and the body of the lambdas. *)
Section Sem.
Context {X : Type} (lv : nat -> X) (ov : oper -> list X -> option X).
Variables (L0 E0 E' : key -> option X) (st : X) (sts its : list X).
Hypotheses (Hl : length sts = length names) (Hnth : forall i, ov (GetNth i) [st] = nth_error sts i) (Hits : map_opt E' imm = Some its)
  (HE : forall k, In k (keys init) -> E' k = E0 k)
  (HX : forall k x, plcs x = [] -> (exists e, (e = cond \/ In e (map snd body)) /\ sub x e) -> get init' k = Some x -> forall P0, E' k = fold lv ov L0 P0 x).
Let env0 := get (combine (loop_state :: imm) (st :: its)).
Lemma nodup_params : NoDup (loop_state :: imm).
Proof. destruct M as [_ _ _ _ _ _ _ _ N _]. rewrite names_eq in N. exact N. Qed.
Lemma sem_call ns e d d' : init_ok init ns init' -> (forall x, In x ns -> plcs x = [] /\ exists e, (e = cond \/ In e (map snd body)) /\ sub x e) ->
  dep_ok ns init' e d -> incl (plcs e) (keys init) -> subst false (accessors (Plc loop_state) names) d = Some d' ->
  fold lv ov no_leaves env0 d' = fold lv ov L0 (senv names E0 sts) e.
Proof.
  intros I Q D HP S. apply (call_ok lv ov init init' ns names L0 E0 E' st sts its NR I names_nodup names_init nodup_params Hl Hnth Hits HE) with (d := d); auto.
  intros i x Hi. destruct (Q x (nth_error_In _ _ Hi)) as [C U]. split; [exact C|]. intros Gi P0. eapply HX; eauto.
Qed.
Lemma sem_cond : fold lv ov no_leaves env0 c = fold lv ov L0 (senv names E0 sts) cond.
Proof.
  destruct moved as (ns & I & D & _ & Q). destruct M as [_ _ _ _ _ _ S _ _ _]. rewrite names_eq in S. apply (sem_call ns cond cond' c I Q D); [apply LI|exact S].
Qed.
Lemma sem_body : exists bs', b = Op (MakeTuple names) bs' /\
  map_opt (fold lv ov no_leaves env0) bs' = map_opt (fun k => let? e := get body k in fold lv ov L0 (senv names E0 sts) e) names.
Proof.
  destruct moved as (ns & I & _ & F & Q). destruct M as [_ _ _ _ BS _ _ S _ _]. rewrite names_eq in BS, S. cbn [subst] in S.
  destruct (map_opt (subst false (accessors (Plc loop_state) names)) bs) as [bs'|] eqn:E; [|discriminate]. cbn in S. injection S as S. exists bs'. split; [symmetry; exact S|]. clear S. apply map_opt_Some in E. apply map_opt_Some in BS.
  assert (G2 : forall l bs0, Forall2 (fun k x => get body' k = Some x) l bs0 -> forall bs2, Forall2 (fun x y => subst false (accessors (Plc loop_state) names) x = Some y) bs0 bs2 ->
    map_opt (fold lv ov no_leaves env0) bs2 = map_opt (fun k => let? e := get body k in fold lv ov L0 (senv names E0 sts) e) l).
  { induction 1 as [|k x t t' H F2 IH]; intros bs2 E3; inversion E3 as [|? y ? u H1 E2]; subst; [reflexivity|]. cbn [map_opt].
    pose proof (body_get _ _ _ _ k F) as BG. rewrite H in BG. destruct (get body k) as [e|] eqn:EB; [|contradiction]. cbn [bind].
    rewrite (sem_call ns e x y I Q BG (proj1 (proj2 (get_body_In _ _ EB))) H1). rewrite (IH _ E2). reflexivity. }
  apply (G2 names bs BS bs' E).
Qed.
End Sem.

Lemma w_eq : w = mkW (loop_state :: imm) c b (Op (MakeTuple names) es :: ds).
Proof. destruct M as [_ _ _ _ _ _ _ _ _ W]. rewrite names_eq in W. exact W. Qed.

(** ** Types *)
Lemma cty_t k t : cty k = Some t -> exists a e, ty0 G LT PT init k = Some a /\ get body k = Some e /\ ety LT (ty0 G LT PT init) e = Some t /\ cast_ty G t a = Some t.
Proof.
  unfold cty. destruct (ty0 G LT PT init k) as [a|]; [|discriminate]. cbn. destruct (get body k) as [e|]; [|discriminate]. cbn.
  destruct (ety LT (ty0 G LT PT init) e) as [t'|] eqn:E; [|discriminate]. cbn. intros H. pose proof (cast_ty_sound G OK _ _ _ H). subst t'. eauto 10.
Qed.
Lemma senv_ty1 sts k : map_opt cty names = Some sts -> senv names (ty0 G LT PT init) sts k = ty1 G LT PT init body k.
Proof.
  intros H. unfold senv, ty1. destruct (get body k) as [e|] eqn:E.
  - assert (K : In k names) by (apply names_In, get_Some_keys; eauto). destruct (In_nth_error _ _ K) as (i & Hi).
    rewrite (combine_get names sts k names_nodup (map_opt_length _ _ _ H) i Hi), (map_opt_nth _ _ _ i H), Hi.
    assert (N : cty k <> None).
    { intros N. assert (map_opt cty names = None) by (apply map_opt_None; eauto). congruence. }
    destruct (cty k) as [t|] eqn:EC; [|contradiction]. apply cty_t in EC. destruct EC as (a & e2 & _ & E2 & E3 & _). congruence.
  - replace (get (combine names sts) k) with (@None (T G)); [reflexivity|]. symmetry. apply get_None.
    rewrite combine_keys by (eapply map_opt_length; exact H). rewrite names_In. apply get_None. exact E.
Qed.
Lemma ty_HX k x : plcs x = [] -> (exists e, (e = cond \/ In e (map snd body)) /\ sub x e) -> get init' k = Some x ->
  forall P0, ity k = fold (fun n => ty G (lit G n)) (op_ty G) LT P0 x.
Proof. intros C _ E P0. unfold ity. rewrite E. cbn. rewrite ety_fold. apply closed_fold, C. Qed.
Lemma ty_calls sts its : map_opt cty names = Some sts -> map_opt ity imm = Some its ->
  ety no_leaves (envt G (w_params w) (pack_ty G names sts :: its)) (w_cond w) = ety LT (ty1 G LT PT init body) cond /\
  ety no_leaves (envt G (w_params w) (pack_ty G names sts :: its)) (w_body w) =
    option_map (pack_ty G names) (map_opt (fun k => let? e := get body k in ety LT (ty1 G LT PT init body) e) names).
Proof.
  intros H1 H2. rewrite w_eq. cbn [w_params w_cond w_body]. unfold envt.
  pose proof (map_opt_length _ _ _ H1) as Hl.
  assert (Hnth : forall i, op_ty G (GetNth i) [pack_ty G names sts] = nth_error sts i) by (intros i; apply (nth_pack_ty G OK)).
  assert (FE : forall e, fold (fun n => ty G (lit G n)) (op_ty G) LT (senv names (ty0 G LT PT init) sts) e = ety LT (ty1 G LT PT init body) e).
  { intros e. rewrite ety_fold. apply fold_ext; [reflexivity|]. intros k _. apply senv_ty1, H1. }
  split.
  - rewrite <- FE, ety_fold. apply (sem_cond _ _ LT _ ity _ sts its Hl Hnth H2); [intros k K; apply ity_init, K|exact ty_HX].
  - destruct (sem_body (fun n => ty G (lit G n)) (op_ty G) LT _ ity _ sts its Hl Hnth H2 (fun k K => ity_init k K) ty_HX) as (bs' & -> & HB).
    cbn [ety]. change (map_opt (ety no_leaves (get (combine (loop_state :: imm) (pack_ty G names sts :: its)))) bs')
      with (map_opt (fold (fun n => ty G (lit G n)) (op_ty G) no_leaves (get (combine (loop_state :: imm) (pack_ty G names sts :: its)))) bs').
    rewrite HB. rewrite (map_opt_ext _ (fun k => let? e := get body k in ety LT (ty1 G LT PT init body) e)); [destruct (map_opt _ names); reflexivity|].
    intros k _. destruct (get body k); [apply FE|reflexivity].
Qed.
Lemma deps_ty : map_opt (ety LT PT) (w_deps w) = let? sts := map_opt cty names in let? its := map_opt ity imm in Some (pack_ty G names sts :: its).
Proof.
  rewrite w_eq. cbn [w_deps map_opt]. rewrite ds_ty. cbn [ety]. rewrite es_ty. destruct (map_opt cty names); [|reflexivity]. reflexivity.
Qed.
Lemma ity_imm k : In k imm -> well_typed G LT PT init cond body -> ity k <> None.
Proof.
  intros K (W1 & W2 & W3). apply imm_In in K. destruct K as [K _]. destruct moved as (ns & (_ & IO1 & IO2) & _ & _ & Q).
  apply get_Some_keys in K. destruct K as (x & K). destruct (IO2 _ _ K) as [H|(i & -> & Hi)].
  - assert (KI : In k (keys init)) by (apply get_Some_keys; eauto). rewrite ity_init by exact KI. auto.
  - destruct (Q x (nth_error_In _ _ Hi)) as [C (e & R & S)]. rewrite (ty_HX _ x C ltac:(eauto) K (ty1 G LT PT init body)).
    apply (fold_sub _ _ _ _ x e S). rewrite <- ety_fold. destruct R as [->|R]; [congruence|].
    apply in_map_iff in R. destruct R as ([q y] & <- & R). apply In_get in R; [|apply LI]. destruct (W2 _ _ R) as (a & t & _ & _ & _ & E). cbn. congruence.
Qed.
Lemma infer_iff : (exists ts t, map_opt (ety LT PT) (w_deps w) = Some ts /\ infer w ts = Some t) <-> well_typed G LT PT init cond body.
Proof.
  rewrite deps_ty. split.
  - intros (ts & t & H & I). destruct (map_opt cty names) as [sts|] eqn:E1; [|discriminate]. cbn in H. destruct (map_opt ity imm) as [its|] eqn:E2; [|discriminate].
    cbn in H. injection H as <-. destruct (ty_calls sts its E1 E2) as [TC TB]. unfold infer in I. rewrite TC, TB in I.
    destruct (ety LT (ty1 G LT PT init body) cond) as [tc|] eqn:EQC; [|discriminate]. cbn in I.
    destruct (map_opt (fun k => let? e := get body k in ety LT (ty1 G LT PT init body) e) names) as [tb|] eqn:EB; [|discriminate]. cbn in I.
    destruct (ty_dec G tc (cond_ty G)) as [->|]; [|discriminate]. destruct (ty_dec G (pack_ty G names tb) (pack_ty G names sts)) as [EQ|]; [|discriminate].
    assert (BS : tb = sts).
    { apply list_eq_rd. intros i. unfold rd. rewrite <- (nth_pack_ty G OK names tb), <- (nth_pack_ty G OK names sts), EQ. reflexivity. }
    subst tb.
    assert (CT : forall k, In k names -> exists t, cty k = Some t).
    { intros k K. destruct (cty k) eqn:N; [eauto|]. assert (map_opt cty names = None) by (apply map_opt_None; eauto). congruence. }
    split; [|split; [|exact EQC]].
    + intros k K. destruct (in_dec key_dec k names) as [KN|KN].
      * destruct (CT k KN) as (t' & Ht). apply cty_t in Ht. destruct Ht as (a & e & A & _). congruence.
      * rewrite <- ity_init by exact K. intros N. assert (map_opt ity imm = None).
        { apply map_opt_None. exists k. split; [|exact N]. apply imm_In. split; [|exact KN]. apply get_Some_keys. rewrite init_get by exact K. apply get_Some_keys, K. }
        congruence.
    + intros k e E. assert (KN : In k names) by (apply names_In, get_Some_keys; eauto). destruct (CT k KN) as (t' & Ht).
      destruct (In_nth_error _ _ KN) as (i & Hi). pose proof (map_opt_nth _ _ _ i E1) as N1. pose proof (map_opt_nth _ _ _ i EB) as N2.
      rewrite Hi in N1, N2. rewrite E in N2. cbn in N2. apply cty_t in Ht as Ht'. destruct Ht' as (a & e2 & A & B2 & C2 & D). assert (e2 = e) by congruence. subst e2.
      exists a, t'. split; [exact A|]. split; [exact C2|]. split; [exact D|]. congruence.
  - intros W. pose proof W as (W1 & W2 & W3).
    destruct (map_opt cty names) as [sts|] eqn:E1.
    2:{ exfalso. apply map_opt_None in E1. destruct E1 as (k & K & N). destruct (names_get k K) as (e & E). destruct (W2 k e E) as (a & t & A & B2 & C2 & D).
        unfold cty in N. rewrite A, E in N. cbn in N. rewrite B2 in N. cbn in N. congruence. }
    destruct (map_opt ity imm) as [its|] eqn:E2.
    2:{ exfalso. apply map_opt_None in E2. destruct E2 as (k & K & N). exact (ity_imm k K W N). }
    exists (pack_ty G names sts :: its), (pack_ty G names sts). split; [reflexivity|]. destruct (ty_calls sts its E1 E2) as [TC TB].
    unfold infer. rewrite TC, TB, W3. cbn [bind].
    replace (map_opt (fun k => let? e := get body k in ety LT (ty1 G LT PT init body) e) names) with (Some sts).
    + cbn. destruct (ty_dec G (cond_ty G) (cond_ty G)); [|contradiction]. destruct (ty_dec G (pack_ty G names sts) (pack_ty G names sts)); [reflexivity|contradiction].
    + rewrite <- E1. apply map_opt_ext. intros k K. destruct (names_get k K) as (e & E). destruct (W2 k e E) as (a & t & A & B2 & C2 & D).
      unfold cty. rewrite A, E. cbn. rewrite B2. cbn. congruence.
Qed.

(** ** Values *)
Lemma plain_subst all s : forall e e', subst all s e = Some e' -> plain e -> (forall k x, get s k = Some x -> plain x) -> plain e'.
Proof.
  induction e as [k|k|n|o args IH] using expr_ind2; intros e' H HP HS; cbn [subst] in H.
  - injection H as <-. exact HP.
  - destruct (get s k) eqn:E; [injection H as <-; eauto|]. destruct all; [discriminate|]. injection H as <-. exact HP.
  - injection H as <-. exact HP.
  - destruct (map_opt (subst all s) args) as [l|] eqn:E; [|discriminate]. cbn in H. injection H as <-.
    intros a A. inversion A as [|? ? y Y S]; subst; [apply (HP args); constructor|].
    assert (PA : forall x, In x args -> plain x) by (intros x; apply plain_arg with (o := o), HP).
    apply map_opt_Some in E. clear -E IH Y S PA HS. induction E as [|x z t t' H F IHF]; [destruct Y|]. inversion IH as [|? ? H1 H2]; subst. destruct Y as [->|Y].
    + apply (H1 _ H (PA x (or_introl eq_refl)) HS a S).
    + apply IHF; auto. intros q Hq. apply PA. right; exact Hq.
Qed.
Lemma accessors_plain k x : get (accessors (Plc loop_state) names) k = Some x -> plain x.
Proof.
  intros H. apply get_In in H. unfold accessors in H. apply in_combine_r in H. apply in_map_iff in H. destruct H as (i & <- & _).
  intros a A. inversion A as [|? ? y Y S]; subst. destruct Y as [<-|[]]. inversion S.
Qed.
Lemma c_plain : plain c.
Proof.
  destruct moved as (ns & _ & (_ & _ & D & _) & _). destruct M as [_ _ _ _ _ _ S _ _ _]. rewrite names_eq in S.
  apply (plain_subst _ _ _ _ S); [apply D, LI|exact accessors_plain].
Qed.
Lemma b_plain : plain b.
Proof.
  destruct moved as (ns & _ & _ & F & _). destruct M as [_ _ _ _ BS _ _ S _ _]. rewrite names_eq in BS, S.
  apply (plain_subst _ _ _ _ S); [|exact accessors_plain]. intros a A. inversion A as [|? ? y Y S2]; subst.
  apply map_opt_Some in BS. clear -BS Y S2 F LI. induction BS as [|k x t t' H F2 IH]; [destruct Y|]. destruct Y as [->|Y]; [|auto].
  pose proof (body_get _ _ _ _ k F) as BG. rewrite H in BG. destruct (get body k) as [e|] eqn:E; [|contradiction]. destruct BG as (_ & _ & D & _).
  apply get_In in E. destruct LI as (_ & _ & _ & B & _). apply (D (B _ _ E) a S2).
Qed.
Lemma val_HX k x : plcs x = [] -> (exists e, (e = cond \/ In e (map snd body)) /\ sub x e) -> get init' k = Some x ->
  forall P0, ival k = fold (lit G) (op_val G) L P0 x.
Proof.
  intros C (e & R & S) E P0. unfold ival. rewrite E. cbn [bind]. rewrite eval_fold by (eapply sub_plain; [exact S|apply root_plain, R]). apply closed_fold, C.
Qed.
Lemma calls ts vs consts : length vs = length names -> map_opt ival imm = Some consts ->
  call G w ts consts (w_cond w) (pack G names vs) = value G LT PT L P init names vs cond /\
  call G w ts consts (w_body w) (pack G names vs) = option_map (pack G names) (next G LT PT L P init body names vs).
Proof.
  intros Hl H2. unfold call. rewrite w_eq. cbn [w_params w_cond w_body]. unfold env.
  assert (Hnth : forall i, op_val G (GetNth i) [pack G names vs] = nth_error vs i) by (intros i; apply (nth_pack G OK)).
  assert (FE : forall e, plain e -> fold (lit G) (op_val G) L (senv names (val0 G LT PT L P init) vs) e = value G LT PT L P init names vs e).
  { intros e He. unfold value. rewrite eval_fold by exact He. reflexivity. }
  split.
  - rewrite <- FE by apply LI. rewrite eval_fold by exact c_plain.
    apply (sem_cond _ _ L _ ival _ vs consts Hl Hnth H2); [intros k K; apply ival_init, K|exact val_HX].
  - rewrite eval_fold by exact b_plain.
    destruct (sem_body (lit G) (op_val G) L _ ival _ vs consts Hl Hnth H2 (fun k K => ival_init k K) val_HX) as (bs' & -> & HB).
    cbn [fold]. rewrite HB. unfold next. rewrite (map_opt_ext _ (fun k => let? e := get body k in value G LT PT L P init names vs e)); [destruct (map_opt _ names); reflexivity|].
    intros k _. destruct (get body k) as [e|] eqn:E; [|reflexivity]. cbn [bind]. apply FE. apply (get_body_In _ _ E).
Qed.
Lemma big_iter ts consts n : map_opt ival imm = Some consts -> forall vs r, length vs = length names -> big G w ts consts n (pack G names vs) r ->
  exists r', r = option_map (pack G names) r' /\ iter G LT PT L P init cond body names vs r'.
Proof.
  intros H2. induction n as [|n IH]; intros vs r Hl H; destruct (calls ts vs consts Hl H2) as [CC CB];
    inversion H as [? ? HC|? ? HC|? ? HC HB|m ? v' ? HC HB H']; subst; rewrite CC in HC; try rewrite CB in HB;
    destruct (value G LT PT L P init names vs cond) as [cv|] eqn:EV; cbn in HC; try discriminate HC; try injection HC as HC.
  - exists None. split; [reflexivity|]. apply iter_cond_error, EV.
  - exists (Some vs). split; [reflexivity|]. eapply iter_done; eauto.
  - exists None. split; [reflexivity|]. eapply iter_body_error; eauto. destruct (next G LT PT L P init body names vs); [discriminate|reflexivity].
  - exists None. split; [reflexivity|]. apply iter_cond_error, EV.
  - exists (Some vs). split; [reflexivity|]. eapply iter_done; eauto.
  - exists None. split; [reflexivity|]. eapply iter_body_error; eauto. destruct (next G LT PT L P init body names vs); [discriminate|reflexivity].
  - destruct (next G LT PT L P init body names vs) as [vs'|] eqn:EN; [|discriminate]. cbn in HB. injection HB as <-.
    destruct (IH vs' r (map_opt_length _ _ _ EN) H') as (r' & -> & I). exists r'. split; [reflexivity|]. eapply iter_next; eauto.
Qed.
Lemma iter_big ts consts : map_opt ival imm = Some consts -> forall vs r, iter G LT PT L P init cond body names vs r -> length vs = length names ->
  exists n, big G w ts consts n (pack G names vs) (option_map (pack G names) r).
Proof.
  intros H2 vs r H. induction H as [vs EV|vs cv EV ET|vs cv EV ET EN|vs cv vs' r EV ET EN I IH]; intros Hl; destruct (calls ts vs consts Hl H2) as [CC CB].
  - exists 0. apply big_ce. rewrite CC, EV. reflexivity.
  - exists 0. apply big_done. rewrite CC, EV. cbn. congruence.
  - exists 0. apply big_be; [rewrite CC, EV; cbn; congruence|rewrite CB, EN; reflexivity].
  - destruct (IH (map_opt_length _ _ _ EN)) as (n & B). exists (S n). eapply big_next; [rewrite CC, EV; cbn; congruence|rewrite CB, EN; reflexivity|exact B].
Qed.
Lemma deps_val : map_opt (eval LT PT L P) (w_deps w) =
  let? vs := start G LT PT L P init body names in let? consts := map_opt ival imm in Some (pack G names vs :: consts).
Proof.
  rewrite w_eq. cbn [w_deps map_opt]. rewrite ds_val. cbn [eval]. rewrite es_val, start_eq. destruct (map_opt cval names); reflexivity.
Qed.
Lemma ival_imm k : In k imm -> (forall q, In q (keys init) -> val0 G LT PT L P init q <> None) -> invariants_ok G L cond body -> ival k <> None.
Proof.
  intros K V IV. apply imm_In in K. destruct K as [K _]. destruct moved as (ns & (_ & IO1 & IO2) & _ & _ & Q).
  apply get_Some_keys in K. destruct K as (x & K). destruct (IO2 _ _ K) as [H|(i & -> & Hi)].
  - assert (KI : In k (keys init)) by (apply get_Some_keys; eauto). rewrite ival_init by exact KI. auto.
  - destruct (Q x (nth_error_In _ _ Hi)) as [C (e & R & S)]. rewrite (val_HX _ x C ltac:(eauto) K no_leaves).
    rewrite <- (eval_fold G no_leaves no_leaves) by (eapply sub_plain; [exact S|apply root_plain, R]). eapply IV; eauto.
Qed.
Lemma start_vals vs consts : start G LT PT L P init body names = Some vs -> map_opt ival imm = Some consts -> forall k, In k (keys init) -> val0 G LT PT L P init k <> None.
Proof.
  intros H1 H2 k K N. destruct (in_dec key_dec k names) as [KN|KN].
  - assert (start G LT PT L P init body names = None) by (apply map_opt_None; exists k; split; [exact KN|]; rewrite N; reflexivity). congruence.
  - assert (map_opt ival imm = None); [|congruence]. apply map_opt_None. exists k. split.
    + apply imm_In. split; [|exact KN]. apply get_Some_keys. rewrite init_get by exact K. apply get_Some_keys, K.
    + rewrite ival_init by exact K. exact N.
Qed.
Lemma weval_res fuel junk ts t vs consts : map_opt (ety LT PT) (w_deps w) = Some ts -> infer w ts = Some t ->
  start G LT PT L P init body names = Some vs -> map_opt ival imm = Some consts ->
  weval fuel junk LT PT L P w = res G (run w ts consts junk fuel (mkF G (pack G names vs) junk false)).
Proof. intros H1 H2 H3 H4. unfold weval. rewrite H1, H2, deps_val, H3, H4. reflexivity. Qed.
Lemma start_length vs : start G LT PT L P init body names = Some vs -> length vs = length names.
Proof. apply map_opt_length. Qed.

Lemma loop_value fuel junk v : weval fuel junk LT PT L P w = Some (Some v) -> well_typed G LT PT init cond body /\ outcome G LT PT L P init cond body names (Some v).
Proof.
  intros H. unfold weval in H. destruct (map_opt (ety LT PT) (w_deps w)) as [ts|] eqn:ET; [|discriminate].
  destruct (infer w ts) as [t|] eqn:EI; [|discriminate]. split; [apply infer_iff; eauto|].
  rewrite deps_val in H. destruct (start G LT PT L P init body names) as [vs|] eqn:ES; [|discriminate]. cbn [bind] in H.
  destruct (map_opt ival imm) as [consts|] eqn:EC; [|discriminate]. cbn [bind] in H.
  destruct (run_big G w ts consts junk fuel _ (Some v) H) as (n & B). cbn [f_out] in B.
  destruct (big_iter ts consts n EC vs _ (start_length _ ES) B) as (r' & E & I). rewrite E. eapply out_loop; eauto. eapply start_vals; eauto.
Qed.
Lemma loop_ill fuel junk : ~ well_typed G LT PT init cond body -> weval fuel junk LT PT L P w = Some None.
Proof.
  intros N. unfold weval. destruct (map_opt (ety LT PT) (w_deps w)) as [ts|] eqn:ET; [|reflexivity].
  destruct (infer w ts) as [t|] eqn:EI; [|reflexivity]. exfalso. apply N, infer_iff. eauto.
Qed.
Lemma loop_ok junk r : well_typed G LT PT init cond body -> invariants_ok G L cond body ->
  (exists fuel, weval fuel junk LT PT L P w = Some r) <-> outcome G LT PT L P init cond body names r.
Proof.
  intros W IV. apply infer_iff in W. destruct W as (ts & t & ET & EI). split.
  - intros (fuel & H). destruct (start G LT PT L P init body names) as [vs|] eqn:ES.
    + destruct (map_opt ival imm) as [consts|] eqn:EC.
      * rewrite (weval_res fuel junk ts t vs consts ET EI ES EC) in H. destruct (run_big G w ts consts junk fuel _ _ H) as (n & B). cbn [f_out] in B.
        destruct (big_iter ts consts n EC vs _ (start_length _ ES) B) as (r' & -> & I). eapply out_loop; eauto. eapply start_vals; eauto.
      * unfold weval in H. rewrite ET, EI, deps_val, ES, EC in H. cbn in H. injection H as <-. apply map_opt_None in EC. destruct EC as (k & K & N).
        apply out_init_error. destruct (existsb (fun q => match val0 G LT PT L P init q with None => true | _ => false end) (keys init)) eqn:X.
        -- apply existsb_exists in X. destruct X as (q & Q & X). exists q. split; [exact Q|]. destruct (val0 G LT PT L P init q); [discriminate|reflexivity].
        -- exfalso. apply (ival_imm k K); auto. intros q Q N2. assert (XX : existsb (fun q => match val0 G LT PT L P init q with None => true | _ => false end) (keys init) = true).
           { apply existsb_exists. exists q. rewrite N2. auto. } congruence.
    + unfold weval in H. rewrite ET, EI, deps_val, ES in H. cbn in H. injection H as <-.
      destruct (existsb (fun q => match val0 G LT PT L P init q with None => true | _ => false end) (keys init)) eqn:X.
      * apply existsb_exists in X. destruct X as (q & Q & X). apply out_init_error. exists q. split; [exact Q|]. destruct (val0 G LT PT L P init q); [discriminate|reflexivity].
      * apply out_cast_error; [|exact ES]. intros q Q N2. assert (XX : existsb (fun q => match val0 G LT PT L P init q with None => true | _ => false end) (keys init) = true).
        { apply existsb_exists. exists q. rewrite N2. auto. } congruence.
  - intros O. inversion O as [(k & K & N)|V S|vs r' V S I]; subst.
    + exists 0. unfold weval. rewrite ET, EI, deps_val. destruct (start G LT PT L P init body names) as [vs|] eqn:ES; [|reflexivity].
      destruct (map_opt ival imm) as [consts|] eqn:EC; [|reflexivity]. exfalso. exact (start_vals _ _ ES EC k K N).
    + exists 0. unfold weval. rewrite ET, EI, deps_val, S. reflexivity.
    + destruct (map_opt ival imm) as [consts|] eqn:EC.
      * destruct (iter_big ts consts EC vs r' I (start_length _ S)) as (n & B).
        destruct (big_run G w ts consts junk n _ _ B junk false) as (fuel & R). exists fuel. rewrite (weval_res fuel junk ts t vs consts ET EI S EC). exact R.
      * exfalso. apply map_opt_None in EC. destruct EC as (k & K & N). exact (ival_imm k K V IV N).
Qed.
End Node.
