(** Proofs for [OpPick_Spec]: parameters of expressions about types. *)
From Coq Require Import Sorted.
From Verif Require Import Base Visit_Model Visit_Proofs Lambda_Model Lambda_Spec Lambda_Proofs OpPick_Model OpPick_Spec.

Section ExInd.
Variable P : ex -> Prop.
Hypothesis Hl : forall v, P (XLit v).
Hypothesis Hf : forall k, P (XLeaf k).
Hypothesis Hp : forall k, P (XPar k).
Hypothesis Ho : forall o ds, Forall P ds -> P (XOp o ds).
Fixpoint ex_rec' (e : ex) : P e :=
  match e with
  | XLit v => Hl v
  | XLeaf k => Hf k
  | XPar k => Hp k
  | XOp o ds => Ho o ds ((fix go (l : list ex) : Forall P l := match l with [] => Forall_nil _ | d :: t => Forall_cons _ (ex_rec' d) (go t) end) ds)
  end.
End ExInd.

Lemma kq a b : key_eqb a b = true <-> a = b.
Proof. apply leqb_eq. apply Forall_forall. intros x _ y. apply Nat.eqb_eq. Qed.
Lemma kin k l : existsb (key_eqb k) l = true <-> In k l.
Proof.
  rewrite existsb_exists. split.
  - intros [x [H1 H2]]. apply kq in H2. subst. exact H1.
  - intros H. exists k. split; [exact H|apply kq; reflexivity].
Qed.
Lemma uses_in k e : uses k e <-> In k (plhs e).
Proof.
  split.
  - induction 1; cbn [plhs]; [left; reflexivity|]. apply in_flat_map. exists d. auto.
  - induction e as [v|l|l|o ds IH] using ex_rec'; cbn [plhs]; intros H; try contradiction.
    + destruct H as [->|[]]. constructor.
    + apply in_flat_map in H. destruct H as [d [Hd H]]. rewrite Forall_forall in IH. apply (uses_op k o ds d Hd). apply IH; assumption.
Qed.
Lemma reads_in k e : reads k e <-> In k (leaves e).
Proof.
  split.
  - induction 1; cbn [leaves]; [left; reflexivity|]. apply in_flat_map. exists d. auto.
  - induction e as [v|l|l|o ds IH] using ex_rec'; cbn [leaves]; intros H; try contradiction.
    + destruct H as [->|[]]. constructor.
    + apply in_flat_map in H. destruct H as [d [Hd H]]. rewrite Forall_forall in IH. apply (reads_op k o ds d Hd). apply IH; assumption.
Qed.
Lemma check_ok s e : check_expr s e = None <-> (forall k, reads k e -> k = seq_key) /\ (forall k, uses k e -> In k (s_names s)).
Proof.
  unfold check_expr. destruct (existsb (fun k => negb (key_eqb k seq_key)) (leaves e)) eqn:E1.
  - apply existsb_exists in E1. destruct E1 as [k [Hk Hn]]. split; [discriminate|]. intros [H _].
    assert (k = seq_key) by (apply H, reads_in, Hk). apply kq in H0. rewrite H0 in Hn. discriminate.
  - assert (L : forall k, reads k e -> k = seq_key).
    { intros k Hk. apply reads_in in Hk. destruct (key_eqb k seq_key) eqn:Ek; [apply kq; exact Ek|].
      assert (existsb (fun k => negb (key_eqb k seq_key)) (leaves e) = true) by (apply existsb_exists; exists k; split; [exact Hk|rewrite Ek; reflexivity]). congruence. }
    destruct (existsb (fun k => negb (existsb (key_eqb k) (s_names s))) (plhs e)) eqn:E2.
    + apply existsb_exists in E2. destruct E2 as [k [Hk Hn]]. split; [discriminate|]. intros [_ H].
      assert (X : In k (s_names s)) by (apply H, uses_in, Hk). apply kin in X. rewrite X in Hn. discriminate.
    + split; [|reflexivity]. intros _. split; [exact L|]. intros k Hk. apply uses_in in Hk. apply kin.
      destruct (existsb (key_eqb k) (s_names s)) eqn:Ek; [reflexivity|].
      assert (existsb (fun k => negb (existsb (key_eqb k) (s_names s))) (plhs e) = true) by (apply existsb_exists; exists k; split; [exact Hk|rewrite Ek; reflexivity]). congruence.
Qed.
Lemma field_some used names : forall j k, In k used -> In k names -> exists i, field_of used names j k = Some i.
Proof.
  induction names as [|x t IH]; intros j k Hu Hn; [contradiction|]. cbn [field_of].
  destruct (existsb (key_eqb x) used) eqn:Ex.
  - destruct (field_of used t (S j) k) as [i|] eqn:Ef; [eauto|].
    destruct (key_eqb x k) eqn:Ek; [eauto|]. destruct Hn as [->|Hn]; [assert (key_eqb k k = true) by (apply kq; reflexivity); congruence|].
    destruct (IH (S j) k Hu Hn) as [i Hi]. congruence.
  - destruct Hn as [->|Hn]; [apply kin in Hu; congruence|]. apply IH; assumption.
Qed.
Lemma field_lt var used names : forall j k i, field_of used names j k = Some i -> exists i', i = j + i' /\ i' < field_count (pattern var used names).
Proof.
  unfold field_count.
  induction names as [|x t IH]; intros j k i H; [discriminate|]. cbn [field_of pattern] in *.
  destruct (existsb (key_eqb x) used) eqn:Ex.
  - assert (L : forall c, match c with CP | CV => true | _ => false end = true ->
        length (filter (fun c => match c with CP | CV => true | _ => false end) (c :: pattern var used t)) = S (length (filter (fun c => match c with CP | CV => true | _ => false end) (pattern var used t)))).
    { intros c Hc. cbn [filter]. rewrite Hc. reflexivity. }
    rewrite L by (destruct (var && (length t =? 0)); reflexivity).
    destruct (field_of used t (S j) k) as [i0|] eqn:Ef.
    + injection H as <-. destruct (IH (S j) k i0 Ef) as [i' [-> Hi]]. exists (S i'). lia.
    + destruct (key_eqb x k); [|discriminate]. injection H as <-. exists 0. lia.
  - destruct (IH j k i H) as [i' [-> Hi]]. exists i'. split; [reflexivity|]. cbn [filter].
    destruct (var && (length t =? 0)); exact Hi.
Qed.
Lemma known_head tt x t var y r k ty : known tt (mkS t var) r k ty -> known tt (mkS (x :: t) var) (y :: r) k ty.
Proof.
  intros [Hz [j [Hj Hb]]]. split; [exact Hz|]. exists (S j). cbn [s_names s_variadic] in *. split; [exact Hj|].
  cbn [length Nat.eqb skipn nth_error]. exact Hb.
Qed.
Lemma known_tail tt x t var y r k ty : k <> x -> known tt (mkS (x :: t) var) (y :: r) k ty -> known tt (mkS t var) r k ty.
Proof.
  intros Hk [Hz [j [Hj Hb]]]. split; [exact Hz|]. cbn [s_names s_variadic] in *.
  destruct j as [|j]; [cbn in Hj; congruence|]. exists j. cbn [s_names s_variadic]. split; [exact Hj|].
  cbn [length Nat.eqb skipn nth_error] in Hb. exact Hb.
Qed.

Section Run.
Context {E : Type}.
Variable I : nat -> list val -> E + val.
Variable tuple_type : list nat -> nat.
Hypothesis tuple_known : forall l, tuple_type l <> 0.
Notation known := (known tuple_type).
Notation ready := (ready tuple_type).
Notation agrees := (agrees tuple_type).
Notation run := (run I tuple_type).
Notation run_all := (run_all I tuple_type).
Notation parse := (parse tuple_type).
Notation parse_loop := (parse_loop tuple_type).
Notation mean := (mean I).

Lemma parse_loop_spec var used : forall names seq outs,
  NoDup names -> fits (mkS names var) (length seq) ->
  (exists ts, parse_loop (pattern var used names) seq outs = (true, [], outs ++ ts) /\
     length ts = field_count (pattern var used names) /\
     (forall j k i, field_of used names j k = Some i -> exists i' t, i = j + i' /\ nth_error ts i' = Some t /\ known (mkS names var) seq k t)) \/
  ((exists l o, parse_loop (pattern var used names) seq outs = (false, l, o)) /\
   exists k, In k used /\ In k names /\ forall t, ~ known (mkS names var) seq k t).
Proof.
  induction names as [|x t IH]; intros seq outs Hn Hf.
  - left. exists []. cbn [pattern OpPick_Model.parse_loop]. assert (seq = []) as ->.
    { destruct seq; [reflexivity|]. unfold fits in Hf. cbn in Hf. destruct var; discriminate. }
    rewrite app_nil_r. repeat split. intros; discriminate.
  - inversion Hn as [|? ? Hx Hn']; subst. cbn [pattern]. destruct (var && (length t =? 0)) eqn:Ev.
    + apply andb_true_iff in Ev. destruct Ev as [-> Et]. apply Nat.eqb_eq in Et. destruct t; [|discriminate]. cbn [pattern].
      assert (K : known (mkS [x] true) seq x (tuple_type seq) <-> ~ In 0 seq).
      { split.
        - intros [_ [j [Hj Hb]]]. cbn [s_names s_variadic] in *. destruct j as [|j]; [|destruct j; discriminate]. cbn in Hb. tauto.
        - intros H. split; [apply tuple_known|]. exists 0. cbn. split; [reflexivity|]. split; [exact H|reflexivity]. }
      destruct (existsb (key_eqb x) used) eqn:Eu.
      * cbn [OpPick_Model.parse_loop]. destruct (existsb (Nat.eqb 0) seq) eqn:E0.
        -- right. split; [eauto|]. exists x. split; [apply kin; exact Eu|]. split; [left; reflexivity|].
           intros ty [_ [j [Hj Hb]]]. cbn [s_names s_variadic] in *. destruct j as [|j]; [|destruct j; discriminate]. cbn in Hb.
           apply existsb_exists in E0. destruct E0 as [z [Hz Ez]]. apply Nat.eqb_eq in Ez. subst. tauto.
        -- left. exists [tuple_type seq]. split; [reflexivity|]. split; [reflexivity|]. intros j k i H. cbn [field_of] in H. rewrite Eu in H.
           destruct (key_eqb x k) eqn:Ek; [|discriminate]. apply kq in Ek. subst k. injection H as <-. exists 0, (tuple_type seq).
           split; [lia|]. split; [reflexivity|]. apply K. intros Hz.
           assert (existsb (Nat.eqb 0) seq = true) by (apply existsb_exists; exists 0; split; [exact Hz|reflexivity]). congruence.
      * cbn [OpPick_Model.parse_loop]. left. exists []. rewrite app_nil_r. split; [reflexivity|]. split; [reflexivity|].
        intros j k i H. cbn [field_of] in H. rewrite Eu in H. discriminate.
    + assert (exists y r, seq = y :: r /\ fits (mkS t var) (length r)) as [y [r [-> Hf']]].
      { unfold fits in *. cbn [s_names s_variadic length] in *. destruct seq as [|y r].
        - cbn in Hf. destruct var; [|discriminate]. destruct t; [discriminate|]. cbn in Hf. lia.
        - exists y, r. split; [reflexivity|]. cbn [length] in Hf. destruct var; [|lia].
          destruct t as [|z t]; [discriminate|]. cbn [length] in *. lia. }
      assert (A : forall k ty, In k t -> known (mkS (x :: t) var) (y :: r) k ty -> known (mkS t var) r k ty).
      { intros k ty Hk. apply known_tail. intros ->. contradiction. }
      destruct (existsb (key_eqb x) used) eqn:Eu.
      * cbn [OpPick_Model.parse_loop]. destruct (y =? 0) eqn:Ey.
        -- right. split; [eauto|]. exists x. split; [apply kin; exact Eu|]. split; [left; reflexivity|].
           apply Nat.eqb_eq in Ey. subst y. intros ty [Hz [j [Hj Hb]]]. cbn [s_names s_variadic] in *.
           destruct j as [|j]; [|cbn in Hj; apply nth_error_In in Hj; contradiction].
           cbn [length] in Hb. change (1 =? S (length t)) with (0 =? length t) in Hb. rewrite (Nat.eqb_sym 0), Ev in Hb. cbn in Hb. congruence.
        -- destruct (IH r (outs ++ [y]) Hn' Hf') as [[ts [H1 [H2 H3]]]|[H1 [k [Hk1 [Hk2 Hk3]]]]].
           ++ left. exists (y :: ts). rewrite H1, <- app_assoc. split; [reflexivity|]. split.
              { unfold field_count in *. cbn [filter length]. rewrite H2. reflexivity. }
              intros j k i H. cbn [field_of] in H. rewrite Eu in H. destruct (field_of used t (S j) k) as [i0|] eqn:Ef.
              ** injection H as <-. destruct (H3 (S j) k i0 Ef) as [i' [ty [-> [Hi Hk]]]]. exists (S i'), ty. split; [lia|]. split; [exact Hi|].
                 apply known_head. exact Hk.
              ** destruct (key_eqb x k) eqn:Ek; [|discriminate]. apply kq in Ek. subst k. injection H as <-. exists 0, y. split; [lia|]. split; [reflexivity|].
                 split; [apply Nat.eqb_neq; exact Ey|]. exists 0. cbn [s_names s_variadic]. split; [reflexivity|].
                 cbn [length]. change (1 =? S (length t)) with (0 =? length t). rewrite (Nat.eqb_sym 0), Ev. reflexivity.
           ++ right. split; [exact H1|]. exists k. split; [exact Hk1|]. split; [right; exact Hk2|]. intros ty H. apply (Hk3 ty), A; assumption.
      * cbn [OpPick_Model.parse_loop]. destruct (IH r outs Hn' Hf') as [[ts [H1 [H2 H3]]]|[H1 [k [Hk1 [Hk2 Hk3]]]]].
        -- left. exists ts. split; [exact H1|]. split; [exact H2|]. intros j k i H. cbn [field_of] in H. rewrite Eu in H.
           destruct (H3 j k i H) as [i' [ty [-> [Hi Hk]]]]. exists i', ty. split; [reflexivity|]. split; [exact Hi|]. apply known_head. exact Hk.
        -- right. split; [exact H1|]. exists k. split; [exact Hk1|]. split; [right; exact Hk2|]. intros ty H. apply (Hk3 ty), A; assumption.
Qed.
Lemma known_fun s seq k t t' : NoDup (s_names s) -> known s seq k t -> known s seq k t' -> t = t'.
Proof.
  intros Hn [_ [j [Hj Hb]]] [_ [j' [Hj' Hb']]].
  assert (j = j') as <-.
  { apply (proj1 (NoDup_nth_error _) Hn); [apply nth_error_Some; congruence|congruence]. }
  destruct (s_variadic s && (S j =? length (s_names s))); [|congruence]. destruct Hb, Hb'. congruence.
Qed.

(** the fields of the parsed sequence *)
Lemma fields s used seq : NoDup (s_names s) -> fits s (length seq) -> (forall k, In k used -> In k (s_names s)) ->
  let pat := pattern (s_variadic s) used (s_names s) in
  ((forall k, In k used -> exists t, known s seq k t) /\ fst (parse pat seq) = true /\
     forall k i, field_of used (s_names s) 1 k = Some i -> exists t, run seq (RField pat i) = Some (inr (VT t)) /\ known s seq k t) \/
  (~ (forall k, In k used -> exists t, known s seq k t) /\ fst (parse pat seq) = false /\
     forall k i, field_of used (s_names s) 1 k = Some i -> run seq (RField pat i) = Some (inr (VT 0))).
Proof.
  destruct s as [names var]. intros Hn Hf Hu pat. cbn [s_names s_variadic] in Hn, Hu, pat |- *.
  destruct (parse_loop_spec var used names seq [] Hn Hf) as [[ts [H1 [H2 H3]]]|[[l [o H1]] [k [Hk1 [Hk2 Hk3]]]]]; fold pat in H1.
  - left. assert (P : parse pat seq = (true, ts)).
    { unfold OpPick_Model.parse. rewrite H1. cbn [andb length Nat.eqb app]. f_equal. fold pat in H2. rewrite H2, Nat.sub_diag. cbn [repeat].
      rewrite app_nil_r, <- H2. apply firstn_all. }
    split; [|split; [rewrite P; reflexivity|]].
    + intros k Hk. destruct (field_some used names 1 k Hk (Hu k Hk)) as [i Hi]. destruct (H3 1 k i Hi) as [_ [t [_ [_ K]]]]. eauto.
    + intros k i Hi. destruct (H3 1 k i Hi) as [i' [t [-> [Hi' K]]]]. exists t. split; [|exact K].
      cbn [plus OpPick_Model.run]. rewrite P. cbn [snd]. unfold rd. rewrite Hi'. reflexivity.
  - right. assert (P : parse pat seq = (false, repeat 0 (field_count pat))).
    { unfold OpPick_Model.parse. rewrite H1. reflexivity. }
    split; [|split; [rewrite P; reflexivity|]].
    + intros H. destruct (H k Hk1) as [t Ht]. exact (Hk3 t Ht).
    + intros k' i Hi. destruct (field_lt var used names 1 k' i Hi) as [i' [-> Hlt]]. fold pat in Hlt.
      cbn [plus OpPick_Model.run]. rewrite P. cbn [snd]. unfold rd.
      rewrite (nth_error_nth' (repeat 0 (field_count pat)) 0) by (rewrite repeat_length; exact Hlt).
      rewrite nth_repeat. reflexivity.
Qed.

Fixpoint replace_all (pat : list pc) (fld : key -> option nat) (l : list ex) : option (list rx) :=
  match l with [] => Some [] | d :: t => let? r := replace pat fld d in let? rs := replace_all pat fld t in Some (r :: rs) end.
Lemma replace_op pat fld o ds : replace pat fld (XOp o ds) = let? rs := replace_all pat fld ds in Some (ROp o rs).
Proof.
  cbn [replace]. match goal with |- bind (?g ds) _ = _ => assert (G : forall l, g l = replace_all pat fld l) end.
  { induction l as [|d t IH]; [reflexivity|]. cbn [replace_all]. rewrite <- IH. reflexivity. }
  rewrite G. reflexivity.
Qed.
Lemma run_op seq o ds : run seq (ROp o ds) = let? vs := run_all seq ds in Some (match vs with inl e => inl e | inr vs => I o vs end).
Proof.
  cbn [OpPick_Model.run]. match goal with |- bind (?g ds) _ = _ => assert (G : forall l, g l = run_all seq l) end.
  { induction l as [|d t IH]; [reflexivity|]. cbn [OpPick_Model.run_all]. rewrite <- IH. reflexivity. }
  rewrite G. reflexivity.
Qed.
Definition join (l : list (E + val)) : E + list val :=
  fold_right (fun x acc => match x, acc with inl e, _ => inl e | inr _, inl e => inl e | inr v, inr vs => inr (v :: vs) end) (inr []) l.
Lemma run_all_join seq l xs : Forall2 (fun r x => run seq r = Some x) l xs -> run_all seq l = Some (join xs).
Proof.
  induction 1 as [|r x l xs H1 H2 IH]; [reflexivity|]. cbn [OpPick_Model.run_all join fold_right]. rewrite H1. cbn [bind].
  destruct x as [e|v]; [reflexivity|]. rewrite IH. cbn [bind]. fold (join xs). destruct (join xs); reflexivity.
Qed.
Lemma mean_op rho seq o ds : mean rho seq (XOp o ds) = match join (map (mean rho seq) ds) with inl e => inl e | inr vs => I o vs end.
Proof.
  cbn [OpPick_Spec.mean]. f_equal.
  match goal with |- match ?a with _ => _ end = match ?b with _ => _ end => assert (G : a = b) end.
  { induction ds as [|d t IH]; [reflexivity|]. cbn [fold_right map join]. rewrite IH. reflexivity. }
  rewrite G. reflexivity.
Qed.
Lemma join_inr vs : join (map inr vs) = inr vs.
Proof. induction vs as [|v vs IH]; [reflexivity|]. cbn [map join fold_right]. fold (join (map inr vs)). rewrite IH. reflexivity. Qed.
Lemma join_inl xs e : In (inl e) xs -> exists e', join xs = inl e'.
Proof.
  induction xs as [|x xs IH]; intros H; [contradiction|]. cbn [join fold_right]. fold (join xs). destruct x as [e0|v]; [eauto|].
  destruct H as [H|H]; [discriminate|]. destruct (IH H) as [e' ->]. eauto.
Qed.

Definition fits_fields seq pat (fld : key -> option nat) rho (e : ex) : Prop :=
  forall k, In k (plhs e) -> exists j, fld k = Some j /\ run seq (RField pat j) = Some (inr (VT (rho k))).
Lemma replace_some pat fld e : (forall k, In k (plhs e) -> fld k <> None) -> (forall k, In k (leaves e) -> k = seq_key) -> exists r, replace pat fld e = Some r.
Proof.
  induction e as [v|k|k|o ds IH] using ex_rec'; intros Hp Hl.
  - cbn. eauto.
  - cbn [replace]. rewrite (proj2 (kq k seq_key) (Hl k (or_introl eq_refl))). eauto.
  - cbn [replace]. destruct (fld k) as [j|] eqn:Ej; [cbn; eauto|]. destruct (Hp k (or_introl eq_refl) Ej).
  - rewrite replace_op. assert (exists rs, replace_all pat fld ds = Some rs) as [rs ->]; [|cbn; eauto].
    cbn [plhs leaves] in *. induction ds as [|d t IHt]; [cbn; eauto|]. inversion IH as [|? ? Hd Ht]; subst. cbn [replace_all flat_map] in *.
    destruct Hd as [r ->]; [intros; apply Hp, in_or_app; auto|intros; apply Hl, in_or_app; auto|]. cbn [bind].
    destruct IHt as [rs ->]; [exact Ht|intros; apply Hp, in_or_app; auto|intros; apply Hl, in_or_app; auto|]. cbn. eauto.
Qed.
Lemma replace_run seq pat fld rho e : fits_fields seq pat fld rho e -> forall r, replace pat fld e = Some r -> run seq r = Some (mean rho seq e).
Proof.
  induction e as [v|k|k|o ds IH] using ex_rec'; intros Hf r H.
  - cbn in H. injection H as <-. reflexivity.
  - cbn [replace] in H. destruct (key_eqb k seq_key); [|discriminate]. injection H as <-. reflexivity.
  - cbn [replace] in H. destruct (Hf k (or_introl eq_refl)) as [j [Hj Hr]]. rewrite Hj in H. cbn in H. injection H as <-. exact Hr.
  - rewrite replace_op in H. destruct (replace_all pat fld ds) as [rs|] eqn:Er; [|discriminate]. cbn in H. injection H as <-.
    rewrite run_op, (run_all_join seq rs (map (mean rho seq) ds)).
    + cbn [bind]. rewrite mean_op. reflexivity.
    + revert rs Er. unfold fits_fields in Hf. cbn [plhs] in Hf. induction ds as [|d t IHt]; intros rs Er.
      * injection Er as <-. constructor.
      * inversion IH as [|? ? Hd Ht]; subst. cbn [replace_all flat_map] in *. destruct (replace pat fld d) as [r|] eqn:E1; [|discriminate].
        cbn in Er. destruct (replace_all pat fld t) as [rs'|] eqn:E2; [|discriminate]. cbn in Er. injection Er as <-. cbn [map]. constructor.
        -- apply Hd; [|reflexivity]. intros k Hk. apply Hf, in_or_app. auto.
        -- apply IHt; [exact Ht| |reflexivity]. intros k Hk. apply Hf, in_or_app. auto.
Qed.
Lemma replace_all_run seq pat fld rho o ds rs : fits_fields seq pat fld rho (XOp o ds) -> replace_all pat fld ds = Some rs ->
  Forall2 (fun r x => run seq r = Some x) rs (map (mean rho seq) ds).
Proof.
  unfold fits_fields. cbn [plhs]. revert rs. induction ds as [|d t IH]; intros rs Hf Er.
  - injection Er as <-. constructor.
  - cbn [replace_all flat_map] in *. destruct (replace pat fld d) as [r|] eqn:E1; [|discriminate].
    cbn in Er. destruct (replace_all pat fld t) as [rs'|] eqn:E2; [|discriminate]. cbn in Er. injection Er as <-. cbn [map]. constructor.
    + apply (replace_run seq pat fld rho d); [|exact E1]. intros k Hk. apply Hf, in_or_app. auto.
    + apply IH; [|reflexivity]. intros k Hk. apply Hf, in_or_app. auto.
Qed.

Definition good s e : Prop := (forall k, reads k e -> k = seq_key) /\ (forall k, uses k e -> In k (s_names s)).
Lemma resolve_total s e : exists a, resolve s e = Some a /\ ((exists p, a = inr p) <-> good s e).
Proof.
  unfold resolve. destruct (check_expr s e) as [err|] eqn:Ec.
  - exists (inl err). split; [reflexivity|]. split; [intros [p H]; discriminate|]. intros H. apply check_ok in H. congruence.
  - assert (G := proj1 (check_ok s e) Ec). destruct G as [G1 G2].
    destruct (replace_some (pattern (s_variadic s) (plhs e) (s_names s)) (field_of (plhs e) (s_names s) 1) e) as [r ->].
    + intros k Hk. destruct (field_some (plhs e) (s_names s) 1 k Hk) as [i ->]; [apply G2, uses_in, Hk|discriminate].
    + intros k Hk. apply G1, reads_in, Hk.
    + cbn [bind]. eexists. split; [reflexivity|]. split; [intros _; split; assumption|]. intros _. eauto.
Qed.
Lemma resolve_parts s e r rdy : resolve s e = Some (inr (r, rdy)) ->
  good s e /\ rdy = RField (pattern (s_variadic s) (plhs e) (s_names s)) 0 /\
  replace (pattern (s_variadic s) (plhs e) (s_names s)) (field_of (plhs e) (s_names s) 1) e = Some r.
Proof.
  intros H. split.
  - destruct (resolve_total s e) as [a [Ha Hg]]. rewrite H in Ha. injection Ha as <-. apply Hg. eauto.
  - unfold resolve in H. destruct (check_expr s e); [discriminate|].
    destruct (replace _ _ e) as [r'|] eqn:Er; [|discriminate]. cbn in H. injection H as <- <-. split; reflexivity.
Qed.
(** what the fields stand for *)
Lemma fields_rho s e seq : NoDup (s_names s) -> fits s (length seq) -> good s e ->
  let pat := pattern (s_variadic s) (plhs e) (s_names s) in
  (ready s seq e /\ fst (parse pat seq) = true /\ forall rho, agrees s seq rho -> fits_fields seq pat (field_of (plhs e) (s_names s) 1) rho e) \/
  (~ ready s seq e /\ fst (parse pat seq) = false /\ fits_fields seq pat (field_of (plhs e) (s_names s) 1) (fun _ => 0) e).
Proof.
  intros Hn Hf [G1 G2] pat.
  assert (R : ready s seq e <-> forall k, In k (plhs e) -> exists t, known s seq k t).
  { unfold OpPick_Spec.ready. split; intros H k Hk; apply H, uses_in, Hk. }
  assert (Hu : forall k, In k (plhs e) -> In k (s_names s)) by (intros k Hk; apply G2, uses_in, Hk).
  destruct (fields s (plhs e) seq Hn Hf Hu) as [[H1 [H2 H3]]|[H1 [H2 H3]]]; fold pat in H2, H3; [left|right].
  - split; [apply R, H1|]. split; [exact H2|]. intros rho Hr k Hk. destruct (field_some (plhs e) (s_names s) 1 k Hk (Hu k Hk)) as [i Hi].
    exists i. split; [exact Hi|]. destruct (H3 k i Hi) as [t [Ht K]]. rewrite (Hr k t K). exact Ht.
  - split; [intros H; apply H1, R, H|]. split; [exact H2|]. intros k Hk. destruct (field_some (plhs e) (s_names s) 1 k Hk (Hu k Hk)) as [i Hi].
    exists i. split; [exact Hi|]. exact (H3 k i Hi).
Qed.
Theorem resolve_run s e seq r rdy rho : NoDup (s_names s) -> fits s (length seq) -> agrees s seq rho -> resolve s e = Some (inr (r, rdy)) ->
  exists b x, run seq rdy = Some (inr (VU b)) /\ run seq r = Some x /\ (b = true <-> ready s seq e) /\ seen I tuple_type s seq rho e x.
Proof.
  intros Hn Hf Hr H. apply resolve_parts in H. destruct H as [G [-> H]].
  destruct (fields_rho s e seq Hn Hf G) as [[H1 [H2 H3]]|[H1 [H2 H3]]].
  - exists true, (mean rho seq e). cbn [OpPick_Model.run]. rewrite H2. split; [reflexivity|].
    split; [exact (replace_run _ _ _ rho e (H3 rho Hr) r H)|]. split; [tauto|]. left. auto.
  - exists false, (mean (fun _ => 0) seq e). cbn [OpPick_Model.run]. rewrite H2. split; [reflexivity|].
    split; [exact (replace_run _ _ _ _ e H3 r H)|]. split; [split; [discriminate|tauto]|]. right. auto.
Qed.
End Run.
