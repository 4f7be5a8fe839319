(** Equality of expressions and the extraction of lambdas. *)
From Verif Require Import Base Visit_Model Visit_Spec Visit_Proofs Where_Model Where_Spec.

Fixpoint ex_ind' (P : ex -> Prop) (Hl : forall v, P (XLit v)) (Hf : forall k, P (XLeaf k)) (Hp : forall k, P (XPlh k)) (Ha : forall i, P (XArg i))
  (Ho : forall o a ds, Forall P ds -> P (XOp o a ds)) (Hk : forall a t f n ds, P t -> P f -> Forall P ds -> P (XPack a t f n ds)) (x : ex) {struct x} : P x.
Proof.
  assert (go := ex_ind' P Hl Hf Hp Ha Ho Hk).
  destruct x as [v|k|k|i|o a ds|a t f n ds].
  - apply Hl.
  - apply Hf.
  - apply Hp.
  - apply Ha.
  - apply Ho. induction ds as [|d ds IH]; constructor; [apply go|exact IH].
  - apply Hk; [apply go|apply go|]. induction ds as [|d ds IH]; constructor; [apply go|exact IH].
Qed.
Lemma ex_eq x : forall y, ex_eqb x y = true <-> x = y.
Proof.
  induction x as [v|k|k|i|o a ds IH|a t f n ds IHt IHf IH] using ex_ind'; intros [w|l|l|j|p b es|b u g m es]; cbn [ex_eqb]; try (split; discriminate).
  - rewrite Nat.eqb_eq. split; congruence.
  - rewrite nats_eq. split; congruence.
  - rewrite nats_eq. split; congruence.
  - rewrite Nat.eqb_eq. split; congruence.
  - rewrite !andb_true_iff, Nat.eqb_eq, attr_eq, (leqb_eq ex_eqb ds IH). split; [intros [[-> ->] ->]; reflexivity|]. intros E. injection E; auto.
  - rewrite !andb_true_iff, Nat.eqb_eq, attr_eq, IHt, IHf, (leqb_eq ex_eqb ds IH). split; [intros [[[[-> ->] ->] ->] ->]; reflexivity|]. intros E. injection E; auto.
Qed.
Lemma ex_refl x : ex_eqb x x = true. Proof. apply ex_eq. reflexivity. Qed.
Lemma ex_spec x y : reflect (x = y) (ex_eqb x y).
Proof. destruct (ex_eqb x y) eqn:E; constructor; [apply ex_eq, E|]. intros H. apply ex_eq in H. congruence. Qed.
Lemma xmem_in x l : xmem x l = true <-> In x l.
Proof. unfold xmem. rewrite existsb_exists. split; [intros (y & H & E); apply ex_eq in E; subst; exact H|intros H; exists x; split; [exact H|apply ex_refl]]. Qed.
Lemma xlook_in {A} (l : list (ex * A)) x v : xlook l x = Some v -> In (x, v) l.
Proof. induction l as [|[k w] l IH]; cbn; [discriminate|]. destruct (ex_spec k x) as [->|N]; [intros [= ->]; left; reflexivity|intros H; right; auto]. Qed.
Lemma xlook_key {A} (l : list (ex * A)) x : In x (map fst l) -> exists v, xlook l x = Some v.
Proof. induction l as [|[k w] l IH]; cbn; [intros []|]. destruct (ex_spec k x) as [->|N]; [eauto|]. intros [E|H]; [congruence|auto]. Qed.
Lemma xlook_app {A} (l m : list (ex * A)) x : xlook (l ++ m) x = match xlook l x with Some v => Some v | None => xlook m x end.
Proof. induction l as [|[k w] l IH]; cbn; [reflexivity|]. destruct (ex_eqb k x); [reflexivity|apply IH]. Qed.
Lemma xemplace_look {A} (l : list (ex * A)) x v y : xlook (xemplace l x v) y = match xlook l y with Some w => Some w | None => if ex_eqb x y then Some v else None end.
Proof.
  unfold xemplace. destruct (xlook l x) eqn:E.
  - destruct (xlook l y) eqn:F; [reflexivity|]. destruct (ex_spec x y) as [->|N]; [congruence|reflexivity].
  - rewrite xlook_app. destruct (xlook l y); [reflexivity|]. cbn. destruct (ex_eqb x y); reflexivity.
Qed.
Lemma xsize_deps x : xsize x = S (list_sum (map xsize (xdeps x))). Proof. destruct x; reflexivity. Qed.
Lemma xdep_size x d : In d (xdeps x) -> xsize d < xsize x.
Proof. intros H. rewrite (xsize_deps x). pose proof (sum_in (xsize d) (map xsize (xdeps x)) (in_map _ _ _ H)). lia. Qed.

Section Ext.
Variable p : ex -> option bool.
(** What the body of a lambda is: [y] is [x] with the parts outside replaced by parameters. *)
Inductive body (args : list ex) : ex -> ex -> Prop :=
  | body_arg x i : p x = Some false -> nth_error args i = Some x -> body args x (XArg i)
  | body_in x ys : (forall i, x <> XArg i) -> p x = Some true -> Forall2 (body args) (xdeps x) ys -> body args x (xwith x ys).
Lemma body_ind' args (P : ex -> ex -> Prop) : (forall x i, p x = Some false -> nth_error args i = Some x -> P x (XArg i)) ->
  (forall x ys, (forall i, x <> XArg i) -> p x = Some true -> Forall2 (body args) (xdeps x) ys -> Forall2 P (xdeps x) ys -> P x (xwith x ys)) -> forall x y, body args x y -> P x y.
Proof.
  intros H1 H2. fix F 3. intros x y [x' i E N|x' ys Z E A]; [apply H1; assumption|].
  apply H2; [exact Z|exact E|exact A|]. induction A as [|a b l m B A IH]; constructor; [apply F, B|exact IH].
Qed.
Lemma body_more args more x y : body args x y -> body (args ++ more) x y.
Proof.
  intros H. induction H as [x i E N|x ys Z E A IH] using body_ind'; [|apply body_in; assumption].
  apply body_arg; [exact E|]. rewrite nth_error_app1; [exact N|]. apply nth_error_Some. congruence.
Qed.

Variable V : ex -> Prop.
Hypothesis V_arg : forall i, ~ V (XArg i).
Hypothesis p_def : forall x, V x -> exists b, p x = Some b.
Hypothesis p_deps : forall x d, V x -> p x = Some true -> In d (xdeps x) -> V d.
Record xinv (open pre : list ex) (new : list (ex * ex)) (args : list ex) : Prop := mkXI {
  xi_body : forall x y, xlook new x = Some y -> body args x y;
  xi_pre : forall x, In x pre -> In x open \/ exists y, xlook new x = Some y;
  xi_keys : forall x y, xlook new x = Some y -> In x pre;
  xi_args : forall x, In x args -> V x /\ p x = Some false /\ exists y, xlook new x = Some y;
  xi_nd : NoDup args }.
Definition done_with x : Prop := forall ts open pre new args, xinv open pre new args -> (forall o, In o open -> xsize x < xsize o) ->
  exists k pre' new' more, k <= 2 * xsize x /\ (forall fu, extract_loop p (k + fu) ((false, x) :: ts) pre new args = extract_loop p fu ts pre' new' (args ++ more)) /\
    xinv open pre' new' (args ++ more) /\ (exists y, xlook new' x = Some y) /\ (forall z y, xlook new z = Some y -> xlook new' z = Some y) /\ incl pre pre'.
Lemma done_list ds : Forall done_with ds -> forall ts open pre new args, xinv open pre new args -> (forall o d, In o open -> In d ds -> xsize d < xsize o) ->
  exists k pre' new' more, k <= 2 * list_sum (map xsize ds) /\ (forall fu, extract_loop p (k + fu) (map (pair false) ds ++ ts) pre new args = extract_loop p fu ts pre' new' (args ++ more)) /\
    xinv open pre' new' (args ++ more) /\ (forall d, In d ds -> exists y, xlook new' d = Some y) /\ (forall z y, xlook new z = Some y -> xlook new' z = Some y) /\ incl pre pre'.
Proof.
  induction 1 as [|d ds H F IH]; intros ts open pre new args I O.
  - exists 0, pre, new, []. rewrite app_nil_r. split; [lia|]. split; [reflexivity|]. split; [exact I|]. split; [intros d []|]. split; [auto|apply incl_refl].
  - destruct (H (map (pair false) ds ++ ts) open pre new args I (fun o Ho => O o d Ho (or_introl eq_refl))) as (k & pre1 & new1 & m1 & K & E & I1 & (y & Y) & X & J).
    destruct (IH ts open pre1 new1 (args ++ m1) I1 (fun o d' Ho Hd => O o d' Ho (or_intror Hd))) as (k2 & pre2 & new2 & m2 & K2 & E2 & I2 & D2 & X2 & J2).
    exists (k + k2), pre2, new2, (m1 ++ m2). rewrite app_assoc. split; [|split; [|split; [exact I2|split; [|split]]]].
    + change (map xsize (d :: ds)) with (xsize d :: map xsize ds). rewrite sum_cons'. lia.
    + intros fu. rewrite <- Nat.add_assoc. cbn [map app]. rewrite E. apply E2.
    + intros d' [->|Hd]; [exists y; apply X2, Y|apply D2, Hd].
    + intros z w Z. apply X2, X, Z.
    + intros z Z. apply J2, J, Z.
Qed.
Lemma xlooks_body new args xs : (forall x y, xlook new x = Some y -> body args x y) -> (forall d, In d xs -> exists y, xlook new d = Some y) ->
  exists ys, xlooks new xs = Some ys /\ Forall2 (body args) xs ys.
Proof.
  intros B. induction xs as [|x xs IH]; intros H; [exists []; split; constructor|].
  destruct (H x (or_introl eq_refl)) as (y & Y). destruct (IH (fun d Hd => H d (or_intror Hd))) as (ys & E & F).
  exists (y :: ys). cbn [xlooks]. rewrite Y. cbn [bind]. rewrite E. split; [reflexivity|constructor; auto].
Qed.
Lemma done_all n : forall x, xsize x <= n -> V x -> done_with x.
Proof.
  induction n as [|n IH]; intros x Sx Vx; [pose proof (xsize_deps x); lia|].
  intros ts open pre new args I O.
  destruct (xmem x pre) eqn:M.
  { exists 1, pre, new, []. rewrite app_nil_r. split; [pose proof (xsize_deps x); lia|]. split; [intros fu; cbn [Nat.add extract_loop]; rewrite M; reflexivity|].
    split; [exact I|]. split; [|split; [auto|apply incl_refl]]. apply xmem_in in M. destruct (xi_pre _ _ _ _ I x M) as [H|H]; [apply O in H; lia|exact H]. }
  destruct (p_def x Vx) as [[|] P].
  - set (ds := xdeps x).
    assert (F : Forall done_with ds).
    { apply Forall_forall. intros d Hd. apply IH; [|apply (p_deps x d Vx P Hd)]. pose proof (xdep_size x d Hd). lia. }
    assert (I1 : xinv (x :: open) (x :: pre) new args).
    { destruct I as [A B C Dd N]. constructor; [exact A| |intros z y Z; right; apply (C z y Z)|exact Dd|exact N].
      intros z [->|Z]; [left; left; reflexivity|]. destruct (B z Z) as [B'|B']; [left; right; exact B'|right; exact B']. }
    destruct (done_list ds F ((true, x) :: ts) (x :: open) (x :: pre) new args I1) as (k & pre' & new' & more & K & E & I2 & D2 & X & J).
    { intros o d [->|Ho] Hd; pose proof (xdep_size _ d Hd); [exact H|]. apply O in Ho. unfold ds in Hd. lia. }
    destruct (xlooks_body new' (args ++ more) ds (xi_body _ _ _ _ I2) D2) as (ys & Y & B).
    exists (S (k + 1)), pre', (xemplace new' x (xwith x ys)), more.
    split; [rewrite (xsize_deps x); fold ds; lia|]. split.
    { intros fu. replace (S (k + 1) + fu) with (S (k + S fu)) by lia. cbn [extract_loop]. rewrite M, P. cbn [bind]. fold ds. rewrite E.
      cbn [extract_loop]. fold ds. rewrite Y. reflexivity. }
    assert (Bx : body (args ++ more) x (xwith x ys)) by (apply body_in; [intros i ->; apply (V_arg i Vx)|assumption|assumption]).
    assert (XP : In x pre') by (apply J; left; reflexivity).
    split; [|split; [|split]].
    + destruct I2 as [A2 B2 C2 G2 N2]. constructor.
      * intros z y. rewrite xemplace_look. destruct (xlook new' z) eqn:L; [intros [= <-]; apply A2, L|]. destruct (ex_spec x z) as [<-|]; [intros [= <-]; exact Bx|discriminate].
      * intros z Z. rewrite xemplace_look. destruct (ex_spec x z) as [<-|Nz]; [right; destruct (xlook new' x); eauto|].
        destruct (B2 z Z) as [[E1|E1]|(y & E1)]; [congruence|left; exact E1|right; rewrite E1; eauto].
      * intros z y. rewrite xemplace_look. destruct (xlook new' z) eqn:L; [intros _; apply (C2 _ _ L)|]. destruct (ex_spec x z) as [<-|]; [intros _; exact XP|discriminate].
      * intros z Z. destruct (G2 z Z) as (G3 & G4 & y & G5). repeat split; auto. exists y. rewrite xemplace_look, G5. reflexivity.
      * exact N2.
    + rewrite xemplace_look, ex_refl. destruct (xlook new' x); eauto.
    + intros z y Z. rewrite xemplace_look, (X z y Z). reflexivity.
    + intros z Z. apply J. right. exact Z.
  - assert (L : xlook new x = None).
    { destruct (xlook new x) eqn:L; [|reflexivity]. apply (xi_keys _ _ _ _ I), xmem_in in L. congruence. }
    exists 1, (x :: pre), (xemplace new x (XArg (length args))), [x].
    split; [pose proof (xsize_deps x); lia|]. split; [intros fu; cbn [Nat.add extract_loop]; rewrite M, P; cbn [bind]; rewrite L; reflexivity|].
    destruct I as [A B C G N].
    assert (Ax : ~ In x args). { intros H. destruct (G x H) as (_ & _ & y & Y). congruence. }
    split; [constructor|split; [|split]].
    + intros z y. rewrite xemplace_look. destruct (xlook new z) eqn:Lz; [intros [= <-]; apply body_more, A, Lz|].
      destruct (ex_spec x z) as [<-|]; [intros [= <-]|discriminate]. apply body_arg; [exact P|]. rewrite nth_error_app2, Nat.sub_diag by lia. reflexivity.
    + intros z [<-|Z]; [right; rewrite xemplace_look, L, ex_refl; eauto|]. destruct (B z Z) as [H|(y & H)]; [left; exact H|right; rewrite xemplace_look, H; eauto].
    + intros z y. rewrite xemplace_look. destruct (xlook new z) eqn:Lz; [intros _; right; apply (C _ _ Lz)|]. destruct (ex_spec x z) as [<-|]; [left; reflexivity|discriminate].
    + intros z Z. rewrite xemplace_look. apply in_app_or in Z. destruct Z as [Z|[<-|[]]]; [destruct (G z Z) as (G1 & G2 & y & G3); rewrite G3; eauto|].
      rewrite L, ex_refl. eauto.
    + clear - N Ax. induction args as [|a l IH]; cbn; [repeat constructor; intros []|]. inversion_clear N. constructor; [|apply IH; [assumption|intros H1; apply Ax; right; exact H1]].
      intros H1. apply in_app_or in H1. destruct H1 as [H1|[<-|[]]]; [contradiction|]. apply Ax. left. reflexivity.
    + rewrite xemplace_look, L, ex_refl. eauto.
    + intros z y Z. rewrite xemplace_look, Z. reflexivity.
    + intros z Z. right. exact Z.
Qed.
Lemma extract_ok x : V x -> exists y args, extract p x = Some (y, args) /\ body args x y /\ NoDup args /\ forall a, In a args -> V a /\ p a = Some false.
Proof.
  intros Vx. unfold extract.
  destruct (done_all (xsize x) x (le_n _) Vx [] [] [] [] []) as (k & pre & new & more & K & E & I & (y & Y) & _).
  { constructor; cbn; try discriminate; try contradiction. constructor. }
  { intros o []. }
  replace (2 * xsize x) with (k + (2 * xsize x - k)) by lia. rewrite E.
  exists y, more. replace (extract_loop p (2 * xsize x - k) [] pre new ([] ++ more)) with (Some (new, more)) by (destruct (2 * xsize x - k); reflexivity).
  cbn [bind fst snd]. rewrite Y. split; [reflexivity|]. destruct I as [A B C G N]. cbn in *. repeat split; auto; apply (G a H).
Qed.
End Ext.

(** Evaluating the body on the values of the arguments is evaluating the expression. *)
Section Run.
Context {D : Type}.
Variables (lit : nat -> D) (env : list nat -> D) (sem : nat -> list D -> option D) (present : D -> bool).
Notation run := (run lit env sem present).
Lemma all_some_map {A} (f : A -> option D) l vs : all_some (map f l) = Some vs <-> Forall2 (fun x v => f x = Some v) l vs.
Proof.
  revert vs. induction l as [|x l IH]; intros vs; cbn [map all_some]; [split; [intros [= <-]; constructor|intros H; inversion H; reflexivity]|].
  destruct (f x) as [v|] eqn:E; cbn [bind]; [|split; [discriminate|intros H; inversion H; congruence]].
  destruct (all_some (map f l)) as [ws|] eqn:F; cbn [bind].
  - split; [intros [= <-]; constructor; [exact E|apply IH; reflexivity]|]. intros H. inversion H as [|? w ? ws' E' F' ]; subst. apply IH in F'. congruence.
  - split; [discriminate|]. intros H. inversion H as [|? w ? ws' E' F' ]; subst. apply IH in F'. congruence.
Qed.
Lemma body_run p args outer vs x y : body p args x y -> Forall2 (fun a v => run outer a = Some v) args vs -> run vs y = run outer x.
Proof.
  intros H F. induction H as [x i E N|x ys Z E A IH] using body_ind'.
  - cbn [Where_Model.run]. revert i N. induction F as [|a v l m Hv F IH]; intros i N; [destruct i; discriminate|].
    destruct i; cbn in *; [injection N as ->; congruence|]. apply IH, N.
  - assert (M : map (run vs) ys = map (run outer) (xdeps x)).
    { clear A. induction IH as [|d y l m Q _ IHl]; cbn; [reflexivity|]. rewrite Q, IHl. reflexivity. }
    destruct x as [v|k|k|i|o a ds|a t f n ds]; cbn [xdeps] in *; cbn [xwith Where_Model.run]; try reflexivity; [exfalso; apply (Z i eq_refl)|rewrite M; reflexivity|rewrite M; reflexivity].
Qed.
End Run.
