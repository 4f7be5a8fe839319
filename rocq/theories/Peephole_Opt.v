(** Proofs about the optimizer made of several optimizations. *)
From Verif Require Import Base Visit_Model Visit_Spec Visit_Proofs VisitOrder_Proofs Peephole_Model Peephole_Spec Peephole_Proofs Peephole_Subst.

Section Opt.
Context {E : Type}.
Variable infer : nat -> list attr -> E + attr.
Variable dname : nat -> list nat.
Variable hname : list nat -> nat.
Variable hfp : node -> nat.
Notation opt := (@opt E).
Notation data := (@data E).
Notation key := (pattern_key dname hname hfp).
Notation until_key := (until_key dname hname hfp).
Notation uk_stop := (uk_stop dname hname hfp).
Notation uk_go := (uk_go dname hname hfp).

Definition get (m : list (nat * list opt)) (k : nat) : list opt := match find_key m k with Some l => l | None => [] end.
Lemma get_push m k (o : opt) k' : get (push_opt m k o) k' = get m k' ++ (if k =? k' then [o] else []).
Proof. clear infer.
  induction m as [|[q l] m IH]; unfold get in *; cbn [push_opt find_key].
  - destruct (k =? k'); reflexivity.
  - destruct (Nat.eqb_spec q k) as [->|Nq]; cbn [find_key].
    + destruct (k =? k'); [reflexivity|]. rewrite app_nil_r. reflexivity.
    + destruct (Nat.eqb_spec q k') as [->|_]; [|exact IH]. destruct (Nat.eqb_spec k k'); [congruence|]. rewrite app_nil_r. reflexivity.
Qed.
Lemma create_from (opts : list opt) : forall d, let r := fold_left (fun d o => match o_key o with Some k => mkData (push_opt (d_pat d) k o) (d_trans d) | None => mkData (d_pat d) (d_trans d ++ [o]) end) opts d in
  (forall k, get (d_pat r) k = get (d_pat d) k ++ with_key k opts) /\ d_trans r = d_trans d ++ without_key opts.
Proof. clear infer.
  induction opts as [|o opts IH]; intros d; cbn [fold_left with_key without_key filter]; [split; [intros k|]; rewrite app_nil_r; reflexivity|].
  destruct (IH (match o_key o with Some k => mkData (push_opt (d_pat d) k o) (d_trans d) | None => mkData (d_pat d) (d_trans d ++ [o]) end)) as [H1 H2]. cbv zeta. fold (without_key opts). split.
  - intros k. fold (with_key k opts). rewrite H1. destruct (o_key o) as [k'|]; cbn [d_pat]; [|reflexivity]. rewrite get_push, <- app_assoc. destruct (k' =? k); reflexivity.
  - rewrite H2. destruct (o_key o) as [k'|]; cbn [d_trans]; [reflexivity|]. rewrite <- app_assoc. reflexivity.
Qed.
Lemma apply_node_eq (opts : list opt) n : apply_node dname hname hfp (create opts) n =
  let? r := pattern_loop dname hname hfp (key n) (with_key (key n) opts) n in
  match r with inl e => Some (inl e) | inr m => transform_loop (without_key opts) m end.
Proof. clear infer.
  unfold apply_node. cbv zeta. destruct (create_from opts (mkData [] [])) as [H1 H2]. fold (create opts) in H1, H2. cbn [d_pat d_trans app] in *. rewrite H2. specialize (H1 (key n)). unfold get in H1 at 2. cbn [find_key app] in H1. unfold get in H1.
  destruct (find_key (d_pat (create opts)) (key n)) as [l|]; rewrite <- H1; reflexivity.
Qed.
(** Keys and failures *)
Lemma with_key_in k o (opts : list opt) : In o (with_key k opts) <-> In o opts /\ o_key o = Some k.
Proof.
  unfold with_key. rewrite filter_In. split; intros [A B]; (split; [exact A|]).
  - destruct (o_key o) as [q|]; [|discriminate]. apply Nat.eqb_eq in B. congruence.
  - rewrite B. apply Nat.eqb_refl.
Qed.
Lemma without_key_in o (opts : list opt) : In o (without_key opts) <-> In o opts /\ o_key o = None.
Proof. unfold without_key. rewrite filter_In. split; intros [A B]; (split; [exact A|]); [destruct (o_key o); [discriminate|reflexivity]|rewrite B; reflexivity]. Qed.

Section Total.
Variable opts : list opt.
Hypothesis T : forall o n, In o opts -> exists r, o_apply o n = Some r.
Lemma pattern_loop_total k l : (forall o, In o l -> In o opts) -> forall n, exists r, pattern_loop dname hname hfp k l n = Some r.
Proof. clear infer.
  induction l as [|o l IH]; intros H n; cbn [pattern_loop]; [eauto|]. destruct (T o n (H o (or_introl eq_refl))) as (r & ->). cbn [bind]. destruct r as [e|m]; [eauto|]. destruct (negb _); [eauto|]. apply IH. intros x I. apply H. right. exact I.
Qed.
Lemma transform_loop_total l : (forall o, In o l -> In o opts) -> forall n, exists r, transform_loop l n = Some r.
Proof. clear infer.
  induction l as [|o l IH]; intros H n; cbn [transform_loop]; [eauto|]. destruct (T o n (H o (or_introl eq_refl))) as (r & ->). cbn [bind]. destruct r as [e|m]; [eauto|]. apply IH. intros x I. apply H. right. exact I.
Qed.
Lemma apply_node_total n : exists r, apply_node dname hname hfp (create opts) n = Some r.
Proof. clear infer.
  rewrite apply_node_eq. destruct (pattern_loop_total (key n) (with_key (key n) opts)) with (n := n) as (r & ->); [intros o I; apply with_key_in in I; tauto|]. cbn [bind].
  destruct r as [e|m]; [eauto|]. apply transform_loop_total. intros o I. apply without_key_in in I. tauto.
Qed.
Lemma optimize_total vtype left : forall n, exists r, optimize dname hname hfp vtype left (create opts) n = Some r.
Proof. clear infer.
  induction left as [|left IH]; intros n; cbn [optimize]; [eauto|]. destruct (apply_node_total n) as (r & ->). cbn [bind]. destruct r as [e|m]; [eauto|]. destruct (negb (qtype_eqb _ _)); [eauto|]. destruct (negb _); eauto.
Qed.
Lemma apply_total root : exists r, apply infer dname hname hfp (create opts) root = Some r.
Proof.
  unfold apply. rewrite transform_ok. cbn [bind]. unfold rewritten.
  match goal with |- exists r, match bottom_up ?v root with _ => _ end = Some r => set (vv := v); assert (K : forall n, bottom_up vv n <> inl None) end.
  { intros n. induction n as [n IH] using node_rect'. rewrite (bu_eq vv n).
    assert (C : collect (map (bottom_up vv) (deps n)) <> inl None).
    { induction IH as [|d ds H F IHf]; [discriminate|]. cbn [map collect]. destruct (bottom_up vv d) as [e|x]; [congruence|]. destruct (collect (map (bottom_up vv) ds)); congruence. }
    destruct (collect (map (bottom_up vv) (deps n))) as [e|args]; [congruence|].
    assert (F : forall m, (match apply_node dname hname hfp (create opts) m with None => inl None | Some (inl e) => inl (Some e) | Some (inr m) => inr m end : option (perr E) + node) <> inl None).
    { intros m. destruct (apply_node_total m) as ([e|x] & ->); discriminate. }
    unfold vv, reapply. destruct (list_eq_dec node_dec args (deps n)); [apply F|]. destruct n; try apply F. destruct (infer' infer o (map attr_of args)); [discriminate|apply F]. }
  specialize (K root). destruct (bottom_up vv root) as [[e|]|x]; [eauto|congruence|eauto].
Qed.
End Total.

(** ** Relations which optimizations keep *)
Section Keep.
Variable opts : list opt.
Variable R : node -> node -> Prop.
Hypothesis R0 : forall a, R a a.
Hypothesis R1 : forall a b c, R a b -> R b c -> R a c.
Hypothesis K : forall o n m, In o opts -> o_apply o n = Some (inr m) -> R n m.
Lemma pattern_loop_keep k l : (forall o, In o l -> In o opts) -> forall n m, pattern_loop dname hname hfp k l n = Some (inr m) -> R n m.
Proof.
  induction l as [|o l IH]; intros H n m; cbn [pattern_loop]; [intros X; injection X as <-; apply R0|]. destruct (o_apply o n) as [[e|x]|] eqn:A; cbn [bind]; [discriminate| |discriminate].
  pose proof (K o n x (H o (or_introl eq_refl)) A) as Q. destruct (negb _); [intros X; injection X as <-; exact Q|]. intros X. apply (R1 _ _ _ Q). apply IH; [|exact X]. intros y I. apply H. right. exact I.
Qed.
Lemma transform_loop_keep l : (forall o, In o l -> In o opts) -> forall n m, transform_loop l n = Some (inr m) -> R n m.
Proof.
  induction l as [|o l IH]; intros H n m; cbn [transform_loop]; [intros X; injection X as <-; apply R0|]. destruct (o_apply o n) as [[e|x]|] eqn:A; cbn [bind]; [discriminate| |discriminate].
  intros X. apply (R1 _ _ _ (K o n x (H o (or_introl eq_refl)) A)). apply IH; [|exact X]. intros y I. apply H. right. exact I.
Qed.
Lemma apply_node_keep n m : apply_node dname hname hfp (create opts) n = Some (inr m) -> R n m.
Proof.
  rewrite apply_node_eq. destruct (pattern_loop dname hname hfp (key n) (with_key (key n) opts) n) as [[e|x]|] eqn:P; cbn [bind]; [discriminate| |discriminate].
  intros Q. apply (R1 _ x).
  - apply (pattern_loop_keep (key n) (with_key (key n) opts)); [|exact P]. intros o I. apply with_key_in in I. tauto.
  - apply (transform_loop_keep (without_key opts)); [|exact Q]. intros o I. apply without_key_in in I. tauto.
Qed.
Hypothesis C : forall o a a' ds ds', Forall2 R ds ds' -> R (Op o a ds) (Op o a' ds').
Lemma apply_keep root r : apply infer dname hname hfp (create opts) root = Some (inr r) -> R root r.
Proof.
  unfold apply. rewrite transform_ok. cbn [bind]. unfold rewritten. match goal with |- match bottom_up ?v root with _ => _ end = _ -> _ => set (vv := v) end.
  intros H. assert (B : bottom_up vv root = inr r) by (destruct (bottom_up vv root) as [[e|]|x]; congruence). clear H. revert r B. induction root as [n IH] using node_rect'. intros r B. rewrite (bu_eq vv n) in B.
  destruct (collect (map (bottom_up vv) (deps n))) as [e|args] eqn:Ca; [discriminate|]. apply collect_inr in Ca.
  assert (Fa : Forall2 R (deps n) args).
  { clear B. revert args Ca. induction IH as [|d ds H F IHf]; intros [|x args] Ca; try discriminate; [constructor|]. injection Ca as Cd Ca. constructor; [apply H, Cd|apply IHf, Ca]. }
  assert (G : forall m, (match apply_node dname hname hfp (create opts) m with None => inl None | Some (inl e) => inl (Some e) | Some (inr x) => inr x end : option (perr E) + node) = inr r -> R m r).
  { intros m H. apply apply_node_keep. destruct (apply_node dname hname hfp (create opts) m) as [[e|x]|]; congruence. }
  unfold vv, reapply in B. destruct (list_eq_dec node_dec args (deps n)); [apply G, B|]. destruct n as [v|k|k|o a ds]; try (apply G, B).
  destruct (infer' infer o (map attr_of args)) as [e|a']; [discriminate|]. apply (R1 _ (Op o a' args)); [apply C, Fa|apply G, B].
Qed.
End Keep.

(** ** Order, and nothing missed *)
Section Order.
Variable opts : list opt.
Lemma until_key_ok k (l : list opt) : forall n r, pattern_loop dname hname hfp k l n = Some (inr r) <-> until_key k l n r.
Proof.
  induction l as [|o l IH]; intros n r; cbn [pattern_loop].
  - split; [intros X; injection X as <-; constructor|]. intros U. inversion U; subst. reflexivity.
  - split.
    + destruct (o_apply o n) as [[e|m]|] eqn:A; cbn [bind]; [discriminate| |discriminate]. destruct (Nat.eqb_spec (key m) k) as [Q|Q]; cbn [negb].
      * intros H. apply (uk_go k o l n m r A Q). apply IH, H.
      * intros H. injection H as <-. apply (uk_stop k o l n m A Q).
    + intros U. inversion U as [|? ? ? ? A Q|? ? ? m ? A Q U']; subst; rewrite A; cbn [bind].
      * destruct (Nat.eqb_spec (key r) k); [contradiction|reflexivity].
      * destruct (Nat.eqb_spec (key m) (key m)); [|contradiction]. apply IH, U'.
Qed.
Lemma chain_ok (l : list opt) : forall n r, transform_loop l n = Some (inr r) <-> chain l n r.
Proof.
  induction l as [|o l IH]; intros n r; cbn [transform_loop].
  - split; [intros X; injection X as <-; constructor|]. intros U. inversion U; subst. reflexivity.
  - split.
    + destruct (o_apply o n) as [[e|m]|] eqn:A; cbn [bind]; [discriminate| |discriminate]. intros H. apply (ch_cons o l n m r A), IH, H.
    + intros U. inversion U as [|? ? ? m ? A U']; subst. rewrite A. cbn [bind]. apply IH, U'.
Qed.
Lemma apply_node_chain n r : apply_node dname hname hfp (create opts) n = Some (inr r) <-> exists m, until_key (key n) (with_key (key n) opts) n m /\ chain (without_key opts) m r.
Proof. clear infer.
  rewrite apply_node_eq. split.
  - destruct (pattern_loop dname hname hfp (key n) (with_key (key n) opts) n) as [[e|m]|] eqn:P; cbn [bind]; [discriminate| |discriminate]. intros H. exists m. split; [apply until_key_ok, P|apply chain_ok, H].
  - intros (m & U & H). apply until_key_ok in U. rewrite U. cbn [bind]. apply chain_ok, H.
Qed.
(** An optimization with a key leaves nodes with other keys as they are. *)
Hypothesis Hk : forall o k n, In o opts -> o_key o = Some k -> key n <> k -> o_apply o n = Some (inr n).
Variable mu : node -> nat.
Hypothesis Hmu : forall o n m, In o opts -> o_apply o n = Some (inr m) -> m = n \/ mu m < mu n.
Lemma chain_mu l : (forall o, In o l -> In o opts) -> forall n r, chain l n r -> (mu r < mu n) \/ (r = n /\ forall o, In o l -> o_apply o n = Some (inr n)).
Proof. clear infer.
  induction l as [|o l IH]; intros H n r Ch; inversion Ch as [|? ? ? m ? A Ch']; subst; [right; split; [reflexivity|intros o []]|].
  destruct (Hmu o n m (H o (or_introl eq_refl)) A) as [->|L].
  - destruct (IH (fun x I => H x (or_intror I)) n r Ch') as [L|[-> F]]; [left; exact L|right]. split; [reflexivity|]. intros x [<-|I]; [exact A|apply F, I].
  - left. destruct (IH (fun x I => H x (or_intror I)) m r Ch') as [L'|[-> _]]; lia.
Qed.
Lemma until_mu k l : (forall o, In o l -> In o opts) -> forall n r, key n = k -> until_key k l n r -> (mu r < mu n) \/ (r = n /\ forall o, In o l -> o_apply o n = Some (inr n)).
Proof. clear infer.
  induction l as [|o l IH]; intros H n r Kn U; inversion U as [|? ? ? ? A Q|? ? ? m ? A Q U']; subst; [right; split; [reflexivity|intros o []]| |].
  - destruct (Hmu o n r (H o (or_introl eq_refl)) A) as [->|L]; [congruence|left; exact L].
  - destruct (Hmu o n m (H o (or_introl eq_refl)) A) as [->|L].
    + destruct (IH (fun x I => H x (or_intror I)) n r eq_refl U') as [L|[-> F]]; [left; exact L|right]. split; [reflexivity|]. intros x [<-|I]; [exact A|apply F, I].
    + left. rewrite <- Q in U'. destruct (IH (fun x I => H x (or_intror I)) m r Q) as [L'|[-> _]]; [rewrite <- Q; exact U'|lia|exact L].
Qed.
Lemma apply_node_mu n r : apply_node dname hname hfp (create opts) n = Some (inr r) -> mu r < mu n \/ (r = n /\ forall o, In o opts -> o_apply o n = Some (inr n)).
Proof. clear infer.
  rewrite apply_node_chain. intros (m & U & Ch). apply until_mu in U; [|intros o I; apply with_key_in in I; tauto|reflexivity]. apply chain_mu in Ch; [|intros o I; apply without_key_in in I; tauto].
  destruct U as [L|[-> F]]; destruct Ch as [L'|[-> F']]; try (left; lia). right. split; [reflexivity|]. intros o I. destruct (o_key o) as [k|] eqn:Ko.
  - destruct (Nat.eq_dec (key n) k) as [<-|N]; [apply F, with_key_in; auto|apply (Hk o k n I Ko N)].
  - apply F', without_key_in. auto.
Qed.
Lemma optimize_enough vtype left : forall n, mu n < left -> optimize dname hname hfp vtype left (create opts) n <> Some (inl PTooMany) \/
  exists m, apply_node dname hname hfp (create opts) m = Some (inl PTooMany).
Proof. clear infer.
  induction left as [|left IH]; intros n L; [lia|]. cbn [optimize]. destruct (apply_node dname hname hfp (create opts) n) as [[e|m]|] eqn:A; cbn [bind].
  - destruct e; try (left; discriminate). right. eauto.
  - destruct (negb (qtype_eqb _ _)); [left; discriminate|]. destruct (node_spec n m) as [->|N]; cbn [negb]; [left; discriminate|]. apply IH. destruct (apply_node_mu n m A) as [L'|[X _]]; [lia|congruence].
  - left. discriminate.
Qed.
End Order.

(** ** Repetition *)
Section Rounds.
Variable d : data.
Variable vtype : nat -> nat.
Notation ap := (apply_node dname hname hfp d).
Notation rounds := (rounds dname hname hfp d vtype).
Notation rd_S := (rd_S dname hname hfp d vtype).
Lemma qtype_spec a b : reflect (a = b) (qtype_eqb a b).
Proof. destruct a as [a|], b as [b|]; cbn [qtype_eqb]; try (constructor; congruence). destruct (Nat.eqb_spec a b); constructor; congruence. Qed.
Lemma optimize_ok left : forall n, match optimize dname hname hfp vtype left d n with
  | Some (inr r) => exists c, c < left /\ rounds c n r /\ ap r = Some (inr r)
  | Some (inl e) =>
      (e = PTooMany /\ exists r, rounds left n r) \/
      (exists c m, c < left /\ rounds c n m /\ (ap m = Some (inl e) \/ e = PQType /\ exists m', ap m = Some (inr m') /\ qtype vtype m' <> qtype vtype m))
  | None => exists c m, c < left /\ rounds c n m /\ ap m = None
  end.
Proof. clear infer.
  induction left as [|left IH]; intros n; cbn [optimize]; [left; split; [reflexivity|]; exists n; constructor|].
  destruct (ap n) as [[e|m]|] eqn:A; cbn [bind].
  - right. exists 0, n. split; [lia|]. split; [constructor|]. left. exact A.
  - destruct (qtype_spec (qtype vtype m) (qtype vtype n)) as [Q|Q]; cbn [negb]; [|right; exists 0, n; split; [lia|]; split; [constructor|]; right; split; [reflexivity|]; eauto].
    destruct (node_spec n m) as [<-|N]; cbn [negb]; [exists 0; split; [lia|]; split; [constructor|exact A]|].
    specialize (IH m). assert (N' : m <> n) by congruence. destruct (optimize dname hname hfp vtype left d m) as [[e|r]|].
    + destruct IH as [(-> & r & H)|(c & x & L & H & J)]; [left; split; [reflexivity|]; exists r; apply (rd_S _ _ m); assumption|]. right. exists (S c), x. split; [lia|]. split; [apply (rd_S _ _ m); assumption|exact J].
    + destruct IH as (c & L & H & J). exists (S c). split; [lia|]. split; [apply (rd_S _ _ m); assumption|exact J].
    + destruct IH as (c & x & L & H & J). exists (S c), x. split; [lia|]. split; [apply (rd_S _ _ m); assumption|exact J].
  - exists 0, n. split; [lia|]. split; [constructor|exact A].
Qed.
Lemma rounds_qtype c n r : rounds c n r -> qtype vtype r = qtype vtype n.
Proof. clear infer. induction 1; congruence. Qed.
Lemma rounds_keep (R : node -> node -> Prop) : (forall a, R a a) -> (forall a b c, R a b -> R b c -> R a c) -> (forall a b, ap a = Some (inr b) -> R a b) -> forall c n r, rounds c n r -> R n r.
Proof. clear infer. intros R0 R1 K c n r H. induction H; [apply R0|]. eapply R1; [apply K; eassumption|assumption]. Qed.
End Rounds.

(** ** Meanings *)
Section Mean.
Variable refop : nat -> option nat.
Hypothesis Hr : forall o r, refop o = Some r -> dname r = dname o.
Context {D : Type}.
Variables (dlit : nat -> D) (dleaf : list nat -> D) (dop : list nat -> list D -> D).
Notation mean := (meaning dname dlit dleaf dop).
Lemma map_ext_F {A B} (f g : A -> B) l : Forall (fun x => f x = g x) l -> map f l = map g l.
Proof. induction 1 as [|x l H F IH]; [reflexivity|]. cbn [map]. rewrite H, IH. reflexivity. Qed.
Lemma mean_stands cs t from root r0 : stands dname cs t from root -> forall p, sub p from -> mean r0 (t p) = mean (fun k => mean r0 (t (Plh k))) p.
Proof.
  intros [_ Hs] p. induction p as [p IH] using node_rect'. intros S. pose proof (Hs p S) as H. destruct p as [v|k|k|o a ds].
  - rewrite H. reflexivity.
  - contradiction.
  - reflexivity.
  - destruct H as (o' & a' & -> & Hn). cbn [meaning]. rewrite Hn, map_map. f_equal. apply map_ext_F. cbn [deps] in IH. apply Forall_forall. intros d I. rewrite Forall_forall in IH. apply (IH d I).
    apply (sub_trans d (Op o a ds)); [apply (sub_dep _ (Op o a ds) d I); constructor|exact S].
Qed.
Lemma mean_no_plh n r r' : ~ has_placeholder n -> mean r n = mean r' n.
Proof.
  induction n as [n IH] using node_rect'. intros H. destruct n as [v|k|k|o a ds]; [reflexivity|reflexivity|exfalso; apply H; exists k; constructor|].
  cbn [meaning deps] in *. f_equal. apply map_ext_F. rewrite Forall_forall in *. intros d I. apply (IH d I). intros P. apply H, (has_dep (Op o a ds) d I P).
Qed.
Lemma mean_filled s r0 n : forall m, filled infer s n m -> mean r0 m = mean (fun k => mean r0 (s k)) n.
Proof.
  induction n as [n IH] using node_rect'. intros m F. destruct F as [k|n N|o a ds ds' a' P F Ei]; [reflexivity|apply mean_no_plh, N|]. cbn [meaning deps] in *. f_equal.
  clear P Ei. induction F as [|d d' ds ds' H F IHf]; [reflexivity|]. inversion IH as [|? ? G1 G2]; subst. cbn [map]. rewrite (G1 d' H), (IHf G2). reflexivity.
Qed.
Lemma mean_renamed r n : forall m, renamed infer refop n m -> mean r m = mean r n.
Proof.
  induction n as [n IH] using node_rect'. intros m F. assert (Z : is_op n = false \/ exists o a ds, n = Op o a ds) by (destruct n; eauto).
  destruct Z as [Z|(o & a & ds & ->)]; [inversion F; subst; try discriminate; reflexivity|]. apply renamed_inv in F as (o' & a' & ds' & -> & F & Ho). cbn [meaning deps] in *.
  replace (dname o') with (dname o) by (destruct Ho as [->|Ho]; [reflexivity|symmetry; apply (Hr o o' Ho)]). f_equal.
  induction F as [|d d' ds ds' H F IHf]; [reflexivity|]. inversion IH as [|? ? G1 G2]; subst. cbn [map]. rewrite (G1 d' H), (IHf G2). reflexivity.
Qed.
Lemma pattern_mean cs from to to' root n r0 : renamed infer refop to to' -> pattern_result infer dname cs from to' root (inr n) -> (forall k c, In (k, c) cs -> sub (Plh k) from) ->
  (forall s, (forall k c, In (k, c) cs -> c (s k) = true) -> mean (fun k => mean r0 (s k)) from = mean (fun k => mean r0 (s k)) to) -> mean r0 n = mean r0 root.
Proof.
  intros Rn [(t & St & F)|[_ ->]] Hc V; [|reflexivity]. rewrite (mean_filled _ r0 to' n F). rewrite (mean_renamed _ to to' Rn).
  rewrite <- (V (fun k => t (Plh k))); [|intros k c I; apply (proj2 St (Plh k) (Hc k c I) c I)]. rewrite <- (proj1 St) at 1. symmetry. rewrite (mean_stands cs t from root r0 St from (sub_refl _)). reflexivity.
Qed.
End Mean.
End Opt.
