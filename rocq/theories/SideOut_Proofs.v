(** Proofs about annotations and side outputs. *)
From Verif Require Import Base Visit_Model Visit_Spec Visit_Proofs VisitOrder_Proofs SideOut_Model SideOut_Spec.

Section Side.
Context {E : Type}.
Variable infer : nat -> list attr -> E + attr.
Variable decay : nat -> E + kind.
Variable look_at : nat -> view.

(** ** Reading *)
Definition text_of (n : node) : option key := match attr_of n with AValue v => match look_at v with VText s => Some s | _ => None end | _ => None end.
Definition exported (n : node) : option (node * key * node) :=
  match n with
  | Op o _ [x; g] => match decay o, text_of g with inr KExport, Some t => Some (x, t, x) | _, _ => None end
  | Op o _ [x; g; v] => match decay o, text_of g with inr KExportValue, Some t => Some (x, t, v) | _, _ => None end
  | _ => None
  end.
Lemma text_of_ok n t : text_of n = Some t <-> has_text look_at n t.
Proof.
  unfold text_of, has_text. destruct (attr_of n) as [|q|v]; try (split; [discriminate|intros (w & H & _); discriminate]). split.
  - intros H. exists v. destruct (look_at v); try discriminate. injection H as ->. auto.
  - intros (w & H & L). injection H as ->. rewrite L. reflexivity.
Qed.
Lemma exported_ok n x t v : exported n = Some (x, t, v) <-> exports decay look_at n x t v.
Proof.
  split.
  - destruct n as [| | |o a [|x' [|g [|v' [|w ds]]]]]; try discriminate; cbn [exported]; destruct (decay o) as [|[]] eqn:D; try discriminate; destruct (text_of g) as [t'|] eqn:T; try discriminate;
      intros H; injection H as -> -> <-; constructor; try exact D; apply text_of_ok, T.
  - intros []; cbn [exported]; rewrite H; apply text_of_ok in H0; rewrite H0; reflexivity.
Qed.
Lemma is_export_ok n : is_export decay look_at n = Some (match exported n with Some _ => true | None => false end).
Proof.
  unfold is_export. destruct n as [| | |o a [|x [|g [|v [|w ds]]]]]; try reflexivity; cbn [deps length Nat.ltb Nat.leb orb rd nth_error bind exported kind_of];
    change (text_value look_at g) with (text_of g); destruct (text_of g); try (destruct (decay o) as [|[]]; reflexivity).
Qed.
Lemma read_tag_ok n : read_tag decay look_at n = Some (match exported n with Some (_, t, _) => t | None => [] end).
Proof.
  unfold read_tag. rewrite is_export_ok. cbn [bind]. destruct (exported n) as [[[x t] v]|] eqn:X; [|reflexivity]. apply exported_ok in X. destruct X as [? ? ? g ? ? T|? ? ? g ? ? ? T]; cbn [deps rd nth_error bind]; apply text_of_ok in T; exact T.
Qed.
Lemma read_value_ok n : read_value decay look_at n = match exported n with Some (_, _, v) => Some v | None => None end.
Proof.
  unfold read_value. rewrite is_export_ok. cbn [bind]. destruct (exported n) as [[[x t] v]|] eqn:X; [|reflexivity]. apply exported_ok in X. destruct X; reflexivity.
Qed.
Lemma exported_dep n x t v : exported n = Some (x, t, v) -> rd (deps n) 0 = Some x.
Proof. intros X. apply exported_ok in X. destruct X; reflexivity. Qed.

Lemma find_none (m : list (key * node)) t : ofind m t = None <-> ~ In t (map fst m).
Proof.
  induction m as [|[k v] m IH]; cbn [ofind map fst]; [cbn; tauto|]. destruct (leqb Nat.eqb k t) eqn:Q.
  - apply nats_eq in Q. subst k. split; [discriminate|]. intros H. elim H. left. reflexivity.
  - rewrite IH. cbn [In]. assert (k <> t) by (intros ->; rewrite (proj2 (nats_eq t t) eq_refl) in Q; discriminate). tauto.
Qed.

(** ** One node *)
Definition drop (n : node) : E + node := match exported n with Some (x, _, _) => inr x | None => inr n end.
Notation bu := (bottom_up (reapply infer drop)).
Definition pre (n : node) : E + node := match collect (map bu (deps n)) with inl e => inl e | inr ds => reapply infer inr n ds end.
Lemma bu_pre n : bu n = match pre n with inl e => inl e | inr m => drop m end.
Proof.
  rewrite (bu_eq (reapply infer drop) n). unfold pre. destruct (collect (map bu (deps n))) as [e|ds]; [reflexivity|]. unfold reapply. destruct (list_eq_dec node_dec ds (deps n)); [reflexivity|].
  destruct n; try reflexivity. destruct (infer o (map attr_of ds)); reflexivity.
Qed.
Definition out_of (n : node) : list (key * node) :=
  match pre n with inl _ => [] | inr m => match exported m with Some (_, t, v) => [(t, v)] | None => [] end end.
Definition step_of (outs : list (key * node)) (n : node) : serr E + (list (key * node) * node) :=
  match pre n with
  | inl e => inl (SErr e)
  | inr m => match exported m with
             | Some (x, t, v) => match ofind outs t with Some _ => inl (SDup t) | None => inr (outs ++ [(t, v)], x) end
             | None => inr (outs, m)
             end
  end.
Lemma side_fn_ok outs m : side_fn decay look_at outs m = Some (match exported m with
   | Some (x, t, v) => match ofind outs t with Some _ => inl (SDup t) | None => inr (outs ++ [(t, v)], x) end
   | None => inr (outs, m) end : serr E + _).
Proof.
  unfold side_fn. rewrite is_export_ok, read_tag_ok, read_value_ok. cbn [bind]. destruct (exported m) as [[[x t] v]|] eqn:X; [|reflexivity].
  cbn [negb]. rewrite (exported_dep m x t v X). cbn [bind]. destruct (ofind outs t); reflexivity.
Qed.
Lemma side_step_ok nodes i n rs outs : ordered nodes -> nth_error nodes i = Some n -> length rs = i -> collect (map bu (firstn i nodes)) = inr rs ->
  side_step infer decay look_at (mkP nodes (adj_of nodes)) (state nodes rs) outs i =
  Some (match step_of outs n with inl e => inl e | inr (o, r) => inr (state nodes (rs ++ [r]), o) end).
Proof.
  intros O En Li C. unfold side_step. rewrite (dep_indices_ok nodes i n O En). cbn [bind p_nodes]. unfold rd at 1. rewrite En. cbn [bind].
  assert (L : i < length nodes) by (apply nth_error_Some; congruence).
  destruct (rds_state infer drop nodes i rs (deps n) (proj1 O) Li C (proj2 O i n En)) as (args & -> & E2 & E3). cbn [bind].
  assert (I : (match n with
     | Op o _ ds => if existsb changed (map enc (combine (deps n) args)) then make_op infer o (map (fun c => pick (fst c) (snd c)) (combine (map enc (combine (deps n) args)) ds)) else inr n
     | _ => inr n end) = pre n).
  { unfold pre. rewrite E2. unfold reapply. destruct n as [x|x|x|o a ds]; cbn [deps] in *; try (destruct args; [|discriminate]; destruct (list_eq_dec _ _ _); [reflexivity|reflexivity]).
    rewrite (enc_picks drop ds args E3). destruct (existsb changed (map enc (combine ds args))) eqn:X.
    - destruct (list_eq_dec node_dec args ds) as [->|_]; [rewrite (proj2 (enc_changed drop ds ds eq_refl) eq_refl) in X; discriminate|].
      unfold make_op. destruct (infer o (map attr_of args)); reflexivity.
    - apply (enc_changed drop ds args E3) in X. subst args. destruct (list_eq_dec node_dec ds ds) as [_|N]; [reflexivity|contradiction]. }
  rewrite I. unfold step_of. destruct (pre n) as [e|m]; [reflexivity|]. rewrite side_fn_ok. cbn [bind].
  assert (S1 : state nodes rs = map enc (combine (firstn i nodes) rs) ++ None :: repeat None (length nodes - S i)).
  { unfold state. rewrite Li. f_equal. replace (length nodes - i) with (S (length nodes - S i)) by lia. reflexivity. }
  assert (S2 : forall r, state nodes (rs ++ [r]) = map enc (combine (firstn i nodes) rs) ++ enc (n, r) :: repeat None (length nodes - S i)).
  { intros r. unfold state. rewrite app_length, Li. cbn [length]. rewrite Nat.add_1_r, (firstn_snoc nodes i n En).
    assert (K : combine (firstn i nodes ++ [n]) (rs ++ [r]) = combine (firstn i nodes) rs ++ [(n, r)]).
    { assert (Lf : length (firstn i nodes) = length rs) by (rewrite firstn_length; lia). revert Lf. generalize (firstn i nodes) as a. clear. induction rs as [|y rs IH]; intros [|x a] L; try discriminate; [reflexivity|].
      cbn [app combine]. f_equal. apply IH. cbn in L. lia. }
    rewrite K, map_app, <- app_assoc. reflexivity. }
  assert (G : forall (o' : list (key * node)) r, (if node_eqb r n then Some (inr (state nodes rs, o') : serr E + _) else let? results := upd (state nodes rs) i (Some r) in Some (inr (results, o'))) = Some (inr (state nodes (rs ++ [r]), o'))).
  { intros o' r. rewrite S2. unfold enc at 2. cbn [fst snd]. destruct (node_eqb r n); [rewrite S1; reflexivity|].
    rewrite S1, upd_mid by (rewrite map_length, combine_length, firstn_length; lia). reflexivity. }
  destruct (exported m) as [[[x t] v]|]; [destruct (ofind outs t); [reflexivity|]|]; apply G.
Qed.

(** ** The loop *)
Definition fine (nodes : list node) (res : serr E + (list (option node) * list (key * node))) : Prop :=
  match res with
  | inr (results, outs) => exists vs, collect (map bu nodes) = inr vs /\ results = state nodes vs /\ outs = flat_map out_of nodes /\ NoDup (map fst outs)
  | inl (SErr e) => exists n ds, In n nodes /\ collect (map bu (deps n)) = inr ds /\ pre n = inl e
  | inl (SDup t) => exists i j n n' v v', i <> j /\ nth_error nodes i = Some n /\ nth_error nodes j = Some n' /\ out_of n = [(t, v)] /\ out_of n' = [(t, v')]
  end.
Lemma flat_in nodes i t : In t (map fst (flat_map out_of (firstn i nodes))) -> exists j n v, j < i /\ nth_error nodes j = Some n /\ out_of n = [(t, v)].
Proof.
  intros H. apply in_map_iff in H as ((k & v) & <- & H). apply in_flat_map in H as (n & In_n & H). apply In_nth_error in In_n as (j & Ej).
  assert (Lj : j < length (firstn i nodes)) by (apply nth_error_Some; congruence). rewrite firstn_length in Lj. rewrite nth_first in Ej by lia. exists j, n, v. split; [lia|]. split; [exact Ej|].
  cbn [fst]. unfold out_of in *. destruct (pre n); [contradiction|]. destruct (exported n0) as [[[? ?] ?]|]; [|contradiction]. destruct H as [H|[]]. rewrite H. reflexivity.
Qed.
Lemma side_loop_ok nodes : ordered nodes -> forall cnt i rs, i + cnt = length nodes -> length rs = i -> collect (map bu (firstn i nodes)) = inr rs -> NoDup (map fst (flat_map out_of (firstn i nodes))) ->
  exists res, side_loop infer decay look_at (mkP nodes (adj_of nodes)) (state nodes rs) (flat_map out_of (firstn i nodes)) i cnt = Some res /\ fine nodes res.
Proof.
  intros O. induction cnt as [|cnt IH]; intros i rs L Li C N.
  - cbn [side_loop]. rewrite firstn_all2 in * by lia. eexists. split; [reflexivity|]. exists rs. auto.
  - cbn [side_loop]. destruct (nth_error nodes i) as [n|] eqn:En; [|apply nth_error_None in En; lia].
    rewrite (side_step_ok nodes i n rs _ O En Li C). cbn [bind]. set (outs := flat_map out_of (firstn i nodes)) in *.
    assert (Cd : exists ds, collect (map bu (deps n)) = inr ds) by (destruct (rds_state infer drop nodes i rs (deps n) (proj1 O) Li C (proj2 O i n En)) as (args & _ & E2 & _); exists args; exact E2).
    assert (C' : map bu (firstn (S i) nodes) = map bu (firstn i nodes) ++ [bu n]) by (rewrite (firstn_snoc nodes i n En), map_app; reflexivity).
    assert (F' : flat_map out_of (firstn (S i) nodes) = outs ++ out_of n) by (rewrite (firstn_snoc nodes i n En), flat_map_app; cbn [flat_map]; rewrite app_nil_r; reflexivity).
    specialize (IH (S i)). rewrite C', F' in IH. rewrite collect_app, C in IH. rewrite bu_pre in IH. unfold step_of. unfold out_of at 1 2 in IH. unfold drop in IH at 1. destruct (pre n) as [e|m] eqn:P.
    + eexists. split; [reflexivity|]. destruct Cd as (ds & Cd). exists n, ds. split; [apply nth_error_In in En; exact En|auto].
    + destruct (exported m) as [[[x t] v]|] eqn:X.
      * destruct (ofind outs t) as [w|] eqn:Q.
        -- eexists. split; [reflexivity|]. assert (T : In t (map fst outs)) by (destruct (in_dec (list_eq_dec Nat.eq_dec) t (map fst outs)) as [T|T]; [exact T|apply find_none in T; congruence]).
           apply flat_in in T as (j & n' & v' & Lj & Ej & Oj). exists j, i, n', n, v', v. repeat split; try assumption; [lia|]. unfold out_of. rewrite P, X. reflexivity.
        -- destruct (IH (rs ++ [x])) as (res & R & F); [lia|rewrite app_length; cbn; lia|reflexivity|rewrite map_app; cbn [map fst]; apply find_none in Q; apply NoDup_rev in N; rewrite <- (rev_involutive (_ ++ _)); apply NoDup_rev; rewrite rev_app_distr; cbn [rev app]; constructor; [rewrite <- in_rev; exact Q|exact N]|].
           exists res. split; [exact R|exact F].
      * destruct (IH (rs ++ [m])) as (res & R & F); [lia|rewrite app_length; cbn; lia|reflexivity|rewrite app_nil_r; exact N|].
        rewrite app_nil_r in R. exists res. split; [exact R|exact F].
Qed.

(** ** The recursive reading *)
Lemma drop_keep m : (forall x t v, ~ exports decay look_at m x t v) -> drop m = inr m.
Proof. intros H. unfold drop. destruct (exported m) as [[[x t] v]|] eqn:X; [|reflexivity]. apply exported_ok in X. elim (H _ _ _ X). Qed.
Scheme redone_mut := Induction for redone Sort Prop
  with cleaned_mut := Induction for cleaned Sort Prop
  with cleaneds_mut := Induction for cleaneds Sort Prop.
Notation redone' := (redone infer decay look_at).
Notation cleaned' := (cleaned infer decay look_at).
Notation cleaneds' := (cleaneds infer decay look_at).
Lemma collect_cons_inr {A B} (x : A + B) l rs : collect (x :: l) = inr rs <-> exists r rs', x = inr r /\ collect l = inr rs' /\ rs = r :: rs'.
Proof.
  cbn [collect]. destruct x as [e|r]; [split; [discriminate|intros (? & ? & H & _); discriminate]|]. destruct (collect l) as [e|rs'].
  - split; [discriminate|intros (? & ? & _ & H & _); discriminate].
  - split; [intros H; injection H as <-; eauto|intros (r' & s & H1 & H2 & ->); congruence].
Qed.
Lemma cleaneds_of ds : Forall (fun d => forall r, cleaned' d r <-> bu d = inr r) ds -> forall rs, cleaneds' ds rs <-> collect (map bu ds) = inr rs.
Proof.
  induction 1 as [|d ds Hd _ IH]; intros rs.
  - cbn. split; [intros H; inversion H; reflexivity|intros H; injection H as <-; constructor].
  - cbn [map]. rewrite collect_cons_inr. split.
    + intros H. inversion H as [|? r ? rs' H1 H2]; subst. exists r, rs'. split; [apply Hd, H1|split; [apply IH, H2|reflexivity]].
    + intros (r & rs' & H1 & H2 & ->). constructor; [apply Hd, H1|apply IH, H2].
Qed.
Lemma redone_from n : (forall rs, cleaneds' (deps n) rs <-> collect (map bu (deps n)) = inr rs) -> forall m, redone' n m <-> pre n = inr m.
Proof.
  intros K m. unfold pre. split.
  - intros H. revert K. destruct H as [n H|o a ds ds' a' H N I]; intros K.
    + apply K in H. rewrite H. unfold reapply. destruct (list_eq_dec node_dec (deps n) (deps n)) as [_|N]; [reflexivity|contradiction].
    + apply K in H. cbn [deps] in H |- *. rewrite H. unfold reapply. cbn [deps]. destruct (list_eq_dec node_dec ds' ds) as [Q|_]; [contradiction|]. rewrite I. reflexivity.
  - destruct (collect (map bu (deps n))) as [e|ds] eqn:C; [discriminate|]. pose proof (proj2 (K ds) eq_refl) as C'. clear C. rename C' into C. unfold reapply. destruct (list_eq_dec node_dec ds (deps n)) as [->|N].
    + intros H. injection H as <-. constructor. exact C.
    + destruct n as [v|k|k|o a old]; try (inversion C; subst; elim N; reflexivity). destruct (infer o (map attr_of ds)) as [e|a'] eqn:I; [discriminate|]. intros H. injection H as <-. apply redo_new; assumption.
Qed.
Lemma cleaned_from n : (forall m, redone' n m <-> pre n = inr m) -> forall r, cleaned' n r <-> bu n = inr r.
Proof.
  intros K r. rewrite bu_pre. split.
  - intros Q. revert K. destruct Q as [n' m H N|n' m x t v H X]; intros K; apply K in H; rewrite H; [apply drop_keep, N|]. apply exported_ok in X. unfold drop. rewrite X. reflexivity.
  - destruct (pre n) as [e|m] eqn:P; [discriminate|]. pose proof (proj2 (K m) eq_refl) as P'. clear P. rename P' into P. unfold drop. destruct (exported m) as [[[x t] v]|] eqn:X; intros H; injection H as <-.
    + apply exported_ok in X. apply (clean_drop _ _ _ n m x t v P X).
    + constructor; [exact P|]. intros x t v H. apply exported_ok in H. congruence.
Qed.
Lemma cleaned_ok n : forall r, cleaned' n r <-> bu n = inr r.
Proof.
  induction n as [n IH] using node_rect'. apply cleaned_from, redone_from, cleaneds_of, IH.
Qed.
Lemma cleaneds_ok ds rs : cleaneds' ds rs <-> collect (map bu ds) = inr rs.
Proof. apply cleaneds_of. apply Forall_forall. intros d _. apply cleaned_ok. Qed.
Lemma redone_ok n m : redone' n m <-> pre n = inr m.
Proof. apply redone_from. intros rs. apply cleaneds_ok. Qed.
Lemma broken_ok n e : broken infer decay look_at n e <-> (exists ds, collect (map bu (deps n)) = inr ds) /\ pre n = inl e.
Proof.
  unfold pre. split.
  - intros [o a ds ds' e' C N I]. apply cleaneds_ok in C. cbn [deps]. rewrite C. split; [eauto|]. unfold reapply. cbn [deps]. destruct (list_eq_dec node_dec ds' ds); [contradiction|]. rewrite I. reflexivity.
  - intros ((ds & C) & H). rewrite C in H. apply cleaneds_ok in C. unfold reapply in H. destruct (list_eq_dec node_dec ds (deps n)) as [|N]; [discriminate|].
    destruct n as [v|k|k|o a old]; try discriminate. destruct (infer o (map attr_of ds)) as [e'|] eqn:I; [|discriminate]. injection H as <-. apply (brk _ _ _ o a old ds e' C N I).
Qed.
Lemma out_of_ok n t v : out_of n = [(t, v)] <-> exists m x, redone' n m /\ exports decay look_at m x t v.
Proof.
  unfold out_of. split.
  - destruct (pre n) as [e|m] eqn:P; [discriminate|]. destruct (exported m) as [[[x t'] v']|] eqn:X; [|discriminate]. intros H. injection H as -> ->. exists m, x. split; [apply redone_ok, P|apply exported_ok, X].
  - intros (m & x & P & X). apply redone_ok in P. apply exported_ok in X. rewrite P, X. reflexivity.
Qed.

(** ** The result *)
Lemma extract_ok root : exists res, extract infer decay look_at root = Some res /\
  match res with
  | inr (r, outs) => cleaned' root r /\ NoDup (map fst outs) /\ (forall t v, In (t, v) outs <-> exists n, output infer decay look_at root n t v) /\
      (forall n n' t v v', output infer decay look_at root n t v -> output infer decay look_at root n' t v' -> n = n')
  | inl (SErr e) => exists n, sub n root /\ broken infer decay look_at n e
  | inl (SDup t) => exists n n' v v', n <> n' /\ output infer decay look_at root n t v /\ output infer decay look_at root n' t v'
  end.
Proof.
  unfold extract. rewrite post_order_ok. cbn [bind]. unfold extract_po. cbn [p_nodes]. set (nodes := po root []).
  assert (O : ordered nodes) by apply (po_ordered root [] ordered_nil).
  destruct (side_loop_ok nodes O (length nodes) 0 [] eq_refl eq_refl eq_refl (NoDup_nil _)) as (res & Q & F). unfold state at 1 in Q. cbn [length firstn combine map app flat_map] in Q. rewrite Nat.sub_0_r in Q. rewrite Q. cbn [bind].
  assert (Sub : forall x, In x nodes <-> sub x root) by apply (po_root root).
  destruct res as [[e|t]|[results outs]]; cbn [fine] in F.
  - eexists. split; [reflexivity|]. cbn beta iota. destruct F as (n & ds & I & C & P). exists n. split; [apply Sub, I|]. apply broken_ok. eauto.
  - eexists. split; [reflexivity|]. cbn beta iota. destruct F as (i & j & n & n' & v & v' & N & Ei & Ej & O1 & O2). exists n, n', v, v'.
    assert (n <> n') by (intros <-; elim N; apply (proj1 (NoDup_nth_error nodes) (proj1 O)); [apply nth_error_Some; congruence|congruence]).
    split; [assumption|]. split; (split; [apply Sub; eapply nth_error_In; eassumption|apply out_of_ok; assumption]).
  - destruct F as (vs & C & -> & -> & N). destruct (po_last root) as (l & El). fold nodes in El.
    apply collect_inr in C. assert (Lv : length vs = length nodes) by (apply (f_equal (@length _)) in C; rewrite !map_length in C; lia).
    assert (Er : nth_error nodes (length nodes - 1) = Some root) by (rewrite El, app_length; cbn [length]; rewrite nth_error_app2 by lia; replace (_ - _) with 0 by lia; reflexivity).
    assert (L : length nodes - 1 < length nodes) by (apply nth_error_Some; congruence).
    destruct (nth_error vs (length nodes - 1)) as [r|] eqn:Ev; [|apply nth_error_None in Ev; lia].
    assert (B : bu root = inr r).
    { assert (X : nth_error (map bu nodes) (length nodes - 1) = Some (bu root)) by (rewrite nth_error_map, Er; reflexivity). rewrite C, nth_error_map, Ev in X. injection X as <-. reflexivity. }
    exists (inr (r, flat_map out_of nodes)). split.
    { unfold rd. rewrite (state_nth infer drop nodes vs _ root r Er Ev). cbn [bind]. unfold enc. cbn [fst snd]. destruct (node_spec r root) as [->|N']; [rewrite Er; reflexivity|reflexivity]. }
    cbn beta iota. split; [apply cleaned_ok, B|]. split; [exact N|].
    assert (A : forall n t v, In (t, v) (out_of n) <-> out_of n = [(t, v)]).
    { intros n t v. unfold out_of. destruct (pre n); [split; [contradiction|discriminate]|]. destruct (exported _) as [[[? ?] ?]|]; [|split; [contradiction|discriminate]]. cbn. split; [intros [->|[]]; reflexivity|intros H; injection H as -> ->; auto]. }
    split.
    + intros t v. rewrite in_flat_map. split.
      * intros (n & I & H). exists n. split; [apply Sub, I|]. apply out_of_ok, A, H.
      * intros (n & I & H). exists n. split; [apply Sub, I|]. apply A, out_of_ok, H.
    + intros n n' t v v' [I1 H1] [I2 H2]. apply out_of_ok in H1, H2. apply Sub in I1, I2. clear - N I1 I2 H1 H2. revert N. induction nodes as [|k nodes IH]; [contradiction|].
      cbn [flat_map]. rewrite map_app. intros N. assert (W : forall a b w, In b nodes -> out_of a = [(t, w)] -> (exists w', out_of b = [(t, w')]) -> k = a -> False).
      { intros a b w Ib Ha (w' & Hb) ->. rewrite Ha in N. cbn [map app fst] in N. inversion N as [|? ? N1 N2]; subst. apply N1. apply in_map_iff. exists (t, w'). split; [reflexivity|]. apply in_flat_map. exists b. split; [exact Ib|rewrite Hb; left; reflexivity]. }
      destruct I1 as [->|I1], I2 as [->|I2]; [reflexivity|exfalso; apply (W n n' v I2 H1 (ex_intro _ v' H2) eq_refl)|exfalso; apply (W n' n v' I1 H2 (ex_intro _ v H1) eq_refl)|].
      apply IH; auto. clear - N. induction (map fst (out_of k)) as [|y l IH]; [exact N|]. inversion N; auto.
Qed.
End Side.
