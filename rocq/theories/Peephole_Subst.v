(** Proofs about substitution into compiled patterns, and what they do to a node. *)
From Verif Require Import Base Visit_Model Visit_Spec Visit_Proofs VisitOrder_Proofs Peephole_Model Peephole_Spec Peephole_Proofs.

Lemma rds_app {T} (a b : list T) is args : rds a is = Some args -> rds (a ++ b) is = Some args.
Proof.
  revert args. induction is as [|i is IH]; intros args; cbn [rds]; [auto|]. unfold rd. destruct (nth_error a i) as [x|] eqn:Ex; cbn [bind]; [|discriminate].
  rewrite nth_error_app1 by (apply nth_error_Some; congruence). rewrite Ex. cbn [bind]. destruct (rds a is) as [r|]; cbn [bind]; [|discriminate]. rewrite (IH r eq_refl). auto.
Qed.
Section Subst.
Context {E : Type}.
Variable infer : nat -> list attr -> E + attr.
Variable s : list nat -> node.
Definition sv (n : node) (args : list (option node)) : perr E + option node :=
  match n with
  | Plh k => inr (Some (s k))
  | Op o _ ds => if existsb changed args then
                   match make_op (infer' infer) o (map (fun c => pick (fst c) (snd c)) (combine args ds)) with inl e => inl e | inr n' => inr (Some n') end
                 else inr None
  | _ => inr None
  end.
Notation bu := (bottom_up sv).
Definition preset (n : node) : option node := match n with Plh k => Some (s k) | _ => None end.
Definition sstate (nodes : list node) (rs : list (option node)) : list (option node) := rs ++ map preset (skipn (length rs) nodes).
Lemma sstate_cons nodes rs n : nth_error nodes (length rs) = Some n -> sstate nodes rs = rs ++ preset n :: map preset (skipn (S (length rs)) nodes).
Proof. intros H. unfold sstate. rewrite (skip_nth _ _ _ H). reflexivity. Qed.
Lemma sstate_snoc nodes rs n r : nth_error nodes (length rs) = Some n -> sstate nodes (rs ++ [r]) = rs ++ r :: map preset (skipn (S (length rs)) nodes).
Proof. intros H. unfold sstate. rewrite app_length. cbn [length]. rewrite Nat.add_1_r, <- app_assoc. reflexivity. Qed.
Lemma subst_step_ok nodes i n rs : ordered nodes -> nth_error nodes i = Some n -> length rs = i -> collect (map bu (firstn i nodes)) = inr rs ->
  subst_step infer (mkP nodes (adj_of nodes)) (sstate nodes rs) i = Some (match bu n with inl e => inl e | inr r => inr (sstate nodes (rs ++ [r])) end).
Proof.
  intros O En Li C. subst i. unfold subst_step. rewrite (sstate_cons nodes rs n En). unfold rd at 1. rewrite nth_error_app2 by lia. rewrite Nat.sub_diag. cbn [nth_error bind].
  destruct (rds_vals sv nodes (length rs) rs (deps n) (proj1 O) C (proj2 O _ n En)) as (args & A1 & A2). rewrite (bu_eq sv n), A2.
  destruct n as [v|k|k|o a ds]; cbn [preset sv].
  1,2: cbn [p_nodes]; unfold rd at 1; rewrite En; cbn [bind]; rewrite (dep_indices_ok nodes _ _ O En); cbn [bind deps map rds existsb]; rewrite (sstate_snoc _ _ _ _ En); reflexivity.
  1: rewrite (sstate_snoc _ _ _ _ En); reflexivity.
  cbn [p_nodes]. unfold rd at 1. rewrite En. cbn [bind]. rewrite (dep_indices_ok nodes _ _ O En). cbn [bind deps]. cbn [deps] in A1. rewrite (rds_app _ _ _ _ A1). cbn [bind].
  destruct (existsb changed args); [|rewrite (sstate_snoc _ _ _ _ En); reflexivity].
  destruct (make_op (infer' infer) o _) as [e|n']; [reflexivity|]. rewrite upd_mid by reflexivity. cbn [bind]. rewrite (sstate_snoc _ _ _ _ En). reflexivity.
Qed.
Lemma subst_loop_ok nodes : ordered nodes -> forall cnt i rs, i + cnt = length nodes -> length rs = i -> collect (map bu (firstn i nodes)) = inr rs ->
  subst_loop infer (mkP nodes (adj_of nodes)) (sstate nodes rs) i cnt = Some (collect (map bu nodes)).
Proof.
  intros O. induction cnt as [|cnt IH]; intros i rs L Li C.
  - cbn [subst_loop]. rewrite firstn_all2 in C by lia. rewrite C. unfold sstate. rewrite skipn_all2 by lia. cbn [map]. rewrite app_nil_r. reflexivity.
  - cbn [subst_loop]. destruct (nth_error nodes i) as [n|] eqn:En; [|apply nth_error_None in En; lia].
    rewrite (subst_step_ok nodes i n rs O En Li C). cbn [bind]. assert (C' : map bu (firstn (S i) nodes) = map bu (firstn i nodes) ++ [bu n]) by (rewrite (firstn_snoc nodes i n En), map_app; reflexivity).
    destruct (bu n) as [e|x] eqn:B.
    + rewrite <- (firstn_skipn (S i) nodes), map_app, C', !collect_app, C. cbn [collect]. reflexivity.
    + apply IH; [lia|rewrite app_length; cbn; lia|]. rewrite C', collect_app, C. reflexivity.
Qed.
Lemma substitute_ok to mp m : put_nodes_of m (repeat None (length (po to []))) mp = Some (map preset (po to [])) ->
  substitute infer (mkP (po to []) (adj_of (po to []))) mp m = Some (match bu to with inl e => inl e | inr (Some r) => inr r | inr None => inr to end).
Proof.
  intros Hp. unfold substitute. cbn [p_nodes]. rewrite Hp. cbn [bind]. set (nodes := po to []).
  assert (O : ordered nodes) by apply (po_ordered to [] ordered_nil).
  pose proof (subst_loop_ok nodes O (length nodes) 0 [] eq_refl eq_refl eq_refl) as Q. unfold sstate in Q. cbn [length skipn app] in Q. rewrite Q. cbn [bind].
  pose proof (first_err_po sv to [] eq_refl) as F. fold nodes in F. destruct (po_last to) as (l & El). fold nodes in El.
  destruct (collect (map bu nodes)) as [e|vs] eqn:C; cbn [err] in F; [destruct (bu to); [injection F as <-; reflexivity|discriminate]|].
  apply collect_inr in C. assert (Lv : length vs = length nodes) by (apply (f_equal (@length _)) in C; rewrite !map_length in C; lia).
  assert (Er : nth_error nodes (length nodes - 1) = Some to) by (rewrite El, app_length; cbn [length]; rewrite nth_error_app2 by lia; replace (_ - _) with 0 by lia; reflexivity).
  assert (L : length nodes - 1 < length nodes) by (apply nth_error_Some; congruence).
  destruct (nth_error vs (length nodes - 1)) as [r|] eqn:Ev; [|apply nth_error_None in Ev; lia].
  assert (B : bu to = inr r).
  { assert (X : nth_error (map bu nodes) (length nodes - 1) = Some (bu to)) by (rewrite nth_error_map, Er; reflexivity). rewrite C, nth_error_map, Ev in X. injection X as <-. reflexivity. }
  unfold rd. rewrite Ev, B, Er. cbn [bind]. destruct r; reflexivity.
Qed.

(** What the result is *)
Lemma has_dep n d : In d (deps n) -> has_placeholder d -> has_placeholder n.
Proof. intros H (k & S). exists k. apply (sub_dep _ n d H S). Qed.
Lemma no_plh_op o a ds : (forall d, In d ds -> ~ has_placeholder d) -> ~ has_placeholder (Op o a ds).
Proof. intros H (k & S). remember (Plh k) as p eqn:Ep. remember (Op o a ds) as n eqn:En. destruct S as [|n d Hd S]; [congruence|]. subst. apply (H d Hd). exists k. exact S. Qed.
Definition bu_good (n : node) : Prop :=
  match bu n with
  | inl e => exists e0, e = PErr e0 /\ fill_fails infer s n e0
  | inr (Some r) => has_placeholder n /\ filled infer s n r
  | inr None => ~ has_placeholder n
  end.
Lemma bu_good_all n : bu_good n.
Proof.
  induction n as [n IH] using node_rect'. unfold bu_good. rewrite (bu_eq sv n). destruct n as [v|k|k|o a ds]; cbn [deps map collect sv].
  1,2: intros (q & S); inversion S as [|? ? Hd]; destruct Hd.
  1: split; [exists k; constructor|constructor].
  cbn [deps] in IH.
  assert (K : match collect (map bu ds) with
    | inl e => exists pre pre' d post e0, ds = pre ++ d :: post /\ e = PErr e0 /\ Forall2 (filled infer s) pre pre' /\ fill_fails infer s d e0
    | inr args => Forall2 (filled infer s) ds (map (fun c => pick (fst c) (snd c)) (combine args ds)) /\ length args = length ds /\ (existsb changed args = true -> exists d, In d ds /\ has_placeholder d) /\
        (existsb changed args = false -> forall d, In d ds -> ~ has_placeholder d) end).
  { clear a o. induction ds as [|d ds IHd]; [cbn; repeat split; auto; discriminate|]. inversion IH as [|? ? G1 G2]; subst. specialize (IHd G2). cbn [map collect]. unfold bu_good in G1. destruct (bu d) as [e|r].
    - destruct G1 as (e0 & -> & F). exists [], [], d, ds, e0. repeat split; auto.
    - assert (Fd : filled infer s d (pick r d)) by (destruct r as [x|]; cbn [pick]; [apply G1|apply fill_none, G1]). destruct (collect (map bu ds)) as [e|args].
      + destruct IHd as (pre & pre' & d' & post & e0 & -> & -> & F1 & F2). exists (d :: pre), (pick r d :: pre'), d', post, e0. repeat split; auto.
      + destruct IHd as (F & L & H1 & H2). cbn [combine map fst snd length existsb]. split; [constructor; assumption|]. split; [f_equal; exact L|]. split.
        * rewrite orb_true_iff. intros [H|H]; [destruct r; [exists d; split; [left; reflexivity|apply G1]|discriminate]|]. destruct (H1 H) as (d' & I & Hp). exists d'. split; [right; exact I|exact Hp].
        * rewrite orb_false_iff. intros [H H'] d' [<-|I]; [destruct r; [discriminate|exact G1]|apply (H2 H' d' I)]. }
  destruct (collect (map bu ds)) as [e|args].
  - destruct K as (pre & pre' & d & post & e0 & -> & -> & F1 & F2). exists e0. split; [reflexivity|]. apply ff_arg with (pre' := pre'); assumption.
  - destruct K as (F & L & H1 & H2). destruct (existsb changed args) eqn:X.
    + destruct (H1 eq_refl) as (d & I & Hp). assert (P : has_placeholder (Op o a ds)) by apply (has_dep (Op o a ds) d I Hp).
      unfold make_op, infer'. destruct (infer o _) as [e|a'] eqn:Ei.
      * exists e. split; [reflexivity|]. apply ff_op with (ds' := map (fun c => pick (fst c) (snd c)) (combine args ds)); assumption.
      * split; [exact P|]. apply fill_op; assumption.
    + apply no_plh_op. apply (H2 eq_refl).
Qed.
End Subst.

Section Pattern.
Context {E : Type}.
Variable infer : nat -> list attr -> E + attr.
Variable dname : nat -> list nat.
Variable refop : nat -> option nat.

Lemma put_ok fps nodes (M : list node) (t : node -> node) : (forall k, In (Plh k) nodes -> exists j, find_fp fps (Plh k) = Some j /\ nth_error M j = Some (Plh k)) ->
  forall done acc, exists mp, map_placeholders (E := E) fps nodes (length done) acc = inr (acc ++ mp) /\
    put_nodes_of (filled_mem (map t M) 0) (done ++ repeat None (length nodes)) mp = Some (done ++ map (preset (fun k => t (Plh k))) nodes).
Proof.
  induction nodes as [|n nodes IH]; intros H done acc; [exists []; rewrite app_nil_r; auto|].
  assert (H' : forall k, In (Plh k) nodes -> exists j, find_fp fps (Plh k) = Some j /\ nth_error M j = Some (Plh k)) by (intros k I; apply H; right; exact I).
  destruct n as [v|k|k|o a ds].
  1,2,4: cbn [map_placeholders length repeat map preset]; match goal with |- context [None :: repeat None _] => idtac end;
    destruct (IH H' (done ++ [None]) acc) as (mp & E1 & E2); rewrite app_length in E1; cbn [length] in E1; rewrite Nat.add_1_r in E1; exists mp; split; [exact E1|]; rewrite <- !app_assoc in E2; exact E2.
  cbn [map_placeholders length repeat map preset]. destruct (H k (or_introl eq_refl)) as (j & -> & Ej).
  destruct (IH H' (done ++ [Some (t (Plh k))]) (acc ++ [(length done, j)])) as (mp & E1 & E2). rewrite app_length in E1. cbn [length] in E1. rewrite Nat.add_1_r in E1.
  exists ((length done, j) :: mp). split; [rewrite <- app_assoc in E1; exact E1|]. cbn [put_nodes_of]. rewrite (mem_at_filled _ _ j (t (Plh k))) by (rewrite nth_error_map, Ej; reflexivity). cbn [bind].
  rewrite upd_mid by reflexivity. cbn [bind]. rewrite <- !app_assoc in E2. exact E2.
Qed.

(** ** Verification *)
Lemma in_strs k l : existsb (str_eqb k) l = true <-> In k l.
Proof.
  rewrite existsb_exists. split; [intros (x & I & H); destruct (str_spec k x); [subst; exact I|discriminate]|]. intros I. exists k. split; [exact I|]. destruct (str_spec k k); congruence.
Qed.
Lemma unknown_spec known l : unknown known l = true <-> exists k, In k l /\ ~ In k known.
Proof.
  unfold unknown. rewrite existsb_exists. split; intros (k & I & H); exists k; (split; [exact I|]).
  - rewrite <- in_strs. apply negb_true_iff in H. congruence.
  - rewrite <- in_strs in H. apply negb_true_iff. destruct (existsb _ known); congruence.
Qed.
Lemma keys_of_conds cs : map fst (of_conds cs) = map fst cs.
Proof. unfold of_conds. rewrite map_map. reflexivity. Qed.
Lemma leaf_keys_ok n : exists l, get_keys leaf_key n = Some l /\ forall k, In k l <-> sub (Leaf k) n.
Proof.
  destruct (get_keys_ok leaf_key n leaf_fun leaf_one) as (l & E1 & _ & H). exists l. split; [exact E1|].
  intros k. rewrite H. split; [intros (m & S & K); destruct m; cbn in K; try contradiction; destruct K as [->|[]]; exact S|]. intros S. exists (Leaf k). split; [exact S|left; reflexivity].
Qed.
Lemma plh_keys_ok n : exists l, get_keys plh_key n = Some l /\ forall k, In k l <-> sub (Plh k) n.
Proof.
  destruct (get_keys_ok plh_key n plh_fun plh_one) as (l & E1 & _ & H). exists l. split; [exact E1|].
  intros k. rewrite H. split; [intros (m & S & K); destruct m; cbn in K; try contradiction; destruct K as [->|[]]; exact S|]. intros S. exists (Plh k). split; [exact S|left; reflexivity].
Qed.
Lemma verify_ok from to cs : exists r, verify (E := E) from to (of_conds cs) = Some r /\
  match r with
  | None => verified from to cs
  | Some PPlaceholder => exists k, from = Plh k
  | Some PLeaves => exists k, sub (Leaf k) from \/ sub (Leaf k) to
  | Some PToKeys => exists k, sub (Plh k) to /\ ~ sub (Plh k) from
  | Some PMatcherKeys => exists k c, In (k, c) cs /\ ~ sub (Plh k) from
  | Some _ => False
  end.
Proof.
  destruct (leaf_keys_ok from) as (lf & E1 & H1). destruct (leaf_keys_ok to) as (lt & E2 & H2). destruct (plh_keys_ok from) as (kf & E3 & H3). destruct (plh_keys_ok to) as (kt & E4 & H4).
  assert (Z : (exists k, from = Plh k) \/ forall k, from <> Plh k) by (destruct from; [right; discriminate|right; discriminate|left; eauto|right; discriminate]).
  destruct Z as [(k & ->)|Np]; [eexists; split; [reflexivity|]; exists k; reflexivity|].
  assert (V : verify (E := E) from to (of_conds cs) = match lf, lt with [], [] => if unknown kf kt then Some (Some PToKeys) else if unknown kf (map fst (of_conds cs)) then Some (Some PMatcherKeys) else Some None | _, _ => Some (Some PLeaves) end).
  { unfold verify. rewrite E1, E2, E3, E4. cbn [bind]. destruct from; try reflexivity. exfalso. apply (Np k). reflexivity. }
  rewrite V. destruct lf as [|k lf]; [|eexists; split; [reflexivity|]; exists k; left; apply H1; left; reflexivity]. destruct lt as [|k lt]; [|eexists; split; [reflexivity|]; exists k; right; apply H2; left; reflexivity].
  destruct (unknown kf kt) eqn:U1.
  - eexists. split; [reflexivity|]. apply unknown_spec in U1 as (k & I & N). exists k. rewrite <- H3, <- H4. auto.
  - destruct (unknown kf (map fst (of_conds cs))) eqn:U2; (eexists; split; [reflexivity|]).
    + apply unknown_spec in U2 as (k & I & N). rewrite keys_of_conds in I. apply in_map_iff in I as ([k' c] & <- & I). exists k', c. rewrite <- H3. auto.
    + split; [exact Np|]. split; [intros k H; apply (H1 k) in H; destruct H|]. split; [intros k H; apply (H2 k) in H; destruct H|]. split.
      * intros k S. apply H3. apply H4 in S. destruct (existsb (str_eqb k) kf) eqn:X; [apply in_strs, X|]. exfalso. rewrite (proj2 (unknown_spec kf kt)) in U1; [discriminate|]. exists k. split; [exact S|]. rewrite <- in_strs. congruence.
      * intros k c I. apply H3. destruct (existsb (str_eqb k) kf) eqn:X; [apply in_strs, X|]. exfalso. rewrite (proj2 (unknown_spec kf _)) in U2; [discriminate|]. exists k. rewrite keys_of_conds. split; [apply (in_map fst _ _ I)|]. rewrite <- in_strs. congruence.
Qed.

(** ** References *)
Lemma resolve_ok n : match rewritten (infer' infer) (resolve_node refop) n with
  | inr n' => renamed infer refop n n'
  | inl e => exists e0, e = PErr e0
  end.
Proof.
  unfold rewritten. induction n as [n IH] using node_rect'. rewrite (bu_eq _ n).
  destruct n as [v|k|k|o a ds]; cbn [deps map collect].
  1,2,3: unfold reapply; cbn [deps]; match goal with |- context [list_eq_dec ?a ?b ?c] => destruct (list_eq_dec a b c) end; cbn; constructor; reflexivity.
  cbn [deps] in IH.
  assert (K : match collect (map (bottom_up (reapply (infer' infer) (resolve_node refop))) ds) with inl e => exists e0, e = PErr e0 | inr ds' => Forall2 (renamed infer refop) ds ds' end).
  { clear o a. induction ds as [|d ds IHd]; [constructor|]. inversion IH as [|? ? G1 G2]; subst. specialize (IHd G2). cbn [map collect]. destruct (bottom_up _ d) as [e|r]; [exact G1|].
    destruct (collect (map _ ds)) as [e|rs]; [exact IHd|]. constructor; assumption. }
  destruct (collect (map _ ds)) as [e|ds']; [exact K|]. unfold reapply. cbn [deps].
  destruct (list_eq_dec node_dec ds' ds) as [->|N].
  - cbn [resolve_node]. destruct (refop o) as [r|] eqn:Ro; [apply (ren_ref infer refop o r); assumption|apply ren_same; assumption].
  - unfold infer' at 1. destruct (infer o (map attr_of ds')) as [e|b] eqn:Ei; [eauto|]. cbn [resolve_node]. destruct (refop o) as [r|] eqn:Ro; [apply (ren_ref infer refop o r); assumption|apply ren_infer; assumption].
Qed.
Lemma renamed_inv o a ds n' : renamed infer refop (Op o a ds) n' -> exists o' a' ds', n' = Op o' a' ds' /\ Forall2 (renamed infer refop) ds ds' /\ (o' = o \/ refop o = Some o').
Proof. intros R. inversion R as [n H|? r ? ? ds' H F|? ? ? H F|? ? ? a' ds' H F N I]; subst; [discriminate| | |]; do 3 eexists; split; eauto. Qed.
Lemma renamed_plh n n' : renamed infer refop n n' -> forall k, sub (Plh k) n' <-> sub (Plh k) n.
Proof.
  revert n'. induction n as [n IH] using node_rect'. intros n' R k. assert (Z : is_op n = false \/ exists o a ds, n = Op o a ds) by (destruct n; eauto).
  destruct Z as [Z|(o & a & ds & ->)]; [inversion R; subst; try discriminate; tauto|]. apply renamed_inv in R as (o' & a' & ds' & -> & F & _). cbn [deps] in IH.
  assert (K : (exists d, In d ds' /\ sub (Plh k) d) <-> exists d, In d ds /\ sub (Plh k) d).
  { clear o a o' a'. induction F as [|d d' ds ds' Rd F IHf]; [split; intros (? & [] & _)|]. inversion IH as [|? ? G1 G2]; subst. specialize (IHf G2). specialize (G1 d' Rd k).
    split; intros (x & [<-|I] & S).
    - exists d. split; [left; reflexivity|]. apply G1, S.
    - destruct (proj1 IHf (ex_intro _ x (conj I S))) as (y & Iy & Sy). exists y. split; [right; exact Iy|exact Sy].
    - exists d'. split; [left; reflexivity|]. apply G1, S.
    - destruct (proj2 IHf (ex_intro _ x (conj I S))) as (y & Iy & Sy). exists y. split; [right; exact Iy|exact Sy]. }
  split; intros S; inversion S as [|m d Hd Sd]; subst.
  - destruct (proj1 K (ex_intro _ d (conj Hd Sd))) as (y & Iy & Sy). apply (sub_dep _ (Op o a ds) y Iy Sy).
  - destruct (proj2 K (ex_intro _ d (conj Hd Sd))) as (y & Iy & Sy). apply (sub_dep _ (Op _ a' ds') y Iy Sy).
Qed.

(** ** Compiled patterns *)
Lemma compile_ok from to cs : NoDup (map fst cs) -> exists r, compile infer dname refop from to (of_conds cs) = Some r /\
  match r with
  | inr c => verified from to cs /\ exists to', rewritten (infer' infer) (resolve_node refop) to = inr to' /\ renamed infer refop to to' /\
               forall root, exists r, apply_pattern infer dname c root = Some r /\ pattern_result infer dname cs from to' root r
  | inl PPlaceholder => exists k, from = Plh k
  | inl PLeaves => exists k, sub (Leaf k) from \/ sub (Leaf k) to
  | inl PToKeys => exists k, sub (Plh k) to /\ ~ sub (Plh k) from
  | inl PMatcherKeys => exists k c, In (k, c) cs /\ ~ sub (Plh k) from
  | inl (PErr e) => rewritten (infer' infer) (resolve_node refop) to = inl (PErr e)
  | inl _ => False
  end.
Proof.
  intros Nd. unfold compile. destruct (verify_ok from to cs) as (v & -> & Hv). cbn [bind]. destruct v as [e|]; [eexists; split; [reflexivity|]; destruct e; exact Hv || contradiction|].
  pose proof Hv as (Np & Nl & Nt & Hk & Hc).
  destruct (compile_loop_ok (E := E) dname from cs Nd Nl (size from) _ 0 (inv_init dname from cs)) as (st & -> & V); [unfold weight; cbn [c_mem skipn map list_sum fold_right]; lia|]. cbn [bind].
  unfold resolve. rewrite transform_ok. cbn [bind]. pose proof (resolve_ok to) as Hr. destruct (rewritten (infer' infer) (resolve_node refop) to) as [e|to'] eqn:Er.
  { destruct Hr as (e0 & ->). eexists. split; [reflexivity|]. reflexivity. }
  rewrite post_order_ok. cbn [bind p_nodes].
  assert (Hp : forall k, In (Plh k) (po to' []) -> exists j, find_fp (c_fps st) (Plh k) = Some j /\ nth_error (c_mem st) j = Some (Plh k)).
  { intros k I. apply po_root, (renamed_plh to to' Hr), Hk in I. destruct (in_mem dname from cs st V _ I) as (j & F). exists j. split; [|apply F]. apply (v_fps _ _ _ _ _ V). split; [exact F|]. apply nth_error_Some. destruct F. congruence. }
  destruct (put_ok (c_fps st) (po to' []) (c_mem st) (fun n => n) Hp [] []) as (mp & E1 & _). cbn [length app] in E1. rewrite E1. eexists. split; [reflexivity|]. split; [exact Hv|]. exists to'. split; [reflexivity|]. split; [exact Hr|].
  intros root. unfold apply_pattern. cbn [cp_plan cp_to cp_map]. destruct (match_ok (E := E) dname from root cs st V) as (r & Em & Hm). cbv zeta in Em. rewrite Em. cbn [bind]. destruct r as [m|].
  2:{ eexists. split; [reflexivity|]. right. auto. }
  destruct Hm as (t & Ht & ->). destruct (put_ok (c_fps st) (po to' []) (c_mem st) t Hp [] []) as (mp' & E1' & E2'). cbn [length app] in E1', E2'. rewrite E1 in E1'. injection E1' as <-.
  rewrite (substitute_ok infer (fun k => t (Plh k)) to' mp _ E2'). eexists. split; [reflexivity|]. pose proof (bu_good_all infer (fun k => t (Plh k)) to') as G. unfold bu_good in G.
  destruct (bottom_up _ to') as [e|[r|]].
  - destruct G as (e0 & -> & F). exists t. auto.
  - left. exists t. split; [exact Ht|apply G].
  - left. exists t. split; [exact Ht|]. apply fill_none, G.
Qed.

(** ** Instances *)
Lemma stands_instance cs t from root : stands dname cs t from root -> forall p, sub p from -> instance dname (fun k => t (Plh k)) p (t p).
Proof.
  intros [_ Hs] p. induction p as [p IH] using node_rect'. intros S. pose proof (Hs p S) as H. destruct p as [v|k|k|o a ds].
  - rewrite H. constructor.
  - contradiction.
  - apply (inst_plh dname (fun k => t (Plh k)) k).
  - destruct H as (o' & a' & -> & Hn). constructor; [exact Hn|]. cbn [deps] in IH. assert (Sd : forall d, In d ds -> sub d from) by (intros d I; apply (sub_trans d (Op o a ds)); [apply (sub_dep _ (Op o a ds) d I); constructor|exact S]).
    clear - IH Sd. induction IH as [|d ds H F IHf]; constructor; [apply H, Sd; left; reflexivity|]. apply IHf. intros x I. apply Sd. right. exact I.
Qed.
Section Back.
Variables (s : list nat -> node) (root : node).
Hypothesis One : one_op_per_name dname root.
Fixpoint meant (p : node) : node :=
  match p with
  | Plh k => s k
  | Op o a ds => let xs := map meant ds in
                 match find (fun m => match m with Op o' _ ds' => str_eqb (dname o') (dname o) && leqb node_eqb ds' xs | _ => false end) (po root []) with Some m => m | None => p end
  | _ => p
  end.
Lemma meant_ok p : forall n, instance dname s p n -> sub n root -> meant p = n.
Proof.
  induction p as [p IH] using node_rect'. intros n I S. destruct I as [v|k|o a ds o' a' ds' Hn F]; [reflexivity|reflexivity|]. cbn [deps] in IH. cbn [meant].
  assert (X : map meant ds = ds').
  { assert (Sd : forall d, In d ds' -> sub d root) by (intros d I; apply (sub_trans d (Op o' a' ds')); [apply (sub_dep _ (Op o' a' ds') d I); constructor|exact S]).
    clear - IH F Sd. induction F as [|d d' ds ds' H F IHf]; [reflexivity|]. inversion IH as [|? ? G1 G2]; subst. cbn [map]. rewrite (G1 d' H (Sd d' (or_introl eq_refl))). f_equal. apply IHf; [exact G2|]. intros x Ix. apply Sd. right. exact Ix. }
  rewrite X. destruct (find _ (po root [])) as [m|] eqn:Fd.
  - apply find_some in Fd as [I H]. apply po_root in I. destruct m as [v|v|v|o1 a1 ds1]; try discriminate. apply andb_true_iff in H as [H1 H2]. apply nodes_eq in H2. subst ds1.
    destruct (str_spec (dname o1) (dname o)) as [H|]; [|discriminate]. apply (One o1 a1 o' a' ds' I S). congruence.
  - exfalso. apply find_none with (x := Op o' a' ds') in Fd; [|apply po_root, S]. cbn beta iota in Fd. destruct (str_spec (dname o') (dname o)); [|contradiction]. cbn [andb] in Fd. rewrite (proj2 (nodes_eq ds' ds') eq_refl) in Fd. discriminate.
Qed.
Lemma instance_stands cs from : (forall k, ~ sub (Leaf k) from) -> instance dname s from root -> (forall k c, In (k, c) cs -> c (s k) = true) -> stands dname cs meant from root.
Proof.
  intros Nl I Hc. split; [apply (meant_ok from root I); constructor|].
  assert (K : forall p q, sub p q -> forall n, instance dname s q n -> sub n root -> exists n', instance dname s p n' /\ sub n' root).
  { intros p q S. induction S as [|q d Hd S IH]; [eauto|]. intros n Hi Sn. destruct Hi as [v|k|o a ds o' a' ds' Hn F]; try contradiction. cbn [deps] in Hd.
    assert (Z : exists d', In d' ds' /\ instance dname s d d') by (clear - F Hd; induction F as [|x y l l' H F IHf]; [contradiction|]; destruct Hd as [->|Hd]; [exists y; split; [left; reflexivity|exact H]|]; destruct (IHf Hd) as (d' & A & B); exists d'; split; [right; exact A|exact B]).
    destruct Z as (d' & A & B). apply (IH d' B). apply (sub_trans d' (Op o' a' ds')); [apply (sub_dep _ (Op o' a' ds') d' A); constructor|exact Sn]. }
  intros p S. destruct (K p from S root I (sub_refl root)) as (n & Hi & Sn). pose proof (meant_ok p n Hi Sn) as Ep. destruct p as [v|k|k|o a ds].
  - reflexivity.
  - apply (Nl k S).
  - intros c Ic. apply Hc, Ic.
  - rewrite Ep. clear Ep. inversion Hi as [| |? ? ? o' a' ds' Hn F]; subst. exists o', a'. split; [|exact Hn]. f_equal.
    assert (Sd : forall d, In d ds' -> sub d root) by (intros d Id; apply (sub_trans d (Op o' a' ds')); [apply (sub_dep d (Op o' a' ds') d Id); constructor|exact Sn]).
    clear - F Sd One. induction F as [|d d' ds ds' H F IHf]; [reflexivity|]. cbn [map]. rewrite (meant_ok d d' H (Sd d' (or_introl eq_refl))). f_equal. apply IHf. intros x Ix. apply Sd. right. exact Ix.
Qed.
End Back.
End Pattern.
