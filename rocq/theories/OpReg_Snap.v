(** Snapshots of the overloads of a generic operator. *)
From Verif Require Import Base Strings_Model Strings_Spec Strings_Proofs Strings_Props OpReg_Model OpReg_Conc OpReg_Spec OpReg_Proofs OpReg_Seq OpReg_Decay OpReg_Thr.

Lemma in_namespace_ok ns n : in_namespace ns n = true <-> exists rest, n = ns ++ 46%Z :: rest.
Proof.
  unfold in_namespace. rewrite !andb_true_iff, Nat.ltb_lt, str_eqb_ok. split.
  - intros [[L E] D]. destruct (rd n (length ns)) as [c|] eqn:R; [|discriminate]. unfold ch_dot in D. apply Z.eqb_eq in D as ->. exists (skipn (S (length ns)) n). rewrite <- (firstn_skipn (length ns) n) at 1. rewrite <- E. f_equal. clear -R. unfold rd in R. revert n R. induction (length ns) as [|k IH]; intros [|y n] R; try discriminate; cbn in *; [congruence|apply IH, R].
  - intros (rest & ->). rewrite app_length. cbn [length]. split; [split; [lia|]|].
    + rewrite firstn_app, Nat.sub_diag, firstn_all. cbn. rewrite app_nil_r. reflexivity.
    + unfold rd. rewrite nth_error_app2, Nat.sub_diag by lia. reflexivity.
Qed.
Lemma in_namespace_encloses ns n : in_namespace ns n = true -> encloses ns n.
Proof. intros H. apply in_namespace_ok in H as (r & ->). right. right. eauto. Qed.

(** ** One thread *)
Definition names_kept (r r' : registry) : Prop := forall i x, rd (recs r) i = Some x -> exists x', rd (recs r') i = Some x' /\ r_name x' = r_name x.
Lemma nk_refl r : names_kept r r. Proof. intros i x H. eauto. Qed.
Lemma nk_trans a b c : names_kept a b -> names_kept b c -> names_kept a c.
Proof. intros H G i x R. destruct (H i x R) as (y & Ry & Ny). destruct (G i y Ry) as (z & Rz & Nz). exists z. split; [exact Rz|congruence]. Qed.
Lemma nk_grown r l q : grown (recs r) l -> names_kept r (mkRegistry l q).
Proof. intros G i x R. specialize (G i). rewrite R in G. destruct G as (y & Ry & Ny & _). eauto. Qed.
Lemma nk_changed r l q f : changed (recs r) l f -> names_kept r (mkRegistry l q).
Proof. intros C i x R. specialize (C i). rewrite R in C. eexists. split; [exact C|reflexivity]. Qed.
Lemma change_kept r i o x f r' : wf (recs r) -> rd (recs r) i = Some x -> length (r_name x) < f -> (let? r := store r i o in update_revisions f r i) = Some r' -> names_kept r r'.
Proof.
  intros W R L H. destruct (store_ok r i o x W R) as (l & E & C). rewrite E in H. cbn [bind] in H. pose proof (wf_changed _ _ _ W C) as W1. pose proof (C i) as Ci. rewrite R in Ci. destruct (update_revisions_ok f (mkRegistry l (listed r)) i _ W1 Ci) as (l2 & E2 & C2); [exact L|]. rewrite E2 in H. injection H as <-. eapply nk_trans; [eapply nk_changed, C|eapply (nk_changed (mkRegistry l (listed r))), C2].
Qed.
Lemma exec_kept r c r' a : wf (recs r) -> exec r c = Some (r', a) -> names_kept r r'.
Proof.
  intros W H. destruct c as [n o|n|n]; cbn [exec] in H.
  - unfold register in H. destruct (is_qualified n) eqn:Q; cbn [negb] in H; [|cbn in H; injection H as <- <-; apply nk_refl]. destruct (lookup_create_ok r n W) as [(_ & Nq & _)|(l & i & x & E & Wl & G & Rx & Nx)]; [congruence|]. rewrite E in H. cbn [bind] in H. eapply nk_trans; [eapply nk_grown, G|]. rewrite (impl_at_named (mkRegistry l (listed r)) i x Rx) in H. destruct (r_impl x); [cbn in H; injection H as <- <-; apply nk_refl|].
    pose proof (fun r' => change_kept (mkRegistry l (listed r)) i (Some o) x (S (length n)) r' Wl Rx ltac:(rewrite Nx; lia)) as Ch. destruct (store (mkRegistry l (listed r)) i (Some o)) as [r1|]; [|discriminate]. cbn [bind] in H, Ch. destruct (update_revisions (S (length n)) r1 i) as [r2|]; [|discriminate]. cbn [bind] in H. specialize (Ch r2 eq_refl). unfold append in H. cbn [recs] in H. destruct (rd (recs r2) i); [|discriminate]. cbn in H. injection H as <- <-. exact Ch.
  - unfold unregister in H. destruct (find_rec (recs r) n) as [i|] eqn:E; [|cbn in H; injection H as <- <-; apply nk_refl]. destruct (find_rec_Some _ _ _ E) as (x & Rx & Nx). rewrite (impl_at_named r i x Rx) in H. destruct (r_impl x); [|cbn in H; injection H as <- <-; apply nk_refl].
    pose proof (fun r' => change_kept r i None x (S (length n)) r' W Rx ltac:(rewrite Nx; lia)) as Ch. destruct (store r i None) as [r1|]; [|discriminate]. cbn [bind] in H, Ch. destruct (update_revisions (S (length n)) r1 i) as [r2|]; [|discriminate]. cbn [bind] in H. injection H as <- <-. exact (Ch r2 eq_refl).
  - destruct (lookup_create_ok r n W) as [(_ & _ & E)|(l & i & x & E & Wl & G & Rx & Nx)]; rewrite E in H; cbn in H; injection H as <- <-; [apply nk_refl|eapply nk_grown, G].
Qed.
Definition inside (ns : name) (x : name * op) : bool := enclosesb ns (fst x).
Lemma meaning_steps ns ops h c a ops' h' : meaning (ops, h) c a (ops', h') ->
  exists t, h' = h ++ t /\ (count_in ns t = 0 -> filter (inside ns) ops' = filter (inside ns) ops).
Proof.
  assert (One : forall n, count_in ns [n] = 0 -> enclosesb ns n = false) by (intros n; unfold count_in; cbn; destruct (enclosesb ns n); [discriminate|reflexivity]).
  inversion 1; subst; try (exists []; rewrite app_nil_r; auto; fail).
  - exists [n]. split; [reflexivity|]. intros C. rewrite filter_app. cbn [filter]. change (inside ns (n, o)) with (enclosesb ns n). rewrite (One n C). apply app_nil_r.
  - exists [n]. split; [reflexivity|]. intros C. apply One in C. clear -C. induction ops as [|[m o] ops IH]; [reflexivity|]. cbn [filter fst]. destruct (name_dec m n) as [->|N]; cbn [filter]; [change (inside ns (n, o)) with (enclosesb ns n); rewrite C; exact IH|]. destruct (inside ns (m, o)); rewrite IH; reflexivity.
Qed.
Lemma exec_many ns cs : forall r ops h r' as_, represents r ops h -> exec_all r cs = Some (r', as_) ->
  names_kept r r' /\ exists ops' t, represents r' ops' (h ++ t) /\ (count_in ns t = 0 -> filter (inside ns) ops' = filter (inside ns) ops).
Proof.
  induction cs as [|c cs IH]; intros r ops h r' as_ P H; cbn in H.
  - injection H as <- <-. split; [apply nk_refl|]. exists ops, []. rewrite app_nil_r. auto.
  - destruct (exec_ok r ops h c P) as (r1 & a & ops1 & h1 & E & M & P1). rewrite E in H. cbn [bind] in H. destruct (exec_all r1 cs) as [[r2 b]|] eqn:E2; [|discriminate]. cbn in H. injection H as <- <-. destruct (IH r1 ops1 h1 r2 b P1 E2) as (K & ops' & t & P2 & F2). destruct (meaning_steps ns _ _ _ _ _ _ M) as (t1 & -> & F1). split; [eapply nk_trans; [eapply exec_kept; [apply P|exact E]|exact K]|].
    exists ops', (t1 ++ t). rewrite app_assoc. split; [exact P2|]. intros C. unfold count_in in C. rewrite filter_app, app_length in C. rewrite F2, F1; [reflexivity| |]; unfold count_in; lia.
Qed.
Lemma find_op_inside ns ops n : enclosesb ns n = true -> find_op (filter (inside ns) ops) n = find_op ops n.
Proof.
  intros E. induction ops as [|[m o] ops IH]; [reflexivity|]. cbn [filter find_op]. change (inside ns (m, o)) with (enclosesb ns m). destruct (enclosesb ns m) eqn:Em; cbn [find_op]; destruct (name_dec m n) as [->|]; try reflexivity; try exact IH. congruence.
Qed.
Lemma visit_all_filter r ns l : visit_all r ns l = visit_all r ns (filter (enclosesb ns) l).
Proof.
  induction l as [|n l IH]; [reflexivity|]. cbn [visit_all filter]. destruct (enclosesb ns n) eqn:E; cbn [visit_all]; rewrite IH; [reflexivity|]. unfold visit. destruct (in_namespace ns n) eqn:N; [apply in_namespace_encloses, enclosesb_ok in N; congruence|]. cbn. destruct (visit_all r ns (filter (enclosesb ns) l)); reflexivity.
Qed.
Lemma filter_map_fst ns ops : filter (enclosesb ns) (map fst ops) = map fst (filter (inside ns) ops).
Proof. induction ops as [|[m o] ops IH]; [reflexivity|]. cbn [filter map fst]. change (inside ns (m, o)) with (enclosesb ns m). destruct (enclosesb ns m); cbn [map fst]; rewrite IH; reflexivity. Qed.
Lemma leads_through load load' P o x : through load P o -> (forall n, P n -> load' n = load n) -> leads load o x <-> leads load' o x.
Proof.
  intros T E. revert x. induction T as [o N|n Pn T IH]; intros x.
  - split; intros L; inversion L; subst; try (constructor; assumption); destruct (N n eq_refl).
  - split; intros L; inversion L as [o N|m y o' Ly Lx]; subst.
    + destruct (N n eq_refl).
    + econstructor; [rewrite E by exact Pn; exact Ly|]. apply (IH y Ly), Lx.
    + destruct (N n eq_refl).
    + rewrite E in Ly by exact Pn. econstructor; [exact Ly|]. apply (IH y Ly), Lx.
Qed.
Lemma visit_ok r ns n : exists l, visit r ns n = Some l /\ (in_namespace ns n = false \/ implementation r n = None -> l = []) /\ (in_namespace ns n = true -> implementation r n <> None -> (exists k, l = [k] /\ leads (implementation r) (Registered n) (Overload k)) \/ l = [] /\ forall k, ~ leads (implementation r) (Registered n) (Overload k)).
Proof.
  unfold visit. destruct (in_namespace ns n); cbn [negb]; [|exists []; split; [reflexivity|]; split; [reflexivity|discriminate]]. unfold lookup, implementation at 1 2. destruct (find_rec (recs r) n) as [i|] eqn:Ei; [|exists []; split; [reflexivity|]; split; [reflexivity|intros _ H; destruct (H eq_refl)]].
  destruct (impl_at r (Some i)) as [q|] eqn:Eq; [|exists []; split; [reflexivity|]; split; [reflexivity|intros _ H; destruct (H eq_refl)]]. destruct (decay_iff r (Registered n)) as (d & Ed & D1 & D2 & D3). rewrite Ed. cbn [bind]. eexists. split; [reflexivity|]. split; [intros [H|H]; discriminate|]. intros _ _. destruct d as [[j|j|m]|m|c].
  - right. split; [reflexivity|]. intros k L. apply D1 in L. discriminate.
  - left. exists j. split; [reflexivity|]. apply D1. reflexivity.
  - right. split; [reflexivity|]. intros k L. apply D1 in L. discriminate.
  - right. split; [reflexivity|]. intros k L. apply D1 in L. discriminate.
  - right. split; [reflexivity|]. intros k L. apply D1 in L. discriminate.
Qed.
Lemma visit_same r r' ns n : (in_namespace ns n = true -> (implementation r n = None <-> implementation r' n = None) /\ forall k, leads (implementation r) (Registered n) (Overload k) <-> leads (implementation r') (Registered n) (Overload k)) -> visit r ns n = visit r' ns n.
Proof.
  intros H. destruct (visit_ok r ns n) as (l & -> & A & B). destruct (visit_ok r' ns n) as (l' & -> & A' & B'). f_equal. destruct (in_namespace ns n); [|rewrite A, A' by auto; reflexivity]. destruct (H eq_refl) as [N L]. destruct (implementation r n) as [o|] eqn:E.
  - assert (E' : implementation r' n <> None) by (intros X; apply N in X; discriminate). destruct (B eq_refl ltac:(discriminate)) as [(k & -> & Lk)|[-> Nk]]; destruct (B' eq_refl E') as [(k' & -> & Lk')|[-> Nk']]; [|apply L in Lk; destruct (Nk' k Lk)|apply L in Lk'; destruct (Nk k' Lk')|reflexivity]. apply L in Lk. f_equal. pose proof (leads_fun _ _ _ Lk _ Lk'). congruence.
  - rewrite A, A' by (right; tauto). reflexivity.
Qed.
Lemma visit_all_same r r' ns l : (forall n, In n l -> visit r ns n = visit r' ns n) -> visit_all r ns l = visit_all r' ns l.
Proof. induction l as [|n l IH]; intros H; [reflexivity|]. cbn. rewrite (H n (or_introl eq_refl)), IH; [reflexivity|]. intros m I. apply H. right. exact I. Qed.
(** A snapshot that is served later is the one that would be built then. *)
Lemma snapshot_fresh ns g cs1 cs2 r1 r2 a1 a2 s : exec_all empty_registry cs1 = Some (r1, a1) -> exec_all r1 cs2 = Some (r2, a2) -> find_rec (recs r1) ns = Some g ->
  (forall n, In n (listed r1) -> in_namespace ns n = true -> through (implementation r1) (encloses ns) (Registered n)) ->
  build_snapshot r1 ns g = Some s -> get_snapshot r2 ns g (Some s) = build_snapshot r2 ns g /\ build_snapshot r2 ns g <> None.
Proof.
  intros E1 E2 Eg Th B. destruct (exec_all_ok cs1) as (r1' & a1' & ops1 & h1 & E1' & _ & P1). rewrite E1 in E1'. injection E1' as <- <-. destruct (exec_many ns cs2 r1 ops1 h1 r2 a2 P1 E2) as (K & ops2 & t & P2 & F).
  assert (Tot : forall r l, visit_all r ns l <> None). { intros r l. induction l as [|n l IH]; [discriminate|]. cbn. destruct (visit_ok r ns n) as (v & -> & _). cbn. destruct (visit_all r ns l); [discriminate|congruence]. }
  split; [|unfold build_snapshot; destruct (visit_all r2 ns (listed r2)) eqn:E; [discriminate|destruct (Tot _ _ E)]]. unfold get_snapshot. destruct (Nat.eqb_spec (s_rev s) (rev_at r2 (Some g))) as [Er|]; [|reflexivity]. unfold build_snapshot in *. destruct (visit_all r1 ns (listed r1)) as [l|] eqn:Ev; [|discriminate]. cbn [bind] in B. injection B as <-. cbn [s_rev] in Er.
  destruct (find_rec_Some _ _ _ Eg) as (x & Rx & Nx). destruct (K g x Rx) as (y & Ry & Ny). pose proof P1 as (W1 & Li1 & _ & V1 & _). pose proof P2 as (W2 & Li2 & _ & V2 & _). rewrite <- Er. cbn in Er. rewrite Rx, Ry in Er. rewrite (proj2 (V1 g x Rx)), (proj2 (V2 g y Ry)), Ny, Nx in Er. unfold count_in in Er at 2. rewrite filter_app, app_length in Er. assert (C : count_in ns t = 0) by (unfold count_in in *; lia). specialize (F C).
  assert (Imp : forall n, encloses ns n -> implementation r2 n = implementation r1 n). { intros n En. apply enclosesb_ok in En. rewrite (implementation_ok r1 ops1 h1 n P1), (implementation_ok r2 ops2 _ n P2), <- (find_op_inside ns ops1 n En), <- (find_op_inside ns ops2 n En), F. reflexivity. }
  rewrite visit_all_filter, Li2, filter_map_fst, F, <- filter_map_fst, <- Li1. rewrite visit_all_filter in Ev. rewrite <- (visit_all_same r1 r2), Ev; [reflexivity|]. intros n I. apply filter_In in I as [I En]. apply enclosesb_ok in En. apply visit_same. intros N. rewrite (Imp n En). split; [tauto|]. intros k. eapply leads_through; [apply Th; assumption|]. exact Imp.
Qed.
