(** One thread: registering, unregistering, acquiring. *)
From Verif Require Import Base Strings_Model Strings_Spec Strings_Proofs Strings_Props OpReg_Model OpReg_Conc OpReg_Spec OpReg_Proofs.

Definition known (l : list record) (n : name) : Prop := exists i x, rd l i = Some x /\ r_name x = n.
Definition represents (r : registry) (ops : list (name * op)) (h : list name) : Prop :=
  wf (recs r) /\ listed r = map fst ops /\ NoDup (map fst ops) /\
  (forall i x, rd (recs r) i = Some x -> r_impl x = find_op ops (r_name x) /\ r_rev x = count_in (r_name x) h) /\
  forall n, In n (map fst ops) \/ In n h -> known (recs r) n.
Lemma find_op_None ops n : find_op ops n = None <-> ~ In n (map fst ops).
Proof.
  induction ops as [|[m o] ops IH]; cbn; [tauto|]. destruct (name_dec m n) as [->|N]; [split; [discriminate|tauto]|]. rewrite IH. tauto.
Qed.
Lemma find_op_app ops n m o : find_op (ops ++ [(n, o)]) m = match find_op ops m with Some x => Some x | None => if name_dec n m then Some o else None end.
Proof. induction ops as [|[k x] ops IH]; cbn; [reflexivity|]. destruct (name_dec k m); [reflexivity|exact IH]. Qed.
Lemma find_op_filter ops n m : find_op (filter (fun x => if name_dec (fst x) n then false else true) ops) m = if name_dec m n then None else find_op ops m.
Proof.
  induction ops as [|[k x] ops IH]; cbn; [destruct (name_dec m n); reflexivity|]. destruct (name_dec k n) as [->|N]; cbn.
  - rewrite IH. destruct (name_dec m n) as [->|Nm]; [reflexivity|]. destruct (name_dec n m); [congruence|reflexivity].
  - rewrite IH. destruct (name_dec k m) as [->|Nk]; [destruct (name_dec m n); [congruence|reflexivity]|reflexivity].
Qed.
Lemma count_in_app m h n : count_in m (h ++ [n]) = count_in m h + one (enclosesb m n).
Proof. unfold count_in. rewrite filter_app, app_length. cbn. destruct (enclosesb m n); reflexivity. Qed.
Lemma count_in_0 m h : (forall n, In n h -> ~ encloses m n) -> count_in m h = 0.
Proof.
  intros H. unfold count_in. induction h as [|n h IH]; [reflexivity|]. cbn. destruct (enclosesb m n) eqn:E; [apply enclosesb_ok in E; destruct (H n (or_introl eq_refl) E)|]. apply IH. intros k Hk. apply H. right. exact Hk.
Qed.
Lemma known_grown l l' n : grown l l' -> known l n -> known l' n.
Proof. intros G (i & x & R & N). specialize (G i). rewrite R in G. destruct G as (x' & R' & N' & _). exists i, x'. split; [exact R'|congruence]. Qed.
Lemma known_changed l l' f n : changed l l' f -> known l n -> known l' n.
Proof. intros C (i & x & R & N). specialize (C i). rewrite R in C. eexists i, _. split; [exact C|exact N]. Qed.
Lemma known_up l m n : wf l -> known l n -> encloses m n -> known l m.
Proof. intros W (i & x & R & <-) E. destruct (ancestors l W (length (r_name x)) i x m (Nat.le_refl _) R E) as (j & y & Ry & Ny). exists j, y. auto. Qed.
Lemma find_rec_known l n : find_rec l n <> None <-> known l n.
Proof.
  split.
  - intros H. destruct (find_rec l n) as [i|] eqn:E; [|congruence]. destruct (find_rec_Some _ _ _ E) as (x & R & N). exists i, x. auto.
  - intros (i & x & R & N) E. eapply find_rec_None; eauto.
Qed.
Lemma represents_init : represents empty_registry [] [].
Proof.
  split; [apply wf_init|]. split; [reflexivity|]. split; [constructor|]. split; [|intros n [[]|[]]]. intros i x H. pose proof (rd_Some_lt _ _ _ H) as Hi. cbn in Hi. assert (i = 0) as -> by lia. injection H as <-. auto.
Qed.
Lemma represents_grown r l ops h : represents r ops h -> wf l -> grown (recs r) l -> represents (mkRegistry l (listed r)) ops h.
Proof.
  intros (W & Li & Nd & V & Kn) W' G. split; [exact W'|]. split; [exact Li|]. split; [exact Nd|]. split; [|intros n H; cbn; eapply known_grown; [exact G|apply Kn, H]]. cbn. intros i x' H. specialize (G i). destruct (rd (recs r) i) as [x|] eqn:E.
  - destruct G as (x2 & R2 & N & Rv & Im). assert (x2 = x') as -> by congruence. destruct (V i x E) as [V1 V2]. rewrite N, Rv, Im. auto.
  - destruct (G x' H) as (Rv & Im & New). assert (Nk : ~ known (recs r) (r_name x')) by (intros (j & y & Ry & Ny); eapply New; eauto). rewrite Rv, Im. split.
    + symmetry. apply find_op_None. intros I. apply Nk, Kn. left. exact I.
    + symmetry. apply count_in_0. intros n I En. apply Nk. eapply known_up; [exact W|apply Kn; right; exact I|exact En].
Qed.
Lemma implementation_ok r ops h n : represents r ops h -> implementation r n = find_op ops n.
Proof.
  intros (W & Li & Nd & V & Kn). unfold implementation. destruct (find_rec (recs r) n) as [i|] eqn:E; cbn.
  - destruct (find_rec_Some _ _ _ E) as (x & R & N). rewrite R. destruct (V i x R) as [-> _]. rewrite N. reflexivity.
  - symmetry. apply find_op_None. intros I. pose proof (proj2 (find_rec_known _ _) (Kn n (or_introl I))). congruence.
Qed.
Lemma filter_id {A} (f : A -> bool) l : (forall x, In x l -> f x = true) -> filter f l = l.
Proof. induction l as [|x l IH]; intros H; [reflexivity|]. cbn. rewrite (H x (or_introl eq_refl)), IH; [reflexivity|]. intros y Hy. apply H. right. exact Hy. Qed.
Lemma erase_map ops n : filter (fun m => negb (str_eqb m n)) (map fst ops) = map fst (filter (fun x : name * op => if name_dec (fst x) n then false else true) ops).
Proof.
  induction ops as [|[m o] ops IH]; [reflexivity|]. cbn. destruct (name_dec m n) as [->|N]; [rewrite str_refl; exact IH|]. rewrite str_neq by exact N. cbn. rewrite IH. reflexivity.
Qed.
Lemma change_ok r ops h i x o : represents r ops h -> rd (recs r) i = Some x ->
  exists l, (let? r := store r i o in update_revisions (S (length (r_name x))) r i) = Some (mkRegistry l (listed r)) /\ wf l /\ known l (r_name x) /\
    (forall n, known (recs r) n -> known l n) /\ (exists y, rd l i = Some y /\ r_name y = r_name x) /\
    forall j y, rd l j = Some y -> (r_impl y = if name_dec (r_name y) (r_name x) then o else find_op ops (r_name y)) /\ r_rev y = count_in (r_name y) (h ++ [r_name x]).
Proof.
  intros (W & Li & Nd & V & Kn) R. destruct (store_ok r i o x W R) as (l1 & -> & C1). cbn [bind]. pose proof (wf_changed _ _ _ W C1) as W1. pose proof (C1 i) as Ci. rewrite R in Ci.
  destruct (update_revisions_ok (S (length (r_name x))) (mkRegistry l1 (listed r)) i _ W1 Ci) as (l2 & -> & C2); [cbn; lia|]. exists l2. pose proof (wf_changed _ _ _ W1 C2) as W2. split; [reflexivity|]. split; [exact W2|]. cbn [r_name recs] in *.
  split; [eapply known_changed; [exact C2|]; eapply known_changed; [exact C1|]; exists i, x; auto|]. split; [intros n K; eapply known_changed; [exact C2|]; eapply known_changed; [exact C1|exact K]|].
  split; [specialize (C2 i); rewrite Ci in C2; eexists; split; [exact C2|reflexivity]|].
  intros j y Hy. specialize (C1 j). specialize (C2 j). destruct (rd (recs r) j) as [z|] eqn:Ez; [|rewrite C1 in C2; congruence]. rewrite C1 in C2. rewrite C2 in Hy. injection Hy as <-. cbn. destruct (V j z Ez) as [V1 V2]. rewrite count_in_app, V1, V2. auto.
Qed.
Lemma register_ok r ops h n o : represents r ops h ->
  exists r' a ops' h', exec r (CRegister n o) = Some (r', a) /\ meaning (ops, h) (CRegister n o) a (ops', h') /\ represents r' ops' h'.
Proof.
  intros P. cbn [exec]. unfold register. destruct (is_qualified n) eqn:Q; cbn [negb].
  2: { exists r, (ARegistered (inl InvalidName)), ops, h. split; [reflexivity|]. split; [|exact P]. constructor. intros H. apply C27_qualified in H. congruence. }
  apply C27_qualified in Q as Q'. destruct P as (W & P). destruct (lookup_create_ok r n W) as [(_ & Nq & _)|(l & i & x & -> & Wl & G & Rx & Nx)]; [congruence|]. pose proof (represents_grown r l ops h (conj W P) Wl G) as P1. clear P G W. cbn [bind impl_at]. cbn [recs].
  rewrite Rx. pose proof P1 as (_ & Li & Nd & V & Kn). cbn [recs listed] in *. destruct (V i x Rx) as [Im _]. rewrite Im, Nx. destruct (find_op ops n) as [q|] eqn:Ef.
  - eexists _, _, ops, h. split; [reflexivity|]. split; [|exact P1]. constructor; [exact Q'|congruence].
  - destruct (change_ok _ ops h i x (Some o) P1 Rx) as (l2 & E2 & W2 & K2 & K3 & (y & Ry & Ny) & V2). rewrite Nx in *. cbn [recs listed] in *. destruct (store (mkRegistry l (listed r)) i (Some o)) as [r1|]; [|discriminate E2]. cbn [bind] in E2 |- *. rewrite E2. cbn [bind append recs listed]. rewrite Ry. cbn [bind]. rewrite Ny. eexists _, _, (ops ++ [(n, o)]), (h ++ [n]). split; [reflexivity|].
    split; [constructor; assumption|]. split; [exact W2|]. cbn. rewrite Li, map_app. split; [reflexivity|]. split.
    + apply find_op_None in Ef. clear -Nd Ef. induction (map fst ops) as [|a t IH]; cbn; [repeat constructor; tauto|]. inversion Nd; subst. constructor; [rewrite in_app_iff; cbn; intros [I|[->|[]]]; [tauto|apply Ef; left; reflexivity]|]. apply IH; [assumption|]. intros I. apply Ef. right. exact I.
    + split.
      * intros j z Hz. destruct (V2 j z Hz) as [-> ->]. split; [|reflexivity]. rewrite find_op_app. destruct (name_dec (r_name z) n) as [->|Nz]; [rewrite Ef; destruct (name_dec n n); congruence|]. destruct (find_op ops (r_name z)); [reflexivity|]. destruct (name_dec n (r_name z)); [congruence|reflexivity].
      * intros m. rewrite !in_app_iff. cbn. intros [[I|[<-|[]]]|[I|[<-|[]]]]; try exact K2; apply K3, Kn; auto.
Qed.
Lemma unregister_ok r ops h n : represents r ops h ->
  exists r' a ops' h', exec r (CUnregister n) = Some (r', a) /\ meaning (ops, h) (CUnregister n) a (ops', h') /\ represents r' ops' h'.
Proof.
  intros P. pose proof P as (W & Li & Nd & V & Kn). cbn [exec]. unfold unregister. pose proof (implementation_ok r ops h n P) as Im. unfold implementation in Im. destruct (find_rec (recs r) n) as [i|] eqn:E.
  2: { exists r, ANothing, ops, h. split; [reflexivity|]. split; [constructor; symmetry; exact Im|exact P]. }
  rewrite Im. destruct (find_op ops n) as [o|] eqn:Ef.
  2: { exists r, ANothing, ops, h. split; [reflexivity|]. split; [constructor; exact Ef|exact P]. }
  destruct (find_rec_Some _ _ _ E) as (x & Rx & Nx). destruct (change_ok _ ops h i x None P Rx) as (l2 & E2 & W2 & K2 & K3 & _ & V2). rewrite Nx in *. destruct (store r i None) as [r1|]; [|discriminate E2]. cbn [bind] in E2 |- *. rewrite E2. cbn [bind]. eexists _, _, _, _. split; [reflexivity|].
  split; [apply MUnregister; congruence|]. split; [exact W2|]. cbn. rewrite Li, erase_map. split; [reflexivity|]. split; [|split].
  - rewrite <- erase_map. apply NoDup_filter, Nd.
  - intros j z Hz. destruct (V2 j z Hz) as [-> ->]. rewrite find_op_filter. auto.
  - intros m. rewrite <- erase_map, filter_In, in_app_iff. cbn. intros [[I _]|[I|[<-|[]]]]; try exact K2; apply K3, Kn; auto.
Qed.
Lemma acquire_ok r ops h n : represents r ops h -> exists r' a ops' h', exec r (CAcquire n) = Some (r', a) /\ meaning (ops, h) (CAcquire n) a (ops', h') /\ represents r' ops' h'.
Proof.
  intros P. cbn [exec]. destruct P as (W & P). destruct (lookup_create_ok r n W) as [(_ & _ & ->)|(l & i & x & -> & Wl & G & _)]; cbn [bind]; eexists _, _, ops, h; (split; [reflexivity|]; split; [constructor|]); [split; assumption|apply represents_grown; [split; assumption|exact Wl|exact G]].
Qed.
Lemma exec_ok r ops h c : represents r ops h -> exists r' a ops' h', exec r c = Some (r', a) /\ meaning (ops, h) c a (ops', h') /\ represents r' ops' h'.
Proof. destruct c; intros; [apply register_ok|apply unregister_ok|apply acquire_ok]; assumption. Qed.
Lemma exec_snoc r cs : forall c, exec_all r (cs ++ [c]) = match exec_all r cs with Some (r1, b) => match exec r1 c with Some (r2, a) => Some (r2, b ++ [a]) | None => None end | None => None end.
Proof.
  revert r. induction cs as [|c0 cs IH]; intros r c; cbn.
  - destruct (exec r c) as [[r1 a]|]; reflexivity.
  - destruct (exec r c0) as [[r1 a]|]; cbn; [|reflexivity]. rewrite IH. destruct (exec_all r1 cs) as [[r2 b]|]; cbn; [|reflexivity]. destruct (exec r2 c) as [[r3 d]|]; reflexivity.
Qed.
Lemma exec_all_ok cs : exists r as_ ops h, exec_all empty_registry cs = Some (r, as_) /\ history cs as_ (ops, h) /\ represents r ops h.
Proof.
  induction cs as [|c cs (r & as_ & ops & h & E & Hi & P)] using rev_ind; [exists empty_registry, [], [], []; split; [reflexivity|]; split; [constructor|apply represents_init]|]. destruct (exec_ok r ops h c P) as (r' & a & ops' & h' & E' & M & P'). exists r', (as_ ++ [a]), ops', h'. rewrite exec_snoc, E, E'. split; [reflexivity|]. split; [eapply HCons; eassumption|exact P'].
Qed.
Lemma meaning_det d c a1 d1 a2 d2 : meaning d c a1 d1 -> meaning d c a2 d2 -> a1 = a2 /\ d1 = d2.
Proof. intros H1 H2. inversion H1; subst; inversion H2; subst; try (split; reflexivity); contradiction. Qed.
Lemma history_det cs a1 d1 : history cs a1 d1 -> forall a2 d2, history cs a2 d2 -> a1 = a2 /\ d1 = d2.
Proof.
  induction 1 as [|cs as1 d c a d' H1 IH M]; intros a2 d2 H2.
  - inversion H2; [auto|]. destruct cs; discriminate.
  - inversion H2 as [E|cs2 as2 d0 c2 a0 d0' H3 M3 E Ea Ed]; [destruct cs; discriminate|]. apply app_inj_tail in E as [-> ->]. subst. destruct (IH _ _ H3) as [-> ->]. destruct (meaning_det _ _ _ _ _ _ M M3) as [-> ->]. auto.
Qed.
(** The whole story for one thread. *)
Lemma sequential cs : exists r as_ ops h, exec_all empty_registry cs = Some (r, as_) /\ history cs as_ (ops, h) /\
  (forall a d, history cs a d -> a = as_ /\ d = (ops, h)) /\ listed r = map fst ops /\ NoDup (listed r) /\
  (forall n, implementation r n = find_op ops n) /\
  (forall n, match lookup r n with Some i => find_op ops n <> None /\ exists x, rd (recs r) i = Some x /\ r_name x = n | None => find_op ops n = None end) /\
  (forall n, match find_rec (recs r) n with Some i => rev_at r (Some i) = count_in n h | None => count_in n h = 0 end).
Proof.
  destruct (exec_all_ok cs) as (r & as_ & ops & h & E & Hi & P). exists r, as_, ops, h. split; [exact E|]. split; [exact Hi|]. split; [intros a d Hd; destruct (history_det _ _ _ Hi _ _ Hd); auto|]. pose proof P as (W & Li & Nd & V & Kn). split; [exact Li|]. split; [rewrite Li; exact Nd|]. split; [intros n; eapply implementation_ok, P|]. split.
  - intros n. unfold lookup. pose proof (implementation_ok r ops h n P) as Im. unfold implementation in Im. destruct (find_rec (recs r) n) as [i|] eqn:Ef; [|symmetry; exact Im]. rewrite Im. destruct (find_op ops n) eqn:Eo; [|reflexivity]. split; [discriminate|]. apply find_rec_Some, Ef.
  - intros n. destruct (find_rec (recs r) n) as [i|] eqn:Ef.
    + destruct (find_rec_Some _ _ _ Ef) as (x & Rx & Nx). cbn. rewrite Rx. destruct (V i x Rx) as [_ ->]. rewrite Nx. reflexivity.
    + apply count_in_0. intros m I En. apply (proj2 (find_rec_known (recs r) n)); [|exact Ef]. eapply known_up; [exact W|apply Kn; right; exact I|exact En].
Qed.
