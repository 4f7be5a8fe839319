From Coq Require Import ZArith Permutation Lia.
From Verif Require Import Base Strings_Model Strings_Proofs Naming_Model Loader_Model Loader_Spec.
Local Open Scope nat_scope.
Local Open Scope list_scope.

(** ** Maps *)
Lemma lookup_Some {A} (m : hmap A) n x : lookup m n = Some x -> In (n, x) m.
Proof.
  unfold lookup. destruct (find (fun e => str_eqb (fst e) n) m) as [(k, y)|] eqn:E; cbn [bind]; [|discriminate]. injection 1 as <-.
  apply find_some in E. destruct E as (E & K). cbn in K. apply str_eqb_ok in K. subst. exact E.
Qed.
Lemma lookup_None {A} (m : hmap A) n : lookup m n = None <-> ~ In n (map fst m).
Proof.
  unfold lookup. destruct (find (fun e => str_eqb (fst e) n) m) as [(k, y)|] eqn:E; cbn [bind].
  - apply find_some in E. destruct E as (E & K). cbn in K. apply str_eqb_ok in K. subst. split; [discriminate|]. intros H. exfalso. apply H. apply in_map_iff. exists (n, y). auto.
  - split; [|reflexivity]. intros _ H. apply in_map_iff in H. destruct H as ((k, y) & <- & H). pose proof (find_none _ _ E _ H) as K. cbn in K. assert (str_eqb k k = true) by (apply str_eqb_ok; reflexivity). cbn in *. congruence.
Qed.
Lemma lookup_In {A} (m : hmap A) n x : NoDup (map fst m) -> (lookup m n = Some x <-> In (n, x) m).
Proof.
  intros ND. split; [apply lookup_Some|]. intros H. destruct (lookup m n) as [y|] eqn:E.
  - apply lookup_Some in E. f_equal. clear -ND H E. induction m as [|(k, z) m IH]; [destruct H|]. cbn in ND. inversion ND as [|? ? N1 N2]; subst.
    destruct H as [H|H], E as [E|E].
    + congruence.
    + injection H as -> ->. exfalso. apply N1. apply in_map_iff. exists (n, y). auto.
    + injection E as -> ->. exfalso. apply N1. apply in_map_iff. exists (n, x). auto.
    + apply IH; assumption.
  - apply lookup_None in E. exfalso. apply E. apply in_map_iff. exists (n, x). auto.
Qed.
Lemma NoDup_fst_fun {A} (m : hmap A) n x y : NoDup (map fst m) -> In (n, x) m -> In (n, y) m -> x = y.
Proof. intros ND H1 H2. apply (lookup_In m n x ND) in H1. apply (lookup_In m n y ND) in H2. congruence. Qed.
Lemma emplace_new {A} (m : hmap A) n x : ~ In n (map fst m) -> emplace m n x = m ++ [(n, x)].
Proof. intros H. unfold emplace. rewrite (proj2 (lookup_None m n) H). reflexivity. Qed.
Lemma fold_and {A} (P : A -> bool) l b : fold_left (fun ok e => ok && P e) l b = b && forallb P l.
Proof. revert b. induction l as [|x l IH]; intros b; cbn; [symmetry; apply andb_true_r|]. rewrite IH. symmetry. apply andb_assoc. Qed.
Lemma fold_ext {A B} (f g : B -> A -> B) l b : (forall b x, f b x = g b x) -> fold_left f l b = fold_left g l b.
Proof. intros H. revert b. induction l as [|x l IH]; intros b; cbn; [reflexivity|]. rewrite H. apply IH. Qed.

Lemma filter_filter {A} (f g : A -> bool) l : filter f (filter g l) = filter (fun x => g x && f x) l.
Proof. induction l as [|x l IH]; [reflexivity|]. cbn [filter]. destruct (g x); cbn [filter andb]; [|exact IH]. destruct (f x); [f_equal|]; exact IH. Qed.

Section Proofs.
  Variable V : Type.
  Variable ord : forall A, hmap A -> hmap A.
  Hypothesis some : some_order ord.
  Lemma in_ord {A} (m : hmap A) e : In e (ord A m) <-> In e m.
  Proof. split; apply Permutation_in; [apply some|apply Permutation_sym, some]. Qed.
  Lemma nodup_ord {A} (m : hmap A) : NoDup (map fst m) -> NoDup (map fst (ord A m)).
  Proof. apply Permutation_NoDup. apply Permutation_map, Permutation_sym, some. Qed.

  (** ** Checking the slots *)
  Lemma qtypes_ok get names : match get_qtypes get names with
    | Some types => (forall n t, In (n, t) types -> get n = Some t) /\ (forall n, In n names -> In n (map fst types))
    | None => exists n, In n names /\ get n = None end.
  Proof.
    unfold get_qtypes.
    assert (forall names types unknown, (forall n t, In (n, t) types -> get n = Some t) ->
      let r := fold_left (qtypes_step get) names (types, unknown) in
      (forall n t, In (n, t) (fst r) -> get n = Some t) /\ (forall n, In n (map fst types) -> In n (map fst (fst r))) /\
      (exists u, snd r = unknown ++ u /\ (forall n, In n u -> In n names /\ get n = None) /\ (u = [] -> forall n, In n names -> In n (map fst (fst r))))) as K.
    { clear names. intros names. induction names as [|n names IH]; intros types unknown H; cbn [fold_left].
      - cbn. split; [exact H|]. split; [auto|]. exists []. rewrite app_nil_r. split; [reflexivity|]. split; [intros n []|intros _ n []].
      - unfold qtypes_step at 2 4 6 8. destruct (get n) as [t|] eqn:E; cbn [fst snd].
        + destruct (IH (emplace types n t) unknown) as (H1 & H2 & u & Eu & H3 & H4).
          { intros k q. unfold emplace. destruct (lookup types n); [apply H|]. rewrite in_app_iff. intros [K|[K|[]]]; [apply H, K|]. injection K as <- <-. exact E. }
          assert (forall k, In k (map fst types) \/ k = n -> In k (map fst (emplace types n t))) as Sub.
          { intros k Hk. unfold emplace. destruct (lookup types n) as [q|] eqn:L.
            - destruct Hk as [Hk| ->]; [exact Hk|]. apply in_map_iff. exists (n, q). split; [reflexivity|apply lookup_Some, L].
            - rewrite map_app, in_app_iff. cbn. destruct Hk as [Hk| ->]; auto. }
          split; [exact H1|]. split; [intros k Hk; apply H2, Sub; auto|]. exists u. split; [exact Eu|]. split; [intros k Hk; destruct (H3 k Hk); split; [right; assumption|assumption]|].
          intros Hu k [<-|Hk]; [apply H2, Sub; auto|apply H4; assumption].
        + destruct (IH types (unknown ++ [n]) H) as (H1 & H2 & u & Eu & H3 & H4). split; [exact H1|]. split; [exact H2|]. exists (n :: u).
          split; [refine (eq_trans Eu _); rewrite <- app_assoc; reflexivity|]. split; [|discriminate]. intros k [<-|Hk]; [split; [left; reflexivity|exact E]|]. destruct (H3 k Hk). split; [right; assumption|assumption]. }
    pose proof (K names [] []) as K0. cbn zeta in K0. destruct (fold_left (qtypes_step get) names ([], [])) as (types, unknown). cbn [fst snd] in K0.
    destruct K0 as (H1 & _ & u & Eu & H3 & H4); [intros n t []|]. cbn in Eu. subst u. destruct unknown as [|x u].
    - split; [exact H1|apply H4; reflexivity].
    - exists x. apply H3. left. reflexivity.
  Qed.
  Lemma validate_ok get s : NoDup (map fst s) -> validate_slot_types ord get s = Some tt <-> (forall n sl, In (n, sl) s -> get n = Some (sty sl)).
  Proof.
    intros ND. unfold validate_slot_types. pose proof (qtypes_ok get (map fst (ord _ s))) as Q. destruct (get_qtypes get (map fst (ord _ s))) as [types|]; cbn [bind].
    2: { destruct Q as (n & Hn & E). split; [discriminate|]. intros H. apply in_map_iff in Hn. destruct Hn as ((k, sl) & <- & Hs). apply (proj1 (in_ord _ _)) in Hs. pose proof (H _ _ Hs). cbn in E. congruence. }
    destruct Q as (Q1 & Q2).
    assert (guard (verify_slot_types ord types s true false) = Some tt <-> verify_slot_types ord types s true false = true) as -> by (destruct (verify_slot_types ord types s true false); cbn; split; congruence).
    unfold verify_slot_types. rewrite fold_and.
    rewrite (fold_ext _ (fun ok e => ok && match lookup s (fst e) with None => true | Some sl => sty sl =? snd e end)) by (intros b e; destruct (lookup s (fst e)); reflexivity).
    rewrite fold_and, andb_true_l, andb_true_iff, !forallb_forall. split.
    - intros (H1 & _) n sl Hs. assert (In n (map fst types)) as Hn. { apply Q2. apply in_map_iff. exists (n, sl). split; [reflexivity|apply (proj2 (in_ord _ _)), Hs]. }
      apply in_map_iff in Hn. destruct Hn as ((k, t) & <- & Ht). pose proof (H1 (k, t) (proj2 (in_ord types _) Ht)) as K. cbn [fst snd] in *.
      rewrite (proj2 (lookup_In s k sl ND) Hs) in K. apply Nat.eqb_eq in K. rewrite K. apply Q1, Ht.
    - intros H. split.
      + intros (n, t) Ht. apply (proj1 (in_ord _ _)) in Ht. cbn [fst snd]. destruct (lookup s n) as [sl|] eqn:L; [|reflexivity]. apply lookup_Some in L. apply Nat.eqb_eq.
        pose proof (H _ _ L). pose proof (Q1 _ _ Ht). congruence.
      + intros (n, sl) Hs. cbn [fst]. destruct (lookup types n) eqn:L; [reflexivity|]. apply lookup_None in L. exfalso. apply L, Q2. apply in_map_iff. exists (n, sl). split; [reflexivity|exact Hs].
  Qed.
  Lemma extract_part get s : NoDup (map fst s) -> fst (extract_supported ord get s) = filter (fun e => match get (fst e) with Some _ => true | None => false end) (ord _ s).
  Proof.
    intros ND. unfold extract_supported. cbn [fst]. pose proof (nodup_ord _ ND) as ND'. revert ND'. generalize (ord slot s). intros l ND'.
    assert (forall l p : slots, NoDup (map fst (p ++ l)) -> fold_left (fun p e => match get (fst e) with None => p | Some _ => emplace p (fst e) (snd e) end) l p =
      p ++ filter (fun e => match get (fst e) with Some _ => true | None => false end) l) as K; [|apply (K l []); exact ND'].
    clear. intros l. induction l as [|(n, sl) l IH]; intros p ND; cbn [fold_left filter fst snd]; [symmetry; apply app_nil_r|].
    assert (~ In n (map fst p) /\ NoDup (map fst ((p ++ [(n, sl)]) ++ l)) /\ NoDup (map fst (p ++ l))) as (N1 & N2 & N3).
    { rewrite map_app in ND. cbn [map fst] in ND. pose proof (NoDup_remove _ _ _ ND) as (R1 & R2). split; [intros K; apply R2; apply in_or_app; left; exact K|].
      split; [rewrite <- app_assoc; cbn; rewrite map_app; exact ND|rewrite map_app; exact R1]. }
    destruct (get n); [|apply IH, N3]. rewrite emplace_new by exact N1. rewrite IH by exact N2. rewrite <- app_assoc. reflexivity.
  Qed.
  Lemma extract_rest get s : NoDup (map fst s) -> snd (extract_supported ord get s) = filter (fun e => match get (fst e) with Some _ => false | None => true end) s.
  Proof.
    intros ND. pose proof (extract_part get s ND) as E. unfold extract_supported in *. cbn [fst snd] in *. rewrite E.
    set (part := filter _ (ord slot s)) in *.
    assert (forall (l : slots) (s : slots), fold_left (fun s e => erase s (fst e)) l s = filter (fun e => negb (existsb (fun x => str_eqb (fst e) (fst x)) l)) s) as K.
    { clear. intros l. induction l as [|(n, sl) l IH]; intros s; cbn [fold_left existsb fst].
      - induction s as [|e s IHs]; [reflexivity|]. cbn. f_equal. exact IHs.
      - rewrite IH. unfold erase. rewrite filter_filter. apply filter_ext. intros e. symmetry. apply negb_orb. }
    rewrite K. apply filter_ext_in. intros (n, sl) Hs. cbn [fst]. destruct (get n) as [t|] eqn:G.
    - apply negb_false_iff, existsb_exists. exists (n, sl). split; [|apply str_eqb_ok; reflexivity]. apply (proj2 (in_ord _ _)). unfold part. apply filter_In. split; [apply (proj2 (in_ord _ _)), Hs|]. cbn. rewrite G. reflexivity.
    - apply negb_true_iff. match goal with |- ?b = false => destruct b eqn:B; [|reflexivity] end. apply existsb_exists in B. destruct B as ((k, q) & B1 & B2). apply str_eqb_ok in B2. cbn in B2. subst k.
      apply (proj1 (in_ord _ _)) in B1. unfold part in B1. apply filter_In in B1. destruct B1 as (_ & B1). cbn in B1. rewrite G in B1. discriminate.
  Qed.

  (** ** Running *)
  Section Run.
    Context {I : Type}.
    Implicit Types m : meaning V I.
    Definition seqb (b1 b2 : bound V I) : bound V I := fun i f => let '(f, ok) := b1 i f in if ok then b2 i f else (f, false).
    Lemma loads_nil m : loads m [] (fun _ f => (f, true)).
    Proof. intros i f. exists f, true. split; [reflexivity|]. split; [reflexivity|]. split; [split; [intros _ n sl t r []|reflexivity]|intros _ n sl t r v []]. Qed.
    Lemma loads_eq m s s' b b' : (forall e, In e s <-> In e s') -> (forall i f, b i f = b' i f) -> loads m s b -> loads m s' b'.
    Proof.
      intros E Eb H i f. destruct (H i f) as (f' & ok & E1 & E2 & E3 & E4). exists f', ok. rewrite <- Eb. split; [exact E1|].
      split; [intros k Hk; apply E2; intros n sl Hs; apply (Hk n), E, Hs|]. split.
      - rewrite E3. split; intros K n sl t r Hs; apply K with (sl := sl), E, Hs.
      - intros Ok n sl t r v Hs. apply E4 with (n := n); [exact Ok|apply E, Hs].
    Qed.
    Lemma loads_ext m m' s b : (forall n sl, In (n, sl) s -> m n = m' n) -> loads m s b -> loads m' s b.
    Proof.
      intros E H i f. destruct (H i f) as (f' & ok & E1 & E2 & E3 & E4). exists f', ok. split; [exact E1|]. split; [exact E2|]. split.
      - rewrite E3. split; intros K n sl t r Hs Hm; apply (K n sl t r Hs); [rewrite (E _ _ Hs)|rewrite <- (E _ _ Hs)]; exact Hm.
      - intros Ok n sl t r v Hs Hm. apply (E4 Ok n sl t r v Hs). rewrite (E _ _ Hs). exact Hm.
    Qed.
    Lemma loads_app m s1 s2 b1 b2 : NoDup (map (fun e => sid (snd e)) (s1 ++ s2)) -> loads m s1 b1 -> loads m s2 b2 -> loads m (s1 ++ s2) (seqb b1 b2).
    Proof.
      intros ND H1 H2 i f. unfold seqb. destruct (H1 i f) as (f1 & ok1 & -> & A2 & A3 & A4). destruct ok1.
      - destruct (H2 i f1) as (f2 & ok2 & -> & B2 & B3 & B4). exists f2, ok2. split; [reflexivity|]. split; [|split].
        + intros k Hk. rewrite B2, A2; [reflexivity| |]; intros n sl Hs; apply (Hk n), in_or_app; auto.
        + rewrite B3. split; intros K n sl t r Hs; [|apply K with (sl := sl), in_or_app; right; exact Hs]. apply in_app_or in Hs. destruct Hs as [Hs|Hs]; [apply (proj1 A3 eq_refl n sl t r Hs)|apply (K n sl t r Hs)].
        + intros Ok n sl t r v Hs Hm Hr. apply in_app_or in Hs. destruct Hs as [Hs|Hs]; [|apply (B4 Ok n sl t r v Hs Hm Hr)].
          rewrite B2; [apply (A4 eq_refl n sl t r v Hs Hm Hr)|]. intros n' sl' Hs' E. rewrite map_app in ND.
          assert (In (sid sl) (map (fun e : name * slot => sid (snd e)) s1)) as I1 by (apply in_map_iff; exists (n, sl); auto).
          assert (In (sid sl) (map (fun e : name * slot => sid (snd e)) s2)) as I2 by (apply in_map_iff; exists (n', sl'); auto).
          revert I1 I2 ND. generalize (sid sl). generalize (map (fun e : name * slot => sid (snd e)) s1). generalize (map (fun e : name * slot => sid (snd e)) s2). clear.
          intros l2 l1 x I1 I2 ND. induction l1 as [|y l1 IH]; [destruct I1|]. cbn in ND. inversion ND as [|? ? N1 N2]; subst. destruct I1 as [->|I1]; [apply N1, in_or_app; right; exact I2|apply IH; assumption].
      - exists f1, false. split; [reflexivity|]. split; [|split].
        + intros k Hk. apply A2. intros n sl Hs. apply (Hk n), in_or_app; auto.
        + split; [discriminate|]. intros K. apply A3. intros n sl t r Hs. apply K with (sl := sl), in_or_app. left. exact Hs.
        + discriminate.
    Qed.
    Lemma loads_all m ss bs : Forall2 (loads m) ss bs -> NoDup (map (fun e => sid (snd e)) (List.concat ss)) -> loads m (List.concat ss) (invoke_all V I bs).
    Proof.
      intros H. induction H as [|s b ss bs Hs H IH]; intros ND; cbn [List.concat]; [exact (loads_nil m)|].
      refine (loads_eq _ (s ++ List.concat ss) _ (seqb b (invoke_all V I bs)) _ _ _ _); [reflexivity|reflexivity|]. cbn [List.concat] in ND.
      apply loads_app; [exact ND|exact Hs|]. apply IH. rewrite map_app in ND. clear -ND. induction (map (fun e : name * slot => sid (snd e)) s) as [|x l IHl]; [exact ND|]. apply IHl. cbn in ND. inversion ND. assumption.
    Qed.
    Lemma bound_list_ok m s b bs : loads m s (invoke_all V I (b :: bs)) -> exists b', bound_list V I (b :: bs) = Some b' /\ loads m s b'.
    Proof.
      intros H. destruct bs as [|b2 bs]; cbn [bound_list]; [|eauto]. exists b. split; [reflexivity|]. eapply loads_eq; [reflexivity| |exact H].
      intros i f. cbn [invoke_all]. destruct (b i f) as (f', ok). destruct ok; reflexivity.
    Qed.
    (** To implement a meaning it is enough to bind slots that fit. *)
    Lemma implements_intro (l : loader V I) m : (forall n, get_type V I l n = match m n with Some (t, _) => Some t | None => None end) ->
      (forall s, proper s -> s <> [] -> fits m s -> exists b, bind_impl V I l s = Some b /\ loads m s b) -> implements ord l m.
    Proof.
      intros G B. split; [exact G|]. intros s P. unfold bind_loader. pose proof (validate_ok (get_type V I l) s (proj1 P)) as VO.
      assert (fits m s <-> forall n sl, In (n, sl) s -> get_type V I l n = Some (sty sl)) as F.
      { split; intros H n sl Hs; pose proof (H n sl Hs) as K; rewrite ?G in *.
        - destruct K as (r & ->). reflexivity.
        - destruct (m n) as [(t, r)|]; [|discriminate]. injection K as ->. eauto. }
      split; intros H.
      - rewrite (proj2 VO (proj1 F H)). cbn [bind]. destruct s as [|e s]; [exists (fun _ f => (f, true)); split; [reflexivity|apply loads_nil]|]. apply B; [exact P|discriminate|exact H].
      - destruct (validate_slot_types ord (get_type V I l) s) as [[]|]; [|reflexivity]. exfalso. apply H, F, VO. reflexivity.
    Qed.
  End Run.
End Proofs.
