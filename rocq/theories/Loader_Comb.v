From Coq Require Import ZArith Permutation Lia.
From Verif Require Import Base Strings_Model Strings_Proofs Naming_Model Loader_Model Loader_Spec Loader_Proofs.
Local Open Scope nat_scope.
Local Open Scope list_scope.

Lemma NoDup_filter_map {A B} (g : A -> B) f l : NoDup (map g l) -> NoDup (map g (filter f l)).
Proof.
  induction l as [|x l IH]; [auto|]. cbn [map filter]. intros H. inversion H as [|? ? N1 N2]; subst. destruct (f x); cbn [map]; [|apply IH, N2]. constructor; [|apply IH, N2].
  intros K. apply N1. apply in_map_iff in K. destruct K as (y & <- & K). apply filter_In in K. apply in_map, K.
Qed.
Lemma proper_filter f s : proper s -> proper (filter f s).
Proof. intros (H1 & H2). split; apply NoDup_filter_map; assumption. Qed.
Lemma proper_perm s s' : Permutation s s' -> proper s -> proper s'.
Proof. intros P (H1 & H2). split; (eapply Permutation_NoDup; [apply Permutation_map, P|assumption]). Qed.
Lemma filter_part {A} (f : A -> bool) l : Permutation (filter f l ++ filter (fun x => negb (f x)) l) l.
Proof.
  induction l as [|x l IH]; [constructor|]. cbn [filter]. destruct (f x); cbn [negb app]; [constructor; exact IH|].
  etransitivity; [apply Permutation_sym, Permutation_middle|]. constructor. exact IH.
Qed.

Lemma lookup_erase {A} (l : hmap A) n k : str_eqb n k = false -> lookup (erase l n) k = lookup l k.
Proof.
  intros B. unfold lookup, erase. f_equal. induction l as [|(k', c) l0 IHl]; [reflexivity|]. cbn [filter find fst]. destruct (str_eqb k' n) eqn:B2; cbn [negb].
  - apply str_eqb_ok in B2. subst k'. rewrite B. exact IHl.
  - cbn [find fst]. destruct (str_eqb k' k); [reflexivity|exact IHl].
Qed.

Section Comb.
  Variable V : Type.
  Variable ord : forall A, hmap A -> hmap A.
  Hypothesis some : some_order ord.

  Section Input.
    Context {I : Type}.
    Implicit Types m : meaning V I.

    Lemma owning_ok (l : loader V I) m : implements ord l m -> implements ord (owning V ord I l) m.
    Proof. intros (G & B). apply (implements_intro V ord some); [exact G|]. intros s P _ F. apply B; assumption. Qed.
    Lemma filtering_ok (l : loader V I) m keep : implements ord l m -> implements ord (filtering V ord I l keep) (only m keep).
    Proof.
      intros (G & B). apply (implements_intro V ord some).
      - intros n. cbn. unfold only. destruct (keep n); [apply G|reflexivity].
      - intros s P _ F. assert (forall n sl, In (n, sl) s -> only m keep n = m n) as E.
        { intros n sl Hs. destruct (F n sl Hs) as (r & K). unfold only in *. destruct (keep n); [reflexivity|discriminate]. }
        destruct (proj1 (B s P)) as (b & Hb & L). { intros n sl Hs. rewrite <- (E _ _ Hs). apply F, Hs. }
        exists b. split; [exact Hb|]. eapply loads_ext; [|exact L]. intros n sl Hs. symmetry. apply (E _ _ Hs).
    Qed.

    (** ** Chains *)
    Lemma partial_ok (l : loader V I) m s : implements ord l m -> proper s ->
      partial_bind V ord I l s = (bind_loader V ord I l (filter (fun e => match m (fst e) with Some _ => true | None => false end) (ord _ s)),
                                  filter (fun e => match m (fst e) with Some _ => false | None => true end) s).
    Proof.
      intros (G & _) (P & _). unfold partial_bind. pose proof (extract_part ord some (get_type V I l) s P) as E1. pose proof (extract_rest ord some (get_type V I l) s P) as E2.
      destruct (extract_supported ord (get_type V I l) s) as (part, rest). cbn [fst snd] in *. subst. f_equal.
      - f_equal. apply filter_ext. intros (n, sl). cbn [fst]. rewrite G. destruct (m n) as [(t, r)|]; reflexivity.
      - apply filter_ext. intros (n, sl). cbn [fst]. rewrite G. destruct (m n) as [(t, r)|]; reflexivity.
    Qed.
    Lemma chain_loop ls ms : Forall2 (implements ord) ls ms -> forall s acc, proper s -> fits (first ms) s ->
      exists ss bs, bind_loop V ord I ls s acc = Some (acc ++ bs, []) /\ Forall2 (loads (first ms)) ss bs /\ Permutation (List.concat ss) s.
    Proof.
      intros H. induction H as [|l m ls ms Hl H IH]; intros s acc P F; cbn [bind_loop].
      - assert (s = []) as ->. { destruct s as [|(n, sl) s]; [reflexivity|]. destruct (F n sl (or_introl eq_refl)) as (r & K). discriminate. }
        exists [], []. rewrite app_nil_r. split; [reflexivity|]. split; constructor.
      - rewrite (partial_ok l m s Hl P).
        set (known := fun e : name * slot => match m (fst e) with Some _ => true | None => false end).
        assert (filter (fun e : name * slot => match m (fst e) with Some _ => false | None => true end) s = filter (fun e => negb (known e)) s) as Er.
        { apply filter_ext. intros (n, sl). unfold known. cbn [fst]. destruct (m n); reflexivity. }
        rewrite Er. set (part := filter known (ord slot s)). set (rest := filter (fun e => negb (known e)) s).
        assert (Permutation (ord slot s) s) as Po by apply some.
        assert (Permutation part (filter known s)) as Pp. { unfold part. clear -Po. induction Po; cbn [filter]; [constructor|destruct (known x); [constructor|]; assumption|destruct (known x), (known y); try reflexivity; apply perm_swap|etransitivity; eassumption]. }
        assert (forall n sl, In (n, sl) part -> first (m :: ms) n = m n /\ In (n, sl) s) as Ip.
        { intros n sl K. apply (Permutation_in _ Pp) in K. apply filter_In in K. destruct K as (K & Kn). unfold known in Kn. cbn in Kn. cbn [first]. destruct (m n); [auto|discriminate]. }
        assert (forall n sl, In (n, sl) rest -> first (m :: ms) n = first ms n /\ In (n, sl) s) as Ir.
        { intros n sl K. apply filter_In in K. destruct K as (K & Kn). unfold known in Kn. cbn in Kn. cbn [first]. destruct (m n); [discriminate|auto]. }
        destruct Hl as (G & B). destruct (proj1 (B part (proper_perm _ _ (Permutation_sym Pp) (proper_filter known s P)))) as (b & Hb & Lb).
        { intros n sl K. destruct (Ip _ _ K) as (<- & K2). apply F, K2. }
        rewrite Hb. cbn [bind].
        destruct (IH rest (if negb (List.length s =? List.length rest) then acc ++ [b] else acc)) as (ss & bs & E & L & Pc); [apply proper_filter, P|intros n sl K; destruct (Ir _ _ K) as (<- & K2); apply F, K2|].
        assert (Permutation (part ++ rest) s) as Pall. { etransitivity; [apply Permutation_app_tail, Pp|]. apply filter_part. }
        assert (Forall2 (loads (first (m :: ms))) ss bs) as L'.
        { assert (forall n sl, In (n, sl) (List.concat ss) -> first ms n = first (m :: ms) n) as K. { intros n sl Hs. apply (Permutation_in _ Pc) in Hs. symmetry. apply (Ir _ _ Hs). }
          clear -L K. induction L as [|s0 b0 ss bs H L IH]; constructor.
          - eapply loads_ext; [|exact H]. intros n sl Hs. apply (K n sl). cbn. apply in_or_app. left. exact Hs.
          - apply IH. intros n sl Hs. apply (K n sl). cbn. apply in_or_app. right. exact Hs. }
        rewrite E. pose proof (Permutation_length Pall) as Len. rewrite app_length in Len.
        destruct (Nat.eqb_spec (List.length s) (List.length rest)) as [El|Nl]; cbn [negb].
        + assert (part = []) as Ep by (destruct part; [reflexivity|cbn in Len; lia]). exists ss, bs. split; [reflexivity|]. split; [exact L'|]. rewrite Ep in Pall. cbn in Pall. etransitivity; [exact Pc|exact Pall].
        + exists (part :: ss), (b :: bs). split; [rewrite <- app_assoc; reflexivity|]. split.
          * constructor; [|exact L']. eapply loads_ext; [|exact Lb]. intros n sl K. symmetry. apply (Ip _ _ K).
          * cbn. etransitivity; [apply Permutation_app_head, Pc|exact Pall].
    Qed.
    Lemma concat_loads m ss bs s : Forall2 (loads m) ss bs -> Permutation (List.concat ss) s -> proper s -> loads m s (invoke_all V I bs).
    Proof.
      intros L P (_ & N). refine (loads_eq V m (List.concat ss) s (invoke_all V I bs) _ _ _ _); [|reflexivity|].
      - intros e. split; apply Permutation_in; [exact P|apply Permutation_sym, P].
      - apply loads_all; [exact L|]. eapply Permutation_NoDup; [apply Permutation_map, Permutation_sym, P|exact N].
    Qed.
    Lemma concat_bound m ss bs s : Forall2 (loads m) ss bs -> Permutation (List.concat ss) s -> proper s -> s <> [] -> exists b, bound_list V I bs = Some b /\ loads m s b.
    Proof.
      intros L P Pr N. pose proof (concat_loads m ss bs s L P Pr) as K. destruct bs as [|b bs].
      - inversion L; subst. cbn in P. apply Permutation_nil in P. contradiction.
      - apply bound_list_ok, K.
    Qed.
    Lemma chain_ok ls ms : Forall2 (implements ord) ls ms -> implements ord (chain V ord I ls) (first ms).
    Proof.
      intros H. apply (implements_intro V ord some).
      - intros n. cbn. clear some. induction H as [|l m ls ms Hl H IH]; cbn; [reflexivity|]. rewrite (proj1 Hl). destruct (m n) as [(t, r)|]; [reflexivity|exact IH].
      - intros s P N F. cbn. destruct (chain_loop ls ms H s [] P F) as (ss & bs & E & L & Pc). unfold bind_list. rewrite E. cbn [bind app]. apply (concat_bound _ ss); assumption.
    Qed.

    (** ** Accessors *)
    Lemma duplicated_ok (types : hmap typ) : validate_duplicated types = true <-> NoDup (map fst types).
    Proof.
      unfold validate_duplicated.
      set (step := fun (st : hmap nat * list name) (e : name * typ) =>
        let count := match lookup (fst st) (fst e) with Some c => c | None => 0 end in
        ((fst e, S count) :: erase (fst st) (fst e), if count =? 1 then snd st ++ [fst e] else snd st)).
      assert (forall (l done : hmap typ) (st : hmap nat * list name), (forall n, lookup (fst st) n = None <-> ~ In n (map fst done)) -> (forall n c, lookup (fst st) n = Some c -> c <> 0) ->
        NoDup (map fst done) -> snd st = [] -> (forall n c, lookup (fst st) n = Some c -> c = 1) ->
        (snd (fold_left step l st) = [] <-> NoDup (map fst (done ++ l)))) as K.
      { assert (forall (l : hmap typ) st, exists u, snd (fold_left step l st) = snd st ++ u) as Grow.
        { intros l. induction l as [|e l IH]; intros st; cbn [fold_left]; [exists []; symmetry; apply app_nil_r|]. destruct (IH (step st e)) as (u & ->). unfold step. cbn [snd].
          destruct (_ =? 1); [exists (fst e :: u); rewrite <- app_assoc; reflexivity|exists u; reflexivity]. }
        intros l. induction l as [|(n, t) l IH]; intros done st H1 H2 H3 H4 H5; cbn [fold_left]; [rewrite app_nil_r; tauto|].
        destruct (lookup (fst st) n) as [c|] eqn:L.
        - pose proof (H5 _ _ L) as ->. split; intros K; exfalso.
          + destruct (Grow l (step st (n, t))) as (u & E). rewrite E in K. unfold step in K. cbn [fst snd] in K. rewrite L in K. cbn in K. destruct (snd st); discriminate.
          + assert (In n (map fst done)) as Hn. { destruct (in_dec (list_eq_dec Z.eq_dec) n (map fst done)) as [|N]; [assumption|]. apply H1 in N. congruence. }
            rewrite map_app in K. cbn [map fst] in K. apply NoDup_remove_2 in K. apply K, in_or_app. left. exact Hn.
        - assert (~ In n (map fst done)) as Nn by (apply H1, L).
          assert (forall k, lookup (fst (step st (n, t))) k = if str_eqb n k then Some 1 else lookup (fst st) k) as Lk.
          { intros k. unfold step. cbn [fst snd]. rewrite L. unfold lookup at 1. cbn [find fst]. destruct (str_eqb n k) eqn:B; [reflexivity|].
            apply (lookup_erase _ _ _ B). }
          replace (done ++ (n, t) :: l) with ((done ++ [(n, t)]) ++ l) by (rewrite <- app_assoc; reflexivity). apply IH.
          + intros k. rewrite Lk, map_app, in_app_iff. cbn [map fst]. destruct (str_eqb n k) eqn:B.
            * apply str_eqb_ok in B. subst. split; [discriminate|]. intros K. exfalso. apply K. right. left. reflexivity.
            * rewrite H1. split; [|tauto]. intros K [K2|[->|[]]]; [tauto|]. assert (str_eqb k k = true) by (apply str_eqb_ok; reflexivity). congruence.
          + intros k c. rewrite Lk. destruct (str_eqb n k); [congruence|apply H2].
          + rewrite map_app. cbn [map fst]. eapply Permutation_NoDup; [apply Permutation_cons_append|]. constructor; assumption.
          + unfold step. cbn [fst snd]. rewrite L. exact H4.
          + intros k c. rewrite Lk. destruct (str_eqb n k); [congruence|apply H5]. }
      specialize (K types [] ([], [])). cbn [fst snd app] in K. rewrite <- K.
      - fold step. destruct (snd (fold_left step types ([], []))); split; congruence.
      - intros n. split; [intros _ []|reflexivity].
      - discriminate.
      - constructor.
      - reflexivity.
      - discriminate.
    Qed.
  End Input.
End Comb.
