From Coq Require Import ZArith Permutation Lia.
From Verif Require Import Base Strings_Model Strings_Proofs Naming_Model Naming_Proofs Loader_Model Loader_Spec Loader_Proofs Loader_Comb.
Local Open Scope nat_scope.
Local Open Scope list_scope.

Lemma consume_prefix_ok n prefix : match consume_prefix n prefix with Some d => n = prefix ++ d | None => forall d, n <> prefix ++ d end.
Proof.
  unfold consume_prefix, starts_with. destruct (str_eqb _ _) eqn:E.
  - apply str_eqb_ok in E. rewrite <- E at 1. symmetry. apply firstn_skipn.
  - intros d ->. rewrite firstn_app, firstn_all, Nat.sub_diag in E. cbn in E. rewrite app_nil_r in E. rewrite (proj2 (str_eqb_ok prefix prefix) eq_refl) in E. discriminate.
Qed.
Lemma consume_prefix_app prefix d : consume_prefix (prefix ++ d) prefix = Some d.
Proof. pose proof (consume_prefix_ok (prefix ++ d) prefix) as H. destruct (consume_prefix (prefix ++ d) prefix) as [x|]; [apply app_inv_head in H; congruence|]. exfalso. apply (H d eq_refl). Qed.
Lemma name_to_key_ok prefix suffix n k : name_to_key prefix suffix n = Some k <-> n = prefix ++ k ++ suffix.
Proof.
  unfold name_to_key. pose proof (consume_prefix_ok n prefix) as P. destruct (consume_prefix n prefix) as [r|].
  - subst. pose proof (suffix_ok r suffix) as S. destruct (consume_suffix r suffix) as (x, b). destruct b.
    + subst. split; [injection 1 as ->; reflexivity|]. intros E. apply app_inv_head, app_inv_tail in E. rewrite E; reflexivity.
    + split; [discriminate|]. intros E. apply app_inv_head in E. destruct S as (_ & S). exfalso. apply (S k E).
  - split; [discriminate|]. intros E. exfalso. apply (P _ E).
Qed.

Section Keys.
  Variable V : Type.
  Variable ord : forall A, hmap A -> hmap A.
  Hypothesis some : some_order ord.

  Section Input.
    Context {I : Type}.
    Implicit Types m : meaning V I.

    Lemma loads_one m n sl t r (b : bound V I) : m n = Some (t, r) -> (forall i f, b i f = match r i with Some v => (set V f (sid sl) v, true) | None => (f, false) end) -> loads m [(n, sl)] b.
    Proof.
      intros M E i f. rewrite E. destruct (r i) as [v|] eqn:R.
      - exists (set V f (sid sl) v), true. split; [reflexivity|]. split; [|split].
        + intros k K. unfold set. destruct (Nat.eqb_spec k (sid sl)) as [->|]; [|reflexivity]. exfalso. apply (K n sl (or_introl eq_refl) eq_refl).
        + split; [|reflexivity]. intros _ n' sl' t' r' [[= <- <-]|[]] M'. rewrite M in M'. injection M' as <- <-. congruence.
        + intros _ n' sl' t' r' v' [[= <- <-]|[]] M' R'. rewrite M in M'. injection M' as <- <-. unfold set. rewrite Nat.eqb_refl. congruence.
      - exists f, false. split; [reflexivity|]. split; [reflexivity|]. split; [|discriminate]. split; [discriminate|]. intros K. exfalso. apply (K n sl t r (or_introl eq_refl) M R).
    Qed.

    (** ** Accessors *)
    Let sl_of (s : slots) (a : accessor V I) : slots := match lookup s (a_name V I a) with Some sl => [(a_name V I a, sl)] | None => [] end.
    Lemma setters_ok m accs s : of_accessors accs m -> forall accs', incl accs' accs -> (forall n sl, In (n, sl) s -> exists r, m n = Some (sty sl, r)) -> exists gs,
      build_setters V I (map (fun e => lookup s (fst e)) (accessor_types V I accs')) accs' = Some gs /\
      Forall2 (loads m) (map (sl_of s) accs') (map (fun (g : I -> frame V -> frame V) i f => (g i f, true)) gs).
    Proof.
      intros (M & _) accs'. induction accs' as [|a accs' IH]; intros Inc F; [exists []; split; [reflexivity|constructor]|].
      destruct (IH (fun x Hx => Inc x (or_intror Hx)) F) as (gs & E & L). unfold accessor_types in E. cbn [map accessor_types build_setters fst]. rewrite E.
      pose proof (M a (Inc a (or_introl eq_refl))) as Ma. unfold sl_of at 1. unfold build_setter. destruct (lookup s (a_name V I a)) as [sl|] eqn:Lk.
      - destruct (F _ _ (lookup_Some _ _ _ Lk)) as (r & Fr). rewrite Ma in Fr. injection Fr as Et _. rewrite Et, Nat.eqb_refl. cbn [bind].
        eexists. split; [reflexivity|]. cbn [map]. constructor; [|exact L]. eapply loads_one; [exact Ma|]. reflexivity.
      - cbn [bind]. eexists. split; [reflexivity|]. cbn [map]. constructor; [|exact L]. apply loads_nil.
    Qed.
    Lemma run_setters (gs : list (I -> frame V -> frame V)) i f : (fold_left (fun f g => g i f) gs f, true) = invoke_all V I (map (fun g i f => (g i f, true)) gs) i f.
    Proof. revert f. induction gs as [|g gs IH]; intros f; [reflexivity|]. cbn [fold_left map invoke_all]. apply IH. Qed.
    Lemma accessors_types_names accs : map fst (accessor_types V I accs) = map (a_name V I) accs.
    Proof. unfold accessor_types. rewrite map_map. reflexivity. Qed.
    Lemma accessors_ok (accs : list (accessor V I)) m : of_accessors accs m -> NoDup (map (a_name V I) accs) -> exists l, accessors_loader V I accs = Some l /\ implements ord l m /\ suggest V I l = map (a_name V I) accs.
    Proof.
      intros M ND. unfold accessors_loader. rewrite (proj2 (duplicated_ok _)); [|rewrite accessors_types_names; exact ND].
      eexists. split; [reflexivity|]. split; [|apply accessors_types_names]. apply (implements_intro V ord some).
      - intros n. cbn. destruct (lookup (accessor_types V I accs) n) as [t|] eqn:E.
        + apply lookup_Some in E. apply in_map_iff in E. destruct E as (a & [= <- <-] & Ha). rewrite (proj1 M a Ha). reflexivity.
        + rewrite (proj2 M); [reflexivity|]. apply lookup_None in E. rewrite accessors_types_names in E. intros a Ha <-. apply E, in_map, Ha.
      - intros s P _ F. cbn.
        assert (maybe_find_slots (accessor_types V I accs) s = Some (map (fun e => lookup s (fst e)) (accessor_types V I accs))) as ->.
        { unfold maybe_find_slots. match goal with |- (if ?c then _ else _) = _ => enough (c = true) as -> by reflexivity end. apply forallb_forall. intros (n, t) Hn. cbn [fst snd]. destruct (lookup s n) as [sl|] eqn:Lk; [|reflexivity].
          apply lookup_Some in Lk. destruct (F _ _ Lk) as (r & Fr). apply in_map_iff in Hn. destruct Hn as (a & [= <- <-] & Ha). rewrite (proj1 M a Ha) in Fr. injection Fr as -> _. apply Nat.eqb_refl. }
        cbn [bind]. destruct (setters_ok m accs s M accs (incl_refl _) F) as (gs & -> & L). cbn [bind]. eexists. split; [reflexivity|].
        refine (loads_eq V m s s (invoke_all V I (map (fun g i f => (g i f, true)) gs)) _ _ _ _); [reflexivity|intros i f; symmetry; apply run_setters|].
        apply (concat_loads V m (map (sl_of s) accs)); [exact L| |exact P]. apply NoDup_Permutation.
        + apply (NoDup_map_inv fst). clear -ND. induction accs as [|a accs IH]; [constructor|]. cbn [map] in ND. inversion ND as [|? ? N1 N2]; subst. cbn [map List.concat]. unfold sl_of at 1.
          destruct (lookup s (a_name V I a)); [|apply IH, N2]. cbn [app map fst]. constructor; [|apply IH, N2]. intros K. apply N1. apply in_map_iff in K. destruct K as ((n, sl) & E & K). cbn in E. subst.
          apply in_concat in K. destruct K as (x & K & Kx). apply in_map_iff in K. destruct K as (a' & <- & Ha). unfold sl_of in Kx. destruct (lookup s (a_name V I a')); [destruct Kx as [[= Ex _]|[]]|destruct Kx]. rewrite <- Ex. apply in_map, Ha.
        + apply (NoDup_map_inv fst), P.
        + intros (n, sl). rewrite in_concat. split.
          * intros (x & K & Kx). apply in_map_iff in K. destruct K as (a & <- & Ha). unfold sl_of in Kx. destruct (lookup s (a_name V I a)) eqn:Lk; [destruct Kx as [[= <- <-]|[]]|destruct Kx]. apply lookup_Some, Lk.
          * intros K. destruct (F _ _ K) as (r & Fr). destruct (in_dec (list_eq_dec Z.eq_dec) n (map (a_name V I) accs)) as [Hn|Hn].
            -- apply in_map_iff in Hn. destruct Hn as (a & <- & Ha). exists (sl_of s a). split; [apply in_map, Ha|]. unfold sl_of. rewrite (proj2 (lookup_In s _ sl (proj1 P)) K). left. reflexivity.
            -- rewrite (proj2 M) in Fr; [discriminate|]. intros a Ha <-. apply Hn, in_map, Ha.
    Qed.

    (** ** Wildcards *)
    Section Key.
      Variable K : Type.
      Variable sort : list (K * slot) -> list (K * slot).
      Hypothesis sorts : forall l, Permutation (sort l) l.
      Variable name2key : name -> option K.
      Lemma keyed_ok to_slot s (key : name -> K) : (forall n sl, In (n, sl) s -> name2key n = Some (key n) /\ to_slot sl = true) ->
        keyed ord K to_slot name2key s = Some (map (fun e => (key (fst e), snd e)) (ord _ s)).
      Proof.
        intros H. unfold keyed. assert (forall n sl, In (n, sl) (ord _ s) -> name2key n = Some (key n) /\ to_slot sl = true) as H'. { intros n sl Hs. apply (proj1 (in_ord ord some _ _)) in Hs. apply H, Hs. }
        clear H. revert H'. generalize (ord slot s). intros l H.
        assert (forall acc, fold_left (fun acc e => let? acc := acc in match name2key (fst e) with None => Some acc | Some k => if to_slot (snd e) then Some (acc ++ [(k, snd e)]) else None end) l (Some acc) = Some (acc ++ map (fun e : name * slot => (key (fst e), snd e)) l)) as K0; [|apply (K0 [])].
        induction l as [|(n, sl) l IH]; intros acc; cbn [fold_left map fst snd bind]; [rewrite app_nil_r; reflexivity|].
        destruct (H n sl (or_introl eq_refl)) as (-> & ->). rewrite IH; [rewrite <- app_assoc; reflexivity|]. intros n' sl' Hs. apply H. right. exact Hs.
      Qed.
      Lemma run_keyed_all (put : I -> K -> slot -> frame V -> frame V * bool) l i f : run_keyed V I K put l i f = invoke_all V I (map (fun e i f => put i (fst e) (snd e) f) l) i f.
      Proof. revert f. induction l as [|(k, sl) l IH]; intros f; [reflexivity|]. cbn [run_keyed map invoke_all fst snd]. destruct (put i k sl f) as (f', ok). destruct ok; [apply IH|reflexivity]. Qed.
      Lemma keyed_loads m to_slot s put : proper s ->
        (forall n sl, In (n, sl) s -> exists k t r, name2key n = Some k /\ to_slot sl = true /\ m n = Some (t, r) /\ forall i f, put i k sl f = match r i with Some v => (set V f (sid sl) v, true) | None => (f, false) end) ->
        exists l, keyed ord K to_slot name2key s = Some l /\ loads m s (run_keyed V I K put (sort l)).
      Proof.
        intros P H. destruct s as [|(n0, sl0) s0] eqn:Es.
        - exists []. split; [unfold keyed; pose proof (some slot []) as E; apply Permutation_sym, Permutation_nil in E; rewrite E; reflexivity|].
          pose proof (sorts []) as E. apply Permutation_sym, Permutation_nil in E. rewrite E. apply (loads_nil V).
        - rewrite <- Es in *. destruct (H n0 sl0) as (k0 & _); [rewrite Es; left; reflexivity|].
          set (key := fun n => match name2key n with Some k => k | None => k0 end).
          rewrite (keyed_ok to_slot s key). 2: { intros n sl Hs. destruct (H n sl Hs) as (k & t & r & E & T & _). split; [unfold key; rewrite E; reflexivity|exact T]. }
          eexists. split; [reflexivity|]. destruct (Permutation_map_inv _ _ (sorts (map (fun e : name * slot => (key (fst e), snd e)) (ord _ s)))) as (s' & E & Ps).
          rewrite E. assert (Permutation s' s) as Ps' by (etransitivity; [apply Permutation_sym, Ps|apply some]).
          refine (loads_eq V m s s (invoke_all V I (map (fun e i f => put i (fst e) (snd e) f) (map (fun e : name * slot => (key (fst e), snd e)) s'))) _ _ _ _); [reflexivity|intros i f; symmetry; apply run_keyed_all|].
          apply (concat_loads V m (map (fun e => [e]) s')); [| |exact P].
          + assert (forall n sl, In (n, sl) s' -> In (n, sl) s) as Inc by (intros n sl; apply Permutation_in, Ps'). clear -H Inc. induction s' as [|(n, sl) s' IH]; [constructor|]. cbn [map fst snd]. constructor.
            * destruct (H n sl (Inc _ _ (or_introl eq_refl))) as (k & t & r & En & _ & M & R). eapply loads_one; [exact M|]. unfold key. rewrite En. exact R.
            * apply IH. intros n' sl' Hs. apply Inc. right. exact Hs.
          + replace (List.concat (map (fun e : name * slot => [e]) s')) with s'; [exact Ps'|]. clear. induction s' as [|e s' IH]; [reflexivity|]. cbn. f_equal. exact IH.
      Qed.
      Lemma wildcard_ok out access suggestions : implements ord (wildcard V ord I K sort out access name2key suggestions) (of_keys name2key (fun k => Some (out, fun i => access i k))).
      Proof.
        apply (implements_intro V ord some); [intros n; cbn; unfold of_keys; destruct (name2key n); reflexivity|]. intros s P _ F. cbn.
        destruct (keyed_loads (of_keys name2key (fun k => Some (out, fun i => access i k))) (fun sl => sty sl =? out) s (put_value V I K access) P) as (l & -> & L); [|cbn [bind]; eauto].
        intros n sl Hs. destruct (F n sl Hs) as (r & Fr). unfold of_keys in *. destruct (name2key n) as [k|]; [|discriminate]. injection Fr as E _. exists k, out, (fun i => access i k).
        split; [reflexivity|]. split; [rewrite E; apply Nat.eqb_refl|]. split; [reflexivity|]. reflexivity.
      Qed.
      Lemma wildcard_callback_ok access key2type suggestions : implements ord (wildcard_callback V ord I K sort access name2key key2type suggestions)
        (of_keys name2key (fun k => match key2type k with Some t => Some (t, fun i => of_type t (access i k)) | None => None end)).
      Proof.
        apply (implements_intro V ord some); [intros n; cbn; unfold of_keys; destruct (name2key n) as [k|]; [|reflexivity]; cbn [bind]; destruct (key2type k); reflexivity|]. intros s P _ F. cbn.
        match goal with |- exists b, _ /\ loads ?m0 _ _ => destruct (keyed_loads m0 (fun _ => true) s (put_typed V I K access) P) as (l & -> & L) end; [|cbn [bind]; eauto].
        intros n sl Hs. destruct (F n sl Hs) as (r & Fr). unfold of_keys in *. destruct (name2key n) as [k|]; [|discriminate]. destruct (key2type k) as [t|] eqn:Kt; [|discriminate]. injection Fr as -> _.
        exists k, (sty sl), (fun i => of_type (sty sl) (access i k)). split; [reflexivity|]. split; [reflexivity|]. split; [reflexivity|].
        intros i f. unfold put_typed, of_type. destruct (access i k) as [(t', v)|]; [|reflexivity]. destruct (sty sl =? t'); reflexivity.
      Qed.
    End Key.

    (** ** By key *)
    Section Dynamic.
      Variable name2key : name -> option name.
      Definition grouped (g : hmap slots) (done : slots) : Prop :=
        NoDup (map fst g) /\ Permutation (List.concat (map snd g)) done /\ forall k s, In (k, s) g -> s <> [] /\ forall n sl, In (n, sl) s -> name2key n = Some k.
      Lemma erase_none {A} (g : hmap A) k : lookup g k = None -> erase g k = g.
      Proof.
        intros L. apply lookup_None in L. unfold erase. induction g as [|(k', y) g IH]; [reflexivity|]. cbn [filter fst]. destruct (str_eqb k' k) eqn:B; [apply str_eqb_ok in B; subst; exfalso; apply L; left; reflexivity|]. cbn [negb]. f_equal. apply IH. intros K. apply L. right. exact K.
      Qed.
      Lemma erase_perm {A} (g : hmap A) k x : NoDup (map fst g) -> lookup g k = Some x -> Permutation g ((k, x) :: erase g k).
      Proof.
        intros ND L. apply lookup_Some in L. induction g as [|(k', y) g IH]; [destruct L|]. cbn [map fst] in ND. inversion ND as [|? ? N1 N2]; subst. unfold erase. cbn [filter fst]. destruct L as [[= -> ->]|L].
        - rewrite (proj2 (str_eqb_ok k k) eq_refl). cbn [negb]. constructor. refine (eq_ind_r (fun z => Permutation g z) (Permutation_refl g) (erase_none g k _)). apply lookup_None, N1.
        - destruct (str_eqb k' k) eqn:B; [apply str_eqb_ok in B; subst; exfalso; apply N1, in_map_iff; exists (k, x); auto|]. cbn [negb]. etransitivity; [constructor; apply (IH N2 L)|]. apply perm_swap.
      Qed.
      Lemma erase_not {A} (g : hmap A) k : ~ In k (map fst (erase g k)).
      Proof. intros H. apply in_map_iff in H. destruct H as ((k', x) & E & H). cbn in E. subst. apply filter_In in H. destruct H as (_ & H). cbn in H. rewrite (proj2 (str_eqb_ok k k) eq_refl) in H. discriminate. Qed.
      Lemma group_one g done n sl k : grouped g done -> NoDup (map fst (done ++ [(n, sl)])) -> name2key n = Some k ->
        exists g', group_step name2key (Some g) (n, sl) = Some g' /\ grouped g' (done ++ [(n, sl)]).
      Proof.
        intros (G1 & G2 & G3) ND Kn. unfold group_step. cbn [bind fst snd]. rewrite Kn. cbn [bind]. set (s := match lookup g k with Some s => s | None => [] end).
        assert (Permutation (List.concat (map snd g)) (s ++ List.concat (map snd (erase g k)))) as Pg.
        { unfold s. destruct (lookup g k) as [x|] eqn:L; [|rewrite (erase_none _ _ L); reflexivity]. pose proof (erase_perm g k x G1 L) as E.
          apply (Permutation_map snd) in E. clear -E. cbn [map snd] in E. change (x ++ List.concat (map snd (erase g k))) with (List.concat (x :: map snd (erase g k))).
          induction E; cbn [List.concat]; [constructor|apply Permutation_app_head; assumption|rewrite !app_assoc; apply Permutation_app_tail, Permutation_app_comm|etransitivity; eassumption]. }
        assert (~ In n (map fst s)) as Ns.
        { rewrite map_app in ND. cbn [map fst] in ND. apply NoDup_remove_2 in ND. rewrite app_nil_r in ND. intros K. apply ND. eapply Permutation_in; [apply Permutation_map, G2|]. eapply Permutation_in; [apply Permutation_sym, Permutation_map, Pg|].
          rewrite map_app. apply in_or_app. left. exact K. }
        rewrite (emplace_new s n sl Ns). eexists. split; [reflexivity|]. split; [|split].
        - cbn [map fst]. constructor; [apply erase_not|]. apply NoDup_filter_map, G1.
        - cbn [map snd List.concat]. rewrite <- app_assoc. etransitivity; [apply Permutation_sym, Permutation_middle|]. etransitivity; [constructor; apply Permutation_sym, Pg|]. etransitivity; [constructor; exact G2|]. apply Permutation_cons_append.
        - intros k' s' [[= <- <-]|H].
          + split; [destruct s; discriminate|]. intros n' sl' H. apply in_app_or in H. destruct H as [H|[[= <- <-]|[]]]; [|exact Kn]. unfold s in H. destruct (lookup g k) eqn:L; [|destruct H]. apply (proj2 (G3 _ _ (lookup_Some _ _ _ L)) _ _ H).
          + apply filter_In in H. apply G3, H.
      Qed.
      Lemma group_all l : forall g done, grouped g done -> NoDup (map fst (done ++ l)) -> (forall n sl, In (n, sl) l -> name2key n <> None) ->
        exists g', fold_left (group_step name2key) l (Some g) = Some g' /\ grouped g' (done ++ l).
      Proof.
        induction l as [|(n, sl) l IH]; intros g done G ND H; [exists g; rewrite app_nil_r; split; [reflexivity|exact G]|]. cbn [fold_left].
        destruct (name2key n) as [k|] eqn:Kn; [|destruct (H n sl (or_introl eq_refl) Kn)].
        replace (done ++ (n, sl) :: l) with ((done ++ [(n, sl)]) ++ l) in * by (rewrite <- app_assoc; reflexivity).
        destruct (group_one g done n sl k G) as (g1 & -> & G1); [|exact Kn|].
        - rewrite map_app in ND. clear -ND. remember (map fst (done ++ [(n, sl)])) as a. clear Heqa. induction a as [|x a IH]; [constructor|]. cbn in ND. inversion ND as [|? ? N1 N2]; subst. constructor; [intros K; apply N1, in_or_app; left; exact K|apply IH, N2].
        - apply IH; [exact G1|exact ND|]. intros n' sl' Hs. apply (H n' sl'). right. exact Hs.
      Qed.
      Lemma dynamic_ok (delegate : name -> option (loader V I)) (ms : name -> option (meaning V I)) suggestions :
        (forall k, match delegate k, ms k with Some l, Some m => implements ord l m | None, None => True | _, _ => False end) ->
        implements ord (dynamic V ord I delegate name2key suggestions) (by_key name2key ms).
      Proof.
        intros D. apply (implements_intro V ord some).
        - intros n. cbn. unfold by_key. destruct (name2key n) as [k|]; [|reflexivity]. cbn [bind]. specialize (D k). destruct (delegate k), (ms k); try destruct D as (D & _); try destruct D; cbn [bind]; [apply D|reflexivity].
        - intros s P N F. unfold dynamic. cbn [bind_impl].
          destruct (group_all (ord _ s) [] []) as (g & Eg & G1 & G2 & G3).
          + split; [constructor|]. split; [constructor|]. intros k s0 [].
          + cbn [app]. apply (nodup_ord ord some), P.
          + intros n sl Hs E. apply (proj1 (in_ord ord some _ _)) in Hs. destruct (F _ _ Hs) as (r & Fr). unfold by_key in Fr. rewrite E in Fr. discriminate.
          + match goal with |- exists b, bind ?e _ = _ /\ _ => replace e with (Some g) by (symmetry; exact Eg) end. cbn [app bind] in *. assert (Permutation (List.concat (map snd g)) s) as Pg by (etransitivity; [exact G2|apply some]).
            assert (Permutation (List.concat (map snd (ord _ g))) s) as Po.
            { etransitivity; [|exact Pg]. pose proof (Permutation_map snd (some _ g)) as E. clear -E. induction E; cbn [List.concat]; [constructor|apply Permutation_app_head; assumption|rewrite !app_assoc; apply Permutation_app_tail, Permutation_app_comm|etransitivity; eassumption]. }
            assert (exists bs, bind_groups V ord I delegate (ord _ g) = Some bs /\ Forall2 (loads (by_key name2key ms)) (map snd (ord _ g)) bs) as (bs & E & L).
            { assert (forall k s', In (k, s') (ord _ g) -> s' <> [] /\ forall n sl, In (n, sl) s' -> name2key n = Some k) as G3' by (intros k s' H; apply G3, (in_ord ord some), H).
              pose proof (proper_perm _ _ (Permutation_sym Po) P) as Pp. assert (forall n sl, In (n, sl) (List.concat (map snd (ord _ g))) -> exists r, by_key name2key ms n = Some (sty sl, r)) as F' by (intros n sl Hs; apply F; apply (Permutation_in _ Po), Hs).
              clear -D G3' Pp F'. revert G3' Pp F'. generalize (ord slots g). intros l. induction l as [|(k, s') l IH]; intros G3 Pp F; [exists []; split; [reflexivity|constructor]|].
              cbn [map snd List.concat] in Pp, F. cbn [bind_groups]. destruct (G3 k s' (or_introl eq_refl)) as (Ne & Key).
              assert (proper s' /\ proper (List.concat (map snd l))) as (P1 & P2).
              { assert (forall A (a b : list A), NoDup (a ++ b) -> NoDup a /\ NoDup b) as Sp.
                { intros A a b. induction a as [|x a IHa]; cbn; intros H; [split; [constructor|exact H]|]. inversion H as [|? ? N1 N2]; subst. destruct (IHa N2). split; [constructor; [intros K; apply N1, in_or_app; left; exact K|assumption]|assumption]. }
                destruct Pp as (A1 & A2). rewrite map_app in A1, A2. apply Sp in A1, A2. split; split; tauto. }
              destruct (IH (fun k0 s0 H => G3 k0 s0 (or_intror H)) P2 (fun n sl H => F n sl (in_or_app _ _ _ (or_intror H)))) as (bs & E & L).
              specialize (D k). destruct s' as [|(n1, sl1) s'']; [destruct (Ne eq_refl)|]. destruct (F n1 sl1 (or_introl eq_refl)) as (r1 & F1). unfold by_key in F1. rewrite (Key n1 sl1 (or_introl eq_refl)) in F1.
              destruct (ms k) as [m|] eqn:Mk; [|discriminate]. destruct (delegate k) as [l0|]; [|destruct D]. cbn [bind].
              assert (forall n sl, In (n, sl) ((n1, sl1) :: s'') -> m n = by_key name2key ms n) as Em. { intros n sl Hs. unfold by_key. rewrite (Key _ _ Hs), Mk. reflexivity. }
              destruct D as (_ & B). destruct (proj1 (B _ P1)) as (b & -> & Lb). { intros n sl Hs. rewrite (Em _ _ Hs). apply F, in_or_app. left. exact Hs. }
              cbn [bind]. rewrite E. cbn [bind]. eexists. split; [reflexivity|]. cbn [map snd]. constructor; [|exact L]. eapply loads_ext; [|exact Lb]. exact Em. }
            rewrite E. cbn [bind]. apply (concat_bound V _ _ _ _ L Po P N).
      Qed.
    End Dynamic.
  End Input.

  (** ** Delegating *)
  Lemma delegating_ok {I J} (l : loader V J) (m : meaning V J) (access : I -> J) prefix m' : implements ord l m -> under m access prefix m' -> implements ord (delegating V ord I J l access prefix) m'.
  Proof.
    intros (G & B) (U1 & U2). apply (implements_intro V ord some).
    - intros n. cbn. pose proof (consume_prefix_ok n prefix) as C. destruct (consume_prefix n prefix) as [d|]; cbn [bind]; [|rewrite (U2 _ C); reflexivity]. subst. rewrite U1, G. destruct (m d) as [(t, r)|]; reflexivity.
    - intros s P _ F. cbn.
      set (d_of := fun e : name * slot => (skipn (List.length prefix) (fst e), snd e)).
      assert (forall n sl, In (n, sl) s -> n = prefix ++ fst (d_of (n, sl)) /\ consume_prefix n prefix = Some (fst (d_of (n, sl)))) as Pre.
      { intros n sl Hs. destruct (F _ _ Hs) as (r & Fr). pose proof (consume_prefix_ok n prefix) as C. destruct (consume_prefix n prefix) as [d|] eqn:E; [|rewrite (U2 _ C) in Fr; discriminate]. subst.
        unfold d_of. cbn [fst]. rewrite skipn_app, skipn_all, Nat.sub_diag. cbn. auto. }
      assert (fold_left (fun acc (e : name * slot) => let? acc := acc in let? d := consume_prefix (fst e) prefix in Some (emplace acc d (snd e))) (ord _ s) (Some []) = Some (map d_of (ord _ s))) as Ed.
      { assert (forall n sl, In (n, sl) (ord _ s) -> n = prefix ++ fst (d_of (n, sl)) /\ consume_prefix n prefix = Some (fst (d_of (n, sl)))) as Pre' by (intros n sl Hs; apply Pre, (in_ord ord some), Hs).
        pose proof (nodup_ord ord some _ (proj1 P)) as ND. revert Pre' ND. generalize (ord slot s). intros l0 Pre' ND.
        assert (forall l1 l2 : slots, l0 = l1 ++ l2 -> fold_left (fun acc (e : name * slot) => let? acc := acc in let? d := consume_prefix (fst e) prefix in Some (emplace acc d (snd e))) l2 (Some (map d_of l1)) = Some (map d_of l0)) as K; [|apply (K [] l0 eq_refl)].
        intros l1 l2. revert l1. induction l2 as [|(n, sl) l2 IH]; intros l1 E; cbn [fold_left]; [rewrite app_nil_r in E; subst; reflexivity|]. cbn [bind fst snd].
        destruct (Pre' n sl) as (En & ->); [rewrite E; apply in_or_app; right; left; reflexivity|]. cbn [bind]. rewrite emplace_new.
        - refine (eq_trans _ (IH (l1 ++ [(n, sl)]) _)); [do 2 f_equal; symmetry; apply (map_app d_of)|]. rewrite E, <- app_assoc. reflexivity.
        - rewrite E, map_app in ND. cbn [map fst] in ND. apply NoDup_remove_2 in ND. intros K. apply ND, in_or_app. left. rewrite map_map in K. apply in_map_iff in K. destruct K as ((n', sl') & Ek & K).
          apply in_map_iff. exists (n', sl'). split; [|exact K]. cbn [fst]. destruct (Pre' n' sl') as (En' & _); [rewrite E; apply in_or_app; left; exact K|]. rewrite En', En. f_equal. exact Ek. }
      match goal with |- exists b, bind ?e _ = _ /\ _ => replace e with (Some (map d_of (ord _ s))) by (symmetry; exact Ed) end.
      cbn [bind]. assert (forall n sl, In (n, sl) (map d_of (ord _ s)) <-> In (prefix ++ n, sl) s) as Ind.
      { intros n sl. rewrite in_map_iff. split.
        - intros ((n', sl') & E & K). apply (proj1 (in_ord ord some _ _)) in K. destruct (Pre _ _ K) as (En & _). rewrite E in En. cbn in En. injection E as _ <-. rewrite <- En. exact K.
        - intros K. exists (prefix ++ n, sl). split; [|apply (in_ord ord some), K]. unfold d_of. cbn [fst snd]. rewrite skipn_app, skipn_all, Nat.sub_diag. reflexivity. }
      assert (proper (map d_of (ord _ s))) as Pd.
      { destruct P as (P1 & P2). split.
        * apply (NoDup_map_inv (fun n => prefix ++ n)). rewrite !map_map. erewrite map_ext_in; [apply (nodup_ord ord some), P1|]. intros (n, sl) Hs. apply (proj1 (in_ord ord some _ _)) in Hs. destruct (Pre _ _ Hs) as (En & _). symmetry. exact En.
        * rewrite map_map. cbn [d_of snd]. eapply Permutation_NoDup; [apply Permutation_map, Permutation_sym, some|exact P2]. }
      destruct (proj1 (B _ Pd)) as (b & -> & L).
      + intros n sl Hs. apply Ind in Hs. destruct (F _ _ Hs) as (r & Fr). rewrite U1 in Fr. destruct (m n) as [(t, r0)|]; [|discriminate]. injection Fr as <- _. eauto.
      + cbn [bind]. eexists. split; [reflexivity|]. intros i f. destruct (L (access i) f) as (f' & ok & E & L1 & L2 & L3). exists f', ok. split; [exact E|]. split; [|split].
        * intros k Hk. apply L1. intros n sl Hs. apply Ind in Hs. apply (Hk _ _ Hs).
        * rewrite L2. split; intros K n sl t r Hs M.
          -- destruct (Pre _ _ Hs) as (En & _). rewrite En in Hs, M. rewrite U1 in M. destruct (m (fst (d_of (n, sl)))) as [(t0, r0)|] eqn:Em; [|discriminate]. injection M as <- <-. apply (K (fst (d_of (n, sl))) sl t0 r0); [apply Ind, Hs|exact Em].
          -- apply Ind in Hs. apply (K _ _ t (fun i => r (access i)) Hs). rewrite U1, M. reflexivity.
        * intros Ok n sl t r v Hs M R. destruct (Pre _ _ Hs) as (En & _). rewrite En in Hs, M. rewrite U1 in M. destruct (m (fst (d_of (n, sl)))) as [(t0, r0)|] eqn:Em; [|discriminate]. injection M as <- <-. apply (L3 Ok (fst (d_of (n, sl))) sl t0 r0 v); [apply Ind, Hs|exact Em|exact R].
  Qed.
End Keys.
