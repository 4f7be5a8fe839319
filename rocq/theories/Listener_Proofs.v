From Coq Require Import ZArith Permutation Lia.
From Verif Require Import Base Strings_Model Strings_Proofs Loader_Model Loader_Spec Loader_Proofs Loader_Comb Loader_Keys Listener_Model Listener_Spec.
Local Open Scope nat_scope.
Local Open Scope list_scope.

Lemma fold_ext_in {A B} (f g : B -> A -> B) l b : (forall b x, In x l -> f b x = g b x) -> fold_left f l b = fold_left g l b.
Proof. revert b. induction l as [|x l IH]; intros b H; cbn [fold_left]; [reflexivity|]. rewrite H by (left; reflexivity). apply IH. intros b' y Hy. apply H. right. exact Hy. Qed.

(** ** Hearing *)
Section Heard.
  Context {V O : Type}.
  Implicit Types (hs : list (hearer V O)) (s : slots).
  Lemma told_fun hs n d t t' : told hs n d t -> told hs n d t' -> t = t'.
  Proof.
    induction hs as [|h hs IH]; cbn [told]; [congruence|]. intros [(A1 & A2 & A3)|(A1 & A2)] [(B1 & B2 & B3)|(B1 & B2)]; [congruence| | |apply IH; assumption].
    - destruct B1; contradiction.
    - destruct A1; contradiction.
  Qed.
  Lemma told_None hs n d : told hs n d None <-> forall h, In h hs -> h_name h = n -> h_type h d = None.
  Proof.
    induction hs as [|h hs IH]; cbn [told]; [split; [intros _ h []|reflexivity]|]. rewrite IH. split.
    - intros [(A & B & C)|([A|A] & B)] x [<-|Hx] N; try congruence; apply B; assumption.
    - intros H. right. split; [|intros x Hx; apply H; right; exact Hx]. destruct (list_eq_dec Z.eq_dec (h_name h) n) as [E|E]; [right; apply H; [left; reflexivity|exact E]|left; exact E].
  Qed.
  Lemma told_Some hs n d t : told hs n d (Some t) -> exists h, In h hs /\ h_name h = n /\ h_type h d = Some t.
  Proof.
    induction hs as [|h hs IH]; cbn [told]; [discriminate|]. intros [(A & B & C)|(_ & A)]; [exists h; split; [left; reflexivity|]; split; [exact A|symmetry; exact C]|].
    destruct (IH A) as (x & Hx & X). exists x. split; [right; exact Hx|exact X].
  Qed.
  Lemma told_app (a b : list (hearer V O)) n d t t' : told a n d t -> told b n d t' -> told (a ++ b) n d (match t with Some q => Some q | None => t' end).
  Proof.
    intros H. revert t H. induction a as [|h a IH]; intros t H Hb; cbn [told app] in *; [subst; exact Hb|]. destruct H as [(A & B & C)|(A & C)].
    - left. split; [exact A|]. split; [exact B|]. subst. destruct (h_type h d); [reflexivity|congruence].
    - right. split; [exact A|]. apply IH; assumption.
  Qed.
  Lemma heard_app s f (a b : list (hearer V O)) o o1 ok : heard s f a o o1 ok -> forall o2 ok2, (if ok then heard s f b o1 o2 ok2 else o2 = o1 /\ ok2 = false) -> heard s f (a ++ b) o o2 ok2.
  Proof.
    induction 1; intros o2 ok2 Hb; cbn [app].
    - exact Hb.
    - apply heard_skip; [assumption|]. apply IHheard, Hb.
    - eapply heard_ok; try eassumption. apply IHheard, Hb.
    - destruct Hb as (-> & ->). eapply heard_fail; eassumption.
  Qed.
  (** Slots that nobody here hears do not matter. *)
  Lemma heard_ext s s' f hs o o' ok : (forall h sl, In h hs -> In (h_name h, sl) s' -> h_type h (Some (sty sl)) <> None -> In (h_name h, sl) s) ->
    (forall h sl, In h hs -> In (h_name h, sl) s -> In (h_name h, sl) s') -> heard s f hs o o' ok -> heard s' f hs o o' ok.
  Proof.
    intros A B H. induction H as [|h hs o o' ok N H IH|h hs sl o o1 o' ok I T E H IH|h hs sl o o1 I T E].
    - constructor.
    - apply heard_skip; [|apply IH; intros x sl Hx; [apply A|apply B]; right; exact Hx]. intros sl Hs. destruct (h_type h (Some (sty sl))) eqn:E; [|reflexivity].
      rewrite <- E. apply N. apply (A h sl (or_introl eq_refl) Hs). congruence.
    - eapply heard_ok; [apply (B h sl (or_introl eq_refl) I)|exact T|exact E|]. apply IH; intros x sl' Hx; [apply A|apply B]; right; exact Hx.
    - eapply heard_fail; [apply (B h sl (or_introl eq_refl) I)|exact T|exact E].
  Qed.
  Lemma heard_none s f hs o : (forall h sl, In h hs -> In (h_name h, sl) s -> h_type h (Some (sty sl)) = None) -> heard s f hs o o true.
  Proof. induction hs as [|h hs IH]; intros H; [constructor|]. apply heard_skip; [intros sl; apply H; left; reflexivity|]. apply IH. intros x sl Hx. apply H. right. exact Hx. Qed.
  Lemma heard_fun s f hs o o1 ok1 o2 ok2 : NoDup (map fst s) -> heard s f hs o o1 ok1 -> heard s f hs o o2 ok2 -> o1 = o2 /\ ok1 = ok2.
  Proof.
    intros ND H. revert o2 ok2. induction H as [|h hs o o' ok N H IH|h hs sl o o1 o' ok I T E H IH|h hs sl o o1 I T E]; intros o2 ok2 H2; inversion H2; subst; auto.
    - exfalso. match goal with K : In _ s, T : _ <> None |- _ => apply T, N, K end.
    - exfalso. match goal with K : In _ s, T : _ <> None |- _ => apply T, N, K end.
    - exfalso. apply T. auto.
    - match goal with K : In (h_name h, ?sl2) s |- _ => assert (sl2 = sl) as -> by (eapply NoDup_fst_fun; eassumption) end. apply IH. congruence.
    - match goal with K : In (h_name h, ?sl2) s |- _ => assert (sl2 = sl) as -> by (eapply NoDup_fst_fun; eassumption) end. congruence.
    - exfalso. apply T. auto.
    - match goal with K : In (h_name h, ?sl2) s |- _ => assert (sl2 = sl) as -> by (eapply NoDup_fst_fun; eassumption) end. congruence.
    - match goal with K : In (h_name h, ?sl2) s |- _ => assert (sl2 = sl) as -> by (eapply NoDup_fst_fun; eassumption) end. split; congruence.
  Qed.
End Heard.

Section Proofs.
  Variable V : Type.
  Variable ord : forall A, hmap A -> hmap A.
  Hypothesis some : some_order ord.

  (** ** Checks *)
  Let wanted (get : name -> option typ -> option typ) (s : slots) (n : name) : option typ := match lookup s n with Some sl => get n (Some (sty sl)) | None => None end.
  Lemma wanted_ok get s n sl : NoDup (map fst s) -> In (n, sl) s -> wanted get s n = get n (Some (sty sl)).
  Proof. intros ND H. unfold wanted. rewrite (proj2 (lookup_In s n sl ND) H). reflexivity. Qed.
  Lemma validate_types_ok get s : NoDup (map fst s) -> validate_types ord get s = Some tt <-> forall n sl, In (n, sl) s -> get n (Some (sty sl)) = Some (sty sl).
  Proof.
    intros ND. assert (validate_types ord get s = validate_slot_types ord (wanted get s) s) as ->.
    { unfold validate_types, validate_slot_types, get_qtypes.
      assert (fold_left (types_step get) (ord _ s) ([], []) = fold_left (qtypes_step (wanted get s)) (map fst (ord _ s)) ([], [])) as ->.
      { assert (forall e, In e (ord _ s) -> In e s) as Inc by (intros e; apply (in_ord ord some)). revert Inc. generalize (ord slot s). intros l Inc. generalize (@nil (name * typ), @nil name).
        induction l as [|(n, sl) l IH]; intros st; [reflexivity|]. cbn [fold_left map fst]. rewrite IH by (intros e He; apply Inc; right; exact He). f_equal. unfold types_step, qtypes_step. cbn [fst snd].
        rewrite (wanted_ok get s n sl ND (Inc _ (or_introl eq_refl))). reflexivity. }
      destruct (fold_left _ _ _) as (types, unknown). destruct unknown; reflexivity. }
    rewrite (validate_ok ord some _ _ ND). split; intros H n sl Hs; [rewrite <- (wanted_ok get s n sl ND Hs)|rewrite (wanted_ok get s n sl ND Hs)]; apply H, Hs.
  Qed.
  Lemma supported_ok get s : NoDup (map fst s) -> NoDup (map fst (find_supported ord get s)) /\ forall n sl, In (n, sl) (find_supported ord get s) <-> In (n, sl) s /\ get n (Some (sty sl)) <> None.
  Proof.
    intros ND. assert (find_supported ord get s = filter (fun e => match wanted get s (fst e) with Some _ => true | None => false end) (ord _ s)) as ->.
    { rewrite <- (extract_part ord some (wanted get s) s ND). unfold find_supported, extract_supported. cbn [fst]. apply fold_ext_in. intros p (n, sl) H. unfold supported_step. cbn [fst snd].
      apply (proj1 (in_ord ord some _ _)) in H. rewrite (wanted_ok get s n sl ND H). destruct (get n (Some (sty sl))); reflexivity. }
    split; [apply NoDup_filter_map, (nodup_ord ord some), ND|]. intros n sl. etransitivity; [apply filter_In|]. rewrite (in_ord ord some). cbn [fst]. split.
    - intros (H & W). split; [exact H|]. rewrite (wanted_ok get s n sl ND H) in W. destruct (get n (Some (sty sl))); discriminate.
    - intros (H & W). split; [exact H|]. rewrite (wanted_ok get s n sl ND H). destruct (get n (Some (sty sl))); [reflexivity|congruence].
  Qed.

  Section Output.
    Context {O : Type}.
    Implicit Types (hs : list (hearer V O)) (l : listener V O).
    (** Enough: the types, and binding when the types are right. *)
    Lemma listens_intro l hs : (forall n d, told hs n d (l_type V O l n d)) ->
      (forall s, NoDup (map fst s) -> s <> [] -> (forall n sl, In (n, sl) s -> l_type V O l n (Some (sty sl)) = Some (sty sl)) ->
        match l_bind_impl V O l s with Some b => accepted hs s /\ forall f o, heard s f hs o (fst (b f o)) (snd (b f o)) | None => ~ accepted hs s end) ->
      listens ord l hs.
    Proof.
      intros T B. split; [exact T|]. intros s ND. unfold bind_listener. pose proof (validate_types_ok (l_type V O l) s ND) as VO. destruct (validate_types ord (l_type V O l) s) as [[]|]; cbn [bind].
      - destruct s as [|e s]; [|apply B; [exact ND|discriminate|apply VO; reflexivity]]. split; [split; [intros n sl []|intros h sl _ []]|]. intros f o. cbn [fst snd]. apply heard_none. intros h sl _ [].
      - intros (A1 & A2). assert (None = Some tt) as K; [|discriminate]. apply VO. intros n sl Hs. specialize (T n (Some (sty sl))). destruct (l_type V O l n (Some (sty sl))) as [t|].
        + apply told_Some in T. destruct T as (h & Hh & <- & Th). destruct (A2 h sl Hh Hs); congruence.
        + exfalso. destruct (A1 n sl Hs) as (h & Hh & N & Th). apply Th. apply (proj1 (told_None _ _ _) T h Hh N).
    Qed.
    Lemma listens_type l hs s : listens ord l hs -> (forall n sl, In (n, sl) s -> l_type V O l n (Some (sty sl)) = Some (sty sl)) -> forall n sl, In (n, sl) s -> exists h, In h hs /\ h_name h = n /\ h_type h (Some (sty sl)) <> None.
    Proof. intros (T & _) H n sl Hs. specialize (T n (Some (sty sl))). rewrite (H n sl Hs) in T. apply told_Some in T. destruct T as (h & Hh & N & Th). exists h. split; [exact Hh|]. split; [exact N|congruence]. Qed.

    Lemma owning_listens l hs : listens ord l hs -> listens ord (owning_listener V ord O l) hs.
    Proof. intros (T & B). apply listens_intro; [exact T|]. intros s ND _ _. exact (B s ND). Qed.

    (** ** Chains *)
    Lemma partial_listens l hs s : listens ord l hs -> NoDup (map fst s) ->
      match partial_listener V ord O l s with
      | Some b => (forall h sl, In h hs -> In (h_name h, sl) s -> h_type h (Some (sty sl)) = None \/ h_type h (Some (sty sl)) = Some (sty sl)) /\
          forall f o, match b with Some b => heard s f hs o (fst (b f o)) (snd (b f o)) | None => heard s f hs o o true end
      | None => exists h sl, In h hs /\ In (h_name h, sl) s /\ h_type h (Some (sty sl)) <> None /\ h_type h (Some (sty sl)) <> Some (sty sl)
      end.
    Proof.
      intros (T & B) ND. destruct (supported_ok (l_type V O l) s ND) as (NDp & Ip). unfold partial_listener.
      assert (forall h sl, In h hs -> In (h_name h, sl) s -> h_type h (Some (sty sl)) <> None -> In (h_name h, sl) (find_supported ord (l_type V O l) s)) as Back.
      { intros h sl Hh Hs Ht. apply Ip. split; [exact Hs|]. intros E. specialize (T (h_name h) (Some (sty sl))). rewrite E in T. apply Ht. apply (proj1 (told_None _ _ _) T h Hh eq_refl). }
      assert (match find_supported ord (l_type V O l) s with [] => Some None | p => let? b := bind_listener V ord O l p in Some (Some b) end =
              match find_supported ord (l_type V O l) s with [] => Some None | _ => let? b := bind_listener V ord O l (find_supported ord (l_type V O l) s) in Some (Some b) end) as -> by (destruct (find_supported ord (l_type V O l) s); reflexivity).
      specialize (B _ NDp). destruct (find_supported ord (l_type V O l) s) as [|e p] eqn:Ep.
      - assert (forall h sl, In h hs -> In (h_name h, sl) s -> h_type h (Some (sty sl)) = None) as Hn. { intros h sl Hh Hs. destruct (h_type h (Some (sty sl))) eqn:E; [|reflexivity]. exfalso. apply (Back h sl Hh Hs). congruence. }
        split; [intros h sl Hh Hs; left; apply Hn; assumption|]. intros f o. apply heard_none, Hn.
      - rewrite <- Ep in *. clear e p Ep. destruct (bind_listener V ord O l (find_supported ord (l_type V O l) s)) as [b|]; cbn [bind].
        + destruct B as ((_ & A) & H). split.
          * intros h sl Hh Hs. destruct (h_type h (Some (sty sl))) eqn:E; [|left; reflexivity]. destruct (A h sl Hh) as [K|K]; [apply Back; [exact Hh|exact Hs|congruence]|congruence|]. right. congruence.
          * intros f o. eapply heard_ext; [exact Back| |apply H]. intros h sl _ K. apply Ip in K. apply K.
        + assert (forall hs', incl hs' hs -> {exists h sl, In h hs' /\ In (h_name h, sl) s /\ h_type h (Some (sty sl)) <> None /\ h_type h (Some (sty sl)) <> Some (sty sl)} +
            {forall h sl, In h hs' -> In (h_name h, sl) s -> h_type h (Some (sty sl)) = None \/ h_type h (Some (sty sl)) = Some (sty sl)}) as Dec.
          { intros hs'. induction hs' as [|h hs' IH]; intros Inc; [right; intros h sl []|]. destruct (IH (fun x Hx => Inc x (or_intror Hx))) as [Y|N].
            - left. destruct Y as (h0 & sl & Hh & R). exists h0, sl. split; [right; exact Hh|exact R].
            - destruct (lookup s (h_name h)) as [sl|] eqn:L.
              + destruct (h_type h (Some (sty sl))) as [t|] eqn:E.
                * destruct (Nat.eq_dec t (sty sl)) as [->|Nt].
                  -- right. intros x sl' [<-|Hx] Hs; [|apply N; assumption]. pose proof (NoDup_fst_fun s _ _ _ ND Hs (lookup_Some _ _ _ L)) as ->. right. exact E.
                  -- left. exists h, sl. split; [left; reflexivity|]. split; [apply lookup_Some, L|]. rewrite E. split; [discriminate|congruence].
                * right. intros x sl' [<-|Hx] Hs; [|apply N; assumption]. pose proof (NoDup_fst_fun s _ _ _ ND Hs (lookup_Some _ _ _ L)) as ->. left. exact E.
              + right. intros x sl' [<-|Hx] Hs; [|apply N; assumption]. exfalso. apply (proj1 (lookup_None _ _) L). apply in_map_iff. exists (h_name h, sl'). auto. }
          destruct (Dec hs (incl_refl _)) as [Y|N]; [exact Y|]. exfalso. apply B. split.
          * intros n sl Hs. apply Ip in Hs. destruct Hs as (Hs & Ht). specialize (T n (Some (sty sl))). destruct (l_type V O l n (Some (sty sl))) as [t|]; [|congruence]. apply told_Some in T. destruct T as (h & Hh & Nh & Th). exists h. split; [exact Hh|]. split; [exact Nh|congruence].
          * intros h sl Hh Hs. apply Ip in Hs. apply N; [exact Hh|apply Hs].
    Qed.
    Lemma bind_all_listens ls hss s : Forall2 (listens ord) ls hss -> NoDup (map fst s) ->
      match bind_all V ord O ls s with
      | Some bs => (forall h sl, In h (List.concat hss) -> In (h_name h, sl) s -> h_type h (Some (sty sl)) = None \/ h_type h (Some (sty sl)) = Some (sty sl)) /\
          forall f o, heard s f (List.concat hss) o (fst (listen_all V O bs f o)) (snd (listen_all V O bs f o))
      | None => exists h sl, In h (List.concat hss) /\ In (h_name h, sl) s /\ h_type h (Some (sty sl)) <> None /\ h_type h (Some (sty sl)) <> Some (sty sl)
      end.
    Proof.
      intros H ND. induction H as [|l hs ls hss Hl H IH]; cbn [bind_all List.concat]; [split; [intros h sl []|intros f o; constructor]|].
      pose proof (partial_listens l hs s Hl ND) as P. destruct (partial_listener V ord O l s) as [b|]; cbn [bind].
      - destruct P as (P1 & P2). destruct (bind_all V ord O ls s) as [bs|]; cbn [bind].
        + destruct IH as (I1 & I2). split; [intros h sl Hh; apply in_app_or in Hh; destruct Hh; auto|]. intros f o. specialize (P2 f o). destruct b as [b|].
          * cbn [listen_all]. destruct (b f o) as (o1, ok1). cbn [fst snd] in P2. eapply heard_app; [exact P2|]. destruct ok1; [apply I2|auto].
          * eapply heard_app; [exact P2|]. apply I2.
        + destruct IH as (h & sl & Hh & R). exists h, sl. split; [apply in_or_app; right; exact Hh|exact R].
      - destruct P as (h & sl & Hh & R). exists h, sl. split; [apply in_or_app; left; exact Hh|exact R].
    Qed.
    Lemma chain_listens ls hss : Forall2 (listens ord) ls hss -> listens ord (chain_listener V ord O ls) (List.concat hss).
    Proof.
      intros H. assert (forall n d, told (List.concat hss) n d (first_listener_type V O ls n d)) as T.
      { intros n d. clear some. induction H as [|l hs ls hss Hl H IH]; cbn [first_listener_type List.concat]; [reflexivity|]. apply told_app; [apply (proj1 Hl)|exact IH]. }
      apply listens_intro; [exact T|]. intros s ND _ F. cbn [chain_listener l_bind_impl l_type] in *. pose proof (bind_all_listens ls hss s H ND) as B.
      destruct (bind_all V ord O ls s) as [bs|]; cbn [bind].
      - destruct B as (B1 & B2). split.
        + split; [|exact B1]. intros n sl Hs. specialize (T n (Some (sty sl))). rewrite (F n sl Hs) in T. apply told_Some in T. destruct T as (h & Hh & N & Th). exists h. split; [exact Hh|]. split; [exact N|congruence].
        + intros f o. specialize (B2 f o). destruct bs as [|b [|b2 bs]]; [exact B2| |exact B2]. cbn [listen_all] in B2. destruct (b f o) as (o1, ok1). destruct ok1; exact B2.
      - destruct B as (h & sl & Hh & Hs & N1 & N2). intros (_ & A). destruct (A h sl Hh Hs); contradiction.
    Qed.

    (** ** Accessors *)
    Lemma ear_names (accs : list (ear V O)) : map fst (ear_types V O accs) = map (e_name V O) accs.
    Proof. unfold ear_types. rewrite map_map. reflexivity. Qed.
    Lemma accessors_listens (accs : list (ear V O)) l : accessors_listener V O accs = Some l -> listens ord l (map of_ear accs).
    Proof.
      unfold accessors_listener. destruct (validate_duplicated (ear_types V O accs)) eqn:D; [|discriminate]. injection 1 as <-. apply duplicated_ok in D. rewrite ear_names in D.
      assert (forall n d, told (map of_ear accs) n d (lookup (ear_types V O accs) n)) as T.
      { intros n d. clear D. unfold lookup. induction accs as [|a accs IH]; [reflexivity|]. cbn [map told ear_types find fst]. destruct (str_eqb (e_name V O a) n) eqn:E.
        - apply str_eqb_ok in E. left. cbn. split; [exact E|]. split; [discriminate|reflexivity].
        - right. split; [left; cbn; intros En; apply str_eqb_ok in En; congruence|exact IH]. }
      apply listens_intro; [exact T|]. intros s ND _ F. cbn [l_bind_impl l_type] in *.
      assert (forall a sl, In a accs -> In (e_name V O a, sl) s -> e_type V O a = sty sl) as Ty.
      { intros a sl Ha Hs. specialize (F _ _ Hs). assert (NoDup (map fst (ear_types V O accs))) as D' by (rewrite ear_names; exact D).
        assert (In (e_name V O a, e_type V O a) (ear_types V O accs)) as Ia by (apply in_map_iff; exists a; auto). apply (proj2 (lookup_In _ _ _ D')) in Ia.
        assert (Some (e_type V O a) = Some (sty sl)) as E by (etransitivity; [symmetry; exact Ia|exact F]). injection E as E. exact E. }
      assert (maybe_find_slots (ear_types V O accs) s = Some (map (fun e => lookup s (fst e)) (ear_types V O accs))) as ->.
      { unfold maybe_find_slots. match goal with |- (if ?c then _ else _) = _ => enough (c = true) as -> by reflexivity end. apply forallb_forall. intros (n, t) Hn. cbn [fst snd]. destruct (lookup s n) as [sl|] eqn:Lk; [|reflexivity].
        apply lookup_Some in Lk. apply in_map_iff in Hn. destruct Hn as (a & [= <- <-] & Ha). rewrite (Ty a sl Ha Lk). apply Nat.eqb_refl. }
      cbn [bind].
      assert (exists gs, build_getters V O (map (fun e => lookup s (fst e)) (ear_types V O accs)) accs = Some gs /\ forall f o, heard s f (map of_ear accs) o (fold_left (fun o g => g f o) gs o) true) as (gs & -> & H).
      { clear D T F. induction accs as [|a accs IH]; [exists []; split; [reflexivity|intros f o; constructor]|]. destruct IH as (gs & E & H); [intros x sl Hx; apply Ty; right; exact Hx|].
        cbn [ear_types map fst build_getters]. unfold ear_types in E. rewrite E. unfold build_getter. destruct (lookup s (e_name V O a)) as [sl|] eqn:L.
        - rewrite (Ty a sl (or_introl eq_refl) (lookup_Some _ _ _ L)), Nat.eqb_refl. cbn [bind]. eexists. split; [reflexivity|]. intros f o. cbn [fold_left]. eapply (heard_ok V s f (of_ear a) _ sl); [apply lookup_Some, L|discriminate|reflexivity|apply H].
        - cbn [bind]. eexists. split; [reflexivity|]. intros f o. cbn [fold_left]. apply heard_skip; [|apply H]. intros sl Hs. exfalso. apply (proj1 (lookup_None _ _) L). apply in_map_iff. exists (e_name V O a, sl). auto. }
      cbn [bind]. split; [|intros f o; apply H]. split.
      - intros n sl Hs. specialize (F n sl Hs). apply lookup_Some in F. apply in_map_iff in F. destruct F as (a & [= <- _] & Ha). exists (of_ear a). split; [apply in_map, Ha|]. split; [reflexivity|discriminate].
      - intros h sl Hh Hs. apply in_map_iff in Hh. destruct Hh as (a & <- & Ha). right. cbn. f_equal. apply (Ty a sl Ha Hs).
    Qed.
  End Output.

  (** ** Delegating *)
  Lemma delegating_listens {O D} (l : listener V D) (hs : list (hearer V D)) (part : O -> D) put prefix : is_part part put -> listens ord l hs ->
    listens ord (delegating_listener V ord O D l part put prefix) (map (for_part part put prefix) hs).
  Proof.
    intros (Lens1 & Lens2 & Lens3) (T & B).
    assert (forall n d, told (map (for_part part put prefix) hs) n d (let? x := consume_prefix n prefix in l_type V D l x d)) as T'.
    { intros n d. pose proof (consume_prefix_ok n prefix) as C. destruct (consume_prefix n prefix) as [x|]; cbn [bind].
      - subst. specialize (T x d). revert T. generalize (l_type V D l x d). intros t. clear B. induction hs as [|h hs IH]; cbn [told map]; [auto|]. intros [(A1 & A2 & A3)|(A1 & A2)].
        + left. cbn. rewrite A1. auto.
        + right. split; [|apply IH, A2]. cbn. destruct A1 as [A1|A1]; [left; intros E; apply A1, (app_inv_head _ _ _ E)|right; exact A1].
      - apply told_None. intros h Hh E. apply in_map_iff in Hh. destruct Hh as (x & <- & _). exfalso. apply (C (h_name x)). symmetry. exact E. }
    apply listens_intro; [exact T'|]. intros s ND _ F. cbn [l_bind_impl l_type delegating_listener] in *.
    set (d_of := fun e : name * slot => (skipn (List.length prefix) (fst e), snd e)).
    assert (forall n sl, In (n, sl) s -> n = prefix ++ fst (d_of (n, sl)) /\ consume_prefix n prefix = Some (fst (d_of (n, sl)))) as Pre.
    { intros n sl Hs. specialize (F _ _ Hs). pose proof (consume_prefix_ok n prefix) as C. destruct (consume_prefix n prefix) as [d|] eqn:E; [|discriminate]. subst. unfold d_of. cbn [fst]. rewrite skipn_app, skipn_all, Nat.sub_diag. cbn. auto. }
    assert (fold_left (delegate_step prefix) (ord _ s) [] = map d_of (ord _ s)) as Ed.
    { assert (forall n sl, In (n, sl) (ord _ s) -> n = prefix ++ fst (d_of (n, sl)) /\ consume_prefix n prefix = Some (fst (d_of (n, sl)))) as Pre' by (intros n sl Hs; apply Pre, (in_ord ord some), Hs).
      pose proof (nodup_ord ord some _ ND) as ND'. revert Pre' ND'. generalize (ord slot s). intros l0 Pre' ND'.
      assert (forall l1 l2 : slots, l0 = l1 ++ l2 -> fold_left (delegate_step prefix) l2 (map d_of l1) = map d_of l0) as K; [|apply (K [] l0 eq_refl)].
      intros l1 l2. revert l1. induction l2 as [|(n, sl) l2 IH]; intros l1 E; cbn [fold_left]; [rewrite app_nil_r in E; subst; reflexivity|]. unfold delegate_step at 2. cbn [fst snd].
      destruct (Pre' n sl) as (En & ->); [rewrite E; apply in_or_app; right; left; reflexivity|]. rewrite emplace_new.
      - refine (eq_trans _ (IH (l1 ++ [(n, sl)]) _)); [f_equal; symmetry; apply (map_app d_of)|]. rewrite E, <- app_assoc. reflexivity.
      - rewrite E, map_app in ND'. cbn [map fst] in ND'. apply NoDup_remove_2 in ND'. intros K. apply ND', in_or_app. left. rewrite map_map in K. apply in_map_iff in K. destruct K as ((n', sl') & Ek & K).
        apply in_map_iff. exists (n', sl'). split; [|exact K]. cbn [fst]. destruct (Pre' n' sl') as (En' & _); [rewrite E; apply in_or_app; left; exact K|]. rewrite En', En. f_equal. exact Ek. }
    assert (forall n sl, In (n, sl) (map d_of (ord _ s)) <-> In (prefix ++ n, sl) s) as Ind.
    { intros n sl. rewrite in_map_iff. split.
      - intros ((n', sl') & E & K). apply (proj1 (in_ord ord some _ _)) in K. destruct (Pre _ _ K) as (En & _). rewrite E in En. cbn in En. injection E as _ <-. rewrite <- En. exact K.
      - intros K. exists (prefix ++ n, sl). split; [|apply (in_ord ord some), K]. unfold d_of. cbn [fst snd]. rewrite skipn_app, skipn_all, Nat.sub_diag. reflexivity. }
    assert (NoDup (map fst (map d_of (ord _ s)))) as NDd.
    { apply (NoDup_map_inv (fun n => prefix ++ n)). rewrite !map_map. erewrite map_ext_in; [apply (nodup_ord ord some), ND|]. intros (n, sl) Hs. apply (proj1 (in_ord ord some _ _)) in Hs. destruct (Pre _ _ Hs) as (En & _). symmetry. exact En. }
    specialize (B _ NDd). match goal with |- match bind (bind_listener _ _ _ _ ?e) _ with _ => _ end => replace e with (map d_of (ord _ s)) by (symmetry; exact Ed) end.
    destruct (bind_listener V ord D l (map d_of (ord _ s))) as [b|]; cbn [bind].
    - destruct B as ((A1 & A2) & H). split; [split|].
      + intros n sl Hs. destruct (Pre _ _ Hs) as (En & _). rewrite En in Hs. apply Ind in Hs. destruct (A1 _ _ Hs) as (h & Hh & N & Th). exists (for_part part put prefix h). split; [apply in_map, Hh|]. split; [cbn; rewrite N; symmetry; exact En|exact Th].
      + intros h sl Hh Hs. apply in_map_iff in Hh. destruct Hh as (x & <- & Hx). cbn in *. apply (A2 x sl Hx). apply Ind, Hs.
      + intros f o. specialize (H f (part o)). destruct (b f (part o)) as (d, ok). cbn [fst snd] in *.
        assert (forall hs x x' ok, heard (map d_of (ord _ s)) f hs x x' ok -> forall o, part o = x -> heard s f (map (for_part part put prefix) hs) o (put o x') ok) as K; [|apply (K hs _ _ _ H); reflexivity].
        clear -Lens1 Lens2 Lens3 Ind. induction 1 as [x|h hs x x' ok N H IH|h hs sl x x1 x' ok I T E H IH|h hs sl x x1 I T E]; intros o Eo; cbn [map].
        * subst. rewrite Lens2. constructor.
        * apply heard_skip; [|apply IH, Eo]. intros sl Hs. apply N, Ind, Hs.
        * apply (heard_ok V s f (for_part part put prefix h) _ sl o (put o x1)); [apply Ind, I|exact T|cbn; rewrite Eo, E; reflexivity|]. rewrite <- (Lens3 o x1 x'). apply IH, Lens1.
        * apply (heard_fail V s f (for_part part put prefix h) _ sl); [apply Ind, I|exact T|cbn; rewrite Eo, E; reflexivity].
    - intros (A1 & A2). apply B. split.
      + intros n sl Hs. apply Ind in Hs. destruct (A1 _ _ Hs) as (h & Hh & N & Th). apply in_map_iff in Hh. destruct Hh as (x & <- & Hx). exists x. split; [exact Hx|]. cbn in N, Th. apply app_inv_head in N. auto.
      + intros h sl Hh Hs. apply Ind in Hs. apply (A2 (for_part part put prefix h) sl); [apply in_map, Hh|exact Hs].
  Qed.
End Proofs.
