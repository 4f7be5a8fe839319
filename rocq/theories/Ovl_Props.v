(** C62: implicit casting and the choice among overloads. *)
From Coq Require Import Permutation.
From Verif Require Import Base Ovl_Model Ovl_Spec Ovl_Proofs Ovl_Find.

(** CanCastImplicitly is exactly the relation that the documentation lists, and
    that relation is a partial order. *)
Theorem C62_cast has_opt has_arr b x y : known has_opt has_arr x -> known has_opt has_arr y ->
  (can_cast has_opt has_arr b x y = true <-> casts b x y).
Proof. apply can_cast_iff. Qed.
Print Assumptions C62_cast.
Theorem C62_order has_opt has_arr b x y z : known has_opt has_arr x -> known has_opt has_arr y -> known has_opt has_arr z ->
  let c := can_cast has_opt has_arr b in
  c x x = true /\ (c x y = true -> c y z = true -> c x z = true) /\ (c x y = true -> c y x = true -> x = y).
Proof.
  intros Kx Ky Kz. cbv zeta. rewrite !can_cast_iff by assumption.
  split; [apply casts_refl|]. split; [apply casts_trans|apply casts_antisym].
Qed.
Print Assumptions C62_order.

(** CommonQType of two types is the least type both cast to, and exists when
    some type is above both; swapping the arguments changes nothing. *)
Theorem C62_common has_opt has_arr b x y : numbers_known has_opt has_arr -> known has_opt has_arr x -> known has_opt has_arr y ->
  common has_opt has_arr b (Some x) (Some y) = common has_opt has_arr b (Some y) (Some x) /\
  match common has_opt has_arr b (Some x) (Some y) with
  | Some z => least_upper has_opt has_arr b [x; y] z
  | None => forall w, ~ upper has_opt has_arr b [x; y] w
  end.
Proof.
  intros NK Kx Ky. assert (A : forall x y, known has_opt has_arr x -> known has_opt has_arr y -> match common has_opt has_arr b (Some x) (Some y) with
    | Some z => least_upper has_opt has_arr b [x; y] z | None => forall w, ~ upper has_opt has_arr b [x; y] w end).
  { clear x y Kx Ky. intros x y Kx Ky. exact (common_list_spec has_opt has_arr b [x; y] NK (Forall_cons _ Kx (Forall_cons _ Ky (Forall_nil _))) ltac:(discriminate)). }
  split; [|apply A; assumption].
  assert (U : forall x y w, upper has_opt has_arr b [x; y] w -> upper has_opt has_arr b [y; x] w).
  { intros u v w [K H]. split; [exact K|]. intros q [<-|[<-|[]]]; apply H; cbn; auto. }
  pose proof (A x y Kx Ky) as Hx. pose proof (A y x Ky Kx) as Hy.
  destruct (common _ _ b (Some x) (Some y)) as [z|]; destruct (common _ _ b (Some y) (Some x)) as [z'|].
  - f_equal. apply (least_upper_unique has_opt has_arr b [x; y]); [exact Hx|]. split; [apply U, Hy|]. intros w Hw. apply Hy, U, Hw.
  - destruct (Hy z). apply U, Hx.
  - destruct (Hx z'). apply U, Hy.
  - reflexivity.
Qed.
Print Assumptions C62_common.

(** The common type of a list is its least upper bound, whatever the order and
    however often a type is repeated. *)
Theorem C62_common_list has_opt has_arr b l : numbers_known has_opt has_arr -> Forall (known has_opt has_arr) l -> l <> [] ->
  match common_list has_opt has_arr b l with
  | Some z => least_upper has_opt has_arr b l z
  | None => forall w, ~ upper has_opt has_arr b l w
  end.
Proof. apply common_list_spec. Qed.
Print Assumptions C62_common_list.
Theorem C62_common_set has_opt has_arr b l l' : numbers_known has_opt has_arr -> Forall (known has_opt has_arr) l ->
  (forall x, In x l <-> In x l') -> common_list has_opt has_arr b l = common_list has_opt has_arr b l'.
Proof.
  intros NK K S. destruct l as [|q l]; [destruct l' as [|q' l']; [reflexivity|destruct (proj2 (S q') (or_introl eq_refl))]|].
  assert (N : l' <> []) by (intros ->; destruct (proj1 (S q) (or_introl eq_refl))).
  assert (K' : Forall (known has_opt has_arr) l') by (apply Forall_forall; intros x Hx; apply S in Hx; revert x Hx; apply Forall_forall; exact K).
  assert (U : forall w, upper has_opt has_arr b (q :: l) w <-> upper has_opt has_arr b l' w).
  { intros w. split; intros [Kw H]; (split; [exact Kw|]; intros x Hx; apply H, S, Hx). }
  pose proof (common_list_spec has_opt has_arr b _ NK K ltac:(discriminate)) as A. pose proof (common_list_spec has_opt has_arr b _ NK K' N) as B.
  destruct (common_list _ _ b (q :: l)) as [z|]; destruct (common_list _ _ b l') as [z'|].
  - f_equal. apply (least_upper_unique has_opt has_arr b (q :: l)); [exact A|]. split; [apply U, B|]. intros w Hw. apply B, U, Hw.
  - destruct (B z). apply U, A.
  - destruct (A z'). apply U, B.
  - reflexivity.
Qed.
Print Assumptions C62_common_set.

(** BroadcastQType keeps the values and takes the least shape above all of
    them.  It declines for an optional of something that is not a scalar. *)
Theorem C62_broadcast has_opt has_arr targets q r : known has_opt has_arr q ->
  (broadcast has_opt has_arr targets q = Some r <->
   exists sh v shs z, parts q sh v /\ Forall2 (fun t s => exists u, parts t s u) targets shs /\ least_shape (sh :: shs) z /\
     parts r z v /\ known has_opt has_arr r /\ (z = ShOpt -> exists s, v = QScal s)).
Proof.
  intros Kq. unfold broadcast. 
  assert (Sh : forall shs, Forall2 (fun t s => exists u, parts t s u) targets shs <-> Forall2 (fun t s => get_shape t = Some s) targets shs).
  { intros shs. split; intros F; induction F as [|t s ? ? H _ IH]; constructor; auto; [destruct H as (u & P); apply (parts_get _ _ _ P)|apply shape_parts, H]. }
  destruct (get_shape q) as [sh|] eqn:Es.
  - destruct (shape_parts _ _ Es) as (v & P). pose proof (fold_shape targets sh [sh]) as Fo. cbn [app] in Fo.
    assert (L : least_shape [sh] sh) by (split; [intros s [<-|[]]; constructor|intros w U; apply U; left; reflexivity]).
    specialize (Fo L). rewrite (proj1 (parts_get _ _ _ P)). destruct (fold_left _ targets (Some sh)) as [z|].
    + destruct Fo as (shs & F & Lz). cbn [bind]. split.
      * intros W. pose proof (with_value_parts has_opt has_arr z v r (known_value _ _ _ _ _ Kq P) W) as [Pr Kr].
        exists sh, v, shs, z. split; [exact P|]. split; [apply Sh, F|]. split; [exact Lz|]. split; [exact Pr|]. split; [exact Kr|].
        intros ->. pose proof (known_value _ _ _ _ _ Kq P) as N. destruct v; cbn in W; try discriminate; eauto. destruct (N v eq_refl).
      * intros (sh' & v' & shs' & z' & P' & F' & Lz' & Pr & Kr & G). destruct (parts_fun _ _ _ _ _ P P') as [<- <-].
        rewrite Sh in F'. rewrite (shapes_fun _ _ _ F' F) in Lz'. rewrite (least_shape_unique _ _ _ Lz' Lz) in Pr, G.
        apply with_value_known; auto. intros E. destruct (G E) as (s & ->). reflexivity.
    + cbn [bind]. split; [discriminate|]. intros (sh' & v' & shs' & z' & P' & F' & Lz' & _). destruct (parts_fun _ _ _ _ _ P P') as [<- <-].
      rewrite Sh in F'. destruct (Fo shs' z' F'). apply Lz'.
  - rewrite fold_shape_none. split; [discriminate|]. intros (sh' & v' & _ & _ & P' & _). apply parts_get in P'. destruct P'. congruence.
Qed.
Print Assumptions C62_broadcast.

(** WithValueQType: the type of the shape over the same scalars, if there is one;
    optional values are as good as the values themselves. *)
Theorem C62_with_value has_opt has_arr sh s v r : v = QScal s \/ v = QOpt (QScal s) /\ known has_opt has_arr v ->
  (with_value has_opt has_arr sh v = Some r <-> known has_opt has_arr r /\ match sh with ShScalar => r = v | _ => parts r sh (QScal s) end).
Proof.
  intros H. assert (N : forall u, QScal s <> QOpt u) by discriminate. destruct sh as [| |k]; destruct H as [->|[-> K]]; cbn.
  - split; [intros E; injection E as <-; cbn; auto|intros [_ ->]; reflexivity].
  - split; [intros E; injection E as <-; auto|intros [_ ->]; reflexivity].
  - unfold to_optional. cbn. destruct (has_opt (QScal s)) eqn:E; split.
    + intros R. injection R as <-. split; [cbn; auto|constructor].
    + intros [_ P]. inversion P; subst. reflexivity.
    + discriminate.
    + intros [K P]. inversion P; subst. destruct K as [K _]. congruence.
  - unfold to_optional. cbn. split; [intros R; injection R as <-; split; [exact K|constructor]|]. intros [_ P]. inversion P; subst. reflexivity.
  - destruct (has_arr k (QScal s)) eqn:E; split.
    + intros R. injection R as <-. split; [cbn; auto|constructor].
    + intros [_ P]. inversion P; subst. reflexivity.
    + discriminate.
    + intros [K P]. inversion P; subst. destruct K as [K _]. congruence.
  - destruct (has_arr k (QScal s)) eqn:E; split.
    + intros R. injection R as <-. split; [cbn; auto|constructor].
    + intros [_ P]. inversion P; subst. reflexivity.
    + discriminate.
    + intros [K' P]. inversion P; subst. destruct K' as [K' _]. congruence.
Qed.
Print Assumptions C62_with_value.

(** What a signature has to equal for an exact match: the shape stays, and weak
    floats are doubles; a derived type is its base. *)
Theorem C62_decay base q :
  (forall sh v, parts q sh v -> exists w, parts (decay base q) sh w /\ (v = QScal Weak -> w = QScal F64) /\ (v <> QScal Weak -> w = v)) /\
  (forall i, (q = QAtom i \/ exists v, q = QBox i v) -> decay base q = base i).
Proof.
  split.
  - intros sh v P. inversion P as [s|u|k u]; subst; [destruct s|destruct v as [[]| | | |]|destruct v as [[]| | | |]];
      eexists; (split; [constructor|split; [try discriminate; reflexivity|intros; congruence]]).
  - intros i [->|[v ->]]; reflexivity.
Qed.
Print Assumptions C62_decay.

(** FindMatchingSignature never reads outside its frontier, and returns the best
    signature when there is one; otherwise it says whether nothing fits, or which
    several incomparable signatures do. *)
Theorem C62_overload has_opt has_arr base ins out sigs :
  Forall (known has_opt has_arr) ins -> (forall s, In s sigs -> Forall (known has_opt has_arr) (s_in s)) ->
  exists r, find_sig has_opt has_arr base ins out sigs = Some r /\
  match r with
  | Found s => best (decay base) ins out sigs s
  | NotFound => forall c, In c sigs -> ~ exact (decay base) ins out c /\ ~ fits (decay base) ins out c
  | Ambiguous l => (forall s, ~ best (decay base) ins out sigs s) /\ 2 <= length l /\ NoDup l /\ forall s, In s l <-> minimal (decay base) ins out sigs s
  end.
Proof.
  intros Ki Ks. pose proof (search_ok has_opt has_arr base ins out Ki sigs [] [] []) as S. cbn [app] in S.
  assert (F0 : frontier has_opt has_arr [] []) by (split; [intros p []|split; [intros p []|constructor]]).
  specialize (S Ks (fun c H => match H with end)). 
  assert (E0 : forall c : sig, In c [] <-> In c [] /\ fits (decay base) ins out c) by (intros c; cbn; tauto).
  specialize (S E0 F0). unfold find_sig. destruct (search _ _ _ _ _ _ _) as [[s|fr]|]; [| |destruct S]; cbn [bind].
  - exists (Found s). split; [reflexivity|]. split; [apply S|left; apply S].
  - destruct S as [Nx (seen & Hs & F1 & F2 & F3)].
    assert (Kk : forall c, In c seen -> sknown has_opt has_arr c) by (intros c Hc; apply Hs in Hc; apply Ks, Hc).
    assert (Le : forall a c, In a seen -> In c seen -> (can_cast_all has_opt has_arr (s_in a) (s_in c) = true <-> Forall2 (casts true) (s_in a) (s_in c))).
    { intros a c Ha Hc. apply can_cast_all_iff; apply Kk; assumption. }
    destruct fr as [|f [|f' fr]].
    + exists NotFound. split; [reflexivity|]. intros c Hc. split; [auto|]. intros Fc. destruct (F2 c) as (x & [] & _). apply Hs. auto.
    + exists (Found f). split; [reflexivity|]. assert (Hf : In f seen) by (apply F1; left; reflexivity). pose proof (proj1 (Hs f) Hf) as [If Ff].
      split; [exact If|]. right. split; [exact Nx|]. split; [exact Ff|]. intros c Hc Fc. assert (Sc : In c seen) by (apply Hs; auto).
      destruct (F2 c Sc) as (x & [<-|[]] & L). apply Le; assumption.
    + exists (Ambiguous (f :: f' :: fr)). split; [reflexivity|]. split; [|split; [cbn; lia|split]].
      * intros s [Is [X|(_ & Fs & B)]]; [exact (Nx s Is X)|]. assert (Ss : In s seen) by (apply Hs; auto).
        destruct (F2 s Ss) as (g & Hg & L). pose proof (F1 g Hg) as Sg. apply (Le g s Sg Ss) in L.
        assert (A : forall h, In h (f :: f' :: fr) -> g = h).
        { intros h Hh. apply (antichain_le has_opt has_arr (f :: f' :: fr)); auto. apply Le; auto. eapply Forall2_casts_trans; [exact L|].
          pose proof (proj1 (Hs h) (F1 h Hh)) as [Ih Fh]. apply B; assumption. }
        assert (E : f = f') by (transitivity g; [symmetry|]; apply A; cbn; auto). subst f'.
        inversion F3 as [|? ? H _ E1]; subst. destruct (H f (or_introl eq_refl)) as [H1 _]. 
        assert (can_cast_all has_opt has_arr (s_in f) (s_in f) = true) by (apply le_refl, Kk, F1; left; reflexivity). congruence.
      * assert (NoD : forall l, (forall c, In c l -> In c seen) -> antichain has_opt has_arr l -> NoDup l).
        { intros l Hl A. induction A as [|x l H _ IH]; constructor; [|apply IH; intros c Hc; apply Hl; right; exact Hc].
          intros Hx. destruct (H x Hx) as [H1 _]. assert (can_cast_all has_opt has_arr (s_in x) (s_in x) = true) by (apply le_refl, Kk, Hl; left; reflexivity). congruence. }
        apply NoD; assumption.
      * intros s. split.
        -- intros H. pose proof (F1 s H) as Ss. pose proof (proj1 (Hs s) Ss) as [Is Fs]. split; [exact Is|]. split; [exact Fs|].
           intros c Ic Fc L. assert (Sc : In c seen) by (apply Hs; auto). destruct (F2 c Sc) as (g & Hg & Lg).
           pose proof (F1 g Hg) as Sg. apply (Le g c Sg Sc) in Lg.
           assert (g = s) by (apply (antichain_le has_opt has_arr (f :: f' :: fr)); auto; apply Le; auto; eapply Forall2_casts_trans; eauto). subst g.
           pose proof (Forall2_casts_antisym _ _ _ Lg L) as E. destruct c as [ci co], s as [si so], Fc as [Oc _], Fs as [Os _]. cbn in *. congruence.
        -- intros (Is & Fs & M). assert (Ss : In s seen) by (apply Hs; auto). destruct (F2 s Ss) as (g & Hg & Lg). pose proof (F1 g Hg) as Sg.
           apply (Le g s Sg Ss) in Lg. pose proof (proj1 (Hs g) Sg) as [Ig Fg]. rewrite <- (M g Ig Fg Lg). exact Hg.
Qed.
Print Assumptions C62_overload.

Lemma best_unique decayed ins out sigs s s' : best decayed ins out sigs s -> best decayed ins out sigs s' -> s = s'.
Proof.
  intros [I H] [I' H']. destruct s as [si so], s' as [si' so'].
  destruct H as [[E O]|(N & [O F] & B)]; destruct H' as [[E' O']|(N' & [O' F'] & B')]; cbn in *.
  - congruence.
  - destruct (N' _ I (conj E O)).
  - destruct (N _ I' (conj E' O')).
  - f_equal; [|congruence]. apply (Forall2_casts_antisym true); [apply (B _ I')|apply (B' _ I)]; split; assumption.
Qed.

(** The best signature is found whenever there is one, and the order in which
    the overloads were registered, or registered twice, does not matter. *)
Theorem C62_overload_order has_opt has_arr base ins out sigs sigs' :
  Forall (known has_opt has_arr) ins -> (forall s, In s sigs -> Forall (known has_opt has_arr) (s_in s)) -> (forall s, In s sigs <-> In s sigs') ->
  (forall s, find_sig has_opt has_arr base ins out sigs = Some (Found s) <-> best (decay base) ins out sigs s) /\
  match find_sig has_opt has_arr base ins out sigs, find_sig has_opt has_arr base ins out sigs' with
  | Some (Found s), Some (Found s') => s = s'
  | Some NotFound, Some NotFound => True
  | Some (Ambiguous l), Some (Ambiguous l') => Permutation l l'
  | _, _ => False
  end.
Proof.
  intros Ki Ks Eq.
  assert (Ks' : forall s, In s sigs' -> Forall (known has_opt has_arr) (s_in s)) by (intros s H; apply Ks, Eq, H).
  destruct (C62_overload has_opt has_arr base ins out sigs Ki Ks) as (r & E & H). destruct (C62_overload has_opt has_arr base ins out sigs' Ki Ks') as (r' & E' & H').
  assert (Bq : forall s, best (decay base) ins out sigs s <-> best (decay base) ins out sigs' s).
  { intros s. unfold best. rewrite (Eq s). split; (intros [I [X|(N & F & B)]]; split; [exact I|left; exact X|exact I|right]);
      (split; [intros c Hc; apply N, Eq, Hc|]; split; [exact F|]; intros c Hc; apply B, Eq, Hc). }
  assert (Mq : forall s, minimal (decay base) ins out sigs s <-> minimal (decay base) ins out sigs' s).
  { intros s. unfold minimal. rewrite (Eq s). split; (intros (I & F & B); split; [exact I|]; split; [exact F|]; intros c Hc; apply B, Eq, Hc). }
  assert (NB : forall sg s, (forall c, In c sg -> ~ exact (decay base) ins out c /\ ~ fits (decay base) ins out c) -> ~ best (decay base) ins out sg s).
  { intros sg s H0 [I [X|(_ & F & _)]]; destruct (H0 s I); contradiction. }
  rewrite E, E'. split.
  - intros s. split; [intros X; injection X as ->; exact H|]. intros B. destruct r as [s0| |l].
    + rewrite (best_unique _ _ _ _ _ _ B H). reflexivity.
    + destruct (NB _ _ H B).
    + destruct (proj1 H s B).
  - destruct r as [s| |l], r' as [s'| |l']; auto.
    + apply (best_unique _ _ _ _ _ _ H). apply Bq, H'.
    + apply (NB _ s H'), Bq, H.
    + apply (proj1 H' s), Bq, H.
    + apply (NB _ s' H), Bq, H'.
    + destruct l' as [|m l']; [destruct H' as (_ & L & _); cbn in L; lia|]. destruct H' as (_ & _ & _ & M). 
      destruct (proj1 (M m) (or_introl eq_refl)) as (I & F & _). apply Eq in I. destruct (H m I). contradiction.
    + apply (proj1 H s'), Bq, H'.
    + destruct l as [|m l]; [destruct H as (_ & L & _); cbn in L; lia|]. destruct H as (_ & _ & _ & M). 
      destruct (proj1 (M m) (or_introl eq_refl)) as (I & F & _). apply Eq in I. destruct (H' m I). contradiction.
    + apply NoDup_Permutation; [apply H|apply H'|]. intros x. destruct H as (_ & _ & _ & M), H' as (_ & _ & _ & M'). rewrite M, M'. apply Mq.
Qed.
Print Assumptions C62_overload_order.

(** ** Examples *)
Definition ho (q : qt) : bool := match q with QScal _ => true | QAtom 7 => true | _ => false end.
Definition ha (k : nat) (q : qt) : bool := match q with QScal _ => k <? 2 | _ => false end.
Example C62_ex_known : numbers_known ho ha /\ known ho ha (QArr 1 (QScal Weak)) /\ known ho ha (QOpt (QAtom 7)).
Proof.
  split; [|repeat split; discriminate]. intros s Hs. split; [reflexivity|]. intros k v H. destruct v; try discriminate. exact H.
Qed.
Example C62_ex_common : common ho ha true (Some (QOpt (QScal I64))) (Some (QArr 1 (QScal Weak))) = Some (QArr 1 (QScal F32)).
Proof. reflexivity. Qed.
Example C62_ex_no_broadcast : common ho ha false (Some (QOpt (QScal I64))) (Some (QArr 1 (QScal Weak))) = None.
Proof. reflexivity. Qed.
Example C62_ex_kinds : common_list ho ha true [QArr 0 (QScal I32); QScal F64; QArr 1 (QScal I32)] = None.
Proof. reflexivity. Qed.
Example C62_ex_list : common_list ho ha true [QScal I32; QArr 0 (QScal Weak); QOpt (QScal I64)] = Some (QArr 0 (QScal F32)).
Proof. reflexivity. Qed.
Example C62_ex_with_value : with_value ho ha (ShArr 1) (QOpt (QScal I64)) = Some (QArr 1 (QScal I64)) /\ with_value ho ha ShOpt (QOpt (QScal I64)) = Some (QOpt (QScal I64)).
Proof. split; reflexivity. Qed.
Example C62_ex_broadcast : broadcast ho ha [QOpt (QScal I64); QScal Text] (QScal I32) = Some (QOpt (QScal I32)).
Proof. reflexivity. Qed.
(** An optional expression quote is not even broadcast to itself, and a quote
    does not cast to an optional quote. *)
Example C62_ex_quote : broadcast ho ha [] (QOpt (QAtom 7)) = None /\ can_cast ho ha true (QAtom 7) (QOpt (QAtom 7)) = false /\ known ho ha (QOpt (QAtom 7)).
Proof. repeat split; discriminate. Qed.

Definition f2 (a b : qt) := mkS [a; b] (QScal Bool).
Definition find2 (a b : qt) := find_sig ho ha (fun i => QAtom i) [a; b] (QScal Bool).
Definition overloads := [f2 (QScal F64) (QScal F64); f2 (QOpt (QScal I64)) (QOpt (QScal F32)); f2 (QScal I64) (QScal F32); mkS [QScal I32; QScal I32] (QScal I32); f2 (QScal F32) (QScal I64)].
Example C62_ex_best : find2 (QScal I32) (QScal Weak) overloads = Some (Found (f2 (QScal I64) (QScal F32))).
Proof. reflexivity. Qed.
Example C62_ex_ambiguous : find2 (QScal I32) (QScal I64) overloads = Some (Ambiguous [f2 (QScal I64) (QScal F32); f2 (QScal F32) (QScal I64)]).
Proof. reflexivity. Qed.
Example C62_ex_not_found : find2 (QScal I32) (QScal Text) overloads = Some NotFound.
Proof. reflexivity. Qed.
(** A weak float alone matches a double exactly, before the float it casts to. *)
Example C62_ex_weak : find2 (QScal F64) (QScal Weak) (f2 (QScal F64) (QScal F32) :: overloads) = Some (Found (f2 (QScal F64) (QScal F64))).
Proof. reflexivity. Qed.
(** Without float arrays of a kind, the least type above an integer array and a
    weak float array is not found although a double array is above both. *)
Definition ha' (k : nat) (q : qt) : bool := match q with QScal F32 => false | QScal _ => true | _ => false end.
Example C62_common_incomplete_refuted : common ho ha' true (Some (QArr 0 (QScal I32))) (Some (QArr 0 (QScal Weak))) = None /\
  upper ho ha' true [QArr 0 (QScal I32); QArr 0 (QScal Weak)] (QArr 0 (QScal F64)).
Proof.
  split; [reflexivity|]. split; [split; [reflexivity|discriminate]|].
  intros x [<-|[<-|[]]]; apply (can_cast_iff ho ha'); repeat split; discriminate.
Qed.
