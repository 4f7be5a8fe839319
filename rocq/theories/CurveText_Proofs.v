From Coq Require Import Ascii String QArith Lia.
From Verif Require Import Base Strings_Model Strings_Proofs Repr_Model Naming_Model Curve_Model CurveText_Model CurveText_Spec.
Local Open Scope nat_scope.
Local Open Scope list_scope.

Lemma find_first_split s c i : find_first s c = Some i <-> exists a b, s = a ++ c :: b /\ List.length a = i /\ ~ In c a.
Proof.
  revert i. induction s as [|x t IH]; intros i; cbn [find_first].
  - split; [discriminate|]. intros (a & b & E & _). destruct a; discriminate.
  - destruct (Z.eqb_spec x c) as [->|N].
    + split.
      * injection 1 as <-. exists [], t. repeat split. intros [].
      * intros (a & b & E & L & NI). destruct a as [|y a]; [cbn in L; congruence|]. injection E as <- _. exfalso. apply NI. left. reflexivity.
    + destruct (find_first t c) as [j|]; cbn [bind].
      * split.
        -- injection 1 as <-. destruct (proj1 (IH j) eq_refl) as (a & b & -> & L & NI). exists (x :: a), b. cbn. repeat split; [congruence|]. intros [->|K]; tauto.
        -- intros (a & b & E & L & NI). destruct a as [|y a]; [injection E as -> _; tauto|]. injection E as <- E.
           f_equal. cbn in L. rewrite <- L. f_equal. assert (Some j = Some (List.length a)) as K; [|congruence].
           apply (IH (List.length a)). exists a, b. repeat split; [exact E|]. intros K. apply NI. right. exact K.
      * split; [discriminate|]. intros (a & b & E & L & NI). destruct a as [|y a]; [injection E as -> _; tauto|]. injection E as <- E.
        enough (@None nat = Some (List.length a)) by discriminate. apply (IH (List.length a)). exists a, b. repeat split; [exact E|]. intros K. apply NI. right. exact K.
Qed.
Lemma skipn_app_len {A} (a b : list A) : skipn (List.length a) (a ++ b) = b.
Proof. induction a; cbn; auto. Qed.
Lemma firstn_app_len {A} (a b : list A) : firstn (List.length a) (a ++ b) = a.
Proof. induction a; cbn; [reflexivity|]. f_equal. assumption. Qed.
Lemma find_from_pre pre s c : find_from (pre ++ s) c (List.length pre) = option_map (Nat.add (List.length pre)) (find_first s c).
Proof. unfold find_from. rewrite skipn_app_len. destruct (find_first s c); reflexivity. Qed.
Lemma char_is_pre pre s c : char_is (pre ++ s) (List.length pre) c = Some (match s with x :: _ => (x =? c)%Z | [] => false end).
Proof.
  unfold char_is. rewrite app_length. destruct s as [|x s].
  - destruct (Nat.ltb_spec (List.length pre) (List.length pre + List.length (@nil Z))) as [H|H]; [cbn in H; lia|reflexivity].
  - destruct (Nat.ltb_spec (List.length pre) (List.length pre + List.length (x :: s))) as [H|H]; [|cbn in H; lia].
    unfold rd. rewrite nth_error_app2 by lia. rewrite Nat.sub_diag. reflexivity.
Qed.

Section Text.
  Variable atod : list Z -> option num.

  (** [parse_point] on what is left *)
  Definition point_suffix (sep : Z) (s : list Z) (p : point) (rest : list Z) : Prop :=
    exists a b, s = lcurly :: a ++ sep :: b ++ rcurly :: rest /\ ~ In sep a /\ ~ In rcurly a /\ ~ In rcurly b /\ atod a = Some (px p) /\ atod b = Some (py p).

  Lemma parse_point_pre sep pre s : sep <> rcurly ->
    exists r, parse_point atod sep (pre ++ s) (List.length pre) = Some r /\
    match r with
    | inr (p, pos) => exists used rest, s = used ++ rest /\ pos = List.length (pre ++ used) /\ point_suffix sep s p rest
    | inl _ => forall p rest, ~ point_suffix sep s p rest
    end.
  Proof.
    intros NS. unfold parse_point. rewrite char_is_pre. cbn [bind]. destruct s as [|c s].
    { cbn [negb]. eexists. split; [reflexivity|]. intros p rest (a & b & E & _). discriminate. }
    destruct (Z.eqb_spec c lcurly) as [->|N]; cbn [negb].
    2: { eexists. split; [reflexivity|]. intros p rest (a & b & E & _). injection E as -> _. tauto. }
    assert (pre ++ lcurly :: s = (pre ++ [lcurly]) ++ s) as E0 by (rewrite <- app_assoc; reflexivity). rewrite E0.
    assert (S (List.length pre) = List.length (pre ++ [lcurly])) as L0 by (rewrite app_length; cbn; lia). rewrite L0.
    set (q := pre ++ [lcurly]) in *. rewrite !find_from_pre.
    assert (forall p rest, point_suffix sep (lcurly :: s) p rest -> exists a b, s = a ++ sep :: b ++ rcurly :: rest /\ find_first s sep = Some (List.length a) /\
      find_first s rcurly = Some (List.length a + 1 + List.length b) /\ atod a = Some (px p) /\ atod b = Some (py p)) as Inv.
    { intros p rest (a & b & E & N1 & N2 & N3 & A1 & A2). injection E as ->. exists a, b. split; [reflexivity|]. split; [apply find_first_split; eauto|]. split; [|auto].
      apply find_first_split. exists (a ++ sep :: b), rest. split; [rewrite <- app_assoc; reflexivity|]. split; [rewrite app_length; cbn; lia|].
      rewrite in_app_iff. cbn. intros [K|[K|K]]; tauto. }
    destruct (find_first s sep) as [i|] eqn:Ei; cbn [option_map].
    2: { eexists. split; [reflexivity|]. intros p rest H. destruct (Inv _ _ H) as (a & b & _ & K & _). discriminate. }
    destruct (find_first s rcurly) as [j|] eqn:Ej; cbn [option_map].
    2: { eexists. split; [reflexivity|]. intros p rest H. destruct (Inv _ _ H) as (a & b & _ & _ & K & _). discriminate. }
    destruct (Nat.ltb_spec (List.length q + j) (List.length q + i)) as [L|L].
    { eexists. split; [reflexivity|]. intros p rest H. destruct (Inv _ _ H) as (a & b & _ & K1 & K2 & _). injection K1 as ->. injection K2 as ->. lia. }
    destruct (proj1 (find_first_split _ _ _) Ei) as (a & t & -> & La & Na).
    destruct (proj1 (find_first_split _ _ _) Ej) as (a' & rest & Es & La' & Na').
    (* a' = a ++ sep :: b *)
    assert (exists b, a' = a ++ sep :: b /\ t = b ++ rcurly :: rest) as (b & -> & ->).
    { assert (firstn (List.length a) (a ++ sep :: t) = firstn (List.length a) (a' ++ rcurly :: rest)) as F by (rewrite Es; reflexivity).
      rewrite firstn_app_len in F. rewrite firstn_app in F. replace (List.length a - List.length a') with 0 in F by lia. rewrite firstn_O, app_nil_r in F.
      rewrite <- (firstn_skipn (List.length a) a') in Es. rewrite <- F, <- app_assoc in Es. apply app_inv_head in Es.
      destruct (skipn (List.length a) a') as [|x b] eqn:Sk; cbn in Es; injection Es as E1 E2; [congruence|]. exists b. split; [|exact E2].
      rewrite <- (firstn_skipn (List.length a) a'), <- F, Sk. congruence. }
    rewrite app_length in La'. cbn [List.length] in La'.
    assert (substr (q ++ a ++ sep :: b ++ rcurly :: rest) (List.length q) (List.length q + i - List.length q) = a) as S1.
    { unfold substr. rewrite skipn_app_len. replace (List.length q + i - List.length q) with (List.length a) by lia. apply firstn_app_len. }
    assert (substr (q ++ a ++ sep :: b ++ rcurly :: rest) (S (List.length q + i)) (List.length q + j - (List.length q + i) - 1) = b) as S2.
    { unfold substr. replace (q ++ a ++ sep :: b ++ rcurly :: rest) with ((q ++ a ++ [sep]) ++ b ++ rcurly :: rest) by (rewrite <- !app_assoc; reflexivity).
      replace (S (List.length q + i)) with (List.length (q ++ a ++ [sep])) by (rewrite !app_length; cbn; lia). rewrite skipn_app_len.
      replace (List.length q + j - (List.length q + i) - 1) with (List.length b) by lia. apply firstn_app_len. }
    rewrite S1, S2. clear S1 S2.
    assert (forall p r, point_suffix sep (lcurly :: a ++ sep :: b ++ rcurly :: rest) p r -> atod a = Some (px p) /\ atod b = Some (py p)) as Inv2.
    { intros p r H. destruct (Inv _ _ H) as (a2 & b2 & E & K1 & K2 & A1 & A2).
      assert (List.length a2 = List.length a) as L2 by congruence. assert (a2 = a) as ->.
      { rewrite <- (firstn_app_len a2 (sep :: b2 ++ rcurly :: r)), <- E, L2. apply firstn_app_len. }
      apply app_inv_head in E. injection E as E. assert (List.length b2 = List.length b) as L3 by (assert (j = List.length a + 1 + List.length b2) by congruence; lia).
      assert (b2 = b) as -> by (rewrite <- (firstn_app_len b2 (rcurly :: r)), <- E, L3; apply firstn_app_len). auto. }
    destruct (atod a) as [x|] eqn:A1; [|eexists; split; [reflexivity|]; intros p r H; destruct (Inv2 _ _ H); discriminate].
    destruct (atod b) as [y|] eqn:A2; [|eexists; split; [reflexivity|]; intros p r H; destruct (Inv2 _ _ H); discriminate].
    eexists. split; [reflexivity|]. cbn. exists (lcurly :: a ++ sep :: b ++ [rcurly]), rest. split; [cbn; rewrite <- !app_assoc; cbn; rewrite <- app_assoc; reflexivity|].
    split; [unfold q; rewrite !app_length; cbn [List.length]; rewrite !app_length; cbn [List.length]; rewrite app_length; cbn [List.length]; lia|].
    exists a, b. split; [reflexivity|]. split; [exact Na|]. rewrite in_app_iff in Na'. split; [tauto|]. split; [intros K; apply Na'; right; right; exact K|]. split; [exact A1|exact A2].
  Qed.

  (** The points after the first. *)
  Inductive more_suffix (sep : Z) : list Z -> list point -> list Z -> Prop :=
  | ms_end s : (match s with x :: _ => (x =? sep)%Z | [] => false end) = false -> more_suffix sep s [] s
  | ms_more s p rest ps last : point_suffix sep s p rest -> more_suffix sep rest ps last -> more_suffix sep (sep :: s) (p :: ps) last.

  Lemma point_suffix_fun sep s p q r1 r2 : point_suffix sep s p r1 -> point_suffix sep s q r2 -> p = q /\ r1 = r2.
  Proof.
    intros (a & b & E & N1 & N2 & N3 & A1 & A2) (a' & b' & E' & N1' & N2' & N3' & A1' & A2'). rewrite E in E'. injection E' as E'.
    assert (find_first (a ++ sep :: b ++ rcurly :: r1) sep = Some (List.length a)) as F1 by (apply find_first_split; eauto).
    assert (find_first (a ++ sep :: b ++ rcurly :: r1) sep = Some (List.length a')) as F2 by (rewrite E'; apply find_first_split; eauto).
    assert (a = a') as <-.
    { rewrite <- (firstn_app_len a (sep :: b ++ rcurly :: r1)), E'. replace (List.length a) with (List.length a') by congruence. apply firstn_app_len. }
    apply app_inv_head in E'. injection E' as E'.
    assert (find_first (b ++ rcurly :: r1) rcurly = Some (List.length b)) as F3 by (apply find_first_split; eauto).
    assert (find_first (b ++ rcurly :: r1) rcurly = Some (List.length b')) as F4 by (rewrite E'; apply find_first_split; eauto).
    assert (b = b') as <-.
    { rewrite <- (firstn_app_len b (rcurly :: r1)), E'. replace (List.length b) with (List.length b') by congruence. apply firstn_app_len. }
    apply app_inv_head in E'. injection E' as ->. split; [|reflexivity]. destruct p, q. cbn in *. congruence.
  Qed.

  Lemma points_loop_pre sep fuel : sep <> rcurly -> forall pre s acc, List.length s <= fuel ->
    exists r, points_loop atod fuel sep (pre ++ s) (List.length pre) acc = Some r /\
    match r with
    | inr (l, pos) => exists ps used last, l = acc ++ ps /\ s = used ++ last /\ pos = List.length (pre ++ used) /\ more_suffix sep s ps last
    | inl _ => forall ps last, ~ more_suffix sep s ps last
    end.
  Proof.
    intros NS. induction fuel as [|fu IH]; intros pre s acc L; cbn [points_loop]; rewrite char_is_pre; cbn [bind].
    - destruct s as [|c s]; [|cbn in L; lia]. cbn [negb]. eexists. split; [reflexivity|]. exists [], [], []. rewrite !app_nil_r. repeat split. constructor. reflexivity.
    - destruct s as [|c s].
      { cbn [negb]. eexists. split; [reflexivity|]. exists [], [], []. rewrite !app_nil_r. repeat split. constructor. reflexivity. }
      destruct (Z.eqb_spec c sep) as [->|N]; cbn [negb].
      2: { eexists. split; [reflexivity|]. exists [], [], (c :: s). rewrite !app_nil_r. repeat split. constructor. apply Z.eqb_neq. exact N. }
      assert (pre ++ sep :: s = (pre ++ [sep]) ++ s) as E0 by (rewrite <- app_assoc; reflexivity). rewrite E0.
      assert (S (List.length pre) = List.length (pre ++ [sep])) as L0 by (rewrite app_length; cbn; lia). rewrite L0.
      destruct (parse_point_pre sep (pre ++ [sep]) s NS) as (r & Er & Hr). rewrite Er. cbn [bind]. destruct r as [e|(p & pos)].
      { eexists. split; [reflexivity|]. intros ps last H. inversion H as [? K|? p rest ps' ? K1 K2]; subst; [rewrite Z.eqb_refl in K; discriminate|]. apply (Hr _ _ K1). }
      destruct Hr as (used & rest & Es & -> & Hp). rewrite Es, app_assoc.
      destruct (IH ((pre ++ [sep]) ++ used) rest (acc ++ [p])) as (r & Er2 & Hr2). { rewrite Es in L. cbn in L. rewrite app_length in L. lia. }
      rewrite Er2. eexists. split; [reflexivity|]. destruct r as [e|(l & pos)].
      + intros ps last H. inversion H as [? K|? p' rest' ps' ? K1 K2]; subst; [rewrite Z.eqb_refl in K; discriminate|].
        destruct (point_suffix_fun _ _ _ _ _ _ Hp K1) as (_ & <-). apply (Hr2 _ _ K2).
      + destruct Hr2 as (ps & used2 & last & -> & -> & -> & M). exists (p :: ps), (sep :: used ++ used2), last. rewrite <- !app_assoc. repeat split.
        * cbn. rewrite <- app_assoc. reflexivity.
        * rewrite <- Es. econstructor; [exact Hp|exact M].
  Qed.

  Lemma more_suffix_fun sep s ps qs r1 r2 : more_suffix sep s ps r1 -> more_suffix sep s qs r2 -> ps = qs /\ r1 = r2.
  Proof.
    intros H. revert qs r2. induction H as [s H|s p rest ps last Hp Hm IH]; intros qs r2 K.
    - inversion K as [? K1|? p rest ps ? K1 K2]; subst; [auto|]. rewrite Z.eqb_refl in H. discriminate.
    - inversion K as [? K1|? p' rest' ps' ? K1 K2]; subst; [rewrite Z.eqb_refl in K1; discriminate|].
      destruct (point_suffix_fun _ _ _ _ _ _ Hp K1) as (<- & <-). destruct (IH _ _ K2) as (<- & <-). auto.
  Qed.
  Let number a x := atod a = Some x.
  Lemma point_suffix_text sep s p rest : point_suffix sep s p rest -> exists u, s = u ++ rest /\ point_text number sep u p.
  Proof.
    intros (a & b & -> & _ & _ & _ & A1 & A2). exists (bytes "{" ++ a ++ [sep] ++ b ++ bytes "}"). split.
    - cbn. rewrite <- !app_assoc. cbn. rewrite <- app_assoc. reflexivity.
    - destruct p. constructor; assumption.
  Qed.
  Lemma more_suffix_text sep s ps last p rest : point_suffix sep s p rest -> more_suffix sep rest ps last -> exists u, s = u ++ last /\ points_text number sep u (p :: ps).
  Proof.
    intros Hp H. revert s p Hp. induction H as [r H|r q rest ps last Hq Hm IH]; intros s p Hp; destruct (point_suffix_text _ _ _ _ Hp) as (u & -> & Hu).
    - exists u. split; [reflexivity|]. constructor. exact Hu.
    - destruct (IH _ _ Hq) as (v & -> & Hv). exists (u ++ [sep] ++ v). split; [rewrite <- !app_assoc; reflexivity|]. constructor; assumption.
  Qed.
  Variable sep : Z.
  Hypothesis plain : forall a x, atod a = Some x -> ~ In sep a /\ ~ In rcurly a.
  Lemma point_text_suffix u p rest : point_text number sep u p -> point_suffix sep (u ++ rest) p rest.
  Proof.
    intros [a b x y Ha Hb]. exists a, b. destruct (plain _ _ Ha), (plain _ _ Hb). split; [|cbn; tauto].
    change (bytes "{") with [lcurly]. change (bytes "}") with [rcurly]. rewrite <- !app_assoc. reflexivity.
  Qed.
  Lemma points_text_suffix u ps last : points_text number sep u ps -> (match last with x :: _ => (x =? sep)%Z | [] => false end) = false ->
    exists p qs r, ps = p :: qs /\ point_suffix sep (u ++ last) p r /\ more_suffix sep r qs last.
  Proof.
    intros H L. induction H as [s p Hp|s p t ps Hp Ht IH].
    - exists p, [], last. split; [reflexivity|]. split; [apply point_text_suffix, Hp|constructor; exact L].
    - destruct IH as (q & qs & r & -> & K1 & K2). exists p, (q :: qs), (sep :: t ++ last). split; [reflexivity|]. split.
      + rewrite <- app_assoc. apply point_text_suffix, Hp.
      + econstructor; eassumption.
  Qed.

  Lemma parse_type_names s t : parse_type s = Some t <-> names s t.
  Proof.
    split.
    - unfold parse_type, type_by_name. cbn [map app find fst].
      repeat match goal with |- context [str_eqb ?a s] => let E := fresh in destruct (str_eqb a s) eqn:E; [apply str_eqb_ok in E; subst s; cbn [bind snd]; injection 1 as <-; constructor|] end.
      cbn [bind]. discriminate.
    - intros []; reflexivity.
  Qed.
  Lemma names_no_paren s t : names s t -> ~ In lparen s.
  Proof. intros []; vm_compute; intuition discriminate. Qed.

  Lemma separator_ok : valid_separator sep = true <-> separator sep.
  Proof.
    unfold valid_separator, separator. rewrite orb_true_iff, !Z.eqb_eq. change (bytes ";") with [semicolon]. change (bytes "|") with [bar].
    split; intros [H|H]; [left; congruence|right; congruence|left; congruence|right; congruence].
  Qed.

  Lemma parse_curve_ok s : exists r, parse_curve atod sep s = Some r /\
    match r with
    | inr (t, ps) => separator sep /\ curve_text number sep s t ps
    | inl _ => forall t ps, separator sep -> ~ curve_text number sep s t ps
    end.
  Proof.
    unfold parse_curve. destruct (valid_separator sep) eqn:V; cbn [negb].
    2: { eexists. split; [reflexivity|]. intros t ps H. apply separator_ok in H. congruence. }
    pose proof (proj1 separator_ok V) as SV.
    assert (sep <> rcurly) as NS by (intros ->; vm_compute in V; discriminate).
    assert (sep <> lcurly) as NS2 by (intros ->; vm_compute in V; discriminate).
    (* what a text of a curve looks like *)
    assert (forall t ps, curve_text number sep s t ps -> exists n p qs rest last, s = n ++ lparen :: lcurly :: rest /\ ~ In lparen n /\ parse_type n = Some t /\ ps = p :: qs /\
      point_suffix sep rest p last /\ more_suffix sep last qs [rcurly; rparen]) as Inv.
    { intros t ps [n t' u ps' Hn Hp]. destruct (points_text_suffix u ps' [rcurly; rparen] Hp) as (p & qs & r & -> & K1 & K2). { apply Z.eqb_neq. congruence. }
      exists n, p, qs, (u ++ [rcurly; rparen]), r. split; [reflexivity|]. split; [apply (names_no_paren _ _ Hn)|]. split; [apply parse_type_names, Hn|]. auto. }
    change (find_from s lparen 0) with (find_from ([] ++ s) lparen (List.length (@nil Z))). rewrite find_from_pre.
    destruct (find_first s lparen) as [i|] eqn:Ei; cbn [option_map].
    2: { eexists. split; [reflexivity|]. intros t ps _ H. destruct (Inv _ _ H) as (n & p & qs & rest & last & E & N & _).
         enough (@None nat = Some (List.length n)) by discriminate. rewrite <- Ei. apply find_first_split. eauto. }
    destruct (proj1 (find_first_split _ _ _) Ei) as (n & u & Es & Ln & Nn).
    assert (forall t ps, curve_text number sep s t ps -> exists p qs rest last, u = lcurly :: rest /\ parse_type n = Some t /\ ps = p :: qs /\
      point_suffix sep rest p last /\ more_suffix sep last qs [rcurly; rparen]) as Inv2.
    { intros t ps H. destruct (Inv _ _ H) as (n' & p & qs & rest & last & E & N & K). exists p, qs, rest, last.
      assert (Some i = Some (List.length n')) as L' by (rewrite <- Ei; apply find_first_split; eauto).
      assert (n = n') as <-. { rewrite <- (firstn_app_len n (lparen :: u)), <- Es, E. replace (List.length n) with (List.length n') by congruence. apply firstn_app_len. }
      rewrite Es in E. apply app_inv_head in E. injection E as ->. tauto. }
    cbn [List.length Nat.add]. replace (substr s 0 i) with n. 2: { unfold substr. cbn [skipn]. rewrite Es, <- Ln, firstn_app_len. reflexivity. }
    destruct (parse_type n) as [t|] eqn:Et.
    2: { eexists. split; [reflexivity|]. intros t ps _ H. destruct (Inv2 _ _ H) as (p & qs & rest & last & _ & K & _). discriminate. }
    assert (s = (n ++ [lparen]) ++ u) as Es1 by (rewrite <- app_assoc; exact Es).
    assert (S i = List.length (n ++ [lparen])) as Li by (rewrite app_length; cbn; lia). rewrite Li, Es1, char_is_pre. cbn [bind].
    destruct u as [|c u]. { cbn [negb]. eexists. split; [reflexivity|]. rewrite <- Es1. intros t' ps _ H. destruct (Inv2 _ _ H) as (p & qs & rest & last & K & _). discriminate. }
    destruct (Z.eqb_spec c lcurly) as [->|Nc]; cbn [negb].
    2: { eexists. split; [reflexivity|]. rewrite <- Es1. intros t' ps _ H. destruct (Inv2 _ _ H) as (p & qs & rest & last & K & _). injection K as -> _. tauto. }
    set (q := (n ++ [lparen]) ++ [lcurly]).
    assert ((n ++ [lparen]) ++ lcurly :: u = q ++ u) as Eq by (unfold q; rewrite <- !app_assoc; reflexivity).
    assert (S (List.length (n ++ [lparen])) = List.length q) as Lq by (unfold q; rewrite (app_length _ [lcurly]); cbn; lia). rewrite Lq, Eq.
    rewrite Eq in Es1. rewrite <- Es1 in *. 
    destruct (parse_point_pre sep q u NS) as (r & Er & Hr). rewrite Es1, Er. cbn [bind]. rewrite <- Es1.
    destruct r as [e|(p & pos)].
    { eexists. split; [reflexivity|]. intros t' ps _ H. destruct (Inv2 _ _ H) as (p & qs & rest & last & K & _ & _ & K2 & _). injection K as ->. apply (Hr _ _ K2). }
    destruct Hr as (used & rest & Eu & -> & Hp).
    assert (s = (q ++ used) ++ rest) as Es2 by (rewrite <- app_assoc, <- Eu; exact Es1).
    destruct (points_loop_pre sep (List.length s) NS (q ++ used) rest [p]) as (r & Er2 & Hr2). { rewrite Es2, app_length. lia. }
    replace (points_loop atod (List.length s) sep s (List.length (q ++ used)) [p]) with (Some r) by (rewrite <- Er2, <- Es2; reflexivity). clear Er2. cbn [bind].
    destruct r as [e|(l & pos)].
    { eexists. split; [reflexivity|]. intros t' ps _ H. destruct (Inv2 _ _ H) as (p' & qs & rest' & last & K & _ & _ & K1 & K2). injection K as <-.
      destruct (point_suffix_fun _ _ _ _ _ _ Hp K1) as (_ & <-). apply (Hr2 _ _ K2). }
    destruct Hr2 as (ps & used2 & last & -> & Erest & -> & Hm).
    assert (forall t' ps', curve_text number sep s t' ps' -> last = [rcurly; rparen]) as Inv3.
    { intros t' ps' H. destruct (Inv2 _ _ H) as (p' & qs & rest' & last' & K & _ & _ & K1 & K2). injection K as <-.
      destruct (point_suffix_fun _ _ _ _ _ _ Hp K1) as (_ & <-). apply (more_suffix_fun _ _ _ _ _ _ Hm K2). }
    assert (s = ((q ++ used) ++ used2) ++ last) as Es3 by (rewrite <- app_assoc, <- Erest; exact Es2).
    set (w := (q ++ used) ++ used2) in *.
    assert (forall k, rd s (List.length w + k) = rd last k) as Rd. { intros k. unfold rd. rewrite Es3, nth_error_app2 by lia. f_equal. lia. }
    assert (List.length s = List.length w + List.length last) as Ls by (rewrite Es3, app_length; reflexivity).
    assert (last <> [rcurly; rparen] -> forall t' ps', separator sep -> ~ curve_text number sep s t' ps') as No by (intros Nl t' ps' _ H; apply Nl; eapply Inv3; exact H).
    destruct last as [|c1 last].
    { cbn in Ls. replace (List.length w + 2 =? List.length s) with false by (symmetry; apply Nat.eqb_neq; lia). cbn [bind].
      replace (List.length w =? List.length s) with true by (symmetry; apply Nat.eqb_eq; lia). cbn [bind]. eexists. split; [reflexivity|]. refine (No _). discriminate. }
    destruct last as [|c2 last].
    { cbn in Ls. replace (List.length w + 2 =? List.length s) with false by (symmetry; apply Nat.eqb_neq; lia). cbn [bind].
      replace (List.length w =? List.length s) with false by (symmetry; apply Nat.eqb_neq; lia). pose proof (Rd 0) as R0. rewrite Nat.add_0_r in R0. rewrite R0. cbn [rd nth_error bind].
      replace (S (List.length w) =? List.length s) with true by (symmetry; apply Nat.eqb_eq; lia). cbn [bind]. destruct (negb (c1 =? rcurly)%Z); eexists; (split; [reflexivity|]); refine (No _); discriminate. }
    pose proof (Rd 0) as R0. rewrite Nat.add_0_r in R0. pose proof (Rd 1) as R1. cbn in Ls.
    replace (List.length w =? List.length s) with false by (symmetry; apply Nat.eqb_neq; lia).
    replace (S (List.length w) =? List.length s) with false by (symmetry; apply Nat.eqb_neq; lia).
    replace (S (List.length w)) with (List.length w + 1) by lia. rewrite R0, R1. cbn [rd nth_error bind].
    destruct last as [|c3 last].
    - replace (List.length w + 2 =? List.length s) with true by (symmetry; apply Nat.eqb_eq; cbn in Ls; lia). cbn [bind].
      destruct (Z.eqb_spec c1 rcurly) as [->|N1]; cbn [andb negb]; [|eexists; split; [reflexivity|]; refine (No _); congruence].
      destruct (Z.eqb_spec c2 rparen) as [->|N2]; cbn [andb negb]; [|eexists; split; [reflexivity|]; refine (No _); congruence].
      eexists. split; [reflexivity|]. split; [exact SV|].
      destruct (more_suffix_text _ _ _ _ _ _ Hp Hm) as (v & Ev & Hv).
      replace s with (n ++ bytes "({" ++ v ++ bytes "})"). { constructor; [apply parse_type_names, Et|exact Hv]. }
      rewrite Es1, Ev. unfold q. rewrite <- !app_assoc. reflexivity.
    - replace (List.length w + 2 =? List.length s) with false by (symmetry; apply Nat.eqb_neq; cbn in Ls; lia). cbn [bind].
      destruct (negb (c1 =? rcurly)%Z); [eexists; split; [reflexivity|]; refine (No _); discriminate|].
      destruct (negb (c2 =? rparen)%Z); eexists; (split; [reflexivity|]); refine (No _); discriminate.
  Qed.
  Lemma curve_text_fun s t ps t' ps' : separator sep -> curve_text number sep s t ps -> curve_text number sep s t' ps' -> t = t' /\ ps = ps'.
  Proof.
    intros V H H'. apply separator_ok in V.
    assert (forall t ps, curve_text number sep s t ps -> exists n p qs rest last, s = n ++ lparen :: lcurly :: rest /\ ~ In lparen n /\ parse_type n = Some t /\ ps = p :: qs /\
      point_suffix sep rest p last /\ more_suffix sep last qs [rcurly; rparen]) as Inv.
    { intros t1 ps1 [n t0 u ps0 Hn Hp]. destruct (points_text_suffix u ps0 [rcurly; rparen] Hp) as (p & qs & r & -> & K1 & K2). { apply Z.eqb_neq. intros K. rewrite <- K in V. discriminate. }
      exists n, p, qs, (u ++ [rcurly; rparen]), r. split; [reflexivity|]. split; [apply (names_no_paren _ _ Hn)|]. split; [apply parse_type_names, Hn|]. auto. }
    destruct (Inv _ _ H) as (n & p & qs & rest & last & E & N & K1 & -> & K2 & K3). destruct (Inv _ _ H') as (n' & p' & qs' & rest' & last' & E' & N' & K1' & -> & K2' & K3').
    assert (find_first s lparen = Some (List.length n)) as F by (apply find_first_split; eauto).
    assert (find_first s lparen = Some (List.length n')) as F' by (apply find_first_split; eauto).
    assert (n = n') as <-. { rewrite <- (firstn_app_len n (lparen :: lcurly :: rest)), <- E, E'. replace (List.length n) with (List.length n') by congruence. apply firstn_app_len. }
    rewrite E in E'. apply app_inv_head in E'. injection E' as <-. destruct (point_suffix_fun _ _ _ _ _ _ K2 K2') as (<- & <-).
    destruct (more_suffix_fun _ _ _ _ _ _ K3 K3') as (<- & _). split; congruence.
  Qed.
  Theorem parse_curve_iff s t ps : parse_curve atod sep s = Some (inr (t, ps)) <-> separator sep /\ curve_text number sep s t ps.
  Proof.
    destruct (parse_curve_ok s) as (r & Er & Hr). rewrite Er. destruct r as [e|(t' & ps')].
    - split; [discriminate|]. intros (V & H). exfalso. apply (Hr _ _ V H).
    - split; [injection 1 as <- <-; exact Hr|]. intros (V & H). destruct Hr as (_ & H'). destruct (curve_text_fun _ _ _ _ _ V H H') as (<- & <-). reflexivity.
  Qed.
End Text.
