(** The texts of curves are read and written faithfully. *)
From Coq Require Import Ascii String QArith Lia.
From Verif Require Import Base Strings_Model Repr_Model Naming_Model Curve_Model Curve_Spec Curve_Num Curve_Accept Curve_Props CurveText_Model CurveText_Spec CurveText_Proofs.
Local Open Scope nat_scope.
Local Open Scope list_scope.

Lemma plain_sep atod sep : plain atod -> separator sep -> forall a x, atod a = Some x -> ~ In sep a /\ ~ In rcurly a.
Proof.
  intros P V a x H. split; apply (P a x H).
  - destruct V as [V|V]; cbn in V; injection V as ->; cbn; auto.
  - cbn; auto.
Qed.

(** Reading is defined for every text, whatever the separator. *)
Theorem C72_total atod sep s : plain atod -> exists r, parse_curve atod sep s = Some r.
Proof.
  intros P. destruct (valid_separator sep) eqn:V.
  - destruct (parse_curve_ok atod sep (plain_sep atod sep P (proj1 (separator_ok sep) V)) s) as (r & E & _). eauto.
  - unfold parse_curve. rewrite V. eexists. reflexivity.
Qed.
Print Assumptions C72_total.

(** Exactly the texts of the grammar are accepted, with the numbers they say. *)
Theorem C72_accept atod sep s t ps : plain atod -> separator sep ->
  (parse_curve atod sep s = Some (inr (t, ps)) <-> curve_text (reads atod) sep s t ps).
Proof. intros P V. pose proof (parse_curve_iff atod sep (plain_sep atod sep P V) s t ps) as H. unfold reads. tauto. Qed.
Print Assumptions C72_accept.
Theorem C72_other_separator atod sep s t ps : plain atod -> ~ separator sep -> parse_curve atod sep s <> Some (inr (t, ps)).
Proof.
  intros _ V. unfold parse_curve. destruct (valid_separator sep) eqn:E; [exfalso; apply V, separator_ok, E|]. discriminate.
Qed.
Print Assumptions C72_other_separator.

(** One digit, for the examples. *)
Definition digit (a : list Z) : option num := match a with [c] => if ((48 <=? c) && (c <=? 57))%Z then Some (Fin (inject_Z (c - 48))) else None | _ => None end.
Lemma digit_plain : plain digit.
Proof.
  intros a x H c Hc K. unfold digit in H. destruct a as [|d [|]]; try discriminate. destruct K as [->|[]].
  destruct ((48 <=? c) && (c <=? 57))%Z eqn:E; [|discriminate]. apply andb_true_iff in E. destruct E as [E1 E2]. apply Z.leb_le in E1, E2.
  cbn in Hc. destruct Hc as [<-|[<-|[<-|[]]]]; lia.
Qed.
Definition D (z : Z) : num := Fin (inject_Z z).
Example C72_accept_ex : plain digit /\
  parse_curve digit semicolon (bytes "LogP1PWLCurve({{0;1};{2;5}})") = Some (inr (Log1pPWLCurve, [mkPt (D 0) (D 1); mkPt (D 2) (D 5)])) /\
  parse_curve digit bar (bytes "PWLCurve({{3|4}})") = Some (inr (PWLCurve, [mkPt (D 3) (D 4)])) /\
  parse_curve digit semicolon (bytes "PWLCurve({})") = Some (inl MissingOpeningCurlyForPoint) /\
  parse_curve digit semicolon (bytes "PWLCurve({{3;4};})") = Some (inl MissingOpeningCurlyForPoint) /\
  parse_curve digit semicolon (bytes "PWLCurve({{3;4}}) ") = Some (inl TrailingJunk) /\
  parse_curve digit 44 (bytes "PWLCurve({{3,4}})") = Some (inl InvalidSeparatorChar).
Proof. split; [apply digit_plain|]. vm_compute. repeat split. Qed.

(** A curve is what its text makes. *)
Lemma points_shown atod show ps : Forall (fun p => kept atod show (px p) /\ kept atod show (py p)) ps -> ps <> [] ->
  points_text (reads atod) semicolon (join [semicolon] (map (point_to_string show) ps)) ps.
Proof.
  intros H N. induction H as [|p ps (Kx & Ky) H IH]; [contradiction|].
  assert (point_text (reads atod) semicolon (point_to_string show p) p) as Hp. { destruct p as [x y]. exact (pt (reads atod) semicolon (show x) (show y) x y Kx Ky). }
  destruct ps as [|q ps]; [constructor; exact Hp|]. constructor; [exact Hp|]. apply IH. discriminate.
Qed.
Theorem C72_round_trip atod log log1p show t ps c : plain atod ->
  new_curve log log1p t ps = Some (inr c) -> (forall p, In p ps -> kept atod show (px p) /\ kept atod show (py p)) ->
  new_curve_of_text atod log log1p (to_string show c) = Some (inr c).
Proof.
  intros P Hc K. unfold new_curve_of_text, new_curve_with_separator.
  assert (c = mkTC t ps (tc_curve c) /\ ps <> []) as (Ec & N).
  { unfold new_curve in Hc. destruct ps as [|p ps]; [discriminate|]. destruct (build (hook_of log log1p t) (p :: ps)) as [[?|c']|]; cbn [bind] in Hc; try discriminate. injection Hc as <-. split; [reflexivity|discriminate]. }
  assert (parse_curve atod semicolon (to_string show c) = Some (inr (t, ps))) as E.
  { apply (C72_accept atod semicolon (to_string show c) t ps P); [left; reflexivity|]. rewrite Ec. unfold to_string. cbn [tc_type tc_points].
    apply (ct (reads atod) semicolon (type_name t) t (join [semicolon] (map (point_to_string show) ps)) ps); [destruct t; constructor|].
    apply points_shown; [apply Forall_forall; exact K|exact N]. }
  rewrite E. cbn [bind]. exact Hc.
Qed.
Print Assumptions C72_round_trip.
Definition show_digit (x : num) : list Z := match x with Fin q => [(48 + Qnum q)%Z] | _ => [] end.
Example C72_round_trip_ex : let ps := [mkPt (D 0) (D 1); mkPt (D 2) (D 5)] in
  (exists c, new_curve (fun x => x) (fun x => x) Log1pPWLCurve ps = Some (inr c) /\ to_string show_digit c = bytes "Log1pPWLCurve({{0;1};{2;5}})") /\
  (forall p, In p ps -> kept digit show_digit (px p) /\ kept digit show_digit (py p)).
Proof.
  split; [eexists; split; vm_compute; reflexivity|]. intros p H. cbn in H. destruct H as [<-|[<-|[]]]; split; vm_compute; reflexivity.
Qed.

(** Different accepted curves have different texts. *)
Theorem C72_injective atod log log1p show t ps c t' ps' c' : plain atod ->
  new_curve log log1p t ps = Some (inr c) -> (forall p, In p ps -> kept atod show (px p) /\ kept atod show (py p)) ->
  new_curve log log1p t' ps' = Some (inr c') -> (forall p, In p ps' -> kept atod show (px p) /\ kept atod show (py p)) ->
  to_string show c = to_string show c' -> c = c'.
Proof.
  intros P H1 K1 H2 K2 E. pose proof (C72_round_trip _ _ _ _ _ _ _ P H1 K1) as R1. pose proof (C72_round_trip _ _ _ _ _ _ _ P H2 K2) as R2. rewrite E in R1. congruence.
Qed.
Print Assumptions C72_injective.

(** The separator in use. *)
Lemma loop_used allowed s used : ~ In (-1)%Z allowed -> NoDup allowed -> used <> (-1)%Z -> separator_loop allowed s used = inr used /\ (forall c, In c allowed -> ~ In c s) \/
  separator_loop allowed s used = inl (-1)%Z /\ exists c, In c allowed /\ In c s.
Proof.
  intros N1 ND Nu. induction allowed as [|c t IH]; cbn [separator_loop].
  - left. split; [reflexivity|]. intros c [].
  - destruct (existsb (Z.eqb c) s) eqn:E; cbn [negb].
    + rewrite (proj2 (Z.eqb_neq used (-1)) Nu). right. split; [reflexivity|]. exists c. split; [left; reflexivity|]. apply existsb_exists in E. destruct E as (x & Hx & Ex). apply Z.eqb_eq in Ex. congruence.
    + assert (~ In c s) as Nc. { intros K. assert (existsb (Z.eqb c) s = true) by (apply existsb_exists; exists c; split; [exact K|apply Z.eqb_refl]). congruence. }
      inversion ND; subst. destruct IH as [(E2 & H)|(E2 & d & Hd & Hs)]; [intros K; apply N1; right; exact K|assumption|left|right]; (split; [exact E2|]).
      * intros d [<-|Hd]; auto.
      * exists d. split; [right; exact Hd|exact Hs].
Qed.
Lemma loop_unused allowed s : ~ In (-1)%Z allowed -> NoDup allowed ->
  separator_loop allowed s (-1)%Z = inr (-1)%Z /\ (forall c, In c allowed -> ~ In c s) \/
  (exists c, separator_loop allowed s (-1)%Z = inr c /\ In c allowed /\ In c s /\ forall d, In d allowed -> In d s -> d = c) \/
  (separator_loop allowed s (-1)%Z = inl (-1)%Z /\ exists c d, c <> d /\ In c allowed /\ In c s /\ In d allowed /\ In d s).
Proof.
  intros N1 ND. induction allowed as [|c t IH]; cbn [separator_loop].
  - left. split; [reflexivity|]. intros c [].
  - inversion ND as [|? ? Nt NDt]; subst. assert (~ In (-1)%Z t) as N1t by (intros K; apply N1; right; exact K). destruct (existsb (Z.eqb c) s) eqn:E; cbn [negb].
    + assert (In c s) as Hc. { apply existsb_exists in E. destruct E as (x & Hx & Ex). apply Z.eqb_eq in Ex. congruence. }
      change ((-1 =? -1)%Z) with true. cbn iota. right.
      destruct (loop_used t s c N1t NDt) as [(E2 & H)|(E2 & d & Hd & Hs)]; [intros ->; apply N1; left; reflexivity|left|right].
      * exists c. split; [exact E2|]. split; [left; reflexivity|]. split; [exact Hc|]. intros d [<-|Hd] Hs; [reflexivity|]. exfalso. apply (H d Hd Hs).
      * split; [exact E2|]. exists c, d. split; [intros <-; tauto|]. split; [left; reflexivity|]. split; [exact Hc|]. split; [right; exact Hd|exact Hs].
    + assert (~ In c s) as Nc. { intros K. assert (existsb (Z.eqb c) s = true) by (apply existsb_exists; exists c; split; [exact K|apply Z.eqb_refl]). congruence. }
      destruct (IH N1t NDt) as [(E2 & H)|[(d & E2 & Hd & Hs & U)|(E2 & d & e & Ne & H1 & H2 & H3 & H4)]].
      * left. split; [exact E2|]. intros d [<-|Hd]; auto.
      * right. left. exists d. split; [exact E2|]. split; [right; exact Hd|]. split; [exact Hs|]. intros x [<-|Hx] K; [contradiction|]. apply U; assumption.
      * right. right. split; [exact E2|]. exists d, e. cbn. auto 10.
Qed.
(** The result is -1 if there is nothing to choose from or more than one is used; the one that is
    used; or the first if none is. *)
Theorem C72_separator allowed s : ~ In (-1)%Z allowed -> NoDup allowed -> forall c,
  (find_separator_used allowed s = c <->
   (allowed = [] /\ c = (-1)%Z) \/
   ((exists a b, a <> b /\ In a allowed /\ In a s /\ In b allowed /\ In b s) /\ c = (-1)%Z) \/
   (In c allowed /\ In c s /\ forall d, In d allowed -> In d s -> d = c) \/
   ((exists rest, allowed = c :: rest) /\ forall d, In d allowed -> ~ In d s)).
Proof.
  intros N1 ND c. destruct allowed as [|first rest].
  { cbn. split; [intros <-; left; auto|]. intros [(_ & ->)|[((a & b & _ & [] & _) & _)|[([] & _)|((r & E) & _)]]]; [reflexivity|discriminate]. }
  unfold find_separator_used. pose proof (loop_unused (first :: rest) s N1 ND) as L. set (allowed := first :: rest) in *.
  destruct L as [(-> & H)|[(d & -> & Hd & Hs & U)|(-> & a & b & Ne & H1 & H2 & H3 & H4)]].
  - cbn [Z.eqb Pos.eqb]. split.
    + intros <-. right. right. right. split; [exists rest; reflexivity|exact H].
    + intros [(E & _)|[((a & b & _ & H1 & H2 & _) & _)|[(H1 & H2 & _)|((r & E) & _)]]]; [discriminate|exfalso; apply (H a H1 H2)|exfalso; apply (H c H1 H2)|]. unfold allowed in E. congruence.
  - assert (d <> (-1)%Z) as Nd by (intros ->; tauto). rewrite (proj2 (Z.eqb_neq d (-1)) Nd). split.
    + intros <-. right. right. left. auto.
    + intros [(E & _)|[((a & b & Ne & H1 & H2 & H3 & H4) & _)|[(H1 & H2 & K)|(_ & K)]]]; [discriminate|exfalso; apply Ne; rewrite (U a H1 H2), (U b H3 H4); reflexivity|apply K; assumption|exfalso; apply (K d Hd Hs)].
  - split.
    + intros <-. right. left. split; [|reflexivity]. exists a, b. auto.
    + intros [(E & _)|[(_ & ->)|[(_ & _ & K)|(_ & K)]]]; [discriminate|reflexivity|exfalso; apply Ne; rewrite (K a H1 H2), (K b H3 H4); reflexivity|exfalso; apply (K a H1 H2)].
Qed.
Print Assumptions C72_separator.
Example C72_separator_ex : find_separator_used (bytes ";|") (bytes "{1|2}") = bar /\ find_separator_used (bytes ";|") (bytes "{1;2}") = semicolon /\
  find_separator_used (bytes ";|") (bytes "12") = semicolon /\ find_separator_used (bytes ";|") (bytes "1;2|3") = (-1)%Z.
Proof. vm_compute. repeat split. Qed.

(** With both separators allowed, a text is read with the one it is written with. *)
Lemma text_chars atod sep c s t ps : plain atod -> separator c -> curve_text (reads atod) sep s t ps -> c <> sep -> ~ In c s.
Proof.
  intros P V [n t' u ps' Hn Hu] Nc.
  assert (forall l, (l = bytes "({" \/ l = bytes "})" \/ l = bytes "{" \/ l = bytes "}") -> ~ In c l) as K.
  { intros l Hl. destruct V as [V|V]; cbn in V; injection V as ->; destruct Hl as [->|[->|[->| ->]]]; cbn; intuition discriminate. }
  assert (~ In c n) as K0. { destruct V as [V|V]; cbn in V; injection V as ->; destruct Hn; vm_compute; intuition discriminate. }
  assert (forall a x, reads atod a x -> ~ In c a) as K1. { intros a x H. apply (plain_sep atod c P V a x H). }
  assert (forall a p, point_text (reads atod) sep a p -> ~ In c a) as K2.
  { intros a p [a1 b1 x y Ha Hb]. rewrite !in_app_iff. intros [H|[H|[[H|[]]|[H|H]]]]; [apply (K (bytes "{")) in H; auto|apply (K1 _ _ Ha H)|congruence|apply (K1 _ _ Hb H)|apply (K (bytes "}")) in H; auto]. }
  assert (~ In c u) as K3. { induction Hu as [s1 p Hp|s1 p t1 ps1 Hp Ht IH]; [apply (K2 _ _ Hp)|]. rewrite !in_app_iff. intros [H|[[H|[]]|H]]; [apply (K2 _ _ Hp H)|congruence|apply (IH H)]. }
  rewrite !in_app_iff. intros [H|[H|[H|H]]]; [tauto|apply (K (bytes "({")) in H; auto|tauto|apply (K (bytes "})")) in H; auto].
Qed.
Lemma text_sep number sep s t ps : curve_text number sep s t ps -> In sep s.
Proof.
  intros [n t' u ps' _ Hu]. rewrite !in_app_iff. right. right. left. destruct Hu as [s0 p [a b x y _ _]|s0 p t0 qs [a b x y _ _] _]; rewrite !in_app_iff; cbn; auto 10.
Qed.
Theorem C72_either atod log log1p sep s t ps : plain atod -> separator sep -> curve_text (reads atod) sep s t ps ->
  new_curve_with_allowed atod log log1p (bytes ";|") s = new_curve log log1p t ps.
Proof.
  intros P V H. unfold new_curve_with_allowed.
  assert (find_separator_used (bytes ";|") s = sep) as E.
  { apply C72_separator.
    - cbn. intuition discriminate.
    - repeat constructor; cbn; intuition discriminate.
    - right. right. left. split; [destruct V as [V|V]; cbn in V; injection V as ->; cbn; auto|]. split; [apply (text_sep _ _ _ _ _ H)|].
      intros d Hd Hs. destruct (Z.eq_dec d sep) as [|Nd]; [assumption|]. exfalso. apply (text_chars atod sep d s t ps P); [|exact H|exact Nd|exact Hs].
      cbn in Hd. destruct Hd as [<-|[<-|[]]]; [left|right]; reflexivity. }
  rewrite E. replace (sep =? -1)%Z with false by (destruct V as [V|V]; cbn in V; injection V as ->; reflexivity).
  unfold new_curve_with_separator. rewrite (proj2 (C72_accept atod sep s t ps P V) H). reflexivity.
Qed.
Print Assumptions C72_either.
Theorem C72_neither atod log log1p s c : plain atod -> new_curve_with_allowed atod log log1p (bytes ";|") s = Some (inr c) ->
  exists sep t ps, separator sep /\ curve_text (reads atod) sep s t ps /\ new_curve log log1p t ps = Some (inr c).
Proof.
  intros P. unfold new_curve_with_allowed. destruct (find_separator_used (bytes ";|") s =? -1)%Z; [discriminate|]. set (sep := find_separator_used (bytes ";|") s).
  unfold new_curve_with_separator. destruct (parse_curve atod sep s) as [[e|(t, ps)]|] eqn:E; cbn [bind]; try discriminate. intros H.
  assert (separator sep) as V. { apply separator_ok. unfold parse_curve in E. destruct (valid_separator sep); [reflexivity|discriminate]. }
  exists sep, t, ps. split; [exact V|]. split; [|exact H]. apply (C72_accept atod sep s t ps P V), E.
Qed.
Print Assumptions C72_neither.
Example C72_either_ex : curve_text (reads digit) bar (bytes "PWLCurve({{3|4}|{5|6}})") PWLCurve [mkPt (D 3) (D 4); mkPt (D 5) (D 6)].
Proof. apply (C72_accept digit bar); [apply digit_plain|right; reflexivity|]. vm_compute. reflexivity. Qed.

(** Lists of coordinates. *)
Lemma zip_loop xs ys : forall n acc, n + List.length acc = List.length xs -> List.length xs = List.length ys -> map px acc = firstn (List.length acc) xs -> map py acc = firstn (List.length acc) ys ->
  exists ps, fold_left (fun acc i => let? ps := acc in let? x := rd xs i in let? y := rd ys i in Some (ps ++ [mkPt x y])) (seq (List.length acc) n) (Some acc) = Some ps /\ map px ps = xs /\ map py ps = ys.
Proof.
  intros n. induction n as [|n IH]; intros acc L E Hx Hy; cbn [seq fold_left].
  - exists acc. split; [reflexivity|]. cbn in L. rewrite Hx, Hy, L. split; [apply firstn_all|rewrite E; apply firstn_all].
  - destruct (rd_lt xs (List.length acc)) as (x & Ex); [lia|]. destruct (rd_lt ys (List.length acc)) as (y & Ey); [lia|]. cbn [bind]. rewrite Ex, Ey. cbn [bind].
    assert (forall l (z : num), rd l (List.length acc) = Some z -> firstn (List.length acc) l ++ [z] = firstn (S (List.length acc)) l) as F.
    { intros l z Hz. revert Hz. generalize (List.length acc). intros k. revert l. induction k as [|k IHk]; intros l Hz; destruct l as [|w l]; try discriminate; cbn in Hz.
      - injection Hz as ->. reflexivity.
      - cbn [firstn app]. f_equal. apply IHk, Hz. }
    destruct (IH (acc ++ [mkPt x y])) as (ps & Ep & H); [rewrite app_length; cbn; lia|exact E|rewrite map_app, app_length, Hx, Nat.add_1_r; apply F, Ex|rewrite map_app, app_length, Hy, Nat.add_1_r; apply F, Ey|].
    exists ps. rewrite app_length, Nat.add_1_r in Ep. split; [exact Ep|exact H].
Qed.
Theorem C72_coordinates log log1p t xs ys :
  (List.length xs <> List.length ys -> new_curve_of_coordinates log log1p t xs ys = Some (inl tt)) /\
  (List.length xs = List.length ys -> exists ps, map px ps = xs /\ map py ps = ys /\ new_curve_of_coordinates log log1p t xs ys = new_curve log log1p t ps).
Proof.
  unfold new_curve_of_coordinates. split; intros H.
  - rewrite (proj2 (Nat.eqb_neq _ _) H). reflexivity.
  - rewrite (proj2 (Nat.eqb_eq _ _) H). cbn [negb]. destruct (zip_loop xs ys (List.length xs) []) as (ps & E & Hx & Hy); [cbn; lia|exact H|reflexivity|reflexivity|].
    cbn [List.length] in E. rewrite E. exists ps. auto.
Qed.
Print Assumptions C72_coordinates.
Example C72_coordinates_ex : exists c, new_curve_of_coordinates (fun x => x) (fun x => x) PWLCurve [D 0; D 1] [D 5; D 6] = Some (inr c) /\ tc_points c = [mkPt (D 0) (D 5); mkPt (D 1) (D 6)].
Proof. eexists. split; vm_compute; reflexivity. Qed.

(** A separator listed twice counts as two. *)
Theorem C72_listed_twice_refuted : exists allowed s, (exists c, In c allowed /\ In c s /\ forall d, In d allowed -> In d s -> d = c) /\ find_separator_used allowed s = (-1)%Z.
Proof.
  exists (bytes ";;"), (bytes "{1;2}"). split; [|vm_compute; reflexivity]. exists semicolon. split; [left; reflexivity|]. split; [right; right; left; reflexivity|].
  intros d Hd _. cbn in Hd. destruct Hd as [<-|[<-|[]]]; reflexivity.
Qed.
Print Assumptions C72_listed_twice_refuted.

(** ** The curve of a text is the one of its type through its points. *)
Lemma axis_ok log log1p t x : h_in (hook_of log log1p t) x = axis log log1p t x.
Proof. destruct t, x; cbn; try reflexivity; unfold neg; try reflexivity. assert (num_le (Fin 0) (Fin q) = Qle_bool 0 q) as ->; [|destruct (Qle_bool 0 q); reflexivity].
  destruct (Qle_bool 0 q) eqn:E.
  - apply Qle_bool_iff in E. apply num_le_ok. unfold nle. cbn. destruct (Qle_lt_or_eq _ _ E); auto.
  - destruct (num_le (Fin 0) (Fin q)) eqn:E2; [|reflexivity]. apply num_le_ok in E2. enough (Qle_bool 0 q = true) by congruence. apply Qle_bool_iff. destruct E2 as [H|H]; cbn in H; [apply Qlt_le_weak, H|rewrite H; apply Qle_refl]. Qed.
Lemma made_iff log log1p t ps c : new_curve log log1p t ps = Some (inr c) -> build (hook_of log log1p t) ps = Some (inr (tc_curve c)) /\ tc_type c = t.
Proof. unfold new_curve. destruct (build (hook_of log log1p t) ps) as [[e|c']|]; cbn [bind]; try discriminate. injection 1 as <-. auto. Qed.
Lemma on_curve_ext tr tr' ps x y : (forall x, tr x = tr' x) -> on_curve tr ps x y -> on_curve tr' ps x y.
Proof.
  intros E H. assert (forall p a c, finite tr p a c -> finite tr' p a c) as F by (intros p a c (A & B); split; [rewrite <- E; exact A|exact B]).
  destruct H.
  - apply oc_left; assumption.
  - apply oc_right; assumption.
  - eapply oc_flat; eassumption.
  - eapply (oc_segment tr' ps x i p q); try eassumption; try (apply F; assumption). rewrite <- E. assumption.
  - eapply (oc_left_ray tr' ps x p0 p q); try eassumption; try (apply F; assumption). rewrite <- E. assumption.
  - eapply (oc_right_ray tr' ps x p0 p q); try eassumption; try (apply F; assumption). rewrite <- E. assumption.
  - eapply (oc_left_unit tr' ps x p0 p); try eassumption; try (apply F; assumption). rewrite <- E. assumption.
  - eapply (oc_right_unit tr' ps x p0 p); try eassumption; try (apply F; assumption). rewrite <- E. assumption.
Qed.
Theorem C72_value lb atod log log1p s t ps c x y : lower_bound_ok lb -> lib_ok (Fin 0) log -> lib_ok (Fin (-1)) log1p -> same (log1p (Fin 0)) (Fin 0) -> plain atod ->
  curve_text (reads atod) semicolon s t ps -> new_curve_of_text atod log log1p s = Some (inr c) ->
  no_nan ps -> (forall i p q, rd ps i = Some p -> rd ps (S i) = Some q -> nlt (axis log log1p t (px p)) (axis log log1p t (px q))) ->
  on_curve (axis log log1p t) ps x y -> exists v, eval_typed log log1p lb c x = Some v /\ same v y.
Proof.
  intros LB H1 H2 H3 P T Hc NN SP OC. unfold new_curve_of_text, new_curve_with_separator in Hc. assert (separator semicolon) as V by (left; reflexivity).
  rewrite (proj2 (C72_accept atod semicolon s t ps P V) T) in Hc. cbn [bind] in Hc. apply made_iff in Hc. destruct Hc as (Hc & Ht). unfold eval_typed. rewrite Ht.
  apply (C71_value lb (hook_of log log1p t) ps (tc_curve c) x y LB); [|exact NN| |exact Hc|].
  - destruct (C71_hooks log log1p H1 H2 H3) as (A & B & C & E). destruct t; assumption.
  - intros i p q Hp Hq. rewrite !axis_ok. apply (SP i p q Hp Hq).
  - eapply on_curve_ext; [|exact OC]. intros z. symmetry. apply axis_ok.
Qed.
Print Assumptions C72_value.
(** With finite points, a text makes a curve exactly if the x increase and the first is in the domain
    of the type, or all y are equal. *)
Theorem C72_made atod log log1p s t ps : plain atod -> curve_text (reads atod) semicolon s t ps ->
  (forall p, In p ps -> exists x a c, px p = Fin x /\ axis log log1p t (px p) = Fin a /\ py p = Fin c) ->
  ((exists c, new_curve_of_text atod log log1p s = Some (inr c)) <->
   (forall i p q, rd ps i = Some p -> rd ps (S i) = Some q -> nlt (px p) (px q)) /\
   exists first, rd ps 0 = Some first /\ (in_domain t (px first) \/ forall i p q, rd ps i = Some p -> rd ps (S i) = Some q -> same (py p) (py q))).
Proof.
  intros P T AF. unfold new_curve_of_text, new_curve_with_separator. assert (separator semicolon) as V by (left; reflexivity).
  rewrite (proj2 (C72_accept atod semicolon s t ps P V) T). cbn [bind].
  assert (all_finite (hook_of log log1p t) ps) as AF'. { intros p Hp. destruct (AF p Hp) as (x & a & c & A & B & C). exists x, a, c. rewrite axis_ok. auto. }
  assert ((exists c, new_curve log log1p t ps = Some (inr c)) <-> exists c, build (hook_of log log1p t) ps = Some (inr c)) as ->.
  { unfold new_curve. split; intros (c & E).
    - apply made_iff in E. destruct E as (E & _). eauto.
    - rewrite E. cbn [bind]. eauto. }
  rewrite (C71_accept _ _ AF'). split; intros (A & first & B & C); (split; [exact A|]); exists first; (split; [exact B|]); destruct C as [C|C]; auto; left;
    destruct (AF first (nth_error_In _ _ B)) as (x & _ & _ & E & _); rewrite E in *; destruct t; cbn in *; try tauto.
  - unfold nle. cbn. destruct (qlt x 0) eqn:L; [discriminate|]. destruct (Qlt_le_dec x 0) as [K|K]; [apply qlt_ok in K; congruence|]. destruct (Qle_lt_or_eq _ _ K); auto.
  - unfold nle. cbn. destruct (qlt x (-1)) eqn:L; [discriminate|]. destruct (Qlt_le_dec x (-1)) as [K|K]; [apply qlt_ok in K; congruence|]. destruct (Qle_lt_or_eq _ _ K); auto.
  - destruct (qlt x 0) eqn:L; [|reflexivity]. exfalso. apply qlt_ok in L. destruct C as [C|C]; cbn in C; [apply (Qlt_irrefl x), (Qlt_trans _ 0); assumption|rewrite C in L; apply (Qlt_irrefl _ L)].
  - destruct (qlt x (-1)) eqn:L; [|reflexivity]. exfalso. apply qlt_ok in L. destruct C as [C|C]; cbn in C; [apply (Qlt_irrefl x), (Qlt_trans _ (-1)); assumption|rewrite C in L; apply (Qlt_irrefl _ L)].
Qed.
Print Assumptions C72_made.
Example C72_value_ex : (exists c, new_curve_of_text digit (fun x => x) (fun x => x) (bytes "LogP1PWLCurve({{0;1};{2;5}})") = Some (inr c) /\
    eval_typed (fun x => x) (fun x => x) leading c (D 1) = Some (Fin (12 # 4))) /\
  curve_text (reads digit) semicolon (bytes "LogP1PWLCurve({{0;1};{2;5}})") Log1pPWLCurve [mkPt (D 0) (D 1); mkPt (D 2) (D 5)] /\
  on_curve (axis (fun x => x) (fun x => x) Log1pPWLCurve) [mkPt (D 0) (D 1); mkPt (D 2) (D 5)] (D 1) (Fin (line 0 1 2 5 1)) /\
  new_curve_of_text digit (fun x => x) (fun x => x) (bytes "PWLCurve({{2;1};{0;5}})") = Some (inl tt).
Proof.
  split; [eexists; split; vm_compute; reflexivity|]. split; [apply (C72_accept digit semicolon); [apply digit_plain|left; reflexivity|vm_compute; reflexivity]|]. split; [|vm_compute; reflexivity].
  apply (oc_segment _ _ (D 1) 0 (mkPt (D 0) (D 1)) (mkPt (D 2) (D 5))); try reflexivity; try (split; reflexivity); left; cbn; reflexivity.
Qed.
