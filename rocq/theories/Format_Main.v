From Coq Require Import ZArith ListDec.
From Verif Require Import Base Strings_Model Strings_Spec Strings_Proofs Format_Model Format_Spec Format_Proofs.
Local Open Scope Z_scope.

Section Values.
Variable val : Type.
Variable kind_of : val -> kind.
Variables bytes_of repr strcat : val -> str.
Variable untyped : str -> val -> option str.
Notation shows := (shows val kind_of bytes_of repr strcat untyped).
Notation plain := (plain val kind_of bytes_of repr strcat).
Notation show := (show val kind_of bytes_of repr strcat untyped).
Notation show_plain := (show_plain val kind_of bytes_of repr strcat).
Notation renders := (renders val kind_of bytes_of repr strcat untyped).
Notation process_loop := (process_loop val kind_of bytes_of repr strcat untyped).
Notation process := (process val kind_of bytes_of repr strcat untyped).
Notation format := (format val kind_of bytes_of repr strcat untyped).
Notation formatted := (formatted val kind_of bytes_of repr strcat untyped).

Lemma plain_ok v o : show_plain v = o <-> plain v o.
Proof.
  unfold Format_Model.show_plain. split.
  - intros <-. destruct (kind_of v) eqn:K;
      [apply p_repr|apply p_strcat|apply p_repr|apply p_strcat|apply p_strcat|apply p_bytes|apply p_repr];
      rewrite ?K; auto.
  - intros [w K|w [K|[K|K]]|w [K|[K|K]]]; rewrite K; reflexivity.
Qed.
Lemma last_snoc (f : str) c : last (f ++ [c]) 0 = c.
Proof. apply last_last. Qed.
Lemma show_snoc v f c : f ++ [c] <> [118] -> show v (f ++ [c]) =
  let try s := match untyped s v with Some r => inr r | None => inl EFormat end in
  match kind_of v with
  | KFloat | KDouble | KWeak => try (37 :: f ++ (if is_alpha c then [c] else [c; 102]))
  | KInt32 | KInt64 => try (37 :: f ++ (if is_alpha c then [c] else [c; 100]))
  | KBytes | KBool => inl EUnsupported
  end.
Proof.
  intros N. unfold Format_Model.show.
  replace (match f ++ [c] with [] => true | _ => false end) with false by (destruct f; reflexivity).
  destruct (str_eqb (f ++ [c]) [118]) eqn:E; [apply str_eqb_ok in E; contradiction|]. cbn [orb].
  rewrite last_snoc. rewrite <- !app_assoc. cbn [app]. destruct (is_alpha c); reflexivity.
Qed.
Lemma show_ok v f o : show v f = inr o <-> shows v f o.
Proof.
  split.
  - destruct f as [|x f'].
    { cbn [Format_Model.show orb]. intros [= <-]. apply sh_plain, plain_ok. reflexivity. }
    destruct (@exists_last _ (x :: f')) as (f & c & E); [discriminate|]. rewrite E. clear E x f'.
    destruct (list_eq_dec Z.eq_dec (f ++ [c]) [118]) as [E|N].
    { rewrite E. intros H. apply sh_v, plain_ok. cbn in H. injection H as H. exact H. }
    rewrite (show_snoc _ _ _ N). cbv zeta.
    destruct (is_alpha c) eqn:A.
    + apply alpha_ok in A. destruct (kind_of v) eqn:K; try discriminate;
        (destruct (untyped _ v) as [r|] eqn:U; [|discriminate]); intros [= <-];
        apply sh_conv; auto; rewrite K; unfold floating, integral; tauto.
    + assert (L : ~ letter c) by (rewrite <- alpha_ok; congruence).
      destruct (kind_of v) eqn:K; try discriminate;
        (destruct (untyped _ v) as [r|] eqn:U; [|discriminate]); intros [= <-];
        (apply sh_int + apply sh_float); auto; rewrite K; unfold floating, integral; tauto.
  - intros [w t P|w t P|w g c t L N K U|w g c t L K U|w g c t L K U].
    + cbn. f_equal. apply plain_ok, P.
    + cbn. f_equal. apply plain_ok, P.
    + rewrite (show_snoc _ _ _ N). cbv zeta. rewrite (proj2 (alpha_ok _) L), U.
      destruct K as [[K|[K|K]]|[K|K]]; rewrite K; reflexivity.
    + rewrite show_snoc.
      2: { intros E. apply (app_inj_tail g []) in E. destruct E as (_ & ->). apply L. unfold letter. lia. }
      cbv zeta. destruct (is_alpha c) eqn:A; [apply alpha_ok in A; contradiction|]. rewrite U.
      destruct K as [K|[K|K]]; rewrite K; reflexivity.
    + rewrite show_snoc.
      2: { intros E. apply (app_inj_tail g []) in E. destruct E as (_ & ->). apply L. unfold letter. lia. }
      cbv zeta. destruct (is_alpha c) eqn:A; [apply alpha_ok in A; contradiction|]. rewrite U.
      destruct K as [K|K]; rewrite K; reflexivity.
Qed.

Definition index_of (names : list str) := combine names (seq 0 (length names)).
Lemma hd_group {A} (r : list (Z + A)) : forall cur, exists t, fst (group r cur) = (cur ++ t) :: tl (fst (group r cur)).
Proof.
  induction r as [|[c|a] r IH]; intros cur; cbn [group fst].
  - exists []. rewrite app_nil_r. reflexivity.
  - destruct (IH (cur ++ [c])) as (t & E). exists (c :: t). rewrite E at 1. rewrite <- app_assoc. reflexivity.
  - exists []. rewrite app_nil_r. reflexivity.
Qed.
Lemma group_cur {A} (r : list (Z + A)) : forall cur,
  hd [] (fst (group r cur)) = cur ++ hd [] (fst (group r [])) /\
  tl (fst (group r cur)) = tl (fst (group r [])) /\ snd (group r cur) = snd (group r []).
Proof.
  induction r as [|[c|a] r IH]; intros cur; cbn [group fst snd hd tl].
  - rewrite app_nil_r. auto.
  - destruct (IH (cur ++ [c])) as (A1 & A2 & A3), (IH ([] ++ [c])) as (B1 & B2 & B3).
    rewrite A1, A2, A3, B1, B2, B3, <- app_assoc. auto.
  - rewrite app_nil_r. auto.
Qed.
Lemma process_ok names vals r : NoDup names -> length names = length vals -> forall pre out,
  process_loop (index_of names) vals (snd (group r [])) (tl (fst (group r []))) (pre ++ hd [] (fst (group r [])))
    = inr out <-> exists o, renders names vals r o /\ out = pre ++ o.
Proof.
  intros D Len. induction r as [|[c|(n, f)] r IH]; intros pre out.
  - cbn. rewrite app_nil_r. split.
    + intros [= <-]. exists []. rewrite app_nil_r. split; [constructor|reflexivity].
    + intros (o & R & ->). inversion R; subst. rewrite app_nil_r. reflexivity.
  - cbn [group]. destruct (group_cur r ([] ++ [c])) as (A & B & C). rewrite A, B, C.
    rewrite app_assoc. cbn [app]. rewrite IH. split.
    + intros (o & R & ->). exists (c :: o). split; [constructor; exact R|]. rewrite <- app_assoc. reflexivity.
    + intros (o & R & ->). inversion R; subst. exists o0. split; [assumption|]. rewrite <- app_assoc. reflexivity.
  - cbn [group fst snd hd tl Format_Model.process_loop]. rewrite app_nil_r.
    destruct (lookup n (index_of names)) as [i|] eqn:E.
    + apply (lookup_nth n names D 0) in E. destruct E as (_ & E). rewrite Nat.sub_0_r in E.
      unfold rd. destruct (nth_error vals i) as [v|] eqn:V.
      2: { apply nth_error_None in V. assert (i < length names)%nat by (apply nth_error_Some; congruence). lia. }
      assert (U : forall j, nth_error names j = Some n -> j = i).
      { intros j J. apply (proj1 (NoDup_nth_error names) D); [apply nth_error_Some; congruence|congruence]. }
      destruct (show v f) as [e|t] eqn:S.
      * split; [discriminate|]. intros (o & R & ->). inversion R; subst. apply U in H2; subst i0.
        rewrite V in H3. injection H3 as ->. apply show_ok in H5. congruence.
      * rewrite app_assoc, IH. split.
        -- intros (o & R & ->). exists (t ++ o). split; [|rewrite <- app_assoc; reflexivity].
           apply (r_arg _ _ _ _ _ _ _ _ i n f v); auto. apply show_ok, S.
        -- intros (o & R & ->). inversion R; subst. apply U in H2; subst i0.
           rewrite V in H3. injection H3 as ->. apply show_ok in H5. rewrite S in H5. injection H5 as ->.
           exists o0. split; [assumption|]. rewrite <- app_assoc. reflexivity.
    + split; [discriminate|]. intros (o & R & _). inversion R; subst. exfalso.
      apply (lookup_combine n names 0) in E. apply E. eapply nth_error_In; eassumption.
Qed.
Lemma format_ok spec text vals out : format spec text vals = inr out <-> formatted spec text vals out.
Proof.
  unfold Format_Model.format, Format_Spec.formatted. fold (names_of text).
  rewrite (index_loop_ok (names_of text) [] [] 0%nat (NoDup_nil _) eq_refl eq_refl). cbn [app].
  destruct (ListDec.NoDup_dec (list_eq_dec Z.eq_dec) (names_of text)) as [D|D].
  - destruct (Nat.eqb_spec (length (names_of text)) (length vals)) as [L|L].
    + destruct (parse spec) as [e|p] eqn:P.
      * split; [discriminate|]. intros (names & r & _ & _ & _ & W & _). apply parse_writes in W. congruence.
      * destruct (parse_sound _ _ P) as (r & W & ->).
        unfold Format_Model.process.
        pose proof (process_ok _ _ r D L [] out) as K. cbn [app] in K. unfold index_of in K. rewrite K. clear K.
        split.
        -- intros (o & R & ->). exists (names_of text), r. split; [apply named_ok; reflexivity|]. auto.
        -- intros (names & r' & N & _ & _ & W' & R). apply named_ok in N. subst names.
           apply parse_writes in W'. rewrite P in W'. injection W' as W'.
           pose proof (process_ok _ _ r D L [] out) as K. pose proof (process_ok _ _ r' D L [] out) as K'.
           rewrite W' in K. apply K, K'. exists out. auto.
    + split; [discriminate|]. intros (names & r & N & _ & L' & _). apply named_ok in N. subst names. contradiction.
  - split; [discriminate|]. intros (names & r & N & D' & _). apply named_ok in N. subst names. contradiction.
Qed.
End Values.

Lemma writes_escape t s r : writes s r -> writes (escape t ++ s) (map inl t ++ r).
Proof.
  intros W. induction t as [|c t IH]; [exact W|]. cbn [escape map app].
  destruct (Z.eqb_spec c 123) as [->|N1]; cbn [orb app]; [apply w_open, IH|].
  destruct (Z.eqb_spec c 125) as [->|N2]; cbn [orb app]; [apply w_close, IH|].
  apply w_chr; assumption.
Qed.
Lemma writes_app a b r q : writes a r -> writes b q -> writes (a ++ b) (r ++ q).
Proof.
  induction 1; intros W; cbn [app].
  - exact W.
  - apply w_chr; auto.
  - apply w_open; auto.
  - apply w_close; auto.
  - rewrite <- app_assoc. cbn [app]. apply w_arg; auto.
  - rewrite <- app_assoc. cbn [app]. apply w_argf; auto.
Qed.
Fixpoint ungroup {A} (ts : list str) (az : list A) : list (Z + A) :=
  match ts with
  | [] => []
  | t :: ts => map inl t ++ match az with [] => [] | a :: az => inr a :: ungroup ts az end
  end.
Lemma ungroup_group {A} (r : list (Z + A)) : forall cur, ungroup (fst (group r cur)) (snd (group r cur)) = map inl cur ++ r.
Proof.
  induction r as [|[c|a] r IH]; intros cur; cbn [group fst snd ungroup].
  - reflexivity.
  - rewrite IH, map_app, <- app_assoc. reflexivity.
  - rewrite IH. reflexivity.
Qed.
Lemma writes_unique s r q : writes s r -> writes s q -> r = q.
Proof.
  intros A B. apply parse_writes in A, B. rewrite A in B. injection B as B.
  pose proof (ungroup_group r []) as R. pose proof (ungroup_group q []) as Q. cbn [map app] in R, Q. congruence.
Qed.
Lemma renders_text {val} kind_of bytes_of repr strcat untyped names vals t r o :
  renders val kind_of bytes_of repr strcat untyped names vals r o ->
  renders val kind_of bytes_of repr strcat untyped names vals (map inl t ++ r) (t ++ o).
Proof. intros R. induction t as [|c t IH]; [exact R|]. cbn [map app]. constructor. exact IH. Qed.
Lemma renders_app {val} kind_of bytes_of repr strcat untyped names vals r o r' o' :
  renders val kind_of bytes_of repr strcat untyped names vals r o ->
  renders val kind_of bytes_of repr strcat untyped names vals r' o' ->
  renders val kind_of bytes_of repr strcat untyped names vals (r ++ r') (o ++ o').
Proof.
  induction 1; intros R; cbn [app]; [exact R|constructor; auto|]. rewrite <- app_assoc. econstructor; eauto.
Qed.
Lemma scan_errors fuel : forall s d cur args e, scan fuel s d cur args = inl e -> e = ESpec.
Proof.
  induction fuel as [|fuel IH]; intros s d cur args e; cbn [scan]; [congruence|].
  destruct s as [|c t]; [discriminate|].
  destruct (c =? ch_lb); [|destruct (c =? ch_rb)].
  - destruct (match t with c2 :: _ => c2 =? ch_lb | [] => false end); [apply IH|]. destruct (find ch_rb t); [apply IH|congruence].
  - destruct (match t with c2 :: _ => c2 =? ch_rb | [] => false end); [apply IH|congruence].
  - apply IH.
Qed.
Lemma split_args_errors az : forall e, split_args az = inl e -> e = EArg.
Proof.
  induction az as [|a az IH]; intros e; cbn [split_args]; [discriminate|].
  destruct (split_arg a) as [e'|] eqn:Sx.
  - unfold split_arg in Sx. destruct (is_identifier _); congruence.
  - destruct (split_args az) as [e'|] eqn:E; [|discriminate]. intros [= <-]. apply IH; reflexivity.
Qed.
Lemma parse_errors s e : parse s = inl e -> e = ESpec \/ e = EArg.
Proof.
  unfold parse. destruct (scan _ _ _ _ _) as [e'|(ts, az)] eqn:Sx.
  - intros [= <-]. left. eapply scan_errors; eassumption.
  - destruct (split_args az) as [e'|] eqn:E; [|discriminate]. intros [= <-]. right. eapply split_args_errors; eassumption.
Qed.
Lemma show_errors val kind_of bytes_of repr strcat untyped v f e :
  show val kind_of bytes_of repr strcat untyped v f = inl e -> e = EFormat \/ e = EUnsupported.
Proof.
  unfold show. destruct (_ || _); [discriminate|]. cbv zeta.
  destruct (kind_of v); try (destruct (untyped _ v)); try discriminate; intros [= <-]; auto.
Qed.
Lemma process_errors val kind_of bytes_of repr strcat untyped m vals p :
  process val kind_of bytes_of repr strcat untyped m vals p <> inl ESpec /\
  process val kind_of bytes_of repr strcat untyped m vals p <> inl EArg.
Proof.
  unfold process. generalize (hd [] (fst p)), (tl (fst p)). induction (snd p) as [|(n, f) t IH]; intros r ts; cbn [process_loop].
  - split; discriminate.
  - destruct (lookup n m) as [i|]; [|split; discriminate]. destruct (rd vals i) as [v|]; [|split; discriminate].
    destruct (show _ _ _ _ _ _ v f) as [e|x] eqn:Sx; [|apply IH].
    apply show_errors in Sx. destruct Sx as [->| ->]; split; discriminate.
Qed.
