From Verif Require Import Base Strings_Model Strings_Spec.

Lemma alpha_ok c : is_alpha c = true <-> letter c. Proof. unfold is_alpha, letter. lia. Qed.
Lemma alnum_ok c : is_alnum c = true <-> letter c \/ digit c. Proof. unfold is_alnum, is_alpha, is_digit, letter, digit. lia. Qed.
Lemma first_ok c : negb (c =? ch_us)%Z && negb (is_alpha c) = false <-> c = 95%Z \/ letter c.
Proof. rewrite <- alpha_ok. unfold ch_us. destruct (Z.eqb_spec c 95), (is_alpha c); cbn; intuition congruence. Qed.
Lemma next_ok c : negb (c =? ch_us)%Z && negb (is_alnum c) = false <-> c = 95%Z \/ letter c \/ digit c.
Proof. rewrite <- alnum_ok. unfold ch_us. destruct (Z.eqb_spec c 95), (is_alnum c); cbn; intuition congruence. Qed.

Lemma ident_tail_ok s : ident_tail s = true <-> Forall (fun d => d = 95%Z \/ letter d \/ digit d) s.
Proof.
  induction s as [|c t IH]; [split; constructor|]. cbn [ident_tail]. rewrite Forall_cons_iff, <- next_ok, <- IH.
  destruct (negb _ && _); intuition congruence.
Qed.
Lemma is_identifier_ok s : is_identifier s = true <-> identifier s.
Proof.
  destruct s as [|c t]; cbn [is_identifier]; [split; [discriminate|intros (c & t & H & _); discriminate]|].
  split.
  - destruct (negb _ && _) eqn:E; [discriminate|]. intros H. exists c, t. split; [reflexivity|]. split; [apply first_ok, E|apply ident_tail_ok, H].
  - intros (c' & t' & H & H1 & H2). assert (c' = c /\ t' = t) as [-> ->] by (split; congruence). apply first_ok in H1. rewrite H1. apply ident_tail_ok, H2.
Qed.

Lemma fail_sticky s : forall tok, fst (fold_left qual_step s (true, tok)) = true.
Proof.
  induction s as [|c t IH]; intros tok; [reflexivity|]. cbn [fold_left]. unfold qual_step at 2. destruct tok.
  - destruct (_ =? _)%Z; [apply IH|]. destruct (negb _ && _); apply IH.
  - destruct (negb _ && _); apply IH.
Qed.
(** What is accepted from inside a token and before a token. *)
Lemma qual_ok s :
  ((let '(f, k) := fold_left qual_step s (false, true) in negb f && k) = true <->
     exists u ps, s = join [46%Z] (u :: ps) /\ Forall (fun d => d = 95%Z \/ letter d \/ digit d) u /\ Forall identifier ps) /\
  ((let '(f, k) := fold_left qual_step s (false, false) in negb f && k) = true <-> qualified s).
Proof.
  assert (St : forall s k, (let '(f, k) := fold_left qual_step s (true, k) in negb f && k) = true -> False).
  { intros s' k H. pose proof (fail_sticky s' k). destruct (fold_left _ _ _) as [f k']. cbn in H0. subst f. discriminate. }
  assert (J1 : forall u ps, join [46%Z] (u :: ps) = u ++ match ps with [] => [] | _ => 46%Z :: join [46%Z] ps end).
  { intros u [|p ps]; cbn [join]; [symmetry; apply app_nil_r|reflexivity]. }
  induction s as [|c t [IH1 IH2]].
  - split; cbn [fold_left negb andb].
    + split; [intros _|reflexivity]. exists [], []. split; [reflexivity|split; constructor].
    + split; [discriminate|]. intros ([|p ps] & H & F & E); [congruence|]. inversion F as [|p' ps' (c & t & -> & _) _]. subst.
      rewrite J1 in E. discriminate.
  - split; cbn [fold_left]; unfold qual_step at 2.
    + destruct (Z.eqb_spec c ch_dot) as [->|Nd].
      * rewrite IH2. split.
        -- intros (ps & Hp & F & E). exists [], ps. split; [rewrite J1; destruct ps; [congruence|]; cbn [app]; f_equal; exact E|]. split; [constructor|exact F].
        -- intros (u & ps & E & Fu & F). rewrite J1 in E. destruct u as [|x u].
           ++ destruct ps as [|p ps]; [discriminate|]. cbn [app] in E. exists (p :: ps). split; [congruence|]. split; [exact F|congruence].
           ++ cbn [app] in E. assert (x = ch_dot) as -> by congruence. inversion Fu as [|x' u' H1 H2]. subst. unfold ch_dot, letter, digit in H1. lia.
      * unfold ch_dot in Nd. destruct (negb _ && _) eqn:En.
        -- split; [intros H; elim (St _ _ H)|]. intros (u & ps & E & Fu & F). rewrite J1 in E. destruct u as [|x u].
           ++ destruct ps; [discriminate|]. cbn [app] in E. congruence.
           ++ cbn [app] in E. assert (x = c) as -> by congruence. inversion Fu as [|x' u' H1 H2]. subst. apply next_ok in H1. congruence.
        -- apply next_ok in En. rewrite IH1. split.
           ++ intros (u & ps & E & Fu & F). exists (c :: u), ps. split; [rewrite J1 in *; cbn [app]; f_equal; exact E|]. split; [constructor; assumption|exact F].
           ++ intros (u & ps & E & Fu & F). rewrite J1 in E. destruct u as [|x u].
              ** destruct ps; [discriminate|]. cbn [app] in E. congruence.
              ** cbn [app] in E. inversion Fu as [|x' u' H1 H2]. subst. exists u, ps. split; [rewrite J1; congruence|]. split; assumption.
    + destruct (negb _ && _) eqn:En.
      * split; [intros H; elim (St _ _ H)|]. intros ([|p ps] & Hp & F & E); [congruence|]. inversion F as [|p' ps' (x & u & -> & Hx & _) _]. subst.
        rewrite J1 in E. cbn [app] in E. assert (x = c) as -> by congruence. apply first_ok in Hx. congruence.
      * apply first_ok in En. rewrite IH1. split.
        -- intros (u & ps & E & Fu & F). exists ((c :: u) :: ps). split; [congruence|]. split.
           ++ constructor; [exists c, u; auto|exact F].
           ++ rewrite J1 in *. cbn [app]. f_equal. exact E.
        -- intros ([|p ps] & Hp & F & E); [congruence|]. inversion F as [|p' ps' (x & u & -> & Hx & Fu) F']. subst.
           rewrite J1 in E. cbn [app] in E. exists u, ps. split; [rewrite J1; congruence|]. split; assumption.
Qed.

Lemma str_eqb_ok a : forall b, str_eqb a b = true <-> a = b.
Proof.
  induction a as [|x a IH]; intros [|y b]; cbn [str_eqb]; try (split; [discriminate|congruence]); [tauto|].
  rewrite andb_true_iff, IH, Z.eqb_eq. split; [intros [-> ->]; reflexivity|intros H; split; congruence].
Qed.
Lemma starts_with_ok t p : starts_with t p = true <-> exists r, t = p ++ r.
Proof.
  unfold starts_with. rewrite str_eqb_ok. split.
  - intros H. exists (skipn (length p) t). rewrite <- H at 1. symmetry. apply firstn_skipn.
  - intros [r ->]. rewrite firstn_app, Nat.sub_diag, firstn_all. cbn. apply app_nil_r.
Qed.
Lemma comma_false d ps : comma_loop false d ps = flat_map (fun p => d ++ p) ps.
Proof. induction ps as [|p t IH]; [reflexivity|]. cbn [comma_loop non_first_comma flat_map]. rewrite IH, app_assoc. reflexivity. Qed.
Lemma comma_loop_ok d ps : comma_loop true d ps = join d ps.
Proof.
  destruct ps as [|p t]; [reflexivity|]. cbn [comma_loop non_first_comma]. rewrite comma_false. cbn [app]. revert p.
  induction t as [|q t IH]; intros p; [apply app_nil_r|]. cbn [flat_map]. change (join d (p :: q :: t)) with (p ++ d ++ join d (q :: t)). rewrite <- IH, <- app_assoc. reflexivity.
Qed.

Lemma truncate_ok s n : 3 <= n -> exists r, truncate s n = Some r /\
  (length s <= n -> r = s) /\
  (n < length s -> length r = n /\ r = firstn (n - 3) s ++ [46; 46; 46]%Z).
Proof.
  intros Hn. unfold truncate. destruct (Nat.ltb_spec n (length s)).
  - replace (n <? 3) with false by lia. eexists. split; [reflexivity|]. split; [lia|]. intros _.
    rewrite firstn_firstn, Nat.min_l by lia. split; [|reflexivity].
    rewrite app_length, firstn_length. cbn [length]. lia.
  - eexists. split; [reflexivity|]. split; [reflexivity|lia].
Qed.

(** ** Typos *)
Lemma mismatch_split a : forall b, exists p a' b', a = p ++ a' /\ b = p ++ b' /\ length p = mismatch a b /\
  (forall x y a'' b'', a' = x :: a'' -> b' = y :: b'' -> x <> y).
Proof.
  induction a as [|x a IH]; intros b.
  - exists [], [], b. repeat split. intros; discriminate.
  - destruct b as [|y b]; cbn [mismatch].
    + exists [], (x :: a), []. repeat split. intros; discriminate.
    + destruct (Z.eqb_spec x y) as [->|N].
      * destruct (IH b) as (p & a' & b' & -> & -> & L & H). exists (y :: p), a', b'. cbn [app length]. repeat split; [lia|exact H].
      * exists [], (x :: a), (y :: b). repeat split. intros. congruence.
Qed.
Lemma mismatch_ge p : forall a b, length p <= mismatch (p ++ a) (p ++ b).
Proof. induction p as [|x p IH]; intros a b; cbn [app length mismatch]; [lia|]. rewrite Z.eqb_refl. specialize (IH a b). lia. Qed.
Lemma mismatch_eq p x y a b : x <> y -> mismatch (p ++ x :: a) (p ++ y :: b) = length p.
Proof.
  intros N. induction p as [|z p IH]; cbn [app length mismatch].
  - destruct (Z.eqb_spec x y); congruence.
  - rewrite Z.eqb_refl, IH. reflexivity.
Qed.
Lemma mismatch_refl a : mismatch a a = length a.
Proof. induction a as [|x a IH]; [reflexivity|]. cbn [mismatch length]. rewrite Z.eqb_refl, IH. reflexivity. Qed.
Lemma rev_skip (a : list Z) l : firstn (length a - l) (rev a) = rev (skipn l a).
Proof.
  rewrite <- (firstn_skipn l a) at 2. rewrite rev_app_distr, firstn_app, rev_length, skipn_length, Nat.sub_diag. cbn [firstn].
  rewrite app_nil_r. apply firstn_all2. rewrite rev_length, skipn_length. lia.
Qed.

Definition lr (lhs rhs : list Z) : nat * nat :=
  let l := mismatch lhs rhs in (l, mismatch (rev (skipn l lhs)) (rev (skipn l rhs))).
(** The two strings with the common prefix and suffix removed. *)
Lemma lr_split lhs rhs : let '(l, r) := lr lhs rhs in exists p a b s, lhs = p ++ a ++ s /\ rhs = p ++ b ++ s /\
  length p = l /\ length s = r.
Proof.
  unfold lr. destruct (mismatch_split lhs rhs) as (p & a' & b' & -> & -> & L & _). set (l := mismatch _ _) in *.
  rewrite <- L, !skipn_app, !Nat.sub_diag, !skipn_all. cbn [skipn app].
  destruct (mismatch_split (rev a') (rev b')) as (s & a'' & b'' & Ea & Eb & Ls & _).
  exists p, (rev a''), (rev b''), (rev s). rewrite <- !rev_app_distr, <- Ea, <- Eb, !rev_involutive, rev_length. auto.
Qed.
Lemma r_ge u c1 c2 v : let lhs := u ++ c1 ++ v in let rhs := u ++ c2 ++ v in let '(l, r) := lr lhs rhs in
  Nat.min (length v) (Nat.min (length lhs - l) (length rhs - l)) <= r.
Proof.
  cbn zeta. unfold lr. set (l := mismatch _ _). set (k := Nat.min _ _).
  assert (H : forall c, k <= length (u ++ c ++ v) - l -> k <= length v -> firstn k (rev (skipn l (u ++ c ++ v))) = firstn k (rev v)).
  { intros c H1 H2. rewrite <- rev_skip, firstn_firstn, Nat.min_l by exact H1. rewrite !rev_app_distr, <- app_assoc, firstn_app.
    rewrite rev_length. replace (k - length v) with 0 by lia. cbn [firstn]. apply app_nil_r. }
  assert (H1 := H c1 ltac:(lia) ltac:(lia)). assert (H2 := H c2 ltac:(lia) ltac:(lia)).
  assert (Lk : length (firstn k (rev v)) = k) by (rewrite firstn_length, rev_length; lia).
  pose proof (firstn_skipn k (rev (skipn l (u ++ c1 ++ v)))) as E1. pose proof (firstn_skipn k (rev (skipn l (u ++ c2 ++ v)))) as E2.
  rewrite H1 in E1. rewrite H2 in E2. rewrite <- E1, <- E2. rewrite <- Lk at 1. apply mismatch_ge.
Qed.

Definition small (lhs rhs : list Z) : Prop := let '(l, r) := lr lhs rhs in length lhs - l - r <= 1 /\ length rhs - l - r <= 1.
Definition swapped (lhs rhs : list Z) : Prop := let '(l, r) := lr lhs rhs in
  l + r + 2 = length lhs /\ length lhs = length rhs /\ rd lhs l = rd rhs (l + 1) /\ rd lhs (l + 1) = rd rhs l.

Lemma typo_eval lhs rhs : exists b, is_within_one_typo lhs rhs = Some b /\ (b = true <-> small lhs rhs \/ swapped lhs rhs).
Proof.
  unfold is_within_one_typo, small, swapped. rewrite !rev_skip. pose proof (lr_split lhs rhs) as H.
  destruct (lr lhs rhs) as [l r] eqn:E. unfold lr in E. injection E as El Er. rewrite El in Er |- *. rewrite Er.
  destruct H as (p & a & b & s & Ha & Hb & Lp & Ls).
  assert (La : length lhs = l + length a + r) by (rewrite Ha, !app_length; lia).
  assert (Lb : length rhs = l + length b + r) by (rewrite Hb, !app_length; lia).
  unfold sub_sz. replace (l <=? length lhs) with true by lia. cbn [bind]. replace (r <=? length lhs - l) with true by lia. cbn [bind].
  replace (l <=? length rhs) with true by lia. cbn [bind]. replace (r <=? length rhs - l) with true by lia. cbn [bind].
  destruct (Nat.leb_spec (length lhs - l - r) 1) as [H1|H1]; cbn [bind].
  - destruct (Nat.leb_spec (length rhs - l - r) 1) as [H2|H2]; cbn [bind].
    + exists true. split; [reflexivity|]. tauto.
    + replace (l + r + 2 =? length lhs) with false by lia. cbn [andb]. exists false. split; [reflexivity|]. split; [discriminate|]. lia.
  - destruct (Nat.eqb_spec (l + r + 2) (length lhs)) as [H2|H2]; cbn [andb].
    2:{ exists false. split; [reflexivity|]. split; [discriminate|]. lia. }
    destruct (Nat.eqb_spec (length lhs) (length rhs)) as [H3|H3]; cbn [andb].
    2:{ exists false. split; [reflexivity|]. split; [discriminate|]. lia. }
    destruct (rd_lt lhs l) as [x1 E1]; [lia|]. destruct (rd_lt rhs (l + 1)) as [x2 E2]; [lia|].
    destruct (rd_lt lhs (l + 1)) as [x3 E3]; [lia|]. destruct (rd_lt rhs l) as [x4 E4]; [lia|].
    rewrite E1, E2, E3, E4. cbn [bind]. destruct (Z.eqb_spec x1 x2) as [->|N].
    + destruct (Z.eqb_spec x3 x4) as [->|N'].
      * exists true. split; [reflexivity|]. split; [intros _; right; auto|reflexivity].
      * exists false. split; [reflexivity|]. split; [discriminate|]. intros [K|(_ & _ & _ & K)]; [lia|congruence].
    + exists false. split; [reflexivity|]. split; [discriminate|]. intros [K|(_ & _ & K & _)]; [lia|congruence].
Qed.

Lemma typo_sound lhs rhs : small lhs rhs \/ swapped lhs rhs -> within_one lhs rhs.
Proof.
  unfold small, swapped. pose proof (lr_split lhs rhs) as H. destruct (lr lhs rhs) as [l r].
  destruct H as (p & a & b & s & -> & -> & Lp & Ls). rewrite !app_length. intros [[H1 H2]|(H1 & H2 & H3 & H4)].
  - assert (length a <= 1 /\ length b <= 1) as [A B] by lia.
    destruct a as [|x [|x' a]], b as [|y [|y' b]]; cbn [length] in A, B; try lia; cbn [app].
    + left. reflexivity.
    + right. apply edit_insert.
    + right. apply edit_delete.
    + right. apply edit_replace.
  - assert (length a = 2 /\ length b = 2) as [A B] by lia.
    destruct a as [|x [|x' [|? ?]]], b as [|y [|y' [|? ?]]]; cbn [length] in A, B; try lia; cbn [app] in *.
    assert (R0 : forall (u v : list Z) i, rd (u ++ v) (length u + i) = rd v i)
      by (intros u v i; unfold rd; rewrite nth_error_app2 by lia; f_equal; lia).
    rewrite <- Lp, !R0 in *. rewrite <- (Nat.add_0_r (length p)), !R0 in *. cbn in H3, H4.
    assert (x = y') by congruence. assert (x' = y) by congruence. subst. right. apply edit_swap.
Qed.

Lemma small_gen u c1 c2 v : length c1 <= 1 -> length c2 <= 1 -> small (u ++ c1 ++ v) (u ++ c2 ++ v).
Proof.
  intros H1 H2. unfold small. pose proof (r_ge u c1 c2 v) as Hr. cbn zeta in Hr. pose proof (mismatch_ge u (c1 ++ v) (c2 ++ v)) as Hl.
  unfold lr in *. rewrite !app_length in *. lia.
Qed.
Lemma small_refl a : small a a.
Proof. unfold small, lr. rewrite mismatch_refl. lia. Qed.
Lemma typo_complete lhs rhs : within_one lhs rhs -> small lhs rhs \/ swapped lhs rhs.
Proof.
  intros [->|H]; [left; apply small_refl|]. destruct H as [u x v|u x v|u x y v|u x y v].
  - left. apply (small_gen u [] [x] v); cbn; lia.
  - left. apply (small_gen u [x] [] v); cbn; lia.
  - left. apply (small_gen u [x] [y] v); cbn; lia.
  - destruct (Z.eq_dec x y) as [->|N]; [left; apply small_refl|]. right. unfold swapped, lr. rewrite mismatch_eq by exact N.
    rewrite !skipn_app, !Nat.sub_diag, !skipn_all. cbn [skipn app rev]. rewrite <- !app_assoc. cbn [app].
    rewrite mismatch_eq by congruence. rewrite rev_length, !app_length. cbn [length].
    assert (R0 : forall (u v : list Z) i, rd (u ++ v) (length u + i) = rd v i)
      by (intros u' v' i; unfold rd; rewrite nth_error_app2 by lia; f_equal; lia).
    assert (R1 : forall (u v : list Z), rd (u ++ v) (length u) = rd v 0)
      by (intros u' v'; rewrite <- (Nat.add_0_r (length u')) at 1; apply R0).
    rewrite !R0, !R1. split; [lia|]. split; [reflexivity|]. split; reflexivity.
Qed.
