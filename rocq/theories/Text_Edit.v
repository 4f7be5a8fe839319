(** Replacing, stripping, splitting, parsing and decoding. *)
From Verif Require Import Base Text_Model Text_Spec Text_Utf8 Text_Proofs.
Local Open Scope Z_scope.

(** ** find on texts *)
Lemma find_utf8 sep cs : sep <> [] -> Forall scalar sep -> Forall scalar cs ->
  find (utf8 sep) (utf8 cs) = match find sep cs with Some i => Some (length (utf8 (firstn i cs))) | None => None end.
Proof.
  intros Nn Fs Fc. pose proof (find_spec (utf8 sep) (utf8 cs)) as B. pose proof (find_spec sep cs) as C.
  assert (E : zopt (find (utf8 sep) (utf8 cs)) = zopt (match find sep cs with Some i => Some (length (utf8 (firstn i cs))) | None => None end)).
  { apply (best_unique true _ _ _ B). destruct (find sep cs) as [i|]; cbn [zopt best] in *.
    - destruct C as [C1 C2]. split; [apply occurs_utf8; auto; exists i; auto|]. intros j H. apply occurs_utf8 in H; auto. destruct H as (k & -> & O). specialize (C2 _ O). apply occurs_bound in O, C1. unfold len in *. apply (off_le_iff cs Fc i k); lia.
    - intros i H. apply occurs_utf8 in H; auto. destruct H as (k & _ & O). exact (C _ O). }
  destruct (find (utf8 sep) (utf8 cs)), (find sep cs); cbn [zopt] in E; try discriminate; try reflexivity. injection E as E. f_equal. lia.
Qed.
Lemma find_cut sub s i : find sub s = Some i -> s = firstn i s ++ sub ++ skipn (i + length sub) s /\ length (firstn i s) = i.
Proof.
  intros E. pose proof (find_spec sub s) as B. rewrite E in B. cbn in B. destruct B as [(a & b & -> & Ea) _]. unfold len in Ea. assert (i = length a) as -> by lia.
  rewrite firstn_app, Nat.sub_diag, firstn_all, firstn_O, app_nil_r. split; [|reflexivity]. f_equal. f_equal. rewrite app_assoc, <- app_length, skipn_app, skipn_all, Nat.sub_diag. reflexivity.
Qed.
Lemma find_first sub s i : find sub s = Some i -> forall j, occurs (firstn i s ++ sub ++ skipn (i + length sub) s) sub j -> len (firstn i s) <= j.
Proof.
  intros E j H. destruct (find_cut sub s i E) as [Es El]. rewrite <- Es in H. pose proof (find_spec sub s) as B. rewrite E in B. cbn in B. destruct B as [_ B]. apply B in H. unfold len. lia.
Qed.
Lemma find_none sub s : find sub s = None -> forall j, ~ occurs s sub j.
Proof. intros E. pose proof (find_spec sub s) as B. rewrite E in B. exact B. Qed.
Lemma find_utf8_cut sep cs i : Forall scalar sep -> find sep cs = Some i ->
  skipn (length (utf8 (firstn i cs)) + length (utf8 sep)) (utf8 cs) = utf8 (skipn (i + length sep) cs) /\ firstn (length (utf8 (firstn i cs))) (utf8 cs) = utf8 (firstn i cs).
Proof.
  intros Fs E. destruct (find_cut sep cs i E) as [Ec El]. assert (U : utf8 cs = utf8 (firstn i cs) ++ utf8 sep ++ utf8 (skipn (i + length sep) cs)) by (rewrite Ec at 1; rewrite !utf8_app; reflexivity).
  rewrite U. split.
  - rewrite app_assoc, <- app_length, skipn_app, Nat.sub_diag, skipn_all. reflexivity.
  - rewrite firstn_app, Nat.sub_diag, firstn_O, app_nil_r. apply firstn_all.
Qed.
Lemma scalar_skipn n cs : Forall scalar cs -> Forall scalar (skipn n cs).
Proof. intros F. rewrite <- (firstn_skipn n cs) in F. apply Forall_app in F. tauto. Qed.
Lemma scalar_firstn n cs : Forall scalar cs -> Forall scalar (firstn n cs).
Proof. intros F. rewrite <- (firstn_skipn n cs) in F. apply Forall_app in F. tauto. Qed.
Lemma utf8_nil_iff cs : Forall scalar cs -> utf8 cs = [] -> cs = [].
Proof. intros F E. apply utf8_inj; auto. Qed.

(** ** Replacing *)
Lemma replace_loop_spec old new : old <> [] -> forall fuel s count res, (length s < fuel)%nat ->
  exists x rest, replace_loop fuel old new s count res = Some (res ++ x, rest) /\ replaced old new (Some count) s (x ++ rest).
Proof.
  intros Nn. induction fuel as [|fuel IH]; intros s count res L; [lia|]. cbn [replace_loop]. destruct (0 <? count) eqn:E0.
  - destruct (find old s) as [i|] eqn:Ef.
    + destruct (find_cut old s i Ef) as [Es El]. destruct (IH (skipn (i + length old) s) (count - 1) (res ++ firstn i s ++ new)) as (x & rest & -> & R).
      { rewrite skipn_length. destruct old; [congruence|]. apply (f_equal (@length Z)) in Es. rewrite !app_length in Es. cbn [length] in *. lia. }
      exists (firstn i s ++ new ++ x), rest. split; [rewrite <- !app_assoc; reflexivity|]. rewrite Es at 1. rewrite <- !app_assoc. constructor; [cbn; lia|apply find_first, Ef|exact R].
    + exists [], s. rewrite app_nil_r. split; [reflexivity|]. constructor. right. apply find_none, Ef.
  - exists [], s. rewrite app_nil_r. split; [reflexivity|]. constructor. left. cbn. lia.
Qed.
Lemma replaced_unlimited (old new : list Z) : old <> [] -> forall m s r, replaced old new m s r -> forall k, m = Some k -> len s <= k -> replaced old new None s r.
Proof.
  intros Nn m s r R. induction R as [m l H|m a b r Sm H R IH]; intros k -> L.
  - constructor. right. destruct H as [H|H]; [|exact H]. cbn in H. intros i O. apply occurs_bound in O. destruct old; [congruence|]. unfold len in *. cbn [length] in O. lia.
  - constructor; [exact I|exact H|]. apply (IH (k - 1) eq_refl). rewrite !len_app in L. destruct old; [congruence|]. unfold len in *. cbn [length] in L. lia.
Qed.
Lemma replace_loop_utf8 old new : old <> [] -> Forall scalar old -> forall fuel cs count res, Forall scalar cs ->
  replace_loop fuel (utf8 old) (utf8 new) (utf8 cs) count (utf8 res) = match replace_loop fuel old new cs count res with Some (x, y) => Some (utf8 x, utf8 y) | None => None end.
Proof.
  intros Nn Fo. induction fuel as [|fuel IH]; intros cs count res Fc; [reflexivity|]. cbn [replace_loop]. destruct (0 <? count); [|reflexivity].
  rewrite find_utf8 by auto. destruct (find old cs) as [i|] eqn:E; [|reflexivity]. destruct (find_utf8_cut old cs i Fo E) as [-> ->]. rewrite <- !utf8_app. apply IH. apply scalar_skipn, Fc.
Qed.
Lemma limit_count (m : option Z) : let count := match m with Some k => if 0 <=? k then k else int64_max | None => int64_max end in
  (limit m = Some count \/ (limit m = None /\ count = int64_max)) /\ 0 <= count.
Proof. cbn. unfold limit, int64_max. destruct m as [k|]; [destruct (k <? 0) eqn:E; destruct (0 <=? k) eqn:E2; split; try lia; auto; lia|]. split; [auto|lia]. Qed.

(** An encoding of elements: single bytes, or code points in UTF-8. *)
Lemma fence_loop_spec (enc : Z -> list Z) (clen : bytes -> nat) (ok : Z -> Prop) new :
  (forall c t, ok c -> clen (enc c ++ t) = length (enc c) /\ (0 < length (enc c))%nat) ->
  forall cs fuel count res, Forall ok cs -> (length (flat_map enc cs) < fuel)%nat ->
  exists x rest r, fence_loop clen fuel (flat_map enc new) (flat_map enc cs) count res = Some (res ++ x, rest) /\ flat_map enc r = x ++ rest /\
    fenced new (Some (count + 1)) cs (if 0 <=? count then new ++ r else cs).
Proof.
  intros Hc. induction cs as [|c cs IH]; intros fuel count res F L; (destruct fuel as [|fuel]; [lia|]); cbn [fence_loop flat_map].
  - cbn [size length Z.of_nat]. rewrite andb_false_r. exists [], [], []. rewrite app_nil_r. split; [reflexivity|]. split; [reflexivity|]. destruct (0 <=? count) eqn:E; [rewrite app_nil_r; constructor; cbn; lia|constructor; cbn; lia].
  - inversion F as [|? ? Oc Fc]; subst. destruct (Hc c (flat_map enc cs) Oc) as [Cl Cp]. unfold size. rewrite app_length. cbn [flat_map] in L. rewrite app_length in L.
    replace (Z.of_nat (length (enc c) + length (flat_map enc cs)) =? 0) with false by lia. rewrite andb_true_r. destruct (0 <? count) eqn:E.
    + rewrite Cl. rewrite skipn_app, skipn_all, Nat.sub_diag, firstn_app, firstn_all, Nat.sub_diag, firstn_O, app_nil_r. cbn [skipn app].
      destruct (IH fuel (count - 1) (res ++ enc c ++ flat_map enc new) Fc ltac:(lia)) as (x & rest & r & -> & Er & R). exists (enc c ++ flat_map enc new ++ x), rest, (c :: new ++ r).
      split; [rewrite <- !app_assoc; reflexivity|]. split; [cbn [flat_map]; rewrite flat_map_app, Er, <- !app_assoc; reflexivity|]. replace (0 <=? count) with true by lia. replace (0 <=? count - 1) with true in R by lia.
      constructor; [cbn; lia|]. cbn [one_less]. replace (count + 1 - 1) with (count - 1 + 1) by lia. exact R.
    + exists [], (enc c ++ flat_map enc cs), (c :: cs). rewrite app_nil_r. split; [reflexivity|]. split; [reflexivity|]. destruct (0 <=? count) eqn:E2; [|constructor; cbn; lia]. constructor; [cbn; lia|]. constructor. cbn. lia.
Qed.
Lemma fenced_unlimited (new : list Z) m s r : fenced new m s r -> forall k, m = Some k -> len s < k -> fenced new None s r.
Proof.
  intros R. induction R as [m l H|m H|m x l r Sm R IH]; intros k -> L.
  - cbn in H. unfold len in L. lia.
  - constructor. exact I.
  - constructor; [exact I|]. apply (IH (k - 1) eq_refl). unfold len in *. cbn [length] in L. lia.
Qed.
Lemma replace_with_ok (enc : Z -> list Z) clen (ok : Z -> Prop) cs old new m :
  (forall c t, ok c -> clen (enc c ++ t) = length (enc c) /\ (0 < length (enc c))%nat) ->
  (old <> [] -> forall fuel count, replace_loop fuel (flat_map enc old) (flat_map enc new) (flat_map enc cs) count [] = match replace_loop fuel old new cs count [] with Some (x, y) => Some (flat_map enc x, flat_map enc y) | None => None end) ->
  (old <> [] -> flat_map enc old <> []) -> (length cs <= length (flat_map enc cs))%nat ->
  Forall ok cs -> len (flat_map enc cs) < int64_max ->
  exists r, replace_with clen (flat_map enc cs) (flat_map enc old) (flat_map enc new) m = Some (flat_map enc r) /\ replacement_of old new m cs r.
Proof.
  intros Hc Hh Hn Hl F L. unfold replace_with. destruct (limit_count m) as [Lm Lc]. set (count := match m with Some k => if 0 <=? k then k else int64_max | None => int64_max end) in *. clearbody count. destruct old as [|o old].
  - cbn [flat_map]. destruct (0 <? count) eqn:E.
    + destruct (fence_loop_spec enc clen ok new Hc cs (S (length (flat_map enc cs))) (count - 1) (flat_map enc new) F ltac:(lia)) as (x & rest & r & -> & Er & R). cbn [bind]. exists (new ++ r).
      split; [rewrite flat_map_app, Er, app_assoc; reflexivity|]. left. split; [reflexivity|]. replace (0 <=? count - 1) with true in R by lia. replace (count - 1 + 1) with count in R by lia.
      destruct Lm as [->|[-> ->]]; [exact R|]. apply (fenced_unlimited new _ _ _ R int64_max eq_refl). unfold len in *. lia.
    + cbn [bind app]. exists cs. split; [reflexivity|]. left. split; [reflexivity|]. destruct Lm as [->|[_ ->]]; [|discriminate]. constructor. cbn. lia.
  - specialize (Hh ltac:(discriminate)). specialize (Hn ltac:(discriminate)). destruct (flat_map enc (o :: old)) as [|y t] eqn:Eo; [congruence|]. rewrite Hh.
    destruct (replace_loop_spec (o :: old) new ltac:(discriminate) (S (length (flat_map enc cs))) cs count [] ltac:(lia)) as (x & rest & -> & R). cbn [bind app]. exists (x ++ rest). split; [rewrite flat_map_app; reflexivity|]. right. split; [discriminate|].
    destruct Lm as [->|[-> ->]]; [exact R|]. apply (replaced_unlimited (o :: old) new ltac:(discriminate) _ _ _ R int64_max eq_refl). unfold len in *. lia.
Qed.
Lemma flat_single (l : list Z) : flat_map (fun c => [c]) l = l.
Proof. induction l as [|x l IH]; [reflexivity|]. cbn. rewrite IH. reflexivity. Qed.
Lemma bytes_replace_ok s old new m : len s < int64_max -> exists r, bytes_replace s old new m = Some r /\ replacement_of old new m s r.
Proof.
  intros L. destruct (replace_with_ok (fun c => [c]) (fun _ => 1%nat) (fun _ => True) s old new m) as (r & E & R).
  - intros c t _. cbn. lia.
  - intros _ fuel count. rewrite !flat_single. destruct (replace_loop fuel old new s count []) as [[x y]|]; [rewrite !flat_single|]; reflexivity.
  - rewrite flat_single. auto.
  - rewrite flat_single. lia.
  - apply Forall_forall. auto.
  - rewrite flat_single. exact L.
  - rewrite !flat_single in E. exists r. auto.
Qed.
Lemma text_replace_ok cs old new m : Forall scalar cs -> Forall scalar old -> len (utf8 cs) < int64_max ->
  exists r, text_replace (utf8 cs) (utf8 old) (utf8 new) m = Some (utf8 r) /\ replacement_of old new m cs r.
Proof.
  intros Fc Fo L. apply (replace_with_ok encode u8_fwd scalar); auto.
  - intros c t Sc. unfold u8_fwd. rewrite decode1_encode by exact Sc. rewrite app_length. pose proof (encode_nonempty c Sc). lia.
  - intros Nn fuel count. apply (replace_loop_utf8 old new Nn Fo fuel cs count [] Fc).
  - intros Nn E. apply Nn, utf8_nil_iff; auto.
  - apply utf8_length_le, Fc.
Qed.
Lemma replaced_scalar (old new : list Z) m l r : Forall scalar new -> replaced old new m l r -> Forall scalar l -> Forall scalar r.
Proof. intros Fn R. induction R as [|m a b r _ _ R IH]; intros F; [exact F|]. rewrite !Forall_app in *. tauto. Qed.
Lemma fenced_scalar (new : list Z) m l r : Forall scalar new -> fenced new m l r -> Forall scalar l -> Forall scalar r.
Proof. intros Fn R. induction R as [|m|m x l r _ R IH]; intros F; auto. inversion F; subst. apply Forall_app. split; [exact Fn|]. constructor; auto. Qed.
(** What a replacement is, is determined. *)
Lemma first_unique {A} (a b a' b' sub : list A) : a ++ sub ++ b = a' ++ sub ++ b' -> (forall i, occurs (a ++ sub ++ b) sub i -> len a <= i) -> (forall i, occurs (a' ++ sub ++ b') sub i -> len a' <= i) -> a = a' /\ b = b'.
Proof.
  intros E H H'. assert (L : len a <= len a' /\ len a' <= len a). { split; [apply H; rewrite E; exists a', b'; auto|apply H'; rewrite <- E; exists a, b; auto]. }
  unfold len in L. destruct (app_cut _ _ _ _ E ltac:(lia)) as (e & -> & E2). rewrite app_length in L. destruct e; [|cbn in L; lia]. rewrite app_nil_r in *. cbn in E2. apply app_inv_head in E2. auto.
Qed.
Lemma replaced_det {A} (old new : list A) m l r : replaced old new m l r -> forall r', replaced old new m l r' -> r = r'.
Proof.
  induction 1 as [m l H|m a b r S F R IH]; intros r' R'.
  - inversion R' as [|? a b ? S F ?]; subst; [reflexivity|]. destruct H as [H|H]; [contradiction|]. destruct (H (len a)). exists a, b. auto.
  - inversion R' as [? ? H|? a' b' r2 S' F' R2 E]; subst.
    + destruct H as [H|H]; [contradiction|]. destruct (H (len a)). exists a, b. auto.
    + destruct (first_unique a b a' b' old) as [-> ->]; auto. rewrite (IH _ R2). reflexivity.
Qed.
Lemma fenced_det {A} (new : list A) m l r : fenced new m l r -> forall r', fenced new m l r' -> r = r'.
Proof. induction 1 as [m l H|m H|m x l r S R IH]; intros r' R'; inversion R'; subst; auto; try contradiction. f_equal. f_equal. auto. Qed.
Lemma replacement_unique {A} (old new : list A) m l r r' : replacement_of old new m l r -> replacement_of old new m l r' -> r = r'.
Proof. intros [[-> R]|[N R]] [[E R']|[N' R']]; try congruence; [eapply fenced_det; eassumption|eapply replaced_det; eassumption]. Qed.

(** ** Stripping *)
Lemma strip_front_ok (P : Z -> Prop) test : forall s, (forall c, In c s -> exists b, test c = Some b /\ (b = true <-> P c)) -> exists r, strip_front test s = Some r /\ lstripped P s r.
Proof.
  induction s as [|c s IH]; intros H; cbn [strip_front]; [exists []; split; [reflexivity|exists []; auto]|].
  destruct (H c (or_introl eq_refl)) as (b & -> & Hb). cbn [bind]. destruct b.
  - destruct IH as (r & -> & p & -> & Fp & N); [intros d Hd; apply H; right; exact Hd|]. exists r. split; [reflexivity|]. exists (c :: p). split; [reflexivity|]. split; [constructor; tauto|exact N].
  - exists (c :: s). split; [reflexivity|]. exists []. split; [reflexivity|]. split; [constructor|]. intros Pc. apply Hb in Pc. discriminate.
Qed.
Lemma lr_stripped {A} (P : A -> Prop) l r : lstripped P (rev l) r <-> rstripped P l (rev r).
Proof.
  assert (Fr : forall p : list A, Forall P p <-> Forall P (rev p)) by (intros p; rewrite !Forall_forall; split; intros H x Hx; apply H; [rewrite <- in_rev in Hx; exact Hx|rewrite <- in_rev; exact Hx]).
  split.
  - intros (p & E & F & N). exists (rev p). split; [rewrite <- rev_app_distr, <- E, rev_involutive; reflexivity|]. split; [apply Fr in F; exact F|]. destruct r as [|x r]; [left; reflexivity|]. right. exists (rev r), x. auto.
  - intros (p & E & F & N). exists (rev p). split; [rewrite E, rev_app_distr, rev_involutive; reflexivity|]. split; [apply Fr in F; exact F|]. destruct r as [|x r]; [exact I|]. destruct N as [N|(q & y & E2 & N)]; [cbn in N; symmetry in N; apply app_cons_not_nil in N; contradiction|]. cbn in E2. apply app_inj_tail in E2. destruct E2 as [_ <-]. exact N.
Qed.
Lemma strip_back_ok (P : Z -> Prop) test s : (forall c, In c s -> exists b, test c = Some b /\ (b = true <-> P c)) -> exists r, strip_back test s = Some r /\ rstripped P s r.
Proof.
  intros H. unfold strip_back. destruct (strip_front_ok P test (rev s)) as (r & -> & L); [intros c Hc; apply H; rewrite in_rev; exact Hc|]. exists (rev r). split; [reflexivity|]. apply lr_stripped, L.
Qed.
Lemma both_stripped {A} (P : A -> Prop) l r r' : lstripped P l r -> rstripped P r r' -> stripped P l r'.
Proof.
  intros (p & -> & Fp & N) (q & -> & Fq & N'). exists p, q. split; [reflexivity|]. split; [exact Fp|]. split; [exact Fq|]. destruct r' as [|x t]; [left; reflexivity|]. right. split; [exists x, t; auto|]. destruct N' as [N'|(t' & y & E & N')]; [discriminate|]. exists t', y. auto.
Qed.
Lemma bitset_256_is : bitset_256 = [8].
Proof. reflexivity. Qed.
Definition usable (uchar : bool) (c : Z) : Prop := 0 <= c < 256 /\ (uchar = true \/ c < 128).
Lemma as_index_id uchar c : usable uchar c -> as_index uchar c = c.
Proof. intros [R [->|H]]; unfold as_index; [reflexivity|]. destruct uchar; [reflexivity|]. replace (c <? 128) with true by lia. reflexivity. Qed.
Lemma char_set_ok uchar : forall chars l, Forall (usable uchar) chars -> exists l', char_set uchar l chars = Some l' /\ forall c, In c l' <-> In c l \/ In c chars.
Proof.
  induction chars as [|d chars IH]; intros l F; cbn [char_set]; [exists l; split; [reflexivity|]; cbn; tauto|]. inversion F as [|? ? Hd Fc]; subst. unfold bit_set. rewrite as_index_id by exact Hd. replace (d <? 0) with false by (unfold usable in Hd; lia). cbn [bind].
  destruct (IH (d :: l) Fc) as (l' & -> & H). exists l'. split; [reflexivity|]. intros c. rewrite H. cbn. tauto.
Qed.
Lemma existsb_Z c l : existsb (Z.eqb c) l = true <-> In c l.
Proof. rewrite existsb_exists. split; [intros (x & H & E); apply Z.eqb_eq in E; subst; exact H|intros H; exists c; split; [exact H|apply Z.eqb_refl]]. Qed.
(** The characters that are removed: besides those asked for, backspace. *)
Definition removed (chars : option (list Z)) (c : Z) : Prop := match chars with Some cs => In c cs \/ c = 8 | None => c = 32 \/ 9 <= c <= 13 end.
Lemma bytes_test_ok uchar chars s : (forall cs, chars = Some cs -> Forall (usable uchar) cs /\ Forall (usable uchar) s) ->
  exists t, bytes_test uchar chars = Some t /\ forall c, In c s -> exists b, t c = Some b /\ (b = true <-> removed chars c).
Proof.
  intros H. unfold bytes_test. destruct chars as [cs|].
  - destruct (H cs eq_refl) as [Fc Fs]. rewrite bitset_256_is. destruct (char_set_ok uchar cs [8] Fc) as (l & -> & Hl). cbn [bind]. eexists. split; [reflexivity|]. intros c Hc. rewrite Forall_forall in Fs. specialize (Fs c Hc). unfold bit_test. rewrite as_index_id by exact Fs. replace (c <? 0) with false by (unfold usable in Fs; lia).
    eexists. split; [reflexivity|]. rewrite existsb_Z, Hl. cbn. intuition.
  - eexists. split; [reflexivity|]. intros c _. eexists. split; [reflexivity|]. unfold ascii_space. cbn. lia.
Qed.

Definition in_chars (white : Z -> bool) (chars : option (list Z)) (c : Z) : Prop := match chars with Some l => In c l | None => white c = true end.
Lemma text_front_ok (P : Z -> Prop) test : (forall c, test c = true <-> P c) -> forall cs fuel, Forall scalar cs -> (length cs <= fuel)%nat -> exists r, text_front fuel test (utf8 cs) = utf8 r /\ lstripped P cs r.
Proof.
  intros Hp. induction cs as [|c cs IH]; intros fuel F L.
  - exists []. split; [destruct fuel; reflexivity|]. exists []. auto.
  - destruct fuel as [|fuel]; [cbn in L; lia|]. inversion F; subst. cbn [text_front utf8 flat_map]. fold (utf8 cs). rewrite decode1_encode by assumption. destruct (test c) eqn:E.
    + destruct (IH fuel H2 ltac:(cbn in L; lia)) as (r & -> & p & -> & Fp & N). exists r. split; [reflexivity|]. exists (c :: p). split; [reflexivity|]. split; [constructor; [apply Hp, E|exact Fp]|exact N].
    + exists (c :: cs). split; [reflexivity|]. exists []. split; [reflexivity|]. split; [constructor|]. intros Pc. apply Hp in Pc. congruence.
Qed.
Lemma encode_length c : scalar c -> (length (encode c) <= 4)%nat.
Proof. intros _. unfold encode. destruct (c <? 128), (c <? 2048), (c <? 65536); cbn; lia. Qed.
Lemma prev_ok cs c : Forall scalar cs -> scalar c -> prev 4 (utf8 (cs ++ [c])) = Some (c, utf8 cs).
Proof.
  intros F Sc. rewrite utf8_app. cbn [utf8 flat_map]. rewrite app_nil_r. fold (utf8 cs). destruct (encode_shape c Sc) as (b & t & Ec & _ & _ & Ft & _). pose proof (encode_length c Sc) as Le.
  assert (Lo : forall k, (k <= length t)%nat -> prev k (utf8 cs ++ encode c) = None).
  { induction k as [|k IH]; intros Lk; [reflexivity|]. cbn [prev]. rewrite IH by lia. rewrite app_length, Ec. cbn [length]. destruct (Nat.leb_spec (S k) (length (utf8 cs) + S (length t))); [|reflexivity].
    rewrite skipn_app. rewrite (skipn_all2 (utf8 cs)) by lia. cbn [app]. replace (length (utf8 cs) + S (length t) - S k - length (utf8 cs))%nat with (S (length t - S k)) by lia. cbn [skipn].
    destruct (skipn (length t - S k) t) as [|x u] eqn:E; [reflexivity|]. assert (Hx : 128 <= x < 192). { rewrite Forall_forall in Ft. apply Ft. rewrite <- (firstn_skipn (length t - S k) t), E, in_app_iff. right. left. reflexivity. }
    cbn [decode1]. replace (x <? 128) with false by lia. replace (x <? 192) with true by lia. reflexivity. }
  assert (Hit : prev (S (length t)) (utf8 cs ++ encode c) = Some (c, utf8 cs)).
  { cbn [prev]. rewrite Lo by lia. rewrite app_length. replace (length (encode c)) with (S (length t)) by (rewrite Ec; reflexivity). replace (S (length t) <=? length (utf8 cs) + S (length t))%nat with true by (symmetry; apply Nat.leb_le; lia).
    replace (length (utf8 cs) + S (length t) - S (length t))%nat with (length (utf8 cs)) by lia. rewrite skipn_app, skipn_all, Nat.sub_diag. cbn [app skipn]. rewrite <- (app_nil_r (encode c)) at 1. rewrite decode1_encode by exact Sc.
    rewrite firstn_app, Nat.sub_diag, firstn_O, app_nil_r, firstn_all. reflexivity. }
  assert (Up : forall k, (S (length t) <= k)%nat -> prev k (utf8 cs ++ encode c) = Some (c, utf8 cs)).
  { induction k as [|k IH]; intros Lk; [lia|]. destruct (Nat.eq_dec k (length t)) as [->|]; [exact Hit|]. cbn [prev]. rewrite IH by lia. reflexivity. }
  apply Up. rewrite Ec in Le. cbn in Le. lia.
Qed.
Lemma text_back_ok (P : Z -> Prop) test : (forall c, test c = true <-> P c) -> forall cs fuel, Forall scalar cs -> (length cs <= fuel)%nat -> exists r, text_back fuel test (utf8 cs) = utf8 r /\ rstripped P cs r.
Proof.
  intros Hp cs. induction cs as [|c cs IH] using rev_ind; intros fuel F L.
  - exists []. split; [destruct fuel; reflexivity|]. exists []. auto.
  - rewrite app_length in L. cbn in L. destruct fuel as [|fuel]; [lia|]. apply Forall_app in F. destruct F as [F Fc]. inversion Fc; subst. cbn [text_back]. rewrite prev_ok by assumption. destruct (test c) eqn:E.
    + destruct (IH fuel F ltac:(lia)) as (r & -> & p & -> & Fp & N). exists r. split; [reflexivity|]. exists (p ++ [c]). split; [rewrite app_assoc; reflexivity|]. split; [apply Forall_app; split; [exact Fp|constructor; [apply Hp, E|constructor]]|exact N].
    + exists (cs ++ [c]). split; [reflexivity|]. exists []. split; [rewrite app_nil_r; reflexivity|]. split; [constructor|]. right. exists cs, c. split; [reflexivity|]. intros Pc. apply Hp in Pc. congruence.
Qed.
Lemma text_test_ok white chars : (forall l, chars = Some l -> Forall scalar l) ->
  exists t, text_test white (match chars with Some l => Some (utf8 l) | None => None end) = Some t /\ forall c, t c = true <-> in_chars white chars c.
Proof.
  intros F. unfold text_test. destruct chars as [l|].
  - rewrite decode_utf8 by (auto; lia). cbn [bind]. eexists. split; [reflexivity|]. intros c. apply existsb_Z.
  - eexists. split; [reflexivity|]. intros c. reflexivity.
Qed.
Lemma stripped_scalar cs p r q : cs = p ++ r ++ q -> Forall scalar cs -> Forall scalar r.
Proof. intros -> F. rewrite !Forall_app in F. tauto. Qed.

(** ** Integers *)
Lemma digits_spec : forall s, let (d, r) := digits s in s = d ++ r /\ Forall digit d /\ match r with c :: _ => ~ digit c | [] => True end.
Proof.
  induction s as [|c s IH]; cbn [digits]; [auto|]. unfold is_digit. destruct ((48 <=? c) && (c <=? 57)) eqn:E.
  - destruct (digits s) as [d r]. destruct IH as (-> & F & N). split; [reflexivity|]. split; [constructor; [unfold digit; lia|exact F]|exact N].
  - split; [reflexivity|]. split; [constructor|]. unfold digit. lia.
Qed.
Lemma digits_all ds : Forall digit ds -> digits ds = (ds, []).
Proof. induction 1 as [|c ds H _ IH]; [reflexivity|]. cbn [digits]. unfold is_digit, digit in *. replace ((48 <=? c) && (c <=? 57)) with true by lia. rewrite IH. reflexivity. Qed.
Lemma value_number ds : value ds = number ds.
Proof.
  unfold value. assert (G : forall a, fold_left (fun acc c => 10 * acc + (c - 48)) ds a = a * 10 ^ Z.of_nat (length ds) + number ds).
  { induction ds as [|c ds IH]; intros a; cbn [fold_left number length]; [cbn; lia|]. rewrite IH. rewrite Nat2Z.inj_succ, Z.pow_succ_r by lia. ring. }
  rewrite G. lia.
Qed.
Lemma from_chars_spec bits s v : from_chars bits s = (Some v, []) <-> exists ds, ds <> [] /\ Forall digit ds /\ - 2 ^ (bits - 1) <= v < 2 ^ (bits - 1) /\ ((s = ds /\ v = number ds) \/ (s = 45 :: ds /\ v = - number ds)).
Proof.
  unfold from_chars. set (nt := match s with c :: t => if c =? 45 then (true, t) else (false, s) | [] => (false, s) end).
  assert (Nt : (exists t, s = 45 :: t /\ nt = (true, t)) \/ (nt = (false, s) /\ forall t, s <> 45 :: t)).
  { subst nt. destruct s as [|c t]; [right; split; [reflexivity|discriminate]|]. destruct (c =? 45) eqn:E; [left; exists t; split; [f_equal; lia|reflexivity]|right; split; [reflexivity|intros u H; injection H as -> _; discriminate]]. }
  clearbody nt. assert (D : ~ digit 45) by (unfold digit; lia).
  assert (Core : forall neg t, (let v' := if neg : bool then - value t else value t in True) -> (match digits t with ([], _) => (None, s) | (ds, r) => let v := if neg then - value ds else value ds in (if (- 2 ^ (bits - 1) <=? v) && (v <? 2 ^ (bits - 1)) then Some v else None, r) end = (Some v, []) <-> t <> [] /\ Forall digit t /\ v = (if neg then - number t else number t) /\ - 2 ^ (bits - 1) <= v < 2 ^ (bits - 1))).
  { intros neg t _. pose proof (digits_spec t) as Ds. destruct (digits t) as [d r] eqn:Ed. destruct Ds as (Et & Fd & Nr). destruct d as [|x d].
    - split; [discriminate|]. intros (Nn & Ft & _). rewrite (digits_all t Ft) in Ed. injection Ed as -> _. congruence.
    - cbv zeta. rewrite !value_number. set (v' := if neg then - number (x :: d) else number (x :: d)). split.
      + destruct ((- 2 ^ (bits - 1) <=? v') && (v' <? 2 ^ (bits - 1))) eqn:E; [|discriminate]. intros H. injection H as <- ->. rewrite app_nil_r in Et. subst t. split; [discriminate|]. split; [exact Fd|]. split; [reflexivity|lia].
      + intros (Nn & Ft & Ev & R). rewrite (digits_all t Ft) in Ed. injection Ed as E1 E2. rewrite E1 in Ev. subst r. change (v = v') in Ev. rewrite <- Ev. replace ((- 2 ^ (bits - 1) <=? v) && (v <? 2 ^ (bits - 1))) with true by lia. reflexivity. }
  destruct Nt as [(t & Es & ->)|[-> Nt]]; [refine (iff_trans (Core true t I) _); subst s|refine (iff_trans (Core false s I) _)].
  - split; [intros (Nn & Ft & -> & R); exists t; auto 6|]. intros (ds & Nn & Fd & R & [[E _]|[E ->]]); [subst ds; inversion Fd; contradiction|]. injection E as ->. auto.
  - split; [intros (Nn & Ft & -> & R); exists s; auto 6|]. intros (ds & Nn & Fd & R & [[-> ->]|[E _]]); [auto|]. destruct (Nt ds E).
Qed.
Lemma parse_int_ok bits s v : parse_int bits s = Some v <-> int_text s v /\ - 2 ^ (bits - 1) <= v < 2 ^ (bits - 1).
Proof.
  unfold parse_int. assert (Go : forall t, match from_chars bits t with (Some v, []) => Some v | _ => None end = Some v <-> from_chars bits t = (Some v, [])).
  { intros t. destruct (from_chars bits t) as [[w|] [|x r]]; split; intros H; try discriminate; inversion H; reflexivity. }
  assert (D : ~ digit 45 /\ ~ digit 43) by (unfold digit; lia). destruct D as [D1 D2].
  assert (Plain : forall t, (forall u, t <> 43 :: u) -> ((exists ds, ds <> [] /\ Forall digit ds /\ - 2 ^ (bits - 1) <= v < 2 ^ (bits - 1) /\ ((t = ds /\ v = number ds) \/ (t = 45 :: ds /\ v = - number ds))) <-> int_text t v /\ - 2 ^ (bits - 1) <= v < 2 ^ (bits - 1))).
  { intros t Nt. split.
    - intros (ds & Nn & Fd & R & [[-> ->]|[-> ->]]); (split; [constructor; assumption|exact R]).
    - intros [I R]. inversion I; subst; [exists t; auto 6|destruct (Nt _ eq_refl)|exists ds; auto 6]. }
  destruct s as [|c t].
  - rewrite Go, from_chars_spec. apply Plain. discriminate.
  - destruct (c =? 43) eqn:E.
    + assert (c = 43) as -> by lia. assert (Plus : int_text (43 :: t) v <-> t <> [] /\ Forall digit t /\ v = number t).
      { split; [intros I; inversion I; subst; auto; inversion H0; contradiction|]. intros (Nn & Ft & ->). constructor; assumption. }
      destruct t as [|d u].
      * rewrite Go, from_chars_spec. split; [intros (ds & Nn & _ & _ & [[E2 _]|[E2 _]]); [congruence|discriminate]|]. intros [I _]. apply Plus in I. tauto.
      * destruct (d =? 45) eqn:E2.
        -- split; [discriminate|]. intros [I _]. apply Plus in I. destruct I as (_ & F & _). inversion F; subst. assert (d = 45) as -> by lia. contradiction.
        -- rewrite Go, from_chars_spec, Plus. split.
           ++ intros (ds & Nn & Fd & R & [[<- ->]|[E3 _]]); [auto|]. injection E3 as -> _. discriminate.
           ++ intros [(Nn & Ft & ->) R]. exists (d :: u). auto 6.
    + rewrite Go, from_chars_spec. apply Plain. intros u H. injection H as -> _. discriminate.
Qed.
Lemma number_snoc ds c : number (ds ++ [c]) = 10 * number ds + (c - 48).
Proof. rewrite <- !value_number. unfold value. rewrite fold_left_app. reflexivity. Qed.
Lemma show_nat_ok : forall fuel n, 0 <= n < 2 ^ Z.of_nat fuel -> (0 < fuel)%nat -> show_nat fuel n <> [] /\ Forall digit (show_nat fuel n) /\ number (show_nat fuel n) = n.
Proof.
  induction fuel as [|fuel IH]; intros n R L; [lia|]. cbn [show_nat]. destruct (n <? 10) eqn:E.
  - split; [discriminate|]. split; [repeat constructor; unfold digit; lia|]. change ((48 + n - 48) * 1 + 0 = n). lia.
  - rewrite Nat2Z.inj_succ, Z.pow_succ_r in R by lia. assert (Lf : (0 < fuel)%nat) by (destruct fuel; [cbn in R; lia|lia]). destruct (IH (n / 10) ltac:(divs) Lf) as (Nn & F & V). split; [intros H; apply app_eq_nil in H; destruct H; discriminate|].
    split; [apply Forall_app; split; [exact F|repeat constructor; unfold digit; divs]|]. rewrite number_snoc, V. divs.
Qed.
Lemma log2_fuel n : 0 <= n -> n < 2 ^ Z.of_nat (S (Z.to_nat (Z.log2 n))).
Proof.
  intros H. rewrite Nat2Z.inj_succ, Z2Nat.id by apply Z.log2_nonneg. destruct (Z.eq_dec n 0) as [->|]; [reflexivity|]. apply Z.log2_spec. lia.
Qed.
Lemma as_text_ok z : int_text (as_text z) z.
Proof.
  unfold as_text. destruct (z <? 0) eqn:E.
  - destruct (show_nat_ok (S (Z.to_nat (Z.log2 (- z)))) (- z)) as (Nn & F & V); [split; [lia|apply log2_fuel; lia]|lia|]. replace z with (- number (show_nat (S (Z.to_nat (Z.log2 (- z)))) (- z))) at 3 by lia. constructor; assumption.
  - destruct (show_nat_ok (S (Z.to_nat (Z.log2 z))) z) as (Nn & F & V); [split; [lia|apply log2_fuel; lia]|lia|]. rewrite <- V at 3. constructor; assumption.
Qed.

(** ** Splitting *)
Lemma split_by_ok sep : sep <> [] -> forall fuel s, (length s < fuel)%nat -> exists ps, split_by fuel sep s = Some ps /\ split_at sep s ps.
Proof.
  intros Nn. induction fuel as [|fuel IH]; intros s L; [lia|]. cbn [split_by]. destruct sep as [|x sep]; [congruence|]. destruct (find (x :: sep) s) as [i|] eqn:E.
  - destruct (find_cut (x :: sep) s i E) as [Es El]. destruct (IH (skipn (i + length (x :: sep)) s)) as (ps & -> & Sp).
    { rewrite skipn_length. apply (f_equal (@length Z)) in Es. rewrite !app_length in Es. cbn [length] in *. lia. }
    cbn [bind]. eexists. split; [reflexivity|]. rewrite Es at 1. constructor; [apply find_first, E|exact Sp].
  - eexists. split; [reflexivity|]. constructor. apply find_none, E.
Qed.
Lemma split_by_utf8 sep : sep <> [] -> Forall scalar sep -> forall fuel cs, Forall scalar cs ->
  split_by fuel (utf8 sep) (utf8 cs) = match split_by fuel sep cs with Some ps => Some (map utf8 ps) | None => None end.
Proof.
  intros Nn Fs. induction fuel as [|fuel IH]; intros cs Fc; [reflexivity|]. cbn [split_by]. destruct sep as [|x sep]; [congruence|]. destruct (utf8 (x :: sep)) as [|y u] eqn:Eu; [apply utf8_nil_iff in Eu; [discriminate|exact Fs]|].
  rewrite <- Eu. rewrite find_utf8 by auto. destruct (find (x :: sep) cs) as [i|] eqn:E; [|reflexivity]. destruct (find_utf8_cut (x :: sep) cs i Fs E) as [-> ->]. rewrite <- Eu in IH. rewrite IH by (apply scalar_skipn, Fc). destruct (split_by fuel (x :: sep) (skipn (i + length (x :: sep)) cs)); reflexivity.
Qed.
Definition space (c : Z) : Prop := c = 32 \/ 9 <= c <= 13.
Lemma space_true c : ascii_space c = true <-> space c.
Proof. unfold ascii_space, space. lia. Qed.
Lemma words_skip (P : Z -> Prop) c l ws : P c -> words P l ws -> words P (c :: l) ws.
Proof.
  intros Pc W. destruct W as [l F|s w F Nn Fw|s w d l ws F Nn Fw Pd W].
  - constructor. constructor; assumption.
  - apply (WLast P (c :: s)); auto.
  - apply (WNext P (c :: s)); auto.
Qed.
Lemma split_space_ok : forall s cur, Forall (fun c => ~ space c) cur -> words space (cur ++ s) (split_space s cur).
Proof.
  induction s as [|c s IH]; intros cur F; cbn [split_space].
  - rewrite app_nil_r. destruct cur as [|x cur]; [constructor; constructor|]. apply (WLast space [] (x :: cur)); [constructor|discriminate|exact F].
  - destruct (ascii_space c) eqn:E.
    + apply space_true in E. destruct cur as [|x cur].
      * cbn [app]. apply words_skip; [exact E|]. apply (IH [] F).
      * apply (WNext space [] (x :: cur) c s); auto; [discriminate|]. apply (IH []). constructor.
    + replace (cur ++ c :: s) with ((cur ++ [c]) ++ s) by (rewrite <- app_assoc; reflexivity). apply IH. apply Forall_app. split; [exact F|]. constructor; [|constructor]. intros H. apply space_true in H. congruence.
Qed.
Lemma split_space_app l : Forall (fun c => 128 <= c) l -> forall t cur, split_space (l ++ t) cur = split_space t (cur ++ l).
Proof.
  induction 1 as [|c l Hc _ IH]; intros t cur; [rewrite app_nil_r; reflexivity|]. cbn [app split_space]. unfold ascii_space at 1. replace ((c =? 32) || (9 <=? c) && (c <=? 13)) with false by lia. rewrite IH, <- app_assoc. reflexivity.
Qed.
Lemma split_space_utf8 : forall cs cur, Forall scalar cs -> Forall scalar cur -> split_space (utf8 cs) (utf8 cur) = map utf8 (split_space cs cur).
Proof.
  induction cs as [|c cs IH]; intros cur Fc Fu; cbn [utf8 flat_map split_space].
  - destruct cur as [|x cur]; [reflexivity|]. fold (utf8 (x :: cur)). destruct (utf8 (x :: cur)) as [|y u] eqn:E; [apply utf8_nil_iff in E; [discriminate|exact Fu]|]. change (utf8 (x :: cur) = y :: u) in E. cbn [map]. rewrite E. reflexivity.
  - fold (utf8 cs). inversion Fc as [|? ? Sc Fc']; subst. destruct (Z.ltb_spec c 128) as [Lc|Lc].
    + assert (E1 : encode c = [c]) by (unfold encode; replace (c <? 128) with true by lia; reflexivity). rewrite E1. cbn [app split_space]. destruct (ascii_space c).
      * destruct cur as [|x cur]; [apply (IH [] Fc' Fu)|]. fold (utf8 (x :: cur)). destruct (utf8 (x :: cur)) as [|y u] eqn:E; [apply utf8_nil_iff in E; [discriminate|exact Fu]|]. cbn [map]. rewrite E. f_equal. apply (IH [] Fc'). constructor.
      * replace (utf8 cur ++ [c]) with (utf8 (cur ++ [c])) by (rewrite utf8_app; cbn [utf8 flat_map]; rewrite E1; reflexivity). apply IH; [exact Fc'|]. apply Forall_app. auto.
    + rewrite split_space_app.
      * replace (ascii_space c) with false by (unfold ascii_space; lia). replace (utf8 cur ++ encode c) with (utf8 (cur ++ [c])) by (rewrite utf8_app; cbn [utf8 flat_map]; rewrite app_nil_r; reflexivity). apply IH; [exact Fc'|]. apply Forall_app. auto.
      * assert (M : forall x, 128 <= 128 + x mod 64) by (intros x; divs). unfold encode. replace (c <? 128) with false by lia. unfold scalar in Sc. destruct (c <? 2048), (c <? 65536); repeat constructor; auto; divs.
Qed.
Lemma split_at_join (sep l : list Z) ps : split_at sep l ps -> join sep ps = l.
Proof.
  induction 1 as [l|a b ps H S IH]; [reflexivity|]. cbn [join]. destruct ps as [|p ps]; [inversion S|]. rewrite IH. reflexivity.
Qed.
Lemma split_at_det {A} (sep l : list A) ps : split_at sep l ps -> forall ps', split_at sep l ps' -> ps = ps'.
Proof.
  induction 1 as [l H|a b ps F S IH]; intros ps' S'.
  - inversion S' as [|a b qs F]; subst; [reflexivity|]. destruct (H (len a)). exists a, b. auto.
  - inversion S' as [? H|a' b' qs F' S2 E]; subst; [destruct (H (len a)); exists a, b; auto|]. destruct (first_unique a b a' b' sep) as [-> ->]; auto. rewrite (IH _ S2). reflexivity.
Qed.

(** The loop over the array. *)
Lemma split_loop_ok sep (Q : bytes -> list bytes -> Prop) : forall array,
  (forall s, In (Some s) array -> exists ps, pieces sep s = Some ps /\ Q s ps) -> forall points splits,
  exists pss, split_loop sep array points splits = Some (splits ++ concat pss, points ++ map (fun i => last points 0 + size (concat (firstn (S i) pss))) (seq 0 (length array))) /\
    Forall2 (fun o ps => match o with Some s => Q s ps | None => ps = [] end) array pss.
Proof.
  induction array as [|o array IH]; intros H points splits; cbn [split_loop].
  - exists []. cbn. rewrite !app_nil_r. split; [reflexivity|constructor].
  - assert (Ho : exists ps, (match o with Some s => pieces sep s | None => Some [] end) = Some ps /\ match o with Some s => Q s ps | None => ps = [] end) by (destruct o as [s|]; [apply (H s); left; reflexivity|exists []; auto]).
    destruct Ho as (ps & Ep & Hq).
    assert (St : (match o with Some s => let? ps0 := pieces sep s in split_loop sep array (points ++ [last points 0 + size ps0]) (splits ++ ps0) | None => split_loop sep array (points ++ [last points 0]) splits end) = split_loop sep array (points ++ [last points 0 + size ps]) (splits ++ ps)).
    { destruct o as [s|]; [rewrite Ep; reflexivity|]. injection Ep as <-. rewrite app_nil_r. cbn [size length Z.of_nat]. rewrite Z.add_0_r. reflexivity. }
    rewrite St. destruct (IH ltac:(intros s Hs; apply H; right; exact Hs) (points ++ [last points 0 + size ps]) (splits ++ ps)) as (pss & -> & F). exists (ps :: pss). split; [|constructor; assumption].
    cbn [concat length seq map]. rewrite <- !app_assoc. f_equal. f_equal. cbn [app]. f_equal. f_equal.
    + cbn [firstn concat]. rewrite app_nil_r. reflexivity.
    + rewrite last_last. rewrite <- seq_shift, map_map. apply map_ext. intros i. cbn [firstn concat]. unfold size. rewrite app_length. lia.
Qed.

(** ** Decoding *)
Lemma decode1_none_iff s : Forall (fun b => 0 <= b) s -> decode1 s = None -> forall c t, scalar c -> s <> encode c ++ t.
Proof. intros F E c t Sc ->. rewrite decode1_encode in E by exact Sc. discriminate. Qed.
Lemma firstn_utf8 cs r : firstn (length (utf8 cs)) (utf8 cs ++ r) = utf8 cs /\ skipn (length (utf8 cs)) (utf8 cs ++ r) = r.
Proof. rewrite firstn_app, Nat.sub_diag, firstn_O, app_nil_r, firstn_all, skipn_app, Nat.sub_diag, skipn_all. auto. Qed.
Lemma parse_utf8_ok skip (repl : bool) : (forall b w, decode1 (b :: w) = None -> exists k, skip (b :: w) = S k /\ (k <= length w)%nat /\ Forall (fun x => 128 <= x < 192) (firstn k w)) ->
  forall fuel s res, Forall (fun b => 0 <= b) s -> (length s < fuel)%nat -> exists r, parse_utf8 skip fuel repl s res = Some (res ++ r) /\ repaired (if repl then replacement else []) s r.
Proof.
  intros Hs. induction fuel as [|fuel IH]; intros s res F L; [lia|]. cbn [parse_utf8]. destruct s as [|x s]; [exists []; rewrite app_nil_r; split; [reflexivity|apply (DAll _ [])]; constructor|].
  destruct (valid_span_ok (x :: s) F) as (cs & r & Fc & Es & -> & D). rewrite Es in *. destruct (firstn_utf8 cs r) as [-> ->]. destruct r as [|b w].
  - exists (utf8 cs). split; [reflexivity|]. rewrite app_nil_r. constructor. exact Fc.
  - apply Forall_app in F. destruct F as [_ F]. inversion F as [|? ? Fb Fw]; subst.
    assert (D4 : decode1 (firstn 4 (b :: w)) = None).
    { destruct (decode1 (firstn 4 (b :: w))) as [[c t]|] eqn:E; [|reflexivity]. assert (F4 : Forall (fun y => 0 <= y) (firstn 4 (b :: w))) by (rewrite <- (firstn_skipn 4 (b :: w)) in F; apply Forall_app in F; tauto).
      destruct (decode1_sound _ _ _ F4 E) as [Sc E4]. destruct (decode1_none_iff _ F D c (t ++ skipn 4 (b :: w)) Sc). rewrite app_assoc, <- E4. symmetry. apply firstn_skipn. }
    cbn [firstn] in D4. destruct (Hs b (firstn 3 w) D4) as (k & Ek & Lk & Tk). cbn [firstn]. change (b :: match w with [] => [] | a :: l => a :: match l with [] => [] | a0 :: l0 => a0 :: match l0 with [] => [] | a1 :: _ => [a1] end end end) with (b :: firstn 3 w). rewrite Ek. cbn [skipn].
    rewrite firstn_length in Lk. assert (Ef : firstn k (firstn 3 w) = firstn k w) by (rewrite firstn_firstn; f_equal; lia). rewrite Ef in Tk.
    rewrite app_length in L. cbn [length] in L. assert (Fk : Forall (fun y => 0 <= y) (skipn k w)) by (rewrite <- (firstn_skipn k w) in Fw; apply Forall_app in Fw; tauto).
    destruct (IH (skipn k w) (if repl then (res ++ utf8 cs) ++ replacement else res ++ utf8 cs) Fk ltac:(rewrite skipn_length; lia)) as (r & -> & R).
    exists (utf8 cs ++ (if repl then replacement else []) ++ r). split; [destruct repl; rewrite <- !app_assoc; reflexivity|].
    rewrite <- (firstn_skipn k w). constructor; [exact Fc| |exact Tk|exact R]. rewrite (firstn_skipn k w). exact (decode1_none_iff _ F D).
Qed.
Lemma repaired_text mark s r : (exists m, Forall scalar m /\ mark = utf8 m) -> repaired mark s r -> exists cs, text r cs.
Proof.
  intros (m & Fm & ->). induction 1 as [cs F|cs b bad s r F _ _ R (rs & Fr & ->)]; [exists cs; split; [exact F|reflexivity]|]. exists (cs ++ m ++ rs). split; [rewrite !Forall_app; auto|]. rewrite !utf8_app. reflexivity.
Qed.
