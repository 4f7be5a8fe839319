From Coq Require Import Ascii String.
From Verif Require Import Base Strings_Model Strings_Proofs Repr_Model Naming_Model Naming_Spec.
Local Open Scope list_scope.

(** ** Segments *)
Definition seg_text (s : segment) : list Z := field_name s ++ if is_index s then index_marker else [].
Lemma format_cons s p : format_protopath (s :: p) = bytes "/" ++ seg_text s ++ format_protopath p.
Proof. reflexivity. Qed.
Lemma suffix_ok s suf : match consume_suffix s suf with
  | (n, true) => s = n ++ suf
  | (n, false) => n = s /\ forall m, s <> m ++ suf end.
Proof.
  unfold consume_suffix. destruct (Nat.leb_spec (List.length suf) (List.length s)); cbn [andb].
  - destruct (str_eqb _ suf) eqn:E.
    + apply str_eqb_ok in E. rewrite <- E at 2. symmetry. apply firstn_skipn.
    + split; [reflexivity|]. intros m ->. rewrite app_length in E. replace (List.length m + List.length suf - List.length suf) with (List.length m) in E by lia.
      rewrite skipn_app, skipn_all, Nat.sub_diag in E. cbn in E. rewrite (proj2 (str_eqb_ok suf suf) eq_refl) in E. discriminate.
  - split; [reflexivity|]. intros m ->. rewrite app_length in H. lia.
Qed.
Lemma parse_segment_ok t : seg_says t (parse_segment t).
Proof.
  unfold parse_segment. pose proof (suffix_ok t index_marker) as H. destruct (consume_suffix t index_marker) as [n [|]].
  - subst. constructor.
  - destruct H as [-> H]. constructor. exact H.
Qed.
Lemma seg_says_text t s : seg_says t s -> t = seg_text s.
Proof. intros [n|n _]; unfold seg_text; cbn; [reflexivity|rewrite app_nil_r; reflexivity]. Qed.
Lemma seg_says_fun t s s' : seg_says t s -> seg_says t s' -> s = s'.
Proof.
  intros H H'. destruct H as [n|n Hn]; inversion H' as [m Em|m Hm Em]; subst.
  - apply app_inv_tail in Em. subst. reflexivity.
  - exfalso. apply (Hm n). reflexivity.
  - exfalso. apply (Hn m). reflexivity.
  - reflexivity.
Qed.

(** ** Parsing *)
Lemma find_first_ok s c : match find_first s c with
  | None => ~ In c s
  | Some i => i < List.length s /\ s = firstn i s ++ c :: skipn (S i) s /\ ~ In c (firstn i s) end.
Proof.
  induction s as [|x t IH]; cbn [find_first]; [intros []|]. destruct (Z.eqb_spec x c) as [->|N].
  - cbn. repeat split; [lia|intros []].
  - destruct (find_first t c) as [i|]; cbn [bind].
    + destruct IH as (H1 & H2 & H3). cbn [firstn skipn List.length app]. repeat split; [lia|f_equal; exact H2|]. intros [K|K]; [congruence|contradiction].
    + intros [K|K]; [congruence|contradiction].
Qed.
Lemma says_nil s : says s [] -> s = [] \/ s = bytes "/".
Proof. intros H. inversion H; auto. Qed.
Lemma parse_loop_ok : forall fuel s, List.length s <= fuel -> exists p, parse_loop fuel s = Some p /\ says (slash :: s) p.
Proof.
  induction fuel as [|fu IH]; intros s Hs.
  - destruct s; [|cbn in Hs; lia]. exists []. split; [reflexivity|apply says_slash].
  - destruct s as [|c s]; [exists []; split; [reflexivity|apply says_slash]|].
    cbn [parse_loop]. pose proof (find_first_ok (c :: s) slash) as F. destruct (find_first (c :: s) slash) as [i|].
    + destruct F as (F1 & F2 & F3). destruct (IH (skipn (S i) (c :: s))) as (p & -> & Sp).
      { rewrite skipn_length. cbn [List.length] in *. lia. }
      cbn [bind]. exists (parse_segment (firstn i (c :: s)) :: p). split; [reflexivity|].
      rewrite F2 at 1. apply (says_seg (firstn i (c :: s))); [apply parse_segment_ok|exact F3| |exact Sp].
      intros -> _. apply says_nil in Sp. destruct Sp as [K|K]; [discriminate|exact K].
    + exists [parse_segment (c :: s)]. split; [reflexivity|]. replace (slash :: c :: s) with (bytes "/" ++ (c :: s) ++ []) by (rewrite app_nil_r; reflexivity).
      apply says_seg; [apply parse_segment_ok|exact F|discriminate|constructor].
Qed.
Lemma split_at (c : Z) (t t' u u' : list Z) : ~ In c t -> ~ In c t' -> (u = [] \/ exists v, u = c :: v) -> (u' = [] \/ exists v, u' = c :: v) ->
  t ++ u = t' ++ u' -> t = t' /\ u = u'.
Proof.
  revert t'. induction t as [|x t IH]; intros t' Ht Ht' Hu Hu' E; cbn in E.
  - destruct t' as [|c' t']; [auto|]. cbn in E. destruct Hu as [->|(v & ->)]; [discriminate|]. injection E as <- _. exfalso. apply Ht'. left. reflexivity.
  - destruct t' as [|c' t'].
    + cbn in E. destruct Hu' as [->|(v & ->)]; [discriminate|]. injection E as -> _. exfalso. apply Ht. left. reflexivity.
    + injection E as <- E. destruct (IH t') as [-> ->]; auto; intros K; [apply Ht|apply Ht']; right; exact K.
Qed.
Definition split_unique := split_at slash.
Lemma says_head s p : says s p -> s = [] \/ exists v, s = slash :: v.
Proof. intros H. destruct H; [left; reflexivity|right; eexists; reflexivity|right; eexists; reflexivity]. Qed.
Lemma says_inv s p : says s p -> (s = [] /\ p = []) \/ (s = [slash] /\ p = []) \/
  exists t sg p' u, s = slash :: t ++ u /\ p = sg :: p' /\ seg_says t sg /\ ~ In slash t /\ (p' = [] -> t = [] -> u = [slash]) /\ says u p'.
Proof. intros H. destruct H as [| |t sg p u Hs Ht Hc Hu]; auto. right. right. exists t, sg, p, u. repeat split; auto. Qed.
Lemma says_empty p : says [] p -> p = [].
Proof. intros H. apply says_inv in H. destruct H as [[_ H]|[[H _]|(t & sg & p' & u & H & _)]]; [exact H|discriminate|discriminate]. Qed.
Lemma says_fun s p : says s p -> forall p', says s p' -> p = p'.
Proof.
  induction 1 as [| |t sg p u Hs Ht Hc Hu IH]; intros p' H'.
  - symmetry. apply says_empty, H'.
  - apply says_inv in H'. destruct H' as [[_ H]|[[_ H]|(t & sg & p2 & u & E & -> & Hs & Ht & Hc & Hu)]]; [auto|auto|]. exfalso.
    change ([slash] = slash :: t ++ u) in E. injection E as E. apply eq_sym, app_eq_nil in E. destruct E as [-> ->].
    specialize (Hc (says_empty _ Hu) eq_refl). discriminate.
  - apply says_inv in H'. destruct H' as [[E _]|[[E _]|(t' & sg' & p2 & u' & E & -> & Hs' & Ht' & Hc' & Hu')]].
    + discriminate.
    + exfalso. change (slash :: t ++ u = [slash]) in E. injection E as E. apply app_eq_nil in E. destruct E as [-> ->].
      specialize (Hc (says_empty _ Hu) eq_refl). discriminate.
    + change (slash :: t ++ u = slash :: t' ++ u') in E. injection E as E.
      destruct (split_unique t' t u' u Ht' Ht (says_head _ _ Hu') (says_head _ _ Hu) (eq_sym E)) as [-> ->].
      rewrite (seg_says_fun _ _ _ Hs Hs'), (IH _ Hu'). reflexivity.
Qed.
Lemma parse_ok s : match s with
  | c :: _ => if (c =? slash)%Z then exists p, parse_protopath s = Some (inr p) /\ says s p else parse_protopath s = Some (inl tt) /\ forall p, ~ says s p
  | [] => parse_protopath s = Some (inr []) /\ says s [] end.
Proof.
  destruct s as [|c t]; [split; [reflexivity|constructor]|]. unfold parse_protopath. destruct (Z.eqb_spec c slash) as [->|N]; cbn [negb].
  - destruct (parse_loop_ok (List.length t) t (le_n _)) as (p & -> & H). exists p. split; [reflexivity|exact H].
  - split; [reflexivity|]. intros p H. apply says_head in H. destruct H as [H|(v & H)]; [discriminate|]. injection H as -> _. congruence.
Qed.

(** ** Formatting *)
Lemma says_format s p : says s p -> s = format_protopath p \/ s = format_protopath p ++ bytes "/".
Proof.
  induction 1 as [| |t sg p u Hs Ht Hc Hu IH]; [left; reflexivity|right; reflexivity|].
  rewrite format_cons, (seg_says_text _ _ Hs), <- !app_assoc. destruct IH as [->| ->]; auto.
Qed.
Lemma expressible_says p : expressible p -> says (format_protopath p) p.
Proof.
  induction p as [|s p IH]; intros [H1 H2]; [constructor|]. rewrite format_cons. destruct (H1 s (or_introl eq_refl)) as [Hs Hm].
  assert (SS : seg_says (seg_text s) s).
  { destruct s as [n [|]]; unfold seg_text; cbn; [constructor|]. rewrite app_nil_r. constructor. apply Hm. reflexivity. }
  apply says_seg; [exact SS| | |].
  - unfold seg_text. intros K. apply in_app_or in K. destruct K as [K|K]; [contradiction|]. destruct (is_index s); [|destruct K]. vm_compute in K. intuition discriminate.
  - intros -> E. exfalso. unfold seg_text in E. destruct s as [n [|]]; cbn in E.
    + apply app_eq_nil in E. destruct E as [_ E]. discriminate.
    + rewrite app_nil_r in E. subst. apply (H2 []). reflexivity.
  - apply IH. split; [intros x Hx; apply H1; right; exact Hx|]. intros q E. apply (H2 (s :: q)). cbn. f_equal. exact E.
Qed.
Lemma says_expressible p : says (format_protopath p) p -> expressible p.
Proof.
  induction p as [|s p IH]; intros H.
  - split; [intros s []|]. intros q E. destruct q; discriminate.
  - rewrite format_cons in H. apply says_inv in H. destruct H as [[_ H]|[[_ H]|(t & sg & p2 & u & E & Ep & Hs & Ht & Hc & Hu)]]; [discriminate|discriminate|].
    injection Ep as <- <-. rewrite (seg_says_text _ _ Hs) in E. change (slash :: seg_text s ++ format_protopath p = slash :: seg_text s ++ u) in E. injection E as E.
    apply app_inv_head in E. subst u. destruct (IH Hu) as [I1 I2]. split.
    + intros x [<-|Hx]; [|apply I1, Hx]. split.
      * intros K. apply Ht. rewrite (seg_says_text _ _ Hs). apply in_or_app. left. exact K.
      * intros Hi m. destruct Hs as [n|n Hn]; [discriminate|]. cbn. apply Hn.
    + intros q E. destruct q as [|x q].
      * cbn in E. injection E as -> ->. assert (t = []) as K by (rewrite (seg_says_text _ _ Hs); reflexivity). specialize (Hc eq_refl K). discriminate.
      * cbn in E. injection E as _ E. exact (I2 q E).
Qed.

(** ** Paths *)
Lemma child_ok p q : child p q = p ++ q.
Proof. unfold child. revert p. induction q as [|s q IH]; intros p; cbn [fold_left]; [rewrite app_nil_r; reflexivity|]. rewrite IH. unfold child1. rewrite <- app_assoc. reflexivity. Qed.
Lemma seg_eqb_ok a b : seg_eqb a b = true <-> a = b.
Proof. unfold seg_eqb. destruct a as [n i], b as [m j]; cbn. rewrite andb_true_iff, str_eqb_ok, eqb_true_iff. split; [intros [-> ->]; reflexivity|injection 1; auto]. Qed.
Lemma path_eqb_ok a : forall b, path_eqb a b = true <-> a = b.
Proof. induction a as [|x a IH]; intros [|y b]; cbn; try (split; congruence). rewrite andb_true_iff, seg_eqb_ok, IH. split; [intros [-> ->]; reflexivity|injection 1; auto]. Qed.
Lemma remove_prefix_ok p q : match remove_prefix p q with
  | None => False
  | Some (inr r) => p = q ++ r
  | Some (inl _) => forall r, p <> q ++ r end.
Proof.
  unfold remove_prefix, subspan. cbn [Nat.leb skipn bind]. destruct (path_eqb (firstn (List.length q) p) q) eqn:E; cbn [negb].
  - apply path_eqb_ok in E. assert (L : List.length q <= List.length p).
    { apply (f_equal (@List.length _)) in E. rewrite firstn_length in E. lia. }
    destruct (Nat.leb_spec (List.length q) (List.length p)); [|lia]. cbn [bind].
    rewrite (firstn_all2 (n := List.length p) (skipn (List.length q) p)) by (rewrite skipn_length; lia).
    rewrite <- E at 1. symmetry. apply firstn_skipn.
  - intros r ->. rewrite firstn_app, firstn_all, Nat.sub_diag in E. cbn in E. rewrite app_nil_r in E. rewrite (proj2 (path_eqb_ok q q) eq_refl) in E. discriminate.
Qed.

(** ** Index paths *)
Lemma pop_ok r : longest_prefix index_path (rev r) (rev (pop_to_index r)).
Proof.
  induction r as [|s t IH]; cbn [pop_to_index].
  - split; [exists []; reflexivity|]. split; [left; reflexivity|]. intros q' r' E _. destruct q'; [cbn; lia|discriminate].
  - destruct s as [n [|]]; cbn [is_index negb].
    + split; [exists []; rewrite app_nil_r; reflexivity|]. split; [right; exists (rev t), n; reflexivity|].
      intros q' r' E _. rewrite E, app_length. lia.
    + destruct IH as ((r0 & E0) & IH2 & IH3). split; [exists (r0 ++ [mkSeg n false]); cbn [rev]; rewrite app_assoc, <- E0; reflexivity|]. split; [exact IH2|].
      intros q' r' E Hq. destruct r' as [|x r'] using rev_ind.
      * rewrite app_nil_r in E. destruct Hq as [->|(q0 & n0 & ->)]; [cbn; lia|]. cbn [rev] in E. apply app_inj_tail in E. destruct E as [_ E]. discriminate.
      * cbn [rev] in E. rewrite app_assoc in E. apply app_inj_tail in E. destruct E as [E _]. apply (IH3 q' r' E Hq).
Qed.
Lemma column_ok p : longest_prefix index_path p (column_parent_index p).
Proof. unfold column_parent_index. rewrite <- (rev_involutive p) at 1. apply pop_ok. Qed.
Lemma table_ok p : match table_parent_index p with
  | None => p = []
  | Some q => p <> [] /\ longest_prefix (fun q => index_path q /\ List.length q < List.length p) p q end.
Proof.
  unfold table_parent_index. destruct (rev p) as [|s t] eqn:E.
  - rewrite <- (rev_involutive p), E. reflexivity.
  - assert (Ep : p = rev t ++ [s]) by (rewrite <- (rev_involutive p), E; reflexivity). split; [rewrite Ep; destruct (rev t); discriminate|].
    assert (K : exists q, rev (pop_to_index (if is_index s then t else s :: t)) = rev (pop_to_index q) /\ rev q = rev t /\ q = t).
    { exists t. destruct s as [n [|]]; cbn; auto. }
    destruct K as (q & -> & _ & ->). destruct (pop_ok t) as ((r0 & E0) & H2 & H3). subst p.
    split; [exists (r0 ++ [s]); rewrite app_assoc, <- E0; reflexivity|]. split.
    + split; [exact H2|]. rewrite E0, !app_length. cbn. lia.
    + intros q' r' E' [Hq Hl]. destruct r' as [|x r'] using rev_ind; [rewrite app_nil_r in E'; rewrite E' in Hl; lia|].
      rewrite app_assoc in E'. apply app_inj_tail in E'. destruct E' as [E' _]. apply (H3 _ _ E' Hq).
Qed.

(** ** Names *)
Lemma format_segments_gen show p : forall acc, fold_left (fun ret s => ret ++ [slash] ++ field_name s ++ if show && is_index s then index_marker else []) p acc =
  acc ++ List.concat (map (fun s => slash :: field_name s ++ if show && is_index s then index_marker else []) p).
Proof. induction p as [|s p IH]; intros acc; cbn [fold_left map List.concat]; [rewrite app_nil_r; reflexivity|]. rewrite IH, <- !app_assoc. cbn [app]. rewrite <- !app_assoc. reflexivity. Qed.
Lemma full_name_markers p : format_segments true p = format_protopath p.
Proof. unfold format_segments. rewrite format_segments_gen. reflexivity. Qed.
Lemma full_name_plain p : format_segments false p = List.concat (map (fun s => slash :: field_name s) p).
Proof.
  unfold format_segments. rewrite format_segments_gen. cbn [app]. f_equal. apply map_ext. intros s. cbn [andb]. rewrite app_nil_r. reflexivity.
Qed.
Definition names_ok (c : Z) (p : path) : Prop := forall s, In s p -> ~ In c (field_name s).
Definition joined (c : Z) (p : path) : list Z := List.concat (map (fun s => c :: field_name s) p).
Lemma joined_head c p : joined c p = [] \/ exists v, joined c p = c :: v.
Proof. destruct p as [|x l]; [left; reflexivity|right; unfold joined; cbn; eexists; reflexivity]. Qed.
Lemma joined_inj c p : names_ok c p -> forall q, names_ok c q -> joined c p = joined c q -> map field_name p = map field_name q.
Proof.
  induction p as [|s p IH]; intros Hp [|s' q] Hq E; cbn in E; try discriminate; [reflexivity|].
  injection E as E.
  destruct (split_at c _ _ _ _ (Hp s (or_introl eq_refl)) (Hq s' (or_introl eq_refl)) (joined_head c p) (joined_head c q) E) as [E1 E2].
  cbn [map]. rewrite E1. f_equal. apply IH; [intros x Hx; apply Hp; right; exact Hx|intros x Hx; apply Hq; right; exact Hx|exact E2].
Qed.
Lemma replace_app c b s t : replace_char c b (s ++ t) = replace_char c b s ++ replace_char c b t.
Proof. unfold replace_char. rewrite map_app, concat_app. reflexivity. Qed.
Lemma replace_none c b s : ~ In c s -> replace_char c b s = s.
Proof.
  induction s as [|x s IH]; intros H; [reflexivity|]. change (replace_char c b (x :: s)) with ((if (x =? c)%Z then b else [x]) ++ replace_char c b s).
  destruct (Z.eqb_spec x c) as [->|N]; [exfalso; apply H; left; reflexivity|]. rewrite IH; [reflexivity|]. intros K. apply H. right. exact K.
Qed.
Lemma replace_joined c d p : names_ok c p -> replace_char c [d] (joined c p) = joined d p.
Proof.
  induction p as [|s p IH]; intros H; [reflexivity|]. change (joined c (s :: p)) with ([c] ++ field_name s ++ joined c p).
  rewrite !replace_app, IH by (intros x Hx; apply H; right; exact Hx). rewrite (replace_none c [d] (field_name s)) by (apply H; left; reflexivity).
  unfold replace_char. cbn [map List.concat]. rewrite Z.eqb_refl. reflexivity.
Qed.
Lemma single_eq s p : names_ok slash (s :: p) -> single_underscore (s :: p) = field_name s ++ joined 95 p.
Proof.
  intros H. unfold single_underscore. rewrite full_name_plain. cbn [map List.concat app]. fold (joined slash p).
  rewrite replace_app, replace_joined by (intros x Hx; apply H; right; exact Hx). rewrite replace_none by (apply H; left; reflexivity). reflexivity.
Qed.
Lemma single_inj p q : p <> [] -> q <> [] -> names_ok slash p -> names_ok slash q -> names_ok 95 p -> names_ok 95 q -> single_underscore p = single_underscore q ->
  map field_name p = map field_name q.
Proof.
  intros Np Nq Hp Hq Up Uq E. destruct p as [|s p]; [congruence|]. destruct q as [|s' q]; [congruence|].
  rewrite !single_eq in E by assumption. apply (joined_inj 95 (s :: p) Up (s' :: q) Uq). unfold joined. cbn [map List.concat app]. f_equal. exact E.
Qed.
Lemma find_last_none s c : ~ In c s -> find_last s c = None.
Proof.
  induction s as [|x s IH]; intros H; [reflexivity|]. cbn [find_last]. rewrite IH by (intros K; apply H; right; exact K).
  destruct (Z.eqb_spec x c) as [->|N]; [exfalso; apply H; left; reflexivity|reflexivity].
Qed.
Lemma find_last_app a b c : ~ In c b -> find_last (a ++ c :: b) c = Some (List.length a).
Proof.
  intros H. induction a as [|x a IH]; cbn [app find_last]; [rewrite find_last_none by exact H; rewrite Z.eqb_refl; reflexivity|]. rewrite IH. reflexivity.
Qed.
Lemma plain_snoc p s : format_segments false (p ++ [s]) = format_segments false p ++ slash :: field_name s.
Proof. rewrite !full_name_plain, map_app, concat_app. cbn [map List.concat]. rewrite app_nil_r. reflexivity. Qed.
Lemma leaf_ok p s : ~ In slash (field_name s) -> (forall m, format_segments false (p ++ [s]) <> m ++ bytes "@size") -> leaf_only (p ++ [s]) = field_name s.
Proof.
  intros H N. unfold leaf_only. pose proof (suffix_ok (format_segments false (p ++ [s])) size_column) as K.
  destruct (consume_suffix _ _) as [n [|]]; cbn [snd]; [exfalso; apply (N n); exact K|].
  rewrite plain_snoc, find_last_app by exact H. change (slash :: field_name s) with ([slash] ++ field_name s). rewrite app_assoc, skipn_app.
  rewrite (skipn_all2 (n := S (List.length (format_segments false p)))) by (rewrite app_length; cbn; lia). rewrite app_length. cbn [List.length].
  replace (S _ - _)%nat with 0%nat by lia. reflexivity.
Qed.
Lemma leaf_size p m : format_segments false p = m ++ bytes "@size" -> leaf_only p = format_segments false p.
Proof.
  intros E. unfold leaf_only. pose proof (suffix_ok (format_segments false p) size_column) as K.
  destruct (consume_suffix _ _) as [n [|]]; cbn [snd]; [reflexivity|]. destruct K as [_ K]. exfalso. apply (K m), E.
Qed.
