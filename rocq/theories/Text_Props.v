(** C64: operators on byte strings and texts. *)
From Verif Require Import Base Text_Model Text_Spec Text_Utf8 Text_Proofs Text_Edit.
Local Open Scope Z_scope.

(** ** Searching *)
(** strings.find and strings.rfind: never undefined, and the first (last) place
    in the range, in bytes or in code points. *)
Theorem C64_find_bytes s sub st en :
  (exists r, bytes_find s sub st en = Some r /\ first_one s sub st en r) /\
  (exists r, bytes_rfind s sub st en = Some r /\ last_one s sub st en r).
Proof.
  split.
  - destruct (bytes_find_with true find_sub s sub st en) as (r & E & B); [intros; apply find_sub_ok; assumption|]. exists r. split; [exact E|]. apply first_best, B.
  - destruct (bytes_find_with false rfind_sub s sub st en) as (r & E & B); [intros; apply rfind_sub_ok; assumption|]. exists r. split; [exact E|]. apply last_best, B.
Qed.
Print Assumptions C64_find_bytes.
Theorem C64_find_text cs sub st en : Forall scalar cs -> Forall scalar sub ->
  (exists r, text_find (utf8 cs) (utf8 sub) st en = Some r /\ first_one cs sub st en r) /\
  (exists r, text_rfind (utf8 cs) (utf8 sub) st en = Some r /\ last_one cs sub st en r).
Proof.
  intros Fc Fs. split.
  - destruct (text_find_ok true find_sub cs sub st en Fc Fs) as (r & E & B); [intros; apply find_sub_ok; assumption|]. exists r. split; [exact E|]. apply first_best, B.
  - destruct (text_find_ok false rfind_sub cs sub st en Fc Fs) as (r & E & B); [intros; apply rfind_sub_ok; assumption|]. exists r. split; [exact E|]. apply last_best, B.
Qed.
Print Assumptions C64_find_text.
Theorem C64_contains s sub : contains s sub = true <-> exists i, occurs s sub i.
Proof.
  unfold contains. pose proof (find_spec sub s) as B. destruct (find sub s) as [i|]; cbn in B.
  - split; [intros _; exists (Z.of_nat i); apply B|reflexivity].
  - split; [discriminate|]. intros (i & O). destruct (B i O).
Qed.
Print Assumptions C64_contains.
Theorem C64_contains_text cs sub : Forall scalar cs -> Forall scalar sub -> (contains (utf8 cs) (utf8 sub) = true <-> exists i, occurs cs sub i).
Proof.
  intros Fc Fs. rewrite C64_contains. destruct sub as [|x sub].
  - split; intros _; exists 0; [exists [], cs|exists [], (utf8 cs)]; split; reflexivity.
  - split.
    + intros (i & O). apply occurs_utf8 in O; auto; [|discriminate]. destruct O as (k & _ & O). eauto.
    + intros (i & O). assert (Hi : exists k, i = Z.of_nat k) by (destruct O as (a & b & _ & ->); exists (length a); reflexivity). destruct Hi as (k & ->). eexists. apply occurs_utf8; auto; [discriminate|]. eauto.
Qed.
Print Assumptions C64_contains_text.
(** é€x€ : the second € from the end, counted in code points. *)
Example C64_find_example :
  text_find (utf8 [233; 8364; 120; 8364]) (utf8 [8364]) (Some (-2)) None = Some (Some 3) /\ text_rfind (utf8 [233; 8364; 120; 8364]) (utf8 [8364]) None (Some 3) = Some (Some 1) /\
  bytes_find [97; 98; 97; 98] [97; 98] (Some 1) None = Some (Some 2) /\ bytes_find [97; 98] [] (Some 2) None = Some (Some 2) /\ bytes_find [97; 98] [] (Some 3) None = Some None.
Proof. repeat split. Qed.

(** ** Substrings *)
Theorem C64_substr_bytes s st en : exists r, bytes_substr s st en = Some r /\ slice s st en r.
Proof. apply bytes_substr_ok. Qed.
Print Assumptions C64_substr_bytes.
Theorem C64_substr_text cs st en : Forall scalar cs -> exists r, text_substr (utf8 cs) st en = Some (utf8 r) /\ slice cs st en r.
Proof. apply text_substr_ok. Qed.
Print Assumptions C64_substr_text.
Theorem C64_substr_unique (l r r' : list Z) st en : slice l st en r -> slice l st en r' -> r = r'.
Proof. apply slice_unique. Qed.
Print Assumptions C64_substr_unique.
Example C64_substr_example : text_substr (utf8 [233; 8364; 120; 8364]) (Some (-3)) (Some (-1)) = Some (utf8 [8364; 120]) /\ bytes_substr [1; 2; 3] (Some 2) (Some 1) = Some [].
Proof. split; reflexivity. Qed.

(** ** Counting *)
(** All places are counted, overlapping ones too; beyond the largest int the
    behaviour is undefined. *)
Theorem C64_count_bytes s sub n : occurrences s sub n -> (sub = [] \/ n <= 2147483647 -> bytes_count s sub = Some n) /\ (sub <> [] /\ 2147483647 < n -> bytes_count s sub = None).
Proof.
  intros O. rewrite (bytes_count_ok s sub n O). unfold int_max. split; [intros [->|H]; [reflexivity|]|intros [Nn H]]; destruct sub; try congruence; destruct (Z.leb_spec n 2147483647); try reflexivity; lia.
Qed.
Print Assumptions C64_count_bytes.
Theorem C64_count_text cs sub n : Forall scalar cs -> Forall scalar sub -> occurrences cs sub n -> sub = [] \/ n <= 2147483647 -> text_count (utf8 cs) (utf8 sub) = Some n.
Proof.
  intros Fc Fs O H. rewrite (text_count_ok cs sub n Fc Fs O). unfold int_max. destruct sub; [reflexivity|]. destruct H as [H|H]; [discriminate|]. destruct (Z.leb_spec n 2147483647); [reflexivity|lia].
Qed.
Print Assumptions C64_count_text.
Theorem C64_count_exists (l sub : list Z) : exists n, occurrences l sub n.
Proof. eexists. apply nocc_occurrences. Qed.
Print Assumptions C64_count_exists.
Example C64_count_example : bytes_count [97; 97; 97; 97] [97; 97] = Some 3 /\ text_count (utf8 [8364; 8364]) [] = Some 3.
Proof. split; reflexivity. Qed.
(** 97 repeated 2^31 times *)
Example C64_count_overflow_refuted : exists s sub, (exists n, occurrences s sub n) /\ bytes_count s sub = None.
Proof.
  exists (repeat 97 (Z.to_nat 2147483648)), [97]. assert (H : exists n, occurrences (repeat 97 (Z.to_nat 2147483648)) [97] n) by (eexists; apply nocc_occurrences). split; [exact H|]. destruct H as (n & H).
  apply (C64_count_bytes _ _ n H). split; [discriminate|]. pose proof (occurrences_unique _ _ _ _ H (nocc_occurrences _ _)) as ->. assert (G : forall k, nocc [97] (repeat 97 k) = k).
  { induction k as [|k IH]; [reflexivity|]. cbn [repeat nocc]. rewrite IH. reflexivity. }
  rewrite G, Z2Nat.id; lia.
Qed.

(** ** Replacing *)
Theorem C64_replace_bytes s old new m : len s < 9223372036854775807 -> exists r, bytes_replace s old new m = Some r /\ replacement_of old new m s r.
Proof. apply bytes_replace_ok. Qed.
Print Assumptions C64_replace_bytes.
Theorem C64_replace_text cs old new m : Forall scalar cs -> Forall scalar old -> Forall scalar new -> len (utf8 cs) < 9223372036854775807 ->
  exists r, text_replace (utf8 cs) (utf8 old) (utf8 new) m = Some (utf8 r) /\ replacement_of old new m cs r /\ Forall scalar r.
Proof.
  intros Fc Fo Fn L. destruct (text_replace_ok cs old new m Fc Fo L) as (r & E & R). exists r. split; [exact E|]. split; [exact R|]. destruct R as [[_ R]|[_ R]]; [eapply fenced_scalar|eapply replaced_scalar]; eassumption.
Qed.
Print Assumptions C64_replace_text.
Theorem C64_replace_unique (old new : list Z) m l r r' : replacement_of old new m l r -> replacement_of old new m l r' -> r = r'.
Proof. apply replacement_unique. Qed.
Print Assumptions C64_replace_unique.
Example C64_replace_example :
  bytes_replace [97; 97; 97; 98] [97; 97] [99] None = Some [99; 97; 98] /\ bytes_replace [97; 98; 97; 98; 97] [97] [] (Some 2) = Some [98; 98; 97] /\
  text_replace (utf8 [8364; 233]) [] [45] None = Some (45 :: utf8 [8364] ++ 45 :: utf8 [233] ++ [45]) /\ text_replace (utf8 [8364; 233]) [] [45] (Some 2) = Some (45 :: utf8 [8364] ++ 45 :: utf8 [233]).
Proof. repeat split. Qed.

(** ** Stripping *)
(** The exact behaviour on byte strings: [removed] holds for the given characters
    and, if any are given, for backspace; [usable]: the bytes that index the bit
    set, below 128 if [char] is signed. *)
Theorem C64_strip_bytes uchar s chars : (forall l, chars = Some l -> Forall (usable uchar) l /\ Forall (usable uchar) s) ->
  (exists r, bytes_lstrip uchar s chars = Some r /\ lstripped (removed chars) s r) /\
  (exists r, bytes_rstrip uchar s chars = Some r /\ rstripped (removed chars) s r) /\
  (exists r, bytes_strip uchar s chars = Some r /\ stripped (removed chars) s r).
Proof.
  intros H. assert (L : forall s', (forall c, In c s' -> In c s) -> exists t, bytes_test uchar chars = Some t /\ forall c, In c s' -> exists b, t c = Some b /\ (b = true <-> removed chars c)).
  { intros s' I. destruct (bytes_test_ok uchar chars s H) as (t & E & Ht). exists t. auto. }
  assert (Lf : forall s', (forall c, In c s' -> In c s) -> exists r, bytes_lstrip uchar s' chars = Some r /\ lstripped (removed chars) s' r).
  { intros s' I. destruct (L s' I) as (t & E & Ht). unfold bytes_lstrip. rewrite E. apply strip_front_ok, Ht. }
  assert (Rf : forall s', (forall c, In c s' -> In c s) -> exists r, bytes_rstrip uchar s' chars = Some r /\ rstripped (removed chars) s' r).
  { intros s' I. destruct (L s' I) as (t & E & Ht). unfold bytes_rstrip. rewrite E. apply strip_back_ok, Ht. }
  split; [apply Lf; auto|]. split; [apply Rf; auto|]. destruct (Lf s (fun _ h => h)) as (r & E & Sl). unfold bytes_strip. rewrite E. cbn [bind]. destruct (Rf r) as (r' & E' & Sr).
  { destruct Sl as (p & -> & _). intros c Hc. apply in_app_iff. right. exact Hc. }
  exists r'. split; [exact E'|]. eapply both_stripped; eassumption.
Qed.
Print Assumptions C64_strip_bytes.
(** Texts: what is asked for, in code points. *)
Theorem C64_strip_text white cs chars : Forall scalar cs -> (forall l, chars = Some l -> Forall scalar l) -> let chs := match chars with Some l => Some (utf8 l) | None => None end in
  (exists r, text_lstrip white (utf8 cs) chs = Some (utf8 r) /\ lstripped (in_chars white chars) cs r) /\
  (exists r, text_rstrip white (utf8 cs) chs = Some (utf8 r) /\ rstripped (in_chars white chars) cs r) /\
  (exists r, text_strip white (utf8 cs) chs = Some (utf8 r) /\ stripped (in_chars white chars) cs r).
Proof.
  intros Fc Fl chs. destruct (text_test_ok white chars Fl) as (t & E & Ht). change (text_test white chs = Some t) in E. clearbody chs.
  assert (Lf : forall l, Forall scalar l -> exists r, text_lstrip white (utf8 l) chs = Some (utf8 r) /\ lstripped (in_chars white chars) l r).
  { intros l F. unfold text_lstrip. rewrite E. cbn [bind]. destruct (text_front_ok _ t Ht l (length (utf8 l)) F (utf8_length_le l F)) as (r & -> & Sr). eauto. }
  assert (Rf : forall l, Forall scalar l -> exists r, text_rstrip white (utf8 l) chs = Some (utf8 r) /\ rstripped (in_chars white chars) l r).
  { intros l F. unfold text_rstrip. rewrite E. cbn [bind]. destruct (text_back_ok _ t Ht l (length (utf8 l)) F (utf8_length_le l F)) as (r & -> & Sr). eauto. }
  split; [apply Lf, Fc|]. split; [apply Rf, Fc|]. destruct (Lf cs Fc) as (r & E' & Sl). unfold text_strip. rewrite E'. cbn [bind]. destruct (Rf r) as (r' & E2 & Sr).
  { destruct Sl as (p & -> & _). apply Forall_app in Fc. tauto. }
  exists r'. split; [exact E2|]. eapply both_stripped; eassumption.
Qed.
Print Assumptions C64_strip_text.
Example C64_strip_example :
  text_strip ascii_space (utf8 [8364; 97; 8364; 233]) (Some (utf8 [233; 8364])) = Some [97] /\ bytes_strip false [32; 97; 32; 98; 10] None = Some [97; 32; 98] /\
  bytes_rstrip false [97; 98; 97; 97] (Some [97]) = Some [97; 98].
Proof. repeat split. Qed.
(** "only characters in [chars] are removed" and "never throws" are false *)
Example C64_strip_backspace_refuted uchar : bytes_lstrip uchar [8; 97] (Some [98]) = Some [97] /\ ~ lstripped (fun c => In c [98]) [8; 97] [97].
Proof.
  split; [destruct uchar; reflexivity|]. intros (p & E & F & _). destruct p as [|x [|y p]]; [discriminate| |apply (f_equal (@length Z)) in E; rewrite app_length in E; cbn in E; lia]. injection E as <-. inversion F as [|? ? H _]; subst. destruct H as [H|[]]. discriminate.
Qed.
Example C64_strip_signed_refuted : bytes_lstrip false [97; 98] (Some [233; 97]) = None /\ bytes_lstrip false [97; 233] (Some [97]) = None /\ bytes_lstrip true [97; 233] (Some [97]) = Some [233].
Proof. repeat split. Qed.

(** ** Decoding *)
(** How ICU passes over an ill-formed sequence: the first byte and some trail bytes. *)
Definition skips (skip : bytes -> nat) : Prop := forall b w, decode1 (b :: w) = None -> exists k, skip (b :: w) = S k /\ (k <= length w)%nat /\ Forall (fun x => 128 <= x < 192) (firstn k w).
Theorem C64_decode_strict skip s : Forall (fun b => 0 <= b < 256) s ->
  (forall cs, text s cs -> decode_op skip s Strict = Some (inr s)) /\
  ((forall cs, ~ text s cs) -> exists cs r, Forall scalar cs /\ s = utf8 cs ++ r /\ r <> [] /\ (forall c t, scalar c -> r <> encode c ++ t) /\ decode_op skip s Strict = Some (inl (InvalidAt (length (utf8 cs))))).
Proof.
  intros F. split.
  - intros cs [Fc ->]. cbn [decode_op]. rewrite valid_span_all by exact Fc. rewrite Nat.eqb_refl. reflexivity.
  - intros N. assert (F0 : Forall (fun b => 0 <= b) s) by (eapply Forall_impl; [|exact F]; cbn; lia). destruct (valid_span_ok s F0) as (cs & r & Fc & Es & Ev & D). exists cs, r. split; [exact Fc|]. split; [exact Es|].
    assert (Nr : r <> []) by (intros ->; apply (N cs); split; [exact Fc|]; rewrite Es, app_nil_r; reflexivity). split; [exact Nr|]. split.
    + apply decode1_none_iff; [|exact D]. rewrite Es in F0. apply Forall_app in F0. tauto.
    + cbn [decode_op]. rewrite Ev. replace (length (utf8 cs) =? length s)%nat with false; [reflexivity|]. symmetry. apply Nat.eqb_neq. rewrite Es, app_length. destruct r; [congruence|]. cbn. lia.
Qed.
Print Assumptions C64_decode_strict.
Theorem C64_decode_repair skip s e : skips skip -> Forall (fun b => 0 <= b < 256) s -> e = Ignore \/ e = Replace ->
  exists r, decode_op skip s e = Some (inr r) /\ repaired (if match e with Replace => true | _ => false end then utf8 [65533] else []) s r /\ exists cs, text r cs.
Proof.
  intros Sk F He. assert (F0 : Forall (fun b => 0 <= b) s) by (eapply Forall_impl; [|exact F]; cbn; lia).
  assert (G : forall repl : bool, exists r, parse_utf8 skip (S (length s)) repl s [] = Some r /\ repaired (if repl then utf8 [65533] else []) s r /\ exists cs, text r cs).
  { intros repl. destruct (parse_utf8_ok skip repl Sk (S (length s)) s [] F0 ltac:(lia)) as (r & E & R). exists r. split; [exact E|]. change replacement with (utf8 [65533]) in R. split; [exact R|]. eapply repaired_text; [|exact R].
    destruct repl; [exists [65533]; split; [repeat constructor; unfold scalar; lia|reflexivity]|exists []; split; [constructor|reflexivity]]. }
  destruct He as [->| ->]; cbn [decode_op]; [destruct (G false) as (r & -> & R)|destruct (G true) as (r & -> & R)]; exists r; split; [reflexivity|exact R|reflexivity|exact R].
Qed.
Print Assumptions C64_decode_repair.
Theorem C64_decode_valid skip cs e : skips skip -> Forall scalar cs -> e = Ignore \/ e = Replace -> decode_op skip (utf8 cs) e = Some (inr (utf8 cs)).
Proof.
  intros Sk F He. assert (G : forall repl : bool, parse_utf8 skip (S (length (utf8 cs))) repl (utf8 cs) [] = Some (utf8 cs)).
  { intros repl. cbn [parse_utf8]. destruct (utf8 cs) as [|x t] eqn:E; [reflexivity|]. rewrite <- E. rewrite valid_span_all by exact F. rewrite skipn_all, firstn_all. reflexivity. }
  destruct He as [->| ->]; cbn [decode_op]; rewrite G; reflexivity.
Qed.
Print Assumptions C64_decode_valid.
Definition skip_one (s : bytes) : nat := 1%nat.
Example C64_decode_example :
  skips skip_one /\ decode_op skip_one [97; 255; 226; 130; 172] Replace = Some (inr (97 :: utf8 [65533; 8364])) /\
  decode_op skip_one [97; 226; 130; 98] Ignore = Some (inr [97; 98]) /\ decode_op skip_one [97; 237; 160; 128] Strict = Some (inl (InvalidAt 1)).
Proof. split; [intros b w _; exists O; repeat split; [lia|constructor]|repeat split]. Qed.

(** ** Numbers *)
Theorem C64_parse_int bits s v : parse_int bits s = Some v <-> int_text s v /\ - 2 ^ (bits - 1) <= v < 2 ^ (bits - 1).
Proof. apply parse_int_ok. Qed.
Print Assumptions C64_parse_int.
(** as_text writes an integer literal that parse_int reads back. *)
Theorem C64_as_text bits z : int_text (as_text z) z /\ (- 2 ^ (bits - 1) <= z < 2 ^ (bits - 1) -> parse_int bits (as_text z) = Some z).
Proof. split; [apply as_text_ok|]. intros R. apply parse_int_ok. split; [apply as_text_ok|exact R]. Qed.
Print Assumptions C64_as_text.
Example C64_parse_int_example :
  parse_int 32 [43; 48; 49; 50] = Some 12 /\ parse_int 32 [45; 50; 49; 52; 55; 52; 56; 51; 54; 52; 56] = Some (-2147483648) /\ parse_int 32 [50; 49; 52; 55; 52; 56; 51; 54; 52; 56] = None /\
  parse_int 32 [43; 45; 49] = None /\ parse_int 64 [32; 49] = None /\ as_text (-2050) = [45; 50; 48; 53; 48].
Proof. repeat split. Qed.

(** ** Splitting and joining *)
(** The parts of one string by a separator. *)
Theorem C64_split_bytes sep s : sep <> [] -> exists ps, pieces (Some sep) s = Some ps /\ split_at sep s ps /\ join sep ps = s.
Proof. intros N. destruct (split_by_ok sep N (S (length s)) s ltac:(lia)) as (ps & E & H). exists ps. split; [exact E|]. split; [exact H|]. apply split_at_join, H. Qed.
Print Assumptions C64_split_bytes.
Theorem C64_split_text sep cs : sep <> [] -> Forall scalar sep -> Forall scalar cs -> exists ps, pieces (Some (utf8 sep)) (utf8 cs) = Some (map utf8 ps) /\ split_at sep cs ps.
Proof.
  intros N Fs Fc. cbn [pieces]. destruct (split_by_ok sep N (S (length (utf8 cs))) cs) as (ps & E & H); [pose proof (utf8_length_le cs Fc); lia|]. exists ps. split; [|exact H]. rewrite split_by_utf8 by assumption. rewrite E. reflexivity.
Qed.
Print Assumptions C64_split_text.
Theorem C64_split_unique (sep l : list Z) ps ps' : split_at sep l ps -> split_at sep l ps' -> ps = ps'.
Proof. intros H H'. eapply split_at_det; eassumption. Qed.
Print Assumptions C64_split_unique.
(** Without a separator: the words between ASCII white space. *)
Theorem C64_split_space s : exists ps, pieces None s = Some ps /\ words space s ps.
Proof. exists (split_space s []). split; [reflexivity|]. apply (split_space_ok s []). constructor. Qed.
Print Assumptions C64_split_space.
Theorem C64_split_space_text cs : Forall scalar cs -> exists ps, pieces None (utf8 cs) = Some (map utf8 ps) /\ words space cs ps.
Proof.
  intros F. exists (split_space cs []). cbn [pieces]. rewrite <- (split_space_utf8 cs []) by (auto; constructor). split; [reflexivity|]. apply (split_space_ok cs []). constructor.
Qed.
Print Assumptions C64_split_space_text.
(** By an empty separator: the single bytes; an empty string is one empty part. *)
Theorem C64_split_bytes_empty s : exists ps, pieces (Some []) s = Some ps /\ concat ps = s /\ ps <> [] /\ (s <> [] -> Forall (fun p => length p = 1%nat) ps) /\ (s = [] -> length ps = 1%nat).
Proof.
  destruct s as [|c s]; cbn [pieces split_by length]; eexists; (split; [reflexivity|]); [repeat split; [discriminate|congruence]|].
  split; [|split; [discriminate|split; [|discriminate]]].
  - cbn [map concat app]. f_equal. induction s as [|x t IH]; [reflexivity|]. cbn. f_equal. exact IH.
  - intros _. apply Forall_forall. intros p P. apply in_map_iff in P. destruct P as (x & <- & _). reflexivity.
Qed.
Print Assumptions C64_split_bytes_empty.
(** Over an array: all parts in order and the split points of the edge that groups
    them by string; a missing string has no parts. *)
Theorem C64_split_array array sep : exists pss, split_op array sep = Some (concat pss, 0 :: map (fun i => Z.of_nat (length (concat (firstn (S i) pss)))) (seq 0 (length array))) /\
  Forall2 (fun o ps => match o with Some s => pieces sep s = Some ps | None => ps = [] end) array pss.
Proof.
  destruct (split_loop_ok sep (fun s ps => pieces sep s = Some ps) array) with (points := [0]) (splits := @nil bytes) as (pss & E & F).
  { intros s _. destruct sep as [sep|]; [|eexists; split; reflexivity]. destruct sep as [|x sep]; [destruct (C64_split_bytes_empty s) as (ps & E & _); eauto|]. destruct (C64_split_bytes (x :: sep) s ltac:(congruence)) as (ps & E & _). eauto. }
  exists pss. split; [exact E|exact F].
Qed.
Print Assumptions C64_split_array.
Theorem C64_join d parts : (In None parts -> join_op d parts = None) /\ forall ps, parts = map Some ps -> join_op d parts = Some (join d ps).
Proof.
  unfold join_op. split.
  - intros H. replace (forallb _ parts) with false; [reflexivity|]. symmetry. apply not_true_iff_false. rewrite forallb_forall. intros G. specialize (G None H). discriminate.
  - intros ps ->. replace (forallb _ (map Some ps)) with true; [rewrite map_map, map_id; reflexivity|]. symmetry. apply forallb_forall. intros x Hx. apply in_map_iff in Hx. destruct Hx as (y & <- & _). reflexivity.
Qed.
Print Assumptions C64_join.
(** Joining texts gives the text of the joined code points. *)
Theorem C64_join_text d ps : join (utf8 d) (map utf8 ps) = utf8 (join d ps).
Proof. induction ps as [|p ps IH]; [reflexivity|]. destruct ps as [|q ps]; [reflexivity|]. change (join (utf8 d) (map utf8 (p :: q :: ps))) with (utf8 p ++ utf8 d ++ join (utf8 d) (map utf8 (q :: ps))). rewrite IH, <- !utf8_app. reflexivity. Qed.
Print Assumptions C64_join_text.
Example C64_split_example :
  split_op [Some [97; 44; 44; 98]; None; Some []] (Some [44]) = Some ([[97]; []; [98]; []], [0; 3; 3; 4]) /\ split_op [Some [32; 97; 9; 10; 98; 32]; Some [32]] None = Some ([[97]; [98]], [0; 2; 2]) /\
  join_op [44] [Some [97]; Some []; Some [98]] = Some [97; 44; 44; 98] /\ join_op [44] [Some [97]; None] = None.
Proof. repeat split. Qed.
(** "the parts of a text are texts" is false for an empty separator. *)
Example C64_split_empty_refuted : exists cs ps p, Forall scalar cs /\ pieces (Some []) (utf8 cs) = Some ps /\ In p ps /\ forall qs, ~ text p qs.
Proof.
  exists [233], [[195]; [169]], [195]. split; [repeat constructor; unfold scalar; lia|]. split; [reflexivity|]. split; [left; reflexivity|].
  intros qs [F E]. pose proof (decode_utf8 qs 2%nat F) as D. rewrite <- E in D. specialize (D ltac:(cbn; lia)). discriminate.
Qed.
