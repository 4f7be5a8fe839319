From Coq Require Import ZArith ListDec.
From Verif Require Import Base Strings_Model Strings_Spec Strings_Proofs Format_Model Format_Spec.
Local Open Scope Z_scope.

Lemma find_none c s : find c s = None <-> ~ In c s.
Proof.
  induction s as [|x t IH]; cbn [find]; [cbn; tauto|].
  destruct (Z.eqb_spec x c) as [->|N]; [split; [discriminate|intros H; exfalso; apply H; left; reflexivity]|].
  destruct (find c t); cbn [option_map]; split; try discriminate; intros H.
  - exfalso. apply H. right. apply Decidable.not_not; [destruct (in_dec Z.eq_dec c t); [left|right]; assumption|].
    intros K. apply IH in K. discriminate.
  - intros [K|K]; [congruence|]. apply (proj1 IH); auto.
  - reflexivity.
Qed.
Lemma find_app c a b : ~ In c a -> find c (a ++ c :: b) = Some (length a).
Proof.
  induction a as [|x a IH]; intros H; cbn [app find length]; [rewrite Z.eqb_refl; reflexivity|].
  destruct (Z.eqb_spec x c) as [->|N]; [exfalso; apply H; left; reflexivity|].
  rewrite IH; [reflexivity|]. intros K; apply H; right; exact K.
Qed.
Lemma find_some c s n : find c s = Some n -> exists a b, s = a ++ c :: b /\ length a = n /\ ~ In c a.
Proof.
  revert n; induction s as [|x t IH]; intros n; cbn [find]; [discriminate|].
  destruct (Z.eqb_spec x c) as [->|N].
  - intros [= <-]. exists [], t. repeat split; auto.
  - destruct (find c t) as [k|] eqn:E; cbn [option_map]; [|discriminate]. intros [= <-].
    destruct (IH _ eq_refl) as (a & b & -> & <- & K). exists (x :: a), b. repeat split.
    intros [H|H]; auto.
Qed.
Lemma ident_not n c : identifier n -> c <> 95 -> ~ letter c -> ~ digit c -> ~ In c n.
Proof.
  intros (x & t & -> & [H|H] & F) A B C [K|K]; subst; try congruence; try tauto;
    rewrite Forall_forall in F; destruct (F _ K) as [G|[G|G]]; tauto.
Qed.
Lemma ident_colon n : identifier n -> ~ In 58 n.
Proof. intros H; apply (ident_not _ _ H); unfold letter, digit; lia. Qed.
Lemma ident_rb n : identifier n -> ~ In 125 n.
Proof. intros H; apply (ident_not _ _ H); unfold letter, digit; lia. Qed.
Lemma ident_lb n : identifier n -> ~ In 123 n.
Proof. intros H; apply (ident_not _ _ H); unfold letter, digit; lia. Qed.

Lemma split_arg_ok a n f : split_arg a = inr (n, f) <-> identifier n /\ ((a = n /\ f = []) \/ a = n ++ 58 :: f).
Proof.
  unfold split_arg, ch_colon. split.
  - destruct (find 58 a) as [k|] eqn:E.
    + apply find_some in E. destruct E as (x & y & -> & <- & K).
      rewrite firstn_app, firstn_all, Nat.sub_diag. cbn [firstn]. rewrite app_nil_r.
      rewrite skipn_app, skipn_all, Nat.sub_diag. cbn [skipn app].
      destruct (is_identifier x) eqn:I; [|discriminate]. intros [= <- <-].
      split; [apply is_identifier_ok, I|right; reflexivity].
    + rewrite skipn_all. destruct (is_identifier a) eqn:I; [|discriminate]. intros [= <- <-].
      split; [apply is_identifier_ok, I|left; split; reflexivity].
  - intros (I & [(-> & ->)| ->]).
    + rewrite (proj2 (find_none _ _) (ident_colon _ I)), skipn_all.
      rewrite (proj2 (is_identifier_ok _) I). reflexivity.
    + rewrite (find_app _ _ _ (ident_colon _ I)).
      rewrite firstn_app, firstn_all, Nat.sub_diag. cbn [firstn]. rewrite app_nil_r.
      rewrite skipn_app, skipn_all, Nat.sub_diag. cbn [skipn app].
      rewrite (proj2 (is_identifier_ok _) I). reflexivity.
Qed.

(** The texts around the arguments, and the arguments *)
Fixpoint group {A} (r : list (Z + A)) (cur : str) : list str * list A :=
  match r with
  | [] => ([cur], [])
  | inl c :: t => group t (cur ++ [c])
  | inr a :: t => let g := group t [] in (cur :: fst g, a :: snd g)
  end.
Inductive lexes : str -> list (Z + str) -> Prop :=
| l_nil : lexes [] []
| l_chr c s r : c <> 123 -> c <> 125 -> lexes s r -> lexes (c :: s) (inl c :: r)
| l_open s r : lexes s r -> lexes (123 :: 123 :: s) (inl 123 :: r)
| l_close s r : lexes s r -> lexes (125 :: 125 :: s) (inl 125 :: r)
| l_arg a s r : hd 0 (a ++ [125]) <> 123 -> ~ In 125 a -> lexes s r -> lexes (123 :: a ++ 125 :: s) (inr a :: r).

Lemma scan_sound fuel : forall s d cur args ts az,
  scan fuel s d cur args = inr (ts, az) ->
  exists r, lexes s r /\ ts = d ++ fst (group r cur) /\ az = args ++ snd (group r cur).
Proof.
  induction fuel as [|fuel IH]; intros s d cur args ts az; [discriminate|].
  destruct s as [|c t]; cbn [scan].
  { intros [= <- <-]. exists []. repeat split; [constructor|cbn; rewrite app_nil_r; reflexivity]. }
  unfold ch_lb, ch_rb. destruct (Z.eqb_spec c 123) as [->|N1].
  - destruct (match t with c2 :: _ => c2 =? 123 | [] => false end) eqn:T.
    + destruct t as [|c2 t]; [discriminate|]. apply Z.eqb_eq in T; subst c2. cbn [tl]. intros H.
      apply IH in H. destruct H as (r & L & A & B). exists (inl 123 :: r).
      repeat split; [constructor; exact L|exact A|exact B].
    + destruct (find 125 t) as [n|] eqn:E; [|discriminate].
      apply find_some in E. destruct E as (a & b & -> & <- & K).
      replace (skipn (length a + 1) (a ++ 125 :: b)) with b.
      2: { rewrite skipn_app, skipn_all2 by lia. replace (length a + 1 - length a)%nat with 1%nat by lia. reflexivity. }
      replace (firstn (length a) (a ++ 125 :: b)) with a.
      2: { rewrite firstn_app, firstn_all, Nat.sub_diag. cbn [firstn]. rewrite app_nil_r. reflexivity. }
      intros H. apply IH in H. destruct H as (r & L & A & B). exists (inr a :: r). cbn [group fst snd].
      repeat split; [|rewrite A, <- app_assoc; reflexivity|rewrite B, <- app_assoc; reflexivity].
      constructor; [|exact K|exact L]. destruct a as [|x a]; cbn in T |- *; [lia|apply Z.eqb_neq, T].
  - destruct (Z.eqb_spec c 125) as [->|N2].
    + destruct (match t with c2 :: _ => c2 =? 125 | [] => false end) eqn:T; [|discriminate].
      destruct t as [|c2 t]; [discriminate|]. apply Z.eqb_eq in T; subst c2. cbn [tl]. intros H.
      apply IH in H. destruct H as (r & L & A & B). exists (inl 125 :: r).
      repeat split; [constructor; exact L|exact A|exact B].
    + intros H. apply IH in H. destruct H as (r & L & A & B). exists (inl c :: r).
      repeat split; [constructor; assumption|exact A|exact B].
Qed.
Lemma scan_complete s r : lexes s r -> forall fuel d cur args, (length s < fuel)%nat ->
  scan fuel s d cur args = inr (d ++ fst (group r cur), args ++ snd (group r cur)).
Proof.
  induction 1 as [|c s r N1 N2 L IH|s r L IH|s r L IH|a s r P K L IH];
    intros fuel d cur args Hf; (destruct fuel as [|fuel]; [lia|]); cbn [scan].
  - cbn [group fst snd]. rewrite app_nil_r. reflexivity.
  - unfold ch_lb, ch_rb. rewrite (proj2 (Z.eqb_neq _ _) N1), (proj2 (Z.eqb_neq _ _) N2).
    cbn [length] in Hf. rewrite IH by lia. reflexivity.
  - cbn [length] in Hf. cbn [Z.eqb Pos.eqb ch_lb tl]. rewrite IH by lia. reflexivity.
  - cbn [length] in Hf. cbn [Z.eqb Pos.eqb ch_lb ch_rb tl]. rewrite IH by lia. reflexivity.
  - unfold ch_lb, ch_rb. change (123 =? 123) with true. cbv iota.
    replace (match a ++ 125 :: s with c2 :: _ => c2 =? 123 | [] => false end) with false.
    2: { destruct a as [|x a]; [reflexivity|]. cbn in P |- *. symmetry. apply Z.eqb_neq, P. }
    rewrite (find_app _ _ _ K).
    replace (skipn (length a + 1) (a ++ 125 :: s)) with s.
    2: { rewrite skipn_app, skipn_all2 by lia. replace (length a + 1 - length a)%nat with 1%nat by lia. reflexivity. }
    replace (firstn (length a) (a ++ 125 :: s)) with a.
    2: { rewrite firstn_app, firstn_all, Nat.sub_diag. cbn [firstn]. rewrite app_nil_r. reflexivity. }
    cbn [length] in Hf. rewrite app_length in Hf. cbn [length] in Hf.
    rewrite IH by lia. cbn [group fst snd]. rewrite <- !app_assoc. reflexivity.
Qed.

(** Chars as they are, arguments split *)
Definition reads (x : Z + str) (y : item) : Prop :=
  match x, y with
  | inl c, inl d => c = d
  | inr a, inr p => split_arg a = inr p
  | _, _ => False
  end.
Lemma writes_lexes s r : writes s r <-> exists q, lexes s q /\ Forall2 reads q r.
Proof.
  split.
  - induction 1 as [|c s r N1 N2 W IH|s r W IH|s r W IH|n s r I W IH|n f s r I F W IH].
    + exists []. split; constructor.
    + destruct IH as (q & L & R). exists (inl c :: q). split; constructor; cbn; auto.
    + destruct IH as (q & L & R). exists (inl 123 :: q). split; [apply l_open; exact L|constructor; [reflexivity|exact R]].
    + destruct IH as (q & L & R). exists (inl 125 :: q). split; [apply l_close; exact L|constructor; [reflexivity|exact R]].
    + destruct IH as (q & L & R). exists (inr n :: q). split; [apply l_arg; [| |exact L]|constructor; [|exact R]].
      * destruct I as (x & t & -> & X & _). cbn. unfold letter in X. lia.
      * apply ident_rb, I.
      * cbn. apply split_arg_ok. split; auto.
    + destruct IH as (q & L & R). exists (inr (n ++ 58 :: f) :: q). split; [apply l_arg; [| |exact L]|constructor; [|exact R]].
      * destruct I as (x & t & -> & X & _). cbn. unfold letter in X. lia.
      * rewrite in_app_iff. intros [H|[H|H]]; [exact (ident_rb _ I H)|discriminate|auto].
      * cbn. apply split_arg_ok. split; auto.
  - intros (q & L & R). revert r R. induction L as [|c s q N1 N2 L IH|s q L IH|s q L IH|a s q P K L IH]; intros r R;
      inversion R as [|? y ? r' H1 H2]; subst; [constructor| | | |]; destruct y as [d|[n f]]; cbn in H1; try contradiction.
    + subst d. apply w_chr; auto.
    + subst d. apply w_open; auto.
    + subst d. apply w_close; auto.
    + apply split_arg_ok in H1. destruct H1 as (I & [(-> & ->)| ->]).
      * apply w_arg; auto.
      * apply w_argf; auto. intros H. apply K. rewrite in_app_iff. right; right; exact H.
Qed.
Lemma group_reads q r : Forall2 reads q r -> forall cur, fst (group q cur) = fst (group r cur) /\
  split_args (snd (group q cur)) = inr (snd (group r cur)).
Proof.
  induction 1 as [|x y q r H F IH]; intros cur; [split; reflexivity|].
  destruct x as [c|a], y as [d|p]; cbn in H; try contradiction.
  - subst d. cbn [group]. apply IH.
  - cbn [group fst snd]. destruct (IH []) as (A & B). split; [rewrite A; reflexivity|].
    cbn [split_args]. rewrite H, B. reflexivity.
Qed.
Lemma group_split q : forall cur ps, split_args (snd (group q cur)) = inr ps -> exists r, Forall2 reads q r.
Proof.
  induction q as [|[c|a] q IH]; intros cur ps H.
  - exists []. constructor.
  - cbn [group] in H. destruct (IH _ _ H) as (r & R). exists (inl c :: r). constructor; [reflexivity|exact R].
  - cbn [group snd split_args] in H. destruct (split_arg a) as [e|p] eqn:Sx; [discriminate|].
    destruct (split_args (snd (group q []))) as [e|ps'] eqn:E; [discriminate|].
    destruct (IH _ _ E) as (r & R). exists (inr p :: r). constructor; [exact Sx|exact R].
Qed.
Lemma parse_writes s r : writes s r -> parse s = inr (group r []).
Proof.
  intros W. apply writes_lexes in W. destruct W as (q & L & R). unfold parse.
  rewrite (scan_complete _ _ L) by lia. cbn [app].
  destruct (group_reads _ _ R []) as (A & B). rewrite B, A. destruct (group r []); reflexivity.
Qed.
Lemma parse_sound s p : parse s = inr p -> exists r, writes s r /\ p = group r [].
Proof.
  unfold parse. destruct (scan _ _ _ _ _) as [e|(ts, az)] eqn:Sx; [discriminate|].
  apply scan_sound in Sx. destruct Sx as (q & L & -> & ->). cbn [app].
  destruct (split_args _) as [e|ps] eqn:E; [discriminate|]. intros [= <-].
  destruct (group_split _ _ _ E) as (r & R). exists r. split; [apply writes_lexes; exists q; auto|].
  destruct (group_reads _ _ R []) as (A & B). rewrite B in E. injection E as <-. rewrite A.
  destruct (group r []); reflexivity.
Qed.

(** Names *)
Lemma split_on_nonempty c s : split_on c s <> [].
Proof. destruct s as [|x t]; cbn [split_on]; [discriminate|]. destruct (x =? c); [discriminate|]. destruct (split_on c t); discriminate. Qed.
Lemma split_on_join c s : join [c] (split_on c s) = s /\ Forall (fun n => ~ In c n) (split_on c s).
Proof.
  induction s as [|x t (J & F)]; cbn [split_on]; [split; [reflexivity|repeat constructor; cbn; tauto]|].
  pose proof (split_on_nonempty c t) as Z.
  destruct (Z.eqb_spec x c) as [->|N].
  - destruct (split_on c t) as [|p ps] eqn:E; [congruence|]. split; [|constructor; [cbn; tauto|exact F]].
    change (join [c] ([] :: p :: ps)) with ([] ++ [c] ++ join [c] (p :: ps)). rewrite J. reflexivity.
  - destruct (split_on c t) as [|p ps] eqn:E; [congruence|]. split.
    + destruct ps as [|p2 ps]; cbn [join app] in J |- *; rewrite J; reflexivity.
    + inversion F as [|? ? A B]; subst. constructor; [|exact B]. intros [H|H]; auto.
Qed.
Lemma split_on_app c a s : ~ In c a -> split_on c (a ++ c :: s) = a :: split_on c s.
Proof.
  induction a as [|x a IH]; intros H; cbn [app split_on]; [rewrite Z.eqb_refl; reflexivity|].
  destruct (Z.eqb_spec x c) as [->|N]; [exfalso; apply H; left; reflexivity|].
  rewrite IH; [reflexivity|]. intros K; apply H; right; exact K.
Qed.
Lemma split_on_one c a : ~ In c a -> split_on c a = [a].
Proof.
  induction a as [|x a IH]; intros H; cbn [split_on]; [reflexivity|].
  destruct (Z.eqb_spec x c) as [->|N]; [exfalso; apply H; left; reflexivity|].
  rewrite IH; [reflexivity|]. intros K; apply H; right; exact K.
Qed.
Lemma join_split c names : names <> [] -> Forall (fun n => ~ In c n) names -> split_on c (join [c] names) = names.
Proof.
  induction names as [|n t IH]; intros N F; [congruence|]. inversion F as [|? ? A B]; subst.
  destruct t as [|m t]; [apply split_on_one, A|].
  change (join [c] (n :: m :: t)) with (n ++ c :: join [c] (m :: t)).
  rewrite (split_on_app _ _ _ A). rewrite IH; [reflexivity|discriminate|exact B].
Qed.
Definition names_of (text : str) : list str := match text with [] => [] | _ => split_on ch_comma text end.
Lemma named_ok text names : named text names <-> names_of text = names.
Proof.
  unfold named, names_of, ch_comma. split.
  - intros [(-> & ->)|(T & N & F & ->)]; [reflexivity|].
    destruct (join [44] names) as [|x t] eqn:E; [congruence|]. rewrite <- E. apply join_split; assumption.
  - destruct text as [|x t]; [left; auto|]. intros <-. right.
    destruct (split_on_join 44 (x :: t)) as (J & F).
    repeat split; [discriminate|apply split_on_nonempty|exact F|symmetry; exact J].
Qed.
Lemma lookup_app n a b : lookup n (a ++ b) = match lookup n a with Some i => Some i | None => lookup n b end.
Proof. induction a as [|(k, i) a IH]; cbn [app lookup]; [reflexivity|]. destruct (str_eqb k n); auto. Qed.
Lemma lookup_combine n names : forall k, (lookup n (combine names (seq k (length names))) = None <-> ~ In n names).
Proof.
  induction names as [|m t IH]; intros k; cbn [length seq combine lookup]; [cbn; tauto|].
  destruct (str_eqb m n) eqn:E.
  - apply str_eqb_ok in E; subst m. split; [discriminate|]. intros H; exfalso; apply H; left; reflexivity.
  - rewrite IH. split; intros H; [intros [K|K]; [|auto]|intros K; apply H; right; exact K].
    subst m. rewrite (proj2 (str_eqb_ok n n) eq_refl) in E. discriminate.
Qed.
Lemma lookup_nth n names : NoDup names -> forall k i,
  lookup n (combine names (seq k (length names))) = Some i <-> (k <= i)%nat /\ nth_error names (i - k) = Some n.
Proof.
  induction 1 as [|m t N D IH]; intros k i; cbn [length seq combine lookup].
  - split; [discriminate|]. intros (_ & H). destruct (i - k)%nat; discriminate.
  - destruct (str_eqb m n) eqn:E.
    + apply str_eqb_ok in E; subst m. split.
      * intros [= <-]. split; [lia|]. rewrite Nat.sub_diag. reflexivity.
      * intros (L & H). destruct (i - k)%nat as [|j] eqn:Sx; [f_equal; lia|].
        cbn [nth_error] in H. apply nth_error_In in H. contradiction.
    + rewrite IH. split; intros (L & H).
      * split; [lia|]. replace (i - k)%nat with (S (i - S k)) by lia. exact H.
      * destruct (i - k)%nat as [|j] eqn:Sx.
        -- cbn [nth_error] in H. injection H as ->. rewrite (proj2 (str_eqb_ok n n) eq_refl) in E. discriminate.
        -- split; [lia|]. replace (i - S k)%nat with j by lia. exact H.
Qed.
Lemma NoDup_snoc {A} (a : list A) n t : NoDup (a ++ n :: t) -> ~ In n a.
Proof. intros H. apply NoDup_remove_2 in H. intros K; apply H, in_app_iff; left; exact K. Qed.
Lemma seq_snoc n : seq 0 n ++ [n] = seq 0 (S n).
Proof. rewrite seq_S. reflexivity. Qed.
Lemma combine_snoc {A B} (a : list A) (b : list B) x y : length a = length b ->
  combine a b ++ [(x, y)] = combine (a ++ [x]) (b ++ [y]).
Proof.
  revert b; induction a as [|u a IH]; intros [|w b] H; try discriminate; [reflexivity|].
  cbn [combine app]. rewrite IH; [reflexivity|]. injection H as H; exact H.
Qed.
Lemma index_loop_ok names : forall pre m c, NoDup pre -> m = combine pre (seq 0 (length pre)) -> c = length pre ->
  index_loop names m c =
    if ListDec.NoDup_dec (list_eq_dec Z.eq_dec) (pre ++ names)
    then inr (combine (pre ++ names) (seq 0 (length (pre ++ names))), length (pre ++ names)) else inl EDup.
Proof.
  induction names as [|n t IH]; intros pre m c D -> ->; cbn [index_loop].
  - rewrite app_nil_r. destruct (ListDec.NoDup_dec (list_eq_dec Z.eq_dec) pre); [reflexivity|contradiction].
  - destruct (lookup n _) eqn:E.
    + destruct (ListDec.NoDup_dec (list_eq_dec Z.eq_dec) (pre ++ n :: t)) as [K|K]; [|reflexivity].
      apply NoDup_snoc in K. apply (lookup_combine n pre 0) in K. congruence.
    + apply lookup_combine in E. rewrite (IH (pre ++ [n])).
      * rewrite <- app_assoc. reflexivity.
      * rewrite <- (rev_involutive (pre ++ [n])). apply NoDup_rev. rewrite rev_app_distr. cbn [rev app].
        constructor; [rewrite <- in_rev; exact E|apply NoDup_rev, D].
      * rewrite combine_snoc by (rewrite seq_length; reflexivity). rewrite seq_snoc, app_length. cbn [length].
        rewrite Nat.add_1_r. reflexivity.
      * rewrite app_length; cbn [length]; lia.
Qed.
