(** The structure of the registry, its revisions, and one thread. *)
From Verif Require Import Base Strings_Model Strings_Spec Strings_Proofs OpReg_Model OpReg_Conc OpReg_Spec.

(** ** Names *)
Lemma str_refl a : str_eqb a a = true. Proof. apply str_eqb_ok. reflexivity. Qed.
Lemma str_neq a b : a <> b -> str_eqb a b = false.
Proof. intros H. destruct (str_eqb a b) eqn:E; [|reflexivity]. apply str_eqb_ok in E. contradiction. Qed.
Lemma below_ok m : forall n, below m n = true <-> n = m \/ exists r, n = m ++ 46%Z :: r.
Proof.
  induction m as [|x m IH]; intros n; cbn [below].
  - destruct n as [|c n]; [split; [auto|reflexivity]|]. split; [intros H; right; exists n; cbn; f_equal; lia|]. intros [H|(r & H)]; [discriminate|]. injection H as -> _. reflexivity.
  - destruct n as [|y n]; [split; [discriminate|intros [H|(r & H)]; discriminate]|]. rewrite andb_true_iff, IH, Z.eqb_eq. split.
    + intros [-> [->|(r & ->)]]; [left; reflexivity|right; exists r; reflexivity].
    + intros [H|(r & H)]; injection H as -> ->; [auto|split; [reflexivity|right; exists r; reflexivity]].
Qed.
Lemma enclosesb_ok m n : enclosesb m n = true <-> encloses m n.
Proof.
  unfold enclosesb, encloses. destruct m as [|x m]; [tauto|]. rewrite below_ok. split; [auto|]. intros [H|H]; [discriminate|exact H].
Qed.
Lemma rfind_spec s : match rfind_dot s with Some i => exists a b, s = a ++ 46%Z :: b /\ length a = i /\ ~ In 46%Z b | None => ~ In 46%Z s end.
Proof.
  induction s as [|c s IH]; cbn [rfind_dot]; [tauto|]. destruct (rfind_dot s) as [i|].
  - destruct IH as (a & b & -> & <- & N). exists (c :: a), b. auto.
  - unfold ch_dot. destruct (Z.eqb_spec c 46) as [->|Nc]; [exists [], s; auto|]. intros [H|H]; [congruence|auto].
Qed.
Lemma parent_cases n : (parent_name n = [] /\ ~ In 46%Z n) \/ exists b, n = parent_name n ++ 46%Z :: b /\ ~ In 46%Z b.
Proof.
  unfold parent_name. pose proof (rfind_spec n) as H. destruct (rfind_dot n) as [i|]; [|left; auto]. right. destruct H as (a & b & -> & <- & N). exists b. rewrite firstn_app, Nat.sub_diag, firstn_O, app_nil_r, firstn_all. auto.
Qed.
Lemma parent_shorter n : n <> [] -> length (parent_name n) < length n.
Proof.
  intros H. destruct (parent_cases n) as [[-> _]|(b & E & _)]; [destruct n; [congruence|cbn; lia]|]. rewrite E at 2. rewrite app_length. cbn. lia.
Qed.
Lemma encloses_length m n : encloses m n -> length m <= length n.
Proof. intros [->|[->|(r & ->)]]; [cbn; lia|lia|rewrite app_length; lia]. Qed.
Lemma encloses_refl n : encloses n n. Proof. right. left. reflexivity. Qed.
(** One step up. *)
Lemma encloses_up m n : n <> [] -> (encloses m n <-> m = n \/ encloses m (parent_name n)).
Proof.
  intros Nn. split.
  - intros [->|[->|(r & ->)]]; [right; left; reflexivity|auto|]. destruct (in_dec Z.eq_dec 46%Z r) as [I|I].
    + right. destruct (parent_cases (m ++ 46%Z :: r)) as [[_ N]|(b & E & Nb)]; [destruct N; rewrite in_app_iff; right; left; reflexivity|].
      assert (L : length m < length (parent_name (m ++ 46%Z :: r))).
      { destruct (Nat.lt_ge_cases (length m) (length (parent_name (m ++ 46%Z :: r)))) as [L|L]; [exact L|]. exfalso. set (p := parent_name (m ++ 46%Z :: r)) in *. clearbody p. apply (f_equal (skipn (S (length p)))) in E. rewrite (skipn_app _ p), (skipn_all2 p) in E by lia. replace (S (length p) - length p) with 1 in E by lia. change ([] ++ skipn 1 (46%Z :: b)) with b in E.
        rewrite skipn_app in E. apply Nb. rewrite <- E, in_app_iff. right. destruct (Nat.eq_dec (length p) (length m)) as [Ep|Np]; [rewrite Ep; replace (S (length m) - length m) with 1 by lia; exact I|]. replace (S (length p) - length m) with 0 by lia. left. reflexivity. }
      set (p := parent_name (m ++ 46%Z :: r)) in *. clearbody p. right. right. apply (f_equal (firstn (length p))) in E. rewrite (firstn_app _ p), Nat.sub_diag, firstn_O, app_nil_r, firstn_all in E. rewrite (firstn_app _ m), (firstn_all2 m) in E by lia.
      destruct (length p - length m) as [|k] eqn:Ek; [lia|]. cbn [firstn] in E. eexists. symmetry. exact E.
    + right. right. left. destruct (parent_cases (m ++ 46%Z :: r)) as [[_ N]|(b & E & Nb)]; [destruct N; rewrite in_app_iff; right; left; reflexivity|]. set (p := parent_name (m ++ 46%Z :: r)) in *. clearbody p.
      assert (G : forall (a c : name) x y, ~ In 46%Z x -> ~ In 46%Z y -> a ++ 46%Z :: x = c ++ 46%Z :: y -> a = c).
      { induction a as [|h a IH]; intros [|k c] x y Nx Ny H; [reflexivity| | |].
        - cbn in H. injection H as <- H. destruct Nx. rewrite H, in_app_iff. right. left. reflexivity.
        - cbn in H. injection H as -> H. destruct Ny. rewrite <- H, in_app_iff. right. left. reflexivity.
        - cbn in H. injection H as -> H. f_equal. eapply IH; [| |exact H]; assumption. }
      symmetry. eapply G; [| |exact E]; assumption.
  - intros [->|H]; [apply encloses_refl|]. destruct (parent_cases n) as [[E N]|(b & E & _)].
    + rewrite E in H. destruct H as [->|[<-|(r & H)]]; [left; reflexivity|left; reflexivity|destruct m; discriminate].
    + destruct H as [->|[H|(r & H)]]; [left; reflexivity| |].
      * right. right. exists b. rewrite <- H. exact E.
      * right. right. exists (r ++ 46%Z :: b). rewrite E, H, <- app_assoc. reflexivity.
Qed.
Lemma not_encloses_parent n : n <> [] -> ~ encloses n (parent_name n).
Proof. intros H E. apply encloses_length in E. pose proof (parent_shorter n H). lia. Qed.

(** ** Records *)
Lemma find_rec_Some l n i : find_rec l n = Some i -> exists x, rd l i = Some x /\ r_name x = n.
Proof.
  revert i. induction l as [|x l IH]; intros i H; cbn in H; [discriminate|]. destruct (str_eqb (r_name x) n) eqn:E; [injection H as <-; apply str_eqb_ok in E; exists x; auto|].
  destruct (find_rec l n) as [j|]; [|discriminate]. injection H as <-. apply IH. reflexivity.
Qed.
Lemma find_rec_None l n i x : find_rec l n = None -> rd l i = Some x -> r_name x <> n.
Proof.
  revert i. induction l as [|y l IH]; intros i H R; cbn in H; [destruct i; discriminate|]. destruct (str_eqb (r_name y) n) eqn:E; [discriminate|]. destruct (find_rec l n); [discriminate|]. destruct i as [|i]; [|eapply (IH i); auto].
  cbn in R. injection R as <-. intros Hn. apply str_eqb_ok in Hn. congruence.
Qed.
Definition distinct (l : list record) : Prop := forall i j x y, rd l i = Some x -> rd l j = Some y -> r_name x = r_name y -> i = j.
Lemma find_rec_at l i x : distinct l -> rd l i = Some x -> find_rec l (r_name x) = Some i.
Proof.
  intros D R. destruct (find_rec l (r_name x)) as [j|] eqn:E; [|exfalso; eapply find_rec_None; eauto]. destruct (find_rec_Some _ _ _ E) as (y & Ry & Ny). f_equal. eapply D; eauto.
Qed.
(** [x] is complete: it is linked to the record of its parent. *)
Definition linked (l : list record) (x : record) : Prop :=
  (r_name x = [] /\ r_parent x = None) \/ (r_name x <> [] /\ exists j y, r_parent x = Some j /\ rd l j = Some y /\ r_name y = parent_name (r_name x)).
Definition root_at (l : list record) : Prop := exists x, rd l 0 = Some x /\ r_name x = [].
Definition wf (l : list record) : Prop := root_at l /\ distinct l /\ forall i x, rd l i = Some x -> linked l x.
(** Same records, up to links and (in general) revisions and implementations. *)
Definition same_names (l l' : list record) : Prop := forall i, match rd l i with Some x => exists x', rd l' i = Some x' /\ r_name x' = r_name x | None => rd l' i = None end.
Lemma ancestors l : wf l -> forall k i x m, length (r_name x) <= k -> rd l i = Some x -> encloses m (r_name x) -> exists j y, rd l j = Some y /\ r_name y = m.
Proof.
  intros (Rt & D & L). induction k as [|k IH]; intros i x m Hk R E; destruct (L i x R) as [[Nx _]|[Nx (j & y & _ & Ry & Ny)]].
  - rewrite Nx in E. apply encloses_length in E. destruct m; [|cbn in E; lia]. eauto.
  - destruct (r_name x); [congruence|cbn in Hk; lia].
  - rewrite Nx in E. apply encloses_length in E. destruct m; [|cbn in E; lia]. eauto.
  - apply encloses_up in E; [|exact Nx]. destruct E as [->|E]; [eauto|]. apply (IH j y m); [|exact Ry|rewrite Ny; exact E]. pose proof (parent_shorter _ Nx). rewrite Ny. lia.
Qed.
Lemma rd_app_l {A} (l t : list A) i x : rd l i = Some x -> rd (l ++ t) i = Some x.
Proof. intros H. unfold rd. rewrite nth_error_app1; [exact H|]. apply rd_Some_lt in H. exact H. Qed.
Lemma rd_snoc {A} (l : list A) x i : rd (l ++ [x]) i = if i =? length l then Some x else rd l i.
Proof.
  unfold rd. destruct (Nat.eqb_spec i (length l)) as [->|N].
  - rewrite nth_error_app2, Nat.sub_diag by lia. reflexivity.
  - destruct (Nat.lt_ge_cases i (length l)) as [H|H]; [rewrite nth_error_app1 by lia; reflexivity|]. rewrite (proj2 (nth_error_None l i)) by lia. apply nth_error_None. rewrite app_length. cbn. lia.
Qed.
Lemma wf_init : wf (recs empty_registry).
Proof.
  split; [exists (new_record []); auto|]. split.
  - intros i j x y Hi Hj _. apply rd_Some_lt in Hi, Hj. cbn in Hi, Hj. lia.
  - intros i x H. pose proof (rd_Some_lt _ _ _ H) as Hi. cbn in Hi. assert (i = 0) as -> by lia. injection H as <-. left. auto.
Qed.

(** Adding records: the old ones keep their names, revisions and implementations;
    the new ones have none. *)
Definition grown (l l' : list record) : Prop := forall i,
  match rd l i with
  | Some x => exists x', rd l' i = Some x' /\ r_name x' = r_name x /\ r_rev x' = r_rev x /\ r_impl x' = r_impl x
  | None => forall x', rd l' i = Some x' -> r_rev x' = 0 /\ r_impl x' = None /\ forall j x, rd l j = Some x -> r_name x <> r_name x'
  end.
Lemma grown_refl l : grown l l.
Proof. intros i. destruct (rd l i) as [x|] eqn:E; [eauto|]. intros x' H. congruence. Qed.
Lemma grown_trans a b c : grown a b -> grown b c -> grown a c.
Proof.
  intros G H i. specialize (G i) as Gi. specialize (H i) as Hi. destruct (rd a i) as [x|] eqn:E.
  - destruct Gi as (y & Ey & A & B & C). rewrite Ey in Hi. destruct Hi as (z & Ez & A' & B' & C'). exists z. split; [exact Ez|]. split; [congruence|]. split; congruence.
  - intros z Ez. destruct (rd b i) as [y|] eqn:Ey.
    + destruct Hi as (z' & Ez' & A & B & C). assert (z' = z) as -> by congruence. destruct (Gi y eq_refl) as (P & Q & S). split; [congruence|]. split; [congruence|]. intros j x Hx. rewrite A. eapply S, Hx.
    + destruct (Hi z Ez) as (P & Q & S). split; [exact P|]. split; [exact Q|]. intros j x Hx. specialize (G j). rewrite Hx in G. destruct G as (x' & Ex' & A & _). rewrite <- A. eapply S, Ex'.
Qed.
Lemma set_parent_ok l i p : i < length l -> exists l' x, set_parent l i p = Some l' /\ rd l i = Some x /\ length l' = length l /\ forall j, rd l' j = if j =? i then Some (mkRecord (r_name x) (Some p) (r_rev x) (r_impl x)) else rd l j.
Proof.
  intros H. unfold set_parent. destruct (rd_lt l i H) as (x & E). rewrite E. cbn [bind]. destruct (upd_lt l i (mkRecord (r_name x) (Some p) (r_rev x) (r_impl x)) H) as (l' & U). rewrite U. exists l', x. destruct (upd_spec _ _ _ _ U) as (_ & Le & R). auto.
Qed.
Lemma create_parents_ok : forall fuel l child n x, length n < fuel -> n <> [] -> root_at l -> distinct l -> rd l child = Some x -> r_name x = n ->
  (forall i y, i <> child -> rd l i = Some y -> linked l y) -> exists l', create_parents fuel l child n = Some l' /\ wf l' /\ grown l l'.
Proof.
  induction fuel as [|fuel IH]; intros l child n x Hf Nn Rt D Rx Nx L; [lia|]. cbn [create_parents]. set (pn := parent_name n). pose proof (parent_shorter n Nn) as Sh. fold pn in Sh. pose proof (rd_Some_lt _ _ _ Rx) as Lc.
  destruct (find_rec l pn) as [p|] eqn:Ef.
  - destruct (find_rec_Some _ _ _ Ef) as (y & Ry & Ny). destruct (set_parent_ok l child p Lc) as (l' & x2 & -> & Rx2 & Le & R'). assert (x2 = x) as -> by congruence.
    assert (Same : forall i z, rd l i = Some z -> exists z', rd l' i = Some z' /\ r_name z' = r_name z /\ r_rev z' = r_rev z /\ r_impl z' = r_impl z /\ (i <> child -> z' = z)).
    { intros i z Hz. rewrite R'. destruct (Nat.eqb_spec i child) as [->|Ni]; [eexists; split; [reflexivity|]; cbn; assert (z = x) as -> by congruence; repeat split; auto; congruence|]. exists z. auto. }
    exists l'. split; [reflexivity|]. split; [split; [|split]|].
    + destruct Rt as (r0 & H0 & N0). destruct (Same _ _ H0) as (z & Hz & Nz & _). exists z. split; [exact Hz|congruence].
    + intros i j a b Ha Hb Nab. pose proof (rd_Some_lt _ _ _ Ha) as La. pose proof (rd_Some_lt _ _ _ Hb) as Lb. rewrite Le in La, Lb. destruct (rd_lt l i La) as (a0 & Ha0). destruct (rd_lt l j Lb) as (b0 & Hb0).
      destruct (Same _ _ Ha0) as (a1 & Ha1 & N1 & _). destruct (Same _ _ Hb0) as (b1 & Hb1 & N2 & _). eapply D; [exact Ha0|exact Hb0|]. congruence.
    + intros i z Hz. rewrite R' in Hz. destruct (Nat.eqb_spec i child) as [->|Ni].
      * injection Hz as <-. right. cbn. rewrite Nx. split; [exact Nn|]. destruct (Same _ _ Ry) as (y' & Hy' & Ny' & _). exists p, y'. split; [reflexivity|]. split; [exact Hy'|]. rewrite Ny', Ny. reflexivity.
      * destruct (L i z Ni Hz) as [H|[H (j & y0 & Pj & Rj & Nj)]]; [left; exact H|]. right. split; [exact H|]. destruct (Same _ _ Rj) as (y1 & H1 & H2 & _). exists j, y1. rewrite H2. auto.
    + intros i. destruct (rd l i) as [z|] eqn:E; [destruct (Same _ _ E) as (z' & A & B & C & F & _); eauto|]. intros x' Hx'. apply rd_Some_lt in Hx'. apply rd_None_ge in E. lia.
  - set (l1 := l ++ [new_record pn]). assert (L1 : child < length l1) by (unfold l1; rewrite app_length; lia). destruct (set_parent_ok l1 child (length l) L1) as (l' & x2 & Es & Rx2 & Le & R'). assert (x2 = x) as -> by (unfold l1 in Rx2; rewrite (rd_app_l _ _ _ _ Rx) in Rx2; congruence). rewrite Es. cbn [bind].
    assert (R1 : forall i, rd l1 i = if i =? length l then Some (new_record pn) else rd l i) by (intros i; apply rd_snoc).
    assert (Same : forall i z, rd l i = Some z -> exists z', rd l' i = Some z' /\ r_name z' = r_name z /\ r_rev z' = r_rev z /\ r_impl z' = r_impl z /\ (i <> child -> z' = z)).
    { intros i z Hz. pose proof (rd_Some_lt _ _ _ Hz) as Lz. rewrite R', R1. destruct (Nat.eqb_spec i child) as [->|Ni]; [eexists; split; [reflexivity|]; cbn; assert (z = x) as -> by congruence; repeat split; auto; congruence|]. replace (i =? length l) with false by (symmetry; apply Nat.eqb_neq; lia). exists z. auto. }
    assert (New : rd l' (length l) = Some (new_record pn)) by (rewrite R', R1, Nat.eqb_refl; replace (length l =? child) with false by (symmetry; apply Nat.eqb_neq; lia); reflexivity).
    assert (Old : forall i z, rd l' i = Some z -> i = length l /\ z = new_record pn \/ exists z0, rd l i = Some z0 /\ r_name z = r_name z0).
    { intros i z Hz. rewrite R', R1 in Hz. destruct (Nat.eqb_spec i child) as [->|Ni]; [injection Hz as <-; right; exists x; auto|]. destruct (Nat.eqb_spec i (length l)) as [->|Nl]; [injection Hz as <-; auto|]. right. exists z. auto. }
    assert (G : grown l l').
    { intros i. destruct (rd l i) as [z|] eqn:E; [destruct (Same _ _ E) as (z' & A & B & C & F & _); eauto|]. intros x' Hx'. destruct (Old _ _ Hx') as [[-> ->]|(z0 & H0 & _)]; [|congruence]. cbn. split; [reflexivity|]. split; [reflexivity|]. intros j y Hy. eapply find_rec_None; eauto. }
    destruct pn as [|c pn'] eqn:Epn.
    { exfalso. destruct Rt as (r0 & H0 & N0). eapply find_rec_None; [exact Ef|exact H0|exact N0]. }
    rewrite <- Epn in *. destruct (IH l' (length l) pn (new_record pn)) as (l2 & E2 & W2 & G2).
    + lia.
    + rewrite Epn. discriminate.
    + destruct Rt as (r0 & H0 & N0). destruct (Same _ _ H0) as (z & Hz & Nz & _). exists z. split; [exact Hz|congruence].
    + intros i j a b Ha Hb Nab. destruct (Old _ _ Ha) as [[-> ->]|(a0 & Ha0 & Na)]; destruct (Old _ _ Hb) as [[-> ->]|(b0 & Hb0 & Nb)]; [reflexivity| | |].
      * exfalso. eapply find_rec_None; [exact Ef|exact Hb0|]. cbn in Nab. congruence.
      * exfalso. eapply find_rec_None; [exact Ef|exact Ha0|]. cbn in Nab. congruence.
      * eapply D; [exact Ha0|exact Hb0|congruence].
    + exact New.
    + reflexivity.
    + intros i y Ni Hy. rewrite R', R1 in Hy. destruct (Nat.eqb_spec i child) as [->|Nc].
      * injection Hy as <-. right. cbn. rewrite Nx. split; [exact Nn|]. exists (length l), (new_record pn). auto.
      * replace (i =? length l) with false in Hy by (symmetry; apply Nat.eqb_neq; lia). destruct (L i y Nc Hy) as [H|[H (j & y0 & Pj & Rj & Nj)]]; [left; exact H|]. right. split; [exact H|]. destruct (Same _ _ Rj) as (y1 & H1 & H2 & _). exists j, y1. rewrite H2. auto.
    + exists l2. split; [exact E2|]. split; [exact W2|]. eapply grown_trans; eassumption.
Qed.
Lemma lookup_create_ok r n : wf (recs r) ->
  (find_rec (recs r) n = None /\ is_qualified n = false /\ lookup_create r n = Some (r, None)) \/
  exists l i x, lookup_create r n = Some (mkRegistry l (listed r), Some i) /\ wf l /\ grown (recs r) l /\ rd l i = Some x /\ r_name x = n.
Proof.
  intros W. unfold lookup_create. destruct (find_rec (recs r) n) as [i|] eqn:Ef.
  - right. destruct (find_rec_Some _ _ _ Ef) as (x & Rx & Nx). exists (recs r), i, x. destruct r as [l q]. cbn in *. repeat split; auto using grown_refl; apply W.
  - destruct (is_qualified n) eqn:Q; [|left; auto]. right. cbn [negb]. assert (Nn : n <> []) by (intros ->; discriminate). destruct W as (Rt & D & L).
    set (l1 := recs r ++ [new_record n]). assert (R1 : forall i, rd l1 i = if i =? length (recs r) then Some (new_record n) else rd (recs r) i) by (intros i; apply rd_snoc).
    destruct (create_parents_ok (S (length n)) l1 (length (recs r)) n (new_record n)) as (l & E & W' & G).
    + lia.
    + exact Nn.
    + destruct Rt as (r0 & H0 & N0). exists r0. split; [apply rd_app_l, H0|exact N0].
    + intros i j a b Ha Hb Nab. rewrite R1 in Ha, Hb. destruct (Nat.eqb_spec i (length (recs r))) as [->|Ni]; destruct (Nat.eqb_spec j (length (recs r))) as [->|Nj]; [reflexivity| | |eapply D; eauto].
      * injection Ha as <-. exfalso. eapply find_rec_None; [exact Ef|exact Hb|]. cbn in Nab. auto.
      * injection Hb as <-. exfalso. eapply find_rec_None; [exact Ef|exact Ha|]. cbn in Nab. auto.
    + rewrite R1, Nat.eqb_refl. reflexivity.
    + reflexivity.
    + intros i y Ni Hy. rewrite R1 in Hy. destruct (Nat.eqb_spec i (length (recs r))); [congruence|]. destruct (L i y Hy) as [H|[H (j & y0 & Pj & Rj & Nj)]]; [left; exact H|]. right. split; [exact H|]. exists j, y0. split; [exact Pj|]. split; [apply rd_app_l, Rj|exact Nj].
    + rewrite E. cbn [bind]. assert (G0 : grown (recs r) l1).
      { intros i. destruct (rd (recs r) i) as [z|] eqn:Ez; [exists z; split; [apply rd_app_l, Ez|auto]|]. intros x' Hx'. rewrite R1, Ez in Hx'. destruct (i =? length (recs r)); [|discriminate]. injection Hx' as <-. cbn. split; [reflexivity|]. split; [reflexivity|]. intros j y Hy. eapply find_rec_None; eauto. }
      pose proof (G (length (recs r))) as Gl. rewrite R1, Nat.eqb_refl in Gl. destruct Gl as (x' & Hx' & Nx' & _). exists l, (length (recs r)), x'. split; [reflexivity|]. split; [exact W'|]. split; [eapply grown_trans; eassumption|]. split; [exact Hx'|exact Nx'].
Qed.

(** ** Changing a record *)
Definition changed (l l' : list record) (f : record -> nat * option op) : Prop := forall i,
  match rd l i with Some x => rd l' i = Some (mkRecord (r_name x) (r_parent x) (fst (f x)) (snd (f x))) | None => rd l' i = None end.
Lemma wf_changed l l' f : wf l -> changed l l' f -> wf l'.
Proof.
  intros ((r0 & H0 & N0) & D & L) C. assert (Old : forall i y, rd l' i = Some y -> exists x, rd l i = Some x /\ r_name y = r_name x /\ r_parent y = r_parent x).
  { intros i y Hy. specialize (C i). destruct (rd l i) as [x|]; [|congruence]. exists x. rewrite C in Hy. injection Hy as <-. auto. }
  split; [|split].
  - specialize (C 0). rewrite H0 in C. eexists. split; [exact C|exact N0].
  - intros i j a b Ha Hb E. destruct (Old _ _ Ha) as (a0 & Ha0 & Na & _). destruct (Old _ _ Hb) as (b0 & Hb0 & Nb & _). eapply D; eauto. congruence.
  - intros i y Hy. destruct (Old _ _ Hy) as (x & Hx & Nx & Px). destruct (L i x Hx) as [[A B]|[A (j & z & Pj & Rj & Nj)]]; [left; split; congruence|]. right. split; [congruence|]. specialize (C j). rewrite Rj in C. eexists j, _. split; [congruence|]. split; [exact C|]. cbn. congruence.
Qed.
Lemma store_ok r i o x : wf (recs r) -> rd (recs r) i = Some x -> exists l, store r i o = Some (mkRegistry l (listed r)) /\ changed (recs r) l (fun y => (r_rev y, if name_dec (r_name y) (r_name x) then o else r_impl y)).
Proof.
  intros (_ & D & _) R. unfold store. rewrite R. cbn [bind]. destruct (upd_lt (recs r) i (mkRecord (r_name x) (r_parent x) (r_rev x) o) (rd_Some_lt _ _ _ R)) as (l & U). rewrite U. exists l. split; [reflexivity|]. destruct (upd_spec _ _ _ _ U) as (_ & Le & Rl).
  intros j. rewrite Rl. destruct (Nat.eqb_spec j i) as [->|Nj]; [rewrite R; cbn; destruct (name_dec (r_name x) (r_name x)); [reflexivity|congruence]|]. destruct (rd (recs r) j) as [y|] eqn:Ey; [|reflexivity]. cbn. destruct (name_dec (r_name y) (r_name x)) as [E|_]; [destruct Nj; eapply D; eauto|]. destruct y; reflexivity.
Qed.
Lemma bump_ok r i x : wf (recs r) -> rd (recs r) i = Some x -> exists l, bump r i = Some (mkRegistry l (listed r)) /\ changed (recs r) l (fun y => (r_rev y + (if name_dec (r_name y) (r_name x) then 1 else 0), r_impl y)).
Proof.
  intros (_ & D & _) R. unfold bump. rewrite R. cbn [bind]. destruct (upd_lt (recs r) i (mkRecord (r_name x) (r_parent x) (S (r_rev x)) (r_impl x)) (rd_Some_lt _ _ _ R)) as (l & U). rewrite U. exists l. split; [reflexivity|]. destruct (upd_spec _ _ _ _ U) as (_ & Le & Rl).
  intros j. rewrite Rl. destruct (Nat.eqb_spec j i) as [->|Nj]; [rewrite R; cbn; destruct (name_dec (r_name x) (r_name x)); [rewrite Nat.add_1_r; reflexivity|congruence]|]. destruct (rd (recs r) j) as [y|] eqn:Ey; [|reflexivity]. cbn. destruct (name_dec (r_name y) (r_name x)) as [E|_]; [destruct Nj; eapply D; eauto|]. rewrite Nat.add_0_r. destruct y; reflexivity.
Qed.
Definition one (b : bool) : nat := if b then 1 else 0.
Lemma changed_trans l1 l2 l3 f g h : changed l1 l2 f -> changed l2 l3 g ->
  (forall x, fst (g (mkRecord (r_name x) (r_parent x) (fst (f x)) (snd (f x)))) = fst (h x) /\ snd (g (mkRecord (r_name x) (r_parent x) (fst (f x)) (snd (f x)))) = snd (h x)) -> changed l1 l3 h.
Proof.
  intros A B E i. specialize (A i). specialize (B i). destruct (rd l1 i) as [x|]; [|rewrite A in B; exact B]. rewrite A in B. cbn in B. destruct (E x) as [E1 E2]. rewrite B, E1, E2. reflexivity.
Qed.
Lemma enclosesb_up m n : n <> [] -> one (enclosesb m n) = one (if name_dec m n then true else false) + one (enclosesb m (parent_name n)).
Proof.
  intros Nn. pose proof (encloses_up m n Nn) as H. rewrite <- !enclosesb_ok in H. destruct (name_dec m n) as [->|Nm].
  - assert (N : enclosesb n (parent_name n) = false) by (apply not_true_iff_false; rewrite enclosesb_ok; apply not_encloses_parent, Nn). rewrite N in *. rewrite (proj2 H (or_introl eq_refl)). reflexivity.
  - destruct (enclosesb m n), (enclosesb m (parent_name n)); cbn; auto; [destruct (proj1 H eq_refl); congruence|]. discriminate (proj2 H (or_intror eq_refl)).
Qed.
Lemma enclosesb_root m : one (enclosesb m []) = one (if name_dec m [] then true else false).
Proof. destruct m; reflexivity. Qed.
Lemma update_revisions_ok : forall fuel r i x, wf (recs r) -> rd (recs r) i = Some x -> length (r_name x) < fuel ->
  exists l, update_revisions fuel r i = Some (mkRegistry l (listed r)) /\ changed (recs r) l (fun y => (r_rev y + one (enclosesb (r_name y) (r_name x)), r_impl y)).
Proof.
  induction fuel as [|fuel IH]; intros r i x W R Lf; [lia|]. cbn [update_revisions]. destruct (bump_ok r i x W R) as (l & -> & C). cbn [bind]. pose proof (wf_changed _ _ _ W C) as W'. unfold parent_of. cbn [recs]. pose proof (C i) as Ci. rewrite R in Ci. rewrite Ci. cbn [bind r_parent].
  destruct W as (Rt & D & L). destruct (L i x R) as [[Nx ->]|[Nx (j & y & -> & Ry & Ny)]].
  - exists l. split; [reflexivity|]. intros k. specialize (C k). destruct (rd (recs r) k) as [z|]; [|exact C]. rewrite C. cbn. rewrite Nx, enclosesb_root. destruct (name_dec (r_name z) []); reflexivity.
  - pose proof (C j) as Cj. rewrite Ry in Cj. destruct (IH (mkRegistry l (listed r)) j _ W' Cj) as (l2 & E2 & C2); [cbn; pose proof (parent_shorter _ Nx); rewrite Ny; lia|]. exists l2. split; [exact E2|]. eapply changed_trans; [exact C|exact C2|]. intros z. cbn. split; [|reflexivity]. rewrite Ny, (enclosesb_up (r_name z) (r_name x) Nx). destruct (name_dec (r_name z) (r_name x)); cbn; lia.
Qed.
