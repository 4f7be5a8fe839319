(** Proofs about the copiers. *)
From Coq Require Import Permutation.
From Verif Require Import Base Bits_Model Bitmap_Model Bitmap_Proofs Dense_Model Dense_Spec Dense_Proofs
  IdFilter_Model IdFilter_Spec IdFilter_Proofs Array_Model Array_Spec Array_Proofs FrameIter_Model FrameIter_Spec.

Section P.
Context {A : Type} (dflt : A).
Notation cell := (bool * A)%type. Notation frame := (list (bool * A)). Notation src := (src A).

(** ** Writes *)
Lemma all_some_map {X Y} (f : X -> option Y) (g : X -> Y) l : (forall x, In x l -> f x = Some (g x)) -> all_some (map f l) = Some (map g l).
Proof.
  induction l as [|x l IH]; intros H; [reflexivity|]. cbn [map all_some]. rewrite H by (left; reflexivity). cbn [bind].
  rewrite IH by (intros; apply H; right; assumption). reflexivity.
Qed.
Lemma all_some_Forall2 {X Y} (P : X -> Y -> Prop) (f : X -> option Y) l : (forall x, In x l -> exists y, f x = Some y /\ P x y) ->
  exists r, all_some (map f l) = Some r /\ Forall2 P l r.
Proof.
  induction l as [|x l IH]; intros H; [exists []; split; [reflexivity|constructor]|]. cbn [map all_some].
  destruct (H x (or_introl eq_refl)) as (y & E & Py). rewrite E. cbn [bind].
  destruct IH as (r & Er & Fr); [intros; apply H; right; assumption|]. rewrite Er. exists (y :: r). split; [reflexivity|constructor; assumption].
Qed.

Definition last_write (ws : list (nat * cell)) (i : nat) : option cell :=
  fold_left (fun acc w => if fst w =? i then Some (snd w) else acc) ws None.
Lemma last_write_acc ws i acc : fold_left (fun a (w : nat * cell) => if fst w =? i then Some (snd w) else a) ws acc =
  match last_write ws i with Some c => Some c | None => acc end.
Proof.
  unfold last_write. revert acc. induction ws as [|[j c] ws IH]; intros acc; cbn [fold_left fst snd]; [reflexivity|].
  rewrite (IH (if j =? i then _ else acc)), (IH (if j =? i then _ else None)).
  destruct (fold_left _ ws None); [reflexivity|]. destruct (j =? i); reflexivity.
Qed.
Lemma last_write_app u w i : last_write (u ++ w) i = match last_write w i with Some c => Some c | None => last_write u i end.
Proof. unfold last_write at 1. rewrite fold_left_app. apply last_write_acc. Qed.
Lemma last_write_map (p : nat -> nat) (f : nat -> cell) l i : (forall j k, In j l -> In k l -> p j = p k -> j = k) ->
  match last_write (map (fun j => (p j, f j)) l) i with
  | Some c => exists j, In j l /\ p j = i /\ c = f j
  | None => forall j, In j l -> p j <> i
  end.
Proof.
  intros Inj. induction l as [|j l IH]; cbn [map]; [intros j []|]. unfold last_write. cbn [fold_left fst snd]. rewrite last_write_acc.
  destruct (last_write _ i) as [c|].
  - destruct IH as (k & Ik & E & Ec); [intros; apply Inj; try right; assumption|]. exists k. auto using in_cons.
  - specialize (IH ltac:(intros; apply Inj; try right; assumption)). destruct (Nat.eqb_spec (p j) i) as [E|N].
    + exists j. auto using in_eq.
    + intros k [<-|Ik]; [exact N|exact (IH k Ik)].
Qed.
Lemma last_write_seq (f : nat -> cell) n i : i < n -> last_write (map (fun j => (j, f j)) (seq 0 n)) i = Some (f i).
Proof.
  intros L. pose proof (last_write_map (fun j => j) f (seq 0 n) i ltac:(auto)) as H. destruct (last_write _ i) as [c|].
  - destruct H as (j & _ & -> & ->). reflexivity.
  - exfalso. apply (H i); [apply in_seq; lia|reflexivity].
Qed.

Lemma set_cells_ok slot ws : forall fs : list frame, (forall i c, In (i, c) ws -> i < length fs) -> (forall f, In f fs -> slot < length f) ->
  exists fs', set_cells A fs slot ws = Some fs' /\ length fs' = length fs /\
  forall i f, rd fs i = Some f -> exists f', rd fs' i = Some f' /\ length f' = length f /\ (forall k, k <> slot -> rd f' k = rd f k) /\
    rd f' slot = match last_write ws i with Some c => Some c | None => rd f slot end.
Proof.
  induction ws as [|[j c] ws IH]; intros fs Hw Hs; cbn [set_cells].
  - exists fs. split; [reflexivity|]. split; [reflexivity|]. intros i f E. exists f. auto.
  - destruct (rd_lt fs j (Hw j c (or_introl eq_refl))) as [f Ef]. unfold set_cell. rewrite Ef. cbn [bind].
    destruct (upd_lt f slot c (Hs f (nth_error_In _ _ Ef))) as [f1 E1]. rewrite E1. cbn [bind].
    destruct (upd_lt fs j f1 (Hw j c (or_introl eq_refl))) as [fs1 E2]. rewrite E2. cbn [bind].
    destruct (upd_spec _ _ _ _ E1) as (B1 & B2 & B3). destruct (upd_spec _ _ _ _ E2) as (D1 & D2 & D3).
    destruct (IH fs1) as (fs' & E & L & H).
    { intros i d I. rewrite D2. apply (Hw i d). right. exact I. }
    { intros g I. apply In_nth_error in I. destruct I as [i Ei]. fold (rd fs1 i) in Ei. rewrite D3 in Ei. destruct (i =? j).
      - injection Ei as <-. lia.
      - apply Hs. exact (nth_error_In _ _ Ei). }
    exists fs'. split; [exact E|]. split; [lia|]. intros i g Eg. unfold last_write. cbn [fold_left fst snd]. rewrite last_write_acc.
    destruct (Nat.eqb_spec j i) as [->|N].
    + assert (g = f) by congruence. subst g. destruct (H i f1) as (f' & X1 & X2 & X3 & X4); [rewrite D3, Nat.eqb_refl; reflexivity|].
      exists f'. split; [exact X1|]. split; [lia|]. split.
      * intros k Nk. rewrite X3 by exact Nk. rewrite B3. destruct (Nat.eqb_spec k slot); [contradiction|reflexivity].
      * rewrite X4. destruct (last_write ws i); [reflexivity|]. rewrite B3, Nat.eqb_refl. reflexivity.
    + destruct (H i g) as (f' & X); [rewrite D3; destruct (Nat.eqb_spec i j); [congruence|exact Eg]|]. exists f'. destruct (last_write ws i); exact X.
Qed.

(** ** The elements of an array *)
Definition elem (s : src) (i : nat) : option A :=
  match s with
  | SD _ a => match da_get a i with Some o => o | None => None end
  | SA _ a => match ar_get a i with Some o => o | None => None end
  end.
Lemma column_elem s l i : column s l -> i < length l -> elem s i = nth i l None.
Proof. destruct s as [a|a]; intros (_ & _ & G) L; cbn [elem]; rewrite (G i L); reflexivity. Qed.
Lemma column_size s l : column s l -> src_size A s = length l.
Proof. destruct s; intros (_ & S & _); exact S. Qed.

Lemma rd_nth (vs : list A) i : i < length vs -> rd vs i = Some (nth i vs dflt).
Proof. intros L. unfold rd. apply nth_error_nth'. exact L. Qed.
Definition wrote (opt : bool) (l : list (option A)) (row n : nat) (ws : list (nat * cell)) : Prop :=
  (forall i c, In (i, c) ws -> i < n) /\ forall i, i < n -> exists c, last_write ws i = Some c /\ shows opt (nth (row + i) l None) c.
Lemma wrote_seq opt l row n (f : nat -> cell) : (forall i, i < n -> shows opt (nth (row + i) l None) (f i)) -> wrote opt l row n (map (fun i => (i, f i)) (seq 0 n)).
Proof.
  intros H. split.
  - intros i c I. apply in_map_iff in I. destruct I as (j & E & J). apply in_seq in J. injection E as <- <-. lia.
  - intros i L. exists (f i). split; [apply last_write_seq; exact L|exact (H i L)].
Qed.
Lemma writes_full_ok (vs : list A) row n : row + n <= length vs -> writes_full A vs row n = Some (map (fun i => (i, (true, nth (row + i) vs dflt))) (seq 0 n)).
Proof. intros L. apply all_some_map. intros i I. apply in_seq in I. rewrite rd_nth by lia. reflexivity. Qed.
Lemma flat_map_map {X Y Z} (f : X -> list Y) (g : Y -> Z) l : flat_map (fun x => map g (f x)) l = map g (flat_map f l).
Proof. induction l as [|x l IH]; cbn; [reflexivity|]. rewrite map_app, IH. reflexivity. Qed.
Lemma groups_map {X} (F : nat -> bool -> X) gs :
  flat_map (fun g : nat * list (nat * bool) => map (fun c => F (fst g + fst c) (snd c)) (snd g)) gs = map (fun c => F (fst c) (snd c)) (flat_calls gs).
Proof.
  unfold flat_calls. rewrite <- flat_map_map. apply flat_map_ext. intros g. rewrite map_map. reflexivity.
Qed.
Lemma writes_bitmap_ok (d : darr A) row n : da_valid d -> bmp d <> [] -> row + n <= da_size d ->
  writes_bitmap A d row n = Some (map (fun i => (i, (da_pres d (row + i), nth (row + i) (vals d) dflt))) (seq 0 n)).
Proof.
  intros V Nb L. unfold writes_bitmap. destruct (iterate_by_groups_ok (bmp d) (row + boff d) n) as (gs & E & Fl & _).
  { destruct V as (_ & _ & [X|X]); [contradiction|]. rewrite X. pose proof (bitmap_size_ge (length (vals d) + boff d)). unfold da_size in L. lia. }
  rewrite E. cbn [bind]. rewrite (groups_map (fun i p => let? v := rd (vals d) (row + i) in Some (i, (p, v)))). rewrite Fl. unfold calls_upto. rewrite map_map.
  apply all_some_map. intros i I. apply in_seq in I. cbn [fst snd]. rewrite rd_nth by (unfold da_size in L; lia). cbn [bind]. f_equal. f_equal. f_equal.
  unfold da_pres. destruct (bmp d) as [|b r] eqn:Eb; [congruence|]. f_equal. lia.
Qed.
Lemma shows_elem opt (d : darr A) l k : represents d l -> k < length l -> shows opt (nth k l None) (da_pres d k, nth k (vals d) dflt).
Proof.
  intros R L. apply represents_elem in R. destruct R as (V & S & G). rewrite <- (G k L). unfold da_elem. rewrite rd_nth by (unfold da_size in S; lia).
  unfold shows. destruct (da_pres d k); cbn; auto.
Qed.

Lemma writes_sparse_ok a l row n : ar_rep a l -> ar_ids a <> FFull -> row + n <= length l ->
  exists ws, writes_sparse A dflt a row n = Some ws /\ wrote true l row n ws.
Proof.
  intros R Nf Ln. apply ar_char in R. destruct R as (Wf & Sz & _ & Rd & Ms). unfold writes_sparse.
  set (p := match ar_ids a with FPartial _ ids off => (ids, off) | _ => ([], 0) end). destruct p as [ids off] eqn:Ep.
  assert (Hf : fids (length l) (ar_ids a) = map (fun x => x - off) ids /\ ids_in (length l) off ids).
  { destruct (ar_ids a) as [| |x i o]; try contradiction; subst p; injection Ep as <- <-.
    - split; [reflexivity|]. split; [intros i j H; cbn in H; lia|constructor].
    - split; [reflexivity|]. apply Wf. }
  clear p Ep. destruct Hf as [Hf [As Bd]]. rewrite Forall_forall in Bd. rewrite Hf in *.
  destruct (lower_bound_ok ids (row + off) As) as (F1 & F2 & F3). destruct (lower_bound_ok ids (row + n + off) As) as (T1 & T2 & T3).
  set (from := lower_bound ids (row + off)) in *. set (upto := lower_bound ids (row + n + off)) in *.
  assert (FT : from <= upto). { destruct (Nat.le_gt_cases from upto) as [|G]; [assumption|]. specialize (F2 upto ltac:(lia)). specialize (T3 upto ltac:(lia)). lia. }
  pose proof (represents_elem (ar_data a)) as _. assert (Len : length (vals (ar_data a)) = length ids).
  { destruct Rd as (_ & S & _). unfold da_size in S. rewrite S, at_ids_len, map_length. reflexivity. }
  set (pos := fun i => nth (from + i) ids 0 - off - row).
  assert (Rng : forall i, i < upto - from -> off + row <= nth (from + i) ids 0 < off + row + n).
  { intros i Hi. specialize (F3 (from + i) ltac:(lia)). specialize (T2 (from + i) ltac:(lia)). lia. }
  assert (Fo : forall i, i < upto - from -> frame_of ids off row (from + i) = Some (pos i)).
  { intros i Hi. unfold frame_of. destruct (rd_lt ids (from + i)) as [x Ex]; [lia|]. rewrite Ex. cbn [bind].
    assert (nth (from + i) ids 0 = x) by (apply nth_error_nth; exact Ex). specialize (Rng i Hi). rewrite H in Rng. replace (off + row <=? x) with true by lia. unfold pos. rewrite H. reflexivity. }
  set (ws := map (fun i => (pos i, (da_pres (ar_data a) (from + i), nth (from + i) (vals (ar_data a)) dflt))) (seq 0 (upto - from))).
  assert (Ew : match bmp (ar_data a) with
     | [] => all_some (map (fun i => let? f := frame_of ids off row (from + i) in let? v := rd (vals (ar_data a)) (from + i) in Some (f, (true, v))) (seq 0 (upto - from)))
     | _ => let? gs := iterate_by_groups (bmp (ar_data a)) (from + boff (ar_data a)) (upto - from) in
            all_some (flat_map (fun g => map (fun c => let? f := frame_of ids off row (from + (fst g + fst c)) in
              let? v := rd (vals (ar_data a)) (from + (fst g + fst c)) in Some (f, (snd c, v))) (snd g)) gs)
     end = Some ws).
  { destruct (bmp (ar_data a)) as [|b0 b'] eqn:Eb.
    - apply all_some_map. intros i I. apply in_seq in I. rewrite Fo by lia. rewrite rd_nth by lia. cbn [bind]. unfold da_pres. rewrite Eb. reflexivity.
    - rewrite <- Eb. destruct (iterate_by_groups_ok (bmp (ar_data a)) (from + boff (ar_data a)) (upto - from)) as (gs & E & Fl & _).
      { destruct Rd as ((_ & _ & [X|X]) & _); [congruence|]. rewrite X. pose proof (bitmap_size_ge (length (vals (ar_data a)) + boff (ar_data a))). lia. }
      rewrite E. cbn [bind]. rewrite (groups_map (fun i p => let? f := frame_of ids off row (from + i) in let? v := rd (vals (ar_data a)) (from + i) in Some (f, (p, v)))).
      rewrite Fl. unfold calls_upto. rewrite map_map. apply all_some_map. intros i I. apply in_seq in I. cbn [fst snd].
      rewrite Fo by lia. rewrite rd_nth by lia. cbn [bind]. f_equal. f_equal. f_equal. unfold da_pres. rewrite Eb. f_equal. lia. }
  rewrite Ew. cbn [bind]. eexists. split; [reflexivity|].
  assert (Mono : forall i j, i < j < upto - from -> nth (from + i) ids 0 < nth (from + j) ids 0) by (intros i j Hij; apply As; lia).
  split.
  - intros i c I. apply in_app_iff in I. destruct I as [I|I]; apply in_map_iff in I; destruct I as (j & E & J); apply in_seq in J; injection E as <- <-; [lia|].
    unfold pos. specialize (Rng j ltac:(lia)). lia.
  - assert (Inj : forall j k, In j (seq 0 (upto - from)) -> In k (seq 0 (upto - from)) -> pos j = pos k -> j = k).
      { intros j k J K E. apply in_seq in J, K. unfold pos in E. pose proof (Rng j ltac:(lia)). pose proof (Rng k ltac:(lia)).
        destruct (Nat.lt_trichotomy j k) as [X|[X|X]]; [|exact X|]; [specialize (Mono j k ltac:(lia))|specialize (Mono k j ltac:(lia))]; lia. }
    intros i Hi. rewrite last_write_app. pose proof (last_write_map pos (fun i => (da_pres (ar_data a) (from + i), nth (from + i) (vals (ar_data a)) dflt)) (seq 0 (upto - from)) i Inj) as Lw.
    change (match last_write ws i with Some c => exists j, In j (seq 0 (upto - from)) /\ pos j = i /\ c = (da_pres (ar_data a) (from + j), nth (from + j) (vals (ar_data a)) dflt) | None => forall j, In j (seq 0 (upto - from)) -> pos j <> i end) in Lw. destruct (last_write ws i) as [c|].
    + destruct Lw as (j & J & Ej & ->).
      apply in_seq in J. eexists. split; [reflexivity|]. pose proof (Rng j ltac:(lia)) as Rj. unfold pos in Ej.
      pose proof (shows_elem true (ar_data a) _ (from + j) Rd) as Sh. rewrite at_ids_len, map_length in Sh. specialize (Sh ltac:(lia)).
      rewrite at_ids_nth in Sh by (rewrite map_length; lia). replace (nth (from + j) (map (fun x => x - off) ids) 0) with (row + i) in Sh; [exact Sh|].
      rewrite (nth_indep _ 0 ((fun x => x - off) 0)) by (rewrite map_length; lia). rewrite (map_nth (fun x => x - off)). lia.
    + rewrite last_write_seq by exact Hi. eexists. split; [reflexivity|]. rewrite Ms; [unfold opt_cell, shows; destruct (ar_miss a); cbn; auto|lia|].
      intros I. apply in_map_iff in I. destruct I as (x & Ex & Ix). apply In_nth with (d := 0) in Ix. destruct Ix as (o & Lo & Eo). pose proof (Bd x (ltac:(rewrite <- Eo; apply nth_In; exact Lo))) as Bx.
      assert (from <= o < upto). { split.
        - destruct (Nat.le_gt_cases from o) as [|G]; [assumption|]. specialize (F2 o G). lia.
        - destruct (Nat.le_gt_cases upto o) as [G|]; [|assumption]. specialize (T3 o ltac:(lia)). lia. }
      refine (Lw (o - from) _ _).
      * apply in_seq. lia.
      * unfold pos. replace (from + (o - from)) with o by lia. lia.
Qed.

Lemma writes_ok s opt l row n : column s l -> opt = true \/ (exists a, s = SD A a) -> row + n <= length l ->
  exists ws, writes A dflt s opt row n = Some ws /\ wrote opt l row n ws.
Proof.
  intros Cl Ho L. destruct s as [d|a]; cbn [writes column] in *.
  - assert (Sz : length (vals d) = length l) by (destruct Cl as (_ & S & _); exact S).
    destruct opt; cbn [negb].
    + destruct (bmp d) as [|b r] eqn:Eb.
      * rewrite writes_full_ok by lia. eexists. split; [reflexivity|]. apply wrote_seq. intros i Hi. pose proof (shows_elem true d l (row + i) Cl ltac:(lia)) as H. unfold da_pres in H. rewrite Eb in H. exact H.
      * rewrite writes_bitmap_ok; [|apply Cl|congruence|unfold da_size; lia]. eexists. split; [reflexivity|]. apply wrote_seq. intros i Hi. apply shows_elem; [exact Cl|lia].
    + rewrite writes_full_ok by lia. eexists. split; [reflexivity|]. apply wrote_seq. intros i Hi. pose proof (shows_elem false d l (row + i) Cl ltac:(lia)) as H.
      unfold shows in *. destruct (nth (row + i) l None); [cbn in *|]; intuition congruence.
  - destruct Ho as [->|[x X]]; [|discriminate]. unfold is_full_form. destruct (is_dense_form a) eqn:Ed; cbn [andb].
    + unfold is_dense_form in Ed. assert (Ef : ar_ids a = FFull) by (destruct (ar_ids a); congruence). pose proof Cl as Cl'. apply ar_char in Cl'. destruct Cl' as (_ & _ & _ & Rd & _).
      rewrite Ef in Rd. cbn [fids] in Rd. rewrite at_ids_seq in Rd. assert (Sz : length (vals (ar_data a)) = length l) by (destruct Rd as (_ & S & _); exact S).
      destruct (bmp (ar_data a)) as [|b r] eqn:Eb.
      * rewrite writes_full_ok by lia. eexists. split; [reflexivity|]. apply wrote_seq. intros i Hi. pose proof (shows_elem true _ l (row + i) Rd ltac:(lia)) as H. unfold da_pres in H. rewrite Eb in H. exact H.
      * rewrite writes_bitmap_ok; [|apply Rd|congruence|unfold da_size; lia]. eexists. split; [reflexivity|]. apply wrote_seq. intros i Hi. apply shows_elem; [exact Rd|lia].
    + apply writes_sparse_ok; [exact Cl| |exact L]. intros E. unfold is_dense_form in Ed. rewrite E in Ed. discriminate.
Qed.
End P.
