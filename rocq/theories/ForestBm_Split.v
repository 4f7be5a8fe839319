(** Proofs about the splits of a bitmask evaluator: the masks of the trees. *)
From Coq Require Import Permutation.
From Verif Require Import Base Bits_Model Forest_Model Forest_Spec FullAcc_Spec ForestBm_Model ForestBm_Spec ForestBm_Proofs.

Definition hits (v : f32) (s : isplits) (t b : nat) : Prop :=
  gives (fun r => fle v r) t b (s_left s) \/ gives (fun l => fle l v) t b (s_right s) \/ gives (fun x => feq x v) t b (s_eq s) \/
  exists lo hi (m : N), @In (f32 * f32 * meta) (lo, hi, (m, t)) (s_range s) /\ fle lo v = true /\ fle v hi = true /\ tb m b = true.
Definition hits_at (fr : frame) (t b : nat) (i : nat) (s : isplits) : Prop := exists v, in_f32 fr i = Some v /\ v <> S754_nan /\ hits v s t b.
Definition sets_at (fr : frame) (t b : nat) (i : nat) (s : ssplits) : Prop := sets t b (process_set fr (i, s)).
Definition some_entry {B} (Q : nat -> B -> Prop) (m : list (nat * B)) : Prop := exists i s, In (i, s) m /\ Q i s.
Definition contrib (fr : frame) (sd : sdata) (t b : nat) : Prop :=
  some_entry (hits_at fr t b) (by_interval sd) \/ some_entry (sets_at fr t b) (by_set sd).
Definition is_ok (s : isplits) : Prop :=
  nonan (s_left s) /\ nonan (s_right s) /\ nonan (s_eq s) /\ (forall x : f32 * f32 * meta, In x (s_range s) -> fst (fst x) <> S754_nan /\ snd (fst x) <> S754_nan).
Definition sd_ok (sd : sdata) : Prop := forall i s, In (i, s) (by_interval sd) -> is_ok s.

Lemma flat_filter {A} (f : A -> list meta) keep l t b : (forall x, keep x = false -> ~ sets t b (f x)) ->
  (sets t b (flat_map f (filter keep l)) <-> exists x, In x l /\ sets t b (f x)).
Proof.
  intros K. rewrite sets_flat. split; intros (x & I & S).
  - apply filter_In in I. exists x. tauto.
  - exists x. split; [|exact S]. apply filter_In. split; [exact I|]. destruct (keep x) eqn:E; [reflexivity|]. exfalso. exact (K x E S).
Qed.
Lemma sets_nil t b : ~ sets t b [].
Proof. intros (m & [] & _). Qed.
Lemma float_nil fr i t b (f : f32 -> list meta) : (forall v, f v = []) -> ~ sets t b (float_input fr i f).
Proof. intros F S. apply sets_float in S. destruct S as (v & _ & _ & S). rewrite F in S. exact (sets_nil t b S). Qed.

Section fin.
Variable lib : library.
Hypothesis L : lib_ok lib.
Lemma finish_ok sd : sd_ok sd -> forall fr t b, sets t b (active_metas lib fr (finish lib sd)) <-> contrib fr sd t b.
Proof.
  intros Ok fr t b. unfold active_metas, finish. cbv zeta. cbn [e_left e_right e_eq e_range e_set].
  assert (It : forall x, In x (l_iter lib _ (by_interval sd)) <-> In x (by_interval sd)).
  { intros x. split; apply Permutation_in; [|symmetry]; apply (lib_iter lib L). }
  assert (Is : forall x, In x (l_iter lib _ (by_set sd)) <-> In x (by_set sd)).
  { intros x. split; apply Permutation_in; [|symmetry]; apply (lib_iter lib L). }
  rewrite !sets_app. rewrite !flat_filter.
  2: { intros [i l] E. destruct l; [|discriminate]. apply float_nil. reflexivity. }
  2: { intros [i l] E. cbn [snd] in E. unfold process_eq. destruct (e_ranges l) eqn:R; [|discriminate]. apply float_nil. intros v. cbn [snd]. rewrite R. reflexivity. }
  2: { intros [i l] E. destruct l; [|discriminate]. apply float_nil. intros v. cbn. apply firstn_nil. }
  2: { intros [i l] E. destruct l; [|discriminate]. apply float_nil. intros v. cbn. apply firstn_nil. }
  rewrite sets_flat. unfold contrib, some_entry, hits_at, hits, sets_at. split.
  - intros [H|[H|[H|[H|H]]]].
    + destruct H as (x & I & S). apply in_map_iff in I. destruct I as ([i s] & <- & I). apply It in I. destruct (Ok i s I) as (O1 & O2 & O3 & O4).
      apply (left_ok lib L) in S; [|exact O1]. destruct S as (v & V1 & V2 & S). left. exists i, s. split; [exact I|]. exists v. tauto.
    + destruct H as (x & I & S). apply in_map_iff in I. destruct I as ([i s] & <- & I). apply It in I. destruct (Ok i s I) as (O1 & O2 & O3 & O4).
      apply (right_ok lib L) in S; [|exact O2]. destruct S as (v & V1 & V2 & S). left. exists i, s. split; [exact I|]. exists v. tauto.
    + destruct H as (x & I & S). apply in_map_iff in I. destruct I as ([i s] & <- & I). apply It in I. destruct (Ok i s I) as (O1 & O2 & O3 & O4).
      apply (eq_ok lib L) in S; [|exact O3]. destruct S as (v & V1 & V2 & S). left. exists i, s. split; [exact I|]. exists v. tauto.
    + destruct H as (x & I & S). apply in_map_iff in I. destruct I as ([i s] & <- & I). apply It in I. destruct (Ok i s I) as (O1 & O2 & O3 & O4).
      apply (range_ok lib L) in S; [|exact O4]. destruct S as (v & V1 & V2 & S). left. exists i, s. split; [exact I|]. exists v. tauto.
    + destruct H as ([i s] & I & S). apply Is in I. right. exists i, s. auto.
  - intros [(i & s & I & v & V1 & V2 & H)|(i & s & I & S)].
    + destruct (Ok i s I) as (O1 & O2 & O3 & O4). apply It in I. destruct H as [H|[H|[H|H]]].
      * left. eexists. split; [apply in_map_iff; exists (i, s); split; [reflexivity|exact I]|]. apply (left_ok lib L); [exact O1|]. exists v. auto.
      * right. left. eexists. split; [apply in_map_iff; exists (i, s); split; [reflexivity|exact I]|]. apply (right_ok lib L); [exact O2|]. exists v. auto.
      * right. right. left. eexists. split; [apply in_map_iff; exists (i, s); split; [reflexivity|exact I]|]. apply (eq_ok lib L); [exact O3|]. exists v. auto.
      * right. right. right. left. eexists. split; [apply in_map_iff; exists (i, s); split; [reflexivity|exact I]|]. apply (range_ok lib L); [exact O4|]. exists v. auto.
    + right. right. right. right. exists (i, s). split; [apply Is; exact I|exact S].
Qed.

(** Tree ids. *)
Definition tids (n : nat) (sd : sdata) : Prop :=
  (forall i s, In (i, s) (by_interval sd) -> (forall x : f32 * meta, In x (s_left s) \/ In x (s_right s) \/ In x (s_eq s) -> snd (snd x) < n) /\
     (forall x : f32 * f32 * meta, In x (s_range s) -> snd (snd x) < n)) /\
  (forall i s, In (i, s) (by_set sd) -> (forall x : Z * meta, In x (s_metas s) -> snd (snd x) < n) /\ (forall m : meta, In m (s_default s) -> snd m < n)).
Lemma dedup_tids key n l : forall last, (forall x : f32 * meta, In x (last :: l) -> snd (snd x) < n) -> forall x : f32 * meta, In x (dedup key last l) -> snd (snd x) < n.
Proof.
  induction l as [|y r IH]; intros last H x X; cbn [dedup] in X; [apply H; exact X|]. destruct (key_eq key last y).
  - revert X. apply IH. intros z [<- | Z]; [apply (H last); left; reflexivity|apply H; right; right; exact Z].
  - destruct X as [<- | X]; [apply H; left; reflexivity|]. revert X. apply IH. intros z Z. apply H. right. exact Z.
Qed.
Lemma sort_dedup_tids key n l : (forall x, key x = S754_nan <-> x = S754_nan) -> nonan l -> (forall x : f32 * meta, In x l -> snd (snd x) < n) ->
  forall x : f32 * meta, In x (sort_dedup lib key l) -> snd (snd x) < n.
Proof.
  intros K N H x X. unfold sort_dedup in X. destruct (length l <? 2); [apply H; exact X|].
  destruct (lib_sort lib L _ (key_lt key) l) as [Pm As].
  { intros a b _ _ Q. apply key_lt_asym. exact Q. }
  { intros a b c A B C. apply key_lt_ntrans; [exact K|apply N; assumption..]. }
  destruct (l_sort lib _ (key_lt key) l) as [|y r]; [destruct X|]. revert X. apply dedup_tids. intros z Z. apply H. eapply Permutation_in; eassumption.
Qed.
Lemma firstn_In {A} n (l : list A) x : In x (firstn n l) -> In x l.
Proof. rewrite <- (firstn_skipn n l) at 2. intros H. apply in_app_iff. auto. Qed.
Lemma skipn_In {A} n (l : list A) x : In x (skipn n l) -> In x l.
Proof. rewrite <- (firstn_skipn n l) at 2. intros H. apply in_app_iff. auto. Qed.
Lemma float_In fr i f (m : meta) : In m (float_input fr i f) -> exists v, In m (f v).
Proof. unfold float_input. destruct (in_f32 fr i) as [v|]; [|intros []]. destruct (fnan v); [intros []|]. eauto. Qed.
Lemma finish_tids n sd : sd_ok sd -> tids n sd -> forall fr m t, @In meta (m, t) (active_metas lib fr (finish lib sd)) -> t < n.
Proof.
  intros Ok [T1 T2] fr m t. unfold active_metas, finish. cbv zeta. cbn [e_left e_right e_eq e_range e_set].
  assert (It : forall x, In x (l_iter lib _ (by_interval sd)) -> In x (by_interval sd)) by (intros x; apply Permutation_in; apply (lib_iter lib L)).
  assert (Is : forall x, In x (l_iter lib _ (by_set sd)) -> In x (by_set sd)) by (intros x; apply Permutation_in; apply (lib_iter lib L)).
  intros I. repeat (apply in_app_iff in I; destruct I as [I|I]); apply in_flat_map in I; destruct I as (x & X & I).
  - apply filter_In in X. destruct X as [X _]. apply in_map_iff in X. destruct X as ([i s] & <- & X). apply It in X.
    destruct (Ok i s X) as (O1 & O2 & O3 & O4). apply float_In in I. destruct I as [v I]. apply firstn_In in I. cbn [snd] in I. apply in_map_iff in I. destruct I as (y & Y & I).
    change t with (snd (m, t)). rewrite <- Y. eapply sort_dedup_tids; [exact fneg_nan|exact O1| |exact I]. intros z Z. apply (T1 i s X). auto.
  - apply filter_In in X. destruct X as [X _]. apply in_map_iff in X. destruct X as ([i s] & <- & X). apply It in X.
    destruct (Ok i s X) as (O1 & O2 & O3 & O4). apply float_In in I. destruct I as [v I]. apply firstn_In in I. cbn [snd] in I. apply in_map_iff in I. destruct I as (y & Y & I).
    change t with (snd (m, t)). rewrite <- Y. eapply sort_dedup_tids; [|exact O2| |exact I]; [tauto|]. intros z Z. apply (T1 i s X). auto.
  - apply filter_In in X. destruct X as [X _]. apply in_map_iff in X. destruct X as ([i s] & <- & X). apply It in X.
    destruct (Ok i s X) as (O1 & O2 & O3 & O4). apply float_In in I. destruct I as [v I]. cbn [snd e_ranges e_metas] in I.
    destruct (find _ _) as [[u [lo hi]]|]; [|destruct I]. apply firstn_In in I. apply skipn_In in I. apply in_map_iff in I. destruct I as (y & Y & I).
    change t with (snd (m, t)). rewrite <- Y. eapply sort_dedup_tids; [|exact O3| |exact I]; [tauto|]. intros z Z. apply (T1 i s X). auto.
  - apply filter_In in X. destruct X as [X _]. apply in_map_iff in X. destruct X as ([i s] & <- & X). apply It in X.
    destruct (Ok i s X) as (O1 & O2 & O3 & O4). apply float_In in I. destruct I as [v I]. cbn [snd] in I.
    assert (G : forall l : list (f32 * f32 * meta), In (m, t) (range_loop v l) -> exists lo hi, @In (f32 * f32 * meta) (lo, hi, (m, t)) l).
    { clear. induction l as [|[[lo hi] m0] r IH]; cbn [range_loop]; [intros []|]. destruct (flt v lo); [intros []|]. destruct (fle v hi).
      - intros [<- | I]; [exists lo, hi; left; reflexivity|]. destruct (IH I) as (lo' & hi' & J). exists lo', hi'. right. exact J.
      - intros I. destruct (IH I) as (lo' & hi' & J). exists lo', hi'. right. exact J. }
    apply G in I. destruct I as (lo & hi & I).
    destruct (lib_sort lib L _ (fun a b : f32 * f32 * meta => flt (fst (fst a)) (fst (fst b))) (s_range s)) as [P A].
    { intros a c _ _. apply flt_asym. }
    { intros a c e Ia Ic Ie. apply flt_ntrans; apply O4; assumption. }
    apply (Permutation_in _ P) in I. apply (proj2 (T1 i s X)) in I. exact I.
  - destruct x as [i s]. apply Is in X. destruct (T2 i s X) as [A B]. unfold process_set in I. cbn [fst snd] in I. destruct (in_i64 fr i) as [v|].
    + apply in_map_iff in I. destruct I as (y & Y & I). apply filter_In in I. change t with (snd (m, t)). rewrite <- Y. apply A. apply I.
    + apply (B _ I).
Qed.
End fin.

(** AddSplit. *)
Lemma some_upsert {B} (Q : nat -> B -> Prop) (R : Prop) i e f (m : list (nat * B)) :
  ~ Q i e -> (forall y, Q i (f y) <-> Q i y \/ R) -> (some_entry Q (upsert i e f m) <-> some_entry Q m \/ R).
Proof.
  intros N H. unfold some_entry. induction m as [|[j x] r IH]; cbn [upsert].
  - split.
    + intros (j & y & [E|[]] & q). injection E as <- <-. apply H in q. tauto.
    + intros [(j & y & [] & _)|q]. exists i, (f e). split; [left; reflexivity|]. apply H. auto.
  - destruct (Nat.eqb_spec i j) as [<-|Ne].
    + split.
      * intros (k & y & [E|I] & q); [injection E as <- <-; apply H in q; destruct q as [q|q]; [left; exists i, x; cbn; auto|auto]|left; exists k, y; cbn; auto].
      * intros [(k & y & [E|I] & q)|q]; [injection E as <- <-; exists i, (f x); split; [left; reflexivity|apply H; auto]|exists k, y; cbn; auto|exists i, (f x); split; [left; reflexivity|apply H; auto]].
    + split.
      * intros (k & y & [E|I] & q); [left; exists k, y; cbn; auto|]. destruct (proj1 IH) as [(k' & y' & I' & q')|q']; [exists k, y; auto|left; exists k', y'; cbn; auto|auto].
      * intros [(k & y & [E|I] & q)|q]; [exists k, y; cbn; auto| |].
        -- destruct (proj2 IH) as (k' & y' & I' & q'); [left; exists k, y; auto|]. exists k', y'. cbn. auto.
        -- destruct (proj2 IH) as (k' & y' & I' & q'); [right; exact q|]. exists k', y'. cbn. auto.
Qed.
Lemma upsert_all {B} (Q : B -> Prop) i e f (m : list (nat * B)) : Q e -> (forall y, Q y -> Q (f y)) -> (forall j y, In (j, y) m -> Q y) ->
  forall j y, In (j, y) (upsert i e f m) -> Q y.
Proof.
  intros E F. induction m as [|[k x] r IH]; cbn [upsert]; intros H j y.
  - intros [G|[]]. injection G as <- <-. auto.
  - destruct (i =? k).
    + intros [G|G]; [injection G as <- <-; apply F; apply (H k x); left; reflexivity|apply (H j y); right; exact G].
    + intros [G|G]; [apply (H j y); left; exact G|]. apply (IH (fun j y I => H j y (or_intror I)) j y G).
Qed.
Lemma gives_snoc P t b l x m t' : gives P t b (l ++ [(x, (m, t'))]) <-> gives P t b l \/ (t' = t /\ P x = true /\ tb m b = true).
Proof.
  unfold gives. split.
  - intros (y & n & I & p & T). apply in_app_iff in I. destruct I as [I|[E|[]]]; [left; exists y, n; auto|]. injection E as -> -> ->. auto.
  - intros [(y & n & I & p & T)|(-> & p & T)]; [exists y, n|exists x, m]; (split; [apply in_app_iff; cbn; auto|auto]).
Qed.
Lemma feq_inf l (s : bool) : feq l (S754_infinity s) = true -> l = S754_infinity s.
Proof. destruct l as [[]|[]| |[] m e], s; cbn; intros H; try reflexivity; discriminate. Qed.
Lemma fle_ninf v : v <> S754_nan -> fle fninf v = true.
Proof. destruct v as [[]|[]| |[] m e]; intros H; try reflexivity. contradiction. Qed.
Lemma fle_inf v : v <> S754_nan -> fle v finf = true.
Proof. destruct v as [[]|[]| |[] m e]; intros H; try reflexivity. contradiction. Qed.
Lemma add_isplit_hits v l r m t' s t b : v <> S754_nan -> l <> S754_nan -> r <> S754_nan ->
  (hits v (add_isplit l r (m, t') s) t b <-> hits v s t b \/ (t' = t /\ fle l v && fle v r = true /\ tb m b = true)).
Proof.
  intros V NL NR. unfold add_isplit. destruct (feq l fninf) eqn:E1; [|destruct (feq r finf) eqn:E2; [|destruct (feq l r) eqn:E3]]; unfold hits; cbn [s_left s_right s_eq s_range].
  - apply feq_inf in E1. subst l. rewrite gives_snoc, fle_ninf by assumption. cbn [andb]. tauto.
  - apply feq_inf in E2. subst r. rewrite gives_snoc, fle_inf by assumption. rewrite andb_true_r. tauto.
  - rewrite gives_snoc. assert (Q : feq l v = fle l v && fle v r).
    { rewrite (fle_flt l v), (fle_flt v r), (feq_flt l v) by assumption. rewrite andb_comm. f_equal. f_equal.
      rewrite feq_flt in E3 by assumption. apply andb_true_iff in E3. destruct E3 as [A B]. apply negb_true_iff in A, B.
      destruct (flt l v) eqn:F, (flt r v) eqn:G; try reflexivity; [rewrite (flt_ntrans l r v) in F by assumption|rewrite (flt_ntrans r l v) in G by assumption]; discriminate. }
    rewrite Q. tauto.
  - rewrite andb_true_iff. split.
    + intros [H|[H|[H|(lo & hi & n & I & A & B & C)]]]; try tauto. apply in_app_iff in I. destruct I as [I|[E|[]]].
      * left. right. right. right. exists lo, hi, n. auto.
      * injection E as -> -> -> ->. right. auto.
    + intros [[H|[H|[H|(lo & hi & n & I & A)]]]|(-> & [A B] & C)]; try tauto.
      * right. right. right. exists lo, hi, n. split; [apply in_app_iff; auto|exact A].
      * right. right. right. exists l, r, m. split; [apply in_app_iff; cbn; auto|auto].
Qed.
Lemma not_hits_empty v t b : ~ hits v no_isplits t b.
Proof. unfold hits, gives. cbn. intros [(x & m & [] & _)|[(x & m & [] & _)|[(x & m & [] & _)|(x & y & m & [] & _)]]]. Qed.
Lemma add_split_ok ot w mask c tid sd : sd_ok sd -> supported c = true -> cond_ok c ->
  exists sd', add_split w (mask, c) tid sd = Some sd' /\ sd_ok sd' /\
    (forall n, tid < n -> tids n sd -> tids n sd') /\
    forall fr t b, contrib fr sd' t b <-> contrib fr sd t b \/ (tid = t /\ ceval ot fr c = true /\ tb (N.land mask (wones w)) b = true).
Proof.
  intros Ok Su Co. unfold add_split. cbn [fst snd]. set (mm := N.land mask (wones w)). destruct c as [i l r|i vs missed| |]; try discriminate.
  - destruct Co as [NL NR]. eexists. split; [reflexivity|]. split; [|split].
    + intros j s. cbn [by_interval]. revert j s. apply (upsert_all is_ok).
      * split; [intros x []|]. split; [intros x []|]. split; intros x [].
      * intros s (O1 & O2 & O3 & O4). unfold add_isplit. destruct (feq l fninf); [|destruct (feq r finf); [|destruct (feq l r)]]; (split; [|split; [|split]]); cbn [s_left s_right s_eq s_range]; try assumption; intros x X; apply in_app_iff in X; (destruct X as [X|[<-|[]]]; [auto|cbn; auto]).
      * exact Ok.
    + intros n Tn [T1 T2]. split; cbn [by_interval by_set]; [|exact T2].
      apply (upsert_all (fun s => (forall x : f32 * meta, In x (s_left s) \/ In x (s_right s) \/ In x (s_eq s) -> snd (snd x) < n) /\ (forall x : f32 * f32 * meta, In x (s_range s) -> snd (snd x) < n))); [cbn; split; tauto| |exact T1].
      intros s [A B]. unfold add_isplit. destruct (feq l fninf); [|destruct (feq r finf); [|destruct (feq l r)]]; cbn [s_left s_right s_eq s_range]; (split; [|]); intros x X; rewrite ?in_app_iff in X; cbn [In] in X;
        try (apply A; tauto); try (apply B; tauto).
      * destruct X as [[X|[<-|[]]]|X]; [apply A; tauto|exact Tn|apply A; tauto].
      * destruct X as [X|[[X|[<-|[]]]|X]]; [apply A; tauto|apply A; tauto|exact Tn|apply A; tauto].
      * destruct X as [X|[X|[X|[<-|[]]]]]; [apply A; tauto|apply A; tauto|apply A; tauto|exact Tn].
      * destruct X as [X|[<-|[]]]; [apply B; tauto|exact Tn].
    + intros fr t b. unfold contrib. cbn [by_interval by_set].
      rewrite (some_upsert (hits_at fr t b) (tid = t /\ ceval ot fr (Interval i l r) = true /\ tb mm b = true)); [tauto| |].
      * intros (v & _ & _ & H). exact (not_hits_empty v t b H).
      * intros s. unfold hits_at. cbn [ceval]. destruct (in_f32 fr i) as [v|].
        -- split.
           ++ intros (v' & E & V & H). injection E as <-. apply add_isplit_hits in H; [|assumption..]. destruct H as [H|H]; [left; exists v; auto|tauto].
           ++ intros [(v' & E & V & H)|(-> & C & T)].
              ** injection E as <-. exists v. split; [reflexivity|]. split; [exact V|]. apply add_isplit_hits; auto.
              ** assert (V : v <> S754_nan) by (intros ->; rewrite fle_nan_r in C; discriminate). exists v. split; [reflexivity|]. split; [exact V|]. apply add_isplit_hits; auto.
        -- split; [intros (v' & E & _); discriminate|intros [(v' & E & _)|(_ & C & _)]; discriminate].
  - eexists. split; [reflexivity|]. split; [exact Ok|]. split.
    + intros n Tn [T1 T2]. split; cbn [by_interval by_set]; [exact T1|].
      apply (upsert_all (fun s => (forall x : Z * meta, In x (s_metas s) -> snd (snd x) < n) /\ (forall m : meta, In m (s_default s) -> snd m < n))); [cbn; split; tauto| |exact T2].
      intros s [A B]. unfold add_ssplit. cbn [s_metas s_default]. split.
      * intros x X. apply in_app_iff in X. destruct X as [X|X]; [auto|]. apply in_map_iff in X. destruct X as (z & <- & _). exact Tn.
      * destruct missed; [|exact B]. intros x X. apply in_app_iff in X. destruct X as [X|[<-|[]]]; [auto|exact Tn].
    + intros fr t b. unfold contrib. cbn [by_interval by_set].
      rewrite (some_upsert (sets_at fr t b) (tid = t /\ ceval ot fr (SetI64 i vs missed) = true /\ tb mm b = true)); [tauto| |].
      * unfold sets_at, process_set. cbn. destruct (in_i64 fr i); apply sets_nil.
      * intros s. unfold sets_at, process_set, sets. cbn [fst snd ceval add_ssplit s_metas s_default]. destruct (in_i64 fr i) as [v|].
        -- rewrite filter_app, map_app. unfold zin. split.
           ++ intros (m & I & T). apply in_app_iff in I. destruct I as [I|I]; [left; exists m; auto|].
              apply in_map_iff in I. destruct I as (x & E & I). apply filter_In in I. destruct I as [I F]. apply in_map_iff in I. destruct I as (z & <- & I). cbn in E, F. injection E as <- <-.
              right. split; [reflexivity|]. split; [|exact T]. apply existsb_exists. exists z. split; [exact I|]. apply Z.eqb_eq in F. apply Z.eqb_eq. congruence.
           ++ intros [(m & I & T)|(<- & C & T)]; [exists m; split; [apply in_app_iff; auto|exact T]|].
              apply existsb_exists in C. destruct C as (z & I & E). apply Z.eqb_eq in E. subst z. exists mm. split; [|exact T]. apply in_app_iff. right.
              apply in_map_iff. exists (v, (mm, tid)). split; [reflexivity|]. apply filter_In. split; [apply in_map_iff; exists v; auto|]. cbn. apply Z.eqb_refl.
        -- destruct missed.
           ++ split.
              ** intros (m & I & T). apply in_app_iff in I. destruct I as [I|[E|[]]]; [left; exists m; auto|]. injection E as <- <-. auto.
              ** intros [(m & I & T)|(<- & C & T)]; [exists m; split; [apply in_app_iff; auto|exact T]|]. exists mm. split; [apply in_app_iff; cbn; auto|exact T].
           ++ split; [tauto|]. intros [H|(_ & C & _)]; [exact H|discriminate].
Qed.

(** FindTreeMasks. *)
Lemma apply_masks_ok ms : forall masks, (forall m t, @In meta (m, t) ms -> t < length masks) ->
  exists masks', apply_masks ms masks = Some masks' /\ length masks' = length masks /\
    forall t x, nth_error masks t = Some x -> exists x', nth_error masks' t = Some x' /\ forall b, tb x' b = true <-> tb x b = true \/ sets t b ms.
Proof.
  induction ms as [|[m t] r IH]; intros masks H; cbn [apply_masks].
  - exists masks. split; [reflexivity|]. split; [reflexivity|]. intros t x X. exists x. split; [exact X|]. intros b. split; [auto|]. intros [T|T]; [exact T|]. exfalso. exact (sets_nil t b T).
  - assert (Lt : t < length masks) by (apply (H m t); left; reflexivity). destruct (rd_lt masks t Lt) as [x X]. rewrite X. cbn [bind].
    destruct (upd_lt masks t (N.lor x m) Lt) as [masks1 U]. rewrite U. cbn [bind]. destruct (upd_spec _ _ _ _ U) as (_ & U1 & U2).
    destruct (IH masks1) as (masks' & A & B & C); [intros m' t' I; rewrite U1; apply (H m' t'); right; exact I|].
    exists masks'. split; [exact A|]. split; [congruence|]. intros t' y Y.
    destruct (Nat.eq_dec t' t) as [->|Ne].
    + assert (y = x) by (unfold rd in X; congruence). subst y. destruct (C t (N.lor x m)) as (x' & X' & Bx); [specialize (U2 t); rewrite Nat.eqb_refl in U2; exact U2|].
      exists x'. split; [exact X'|]. intros b. rewrite Bx, tb_lor, orb_true_iff. unfold sets. split.
      * intros [[T|T]|(n & I & T)]; [auto|right; exists m; split; [left; reflexivity|exact T]|right; exists n; split; [right; exact I|exact T]].
      * intros [T|(n & [E|I] & T)]; [auto|injection E as ->; auto|right; exists n; auto].
    + destruct (C t' y) as (x' & X' & Bx); [specialize (U2 t'); rewrite (proj2 (Nat.eqb_neq _ _)) in U2 by auto; unfold rd in U2; rewrite U2; exact Y|].
      exists x'. split; [exact X'|]. intros b. rewrite Bx. unfold sets. split.
      * intros [T|(n & I & T)]; [auto|right; exists n; split; [right; exact I|exact T]].
      * intros [T|(n & [E|I] & T)]; [auto|injection E as _ E; congruence|right; exists n; auto].
Qed.
