(** Searching, slicing and counting in byte strings and texts. *)
From Coq Require Import FinFun.
From Verif Require Import Base Text_Model Text_Spec Text_Utf8.
Local Open Scope Z_scope.

Lemma app_cut {A} (x y c d : list A) : x ++ y = c ++ d -> (length x <= length c)%nat -> exists e, c = x ++ e /\ y = e ++ d.
Proof.
  revert c. induction x as [|a x IH]; intros c E L; [exists c; auto|]. destruct c as [|b c]; cbn in *; [lia|]. injection E as <- E.
  destruct (IH c E ltac:(lia)) as (e & -> & ->). exists e. auto.
Qed.
Lemma len_app {A} (a b : list A) : len (a ++ b) = len a + len b.
Proof. unfold len. rewrite app_length. lia. Qed.
Lemma size_len {A} (l : list A) : size l = len l.
Proof. reflexivity. Qed.

(** ** find and rfind *)
Lemma starts_spec sub : forall s, starts sub s = true <-> exists b, s = sub ++ b.
Proof.
  induction sub as [|x sub IH]; intros s; cbn [starts]; [split; [exists s; reflexivity|reflexivity]|]. destruct s as [|y s].
  - split; [discriminate|]. intros (b & E). discriminate.
  - rewrite andb_true_iff, Z.eqb_eq, IH. split; [intros [<- (b & ->)]; exists b; reflexivity|]. intros (b & E). injection E as -> ->. split; [reflexivity|exists b; reflexivity].
Qed.
Lemma occurs_bound {A} (l sub : list A) i : occurs l sub i -> 0 <= i /\ i + len sub <= len l.
Proof. intros (a & b & -> & ->). rewrite !len_app. unfold len. lia. Qed.
Lemma occurs_cons {A} (x : A) t sub i : occurs (x :: t) sub i <-> (i = 0 /\ exists b, x :: t = sub ++ b) \/ occurs t sub (i - 1).
Proof.
  split.
  - intros (a & b & E & ->). destruct a as [|y a]; [left; split; [reflexivity|exists b; exact E]|]. right. injection E as <- ->. exists a, b. split; [reflexivity|]. unfold len. cbn [length]. lia.
  - intros [[-> (b & E)]|(a & b & -> & E)]; [exists [], b; auto|]. exists (x :: a), b. split; [reflexivity|]. unfold len in *. cbn [length]. lia.
Qed.
Lemma occurs_nil {A} (sub : list A) i : occurs [] sub i <-> i = 0 /\ sub = [].
Proof.
  split; [|intros [-> ->]; exists [], []; auto]. intros (a & b & E & ->). symmetry in E. apply app_eq_nil in E. destruct E as [-> E]. apply app_eq_nil in E. tauto.
Qed.
Definition best (first : bool) (P : Z -> Prop) (r : option Z) : Prop :=
  match r with Some i => P i /\ forall j, P j -> if first then i <= j else j <= i | None => forall i, ~ P i end.
Lemma first_best {A} (l sub : list A) st en r : first_one l sub st en r <-> best true (candidate l sub st en) r.
Proof. destruct r; reflexivity. Qed.
Lemma last_best {A} (l sub : list A) st en r : last_one l sub st en r <-> best false (candidate l sub st en) r.
Proof. destruct r; reflexivity. Qed.
Lemma best_ext f P Q r : (forall i, P i <-> Q i) -> best f P r -> best f Q r.
Proof. intros H. destruct r as [i|]; cbn; [intros [A B]; split; [apply H, A|intros j Hj; apply B, H, Hj]|intros N i Hi; apply (N i), H, Hi]. Qed.
Lemma best_unique f P r r' : best f P r -> best f P r' -> r = r'.
Proof.
  destruct r as [i|], r' as [j|]; cbn; intros H H'.
  - destruct H as [A B], H' as [A' B']. specialize (B j A'). specialize (B' i A). f_equal. destruct f; lia.
  - destruct H as [A _]. destruct (H' i A).
  - destruct H' as [A _]. destruct (H j A).
  - reflexivity.
Qed.
Definition zopt (o : option nat) : option Z := match o with Some n => Some (Z.of_nat n) | None => None end.
Lemma find_spec sub : forall s, best true (occurs s sub) (zopt (find sub s)).
Proof.
  induction s as [|x s IH]; cbn [find].
  - destruct (starts sub []) eqn:E.
    + apply starts_spec in E. destruct E as (b & E). symmetry in E. apply app_eq_nil in E. destruct E as [-> _]. cbn. split; [exists [], []; auto|]. intros j H. apply occurs_nil in H. lia.
    + cbn. intros i H. apply occurs_nil in H. destruct H as [_ ->]. discriminate.
  - destruct (starts sub (x :: s)) eqn:E.
    + apply starts_spec in E. destruct E as (b & E). cbn. split; [exists [], b; auto|]. intros j H. apply occurs_bound in H. lia.
    + assert (N : ~ exists b, x :: s = sub ++ b) by (intros H; apply starts_spec in H; congruence).
      destruct (find sub s) as [i|]; cbn [zopt best] in *.
      * destruct IH as [A B]. split; [apply occurs_cons; right; replace (Z.of_nat (S i) - 1) with (Z.of_nat i) by lia; exact A|]. intros j H. apply occurs_cons in H. destruct H as [[_ H]|H]; [contradiction|]. apply B in H. lia.
      * intros i H. apply occurs_cons in H. destruct H as [[_ H]|H]; [contradiction|]. exact (IH _ H).
Qed.
Lemma rfind_spec sub : forall s, best false (occurs s sub) (zopt (rfind sub s)).
Proof.
  induction s as [|x s IH]; cbn [rfind].
  - destruct (starts sub []) eqn:E.
    + apply starts_spec in E. destruct E as (b & E). symmetry in E. apply app_eq_nil in E. destruct E as [-> _]. cbn. split; [exists [], []; auto|]. intros j H. apply occurs_nil in H. lia.
    + cbn. intros i H. apply occurs_nil in H. destruct H as [_ ->]. discriminate.
  - destruct (rfind sub s) as [i|]; cbn [zopt best] in *.
    + destruct IH as [A B]. split; [apply occurs_cons; right; replace (Z.of_nat (S i) - 1) with (Z.of_nat i) by lia; exact A|]. intros j H. apply occurs_cons in H. destruct H as [[-> _]|H]; [lia|]. apply B in H. lia.
    + destruct (starts sub (x :: s)) eqn:E.
      * apply starts_spec in E. destruct E as (b & E). cbn. split; [exists [], b; auto|]. intros j H. apply occurs_cons in H. destruct H as [[-> _]|H]; [lia|]. destruct (IH _ H).
      * cbn. intros i H. apply occurs_cons in H. destruct H as [[_ H]|H]; [|exact (IH _ H)]. apply starts_spec in H. congruence.
Qed.

(** ** Ranges *)
Lemma adjust_spec n st en a b ok : 0 <= n -> adjust n st en = (a, b, ok) ->
  (ok = true -> 0 <= a <= b /\ b <= n) /\ (forall i j, 0 <= i <= j -> j <= n -> (low st n <= i /\ j <= high en n <-> ok = true /\ a <= i /\ j <= b)).
Proof.
  unfold adjust, low, high, position. intros Hn E. injection E as <- <- <-. rewrite Z.leb_le.
  destruct st as [v|]; [destruct (v <? 0) eqn:E1|]; (destruct en as [w|]; [destruct (w <? 0) eqn:E2|]); split; intros; lia.
Qed.
Lemma sub_view_ok (l : list Z) a b : 0 <= a <= b -> b <= len l -> exists x w y, sub_view l a (b - a) = Some w /\ l = x ++ w ++ y /\ len x = a /\ len w = b - a.
Proof.
  intros H L. unfold sub_view. rewrite size_len. replace (a <? 0) with false by lia. replace (len l <? a) with false by lia. replace (b - a <? 0) with false by lia. cbn [orb].
  exists (firstn (Z.to_nat a) l), (firstn (Z.to_nat (b - a)) (skipn (Z.to_nat a) l)), (skipn (Z.to_nat (b - a)) (skipn (Z.to_nat a) l)).
  split; [reflexivity|]. rewrite firstn_skipn, firstn_skipn. split; [reflexivity|]. unfold len in *. rewrite !firstn_length, skipn_length. lia.
Qed.
Lemma occurs_window {A} (x w y sub : list A) p : occurs w sub p <-> 0 <= p /\ occurs (x ++ w ++ y) sub (p + len x) /\ p + len sub <= len w.
Proof.
  split.
  - intros H. pose proof (occurs_bound _ _ _ H). destruct H as (a & b & -> & ->). split; [lia|]. split; [|lia]. exists (x ++ a), (b ++ y). rewrite len_app. split; [rewrite <- !app_assoc; reflexivity|lia].
  - intros (P & (a & b & E & Ea) & L). unfold len in *. destruct (app_cut _ _ _ _ E ltac:(lia)) as (a' & -> & E2). rewrite app_length in Ea.
    rewrite app_assoc in E2. symmetry in E2. destruct (app_cut _ _ _ _ E2 ltac:(rewrite app_length; lia)) as (e & -> & _). exists a', e. rewrite <- app_assoc. split; [reflexivity|]. unfold len. lia.
Qed.
Lemma best_window f (s sub : list Z) a b w x y r : s = x ++ w ++ y -> len x = a -> len w = b - a -> best f (occurs w sub) (zopt r) ->
  best f (fun p => occurs s sub p /\ a <= p /\ p + len sub <= b) (match r with Some p => Some (Z.of_nat p + a) | None => None end).
Proof.
  intros -> Hx Hw. assert (K : forall p : Z, occurs w sub p <-> 0 <= p /\ occurs (x ++ w ++ y) sub (p + a) /\ p + a + len sub <= b) by (intros p; rewrite (occurs_window x w y), Hx; intuition lia).
  destruct r as [p|]; cbn [best zopt].
  - intros [A B]. apply K in A. split; [repeat split; [tauto|lia|lia]|]. intros j (J1 & J2 & J3). specialize (B (j - a)). rewrite K in B. replace (j - a + a) with j in B by lia. assert (B' := B ltac:(split; [lia|split; [exact J1|lia]])). destruct f; lia.
  - intros N i (J1 & J2 & J3). apply (N (i - a)). apply K. replace (i - a + a) with i by lia. split; [lia|]. split; [exact J1|lia].
Qed.
Lemma empty_occurs {A} (l : list A) : occurs l [] 0.
Proof. exists [], l. auto. Qed.
Lemma find_sub_ok s sub a b : 0 <= a <= b -> b <= len s -> exists r, find_sub s sub a b = Some r /\ best true (fun p => occurs s sub p /\ a <= p /\ p + len sub <= b) r.
Proof.
  intros H L. unfold find_sub. destruct (sub_view_ok s a b H L) as (x & w & y & -> & Es & Ex & Ew). cbn [bind]. pose proof (find_spec sub w) as F.
  pose proof (best_window true s sub a b w x y _ Es Ex Ew F) as B. destruct (find sub w) as [p|]; [eexists; split; [reflexivity|exact B]|].
  destruct sub; [destruct (F 0 (empty_occurs w))|]. eexists. split; [reflexivity|exact B].
Qed.
Lemma rfind_sub_ok s sub a b : 0 <= a <= b -> b <= len s -> exists r, rfind_sub s sub a b = Some r /\ best false (fun p => occurs s sub p /\ a <= p /\ p + len sub <= b) r.
Proof.
  intros H L. unfold rfind_sub. destruct (sub_view_ok s a b H L) as (x & w & y & -> & Es & Ex & Ew). cbn [bind]. pose proof (rfind_spec sub w) as F.
  pose proof (best_window false s sub a b w x y _ Es Ex Ew F) as B. destruct (rfind sub w) as [p|]; [eexists; split; [reflexivity|exact B]|].
  destruct sub; [destruct (F 0 (empty_occurs w))|]. eexists. split; [reflexivity|exact B].
Qed.
Lemma candidate_adjust {A} (l sub : list A) st en a b ok : adjust (len l) st en = (a, b, ok) ->
  forall i, candidate l sub st en i <-> ok = true /\ occurs l sub i /\ a <= i /\ i + len sub <= b.
Proof.
  intros E i. destruct (adjust_spec (len l) st en a b ok ltac:(unfold len; lia) E) as [_ H]. unfold candidate. split.
  - intros (O & Lo & Hi). pose proof (occurs_bound _ _ _ O). destruct (proj1 (H i (i + len sub) ltac:(unfold len in *; lia) ltac:(lia)) (conj Lo Hi)). tauto.
  - intros (K & O & R). pose proof (occurs_bound _ _ _ O). destruct (proj2 (H i (i + len sub) ltac:(unfold len in *; lia) ltac:(lia)) (conj K R)). tauto.
Qed.
Lemma bytes_find_with f fs (s sub : list Z) st en :
  (forall a b, 0 <= a <= b -> b <= len s -> exists r, fs s sub a b = Some r /\ best f (fun p => occurs s sub p /\ a <= p /\ p + len sub <= b) r) ->
  exists r, (let '(a, b, ok) := adjust (size s) st en in if ok then fs s sub a b else Some None) = Some r /\ best f (candidate s sub st en) r.
Proof.
  intros F. rewrite size_len. destruct (adjust (len s) st en) as [[a b] ok] eqn:E. pose proof (candidate_adjust s sub st en a b ok E) as C. destruct (adjust_spec (len s) st en a b ok ltac:(unfold len; lia) E) as [V _]. destruct ok.
  - destruct (F a b) as (r & -> & B); try (apply V; reflexivity). exists r. split; [reflexivity|]. revert B. apply best_ext. intros i. rewrite C. tauto.
  - exists None. split; [reflexivity|]. intros i H. apply C in H. destruct H. discriminate.
Qed.

(** ** Texts *)
Lemma occurs_utf8 cs sub p : sub <> [] -> Forall scalar sub -> Forall scalar cs ->
  (occurs (utf8 cs) (utf8 sub) p <-> exists i : nat, p = off cs i /\ occurs cs sub (Z.of_nat i)).
Proof.
  intros Nn Fs Fc. split.
  - intros (a & b & E & ->). destruct (utf8_sync sub cs a b Nn Fs Fc E) as (ca & cb & -> & -> & ->). exists (length ca). split; [rewrite off_app; reflexivity|]. exists ca, cb. auto.
  - intros (i & -> & (ca & cb & -> & E)). exists (utf8 ca), (utf8 cb). rewrite !utf8_app. split; [reflexivity|]. unfold len in E. assert (i = length ca) as -> by lia. rewrite off_app. reflexivity.
Qed.
Lemma off_sub cs sub i : occurs cs sub (Z.of_nat i) -> off cs i + len (utf8 sub) = off cs (i + length sub).
Proof.
  intros (ca & cb & -> & E). unfold len in E. assert (i = length ca) as -> by lia. rewrite off_app. rewrite app_assoc, <- app_length, off_app. rewrite utf8_app. unfold size, len. rewrite app_length. lia.
Qed.
Lemma text_find_ok f fs cs sub st en : Forall scalar cs -> Forall scalar sub ->
  (forall a b, 0 <= a <= b -> b <= len (utf8 cs) -> exists r, fs (utf8 cs) (utf8 sub) a b = Some r /\ best f (fun p => occurs (utf8 cs) (utf8 sub) p /\ a <= p /\ p + len (utf8 sub) <= b) r) ->
  exists r, text_find_with fs (utf8 cs) (utf8 sub) st en = Some r /\ best f (candidate cs sub st en) r.
Proof.
  intros Fc Fs F. unfold text_find_with. rewrite utf8_index_ok by exact Fc. cbn [bind].
  replace (size (map (off cs) (seq 0 (S (length cs)))) - 1) with (len cs) by (unfold size, len; rewrite map_length, seq_length; lia).
  destruct (adjust (len cs) st en) as [[a b] ok] eqn:E. pose proof (candidate_adjust cs sub st en a b ok E) as C. destruct (adjust_spec (len cs) st en a b ok ltac:(unfold len; lia) E) as [V _].
  destruct ok; [|exists None; split; [reflexivity|]; intros i H; apply C in H; destruct H; discriminate].
  destruct (V eq_refl) as [V1 V2]. assert (Rd : forall k, 0 <= k <= len cs -> rd (map (off cs) (seq 0 (S (length cs)))) (Z.to_nat k) = Some (off cs (Z.to_nat k))).
  { intros k Hk. unfold rd. unfold len in Hk. rewrite nth_error_map. rewrite (nth_error_nth' _ 0%nat) by (rewrite seq_length; lia). cbn [option_map]. rewrite seq_nth by lia. reflexivity. }
  rewrite !Rd by lia. cbn [bind]. unfold len in V2. set (i := Z.to_nat a) in *. set (j := Z.to_nat b) in *. assert (Ha : a = Z.of_nat i) by lia. assert (Hb : b = Z.of_nat j) by lia.
  assert (Lj : (i <= j <= length cs)%nat) by lia.
  assert (Ij : off cs i <= off cs j) by (apply off_le_iff; auto; lia). assert (Jl : off cs j <= off cs (length cs)) by (apply off_le_iff; auto; lia). rewrite off_all in Jl.
  assert (I0 : 0 <= off cs i) by (unfold off; lia).
  destruct (F (off cs i) (off cs j)) as (r & -> & B); [lia|exact Jl|]. cbn [bind]. eexists. split; [reflexivity|].
  assert (Lb : forall k, (k <= length cs)%nat -> Z.of_nat (lower_bound (map (off cs) (seq 0 (S (length cs)))) (off cs k)) = Z.of_nat k) by (intros k Hk; rewrite lower_bound_off by auto; reflexivity).
  destruct sub as [|d sub'].
  - (* the empty text *)
    assert (All : forall (l : list Z) p, occurs l [] p <-> 0 <= p <= len l).
    { intros l p. split; [intros H; apply occurs_bound in H; unfold len in *; cbn in H; lia|]. intros H. exists (firstn (Z.to_nat p) l), (skipn (Z.to_nat p) l). cbn [app]. rewrite firstn_skipn. split; [reflexivity|]. unfold len in *. rewrite firstn_length. lia. }
    assert (Ze : len (@nil Z) = 0) by reflexivity. cbn [utf8 flat_map] in B. destruct r as [p|]; cbn [best] in B.
    + destruct B as [(B1 & B2 & B3) B4]. rewrite Ze in *.
      assert (Oi : occurs (utf8 cs) [] (off cs i)) by (apply All; unfold size, len in *; lia). assert (Oj : occurs (utf8 cs) [] (off cs j)) by (apply All; unfold size, len in *; lia).
      pose proof (B4 (off cs i) ltac:(split; [exact Oi|lia])). pose proof (B4 (off cs j) ltac:(split; [exact Oj|lia])).
      assert (P : p = off cs (if f then i else j)) by (destruct f; lia). rewrite P, Lb by (destruct f; lia). cbn [best]. split.
      * apply C. split; [reflexivity|]. split; [apply All; unfold len; destruct f; lia|]. try rewrite Ze; destruct f; lia.
      * intros k Hk. apply C in Hk. try rewrite Ze in Hk. destruct f; lia.
    + exfalso. apply (B (off cs i)). split; [apply All; unfold size, len in *; lia|]. unfold len. cbn [length]. lia.
  - assert (Bi : forall p, (occurs (utf8 cs) (utf8 (d :: sub')) p /\ off cs i <= p /\ p + len (utf8 (d :: sub')) <= off cs j) <-> exists k : nat, p = off cs k /\ candidate cs (d :: sub') st en (Z.of_nat k)).
    { intros p. rewrite (occurs_utf8 cs (d :: sub') p) by (auto; discriminate). split.
      - intros ((k & -> & O) & L1 & L2). exists k. split; [reflexivity|]. apply C. pose proof (occurs_bound _ _ _ O) as Bd. unfold len in Bd. rewrite (off_sub cs (d :: sub') k O) in L2. split; [reflexivity|]. split; [exact O|].
        apply off_le_iff in L1; auto; try lia. apply off_le_iff in L2; auto; try lia. unfold len. lia.
      - intros (k & -> & Hk). apply C in Hk. destruct Hk as (_ & O & L1 & L2). split; [exists k; auto|]. pose proof (occurs_bound _ _ _ O) as Bd. unfold len in *. rewrite <- (app_nil_l (utf8 _)).
        pose proof (off_sub cs (d :: sub') k O) as Os. unfold len in Os. cbn [app]. rewrite Os. split; apply off_le_iff; auto; lia. }
    apply (best_ext f _ _ _ Bi) in B. destruct r as [p|]; cbn [best] in *.
    + destruct B as [(k & -> & Ck) Bm]. assert (Lk : (k <= length cs)%nat) by (apply C in Ck; destruct Ck as (_ & O & _); apply occurs_bound in O; unfold len in O; lia). rewrite Lb by exact Lk.
      split; [exact Ck|]. intros q Hq. assert (Oq := Hq). apply C in Oq. destruct Oq as (_ & O & _). apply occurs_bound in O. unfold len in O.
      assert (M := Bm (off cs (Z.to_nat q)) ltac:(exists (Z.to_nat q); split; [reflexivity|]; rewrite Z2Nat.id by lia; exact Hq)).
      destruct f; apply off_le_iff in M; auto; lia.
    + intros q Hq. assert (Oq := Hq). apply C in Oq. destruct Oq as (_ & O & _). apply occurs_bound in O. apply (B (off cs (Z.to_nat q))). exists (Z.to_nat q). split; [reflexivity|]. rewrite Z2Nat.id by lia. exact Hq.
Qed.

(** ** Slices *)
Lemma slice_unique {A} (l r r' : list A) st en : slice l st en r -> slice l st en r' -> r = r'.
Proof.
  intros (a & b & E & H) (a' & b' & E' & H').
  assert (K : forall k, len a <= k < len a + len r <-> len a' <= k < len a' + len r') by (intros k; rewrite H, H'; reflexivity).
  assert (Z : len r = len r' /\ (len r = 0 \/ len a = len a')).
  { unfold len in *. pose proof (K (Z.of_nat (length a))). pose proof (K (Z.of_nat (length a) + Z.of_nat (length r) - 1)). pose proof (K (Z.of_nat (length a'))). pose proof (K (Z.of_nat (length a') + Z.of_nat (length r') - 1)). pose proof (K (Z.of_nat (length a) + Z.of_nat (length r))). pose proof (K (Z.of_nat (length a') + Z.of_nat (length r'))). lia. }
  unfold len in Z. destruct Z as [Z1 [Z2|Z2]]; [destruct r, r'; cbn in *; try lia; reflexivity|].
  rewrite E in E'. destruct (app_cut _ _ _ _ E' ltac:(lia)) as (e & Ea & E2). rewrite Ea, app_length in Z2. destruct e; [|cbn in Z2; lia]. cbn in E2. destruct (app_cut _ _ _ _ E2 ltac:(lia)) as (e & Er & _). rewrite Er, app_length in Z1. destruct e; [|cbn in Z1; lia]. rewrite app_nil_r in Er. auto.
Qed.
Lemma slice_of {A} (l x w y : list A) st en a b : adjust (len l) st en = (a, b, true) -> l = x ++ w ++ y -> len x = a -> len w = b - a -> slice l st en w.
Proof.
  intros E El Ex Ew. exists x, y. split; [exact El|]. intros k. destruct (adjust_spec (len l) st en a b true ltac:(unfold len; lia) E) as [V H]. specialize (V eq_refl). specialize (H k (k + 1)). lia.
Qed.
Lemma slice_empty {A} (l : list A) st en a b : adjust (len l) st en = (a, b, false) -> slice l st en [].
Proof.
  intros E. exists [], l. split; [reflexivity|]. intros k. destruct (adjust_spec (len l) st en a b false ltac:(unfold len; lia) E) as [_ H]. specialize (H k (k + 1)). unfold len in *. cbn [length]. split; [lia|]. intros [K1 K2]. exfalso. destruct H as [H _]; [lia|lia|]. destruct H; [lia|discriminate].
Qed.
Lemma bytes_substr_ok s st en : exists r, bytes_substr s st en = Some r /\ slice s st en r.
Proof.
  unfold bytes_substr. rewrite size_len. destruct (adjust (len s) st en) as [[a b] ok] eqn:E. destruct (adjust_spec (len s) st en a b ok ltac:(unfold len; lia) E) as [V _]. destruct ok; [|exists []; split; [reflexivity|]; eapply slice_empty, E].
  destruct (V eq_refl) as [V1 V2]. destruct (sub_view_ok s a b V1 V2) as (x & w & y & -> & Es & Ex & Ew). exists w. split; [reflexivity|]. eapply slice_of; eauto.
Qed.
Lemma text_substr_ok cs st en : Forall scalar cs -> exists r, text_substr (utf8 cs) st en = Some (utf8 r) /\ slice cs st en r.
Proof.
  intros Fc. unfold text_substr. rewrite utf8_index_ok by exact Fc. cbn [bind].
  replace (size (map (off cs) (seq 0 (S (length cs)))) - 1) with (len cs) by (unfold size, len; rewrite map_length, seq_length; lia).
  destruct (adjust (len cs) st en) as [[a b] ok] eqn:E. destruct (adjust_spec (len cs) st en a b ok ltac:(unfold len; lia) E) as [V _]. destruct ok; [|exists []; split; [reflexivity|]; eapply slice_empty, E].
  destruct (V eq_refl) as [V1 V2]. assert (Rd : forall k, 0 <= k <= len cs -> rd (map (off cs) (seq 0 (S (length cs)))) (Z.to_nat k) = Some (off cs (Z.to_nat k))).
  { intros k Hk. unfold rd. unfold len in Hk. rewrite nth_error_map. rewrite (nth_error_nth' _ 0%nat) by (rewrite seq_length; lia). cbn [option_map]. rewrite seq_nth by lia. reflexivity. }
  rewrite !Rd by lia. cbn [bind]. destruct (sub_view_ok cs a b V1 V2) as (x & w & y & _ & Es & Ex & Ew). exists w. split; [|eapply slice_of; eauto].
  unfold len in *. assert (Oa : off cs (Z.to_nat a) = len (utf8 x)) by (replace (Z.to_nat a) with (length x) by lia; rewrite Es, off_app; reflexivity).
  assert (Ob : off cs (Z.to_nat b) = len (utf8 x) + len (utf8 w)) by (replace (Z.to_nat b) with (length (x ++ w)) by (rewrite app_length; lia); rewrite Es, app_assoc, off_app, utf8_app; unfold size, len; rewrite app_length; lia).
  rewrite Oa, Ob. rewrite Es at 1. rewrite !utf8_app. unfold sub_view, size, len. rewrite !app_length. replace (_ <? 0) with false by lia. replace (_ <? _) with false by lia. replace (_ <? 0) with false by lia. cbn [orb]. f_equal.
  rewrite Nat2Z.id, skipn_app, skipn_all, Nat.sub_diag. cbn [app skipn]. replace (Z.to_nat _) with (length (utf8 w)) by lia. rewrite firstn_app, Nat.sub_diag, firstn_O, app_nil_r. apply firstn_all.
Qed.

(** ** Counting *)
Fixpoint nocc (sub s : list Z) : nat := ((if starts sub s then 1 else 0) + match s with [] => 0 | _ :: t => nocc sub t end)%nat.
Lemma nocc_occurrences sub : forall s, occurrences s sub (Z.of_nat (nocc sub s)).
Proof.
  induction s as [|x s IH]; cbn [nocc].
  - destruct (starts sub []) eqn:E.
    + exists [0]. split; [repeat constructor; intros []|]. split; [|reflexivity]. intros i. rewrite occurs_nil. apply starts_spec in E. destruct E as (b & E). symmetry in E. apply app_eq_nil in E. cbn. intuition lia.
    + exists []. split; [constructor|]. split; [|reflexivity]. intros i. rewrite occurs_nil. split; [intros []|]. intros [_ ->]. discriminate.
  - destruct IH as (is & Nd & Hi & En). assert (Nd' : NoDup (map (Z.add 1) is)) by (apply FinFun.Injective_map_NoDup; [intros a b; lia|exact Nd]).
    assert (Hi' : forall i, In i (map (Z.add 1) is) <-> occurs s sub (i - 1)) by (intros i; rewrite in_map_iff; split; [intros (j & <- & Hj); apply Hi in Hj; replace (1 + j - 1) with j by lia; exact Hj|intros H; exists (i - 1); split; [lia|apply Hi, H]]).
    destruct (starts sub (x :: s)) eqn:E.
    + exists (0 :: map (Z.add 1) is). split; [constructor; [|exact Nd']; intros H; apply Hi', occurs_bound in H; lia|]. split; [|cbn [length]; rewrite map_length; lia].
      intros i. cbn [In]. rewrite Hi', occurs_cons. apply starts_spec in E. intuition lia.
    + exists (map (Z.add 1) is). split; [exact Nd'|]. split; [|rewrite map_length; lia]. intros i. rewrite Hi', occurs_cons. split; [tauto|]. intros [[_ H]|H]; [|exact H]. apply starts_spec in H. congruence.
Qed.
Lemma occurrences_unique {A} (l sub : list A) n m : occurrences l sub n -> occurrences l sub m -> n = m.
Proof.
  intros (is & N & H & ->) (js & N' & H' & ->). f_equal. apply Nat.le_antisymm; apply NoDup_incl_length; auto; intros i Hi; [apply H', H|apply H, H']; exact Hi.
Qed.
Lemma nocc_find sub : sub <> [] -> forall s, match find sub s with Some i => nocc sub s = S (nocc sub (skipn (S i) s)) /\ (i < length s)%nat | None => nocc sub s = O end.
Proof.
  intros Nn. induction s as [|x s IH]; cbn [find nocc].
  - destruct sub; [congruence|]. reflexivity.
  - destruct (starts sub (x :: s)); [cbn [skipn length]; split; [reflexivity|lia]|]. destruct (find sub s) as [i|]; [|cbn; exact IH]. destruct IH as [E L]. cbn [length]. split; [|lia]. rewrite E. reflexivity.
Qed.
Lemma skipn_skipn' {A} i j (l : list A) : skipn i (skipn j l) = skipn (j + i) l.
Proof. revert l. induction j as [|j IH]; intros l; [reflexivity|]. destruct l; [destruct i; reflexivity|]. cbn. apply IH. Qed.
Lemma count_loop_ok sub s : sub <> [] -> forall fuel curr cnt, (length s - curr < fuel)%nat -> 0 <= cnt <= int_max ->
  count_loop fuel sub s curr cnt = if cnt + Z.of_nat (nocc sub (skipn curr s)) <=? int_max then Some (cnt + Z.of_nat (nocc sub (skipn curr s))) else None.
Proof.
  intros Nn. induction fuel as [|fuel IH]; intros curr cnt L R; [lia|]. cbn [count_loop]. unfold find_from. pose proof (nocc_find sub Nn (skipn curr s)) as H. destruct (find sub (skipn curr s)) as [i|].
  - destruct H as [H Li]. rewrite skipn_length in Li. rewrite H. rewrite skipn_skipn'. replace (curr + S i)%nat with (S (curr + i)) by lia. destruct (cnt =? int_max) eqn:E.
    + replace (_ <=? int_max) with false by lia. reflexivity.
    + rewrite IH by lia. set (n := nocc sub (skipn (S (curr + i)) s)). replace (cnt + 1 + Z.of_nat n) with (cnt + Z.of_nat (S n)) by lia. reflexivity.
  - rewrite H. rewrite Z.add_0_r. replace (cnt <=? int_max) with true by lia. reflexivity.
Qed.
Lemma nocc_nil s : nocc [] s = S (length s).
Proof. induction s as [|x s IH]; [reflexivity|]. cbn [nocc starts length]. rewrite IH. reflexivity. Qed.
Lemma bytes_count_ok s sub n : occurrences s sub n -> bytes_count s sub = if match sub with [] => true | _ => n <=? int_max end then Some n else None.
Proof.
  intros O. pose proof (occurrences_unique _ _ _ _ O (nocc_occurrences sub s)) as ->. unfold bytes_count. destruct sub as [|d sub].
  - rewrite nocc_nil. unfold size. f_equal. lia.
  - rewrite count_loop_ok by (try discriminate; try lia; unfold int_max; lia). cbn [skipn]. rewrite Z.add_0_l. reflexivity.
Qed.
Lemma occurrences_utf8 cs sub n : sub <> [] -> Forall scalar cs -> Forall scalar sub -> occurrences cs sub n -> occurrences (utf8 cs) (utf8 sub) n.
Proof.
  intros Nn Fc Fs (is & Nd & Hi & ->). exists (map (fun i => off cs (Z.to_nat i)) is). rewrite map_length. split; [|split; [|reflexivity]].
  - assert (B : forall i, In i is -> 0 <= i <= len cs) by (intros i H; apply Hi, occurs_bound in H; unfold len in *; lia). clear Hi. induction Nd as [|i is Ni Nd IH]; [constructor|]. cbn [map]. constructor; [|apply IH; intros j Hj; apply B; right; exact Hj].
    intros H. apply in_map_iff in H. destruct H as (j & E & Hj). apply Ni. pose proof (B i (or_introl eq_refl)). pose proof (B j (or_intror Hj)). unfold len in *.
    assert ((Z.to_nat j <= Z.to_nat i)%nat /\ (Z.to_nat i <= Z.to_nat j)%nat) by (split; apply (off_le_iff cs Fc); lia). replace i with j by lia. exact Hj.
  - intros p. rewrite in_map_iff, occurs_utf8 by auto. split.
    + intros (i & <- & H). exists (Z.to_nat i). split; [reflexivity|]. apply Hi in H. pose proof (occurs_bound _ _ _ H). rewrite Z2Nat.id by lia. exact H.
    + intros (i & -> & H). exists (Z.of_nat i). rewrite Nat2Z.id. split; [reflexivity|]. apply Hi, H.
Qed.
Lemma text_count_ok cs sub n : Forall scalar cs -> Forall scalar sub -> occurrences cs sub n ->
  text_count (utf8 cs) (utf8 sub) = if match sub with [] => true | _ => n <=? int_max end then Some n else None.
Proof.
  intros Fc Fs O. unfold text_count. destruct sub as [|d sub].
  - cbn [utf8 flat_map]. unfold text_length. rewrite decode_utf8 by (auto; lia). cbn [bind]. pose proof (occurrences_unique _ _ _ _ O (nocc_occurrences [] cs)) as ->. rewrite nocc_nil. unfold size. f_equal. lia.
  - destruct (utf8 (d :: sub)) as [|x t] eqn:E. { inversion Fs; subst. pose proof (encode_nonempty d H1). cbn [utf8 flat_map] in E. destruct (encode d); [cbn in *; lia|discriminate]. }
    rewrite <- E. apply (occurrences_utf8 cs (d :: sub) n) in O; auto; [|discriminate]. rewrite (bytes_count_ok _ _ _ O). rewrite E. reflexivity.
Qed.
