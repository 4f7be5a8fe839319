From Verif Require Import Base Cfg_Model Cfg_Spec.

(** ** Create *)
Definition good (n node : nat) (ds : list Z) : Prop :=
  forall z, In z ds -> (Z.of_nat node < z < Z.of_nat n)%Z.
Lemma push_spec {A} (l : list (list A)) i x : i < length l ->
  exists l', push l i x = Some l' /\ length l' = length l /\
    forall j, rd l' j = if j =? i then option_map (fun r => r ++ [x]) (rd l j) else rd l j.
Proof.
  intros L. unfold push. destruct (rd_lt l i L) as [r Er]. rewrite Er. simpl.
  destruct (upd_lt l i (r ++ [x]) L) as [l' E]. exists l'. split; [exact E|].
  destruct (upd_spec _ _ _ _ E) as (_ & H1 & H2). split; [exact H1|].
  intros j. rewrite H2. destruct (Nat.eqb_spec j i) as [->|N]; [|reflexivity]. rewrite Er. reflexivity.
Qed.

Lemma add_deps_spec n node ds : forall rev, length rev = n ->
  match add_deps n rev node ds with
  | Some (inl rev') => good n node ds /\ length rev' = n /\
      forall v, rd rev' v = option_map (fun r => r ++ repeat node (count_occ Z.eq_dec ds (Z.of_nat v))) (rd rev v)
  | Some (inr (EOrder u z)) => u = node /\ In z ds /\ (z <= Z.of_nat node)%Z
  | Some (inr (ERange z)) => In z ds /\ (Z.of_nat n <= z)%Z
  | _ => False
  end.
Proof.
  induction ds as [|d t IH]; intros rev L; cbn [add_deps].
  - split; [intros z []|]. split; [exact L|]. intros v. simpl. destruct (rd rev v); simpl; [rewrite app_nil_r|]; reflexivity.
  - destruct (Z.leb_spec d (Z.of_nat node)) as [H|H]; [split; [reflexivity|split; [left; reflexivity|lia]]|].
    destruct (Z.leb_spec (Z.of_nat n) d) as [H'|H']; [split; [left; reflexivity|lia]|].
    destruct (push_spec rev (Z.to_nat d) node) as (r1 & E1 & L1 & R1); [lia|]. rewrite E1. cbn [bind].
    specialize (IH r1 ltac:(lia)). destruct (add_deps n r1 node t) as [[r2|[| u z | z | u]]|]; try contradiction.
    + destruct IH as (G & L2 & R2). split; [|split; [exact L2|]].
      * intros z [<-|I]; [lia|apply G; exact I].
      * intros v. rewrite R2, R1. cbn [count_occ]. destruct (Nat.eqb_spec v (Z.to_nat d)) as [->|N].
        { destruct (Z.eq_dec d (Z.of_nat (Z.to_nat d))) as [_|N]; [|lia].
          destruct (rd rev (Z.to_nat d)) as [x|]; simpl; [|reflexivity]. rewrite <- app_assoc. reflexivity. }
        { destruct (Z.eq_dec d (Z.of_nat v)) as [E|_]; [lia|]. reflexivity. }
    + destruct IH as (A & B & C). split; [exact A|]. split; [right; exact B|exact C].
    + destruct IH as (B & C). split; [right; exact B|exact C].
Qed.

Lemma fm_ext {A B} (f g : A -> list B) l : (forall x, In x l -> f x = g x) -> flat_map f l = flat_map g l.
Proof.
  induction l as [|a t IH]; intros H; [reflexivity|]. simpl. rewrite (H a) by (left; reflexivity).
  rewrite IH by (intros x Hx; apply H; right; exact Hx). reflexivity.
Qed.
(** Predecessors from the first [k] nodes. *)
Definition preds (deps : list (list Z)) (v k : nat) : list nat :=
  flat_map (fun u => repeat u (count_occ Z.eq_dec (nth u deps []) (Z.of_nat v))) (seq 0 k).

Lemma add_all_spec deps : forall k rev, k <= length deps ->
  length rev = length deps ->
  (forall v, v < length deps -> rd rev v = Some (preds deps v k)) ->
  (forall u ds, u < k -> rd deps u = Some ds -> good (length deps) u ds) ->
  match add_all (length deps) rev k (skipn k deps) with
  | Some (inl rev') => (forall u ds, rd deps u = Some ds -> good (length deps) u ds) /\ length rev' = length deps /\
      forall v, v < length deps -> rd rev' v = Some (preds deps v (length deps))
  | Some (inr e) => describes deps e /\ ~ valid deps
  | None => False
  end.
Proof.
  intros k. remember (length deps - k) as m eqn:Em. revert k Em.
  induction m as [|m IH]; intros k Em rev Hk L R G.
  - assert (k = length deps) as -> by lia. rewrite skipn_all. simpl. split; [|split; [exact L|exact R]].
    intros u ds E. apply G; [apply rd_Some_lt in E; exact E|exact E].
  - destruct (rd_lt deps k) as [ds Eds]; [lia|].
    assert (skipn k deps = ds :: skipn (S k) deps) as ->.
    { clear - Eds. revert k Eds. induction deps as [|a t IH]; intros [|k] E; try discriminate.
      - simpl in E. injection E as <-. reflexivity.
      - simpl. apply IH. exact E. }
    cbn [add_all]. pose proof (add_deps_spec (length deps) k ds rev L) as S1.
    destruct (add_deps (length deps) rev k ds) as [[r1|e]|]; [| |contradiction]; cbn [bind].
    + destruct S1 as (G1 & L1 & R1). apply (IH (S k)); [lia|lia|exact L1| |].
      * intros v Hv. rewrite R1, (R v Hv). simpl. f_equal. unfold preds. rewrite seq_S, flat_map_app. simpl.
        rewrite app_nil_r, (nth_error_nth deps k [] Eds). reflexivity.
      * intros u ds' Hu E. destruct (Nat.eq_dec u k) as [->|N]; [|apply G; [lia|exact E]].
        assert (ds' = ds) as -> by (unfold rd in *; congruence). exact G1.
    + destruct e as [|u z|z|u]; try contradiction.
      * destruct S1 as (-> & I & H). split; [exists ds; auto|].
        intros (_ & V & _). specialize (V _ _ _ Eds I). lia.
      * destruct S1 as (I & H). split; [exists k, ds; auto|].
        intros (_ & V & _). specialize (V _ _ _ Eds I). lia.
Qed.

Lemma check_reach_spec rev : forall cnt node, node + cnt <= length rev ->
  match check_reach rev node cnt with
  | Some None => forall v, node <= v < node + cnt -> rd rev v <> Some []
  | Some (Some (EUnreachable v)) => node <= v < node + cnt /\ rd rev v = Some []
  | _ => False
  end.
Proof.
  induction cnt as [|c IH]; intros node H; cbn [check_reach].
  - intros v Hv. lia.
  - destruct (rd_lt rev node) as [r E]; [lia|]. rewrite E. cbn [bind]. destruct r as [|x r].
    + split; [lia|exact E].
    + specialize (IH (S node) ltac:(lia)). destruct (check_reach rev (S node) c) as [[[| | |v]|]|]; try contradiction.
      * destruct IH as [A B]. split; [lia|exact B].
      * intros v Hv. destruct (Nat.eq_dec v node) as [->|N]; [rewrite E; discriminate|]. apply IH. lia.
Qed.

Lemma preds_In deps v u : In u (preds deps v (length deps)) <-> exists ds, rd deps u = Some ds /\ In (Z.of_nat v) ds.
Proof.
  unfold preds. rewrite in_flat_map. split.
  - intros (w & Hw & I). apply repeat_spec in I as E. subst w. apply in_seq in Hw.
    destruct (rd_lt deps u) as [ds E]; [lia|]. exists ds. split; [exact E|].
    rewrite (nth_error_nth deps u [] E) in I. destruct (count_occ Z.eq_dec ds (Z.of_nat v)) eqn:C; [destruct I|].
    apply (count_occ_In Z.eq_dec). lia.
  - intros (ds & E & I). exists u. split; [apply in_seq; apply rd_Some_lt in E; lia|].
    rewrite (nth_error_nth deps u [] E). apply (count_occ_In Z.eq_dec) in I.
    destruct (count_occ Z.eq_dec ds (Z.of_nat v)) eqn:C; [lia|]. left. reflexivity.
Qed.

(** All that is known about an accepted graph. *)
Record okg (g : cfg) : Prop := mkOk {
  ok_pos : 0 < length (g_deps g);
  ok_len : length (g_rev g) = length (g_deps g);
  ok_edge : forall u v, edge (g_deps g) u v -> u < v < length (g_deps g);
  ok_rev : forall v, v < length (g_deps g) -> exists r, rd (g_rev g) v = Some r /\ (forall u, In u r <-> edge (g_deps g) u v) /\ (0 < v -> r <> []);
}.

Lemma edge_map (deps : list (list Z)) u v :
  (forall u ds, rd deps u = Some ds -> good (length deps) u ds) ->
  edge (map (map Z.to_nat) deps) u v <-> exists ds, rd deps u = Some ds /\ In (Z.of_nat v) ds.
Proof.
  intros G. unfold edge, rd. rewrite nth_error_map. split.
  - intros (ds & E & I). destruct (nth_error deps u) as [d|] eqn:Ed; [|discriminate].
    simpl in E. injection E as <-. exists d. split; [reflexivity|]. apply in_map_iff in I as (z & <- & Iz).
    pose proof (G u d Ed z Iz). rewrite Z2Nat.id by lia. exact Iz.
  - intros (ds & E & I). rewrite E. simpl. eexists. split; [reflexivity|]. apply in_map_iff. exists (Z.of_nat v).
    split; [lia|exact I].
Qed.

Lemma count_map n u ds v : good n u ds ->
  count_occ Nat.eq_dec (map Z.to_nat ds) v = count_occ Z.eq_dec ds (Z.of_nat v).
Proof.
  induction ds as [|d t IH]; intros G; [reflexivity|]. cbn [map count_occ].
  pose proof (G d (or_introl eq_refl)). rewrite IH by (intros z Hz; apply G; right; exact Hz).
  destruct (Nat.eq_dec (Z.to_nat d) v), (Z.eq_dec d (Z.of_nat v)); try lia; reflexivity.
Qed.
Lemma preds_eq deps v : (forall u ds, rd deps u = Some ds -> good (length deps) u ds) ->
  preds deps v (length deps) = predecessors (map (map Z.to_nat) deps) v.
Proof.
  intros G. unfold preds, predecessors. rewrite map_length. apply fm_ext. intros u Hu. f_equal.
  apply in_seq in Hu. destruct (rd_lt deps u) as [ds E]; [lia|].
  rewrite (nth_error_nth deps u [] E). rewrite (nth_error_nth (map (map Z.to_nat) deps) u [] (x := map Z.to_nat ds)).
  - symmetry. apply (count_map _ _ _ _ (G u ds E)).
  - rewrite nth_error_map. unfold rd in E. rewrite E. reflexivity.
Qed.

Lemma create_cons d0 t : let deps := d0 :: t in
  create deps = let? r := add_all (length deps) (repeat [] (length deps)) 0 deps in
      match r with
      | inr e => Some (inr e)
      | inl rev => let? c := check_reach rev 1 (length t) in
                   match c with
                   | Some e => Some (inr e)
                   | None => Some (inl (mkG (map (map Z.to_nat) deps) rev))
                   end
      end.
Proof. reflexivity. Qed.
Lemma create_spec deps :
  match create deps with
  | Some (inl g) => valid deps /\ g_deps g = map (map Z.to_nat) deps /\ okg g /\
      length (g_rev g) = length deps /\ (forall v, v < length deps -> rd (g_rev g) v = Some (predecessors (g_deps g) v))
  | Some (inr e) => describes deps e /\ ~ valid deps
  | None => False
  end.
Proof.
  destruct deps as [|d0 t] eqn:Ed; [split; [reflexivity|intros (H & _); contradiction]|].
  rewrite create_cons. cbv zeta. rewrite <- Ed.
  pose proof (add_all_spec deps 0 (repeat [] (length deps)) ltac:(lia)) as A. rewrite repeat_length in A.
  specialize (A eq_refl). simpl skipn in A.
  assert (forall v, v < length deps -> rd (repeat (@nil nat) (length deps)) v = Some (preds deps v 0)) as H0.
  { intros v Hv. unfold preds. simpl. unfold rd. apply nth_error_repeat. exact Hv. }
  specialize (A H0 ltac:(intros; lia)).
  destruct (add_all (length deps) (repeat [] (length deps)) 0 deps) as [[rev|e]|]; cbn [bind]; [|exact A|exact A].
  destruct A as (G & L & R).
  assert (length deps = S (length t)) as Ln by (subst; reflexivity).
  pose proof (check_reach_spec rev (length t) 1 ltac:(lia)) as C.
  destruct (check_reach rev 1 (length t)) as [[[| | |v]|]|]; try contradiction; cbn [bind].
  - destruct C as (Hv & Er). rewrite R in Er by lia.
    assert (forall u ds, rd deps u = Some ds -> ~ In (Z.of_nat v) ds) as N.
    { intros u ds E I. assert (In u (preds deps v (length deps))) as J by (apply preds_In; eauto).
      injection Er as Er. rewrite Er in J. destruct J. }
    split; [split; [lia|exact N]|]. intros (_ & _ & V). destruct (V v ltac:(lia)) as (u & ds & E & I). exact (N u ds E I).
  - assert (forall v, 0 < v < length deps -> exists u ds, rd deps u = Some ds /\ In (Z.of_nat v) ds) as V.
    { intros v Hv. destruct (preds deps v (length deps)) as [|u r] eqn:E.
      - exfalso. apply (C v); [lia|]. rewrite R by lia. congruence.
      - assert (In u (preds deps v (length deps))) as J by (rewrite E; left; reflexivity).
        apply preds_In in J as (ds & J). eauto. }
    split.
    { split; [subst; discriminate|]. split; [|exact V]. intros u ds z E I. exact (G u ds E z I). }
    split; [reflexivity|]. split; [|split; [exact L|]].
    + constructor; cbn [g_deps g_rev]; rewrite ?map_length.
      * lia.
      * exact L.
      * intros u v H. apply (edge_map deps u v G) in H as (ds & E & I). specialize (G u ds E _ I). lia.
      * intros v Hv. exists (preds deps v (length deps)). split; [apply R; exact Hv|]. split.
        { intros u. rewrite preds_In. symmetry. apply edge_map. exact G. }
        { intros H0v E. apply (C v); [lia|]. rewrite R by lia. congruence. }
    + cbn [g_deps g_rev]. intros v Hv. rewrite R by exact Hv. f_equal. apply preds_eq. exact G.
Qed.

(** ** Ancestors in a tree of parents *)
Inductive anc (f : nat -> nat) (a : nat) : nat -> Prop :=
  | anc_refl : anc f a a
  | anc_up v : v <> 0 -> anc f a (f v) -> anc f a v.

Section Anc.
Variables (f d : nat -> nat) (k : nat).
Hypothesis F : forall i, 0 < i < k -> f i < i.
Hypothesis D0 : d 0 = 0.
Hypothesis D : forall i, 0 < i < k -> d i = d (f i) + 1.

Lemma anc_le a v : v < k -> anc f a v -> a <= v.
Proof using F. clear d D0 D. intros Hv H. induction H as [|v N H IH]; [lia|]. specialize (F v). specialize (IH ltac:(lia)). lia. Qed.
Lemma anc_depth a v : v < k -> anc f a v -> d a <= d v /\ (d a = d v -> a = v).
Proof using F D. clear D0.
  intros Hv H. induction H as [|v N H IH]; [lia|]. pose proof (F v). pose proof (D v). specialize (IH ltac:(lia)). lia.
Qed.
Lemma anc_trans a b c : anc f a b -> anc f b c -> anc f a c.
Proof. intros H1 H2. induction H2; [exact H1|apply anc_up; auto]. Qed.
Lemma depth_le i : i < k -> d i <= i.
Proof using F D0 D.
  induction i as [i IH] using lt_wf_ind. intros H. destruct (Nat.eq_dec i 0) as [->|N]; [lia|].
  pose proof (F i). pose proof (D i). specialize (IH (f i)). lia.
Qed.
Lemma depth_0 i : i < k -> d i = 0 -> i = 0.
Proof using D. clear F D0. intros H E. destruct (Nat.eq_dec i 0); [assumption|]. pose proof (D i). lia. Qed.
Lemma anc_0 v : v < k -> anc f 0 v.
Proof using F. clear d D0 D.
  induction v as [v IH] using lt_wf_ind. intros H. destruct (Nat.eq_dec v 0) as [->|N]; [constructor|].
  apply anc_up; [exact N|]. apply IH; pose proof (F v); lia.
Qed.
(** Ancestors of one node form a chain. *)
Lemma anc_chain a b v : v < k -> anc f a v -> anc f b v -> d a <= d b -> anc f a b.
Proof using F D. clear D0.
  intros Hv Ha Hb L. induction Hb as [|v N Hb IH]; [exact Ha|].
  pose proof (F v). inversion Ha as [E|w N' Ha' E]; subst.
  - assert (d b <= d (f v)) by (apply anc_depth; [lia|assumption]). pose proof (D v). lia.
  - apply IH; [lia|exact Ha'].
Qed.
End Anc.

Lemma anc_ext f g k a v : (forall i, 0 < i < k -> f i = g i) -> (forall i, 0 < i < k -> f i < i) -> v < k ->
  anc f a v -> anc g a v.
Proof.
  intros E F Hv H. induction H as [|v N H IH]; [constructor|]. apply anc_up; [exact N|].
  rewrite <- E by lia. apply IH. pose proof (F v). lia.
Qed.

(** ** Lca *)
Definition pf (ts : list info) (i : nat) : nat := match rd ts i with Some x => i_par x | None => 0 end.
Definition df (ts : list info) (i : nat) : nat := match rd ts i with Some x => i_dep x | None => 0 end.
Section Lca.
Variables (ts : list info) (k : nat).
Hypothesis K : k <= length ts.
Hypothesis F : forall i, 0 < i < k -> pf ts i < i.
Hypothesis D0 : df ts 0 = 0.
Hypothesis D : forall i, 0 < i < k -> df ts i = df ts (pf ts i) + 1.

Lemma rd_info i : i < k -> exists x, rd ts i = Some x /\ i_par x = pf ts i /\ i_dep x = df ts i.
Proof.
  intros H. destruct (rd_lt ts i) as [x E]; [lia|]. exists x. unfold pf, df. rewrite E. auto.
Qed.

Lemma climb_spec m : forall fuel a, a < k -> m <= df ts a -> df ts a - m <= fuel ->
  exists c, climb fuel ts a m = Some c /\ c < k /\ df ts c = m /\
    forall x, anc (pf ts) x c <-> anc (pf ts) x a /\ df ts x <= m.
Proof.
  induction fuel as [|fuel IH]; intros a Ha Hm Hf.
  - destruct (rd_info a Ha) as (ia & E & E1 & E2). cbn [climb]. rewrite E. cbn [bind]. rewrite E2.
    destruct (Nat.ltb_spec m (df ts a)); [lia|]. exists a. split; [reflexivity|]. split; [exact Ha|]. split; [lia|].
    intros x. split; [|tauto]. intros H1. split; [exact H1|]. apply (anc_depth _ _ k F D) in H1; lia.
  - destruct (rd_info a Ha) as (ia & E & E1 & E2). cbn [climb]. rewrite E. cbn [bind]. rewrite E2.
    destruct (Nat.ltb_spec m (df ts a)) as [H|H].
    + assert (0 < a) as Pa. { destruct (Nat.eq_dec a 0) as [->|]; [|lia]. rewrite D0 in H. lia. }
      pose proof (F a) as Fa. pose proof (D a) as Da. rewrite E1.
      destruct (IH (pf ts a)) as (c & E3 & Hc & Dc & Hx); [lia|lia|lia|].
      exists c. split; [exact E3|]. split; [exact Hc|]. split; [exact Dc|].
      intros x. rewrite Hx. split; intros [A B]; (split; [|exact B]).
      * apply anc_up; [lia|exact A].
      * inversion A; [subst; lia|assumption].
    + exists a. split; [reflexivity|]. split; [exact Ha|]. split; [lia|].
      intros x. split; [|tauto]. intros H1. split; [exact H1|]. apply (anc_depth _ _ k F D) in H1; lia.
Qed.

Lemma meet_spec : forall fuel a b, a < k -> b < k -> df ts a = df ts b -> df ts a <= fuel ->
  exists c, meet fuel ts a b = Some c /\ c < k /\ forall x, anc (pf ts) x c <-> anc (pf ts) x a /\ anc (pf ts) x b.
Proof.
  induction fuel as [|fuel IH]; intros a b Ha Hb E Hf; cbn [meet]; (destruct (Nat.eqb_spec a b) as [->|N];
    [exists b; split; [reflexivity|]; split; [exact Hb|]; tauto|]).
  - exfalso. apply N. rewrite (depth_0 (pf ts) _ k D a), (depth_0 (pf ts) _ k D b); lia.
  - destruct (rd_info a Ha) as (ia & Ea & Ea1 & Ea2), (rd_info b Hb) as (ib & Eb & Eb1 & Eb2).
    rewrite Ea. cbn [bind]. rewrite Eb. cbn [bind]. rewrite Ea1, Eb1.
    assert (0 < a /\ 0 < b) as [Pa Pb].
    { split.
      - destruct (Nat.eq_dec a 0) as [->|]; [|lia]. rewrite D0 in E. symmetry in E. apply (depth_0 (pf ts) _ k D) in E; lia.
      - destruct (Nat.eq_dec b 0) as [->|]; [|lia]. rewrite D0 in E. apply (depth_0 (pf ts) _ k D) in E; lia. }
    pose proof (F a). pose proof (F b). pose proof (D a). pose proof (D b).
    destruct (IH (pf ts a) (pf ts b)) as (c & E3 & Hc & Hx); [lia|lia|lia|lia|].
    exists c. split; [exact E3|]. split; [exact Hc|]. intros x. rewrite Hx. split; intros [A B].
    + split; (apply anc_up; [lia|assumption]).
    + split.
      * inversion A; [subst|assumption]. apply (anc_depth _ _ k F D) in B as [_ B]; [|exact Hb]. exfalso. apply N, B. lia.
      * inversion B; [subst|assumption]. apply (anc_depth _ _ k F D) in A as [_ A]; [|exact Ha]. exfalso. apply N. symmetry. apply A. lia.
Qed.

Lemma lca_spec a b : a < k -> b < k ->
  exists c, lca ts a b = Some c /\ c < k /\ forall x, anc (pf ts) x c <-> anc (pf ts) x a /\ anc (pf ts) x b.
Proof.
  intros Ha Hb. unfold lca. destruct (rd_info a Ha) as (ia & Ea & Ea1 & Ea2), (rd_info b Hb) as (ib & Eb & Eb1 & Eb2).
  rewrite Ea. cbn [bind]. rewrite Eb. cbn [bind]. rewrite Ea2, Eb2.
  pose proof (depth_le _ _ k F D0 D a Ha). pose proof (depth_le _ _ k F D0 D b Hb).
  destruct (Nat.ltb_spec (df ts a) (df ts b)) as [L|L].
  - destruct (climb_spec (df ts a) (length ts) b Hb) as (c & E & Hc & Dc & Hx); [lia|lia|]. rewrite E. cbn [bind].
    destruct (meet_spec (length ts) c a Hc Ha) as (e & E' & He & Hy); [lia|lia|].
    exists e. split; [exact E'|]. split; [exact He|]. intros x. rewrite Hy, Hx. split; [tauto|].
    intros [A B]. split; [|exact A]. split; [exact B|]. apply (anc_depth _ _ k F D) in A; lia.
  - destruct (climb_spec (df ts b) (length ts) a Ha) as (c & E & Hc & Dc & Hx); [lia|lia|]. rewrite E. cbn [bind].
    destruct (meet_spec (length ts) c b Hc Hb) as (e & E' & He & Hy); [lia|lia|].
    exists e. split; [exact E'|]. split; [exact He|]. intros x. rewrite Hy, Hx. split; [tauto|].
    intros [A B]. split; [|exact B]. split; [exact A|]. apply (anc_depth _ _ k F D) in B; lia.
Qed.

Lemma lca_from_spec l : forall r, r < k -> (forall x, In x l -> x < k) ->
  exists c, lca_from ts r l = Some c /\ c < k /\
    forall x, anc (pf ts) x c <-> anc (pf ts) x r /\ forall y, In y l -> anc (pf ts) x y.
Proof.
  induction l as [|a t IH]; intros r Hr Hl; cbn [lca_from].
  - exists r. split; [reflexivity|]. split; [exact Hr|]. intros x. simpl. tauto.
  - destruct (lca_spec r a Hr (Hl a (or_introl eq_refl))) as (c & E & Hc & Hx). rewrite E. cbn [bind].
    destruct (IH c Hc (fun x Hx => Hl x (or_intror Hx))) as (e & E' & He & Hy).
    exists e. split; [exact E'|]. split; [exact He|]. intros x. rewrite Hy, Hx. simpl. split.
    + intros [[A B] C]. split; [exact A|]. intros y [<-|I]; [exact B|apply C; exact I].
    + intros [A B]. split; [split; [exact A|apply B; left; reflexivity]|]. intros y I. apply B. right. exact I.
Qed.
Lemma lca_all_spec l : l <> [] -> (forall x, In x l -> x < k) ->
  exists c, lca_all ts l = Some c /\ c < k /\ forall x, anc (pf ts) x c <-> forall y, In y l -> anc (pf ts) x y.
Proof.
  destruct l as [|r t]; [congruence|]. intros _ Hl. unfold lca_all. cbn [rd nth_error bind].
  destruct (lca_from_spec (r :: t) r) as (c & E & Hc & Hx); [apply Hl; left; reflexivity|exact Hl|].
  exists c. split; [exact E|]. split; [exact Hc|]. intros x. rewrite Hx. split; [tauto|].
  intros H. split; [apply H; left; reflexivity|exact H].
Qed.
End Lca.

(** ** DominatorTree *)
(** The tree after the nodes below [k] were processed. *)
Record tinv (g : cfg) (k : nat) (ts : list info) : Prop := mkTi {
  ti_len : length ts = length (g_deps g);
  ti_k : 0 < k <= length (g_deps g);
  ti_par : forall i, 0 < i < k -> pf ts i < i;
  ti_par0 : pf ts 0 = 0;
  ti_dep0 : df ts 0 = 0;
  ti_dep : forall i, 0 < i < k -> df ts i = df ts (pf ts i) + 1;
  ti_lca : forall i, 0 < i < k -> forall x, anc (pf ts) x (pf ts i) <-> forall u, edge (g_deps g) u i -> anc (pf ts) x u;
  ti_ch : forall i, i < length (g_deps g) -> exists x, rd ts i = Some x /\
     i_ch x = filter (fun v => pf ts v =? i) (seq 1 (k - 1));
}.

Lemma tree_step_ok g k ts : okg g -> tinv g k ts -> k < length (g_deps g) ->
  exists ts', tree_step g ts k = Some ts' /\ tinv g (S k) ts'.
Proof.
  intros O [L K F P0 D0 D LC CH] Hk. unfold tree_step.
  destruct (ok_rev g O k Hk) as (r & Er & Ir & Nr). rewrite Er. cbn [bind].
  destruct (lca_all_spec ts k ltac:(lia) F D0 D r (Nr ltac:(lia))) as (p & Ep & Hp & Ap).
  { intros x Hx. apply Ir, (ok_edge g O) in Hx. lia. }
  rewrite Ep. cbn [bind].
  destruct (CH p ltac:(lia)) as (ip & Eip & Cip). rewrite Eip. cbn [bind].
  destruct (CH k Hk) as (ik & Eik & Cik). rewrite Eik. cbn [bind].
  destruct (upd_lt ts k (mkI p (i_dep ip + 1) (i_ch ik))) as [t1 E1]; [lia|]. rewrite E1. cbn [bind].
  destruct (upd_spec _ _ _ _ E1) as (_ & L1 & R1).
  assert (rd t1 p = Some ip) as E2. { rewrite R1. destruct (Nat.eqb_spec p k); [lia|exact Eip]. }
  rewrite E2. cbn [bind].
  destruct (upd_lt t1 p (mkI (i_par ip) (i_dep ip) (i_ch ip ++ [k]))) as [t2 E3]; [lia|].
  exists t2. split; [exact E3|]. destruct (upd_spec _ _ _ _ E3) as (_ & L2 & R2).
  assert (forall i, pf t2 i = if i =? k then p else pf ts i) as PF.
  { intros i. unfold pf. rewrite R2, R1. destruct (Nat.eqb_spec i p) as [->|N].
    - destruct (Nat.eqb_spec p k); [lia|]. rewrite Eip. reflexivity.
    - destruct (Nat.eqb_spec i k); reflexivity. }
  assert (forall i, df t2 i = if i =? k then df ts p + 1 else df ts i) as DF.
  { intros i. unfold df. rewrite R2, R1. destruct (Nat.eqb_spec i p) as [->|N].
    - destruct (Nat.eqb_spec p k); [lia|]. rewrite Eip. reflexivity.
    - destruct (Nat.eqb_spec i k) as [->|]; [cbn; rewrite Eip|]; reflexivity. }
  assert (forall x v, v < k -> anc (pf t2) x v <-> anc (pf ts) x v) as AN.
  { intros x v Hv. split; intros A.
    - apply (anc_ext (pf t2) (pf ts) k); [| |exact Hv|exact A].
      + intros i Hi. rewrite PF. destruct (Nat.eqb_spec i k); [lia|reflexivity].
      + intros i Hi. rewrite PF. destruct (Nat.eqb_spec i k); [lia|apply F; exact Hi].
    - apply (anc_ext (pf ts) (pf t2) k); [| |exact Hv|exact A].
      + intros i Hi. rewrite PF. destruct (Nat.eqb_spec i k); [lia|reflexivity].
      + exact F. }
  assert (F' : forall i, 0 < i < S k -> pf t2 i < i).
  { intros i Hi. rewrite PF. destruct (Nat.eqb_spec i k) as [->|]; [lia|apply F; lia]. }
  constructor.
  - lia.
  - lia.
  - exact F'.
  - rewrite PF. destruct (Nat.eqb_spec 0 k); [lia|exact P0].
  - rewrite DF. destruct (Nat.eqb_spec 0 k); [lia|exact D0].
  - intros i Hi. rewrite !DF, PF. destruct (Nat.eqb_spec i k) as [->|N].
    + destruct (Nat.eqb_spec p k); [lia|reflexivity].
    + pose proof (F i ltac:(lia)). destruct (Nat.eqb_spec (pf ts i) k); [lia|]. apply D. lia.
  - intros i Hi x. rewrite AN by (pose proof (F' i Hi); lia). rewrite PF. destruct (Nat.eqb_spec i k) as [->|N].
    + rewrite Ap. split; intros H u Hu.
      * apply AN; [apply (ok_edge g O) in Hu; lia|]. apply H, Ir, Hu.
      * apply Ir in Hu. apply AN; [apply (ok_edge g O) in Hu; lia|]. apply H, Hu.
    + rewrite LC by lia. split; intros H u Hu; apply AN; auto; apply (ok_edge g O) in Hu; lia.
  - intros i Hi. replace (S k - 1) with (S (k - 1)) by lia. rewrite seq_S, filter_app.
    replace (1 + (k - 1)) with k by lia. cbn [filter].
    assert (filter (fun v => pf t2 v =? i) (seq 1 (k - 1)) = filter (fun v => pf ts v =? i) (seq 1 (k - 1))) as ->.
    { apply filter_ext_in. intros v Hv. apply in_seq in Hv. rewrite PF. destruct (Nat.eqb_spec v k); [lia|reflexivity]. }
    rewrite PF, Nat.eqb_refl. rewrite R2, R1. destruct (Nat.eqb_spec i p) as [->|N].
    + eexists. split; [reflexivity|]. cbn [i_ch]. rewrite Nat.eqb_refl, Cip. reflexivity.
    + destruct (Nat.eqb_spec p i); [lia|]. rewrite app_nil_r. destruct (Nat.eqb_spec i k) as [->|N'].
      * eexists. split; [reflexivity|]. exact Cik.
      * apply CH. exact Hi.
Qed.

Lemma tree_loop_ok g : okg g -> forall cnt k ts, tinv g k ts -> k + cnt = length (g_deps g) ->
  exists ts', tree_loop g ts k cnt = Some ts' /\ tinv g (length (g_deps g)) ts'.
Proof.
  intros O. induction cnt as [|c IH]; intros k ts I E; cbn [tree_loop].
  - exists ts. split; [reflexivity|]. replace (length (g_deps g)) with k by lia. exact I.
  - destruct (tree_step_ok g k ts O I) as (t1 & E1 & I1); [lia|]. rewrite E1. cbn [bind]. apply IH; [exact I1|lia].
Qed.
Lemma tree_ok g : okg g -> exists ts, tree g = Some ts /\ tinv g (length (g_deps g)) ts.
Proof.
  intros O. pose proof (ok_pos g O) as P. unfold tree. set (n := length (g_deps g)) in *.
  destruct (upd_lt (repeat (mkI 0 0 []) n) 0 (mkI 0 0 [])) as [ts E]; [rewrite repeat_length; exact P|].
  rewrite E. cbn [bind]. destruct (upd_spec _ _ _ _ E) as (_ & L & R). rewrite repeat_length in L.
  assert (forall i, i < n -> rd ts i = Some (mkI 0 0 [])) as A.
  { intros i Hi. rewrite R. destruct (i =? 0); [reflexivity|]. apply nth_error_repeat. exact Hi. }
  apply tree_loop_ok; [exact O| |unfold n in *; lia].
  constructor; fold n; try (intros; lia).
  - unfold pf. rewrite A by exact P. reflexivity.
  - unfold df. rewrite A by exact P. reflexivity.
  - intros i Hi. rewrite A by exact Hi. eexists. split; reflexivity.
Qed.

(** ** Dominance *)
Section Dom.
Variables (g : cfg) (ts : list info).
Hypothesis O : okg g.
Hypothesis T : tinv g (length (g_deps g)) ts.
Let n := length (g_deps g).
Let G := g_deps g.

Lemma path_lt u p v : path G u p v -> u <= v < n.
Proof.
  intros H. induction H as [H|p v w H IH E]; [unfold n, G in *; lia|]. apply (ok_edge g O) in E. fold n in E. lia.
Qed.
Lemma has_pred v : 0 < v < n -> exists u, edge G u v.
Proof.
  intros H. destruct (ok_rev g O v) as (r & _ & I & N); [apply H|].
  destruct r as [|u r]; [exfalso; apply N; [lia|reflexivity]|]. exists u. apply I. left. reflexivity.
Qed.
Lemma path_from_0 v : v < n -> exists p, path G 0 p v.
Proof.
  induction v as [v IH] using lt_wf_ind. intros H. destruct (Nat.eq_dec v 0) as [->|N].
  - exists [0]. constructor. exact H.
  - destruct (has_pred v) as [u E]; [lia|]. pose proof (ok_edge g O u v E). fold n in H0.
    destruct (IH u) as [p Hp]; [lia|lia|]. exists (p ++ [v]). econstructor; eassumption.
Qed.
Lemma path_end u p v : path G u p v -> In v p.
Proof. intros H. destruct H; [left; reflexivity|]. apply in_or_app. right. left. reflexivity. Qed.

Lemma dom_pred d v : 0 < v < n -> dominates G d v <-> d = v \/ forall u, edge G u v -> dominates G d u.
Proof.
  intros Hv. split.
  - intros [_ H]. destruct (Nat.eq_dec d v) as [E|N]; [left; exact E|]. right.
    intros u E. split; [apply (ok_edge g O) in E; unfold n, G in *; lia|]. intros p Hp.
    specialize (H (p ++ [v]) (path_snoc G 0 p u v Hp E)). apply in_app_or in H as [H|[H|[]]]; [exact H|congruence].
  - intros [->|H].
    + split; [apply Hv|]. intros p Hp. apply path_end with 0. exact Hp.
    + split; [apply Hv|]. intros p Hp. destruct Hp as [|p u v Hp E]; [lia|].
      apply in_or_app. left. apply (H u E). exact Hp.
Qed.

Lemma dom_anc v : v < n -> forall d, dominates G d v <-> anc (pf ts) d v.
Proof.
  destruct T as [L K F P0 D0 D LC CH].
  induction v as [v IH] using lt_wf_ind. intros Hv d. destruct (Nat.eq_dec v 0) as [->|N].
  - split.
    + intros [_ H]. specialize (H [0] (path_one G 0 Hv)). destruct H as [<-|[]]. constructor.
    + intros A. inversion A; [|lia]. split; [exact Hv|]. intros p Hp. apply path_end with 0. exact Hp.
  - rewrite dom_pred by lia.
    assert ((forall u, edge G u v -> dominates G d u) <-> anc (pf ts) d (pf ts v)) as ->.
    { rewrite LC by (unfold n in *; lia). split; intros H u E; pose proof (ok_edge g O u v E) as Lu.
      - apply IH; [lia|unfold n; lia|]. apply H, E.
      - apply IH; [lia|unfold n; lia|]. apply H, E. }
    split.
    + intros [->|A]; [constructor|apply anc_up; [exact N|exact A]].
    + intros A. inversion A; [left; reflexivity|right; assumption].
Qed.

Lemma sdom_anc v : v < n -> forall d, strictly_dominates G d v <-> 0 < v /\ anc (pf ts) d (pf ts v).
Proof.
  destruct T as [L K F P0 D0 D LC CH].
  intros Hv d. unfold strictly_dominates. rewrite dom_anc by exact Hv. split.
  - intros [A N]. inversion A; [congruence|]. split; [lia|assumption].
  - intros [P A]. split; [apply anc_up; [lia|exact A]|]. intros ->.
    apply (anc_le _ n F) in A; [pose proof (F v); unfold n in *; lia|pose proof (F v); unfold n in *; lia].
Qed.

Lemma idom_iff v d : 0 < v < n -> immediate_dominator G d v <-> d = pf ts v.
Proof.
  intros Hv. pose proof (ti_par _ _ _ T v Hv) as Fv. split.
  - intros [S1 S2]. apply sdom_anc in S1 as [_ A]; [|lia].
    assert (strictly_dominates G (pf ts v) v) as S3 by (apply sdom_anc; [lia|split; [lia|constructor]]).
    specialize (S2 _ S3). assert (d < n).
    { apply (anc_le _ n (ti_par _ _ _ T)) in A; lia. }
    apply dom_anc in S2; [|assumption].
    apply (anc_le _ n (ti_par _ _ _ T)) in A; [|lia]. apply (anc_le _ n (ti_par _ _ _ T)) in S2; lia.
  - intros ->. split.
    + apply sdom_anc; [lia|]. split; [lia|constructor].
    + intros x S. apply sdom_anc in S as [_ A]; [|lia]. apply dom_anc; [lia|exact A].
Qed.

Lemma depth_count v : v < n -> exists l, NoDup l /\ length l = df ts v /\ forall d, In d l <-> strictly_dominates G d v.
Proof.
  induction v as [v IH] using lt_wf_ind. intros Hv. destruct (Nat.eq_dec v 0) as [->|N].
  - exists []. rewrite (ti_dep0 _ _ _ T). split; [constructor|]. split; [reflexivity|].
    intros d. rewrite sdom_anc by exact Hv. split; [intros []|lia].
  - pose proof (ti_par _ _ _ T v ltac:(fold n; lia)) as Fv. destruct (IH (pf ts v)) as (l & ND & Ll & Hl); [lia|lia|].
    exists (pf ts v :: l). split; [|split].
    + constructor; [|exact ND]. rewrite Hl. intros [_ H]. congruence.
    + simpl. rewrite Ll, (ti_dep _ _ _ T v) by (fold n; lia). lia.
    + intros d. rewrite sdom_anc by exact Hv. simpl. rewrite Hl. unfold strictly_dominates. rewrite dom_anc by lia.
      split.
      * intros [<-|[A _]]; (split; [lia|]); [constructor|exact A].
      * intros [_ A]. destruct (Nat.eq_dec (pf ts v) d) as [E|NE]; [left; exact E|right; split; [exact A|congruence]].
Qed.

Lemma incr_filter f : forall m a, increasing (filter f (seq a m)) /\ match filter f (seq a m) with [] => True | x :: _ => a <= x end.
Proof.
  induction m as [|m IH]; intros a; [simpl; auto|]. cbn [seq filter]. destruct (IH (S a)) as [I1 I2].
  destruct (f a).
  - split; [|lia]. cbn [increasing]. destruct (filter f (seq (S a) m)) as [|y r]; [auto|]. split; [lia|exact I1].
  - split; [exact I1|]. destruct (filter f (seq (S a) m)); [auto|lia].
Qed.

Lemma tree_facts u : u < n -> exists x, rd ts u = Some x /\
  i_par x = pf ts u /\ i_dep x = df ts u /\ increasing (i_ch x) /\
  forall v, In v (i_ch x) <-> 0 < v < n /\ immediate_dominator G u v.
Proof.
  intros Hu. destruct (ti_ch _ _ _ T u Hu) as (x & E & C). exists x. split; [exact E|].
  unfold pf at 1, df. rewrite E. split; [reflexivity|]. split; [reflexivity|]. rewrite C. split.
  - apply incr_filter.
  - intros v. rewrite filter_In, in_seq. fold n. split.
    + intros [H1 H2]. apply Nat.eqb_eq in H2. split; [lia|]. apply idom_iff; [lia|congruence].
    + intros [H1 H2]. apply idom_iff in H2; [|exact H1]. split; [lia|]. apply Nat.eqb_eq. congruence.
Qed.

(** ** Frontier *)
Lemma path_app u p v q w : path G u p v -> path G v q w -> exists r, path G u r w.
Proof.
  intros H1 H2. revert p u H1. induction H2 as [H|q v' w H IH E]; intros p u H1; [exists p; exact H1|].
  destruct (IH p u H1) as [r Hr]. exists (r ++ [w]). econstructor; eassumption.
Qed.
Lemma dom_reach d v : v < n -> dominates G d v -> reachable G d v.
Proof.
  intros Hv [_ H]. destruct (path_from_0 v Hv) as [p Hp]. specialize (H p Hp). clear Hv.
  induction Hp as [H0|p v w Hp IH E].
  - destruct H as [<-|[]]. exists [0]. constructor. exact H0.
  - apply in_app_or in H as [H|[<-|[]]].
    + destruct (IH H) as [q Hq]. exists (q ++ [w]). econstructor; eassumption.
    + exists [w]. constructor. apply (ok_edge g O) in E. apply E.
Qed.

(** What the number computed for [d] says. *)
Definition low (d m : nat) : Prop :=
  (forall u v, reachable G d u -> edge G u v -> m <= df ts (pf ts v)) /\ m <= df ts d /\
  (m = df ts d \/ exists u v, reachable G d u /\ edge G u v /\ m = df ts (pf ts v)).

Lemma reach_first d v : reachable G d v -> d = v \/ exists e, edge G d e /\ reachable G e v.
Proof.
  intros [p H]. induction H as [H|p v w H IH E]; [left; reflexivity|]. right.
  destruct IH as [<-|(e & E1 & [q Hq])].
  - exists w. split; [exact E|]. exists [w]. constructor. apply (ok_edge g O) in E. apply E.
  - exists e. split; [exact E1|]. exists (q ++ [w]). econstructor; eassumption.
Qed.
Lemma reach_cons d e v : edge G d e -> reachable G e v -> reachable G d v.
Proof.
  intros E [q Hq]. pose proof (ok_edge g O d e E). eapply (path_app d ([d] ++ [e]) e q v); [|exact Hq].
  econstructor; [constructor; unfold G; lia|exact E].
Qed.

(** The minimum over the dependencies that were visited. *)
Lemma min_deps_ok ms d m0 : forall ds m,
  length ms = n ->
  (forall v, d < v < n -> exists x, rd ms v = Some x /\ low v x) ->
  (forall v, In v ds -> edge G d v) ->
  m <= m0 -> (m = m0 \/ exists u v, reachable G d u /\ edge G u v /\ m = df ts (pf ts v)) ->
  exists m', min_deps ts ms m ds = Some m' /\ m' <= m /\
    (m' = m0 \/ exists u v, reachable G d u /\ edge G u v /\ m' = df ts (pf ts v)) /\
    forall e, In e ds -> m' <= df ts (pf ts e) /\ forall u v, reachable G e u -> edge G u v -> m' <= df ts (pf ts v).
Proof.
  destruct T as [L K F P0 D0 D LC CH].
  induction ds as [|e t IH]; intros m Lm M E Hm W; cbn [min_deps].
  - exists m. split; [reflexivity|]. split; [lia|]. split; [exact W|]. intros e [].
  - assert (edge G d e) as Ee by (apply E; left; reflexivity). pose proof (ok_edge g O d e Ee) as Le. fold n in Le.
    destruct (M e ltac:(lia)) as (x & Ex & Lo). rewrite Ex. cbn [bind].
    destruct (CH e ltac:(fold n; lia)) as (i & Ei & _). rewrite Ei. cbn [bind].
    assert (i_dep i - 1 = df ts (pf ts e)) as ->.
    { pose proof (D e ltac:(fold n; lia)) as De. unfold df in De at 1. rewrite Ei in De. lia. }
    assert (reachable G d d) as Rd by (exists [d]; constructor; unfold n, G in *; lia).
    destruct Lo as (Lo1 & Lo2 & Lo3).
    pose proof (D e ltac:(fold n; lia)) as De.
    destruct (IH (Nat.min m (Nat.min x (df ts (pf ts e))))) as (m' & E' & Hm' & W' & A').
    + exact Lm.
    + exact M.
    + intros v Hv. apply E. right. exact Hv.
    + lia.
    + destruct (Nat.min_spec m (Nat.min x (df ts (pf ts e)))) as [[H1 ->]|[H1 ->]]; [exact W|]. right.
      destruct (Nat.min_spec x (df ts (pf ts e))) as [[H2 ->]|[H2 ->]].
      * destruct Lo3 as [->|(u & v & R & Eu & ->)]; [lia|]. exists u, v. split; [|auto]. eapply reach_cons; eassumption.
      * exists d, e. auto.
    + exists m'. split; [exact E'|]. split; [lia|]. split; [exact W'|]. intros e' [<-|I].
      * split; [lia|]. intros u v R Eu. specialize (Lo1 u v R Eu). lia.
      * apply A'. exact I.
Qed.

Lemma frontier_loop_ok : forall cnt ms es, cnt <= n -> length ms = n -> length es = n ->
  (forall v, cnt <= v < n -> exists x, rd ms v = Some x /\ low v x /\ rd es v = Some (x =? df ts v)) ->
  exists es', frontier_loop g ts ms es cnt = Some es' /\ length es' = n /\
    forall v, v < n -> exists x, low v x /\ rd es' v = Some (x =? df ts v).
Proof.
  induction cnt as [|d IH]; intros ms es Hc Lm Le H; cbn [frontier_loop].
  - exists es. split; [reflexivity|]. split; [exact Le|]. intros v Hv. destruct (H v) as (x & _ & A & B); [lia|eauto].
  - destruct (ti_ch _ _ _ T d ltac:(fold n; lia)) as (i & Ei & _). rewrite Ei. cbn [bind].
    assert (i_dep i = df ts d) as Ed by (unfold df; rewrite Ei; reflexivity).
    destruct (rd_lt (g_deps g) d) as [ds Eds]; [fold n; lia|]. rewrite Eds. cbn [bind].
    destruct (min_deps_ok ms d (i_dep i) ds (i_dep i)) as (m & Em & Hm & W & A).
    + exact Lm.
    + intros v Hv. destruct (H v) as (x & B & C & _); [lia|eauto].
    + intros v Hv. exists ds. auto.
    + lia.
    + left. reflexivity.
    + rewrite Em. cbn [bind].
      destruct (upd_lt es d (m =? i_dep i)) as [es1 E1]; [lia|]. rewrite E1. cbn [bind].
      destruct (upd_lt ms d m) as [ms1 E2]; [lia|]. rewrite E2. cbn [bind].
      destruct (upd_spec _ _ _ _ E1) as (_ & L1 & R1), (upd_spec _ _ _ _ E2) as (_ & L2 & R2).
      apply IH; [lia|lia|lia|]. intros v Hv. destruct (Nat.eq_dec v d) as [->|N].
      * exists m. rewrite R1, R2, Nat.eqb_refl, Ed. split; [reflexivity|]. split; [|reflexivity]. split; [|split].
        { intros u v R Eu. apply reach_first in R as [<-|(e & Ee & Re)].
          - destruct Eu as (ds' & Eds' & I). assert (ds' = ds) as -> by (unfold G, rd in *; congruence). apply (A v I).
          - destruct Ee as (ds' & Eds' & I). assert (ds' = ds) as -> by (unfold G, rd in *; congruence).
            apply (A e I) with u; assumption. }
        { lia. }
        { rewrite Ed in W. exact W. }
      * destruct (H v) as (x & B & C & E); [lia|]. exists x. rewrite R1, R2. destruct (Nat.eqb_spec v d); [lia|]. auto.
Qed.

Lemma low_empty d m : d < n -> low d m ->
  (m = df ts d <-> forall v, reachable G d v -> dominates G d v).
Proof.
  intros Hd (Lo1 & Lo2 & Lo3). pose proof (ti_par _ _ _ T) as F. pose proof (ti_dep _ _ _ T) as D. fold n in F, D. split.
  - intros -> v [p Hp]. induction Hp as [H|p u v Hp IH E].
    + split; [exact H|]. intros p Hp. apply path_end with 0. exact Hp.
    + pose proof (ok_edge g O u v E) as Le. fold n in Le. apply dom_anc; [lia|].
      apply anc_up; [lia|]. apply dom_anc in IH; [|lia].
      assert (anc (pf ts) (pf ts v) u) as A.
      { apply (proj1 (ti_lca _ _ _ T v ltac:(fold n; lia) (pf ts v))); [constructor|exact E]. }
      apply (anc_chain _ (df ts) n F D d (pf ts v) u); [lia|exact IH|exact A|].
      apply (Lo1 u v); [exists p; exact Hp|exact E].
  - intros H. destruct Lo3 as [->|(u & v & R & E & ->)]; [reflexivity|].
    pose proof (ok_edge g O u v E) as Le. fold n in Le.
    assert (reachable G d v) as Rv. { destruct R as [p Hp]. exists (p ++ [v]). econstructor; eassumption. }
    assert (strictly_dominates G d v) as S.
    { split; [apply H; exact Rv|]. destruct R as [p Hp]. apply path_lt in Hp. lia. }
    apply sdom_anc in S as [_ A]; [|lia]. pose proof (F v ltac:(lia)).
    apply (anc_depth _ (df ts) n F D) in A as [A _]; lia.
Qed.
Lemma frontier_dom d : d < n ->
  ((forall v, ~ in_frontier G d v) <-> forall v, reachable G d v -> dominates G d v).
Proof.
  intros Hd. split.
  - intros H v [p Hp]. induction Hp as [L|p u v Hp IH E].
    + split; [exact L|]. intros p Hp. apply path_end with 0. exact Hp.
    + pose proof (ok_edge g O u v E) as Le. fold n in Le.
      destruct (Nat.eq_dec d v) as [->|N]; [apply path_lt in Hp; lia|].
      assert (dominates G d v \/ ~ dominates G d v) as [Y|Y]; [|exact Y|].
      { pose proof (dom_anc v ltac:(lia) d) as DA. pose proof (ti_par _ _ _ T) as F. fold n in F.
        assert (anc (pf ts) d v \/ ~ anc (pf ts) d v) as [Z|Z]; [|left; tauto|right; tauto].
        clear - F Le. assert (v < n) as Hv by lia. clear Le. induction v as [v IH] using lt_wf_ind.
        destruct (Nat.eq_dec d v) as [->|N]; [left; constructor|].
        destruct (Nat.eq_dec v 0) as [->|N0]; [right; intros A; inversion A; lia|].
        pose proof (F v ltac:(lia)). destruct (IH (pf ts v)) as [A|A]; [lia|lia|left; apply anc_up; assumption|].
        right. intros B. inversion B; [congruence|contradiction]. }
      exfalso. apply (H v). split; [exists u; split; [exact E|exact IH]|]. intros [Y' _]. contradiction.
  - intros H v [(p & E & Dp) N]. apply N. pose proof (ok_edge g O p v E) as Le. fold n in Le.
    destruct (dom_reach d p ltac:(lia) Dp) as [q Hq]. split; [|apply path_lt in Hq; lia].
    apply H. exists (q ++ [v]). econstructor; eassumption.
Qed.

Lemma frontier_ok : exists es, empty_frontier g ts = Some es /\ length es = n /\
  forall d, d < n -> exists b, rd es d = Some b /\
    (b = true <-> forall v, ~ in_frontier G d v) /\
    (b = true <-> forall v, reachable G d v -> dominates G d v).
Proof.
  unfold empty_frontier. fold n.
  destruct (frontier_loop_ok n (repeat 0 n) (repeat false n)) as (es & E & L & H).
  - lia.
  - apply repeat_length.
  - apply repeat_length.
  - intros v Hv. lia.
  - exists es. split; [exact E|]. split; [exact L|]. intros d Hd. destruct (H d Hd) as (x & Lo & Ex).
    exists (x =? df ts d). split; [exact Ex|]. pose proof (low_empty d x Hd Lo) as A. pose proof (frontier_dom d Hd) as B.
    rewrite Nat.eqb_eq. split; [rewrite B; exact A|exact A].
Qed.
End Dom.

(** ** ExternalizeNodes *)
Section Ext.
Variables (g : cfg) (ts : list info) (glob : nat -> bool).
Hypothesis O : okg g.
Hypothesis T : tinv g (length (g_deps g)) ts.
Let n := length (g_deps g).
Let G := g_deps g.

Lemma keep_local_ok node ds : forall out, node < length out ->
  exists out', keep_local glob out node ds = Some out' /\ length out' = length out /\
    forall j, rd out' j = if j =? node then option_map (fun r => r ++ map Z.of_nat (filter (fun v => negb (glob v)) ds)) (rd out j) else rd out j.
Proof.
  induction ds as [|d t IH]; intros out L; cbn [keep_local].
  - exists out. split; [reflexivity|]. split; [reflexivity|]. intros j. simpl.
    destruct (j =? node); [|reflexivity]. destruct (rd out j); simpl; [rewrite app_nil_r|]; reflexivity.
  - cbn [filter]. destruct (glob d) eqn:Gd; cbn [negb].
    + apply IH. exact L.
    + destruct (push_spec out node (Z.of_nat d) L) as (o1 & E1 & L1 & R1). rewrite E1. cbn [bind].
      destruct (IH o1 ltac:(lia)) as (o2 & E2 & L2 & R2). exists o2. split; [exact E2|]. split; [lia|].
      intros j. rewrite R2, R1. destruct (j =? node); [|reflexivity].
      destruct (rd out j); simpl; [|reflexivity]. rewrite <- app_assoc. reflexivity.
Qed.

Definition local (w : nat) : list nat := filter (fun v => negb (glob v)) (nth w G []).
Definition globals (k w : nat) : list nat := filter (fun v => glob v && (pf ts v =? w)) (seq 1 (k - 1)).
Definition part (k w : nat) : list Z := map Z.of_nat ((if w <? k then local w else []) ++ globals k w).

Lemma globals_high k w : k <= n -> k <= S w -> globals k w = [].
Proof.
  intros Hk H. unfold globals. destruct (filter _ _) as [|v r] eqn:E; [reflexivity|]. exfalso.
  assert (In v (filter (fun v => glob v && (pf ts v =? w)) (seq 1 (k - 1)))) as I by (rewrite E; left; reflexivity).
  apply filter_In in I as [I1 I2]. apply in_seq in I1. apply andb_true_iff in I2 as [_ I2]. apply Nat.eqb_eq in I2.
  pose proof (ti_par _ _ _ T v ltac:(fold n; lia)). lia.
Qed.

Lemma ext_step_ok k out : k < n -> length out = n -> (forall w, w < n -> rd out w = Some (part k w)) ->
  exists out', ext_step g ts glob out k = Some out' /\ length out' = n /\ forall w, w < n -> rd out' w = Some (part (S k) w).
Proof.
  intros Hk L R. unfold ext_step.
  assert (exists o1, (if glob k && negb (k =? 0) then let? i := rd ts k in push out (i_par i) (Z.of_nat k) else Some out) = Some o1 /\
    length o1 = n /\ forall w, w < n -> rd o1 w = Some (map Z.of_nat ((if w <? k then local w else []) ++ globals (S k) w))) as (o1 & E1 & L1 & R1).
  { destruct (Nat.eq_dec k 0) as [->|N].
    - rewrite andb_false_r. exists out. split; [reflexivity|]. split; [exact L|]. exact R.
    - destruct (Nat.eqb_spec k 0); [lia|]. cbn [negb]. rewrite andb_true_r.
      assert (forall w, globals (S k) w = globals k w ++ if glob k && (pf ts k =? w) then [k] else []) as GS.
      { intros w. unfold globals. replace (S k - 1) with (S (k - 1)) by lia. rewrite seq_S, filter_app.
        replace (1 + (k - 1)) with k by lia. reflexivity. }
      destruct (glob k) eqn:Gk.
      + destruct (ti_ch _ _ _ T k Hk) as (i & Ei & _). rewrite Ei. cbn [bind].
        assert (i_par i = pf ts k) as -> by (unfold pf; rewrite Ei; reflexivity).
        pose proof (ti_par _ _ _ T k ltac:(fold n; lia)) as Fk.
        destruct (push_spec out (pf ts k) (Z.of_nat k)) as (o1 & E1 & L1 & R1); [lia|].
        exists o1. split; [exact E1|]. split; [lia|]. intros w Hw. rewrite R1, (R w Hw), GS. cbn [andb].
        rewrite (Nat.eqb_sym (pf ts k) w). unfold part. destruct (w =? pf ts k); cbn [option_map].
        * rewrite !map_app. cbn [map]. rewrite app_assoc. reflexivity.
        * rewrite app_nil_r. reflexivity.
      + exists out. split; [reflexivity|]. split; [exact L|]. intros w Hw. rewrite (R w Hw), GS. cbn [andb].
        rewrite app_nil_r. reflexivity. }
  rewrite E1. cbn [bind]. destruct (rd_lt (g_deps g) k Hk) as [ds Eds]. rewrite Eds. cbn [bind].
  destruct (keep_local_ok k ds o1 ltac:(lia)) as (o2 & E2 & L2 & R2). exists o2. split; [exact E2|]. split; [lia|].
  intros w Hw. rewrite R2, (R1 w Hw). unfold part. destruct (Nat.eqb_spec w k) as [->|N].
  - rewrite Nat.ltb_irrefl. destruct (Nat.ltb_spec k (S k)); [|lia]. rewrite (globals_high (S k) k) by lia.
    cbn [option_map app map]. rewrite app_nil_r. unfold local, G. rewrite (nth_error_nth (g_deps g) k [] Eds). reflexivity.
  - destruct (Nat.ltb_spec w k), (Nat.ltb_spec w (S k)); try lia; reflexivity.
Qed.

Lemma ext_loop_ok : forall cnt k out, k + cnt = n -> length out = n -> (forall w, w < n -> rd out w = Some (part k w)) ->
  exists out', ext_loop g ts glob out k cnt = Some out' /\ length out' = n /\ forall w, w < n -> rd out' w = Some (part n w).
Proof.
  induction cnt as [|c IH]; intros k out E L R; cbn [ext_loop].
  - exists out. split; [reflexivity|]. split; [exact L|]. assert (k = n) as <- by lia. exact R.
  - destruct (ext_step_ok k out) as (o1 & E1 & L1 & R1); [lia|exact L|exact R|]. rewrite E1. cbn [bind].
    apply (IH (S k)); [lia|exact L1|exact R1].
Qed.

Lemma part_In w v : w < n -> In (Z.of_nat v) (part n w) <->
  (edge G w v /\ glob v = false) \/ (0 < v < n /\ glob v = true /\ pf ts v = w).
Proof.
  intros Hw. unfold part. destruct (Nat.ltb_spec w n); [|lia]. rewrite map_app, in_app_iff, !in_map_iff.
  destruct (rd_lt G w Hw) as [ds E]. unfold local. rewrite (nth_error_nth G w [] E). split.
  - intros [(x & Ex & I)|(x & Ex & I)]; (assert (x = v) as -> by lia); apply filter_In in I as [I1 I2].
    + left. split; [exists ds; auto|]. destruct (glob v); [discriminate|reflexivity].
    + right. apply in_seq in I1. apply andb_true_iff in I2 as [I2 I3]. apply Nat.eqb_eq in I3. split; [lia|auto].
  - intros [[(ds' & E' & I) Gv]|(Hv & Gv & P)].
    + left. exists v. split; [reflexivity|]. assert (ds' = ds) as -> by (unfold rd in *; congruence).
      apply filter_In. rewrite Gv. auto.
    + right. exists v. split; [reflexivity|]. apply filter_In. split; [apply in_seq; lia|]. rewrite Gv, P, Nat.eqb_refl. reflexivity.
Qed.

Lemma ext_valid out : length out = n -> (forall w, w < n -> rd out w = Some (part n w)) -> valid out.
Proof.
  intros L R. pose proof (ok_pos g O) as P0. fold n in P0. split; [destruct out; [simpl in L; lia|discriminate]|]. rewrite L. split.
  - intros u ds z E I. pose proof (rd_Some_lt _ _ _ E) as Hu. rewrite L in Hu. rewrite (R u Hu) in E. injection E as <-.
    assert (exists v, z = Z.of_nat v) as [v ->].
    { unfold part in I. apply in_map_iff in I as (v & <- & _). eauto. }
    apply part_In in I as [[E _]|(Hv & _ & P)]; [|pose proof (ti_par _ _ _ T v Hv); lia|exact Hu].
    apply (ok_edge g O) in E. fold n in E. lia.
  - intros v Hv. destruct (glob v) eqn:Gv.
    + pose proof (ti_par _ _ _ T v Hv). exists (pf ts v), (part n (pf ts v)). split; [apply R; lia|].
      apply part_In; [lia|]. right. auto.
    + destruct (has_pred g O v Hv) as [u Eu]. pose proof (ok_edge g O u v Eu). exists u, (part n u).
      split; [apply R; unfold n; lia|]. apply part_In; [unfold n; lia|]. left. auto.
Qed.

Lemma count_filter (f : nat -> bool) l v : count_occ Nat.eq_dec (filter f l) v = if f v then count_occ Nat.eq_dec l v else 0.
Proof.
  induction l as [|a t IH]; [simpl; destruct (f v); reflexivity|]. cbn [filter count_occ].
  destruct (Nat.eq_dec a v) as [->|N].
  - destruct (f v) eqn:E; [|exact IH]. cbn [count_occ]. destruct (Nat.eq_dec v v); [|congruence]. rewrite IH. reflexivity.
  - destruct (f a) eqn:E; [|exact IH]. cbn [count_occ]. destruct (Nat.eq_dec a v); [congruence|]. exact IH.
Qed.
Lemma count_seq v : forall m a, count_occ Nat.eq_dec (seq a m) v = if (a <=? v) && (v <? a + m) then 1 else 0.
Proof.
  induction m as [|m IH]; intros a; cbn [seq count_occ].
  - destruct (Nat.leb_spec a v), (Nat.ltb_spec v (a + 0)); try lia; reflexivity.
  - rewrite IH. destruct (Nat.eq_dec a v) as [E|N];
    destruct (Nat.leb_spec (S a) v), (Nat.ltb_spec v (S a + m)), (Nat.leb_spec a v), (Nat.ltb_spec v (a + S m)); cbn [andb]; try reflexivity; exfalso; lia.
Qed.

(** The graph that is returned, and its predecessors. *)
Lemma externalize_ok : exists g', externalize g ts glob = Some (inl g') /\ okg g' /\ length (g_deps g') = n /\
  (forall w, w < n -> rd (g_deps g') w = Some (local w ++ globals n w)) /\
  (forall v, v < n -> glob v = false -> predecessors (g_deps g') v = predecessors G v) /\
  (forall v, 0 < v < n -> glob v = true -> predecessors (g_deps g') v = [pf ts v]).
Proof.
  unfold externalize. fold n.
  destruct (ext_loop_ok n 0 (repeat [] n)) as (out & E & L & R); [lia|apply repeat_length| |].
  { intros w Hw. unfold part. simpl. apply nth_error_repeat. exact Hw. }
  rewrite E. cbn [bind]. pose proof (create_spec out) as C. pose proof (ext_valid out L R) as V.
  destruct (create out) as [[g'|e]|]; [|tauto|contradiction]. destruct C as (_ & Ed & O' & _).
  assert (length (g_deps g') = n) as L' by (rewrite Ed, map_length; exact L).
  assert (forall w, w < n -> rd (g_deps g') w = Some (local w ++ globals n w)) as R'.
  { intros w Hw. rewrite Ed. unfold rd. rewrite nth_error_map. pose proof (R w Hw) as Rw. unfold rd in Rw. rewrite Rw.
    unfold part. destruct (Nat.ltb_spec w n); [|lia]. simpl. f_equal. rewrite map_map.
    rewrite (map_ext _ (fun x => x)) by (intros; lia). apply map_id. }
  exists g'. split; [reflexivity|]. split; [exact O'|]. split; [exact L'|]. split; [exact R'|].
  assert (forall v u, u < n -> count_occ Nat.eq_dec (nth u (g_deps g') []) v =
    (if glob v then 0 else count_occ Nat.eq_dec (nth u G []) v) + (if glob v && (pf ts v =? u) && (1 <=? v) && (v <? n) then 1 else 0)) as CT.
  { intros v u Hu. rewrite (nth_error_nth (g_deps g') u [] (R' u Hu)), count_occ_app. unfold local, globals.
    rewrite !count_filter, count_seq. pose proof (ok_pos g O) as P0. fold n in P0. replace (1 + (n - 1)) with n by lia.
    destruct (glob v), (pf ts v =? u), (1 <=? v), (v <? n); reflexivity. }
  split.
  - intros v Hv Gv. unfold predecessors. rewrite L'. unfold G. fold n. apply fm_ext. intros u Hu. apply in_seq in Hu.
    rewrite (CT v u) by lia. rewrite Gv. cbn [andb]. rewrite Nat.add_0_r. reflexivity.
  - intros v Hv Gv. unfold predecessors. rewrite L'.
    rewrite (fm_ext _ (fun u => repeat u (if pf ts v =? u then 1 else 0)) (seq 0 n)).
    + pose proof (ti_par _ _ _ T v Hv) as Fv. assert (pf ts v < n) as Hp by lia. clear - Hp. revert Hp. generalize (pf ts v) as p.
      intros p Hp. replace (seq 0 n) with (seq 0 (p + (1 + (n - p - 1)))) by (f_equal; lia). rewrite seq_app, seq_app, !flat_map_app. simpl.
      rewrite Nat.eqb_refl. simpl.
      assert (forall m a, p < a \/ a + m <= p -> flat_map (fun u => repeat u (if p =? u then 1 else 0)) (seq a m) = []) as Z.
      { induction m as [|m IH]; intros a Ha; [reflexivity|]. cbn [seq flat_map]. destruct (Nat.eqb_spec p a); [lia|]. simpl. apply IH. lia. }
      rewrite !Z by lia. reflexivity.
    + intros u Hu. apply in_seq in Hu. rewrite (CT v u) by lia. rewrite Gv.
      destruct (Nat.leb_spec 1 v), (Nat.ltb_spec v n); try lia. rewrite !andb_true_r. reflexivity.
Qed.
End Ext.

Lemma predecessors_In deps v u : In u (predecessors deps v) <-> edge deps u v.
Proof.
  unfold predecessors, edge. rewrite in_flat_map. split.
  - intros (w & Hw & I). apply repeat_spec in I as E. subst w. apply in_seq in Hw.
    destruct (rd_lt deps u) as [ds E]; [lia|]. exists ds. split; [exact E|].
    rewrite (nth_error_nth deps u [] E) in I. destruct (count_occ Nat.eq_dec ds v) eqn:C; [destruct I|].
    apply (count_occ_In Nat.eq_dec). lia.
  - intros (ds & E & I). exists u. split; [apply in_seq; apply rd_Some_lt in E; lia|].
    rewrite (nth_error_nth deps u [] E). apply (count_occ_In Nat.eq_dec) in I.
    destruct (count_occ Nat.eq_dec ds v) eqn:C; [lia|]. left. reflexivity.
Qed.

(** Two graphs whose trees satisfy the same equations have the same tree. *)
Lemma tree_same g ts g' ts' : okg g -> okg g' -> tinv g (length (g_deps g)) ts -> tinv g' (length (g_deps g')) ts' ->
  length (g_deps g') = length (g_deps g) ->
  (forall v, 0 < v < length (g_deps g) ->
     (forall u, edge (g_deps g') u v <-> edge (g_deps g) u v) \/ (forall u, edge (g_deps g') u v <-> u = pf ts v)) ->
  ts' = ts.
Proof.
  intros O O' T T' L H. set (n := length (g_deps g)) in *. rewrite L in T'.
  assert (forall v, v < n -> pf ts' v = pf ts v) as P.
  { induction v as [v IH] using lt_wf_ind. intros Hv. destruct (Nat.eq_dec v 0) as [->|N].
    - rewrite (ti_par0 _ _ _ T), (ti_par0 _ _ _ T'). reflexivity.
    - pose proof (ti_par _ _ _ T v ltac:(lia)) as F. pose proof (ti_par _ _ _ T' v ltac:(lia)) as F'.
      assert (forall x u, u < v -> anc (pf ts') x u <-> anc (pf ts) x u) as A.
      { intros x u Hu. split; intros B.
        - apply (anc_ext (pf ts') (pf ts) v); [intros; apply IH; lia| |exact Hu|exact B]. intros i Hi. apply (ti_par _ _ _ T'). lia.
        - apply (anc_ext (pf ts) (pf ts') v); [intros; symmetry; apply IH; lia| |exact Hu|exact B]. intros i Hi. apply (ti_par _ _ _ T). lia. }
      assert (forall x, anc (pf ts) x (pf ts' v) <-> anc (pf ts) x (pf ts v)) as B.
      { intros x. rewrite <- A by lia. rewrite (ti_lca _ _ _ T' v ltac:(lia)).
        destruct (H v ltac:(lia)) as [Hu|Hu].
        - rewrite (ti_lca _ _ _ T v ltac:(lia)). split; intros C u Eu.
          + apply A; [apply (ok_edge g O) in Eu; lia|]. apply C, Hu, Eu.
          + apply Hu in Eu. apply A; [apply (ok_edge g O) in Eu; lia|]. apply C, Eu.
        - split.
          + intros C. apply A; [lia|]. apply C, Hu. reflexivity.
          + intros C u Eu. apply Hu in Eu as ->. apply A; [lia|exact C]. }
      pose proof (proj1 (B _) (anc_refl _ _)) as X. pose proof (proj2 (B _) (anc_refl _ _)) as Y.
      apply (anc_le _ n (ti_par _ _ _ T)) in X; [|lia]. apply (anc_le _ n (ti_par _ _ _ T)) in Y; lia. }
  assert (forall v, v < n -> df ts' v = df ts v) as D.
  { induction v as [v IH] using lt_wf_ind. intros Hv. destruct (Nat.eq_dec v 0) as [->|N].
    - rewrite (ti_dep0 _ _ _ T), (ti_dep0 _ _ _ T'). reflexivity.
    - rewrite (ti_dep _ _ _ T v), (ti_dep _ _ _ T' v) by lia. rewrite (P v Hv).
      pose proof (ti_par _ _ _ T v ltac:(lia)). rewrite IH by lia. reflexivity. }
  apply list_eq_rd. intros i. destruct (Nat.lt_ge_cases i n) as [Hi|Hi].
  - destruct (ti_ch _ _ _ T i Hi) as (x & Ex & Cx). destruct (ti_ch _ _ _ T' i) as (y & Ey & Cy); [lia|].
    rewrite Ex, Ey. f_equal. destruct x as [p1 d1 c1], y as [p2 d2 c2]. cbn [i_ch] in *.
    pose proof (P i Hi) as Pi. pose proof (D i Hi) as Di. unfold pf, df in Pi, Di. rewrite Ex, Ey in Pi, Di. cbn in Pi, Di.
    assert (c2 = c1) as ->; [|congruence]. rewrite Cx, Cy. apply filter_ext_in. intros v Hv. apply in_seq in Hv.
    rewrite P by lia. reflexivity.
  - pose proof (ti_len _ _ _ T) as L1. pose proof (ti_len _ _ _ T') as L2.
    rewrite (proj2 (rd_None_ge ts i)), (proj2 (rd_None_ge ts' i)); [reflexivity|lia|lia].
Qed.
