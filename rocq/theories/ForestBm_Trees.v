(** Proofs about the masks of a single tree: AddSmallTree and ToObliviousTree. *)
From Coq Require Import Permutation.
From Verif Require Import Base Bits_Model Bits_Proofs Forest_Model Forest_Spec Forest_Proofs FullAcc_Spec ForestBm_Model ForestBm_Spec ForestBm_Proofs ForestBm_Split.

(** ** Bits of numbers. *)
Definition bits_at (o n : nat) : N := N.shiftl (N.ones (N.of_nat n)) (N.of_nat o).
Lemma tb_bits_at o n b : tb (bits_at o n) b = (o <=? b) && (b <? o + n).
Proof.
  unfold tb, bits_at. destruct (Nat.leb_spec o b) as [H|H].
  - rewrite N.shiftl_spec_high' by lia. cbn [andb]. destruct (Nat.ltb_spec b (o + n)) as [G|G]; [apply N.ones_spec_low; lia|apply N.ones_spec_high; lia].
  - apply N.shiftl_spec_low. lia.
Qed.
Lemma tb_pow n b : tb (2 ^ N.of_nat n) b = (b =? n).
Proof.
  unfold tb. destruct (Nat.eqb_spec b n) as [->|H]; [apply N.pow2_bits_true|apply N.pow2_bits_false; lia].
Qed.
Lemma find_lsb_at w x k : k < w -> wok w x -> tb x k = true -> (forall i, i < k -> tb x i = false) -> find_lsb w x = Some k.
Proof.
  intros K W T F. destruct (find_lsb_ok w ltac:(lia) x) as (b & E & Lb & Tb & Fb); [intros ->; rewrite tb_0 in T; discriminate|exact W|].
  rewrite E. f_equal. destruct (Nat.lt_trichotomy b k) as [C|[C|C]]; [rewrite F in Tb by exact C; discriminate|exact C|rewrite Fb in T by exact C; discriminate].
Qed.

(** The mask a row has for a list of splits. *)
Definition on (ot : others) (fr : frame) (sp : list (N * cond)) (b : nat) : Prop :=
  exists m c, In (m, c) sp /\ ceval ot fr c = true /\ tb m b = true.
Definition mask_of (ot : others) (fr : frame) (w : nat) (sp : list (N * cond)) : N :=
  fold_right (fun s x => if ceval ot fr (snd s) then N.lor (N.land (fst s) (wones w)) x else x) 0%N sp.
Lemma tb_mask_of ot fr w sp b : tb (mask_of ot fr w sp) b = true <-> exists m c, In (m, c) sp /\ ceval ot fr c = true /\ tb (N.land m (wones w)) b = true.
Proof.
  induction sp as [|[m c] r IH]; cbn [mask_of fold_right fst snd].
  - rewrite tb_0. split; [discriminate|intros (m & c & [] & _)].
  - change (fold_right _ 0%N r) with (mask_of ot fr w r). split.
    + destruct (ceval ot fr c) eqn:E.
      * rewrite tb_lor, orb_true_iff. intros [T|T]; [exists m, c; split; [left; reflexivity|auto]|]. apply IH in T. destruct T as (m' & c' & I & T). exists m', c'. split; [right; exact I|exact T].
      * intros T. apply IH in T. destruct T as (m' & c' & I & T). exists m', c'. split; [right; exact I|exact T].
    + intros (m' & c' & [E|I] & C & T).
      * injection E as -> ->. rewrite C, tb_lor, T. reflexivity.
      * assert (R : tb (mask_of ot fr w r) b = true) by (apply IH; exists m', c'; auto). destruct (ceval ot fr c); [rewrite tb_lor, R; apply orb_true_r|exact R].
Qed.
Lemma tb_mask_on ot fr w sp b : tb (mask_of ot fr w sp) b = true <-> b < w /\ on ot fr sp b.
Proof.
  rewrite tb_mask_of. unfold on. split.
  - intros (m & c & I & C & T). rewrite tb_land, andb_true_iff, tb_ones, Nat.ltb_lt in T. split; [tauto|]. exists m, c. tauto.
  - intros (B & m & c & I & C & T). exists m, c. split; [exact I|]. split; [exact C|]. rewrite tb_land, T, tb_ones. apply Nat.ltb_lt. exact B.
Qed.

(** ** AddSmallTree. *)
Definition size (d : dtree) : nat := length (leaves d).
Fixpoint msplits (o : nat) (d : dtree) : list (N * cond) :=
  match d with
  | DLeaf _ => []
  | DNode c f t => msplits o f ++ msplits (o + size f) t ++ [(bits_at o (size f), c)]
  end.
(** The position of the leaf that a row reaches. *)
Fixpoint dpos (ot : others) (fr : frame) (d : dtree) : nat :=
  match d with DLeaf _ => 0 | DNode c f t => if ceval ot fr c then size f + dpos ot fr t else dpos ot fr f end.
Lemma size_node c f t : size (DNode c f t) = size f + size t.
Proof. unfold size. cbn [leaves]. apply app_length. Qed.
Lemma dpos_lt ot fr d : dpos ot fr d < size d.
Proof. induction d as [i|c f IHf t IHt]; [cbn; lia|]. rewrite size_node. cbn [dpos]. destruct (ceval ot fr c); lia. Qed.
Lemma dpos_deval ot fr d : nth_error (leaves d) (dpos ot fr d) = Some (deval ot fr d).
Proof.
  induction d as [i|c f IHf t IHt]; [reflexivity|]. cbn [leaves dpos deval]. destruct (ceval ot fr c).
  - rewrite nth_error_app2 by (unfold size; lia). replace (size f + _ - length (leaves f)) with (dpos ot fr t) by (unfold size; lia). exact IHt.
  - rewrite nth_error_app1 by apply dpos_lt. exact IHf.
Qed.
Lemma on_app ot fr a b k : on ot fr (a ++ b) k <-> on ot fr a k \/ on ot fr b k.
Proof.
  unfold on. split.
  - intros (m & c & I & H). apply in_app_iff in I. destruct I as [I|I]; [left|right]; exists m, c; auto.
  - intros [(m & c & I & H)|(m & c & I & H)]; exists m, c; (split; [apply in_app_iff; auto|exact H]).
Qed.
Lemma on_one ot fr m c k : on ot fr [(m, c)] k <-> ceval ot fr c = true /\ tb m k = true.
Proof. unfold on. split; [intros (m' & c' & [E|[]] & H); injection E as -> ->; exact H|]. intros H. exists m, c. split; [left; reflexivity|exact H]. Qed.
(** The bits of the leaves before the one that is reached are on, its own is off. *)
Lemma on_msplits ot fr d : forall o,
  (forall b, on ot fr (msplits o d) b -> o <= b < o + size d) /\
  ~ on ot fr (msplits o d) (o + dpos ot fr d) /\ (forall b, o <= b < o + dpos ot fr d -> on ot fr (msplits o d) b).
Proof.
  induction d as [i|c f IHf t IHt]; intros o.
  - cbn [msplits dpos]. split; [intros b (m & c & [] & _)|]. split; [intros (m & c & [] & _)|]. intros b B. lia.
  - destruct (IHf o) as (F1 & F2 & F3). destruct (IHt (o + size f)) as (T1 & T2 & T3). pose proof (dpos_lt ot fr f) as Lf. pose proof (dpos_lt ot fr t) as Lt.
    rewrite size_node. cbn [msplits dpos]. split; [|split].
    + intros b. rewrite !on_app, on_one, tb_bits_at, andb_true_iff, Nat.leb_le, Nat.ltb_lt. intros [H|[H|[_ H]]]; [apply F1 in H; lia|apply T1 in H; lia|lia].
    + rewrite !on_app, on_one, tb_bits_at, andb_true_iff, Nat.leb_le, Nat.ltb_lt. destruct (ceval ot fr c).
      * intros [H|[H|[_ H]]]; [apply F1 in H; lia| |lia]. rewrite Nat.add_assoc in H. exact (T2 H).
      * intros [H|[H|[H _]]]; [exact (F2 H)|apply T1 in H; lia|discriminate].
    + intros b. rewrite !on_app, on_one, tb_bits_at, andb_true_iff, Nat.leb_le, Nat.ltb_lt. destruct (ceval ot fr c); intros B.
      * destruct (Nat.lt_ge_cases b (o + size f)); [right; right; split; [reflexivity|lia]|right; left; apply T3; lia].
      * left. apply F3. exact B.
Qed.
Lemma regular_leaf_ok ot fr w d : size d <= w -> regular_leaf w (mask_of ot fr w (msplits 0 d)) = Some (dpos ot fr d).
Proof.
  intros W. pose proof (dpos_lt ot fr d) as Ld. destruct (on_msplits ot fr d 0) as (A & B & C). unfold regular_leaf. apply find_lsb_at; [lia| | |].
  - intros i I. rewrite tb_wnot. destruct (Nat.ltb_spec i w); [lia|reflexivity].
  - rewrite tb_wnot. apply andb_true_iff. split; [apply Nat.ltb_lt; lia|]. apply negb_true_iff, not_true_iff_false. rewrite tb_mask_on. intros [_ H]. exact (B H).
  - intros i I. rewrite tb_wnot. apply andb_false_iff. right. apply negb_false_iff. rewrite tb_mask_on. split; [lia|]. apply C. lia.
Qed.

Section tree.
Variable V : Type.
Variable vo : vops V.
Definition leaf_vals (t : tree V) (l : list nat) (vs : list V) : Prop :=
  Forall2 (fun i v => option_map (fun a => vmul vo a (t_weight t)) (nth_error (t_adj t) i) = Some v) l vs.
Lemma leaf_vals_length t l vs : leaf_vals t l vs -> length vs = length l.
Proof. intros H. induction H; cbn; congruence. Qed.
Lemma leaf_vals_nth t l vs k i : leaf_vals t l vs -> nth_error l k = Some i -> option_map (fun a => vmul vo a (t_weight t)) (nth_error (t_adj t) i) = nth_error vs k.
Proof. intros H. revert k. induction H as [|x v l vs E H IH]; intros [|k] K; cbn in K |- *; try discriminate; [injection K as ->; exact E|apply IH; exact K]. Qed.
Lemma leaf_vals_app t l vs l' vs' : leaf_vals t l vs -> leaf_vals t l' vs' -> leaf_vals t (l ++ l') (vs ++ vs').
Proof. apply Forall2_app. Qed.
Lemma adjustment_leaf id : (id < 0)%Z -> adjustment_index id = Z.of_nat (Z.to_nat (- id - 1)).
Proof. unfold adjustment_index. lia. Qed.

Lemma dfs_ok t id d : unfolds (t_nodes t) id d -> forall fuel adj sp, (forall i, In i (leaves d) -> i < length (t_adj t)) ->
  length adj + size d <= 64 -> height d <= fuel ->
  exists vs, leaf_vals t (leaves d) vs /\ dfs V vo t fuel id adj sp = Done (adj ++ vs, sp ++ msplits (length adj) d, bits_at (length adj) (size d)).
Proof.
  induction 1 as [id Neg|k n f t2 Hn Hf IHf Ht IHt]; intros fuel adj sp Lv Sz Hh.
  - destruct (rd_lt (t_adj t) (Z.to_nat (- id - 1))) as [a A]; [apply Lv; left; reflexivity|]. exists [vmul vo a (t_weight t)]. split.
    + constructor; [|constructor]. unfold rd in A. rewrite A. reflexivity.
    + assert (E : is_leaf id = true) by (apply Z.ltb_lt; exact Neg). cbn [leaves msplits]. unfold size in *. cbn [leaves length] in *.
      destruct (wshl_def 64 1 (length adj)) as [m M]; [lia|].
      assert (Em : m = bits_at (length adj) 1). { apply tb_inj. intros i. rewrite (tb_wshl _ _ _ _ i M), tb_bits_at, tb_1. destruct (Nat.ltb_spec i 64), (Nat.leb_spec (length adj) i), (Nat.ltb_spec i (length adj + 1)), (Nat.eqb_spec (i - length adj) 0); cbn; lia || reflexivity. }
      assert (G : dfs V vo t fuel id adj sp = obind (oopt (zrd (t_adj t) (adjustment_index id))) (fun a => obind (oopt (wshl 64 1 (length adj))) (fun m => Done (adj ++ [vmul vo a (t_weight t)], sp, m)))) by (destruct fuel; cbn [dfs]; rewrite E; reflexivity).
      rewrite G, (adjustment_leaf _ Neg), zrd_nat. unfold rd in A. rewrite A. cbn [oopt obind]. rewrite M. cbn [oopt obind]. rewrite app_nil_r, Em. reflexivity.
  - cbn [height] in Hh. destruct fuel as [|fuel]; [lia|]. rewrite size_node in Sz. cbn [leaves] in Lv.
    destruct (IHf fuel adj sp) as (vf & Vf & Ef); [intros i I; apply Lv, in_app_iff; auto|lia|lia|].
    pose proof (leaf_vals_length _ _ _ Vf) as Lf.
    destruct (IHt fuel (adj ++ vf) (sp ++ msplits (length adj) f)) as (vt & Vt & Et); [intros i I; apply Lv, in_app_iff; auto|rewrite app_length, Lf; fold (size f); lia|lia|].
    exists (vf ++ vt). split; [cbn [leaves]; apply leaf_vals_app; assumption|].
    cbn [dfs]. assert (E : is_leaf (Z.of_nat k) = false) by (apply Z.ltb_ge; lia). rewrite E, zrd_nat, Hn. cbn [oopt obind]. rewrite Ef. cbn [obind]. rewrite Et. cbn [obind msplits].
    rewrite app_length, Lf. fold (size f). rewrite !app_assoc.
    assert (Eb : N.lor (bits_at (length adj) (size f)) (bits_at (length adj + size f) (size t2)) = bits_at (length adj) (size (DNode (n_cond n) f t2))).
    { apply tb_inj. intros i. rewrite tb_lor, !tb_bits_at, size_node. destruct (Nat.leb_spec (length adj) i), (Nat.ltb_spec i (length adj + size f)), (Nat.leb_spec (length adj + size f) i), (Nat.ltb_spec i (length adj + size f + size t2)), (Nat.ltb_spec i (length adj + (size f + size t2))); cbn; lia || reflexivity. }
    rewrite Eb. reflexivity.
Qed.

(** ** ToObliviousTree. *)
Variable ceq : cond -> cond -> bool.
Fixpoint nodes (d : dtree) : nat := match d with DLeaf _ => 1 | DNode _ f t => S (nodes f + nodes t) end.
Definition olayer (depth cur : nat) (c : cond) (layers : list cond) : option (list cond) :=
  if depth <=? cur then None
  else if length layers =? cur then Some (layers ++ [c])
  else match nth_error layers cur with Some c0 => if ceq c0 c then Some layers else None | None => None end.
Fixpoint otrav (t : tree V) (depth : nat) (d : dtree) (cur : nat) (st : list cond * list V) : option (list cond * list V) :=
  match d with
  | DLeaf i => if cur =? depth then option_map (fun a => (fst st, snd st ++ [vmul vo a (t_weight t)])) (nth_error (t_adj t) i) else None
  | DNode c f t2 => let? l := olayer depth cur c (fst st) in let? st1 := otrav t depth f (S cur) (l, snd st) in otrav t depth t2 (S cur) st1
  end.
Lemma olayer_grows depth cur c l l' : olayer depth cur c l = Some l' -> cur <= length l -> length l <= length l' /\ S cur <= length l'.
Proof.
  unfold olayer. destruct (depth <=? cur); [discriminate|]. destruct (Nat.eqb_spec (length l) cur) as [E|E].
  - intros H. injection H as <-. rewrite app_length. cbn. lia.
  - destruct (nth_error l cur); [|discriminate]. destruct (ceq c0 c); [|discriminate]. intros H. injection H as <-. lia.
Qed.
Lemma otrav_grows t depth d : forall cur st st', otrav t depth d cur st = Some st' -> cur <= length (fst st) -> length (fst st) <= length (fst st').
Proof.
  induction d as [i|c f IHf t2 IHt]; intros cur st st' H C; cbn [otrav] in H.
  - destruct (cur =? depth); [|discriminate]. destruct (nth_error (t_adj t) i); [|discriminate]. injection H as <-. cbn. lia.
  - destruct (olayer depth cur c (fst st)) as [l|] eqn:E; [|discriminate]. cbn [bind] in H. destruct (olayer_grows _ _ _ _ _ E C) as [G1 G2].
    destruct (otrav t depth f (S cur) (l, snd st)) as [st1|] eqn:F; [|discriminate]. cbn [bind] in H. apply IHf in F; [|cbn; lia]. cbn in F. apply IHt in H; lia.
Qed.
Lemma traverse_ok t depth id d : unfolds (t_nodes t) id d -> forall fuel cur rest st, (forall i, In i (leaves d) -> i < length (t_adj t)) ->
  cur <= length (fst st) -> nodes d <= fuel ->
  traverse V vo ceq t depth fuel ((id, cur) :: rest) st =
  match otrav t depth d cur st with None => Done None | Some st' => traverse V vo ceq t depth (fuel - nodes d) rest st' end.
Proof.
  induction 1 as [id Neg|k n f t2 Hn Hf IHf Ht IHt]; intros fuel cur rest [layers adj] Lv C Fu; cbn [nodes fst] in *.
  - destruct fuel as [|fuel]; [lia|]. cbn [traverse]. unfold process_node. assert (E : is_leaf id = true) by (apply Z.ltb_lt; exact Neg). rewrite E. cbn [otrav].
    destruct (cur =? depth); cbn [negb]; [|reflexivity]. rewrite (adjustment_leaf _ Neg), zrd_nat.
    destruct (rd_lt (t_adj t) (Z.to_nat (- id - 1))) as [a A]; [apply Lv; left; reflexivity|]. unfold rd in A. rewrite A. cbn [bind option_map]. rewrite Nat.sub_succ, Nat.sub_0_r. reflexivity.
  - destruct fuel as [|fuel]; [lia|]. cbn [leaves] in Lv. cbn [traverse]. unfold process_node. assert (E : is_leaf (Z.of_nat k) = false) by (apply Z.ltb_ge; lia). rewrite E, zrd_nat, Hn. cbn [bind otrav].
    unfold olayer. cbn [fst snd]. destruct (depth <=? cur); [reflexivity|].
    assert (G : forall l, S cur <= length l ->
      traverse V vo ceq t depth fuel ((n_false n, S cur) :: (n_true n, S cur) :: rest) (l, adj) =
      match (let? st1 := otrav t depth f (S cur) (l, adj) in otrav t depth t2 (S cur) st1) with None => Done None | Some st' => traverse V vo ceq t depth (fuel - (nodes f + nodes t2)) rest st' end).
    { intros l Ll. rewrite IHf; [|intros i I; apply Lv, in_app_iff; auto|exact Ll|lia]. destruct (otrav t depth f (S cur) (l, adj)) as [st1|] eqn:F; [|reflexivity]. cbn [bind].
      apply otrav_grows in F; [|exact Ll]. cbn [fst] in F. rewrite IHt; [|intros i I; apply Lv, in_app_iff; auto|lia|lia]. destruct (otrav t depth t2 (S cur) st1); [|reflexivity]. f_equal. lia. }
    rewrite Nat.sub_succ. destruct (Nat.eqb_spec (length layers) cur) as [El|El].
    + cbn [bind]. apply G. rewrite app_length. cbn. lia.
    + destruct (rd_lt layers cur) as [c0 C0]; [lia|]. rewrite C0. unfold rd in C0. rewrite C0. cbn [bind]. destruct (ceq c0 (n_cond n)); cbn [negb]; [|reflexivity]. cbn [bind]. apply G. lia.
Qed.
Lemma traverse_more t depth fuel : forall stack st x k, traverse V vo ceq t depth fuel stack st = Done x -> traverse V vo ceq t depth (fuel + k) stack st = Done x.
Proof.
  induction fuel as [|fuel IH]; intros [|[id cur] rest] st x k H; try discriminate; cbn [traverse Nat.add] in *; [destruct k; exact H|exact H|].
  destruct (process_node V vo ceq t depth id cur st) as [[st'|]|]; try assumption. destruct (is_leaf id); [apply IH; exact H|]. destruct (zrd (t_nodes t) id); [apply IH; exact H|exact H].
Qed.
(** Soundness. *)
Lemma skipn_nth {A} (l : list A) k x : nth_error l k = Some x -> skipn k l = x :: skipn (S k) l.
Proof. revert k. induction l as [|y r IH]; intros [|k] H; cbn in *; try discriminate; [congruence|apply IH; exact H]. Qed.
Lemma otrav_sound t depth d : forall cur layers adj layers' adj', otrav t depth d cur (layers, adj) = Some (layers', adj') -> cur <= length layers <= depth ->
  length layers' = depth /\ (exists ext, layers' = layers ++ ext /\ incl ext (conds d)) /\ is_oblivious ceq (skipn cur layers') d /\ exists vs, leaf_vals t (leaves d) vs /\ adj' = adj ++ vs.
Proof.
  induction d as [i|c f IHf t2 IHt]; intros cur layers adj layers' adj' H C; cbn [otrav fst snd] in H.
  - destruct (Nat.eqb_spec cur depth) as [->|]; [|discriminate]. destruct (nth_error (t_adj t) i) as [a|] eqn:A; [|discriminate]. cbn in H. injection H as <- <-.
    split; [lia|]. split; [exists []; split; [symmetry; apply app_nil_r|intros x []]|]. split; [rewrite skipn_all2 by lia; exact I|]. exists [vmul vo a (t_weight t)]. split; [|reflexivity]. constructor; [rewrite A; reflexivity|constructor].
  - destruct (olayer depth cur c layers) as [l|] eqn:El; [|discriminate]. cbn [bind] in H. destruct (otrav t depth f (S cur) (l, adj)) as [[l1 a1]|] eqn:Ef; [|discriminate]. cbn [bind] in H.
    assert (G : S cur <= length l <= depth /\ (exists ext, l = layers ++ ext /\ incl ext [c]) /\ exists c0, nth_error l cur = Some c0 /\ (c0 = c \/ ceq c0 c = true)).
    { unfold olayer in El. destruct (Nat.leb_spec depth cur); [discriminate|]. destruct (Nat.eqb_spec (length layers) cur) as [E|E].
      - injection El as <-. rewrite app_length. cbn [length]. split; [lia|]. split; [exists [c]; split; [reflexivity|apply incl_refl]|]. exists c. split; [|auto]. rewrite nth_error_app2 by lia. rewrite E, Nat.sub_diag. reflexivity.
      - destruct (nth_error layers cur) as [c0|] eqn:N; [|discriminate]. destruct (ceq c0 c) eqn:Q; [|discriminate]. injection El as <-. split; [lia|]. split; [exists []; split; [symmetry; apply app_nil_r|intros x []]|]. exists c0. auto. }
    destruct G as (G1 & (e1 & G2 & I1) & c0 & G3 & G4). destruct (IHf _ _ _ _ _ Ef G1) as (F1 & (e2 & F2 & I2) & F3 & vf & F4 & F5).
    destruct (IHt _ _ _ _ _ H) as (T1 & (e3 & T2 & I3) & T3 & vt & T4 & T5); [subst l1; rewrite app_length in F1 |- *; lia|].
    assert (Q : e3 = []) by (subst layers' l1; rewrite !app_length in *; destruct e3; [reflexivity|cbn in *; lia]). subst e3. rewrite app_nil_r in T2. subst layers'.
    split; [exact T1|]. split; [exists (e1 ++ e2); subst l1 l; rewrite app_assoc; split; [reflexivity|]; apply incl_app; [intros x X; apply I1 in X; destruct X as [<-|[]]; left; reflexivity|intros x X; right; apply in_app_iff; auto]|]. split.
    + assert (N : nth_error l1 cur = Some c0) by (subst l1; rewrite nth_error_app1 by lia; exact G3). rewrite (skipn_nth _ _ _ N). cbn [is_oblivious]. auto.
    + exists (vf ++ vt). split; [cbn [leaves]; apply leaf_vals_app; assumption|]. subst a1 adj'. symmetry. apply app_assoc.
Qed.
(** Completeness. *)
Lemma olayer_hit depth cur c L c0 : nth_error L cur = Some c0 -> ceq c0 c = true -> length L = depth -> olayer depth cur c L = Some L.
Proof.
  intros N Q E. assert (cur < length L) by (apply nth_error_Some; congruence). unfold olayer. destruct (Nat.leb_spec depth cur); [lia|].
  destruct (Nat.eqb_spec (length L) cur); [lia|]. rewrite N, Q. reflexivity.
Qed.
Lemma oblivious_height layers d : is_oblivious ceq layers d -> height d = length layers /\ length (leftmost d) = length layers /\ nodes d = 2 ^ S (length layers) - 1 /\ size d = 2 ^ length layers.
Proof.
  revert d. induction layers as [|c r IH]; intros [i|c' f t]; cbn [is_oblivious]; intros H; try contradiction; [cbn; auto|].
  destruct H as (_ & F & T). apply IH in F, T. destruct F as (F1 & F2 & F3 & F4), T as (T1 & T2 & T3 & T4). cbn [height leftmost nodes length]. rewrite size_node, F1, T1, F2, F3, F4, T3, T4, Nat.max_id.
  assert (2 ^ length r <> 0) by (apply Nat.pow_nonzero; lia). cbn [Nat.pow]. lia.
Qed.
Definition leaves_ok (t : tree V) (d : dtree) : Prop := forall i, In i (leaves d) -> i < length (t_adj t).
Lemma leaves_ok_node t c f t2 : leaves_ok t (DNode c f t2) -> leaves_ok t f /\ leaves_ok t t2.
Proof. intros H. split; intros i I; apply H; cbn [leaves]; apply in_app_iff; auto. Qed.
Definition refl_on (d : dtree) : Prop := forall c, In c (conds d) -> ceq c c = true.
Lemma refl_node c f t2 : refl_on (DNode c f t2) -> ceq c c = true /\ refl_on f /\ refl_on t2.
Proof. intros H. split; [apply H; left; reflexivity|]. split; intros x X; apply H; right; apply in_app_iff; auto. Qed.
(** A subtree whose layers are all known. *)
Lemma otrav_full t depth d : forall cur L adj, leaves_ok t d -> refl_on d -> length L = depth -> is_oblivious ceq (skipn cur L) d -> cur <= depth ->
  exists adj', otrav t depth d cur (L, adj) = Some (L, adj').
Proof.
  induction d as [i|c f IHf t2 IHt]; intros cur L adj Lv Re E O Cu; cbn [otrav fst snd].
  - assert (cur = depth). { pose proof (skipn_length cur L) as K. destruct (skipn cur L); [cbn in K; lia|destruct O]. } subst cur. rewrite Nat.eqb_refl.
    destruct (rd_lt (t_adj t) i) as [a A]; [apply Lv; left; reflexivity|]. unfold rd in A. rewrite A. cbn. eauto.
  - apply leaves_ok_node in Lv. apply refl_node in Re. destruct (nth_error L cur) as [c0|] eqn:N.
    2: { apply nth_error_None in N. rewrite skipn_all2 in O by lia. destruct O. }
    rewrite (skipn_nth _ _ _ N) in O. cbn [is_oblivious] in O. destruct O as (Q & Of & Ot).
    assert (cur < length L) by (apply nth_error_Some; congruence).
    rewrite (olayer_hit depth cur c L c0 N); [|destruct Q as [->|Q]; tauto|exact E]. cbn [bind].
    destruct (IHf (S cur) L adj) as [a1 A1]; try tauto; [lia|]. rewrite A1. cbn [bind]. apply IHt; try tauto. lia.
Qed.
Lemma otrav_fresh t depth d : forall layers adj, leaves_ok t d -> refl_on d -> is_oblivious ceq (leftmost d) d -> length layers + length (leftmost d) = depth ->
  exists adj', otrav t depth d (length layers) (layers, adj) = Some (layers ++ leftmost d, adj').
Proof.
  induction d as [i|c f IHf t2 IHt]; intros layers adj Lv Re O E; cbn [otrav fst snd leftmost] in *.
  - cbn in E. rewrite Nat.add_0_r in E. rewrite E, Nat.eqb_refl. destruct (rd_lt (t_adj t) i) as [a A]; [apply Lv; left; reflexivity|]. unfold rd in A. rewrite A. cbn. rewrite app_nil_r. eauto.
  - apply leaves_ok_node in Lv. apply refl_node in Re. cbn [is_oblivious length] in *. destruct O as (_ & Of & Ot).
    unfold olayer. destruct (Nat.leb_spec depth (length layers)); [lia|]. rewrite Nat.eqb_refl. cbn [bind].
    destruct (IHf (layers ++ [c]) adj) as [a1 A1]; try tauto; [rewrite app_length; cbn; lia|]. rewrite app_length, Nat.add_1_r in A1. rewrite A1. cbn [bind]. rewrite <- app_assoc. cbn [app].
    destruct (otrav_full t depth t2 (S (length layers)) (layers ++ c :: leftmost f) a1) as [a2 A2]; try tauto.
    + rewrite app_length. cbn. lia.
    + replace (S (length layers)) with (length (layers ++ [c])) by (rewrite app_length; cbn; lia). change (c :: leftmost f) with ([c] ++ leftmost f). rewrite app_assoc, skipn_app, skipn_all, Nat.sub_diag. exact Ot.
    + eauto.
Qed.

Lemma is_pow2_ok n : n <> 0 -> (is_pow2 n = true <-> exists k, n = 2 ^ k).
Proof.
  intros Nz. unfold is_pow2. rewrite N.eqb_eq. split.
  - intros H. exists (N.to_nat (N.log2 (N.of_nat n))). set (x := N.of_nat n) in *. set (k := N.log2 x).
    assert (X : (0 < x)%N) by (unfold x; lia). destruct (N.log2_spec x X) as [A B]. fold k in A, B.
    destruct (N.eq_dec x (2 ^ k)) as [E|E].
    + apply Nat2N.inj. fold x. rewrite Nat2N.inj_pow, N2Nat.id. exact E.
    + exfalso. assert (K : N.testbit (N.land x (x - 1)) k = true); [|rewrite H, N.bits_0 in K; discriminate].
      rewrite N.land_spec. apply andb_true_iff. split; [apply N.bit_log2; lia|].
      assert (L : N.log2 (x - 1) = k) by (apply N.log2_unique; [apply N.le_0_l|split; lia]). rewrite <- L. apply N.bit_log2. lia.
  - intros [k ->]. rewrite Nat2N.inj_pow. change (N.of_nat 2) with 2%N. apply tb_inj. intros i. rewrite tb_land, tb_0, tb_pow. destruct (Nat.eqb_spec i k) as [->|]; [|reflexivity]. cbn [andb].
    unfold tb. destruct (N.eq_dec (2 ^ N.of_nat k - 1) 0) as [->|E]; [apply N.bits_0|]. apply N.bits_above_log2. apply N.log2_lt_pow2; lia.
Qed.
Lemma ctz32_ok n k : n = 2 ^ k -> forall depth, ctz32 n = Some depth <-> depth = k /\ k < 32.
Proof.
  intros -> depth. unfold ctz32. rewrite Nat2N.inj_pow. change (N.of_nat 2) with 2%N.
  assert (T : forall i, tb (N.land (2 ^ N.of_nat k) (wones 32)) i = (i =? k) && (i <? 32)) by (intros i; rewrite tb_land, tb_pow, tb_ones; reflexivity).
  split.
  - intros H. unfold find_lsb in H. apply find_some in H. destruct H as [_ H]. rewrite T in H. apply andb_true_iff in H. rewrite Nat.eqb_eq, Nat.ltb_lt in H. destruct H as [-> H]. auto.
  - intros [-> K]. apply find_lsb_at; [exact K| | |].
    + intros i I. rewrite T. destruct (Nat.ltb_spec i 32); [lia|apply andb_false_r].
    + rewrite T, Nat.eqb_refl. apply Nat.ltb_lt. exact K.
    + intros i I. rewrite T. destruct (Nat.eqb_spec i k); [lia|reflexivity].
Qed.
Lemma leaves_nonempty d : leaves d <> [].
Proof. destruct d as [i|c f t2]; [discriminate|]. cbn. pose proof (dpos_lt (Build_others (fun _ _ => false) (fun _ => [])) (Build_frame (fun _ => None) (fun _ => None)) f) as H. unfold size in H. destruct (leaves f); [cbn in H; lia|discriminate]. Qed.
Lemma adj_nonzero t d : leaves_ok t d -> length (t_adj t) <> 0.
Proof. intros H E. pose proof (leaves_nonempty d) as N. destruct (leaves d) as [|i r] eqn:L; [contradiction|]. assert (i < length (t_adj t)) by (apply H; rewrite L; left; reflexivity). lia. Qed.
Lemma to_oblivious_unfold fuel t d : is_tree t d -> leaves_ok t d -> nodes d <= fuel -> forall k, length (t_adj t) = 2 ^ k -> k < 32 ->
  to_oblivious V vo ceq fuel t = Done (option_map (fun st => {| ot_sub := t_sub t; ot_layers := fst st; ot_adj := snd st |}) (otrav t k d 0 ([], []))).
Proof.
  intros It Lv Fu k E K. unfold to_oblivious. pose proof (adj_nonzero t d Lv) as Nz. rewrite (proj2 (is_pow2_ok _ Nz)) by eauto. cbn [negb].
  destruct (Nat.eqb_spec (length (t_adj t)) 0); [contradiction|]. rewrite (proj2 (ctz32_ok _ k E k)) by auto. cbn [oopt obind].
  apply root_is_tree in It. rewrite (traverse_ok t k _ d It); [|exact Lv|cbn; lia|exact Fu]. destruct (otrav t k d 0 ([], [])) as [st|]; [|reflexivity]. destruct (fuel - nodes d); reflexivity.
Qed.
Lemma to_oblivious_sound fuel t d o : is_tree t d -> leaves_ok t d -> to_oblivious V vo ceq fuel t = Done (Some o) ->
  ot_sub V o = t_sub t /\ is_oblivious ceq (ot_layers V o) d /\ leaf_vals t (leaves d) (ot_adj V o) /\ length (t_adj t) = 2 ^ length (ot_layers V o) /\ length (ot_layers V o) < 32 /\ incl (ot_layers V o) (conds d).
Proof.
  intros It Lv H. pose proof (adj_nonzero t d Lv) as Nz. assert (G : exists k, length (t_adj t) = 2 ^ k /\ k < 32).
  { unfold to_oblivious in H. destruct (is_pow2 (length (t_adj t))) eqn:P; [|discriminate]. apply (is_pow2_ok _ Nz) in P. destruct P as [k P]. exists k. split; [exact P|].
    cbn [negb] in H. destruct (Nat.eqb_spec (length (t_adj t)) 0); [contradiction|]. destruct (ctz32 (length (t_adj t))) eqn:C; [|discriminate]. apply (ctz32_ok _ k P) in C. tauto. }
  destruct G as (k & E & K). assert (M : to_oblivious V vo ceq (fuel + nodes d) t = Done (Some o)).
  { unfold to_oblivious in H |- *. destruct (is_pow2 (length (t_adj t))); [|exact H]. cbn [negb] in *. destruct (if length (t_adj t) =? 0 then Some 0 else ctz32 (length (t_adj t))) as [depth|]; [|exact H]. cbn [oopt obind] in *.
    destruct (traverse V vo ceq t depth fuel [(root t, 0)] ([], [])) as [r| |] eqn:T; try discriminate. rewrite (traverse_more _ _ _ _ _ _ (nodes d) T). exact H. }
  rewrite (to_oblivious_unfold (fuel + nodes d) t d It Lv ltac:(lia) k E K) in M. destruct (otrav t k d 0 ([], [])) as [[l a]|] eqn:O; [|discriminate]. injection M as <-. cbn [ot_sub ot_layers ot_adj fst snd].
  apply otrav_sound in O; [|cbn; lia]. destruct O as (L & (ext & X & Ic) & Ob & vs & Vs & ->). cbn [skipn app] in *. subst ext. rewrite L. auto 10.
Qed.
Lemma to_oblivious_complete fuel t d : is_tree t d -> leaves_ok t d -> nodes d <= fuel -> refl_on d -> is_oblivious ceq (leftmost d) d ->
  length (t_adj t) = 2 ^ length (leftmost d) -> length (leftmost d) < 32 -> exists o, to_oblivious V vo ceq fuel t = Done (Some o) /\ ot_layers V o = leftmost d.
Proof.
  intros It Lv Fu Re O E K. rewrite (to_oblivious_unfold fuel t d It Lv Fu _ E K). destruct (otrav_fresh t (length (leftmost d)) d [] [] Lv Re O eq_refl) as [a A]. cbn [length app] in A. rewrite A. eexists. split; reflexivity.
Qed.
Lemma to_oblivious_total fuel t d : is_tree t d -> leaves_ok t d -> nodes d <= fuel -> (N.of_nat (length (t_adj t)) < 2 ^ 32)%N -> exists r, to_oblivious V vo ceq fuel t = Done r.
Proof.
  intros It Lv Fu Sm. pose proof (adj_nonzero t d Lv) as Nz. destruct (is_pow2 (length (t_adj t))) eqn:P; [|unfold to_oblivious; rewrite P; cbn; eauto].
  apply (is_pow2_ok _ Nz) in P. destruct P as [k P]. rewrite (to_oblivious_unfold fuel t d It Lv Fu k P); [eauto|].
  rewrite P, Nat2N.inj_pow in Sm. change (N.of_nat 2) with 2%N in Sm. apply N.pow_lt_mono_r_iff in Sm; [lia|reflexivity].
Qed.
End tree.

(** ** The index of an oblivious tree. *)
Lemma binary_cons b bs : binary (b :: bs) = Nat.b2n b * 2 ^ length bs + binary bs.
Proof.
  unfold binary. cbn [fold_left]. generalize (Nat.b2n b) as n. intros n. rewrite Nat.mul_0_r, Nat.add_0_l.
  assert (G : forall bs n, fold_left (fun n b => 2 * n + Nat.b2n b) bs n = n * 2 ^ length bs + fold_left (fun n b => 2 * n + Nat.b2n b) bs 0).
  { clear. induction bs as [|b r IH]; intros n; [cbn; lia|]. cbn [fold_left length Nat.pow]. rewrite IH, (IH (2 * 0 + Nat.b2n b)). lia. }
  apply G.
Qed.
Lemma binary_lt bs : binary bs < 2 ^ length bs.
Proof. induction bs as [|b r IH]; [cbn; lia|]. rewrite binary_cons. cbn [length Nat.pow]. destruct b; cbn [Nat.b2n]; lia. Qed.
Lemma zin_In v l : zin v l = true <-> In v l.
Proof. unfold zin. rewrite existsb_exists. split; [intros (x & I & E); apply Z.eqb_eq in E; congruence|]. intros I. exists v. split; [exact I|apply Z.eqb_refl]. Qed.
Lemma cequals_ceval ot fr c d : cond_ok c -> cond_ok d -> supported c = true -> cequals c d = true -> ceval ot fr c = ceval ot fr d.
Proof.
  destruct c as [i l r|i vs m| |]; try discriminate; destruct d as [i' l' r'|i' vs' m'| |]; try discriminate; intros C D _ H; cbn [cequals] in H; apply andb_true_iff in H; destruct H as [H H2]; apply andb_true_iff in H; destruct H as [H H1]; apply Nat.eqb_eq in H; subst i'; cbn [ceval].
  - destruct (in_f32 fr i) as [v|]; [|reflexivity]. destruct C as [C1 C2], D as [D1 D2]. destruct (fnan v) eqn:Nv; [apply fnan_iff in Nv; subst v; rewrite !fle_nan_r; reflexivity|]. apply fnan_false in Nv.
    rewrite feq_flt, andb_true_iff, !negb_true_iff in H1, H2 by assumption. destruct H1 as [H1 H1'], H2 as [H2 H2']. rewrite !fle_flt by assumption. f_equal; f_equal.
    + destruct (flt v l) eqn:A, (flt v l') eqn:B; try reflexivity; [rewrite (flt_ntrans v l' l) in A by assumption|rewrite (flt_ntrans v l l') in B by assumption]; discriminate.
    + destruct (flt r v) eqn:A, (flt r' v) eqn:B; try reflexivity; [rewrite (flt_ntrans r r' v) in A by assumption|rewrite (flt_ntrans r' r v) in B by assumption]; discriminate.
  - destruct (in_i64 fr i) as [v|]; [|apply Bool.eqb_prop in H2; exact H2]. apply andb_true_iff in H1. destruct H1 as [E F]. apply Nat.eqb_eq in E. rewrite forallb_forall in F.
    assert (S1 : incl vs vs') by (intros x X; apply zin_In, F, X). assert (S2 : incl vs' vs) by (apply NoDup_length_incl; [exact C|lia|exact S1]).
    apply eq_true_iff_eq. rewrite !zin_In. split; [apply S1|apply S2].
Qed.
Lemma ceq_ceval ceq ot fr c d : ceq_ok ceq -> cond_ok c -> cond_ok d -> supported c = true -> c = d \/ ceq c d = true -> ceval ot fr c = ceval ot fr d.
Proof. intros Q C D S [->|H]; [reflexivity|]. apply Q in H. destruct H as [->|H]; [reflexivity|]. apply cequals_ceval; assumption. Qed.
Definition layers_ok (l : list cond) : Prop := forall c, In c l -> cond_ok c /\ supported c = true.
Lemma oblivious_index ceq ot fr : ceq_ok ceq -> forall layers d, is_oblivious ceq layers d -> layers_ok layers -> layers_ok (conds d) ->
  nth_error (leaves d) (binary (map (ceval ot fr) layers)) = Some (deval ot fr d).
Proof.
  intros Q. induction layers as [|c r IH]; intros [i|c' f t] O A B; cbn [is_oblivious] in O; try contradiction; [reflexivity|]. destruct O as (Ec & Of & Ot).
  cbn [map]. rewrite binary_cons, map_length. destruct (A c) as [A1 A2]; [left; reflexivity|]. destruct (B c') as [B1 B2]; [left; reflexivity|].
  pose proof (binary_lt (map (ceval ot fr) r)) as Lt. rewrite map_length in Lt. destruct (oblivious_height ceq r f Of) as (_ & _ & _ & Sf). unfold size in Sf.
  assert (Ar : layers_ok r) by (intros x X; apply A; right; exact X). cbn [leaves deval]. rewrite <- (ceq_ceval ceq ot fr c c' Q A1 B1 A2 Ec). destruct (ceval ot fr c); cbn [Nat.b2n].
  - rewrite nth_error_app2 by lia. replace (1 * 2 ^ length r + binary (map (ceval ot fr) r) - length (leaves f)) with (binary (map (ceval ot fr) r)) by lia.
    apply IH; [exact Ot|exact Ar|]. intros x X. apply B. right. apply in_app_iff. auto.
  - rewrite nth_error_app1 by lia. replace (0 * 2 ^ length r + binary (map (ceval ot fr) r)) with (binary (map (ceval ot fr) r)) by lia.
    apply IH; [exact Of|exact Ar|]. intros x X. apply B. right. apply in_app_iff. auto.
Qed.
(** The masks of the layers add up to the index. *)
Lemma tb_top b n y k : y < 2 ^ n -> tb (N.of_nat (Nat.b2n b * 2 ^ n + y)) k = (b && (k =? n)) || tb (N.of_nat y) k.
Proof.
  intros Y. destruct b; cbn [Nat.b2n andb orb]; [|rewrite Nat.mul_0_l; reflexivity]. rewrite Nat.mul_1_l, Nat2N.inj_add, Nat2N.inj_pow. change (N.of_nat 2) with 2%N.
  assert (W : wok n (N.of_nat y)). { apply wok_lt. assert (N.of_nat y < N.of_nat (2 ^ n))%N by lia. rewrite Nat2N.inj_pow in H. exact H. }
  assert (Z : N.land (2 ^ N.of_nat n) (N.of_nat y) = 0%N). { apply tb_inj. intros i. rewrite tb_land, tb_pow, tb_0. destruct (Nat.eqb_spec i n) as [->|]; [apply W; lia|reflexivity]. }
  rewrite N.add_nocarry_lxor, N.lxor_lor by exact Z. rewrite tb_lor, tb_pow. reflexivity.
Qed.
Lemma layer_mask_half n : N.shiftr (2 ^ N.of_nat (S n)) 1 = (2 ^ N.of_nat n)%N.
Proof. rewrite N.shiftr_div_pow2. change (2 ^ 1)%N with 2%N. rewrite Nat2N.inj_succ, N.pow_succ_r', N.mul_comm, N.div_mul; [reflexivity|discriminate]. Qed.
Lemma on_layers ot fr layers b : on ot fr (layer_masks (2 ^ N.of_nat (length layers)) layers) b <-> tb (N.of_nat (binary (map (ceval ot fr) layers))) b = true.
Proof.
  induction layers as [|c r IH]; cbn [layer_masks map length].
  - split; [intros (m & c & [] & _)|]. change (tb 0 b = true -> on ot fr [] b). rewrite tb_0. discriminate.
  - rewrite layer_mask_half. change ((2 ^ N.of_nat (length r))%N, c) with ((2 ^ N.of_nat (length r))%N, c). rewrite binary_cons, tb_top by apply binary_lt. rewrite map_length, orb_true_iff, andb_true_iff, <- tb_pow, <- IH, <- on_one.
    apply (on_app ot fr [_] _).
Qed.
Lemma oblivious_mask ot fr w layers : length layers <= w -> mask_of ot fr w (layer_masks (2 ^ N.of_nat (length layers)) layers) = N.of_nat (binary (map (ceval ot fr) layers)).
Proof.
  intros W. apply tb_inj. intros b. apply eq_true_iff_eq. rewrite tb_mask_on, on_layers. split; [tauto|]. intros T. split; [|exact T].
  destruct (Nat.lt_ge_cases b w); [assumption|]. exfalso. assert (K : wok (length layers) (N.of_nat (binary (map (ceval ot fr) layers)))).
  { apply wok_lt. pose proof (binary_lt (map (ceval ot fr) layers)) as L. rewrite map_length in L. assert (E : (N.of_nat (binary (map (ceval ot fr) layers)) < N.of_nat (2 ^ length layers))%N) by lia. rewrite Nat2N.inj_pow in E. exact E. }
  rewrite K in T by lia. discriminate.
Qed.
