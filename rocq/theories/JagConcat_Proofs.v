(** Proofs about concatenation of jagged shapes and arrays. *)
From Verif Require Import Base Bits_Model Bitmap_Model Dense_Model Dense_Spec Dense_Proofs Edge_Model Edge_Spec Edge_Proofs
  IdFilter_Model IdFilter_Spec IdFilter_Proofs Array_Model Array_Spec Array_Proofs ArrayIter_Proofs Jag_Model Jag_Spec Jag_Proofs.

Lemma mid_rd {X} (a : list X) x b n : length a = n -> rd (a ++ x :: b) n = Some x.
Proof. intros <-. unfold rd. rewrite nth_error_app2 by lia. rewrite Nat.sub_diag. reflexivity. Qed.
Lemma mid_upd {X} (a : list X) x y b n : length a = n -> upd (a ++ x :: b) n y = Some (a ++ y :: b).
Proof.
  intros <-. induction a as [|z a IH]; cbn [app length upd]; [reflexivity|]. rewrite IH. reflexivity.
Qed.

Definition W (cap : nat) (st : bst) (done : list nat) : Prop :=
  length (b_out st) = S cap /\ b_id st = length done /\ b_last st = Z.of_nat (list_sum done) /\
  forall t, t <= length done -> rd (b_out st) t = Some (Z.of_nat (list_sum (firstn t done))).
Lemma add_split_ok cap st done x : W cap st done -> length done < cap ->
  exists st', add_split st (Z.of_nat x) = Some st' /\ W cap st' (done ++ [x]) /\
    b_pos st' = b_pos st /\ b_gs st' = b_gs st /\ b_gi st' = b_gi st.
Proof.
  intros (Lo & Hi & Hl & Ho) H. unfold add_split. rewrite Hi, Hl.
  destruct (upd_lt (b_out st) (S (length done)) (Z.of_nat (list_sum done) + Z.of_nat x)%Z) as [o E]; [lia|]. rewrite E. cbn [bind].
  eexists. split; [reflexivity|]. split; [|auto]. unfold W. cbn [b_out b_id b_last].
  destruct (upd_spec _ _ _ _ E) as (_ & Lo' & Hu).
  split; [lia|]. rewrite app_length. cbn [length]. split; [lia|]. rewrite sum_app. cbn [list_sum fold_right]. split; [lia|].
  intros t Ht. rewrite Hu. destruct (Nat.eqb_spec t (S (length done))) as [->|N].
  - rewrite firstn_all2 by (rewrite app_length; cbn; lia). rewrite sum_app, sum_cons. f_equal. change (list_sum []) with 0. lia.
  - rewrite firstn_app. replace (t - length done) with 0 by lia. cbn [firstn]. rewrite app_nil_r. apply Ho. lia.
Qed.

Lemma group_loop_ok e j cc cap : forall c pre post st new done p1 p2,
  dim_rep e (pre ++ c ++ post) -> b_pos st = p1 ++ length pre :: p2 -> length p1 = j -> W cap st done ->
  (cc = false -> length done + length c <= cap) ->
  exists st', group_loop e j cc st new (length c) = Some (st', (new + Z.of_nat (list_sum c))%Z) /\
    b_pos st' = p1 ++ (length pre + length c) :: p2 /\ b_gs st' = b_gs st /\ b_gi st' = b_gi st /\
    W cap st' (if cc then done else done ++ c).
Proof.
  induction c as [|x c IH]; intros pre post st new done p1 p2 D P Lp Hw Hc; cbn [length group_loop].
  - exists st. rewrite Z.add_0_r, Nat.add_0_r, app_nil_r. split; [reflexivity|]. repeat split; try assumption; try (destruct cc; apply Hw).
  - rewrite P, (mid_rd p1 _ p2 j Lp). cbn [bind].
    rewrite (dim_split_size e _ (length pre) D) by (rewrite !app_length; cbn [length]; lia). cbn [bind].
    rewrite app_nth2 by lia. rewrite Nat.sub_diag. cbn [app nth]. rewrite (mid_upd p1 _ (S (length pre)) p2 j Lp). cbn [bind].
    set (st1 := mkB _ _ _ _ _ _).
    assert (W1 : W cap st1 done) by exact Hw.
    assert (exists st2, (if cc then Some st1 else add_split st1 (Z.of_nat x)) = Some st2 /\ W cap st2 (if cc then done else done ++ [x]) /\
      b_pos st2 = b_pos st1 /\ b_gs st2 = b_gs st1 /\ b_gi st2 = b_gi st1) as (st2 & E2 & W2 & P2 & G2 & I2).
    { destruct cc; [exists st1; auto|]. apply add_split_ok; [exact W1|]. specialize (Hc eq_refl). cbn [length] in Hc. lia. }
    rewrite E2. cbn [bind].
    destruct (IH (pre ++ [x]) post st2 (new + Z.of_nat x)%Z (if cc then done else done ++ [x]) p1 p2) as (st' & E' & P' & G' & I' & W').
    + rewrite <- app_assoc. exact D.
    + rewrite P2. unfold st1. cbn [b_pos]. rewrite app_length. cbn [length]. do 2 f_equal. lia.
    + exact Lp.
    + exact W2.
    + intros ->. specialize (Hc eq_refl). cbn [length] in Hc. rewrite app_length. cbn [length]. lia.
    + exists st'. rewrite E'. split; [f_equal; f_equal; rewrite sum_cons; lia|]. rewrite P', app_length. cbn [length].
      split; [do 2 f_equal; lia|]. rewrite G', G2, I', I2. unfold st1. cbn [b_gs b_gi]. split; [reflexivity|]. split; [reflexivity|].
      destruct cc; [exact W'|]. rewrite <- app_assoc in W'. exact W'.
Qed.

(** One row of groups: for each remaining shape what was read, the group and what follows. *)
Definition item : Type := shape * (list nat * list nat * list nat).
Definition ipre (i : item) := fst (fst (snd i)).
Definition igrp (i : item) := snd (fst (snd i)).
Definition ipost (i : item) := snd (snd i).
Definition item_ok (dim : nat) (i : item) : Prop := exists e, rd (fst i) dim = Some e /\ dim_rep e (ipre i ++ igrp i ++ ipost i).
Definition zsum (l : list nat) : Z := Z.of_nat (list_sum l).
Definition zlen' (l : list nat) : Z := Z.of_nat (length l).
Lemma row_loop_ok dim cc cap : forall items j st tot done p1 g1 g2,
  Forall (item_ok dim) items -> b_pos st = p1 ++ map (fun i => length (ipre i)) items -> length p1 = j ->
  b_gs st = g1 ++ map (fun i => zlen' (igrp i)) items ++ g2 -> b_gi st = length g1 -> W cap st done ->
  (cc = false -> length done + length (concat (map igrp items)) <= cap) ->
  exists st', row_loop (map fst items) dim j cc st tot = Some (st', (tot + zsum (concat (map igrp items)))%Z) /\
    b_pos st' = p1 ++ map (fun i => length (ipre i) + length (igrp i)) items /\
    b_gs st' = g1 ++ map (fun i => zsum (igrp i)) items ++ g2 /\ b_gi st' = length g1 + length items /\
    W cap st' (if cc then done else done ++ concat (map igrp items)).
Proof.
  induction items as [|[s [[pre c] post]] items IH]; intros j st tot done p1 g1 g2 F P Lp G Gi Hw Hc; cbn [map row_loop].
  - exists st. cbn [concat]. unfold zsum. change (list_sum []) with 0. rewrite Z.add_0_r, ?app_nil_r. split; [reflexivity|]. cbn [length]. rewrite Nat.add_0_r.
    cbn [map] in P. rewrite app_nil_r in P.
    split; [exact P|]. split; [exact G|]. split; [exact Gi|]. destruct cc; rewrite ?app_nil_r; exact Hw.
  - inversion F as [|? ? (e & Ee & De) F']; subst. unfold ipre, igrp, ipost in De. cbn [fst snd] in *.
    rewrite Ee. cbn [bind]. cbn [map app] in G, P. unfold zlen', igrp, ipre in G, P. cbn [fst snd] in G, P.
    rewrite G, Gi, (mid_rd g1 _ _ _ eq_refl). cbn [bind]. rewrite Nat2Z.id.
    cbn [map concat] in Hc |- *. change (igrp (s, (pre, c, post))) with c in *. rewrite app_length in Hc.
    destruct (group_loop_ok e (length p1) cc cap c pre post st 0%Z done p1 (map (fun i => length (ipre i)) items) De P eq_refl Hw) as (st1 & E1 & P1 & G1 & I1 & W1).
    { intros Hcc. specialize (Hc Hcc). lia. }
    rewrite E1. cbn [bind]. rewrite Z.add_0_l. rewrite I1, G1, G, Gi, (mid_upd g1 _ (Z.of_nat (list_sum c)) _ _ eq_refl). cbn [bind].
    set (st2 := mkB _ _ _ _ _ _).
    destruct (IH (S (length p1)) st2 (tot + Z.of_nat (list_sum c))%Z (if cc then done else done ++ c) (p1 ++ [length pre + length c]) (g1 ++ [zsum c]) g2) as (st' & E' & P' & G' & I' & W').
    + exact F'.
    + unfold st2. cbn [b_pos]. rewrite P1, <- app_assoc. reflexivity.
    + rewrite app_length. cbn [length]. lia.
    + unfold st2. cbn [b_gs]. rewrite <- app_assoc. reflexivity.
    + unfold st2. cbn [b_gi]. rewrite app_length. cbn [length]. lia.
    + exact W1.
    + intros Hcc. specialize (Hc Hcc). rewrite Hcc. rewrite app_length. lia.
    + exists st'. rewrite E'. split; [f_equal; f_equal; unfold zsum; rewrite sum_app; lia|].
      rewrite P', G', I', <- !app_assoc, app_length. cbn [app length map]. change (igrp (s, (pre, c, post))) with c.
      split; [reflexivity|]. split; [reflexivity|]. split; [lia|]. destruct cc; [exact W'|]. rewrite <- app_assoc in W'. exact W'.
Qed.

(** ** Matrices of pieces *)
Definition col {X} (j : nat) (C : list (list (list X))) : list X := concat (map (fun row => nth j row []) C).
Lemma nth_seq_id {X} (l : list X) d : map (fun j => nth j l d) (seq 0 (length l)) = l.
Proof.
  induction l as [|x l IH]; [reflexivity|]. cbn [length seq map nth]. f_equal. rewrite <- seq_shift, map_map. exact IH.
Qed.
Lemma rows_loop_ok dim (cc : bool) cap (shapes : list shape) : forall (C : list (list (list nat))) (pres : list (list nat)) st done g1,
  Forall (fun row => length row = length shapes) C -> length pres = length shapes ->
  (forall j, j < length shapes -> exists e, rd (nth j shapes []) dim = Some e /\ dim_rep e (nth j pres [] ++ col j C)) ->
  b_pos st = map (@length nat) pres -> b_gs st = g1 ++ concat (map (map zlen') C) -> b_gi st = length g1 -> W cap st done ->
  length done + (if cc then length C else length (concat (concat C))) <= cap ->
  exists st', rows_loop shapes dim cc st (length C) = Some st' /\ b_gs st' = g1 ++ concat (map (map zsum) C) /\
    W cap st' (done ++ if cc then map (fun row => list_sum (concat row)) C else concat (concat C)).
Proof.
  induction C as [|row C IH]; intros pres st done g1 F Lp D P G Gi Hw Hc; cbn [length rows_loop].
  - exists st. split; [reflexivity|]. split; [exact G|]. destruct cc; cbn [map concat]; rewrite app_nil_r; exact Hw.
  - inversion F as [|? ? Lr F']; subst.
    set (k := length shapes) in *.
    set (items := map (fun j => (nth j shapes [], (nth j pres [], nth j row [], col j C)) : item) (seq 0 k)).
    assert (M1 : map fst items = shapes) by (unfold items; rewrite map_map; cbn [fst]; apply nth_seq_id).
    assert (M2 : map igrp items = row). { unfold items. rewrite map_map. unfold igrp. cbn [fst snd]. rewrite <- Lr. apply nth_seq_id. }
    assert (M3 : map ipre items = pres). { unfold items. rewrite map_map. unfold ipre. cbn [fst snd]. rewrite <- Lp. apply nth_seq_id. }
    assert (Li : length items = k) by (unfold items; rewrite map_length, seq_length; reflexivity).
    destruct (row_loop_ok dim cc cap items 0 st 0%Z done [] g1 (concat (map (map zlen') C))) as (st1 & E1 & P1 & G1 & I1 & W1).
    + unfold items. apply Forall_forall. intros i Hi. apply in_map_iff in Hi as (j & <- & Hj). apply in_seq in Hj.
      unfold item_ok, ipre, igrp, ipost. cbn [fst snd]. destruct (D j) as (e & Ee & De); [lia|]. exists e. split; [exact Ee|]. exact De.
    + cbn [app]. rewrite P, <- M3, map_map. reflexivity.
    + reflexivity.
    + rewrite G. cbn [map concat]. rewrite <- M2, map_map. reflexivity.
    + exact Gi.
    + exact Hw.
    + intros ->. rewrite M2. cbn [concat] in Hc. rewrite concat_app, app_length in Hc. lia.
    + rewrite M1 in E1. rewrite E1. cbn [bind]. rewrite M2 in *. rewrite Z.add_0_l.
      assert (exists st2, (if cc then add_split st1 (zsum (concat row)) else Some st1) = Some st2 /\
        W cap st2 (done ++ if cc then [list_sum (concat row)] else concat row) /\ b_pos st2 = b_pos st1 /\ b_gs st2 = b_gs st1 /\ b_gi st2 = b_gi st1) as (st2 & E2 & W2 & P2 & G2 & I2).
      { destruct cc; [|exists st1; auto]. apply add_split_ok; [exact W1|]. cbn [length] in Hc. lia. }
      rewrite E2. cbn [bind].
      destruct (IH (map (fun j => nth j pres [] ++ nth j row []) (seq 0 k)) st2 (done ++ if cc then [list_sum (concat row)] else concat row) (g1 ++ map zsum row)) as (st' & E' & G' & W').
      * exact F'.
      * rewrite map_length, seq_length. reflexivity.
      * intros j Hj. destruct (D j Hj) as (e & Ee & De). exists e. split; [exact Ee|].
        rewrite (nth_indep _ [] (nth 0 pres [] ++ nth 0 row [])) by (rewrite map_length, seq_length; exact Hj).
        rewrite (map_nth (fun j => nth j pres [] ++ nth j row [])), seq_nth by exact Hj. rewrite <- app_assoc. exact De.
      * rewrite P2, P1. unfold items. rewrite !map_map. apply map_ext. intros j. rewrite app_length. reflexivity.
      * rewrite G2, G1, <- app_assoc. rewrite <- (map_map igrp zsum), M2. reflexivity.
      * rewrite I2, I1, app_length, map_length. lia.
      * exact W2.
      * rewrite app_length. destruct cc; cbn [length] in *; [lia|]. cbn [concat] in Hc. rewrite concat_app, app_length in Hc. lia.
      * exists st'. split; [exact E'|]. rewrite G', <- !app_assoc. split; [reflexivity|].
        rewrite <- app_assoc in W'. destruct cc; cbn [map concat app] in *; [exact W'|]. rewrite concat_app. exact W'.
Qed.
Lemma rd_lt_len {X} (l : list X) n : length l = S n -> exists x, rd l 0 = Some x.
Proof. intros H. apply rd_lt. lia. Qed.
Lemma build_suffix_ok alloc dim (cc : bool) (shapes : list shape) (C : list (list (list nat))) : alloc_ok alloc ->
  Forall (fun row => length row = length shapes) C ->
  (forall j, j < length shapes -> exists e, rd (nth j shapes []) dim = Some e /\ dim_rep e (col j C)) ->
  let res := if cc then map (fun row => list_sum (concat row)) C else concat (concat C) in
  exists e, build_suffix alloc shapes dim (concat (map (map zlen') C)) (Z.of_nat (length C)) (Z.of_nat (length res)) cc =
    Some (e, concat (map (map zsum) C)) /\ dim_rep e res.
Proof.
  intros Ha F D res. unfold build_suffix.
  replace (Z.to_nat (Z.of_nat (length res) + 1)) with (S (length res)) by lia.
  destruct (upd_lt (alloc (S (length res))) 0 0%Z) as [o Eo]; [rewrite Ha; lia|]. rewrite Eo. cbn [bind].
  destruct (upd_spec _ _ _ _ Eo) as (_ & Lo & Ho). rewrite Ha in Lo. rewrite Nat2Z.id.
  destruct (rows_loop_ok dim cc (length res) shapes C (repeat [] (length shapes)) (mkB o 0 0%Z (repeat 0 (length shapes)) (concat (map (map zlen') C)) 0) [] []) as (st & E & G & Wd).
  - exact F.
  - apply repeat_length.
  - intros j Hj. replace (nth j (repeat [] (length shapes)) []) with (@nil nat); [apply (D j Hj)|].
    symmetry. apply nth_repeat.
  - cbn [b_pos]. clear. induction shapes as [|s l IH]; [reflexivity|]. cbn [length repeat map]. f_equal. exact IH.
  - reflexivity.
  - reflexivity.
  - split; [exact Lo|]. split; [reflexivity|]. split; [reflexivity|]. intros t Ht. cbn [length] in Ht. assert (t = 0) by lia. subst t.
    cbn [b_out]. rewrite Ho. reflexivity.
  - cbn [length]. unfold res. destruct cc; [rewrite map_length|]; lia.
  - rewrite E. cbn [bind]. fold res in Wd. rewrite app_nil_l in Wd, G. destruct Wd as (L1 & _ & _ & H1).
    assert (Out : b_out st = zs (psums res)).
    { apply list_eq_rd. intros t. destruct (Nat.le_gt_cases t (length res)) as [Hl|Hl].
      - rewrite H1, rd_zs by (rewrite ?psums_len; lia). rewrite psums_nth by lia. reflexivity.
      - unfold rd. rewrite (proj2 (nth_error_None _ _)), (proj2 (nth_error_None _ _)); [reflexivity|rewrite zs_len, psums_len; lia|lia]. }
    destruct (unsafe_split_ok (mkD (b_out st) [] 0) (psums res) (length res) (rows_of 0 res)) as (e & Ee & Es & _ & Re).
    + rewrite Out. apply rep_plain.
    + apply psums_split.
    + rewrite Ee. cbn [bind]. exists e. rewrite G. split; [reflexivity|]. split; assumption.
Qed.

(** ** Nested lists *)
Lemma concat_single {X} (l : list X) : concat (map (fun x => [x]) l) = l.
Proof. induction l as [|x l IH]; [reflexivity|]. cbn. f_equal. exact IH. Qed.
Lemma concat_concat {X} (l : list (list (list X))) : concat (map (@concat X) l) = concat (concat l).
Proof. induction l as [|x l IH]; [reflexivity|]. cbn [map concat]. rewrite concat_app, IH. reflexivity. Qed.
Lemma sum_lengths {X} (l : list (list X)) : list_sum (map (@length X) l) = length (concat l).
Proof. induction l as [|x l IH]; [reflexivity|]. cbn [map concat]. rewrite sum_cons, app_length, IH. reflexivity. Qed.
Lemma data_app {A} r : forall (a b : list (nest A r)), data_of r (a ++ b) = data_of r a ++ data_of r b.
Proof. induction r as [|r IH]; intros a b; cbn [data_of]; [reflexivity|]. rewrite concat_app. apply IH. Qed.
Lemma data_nil {A} r : data_of (A := A) r [] = [].
Proof. induction r as [|r IH]; [reflexivity|]. exact IH. Qed.
Lemma data_concat {A} r (l : list (list (nest A r))) : data_of r (concat l) = concat (map (data_of r) l).
Proof. induction l as [|x l IH]; [apply data_nil|]. cbn [map concat]. rewrite data_app, IH. reflexivity. Qed.
Lemma shape_len {A} r : forall (F : list (nest A r)), length (shape_of r F) = r.
Proof. induction r as [|r IH]; intros F; cbn [shape_of length]; [reflexivity|]. rewrite IH. reflexivity. Qed.
Lemma shape_ok {A} r : forall (F : list (nest A r)), sizes_ok (length F) (shape_of r F) /\ total (length F) (shape_of r F) = length (data_of r F).
Proof.
  induction r as [|r IH]; intros F; cbn [shape_of sizes_ok total data_of]; [auto|]. rewrite map_length, sum_lengths. destruct (IH (concat F)). auto.
Qed.
Lemma col_map {X Y} (f : X -> Y) j P : col j (map (map (map f)) P) = map f (col j P).
Proof.
  unfold col. rewrite concat_map, !map_map. f_equal. apply map_ext. intros row. change (@nil Y) with (map f []) at 1. apply map_nth.
Qed.
Lemma col_concat {X} j (P : list (list (list (list X)))) : col j (map (map (@concat X)) P) = concat (col j P).
Proof.
  unfold col. rewrite <- concat_concat, !map_map. f_equal. apply map_ext. intros row. change (@nil X) with (@concat X []) at 1. apply map_nth.
Qed.
Lemma rows_map {X Y} (f : X -> Y) k P : Forall (fun row => length row = k) P -> Forall (fun row => length row = k) (map (map f) P).
Proof. intros F. apply Forall_map. eapply Forall_impl; [|exact F]. intros row H. cbn. rewrite map_length. exact H. Qed.

Definition zl {X} (l : list X) : Z := Z.of_nat (length l).
Lemma level_ok {A} alloc dim (cc : bool) (shapes : list shape) r (P : list (list (list (nest A (S r))))) : alloc_ok alloc ->
  Forall (fun row => length row = length shapes) P ->
  (forall j, j < length shapes -> exists e, rd (nth j shapes []) dim = Some e /\ dim_rep e (map (@length (nest A r)) (col j P))) ->
  let res := if cc then map (fun row => length (concat (concat row))) P else map (@length (nest A r)) (concat (concat P)) in
  exists e, build_suffix alloc shapes dim (concat (map (map zl) P)) (Z.of_nat (length P)) (Z.of_nat (length res)) cc =
    Some (e, concat (map (map zl) (map (map (@concat (nest A r))) P))) /\ dim_rep e res.
Proof.
  intros Ha F D res.
  destruct (build_suffix_ok alloc dim cc shapes (map (map (map (@length (nest A r)))) P) Ha) as (e & E & De).
  - apply rows_map, F.
  - intros j Hj. destruct (D j Hj) as (e & Ee & De). exists e. rewrite col_map. auto.
  - assert (Er : (if cc then map (fun row => list_sum (concat row)) (map (map (map (@length (nest A r)))) P)
                else concat (concat (map (map (map (@length (nest A r)))) P))) = res).
    { unfold res. destruct cc.
      - rewrite map_map. apply map_ext. intros row. rewrite <- concat_map, sum_lengths. reflexivity.
      - rewrite <- concat_map, <- concat_map. reflexivity. }
    rewrite Er in E, De. exists e. split; [|exact De]. rewrite map_length in E. rewrite !map_map in E. rewrite !map_map.
    rewrite (map_ext (fun x => map zlen' (map (map (@length (nest A r))) x)) (map zl)) in E.
    2: { intros row. rewrite map_map. apply map_ext. intros l. unfold zlen', zl. rewrite map_length. reflexivity. }
    rewrite (map_ext (fun x => map zsum (map (map (@length (nest A r))) x)) (fun x => map zl (map (@concat (nest A r)) x))) in E.
    2: { intros row. rewrite !map_map. apply map_ext. intros l. unfold zsum, zl. rewrite sum_lengths. reflexivity. }
    exact E.
Qed.
Lemma back_snoc es e : back_child (es ++ [e]) = e_child e.
Proof. unfold back_child. rewrite rev_app_distr. reflexivity. Qed.
Lemma rd_app_F2 s a b c : Forall2 dim_rep s (a ++ b :: c) -> exists e, rd s (length a) = Some e /\ dim_rep e b.
Proof.
  revert s; induction a as [|x a IH]; intros s F; inversion F as [|e ? s' ? D F']; subst; [exists e; auto|]. apply (IH s' F').
Qed.
(** Every dimension after the one where the inputs are joined. *)
Lemma suffix_ok {A} alloc (shapes : list shape) insert dim : alloc_ok alloc -> forall r (P : list (list (list (nest A r)))) es i_dim,
  insert = true \/ dim < i_dim -> Forall (fun row => length row = length shapes) P ->
  (forall j, j < length shapes -> exists pre, length pre = i_dim /\ Forall2 dim_rep (nth j shapes []) (pre ++ shape_of r (col j P))) ->
  back_child es = Z.of_nat (length (concat (concat P))) ->
  exists es', suffix_loop alloc shapes insert dim (Z.of_nat (length P)) es (concat (map (map zl) P)) i_dim r =
    Some (es ++ es', concat (map (map zl) (map (map (data_of r)) P))) /\ Forall2 dim_rep es' (shape_of r (concat (concat P))).
Proof.
  intros Ha. induction r as [|r IH]; intros P es i_dim Hi F D B; cbn [suffix_loop shape_of].
  - exists []. rewrite app_nil_r. split; [|constructor]. do 2 f_equal. f_equal. rewrite map_map. apply map_ext. intros row. rewrite map_map. reflexivity.
  - change (nest A (S r)) with (list (nest A r)) in *.
    replace (negb insert && (i_dim =? dim)) with false by (destruct Hi as [->|Hi]; [reflexivity|destruct insert; cbn; lia]).
    destruct (level_ok alloc i_dim false shapes r P Ha F) as (e & E & De).
    { intros j Hj. destruct (D j Hj) as (pre & Lp & Fj). cbn [shape_of] in Fj. destruct (rd_app_F2 _ _ _ _ Fj) as (e & Ee & De). rewrite Lp in Ee. eauto. }
    cbv iota in E, De. change (nest A (S r)) with (list (nest A r)) in *. rewrite map_length in E. rewrite <- B in E. rewrite E. cbn [bind].
    set (P' := map (map (@concat (nest A r))) P) in *.
    assert (CC : concat (concat P') = concat (concat (concat P))) by (unfold P'; rewrite <- concat_map; apply concat_concat).
    destruct (IH P' (es ++ [e]) (S i_dim)) as (es' & E' & F').
    + destruct Hi as [Hi|Hi]; [left; exact Hi|right; lia].
    + apply rows_map, F.
    + intros j Hj. destruct (D j Hj) as (pre & Lp & Fj). cbn [shape_of] in Fj.
      exists (pre ++ [map (@length (nest A r)) (col j P)]). split; [rewrite app_length; cbn; lia|]. rewrite <- app_assoc. unfold P'. rewrite col_concat. exact Fj.
    + rewrite back_snoc. destruct (dim_facts _ _ De) as (_ & _ & C & _). rewrite C, sum_lengths, CC. reflexivity.
    + unfold P' in E' at 1. rewrite map_length in E'. rewrite E'. exists (e :: es'). rewrite <- app_assoc. split.
      * do 2 f_equal. f_equal. unfold P'. rewrite !map_map. apply map_ext. intros row. rewrite !map_map. reflexivity.
      * constructor; [exact De|]. rewrite CC in F'. exact F'.
Qed.
Lemma suffix_step alloc shapes insert dim G es gs i n e gs' :
  build_suffix alloc shapes i gs G (back_child es) (negb insert && (i =? dim)) = Some (e, gs') ->
  suffix_loop alloc shapes insert dim G es gs i (S n) = suffix_loop alloc shapes insert dim G (es ++ [e]) gs' (S i) n.
Proof. intros E. cbn [suffix_loop]. rewrite E. reflexivity. Qed.
(** From the dimension where the inputs are joined: one row per group. *)
Lemma concat_levels {A} alloc (shapes : list shape) dim r (P : list (list (list (nest A (S r))))) es : alloc_ok alloc ->
  Forall (fun row => length row = length shapes) P ->
  (forall j, j < length shapes -> exists pre, length pre = dim /\ Forall2 dim_rep (nth j shapes []) (pre ++ shape_of (S r) (col j P))) ->
  back_child es = Z.of_nat (length P) ->
  exists es', suffix_loop alloc shapes false dim (Z.of_nat (length P)) es (concat (map (map zl) P)) dim (S r) =
    Some (es ++ es', concat (map (map zl) (map (map (data_of (S r))) P))) /\
    Forall2 dim_rep es' (shape_of (S r) (map (fun row => concat (concat row)) P)).
Proof.
  intros Ha F D B.
  destruct (level_ok alloc dim true shapes r P Ha F) as (e & E & De).
  { intros j Hj. destruct (D j Hj) as (pre & Lp & Fj). cbn [shape_of] in Fj. destruct (rd_app_F2 _ _ _ _ Fj) as (e & Ee & De). rewrite Lp in Ee. eauto. }
  cbv iota in E, De. rewrite map_length in E.
  assert (E0 : build_suffix alloc shapes dim (concat (map (map zl) P)) (Z.of_nat (length P)) (back_child es) (negb false && (dim =? dim)) = Some (e, concat (map (map zl) (map (map (@concat (nest A r))) P)))).
  { rewrite Nat.eqb_refl, B. exact E. }
  set (P' := map (map (@concat (nest A r))) P) in *.
  assert (CC : concat (concat P') = concat (map (fun row => concat (concat row)) P)).
  { unfold P'. rewrite <- concat_map, concat_concat. rewrite <- (map_map (@concat _) (@concat _)), concat_concat, concat_concat. reflexivity. }
  destruct (suffix_ok alloc shapes false dim Ha r P' (es ++ [e]) (S dim)) as (es' & E' & F').
  - right. lia.
  - apply rows_map, F.
  - intros j Hj. destruct (D j Hj) as (pre & Lp & Fj). cbn [shape_of] in Fj.
    exists (pre ++ [map (@length (nest A r)) (col j P)]). split; [rewrite app_length; cbn; lia|]. rewrite <- app_assoc. unfold P'. rewrite col_concat. exact Fj.
  - rewrite back_snoc. destruct (dim_facts _ _ De) as (_ & _ & C & _). rewrite C, CC, <- sum_lengths, map_map. reflexivity.
  - unfold P' in E' at 1. rewrite map_length in E'. exists (e :: es'). rewrite <- app_assoc in E'. split.
    + refine (eq_trans (suffix_step _ _ _ _ _ _ _ _ _ _ _ E0) (eq_trans E' _)). do 2 f_equal. f_equal. unfold P'. rewrite !map_map. apply map_ext. intros row. rewrite !map_map. reflexivity.
    + cbn [shape_of]. rewrite map_map. constructor; [exact De|]. rewrite CC in F'. exact F'.
Qed.

(** ** Walking down the inputs together *)
Lemma cons_split {X} (Fs : list (list (list X))) x L : Forall (fun F => map (@length X) F = x :: L) Fs ->
  exists ps, Fs = map (fun p => fst p :: snd p) ps /\ Forall (fun p => length (fst p) = x /\ map (@length X) (snd p) = L) ps.
Proof.
  induction 1 as [|F Fs H _ (ps & -> & Fp)]; [exists []; split; [reflexivity|constructor]|].
  destruct F as [|h t]; [discriminate|]. cbn [map] in H. exists ((h, t) :: ps). split; [reflexivity|]. constructor; [|exact Fp]. cbn. split; congruence.
Qed.
Lemma cons_split1 {X} (Fs : list (list X)) n : Forall (fun F => length F = S n) Fs ->
  exists ps, Fs = map (fun p => fst p :: snd p) ps /\ Forall (fun p => length (snd p) = n) ps.
Proof.
  induction 1 as [|F Fs H _ (ps & -> & Fp)]; [exists []; split; [reflexivity|constructor]|].
  destruct F as [|h t]; [discriminate|]. exists ((h, t) :: ps). split; [reflexivity|]. constructor; [|exact Fp]. cbn in *. lia.
Qed.
Lemma heads_map {X} (ps : list (X * list X)) : flat_map (firstn 1) (map (fun p => fst p :: snd p) ps) = map fst ps.
Proof. induction ps as [|p ps IH]; [reflexivity|]. cbn. f_equal. exact IH. Qed.
Lemma tails_map {X} (ps : list (X * list X)) : map (skipn 1) (map (fun p => fst p :: snd p) ps) = map snd ps.
Proof. rewrite map_map. reflexivity. Qed.
Lemma rows_at_cons {X} n (ps : list (X * list X)) : rows_at (S n) (map (fun p => fst p :: snd p) ps) = map fst ps :: rows_at n (map snd ps).
Proof. cbn [rows_at]. rewrite heads_map, tails_map. reflexivity. Qed.
Lemma rows_at_len {X} n : forall (Fs : list (list X)), length (rows_at n Fs) = n.
Proof. induction n as [|n IH]; intros Fs; [reflexivity|]. cbn [rows_at length]. rewrite IH. reflexivity. Qed.
Lemma rows_at_width {X} n : forall (Fs : list (list X)), Forall (fun F => length F = n) Fs ->
  Forall (fun row => length row = length Fs) (rows_at n Fs).
Proof.
  induction n as [|n IH]; intros Fs F; [constructor|]. destruct (cons_split1 Fs n F) as (ps & -> & Fp). rewrite rows_at_cons.
  rewrite map_length. constructor; [apply map_length|]. rewrite <- (map_length snd ps). apply IH. apply Forall_map. exact Fp.
Qed.
Lemma rows_at_app {X Y} n N : forall (ps : list Y) (f g : Y -> list X), Forall (fun p => length (f p) = n) ps ->
  rows_at (n + N) (map (fun p => f p ++ g p) ps) = rows_at n (map f ps) ++ rows_at N (map g ps).
Proof.
  induction n as [|n IH]; intros ps f g F.
  - cbn [Nat.add rows_at app]. f_equal. apply map_ext_in. intros p Hp. rewrite Forall_forall in F. specialize (F p Hp).
    destruct (f p); [reflexivity|discriminate].
  - cbn [Nat.add rows_at app]. f_equal.
    + rewrite !flat_map_concat_map, !map_map. f_equal. apply map_ext_in. intros p Hp. rewrite Forall_forall in F. specialize (F p Hp).
      destruct (f p); [discriminate|reflexivity].
    + rewrite !map_map. rewrite <- (IH ps (fun p => skipn 1 (f p)) g).
      * f_equal. apply map_ext_in. intros p Hp. rewrite Forall_forall in F. specialize (F p Hp). destruct (f p); [discriminate|reflexivity].
      * apply Forall_forall. intros p Hp. rewrite Forall_forall in F. specialize (F p Hp). rewrite skipn_length. lia.
Qed.
Lemma tr_concat {X} L : forall (Fs : list (list (list X))), Fs <> [] -> Forall (fun F => map (@length X) F = L) Fs ->
  concat (map transpose (rows_at (length L) Fs)) = rows_at (list_sum L) (map (@concat X) Fs) /\
  map (@length (list X)) (map transpose (rows_at (length L) Fs)) = L.
Proof.
  induction L as [|x L IH]; intros Fs Hn F; [split; reflexivity|]. destruct (cons_split Fs x L F) as (ps & -> & Fp). cbn [length]. rewrite rows_at_cons.
  assert (Hp : ps <> []) by (intros ->; apply Hn; reflexivity).
  destruct (IH (map snd ps)) as [I1 I2].
  { intros E. apply map_eq_nil in E. contradiction. }
  { apply Forall_map. eapply Forall_impl; [|exact Fp]. intros p H. apply H. }
  assert (T : transpose (map fst ps) = rows_at x (map fst ps)).
  { unfold transpose. f_equal. destruct Fp as [|p ps [H _] _]; [contradiction|]. exact H. }
  cbn [map concat]. rewrite I1, I2, T, rows_at_len, sum_cons. split; [|reflexivity].
  rewrite !map_map. cbn [concat]. rewrite (rows_at_app x (list_sum L) ps fst (fun p => concat (snd p))); [reflexivity|].
  eapply Forall_impl; [|exact Fp]. intros p H. apply H.
Qed.

Fixpoint desc {A} (r d : nat) : list (nest A (d + r)) -> list (nest A r) :=
  match d with O => fun xs => xs | S d' => fun xs => desc r d' (concat xs) end.
Lemma shape_desc {A} r d : forall F : list (nest A (d + r)), shape_of (d + r) F = firstn d (shape_of (d + r) F) ++ shape_of r (desc r d F).
Proof. induction d as [|d IH]; intros F; [reflexivity|]. cbn [Nat.add shape_of desc firstn app]. f_equal. apply (IH (concat F)). Qed.
Lemma data_desc {A} r d : forall F : list (nest A (d + r)), data_of (d + r) F = data_of r (desc r d F).
Proof. induction d as [|d IH]; intros F; [reflexivity|]. apply (IH (concat F)). Qed.
Lemma desc_len {A} r d : forall F : list (nest A (d + r)), length (desc r d F) = total (length F) (firstn d (shape_of (d + r) F)).
Proof. induction d as [|d IH]; intros F; [reflexivity|]. cbn [Nat.add desc shape_of firstn total]. rewrite IH, sum_lengths. reflexivity. Qed.

Lemma depth_ok {A r q} (f : list (nest A r) -> nest A q) d : forall (Fs : list (list (nest A (d + r)))) n pre,
  Fs <> [] -> Forall (fun F => length F = n /\ firstn d (shape_of (d + r) F) = pre) Fs ->
  desc q d (map (at_depth f d) (rows_at n Fs)) = map f (rows_at (total n pre) (map (desc r d) Fs)) /\
  firstn d (shape_of (d + q) (map (at_depth f d) (rows_at n Fs))) = pre.
Proof.
  induction d as [|d IH]; intros Fs n pre Hn F.
  - assert (pre = []) as -> by (destruct F as [|? ? [_ H] _]; [contradiction|symmetry; exact H]).
    cbn [Nat.add desc total at_depth firstn] in *. split; [|reflexivity]. do 2 f_equal. symmetry. apply map_id.
  - destruct pre as [|L pre]; [destruct F as [|F0 ? [_ H] _]; [contradiction|cbn in H; discriminate]|].
    assert (FL : Forall (fun F : list (list (nest A (d + r))) => map (@length (nest A (d + r))) F = L) Fs).
    { eapply Forall_impl; [|exact F]. intros G [_ H]. apply (f_equal (hd [])) in H. exact H. }
    assert (Ln : n = length L).
    { destruct F as [|F0 ? [H _] _]; [contradiction|]. inversion FL as [|? ? H1 _]; subst. rewrite map_length. reflexivity. }
    destruct (tr_concat (X := nest A (d + r)) L Fs Hn FL) as [T1 T2]. rewrite <- Ln in T1, T2.
    destruct (IH (map (@concat (nest A (d + r))) Fs) (list_sum L) pre) as [I1 I2].
    { intros E. apply map_eq_nil in E. contradiction. }
    { apply Forall_map. clear - F FL. rewrite Forall_forall in *. intros G HG. specialize (F G HG). specialize (FL G HG). destruct F as [_ F].
      split; [rewrite <- FL; symmetry; apply sum_lengths|]. apply (f_equal (@tl _)) in F. exact F. }
    assert (CM : concat (map (at_depth f (S d)) (rows_at n Fs)) = map (at_depth f d) (rows_at (list_sum L) (map (@concat (nest A (d + r))) Fs))).
    { rewrite <- T1, concat_map, map_map. reflexivity. }
    split.
    + change (desc q (S d) (map (at_depth f (S d)) (rows_at n Fs))) with (desc q d (concat (map (at_depth f (S d)) (rows_at n Fs)))).
      rewrite CM, I1. cbn [total]. rewrite map_map. reflexivity.
    + change (shape_of (S d + q) (map (at_depth f (S d)) (rows_at n Fs))) with
        (map (@length (nest A (d + q))) (map (at_depth f (S d)) (rows_at n Fs)) :: shape_of (d + q) (concat (map (at_depth f (S d)) (rows_at n Fs)))).
      cbn [firstn]. rewrite CM, I2. f_equal. rewrite <- T2, !map_map. apply map_ext. intros row. cbn [at_depth]. apply map_length.
Qed.
Lemma row_single {X} (xs : list X) : rows_at 1 (map (fun x => [x]) xs) = [xs].
Proof. cbn [rows_at]. f_equal. rewrite flat_map_concat_map, map_map. apply concat_single. Qed.
(** Column [j] of the rows of the inputs is input [j]. *)
Lemma col_rows {X} n : forall (Fs : list (list X)) j, Forall (fun F => length F = n) Fs ->
  col j (map (map (fun x => [x])) (rows_at n Fs)) = nth j Fs [] .
Proof.
  induction n as [|n IH]; intros Fs j F.
  - cbn. destruct (Nat.lt_ge_cases j (length Fs)) as [L|L]; [|rewrite nth_overflow by exact L; reflexivity].
    rewrite Forall_forall in F. specialize (F (nth j Fs []) (nth_In _ _ L)). destruct (nth j Fs []); [reflexivity|discriminate].
  - destruct (cons_split1 Fs n F) as (ps & -> & Fp). rewrite rows_at_cons. unfold col in *. cbn [map concat]. rewrite IH by (apply Forall_map; exact Fp).
    rewrite map_map. clear. revert j. induction ps as [|p ps IH]; intros [|j]; try reflexivity. apply (IH j).
Qed.

(** ** Checks of the inputs *)
Lemma prefix_equiv_ok alloc a sa b sb d : alloc_ok alloc -> Forall2 dim_rep a sa -> Forall2 dim_rep b sb -> d <= length a -> d <= length b ->
  exists r, prefix_equiv alloc a b d = Some r /\ (r = true <-> firstn d sb = firstn d sa).
Proof.
  intros Ha. revert a sa b sb. induction d as [|d IH]; intros a sa b sb F Fb La Lb; [exists true; split; [destruct a; reflexivity|split; reflexivity]|].
  destruct F as [|x s a sa D F]; [cbn in La; lia|]. destruct Fb as [|y t b sb D' Fb]; [cbn in Lb; lia|]. cbn [prefix_equiv].
  destruct (is_equivalent_ok alloc x y _ _ _ _ Ha (proj2 D) (proj2 D')) as (r & E & Hr). rewrite E. cbn [bind firstn].
  assert (Hr' : r = true <-> s = t). { rewrite Hr. split; [intros [E1 E2]; exact (rows_inj s t E1 E2)|intros ->; auto]. }
  destruct r; cbn [negb].
  + destruct (IH a sa b sb F Fb) as (r & E' & H'); [cbn in La; lia|cbn in Lb; lia|]. exists r. split; [exact E'|]. rewrite H'.
    assert (s = t) by tauto. subst t. split; congruence.
  + exists false. split; [reflexivity|]. split; [discriminate|]. intros H. assert (s = t) by congruence. tauto.
Qed.
Definition alike (d : nat) (z0 z : list (list nat)) : Prop := length z = length z0 /\ firstn d z = firstn d z0.
Lemma check_shapes_ok alloc s0 z0 d : alloc_ok alloc -> shape_rep s0 z0 -> d <= length z0 -> forall shapes zs,
  Forall2 shape_rep shapes zs ->
  exists c, check_shapes alloc s0 shapes d = Some c /\ (c = None <-> Forall (alike d z0) zs).
Proof.
  intros Ha R0 Hd shapes zs F. induction F as [|s z shapes zs R F IH]; cbn [check_shapes]; [exists None; split; [reflexivity|]; split; constructor|].
  assert (L0 := F2_len _ _ _ (proj1 R0)). assert (L := F2_len _ _ _ (proj1 R)).
  destruct (Nat.eqb_spec (length s) (length s0)) as [E|E]; cbn [negb].
  2: { eexists. split; [reflexivity|]. split; [discriminate|]. intros H. inversion H as [|? ? [H1 _] _]; subst. lia. }
  destruct (prefix_equiv_ok alloc s0 z0 s z d Ha (proj1 R0) (proj1 R)) as (r & Er & Hr); [lia..|]. rewrite Er. cbn [bind].
  destruct r; cbn [negb].
  - destruct IH as (c & Ec & Hc). exists c. split; [exact Ec|]. rewrite Hc. split; intros H.
    + constructor; [split; [lia|tauto]|exact H].
    + inversion H; assumption.
  - eexists. split; [reflexivity|]. split; [discriminate|]. intros H. inversion H as [|? ? [_ H1] _]; subst. destruct Hr as [_ Hr]. specialize (Hr H1). discriminate.
Qed.

(** ** The inputs as a matrix of pieces *)
Definition pieces {A} (r d : nat) (pre : list (list nat)) (xs : list (nest A (d + r))) : list (list (list (nest A r))) :=
  map (map (fun x => [x])) (rows_at (total 1 pre) (map (fun x => desc r d [x]) xs)).
Lemma F2_nth {X Y} (R : X -> Y -> Prop) a b j dx : Forall2 R a b -> j < length a -> exists y, nth_error b j = Some y /\ R (nth j a dx) y.
Proof.
  intros F. revert j. induction F as [|x y a b H F IH]; intros j Hj; [cbn in Hj; lia|]. destruct j as [|j]; [exists y; auto|].
  apply IH. cbn in Hj. lia.
Qed.
Lemma pieces_ok {A} r d (xs : list (nest A (d + r))) shapes pre : 
  Forall2 (fun s x => shape_rep s (shape_of (A := A) (d + r) [x])) shapes xs -> Forall (fun x => firstn d (shape_of (A := A) (d + r) [x]) = pre) xs -> xs <> [] ->
  let P := pieces r d pre xs in
  Forall (fun row => length row = length shapes) P /\ length P = total 1 pre /\ length pre = d /\
  (forall j, j < length shapes -> Forall2 dim_rep (nth j shapes []) (pre ++ shape_of r (col j P))) /\
  (forall j x, nth_error xs j = Some x -> col j P = desc r d [x]) /\
  concat (map (map zl) P) = repeat 1%Z (total 1 pre * length shapes) /\
  Forall (fun F => length F = total 1 pre) (map (fun x => desc r d [x]) xs).
Proof.
  intros F Hp Hn P. assert (L := F2_len _ _ _ F).
  assert (Fl : Forall (fun F => length F = total 1 pre) (map (fun x => desc r d [x]) xs)).
  { apply Forall_map. eapply Forall_impl; [|exact Hp]. intros x H. rewrite desc_len, H. reflexivity. }
  assert (Wd : Forall (fun row => length row = length shapes) (rows_at (total 1 pre) (map (fun x => desc r d [x]) xs))).
  { rewrite L, <- (map_length (fun x => desc r d [x]) xs). apply rows_at_width, Fl. }
  assert (Cx : forall j x, nth_error xs j = Some x -> col j P = desc r d [x]).
  { intros j x Ex. unfold P, pieces. rewrite col_rows by exact Fl. apply nth_error_nth. exact (map_nth_error (fun x => desc r d [x]) j xs Ex). }
  split; [apply rows_map, Wd|]. split; [unfold P, pieces; rewrite map_length; apply rows_at_len|].
  split; [destruct Hp as [|x xs H _]; [contradiction|]; rewrite <- H, firstn_length, shape_len; lia|].
  split; [|split; [exact Cx|split; [|exact Fl]]].
  - intros j Hj. destruct (F2_nth _ _ _ j [] F Hj) as (x & Ex & R). rewrite (Cx j x Ex).
    destruct R as [R _]. rewrite shape_desc in R. rewrite Forall_forall in Hp. rewrite (Hp x) in R by (eapply nth_error_In; exact Ex). exact R.
  - unfold P, pieces. set (rows := rows_at _ _) in *. rewrite map_map.
    assert (Lr : length rows = total 1 pre) by apply rows_at_len. rewrite <- Lr. clearbody rows. clear - Wd.
    induction Wd as [|row rows H _ IH]; [reflexivity|]. cbn [map concat length Nat.mul]. rewrite repeat_app, IH, <- H. f_equal.
    clear. rewrite map_map. induction row as [|x row IH]; [reflexivity|]. cbn [map length repeat]. f_equal. exact IH.
Qed.

Lemma F2_cons_r {X Y} (R : X -> Y -> Prop) l y b : Forall2 R l (y :: b) -> exists x a, l = x :: a /\ R x y /\ Forall2 R a b.
Proof. intros F. inversion F; subst. eauto. Qed.
Lemma F2_imp {X Y} (R R' : X -> Y -> Prop) a b : (forall x y, R x y -> R' x y) -> Forall2 R a b -> Forall2 R' a b.
Proof. intros H. induction 1; constructor; auto. Qed.
Lemma F2_map_r {X Y Z} (R : X -> Z -> Prop) (f : Y -> Z) a b : Forall2 (fun x y => R x (f y)) a b -> Forall2 R a (map f b).
Proof. induction 1; constructor; auto. Qed.
Lemma alike_all {A} n d (x0 : nest A n) (xs : list (nest A n)) pre : firstn d (shape_of (A := A) n [x0]) = pre -> Forall (fun x => firstn d (shape_of (A := A) n [x]) = pre) xs ->
  Forall (alike d (shape_of (A := A) n [x0])) (map (fun x => shape_of (A := A) n [x]) xs).
Proof.
  intros H0 F. apply Forall_map. eapply Forall_impl; [|exact F]. intros x H. split; [rewrite !shape_len; reflexivity|congruence].
Qed.

Lemma concat_shapes_ok {A} alloc r d (xs : list (nest A (d + S r))) shapes pre : alloc_ok alloc -> xs <> [] ->
  Forall2 (fun s x => shape_rep s (shape_of (A := A) (d + S r) [x])) shapes xs -> Forall (fun x => firstn d (shape_of (A := A) (d + S r) [x]) = pre) xs ->
  let D := map (map (data_of (S r))) (pieces (S r) d pre xs) in
  exists s, concat_shapes alloc shapes (Z.of_nat d) false = Some (inr (s, concat (map (map zl) D))) /\
    shape_rep s (shape_of (A := A) (d + S r) [concat_at r d xs]) /\
    data_of (d + S r) [concat_at r d xs] = concat (concat D) /\ (exists e, rd s d = Some e /\ e_parent e = Z.of_nat (length D)).
Proof.
  intros Ha Hn F Hp D. destruct (pieces_ok (S r) d xs shapes pre F Hp Hn) as (Wd & Lp & Ld & Fj & Cx & G1 & Fl).
  set (P := pieces (S r) d pre xs) in *.
  destruct F as [|s0 x0 shapes' xs' R0 F']; [contradiction|]. set (shapes := s0 :: shapes') in *. set (xs := x0 :: xs') in *.
  assert (F : Forall2 (fun s x => shape_rep s (shape_of (A := A) (d + S r) [x])) shapes xs) by (constructor; assumption).
  assert (H0 : firstn d (shape_of (A := A) (d + S r) [x0]) = pre) by (inversion Hp; assumption).
  assert (Ls : length s0 = d + S r) by (rewrite (F2_len _ _ _ (proj1 R0)); apply shape_len).
  unfold concat_shapes, shapes. fold shapes. cbv iota. rewrite Ls.
  replace (d + S r =? 0) with false by lia.
  replace ((Z.of_nat d <? 0)%Z || (Z.of_nat (d + S r) <=? Z.of_nat d)%Z) with false by lia. rewrite Nat2Z.id.
  destruct (check_shapes_ok alloc s0 _ d Ha R0 ltac:(rewrite shape_len; lia) shapes _ (F2_map_r _ _ _ _ F)) as (c & Ec & Hc).
  assert (c = None) as -> by (apply Hc, (alike_all (d + S r) d x0 xs pre H0 Hp)). rewrite Ec. cbn [bind].
  assert (Fpre : Forall2 dim_rep (firstn d s0) pre) by (rewrite <- H0; apply F2_firstn, R0).
  assert (B := back_child_ok _ _ Fpre). rewrite <- Lp in B. rewrite B, Nat2Z.id, Lp, <- G1.
  replace (d + S r - d) with (S r) by lia.
  destruct (concat_levels alloc shapes d r P (firstn d s0) Ha Wd) as (es' & E' & F'').
  { intros j Hj. exists pre. split; [exact Ld|apply Fj, Hj]. } { exact B. }
  rewrite Lp in E'. rewrite E'. cbn [bind].
  set (R := map (fun row => concat (concat row)) P) in *.
  assert (Dq : desc (S r) d [concat_at r d xs] = R).
  { unfold concat_at. destruct (depth_ok (A := A) (r := S r) (q := S r) (@concat (nest A r)) d (map (fun x => [x]) xs) 1 pre) as [Q _].
    - discriminate.
    - apply Forall_map. eapply Forall_impl; [|exact Hp]. auto.
    - rewrite row_single in Q. cbn [map] in Q. rewrite map_map in Q.
      etransitivity; [exact Q|]. unfold R, P, pieces. rewrite !map_map. apply map_ext. intros row. rewrite concat_single. reflexivity. }
  assert (Sq : shape_of (A := A) (d + S r) [concat_at r d xs] = pre ++ shape_of (S r) R).
  { rewrite shape_desc. f_equal; [|rewrite Dq; reflexivity]. unfold concat_at.
    destruct (depth_ok (A := A) (r := S r) (q := S r) (@concat (nest A r)) d (map (fun x => [x]) xs) 1 pre) as [_ Q].
    - discriminate.
    - apply Forall_map. eapply Forall_impl; [|exact Hp]. auto.
    - rewrite row_single in Q. exact Q. }
  assert (SR : shape_rep (firstn d s0 ++ es') (shape_of (A := A) (d + S r) [concat_at r d xs])).
  { split; [rewrite Sq; apply Forall2_app; assumption|]. apply (shape_ok (d + S r) [concat_at r d xs]). }
  unfold from_edges. change 1%Z with (Z.of_nat 1). rewrite (from_loop_split alloc _ _ 1 (proj1 SR) (proj2 SR)). cbn [bind].
  exists (firstn d s0 ++ es'). split; [reflexivity|]. split; [exact SR|]. split.
  - rewrite data_desc, Dq. unfold R, D. rewrite <- concat_map, <- data_concat. cbn [data_of]. f_equal.
    rewrite <- (map_map (@concat _) (@concat _)), concat_concat, concat_concat. reflexivity.
  - apply F2_cons_r in F'' as (e & es'' & -> & De & _). exists e. unfold rd. rewrite nth_error_app2 by (rewrite firstn_length; lia).
    rewrite firstn_length. replace (d - Nat.min d (length s0)) with 0 by lia. split; [reflexivity|].
    destruct (dim_facts _ _ De) as (_ & Hpar & _). rewrite Hpar. unfold R, D. rewrite !map_length. reflexivity.
Qed.
Lemma stack_shapes_ok {A} alloc r d (xs : list (nest A (d + r))) shapes pre : alloc_ok alloc -> xs <> [] ->
  Forall2 (fun s x => shape_rep s (shape_of (A := A) (d + r) [x])) shapes xs -> Forall (fun x => firstn d (shape_of (A := A) (d + r) [x]) = pre) xs ->
  (Z.of_nat (total 1 pre) < 2 ^ 63 - 1)%Z -> (Z.of_nat (total 1 pre) * Z.of_nat (length xs) < 2 ^ 63)%Z ->
  let D := map (map (data_of r)) (pieces r d pre xs) in
  exists s, concat_shapes alloc shapes (Z.of_nat d) true = Some (inr (s, concat (map (map zl) D))) /\
    shape_rep s (shape_of (A := A) (d + S r) [stack_at r d xs]) /\
    data_of (d + S r) [stack_at r d xs] = concat (concat D) /\ (exists e, rd s d = Some e /\ e_parent e = Z.of_nat (length D)).
Proof.
  intros Ha Hn F Hp Hg1 Hg2 D. destruct (pieces_ok r d xs shapes pre F Hp Hn) as (Wd & Lp & Ld & Fj & Cx & G1 & Fl).
  set (P := pieces r d pre xs) in *. assert (Lx := F2_len _ _ _ F).
  destruct F as [|s0 x0 shapes' xs' R0 F']; [contradiction|]. set (shapes := s0 :: shapes') in *. set (xs := x0 :: xs') in *.
  assert (F : Forall2 (fun s x => shape_rep s (shape_of (A := A) (d + r) [x])) shapes xs) by (constructor; assumption).
  assert (H0 : firstn d (shape_of (A := A) (d + r) [x0]) = pre) by (inversion Hp; assumption).
  assert (Ls : length s0 = d + r) by (rewrite (F2_len _ _ _ (proj1 R0)); apply shape_len).
  unfold concat_shapes, shapes. fold shapes. cbv iota. rewrite Ls.
  replace (S (d + r) =? 0) with false by lia.
  replace ((Z.of_nat d <? 0)%Z || (Z.of_nat (S (d + r)) <=? Z.of_nat d)%Z) with false by lia. rewrite Nat2Z.id.
  destruct (check_shapes_ok alloc s0 _ d Ha R0 ltac:(rewrite shape_len; lia) shapes _ (F2_map_r _ _ _ _ F)) as (c & Ec & Hc).
  assert (c = None) as -> by (apply Hc, (alike_all (d + r) d x0 xs pre H0 Hp)). rewrite Ec. cbn [bind].
  assert (Fpre : Forall2 dim_rep (firstn d s0) pre) by (rewrite <- H0; apply F2_firstn, R0).
  assert (B := back_child_ok _ _ Fpre). rewrite B, Nat2Z.id, <- G1.
  destruct (uniform_dim (total 1 pre) (length shapes)) as (u & Eu & Du); [exact Hg1|rewrite Lx; exact Hg2|]. rewrite Eu. cbn [bind].
  replace (d + r - d) with r by lia.
  set (rows := rows_at (total 1 pre) (map (fun x => desc r d [x]) xs)) in *.
  assert (CP : concat (concat P) = concat rows).
  { unfold P, pieces. rewrite <- concat_map, concat_single. reflexivity. }
  assert (Wr : map (@length _) rows = repeat (length shapes) (total 1 pre)).
  { unfold P, pieces in Wd, Lp. fold xs rows in Wd, Lp. rewrite map_length in Lp. rewrite <- Lp. clear - Wd.
    induction rows as [|row rows IH]; [reflexivity|]. inversion Wd as [|? ? H Wd']; subst. cbn [map length repeat]. rewrite map_length in H. rewrite H, IH by exact Wd'. reflexivity. }
  destruct (suffix_ok alloc shapes true d Ha r P (firstn d s0 ++ [u]) d) as (es' & E' & F'').
  { auto. } { exact Wd. } { intros j Hj. exists pre. split; [exact Ld|apply Fj, Hj]. }
  { rewrite back_snoc, CP. destruct (dim_facts _ _ Du) as (_ & _ & Hch & _). rewrite Hch, <- Wr, sum_lengths. reflexivity. }
  rewrite Lp in E'. rewrite E'. cbn [bind].
  assert (Dq : desc (S r) d [stack_at r d xs] = rows).
  { unfold stack_at. destruct (depth_ok (A := A) (r := r) (q := S r) (fun xs => xs) d (map (fun x => [x]) xs) 1 pre) as [Q _].
    - discriminate.
    - apply Forall_map. eapply Forall_impl; [|exact Hp]. auto.
    - rewrite row_single in Q. cbn [map] in Q. rewrite map_map, map_id in Q. exact Q. }
  assert (Sq : shape_of (A := A) (d + S r) [stack_at r d xs] = pre ++ shape_of (A := A) (S r) rows).
  { rewrite shape_desc. f_equal; [|rewrite Dq; reflexivity]. unfold stack_at.
    destruct (depth_ok (A := A) (r := r) (q := S r) (fun xs => xs) d (map (fun x => [x]) xs) 1 pre) as [_ Q].
    - discriminate.
    - apply Forall_map. eapply Forall_impl; [|exact Hp]. auto.
    - rewrite row_single in Q. exact Q. }
  cbn [shape_of] in Sq.
  assert (SR : shape_rep ((firstn d s0 ++ [u]) ++ es') (shape_of (A := A) (d + S r) [stack_at r d xs])).
  { split; [|apply (shape_ok (d + S r) [stack_at r d xs])]. rewrite Sq, <- app_assoc. apply Forall2_app; [exact Fpre|].
    constructor; [rewrite Wr; exact Du|]. rewrite CP in F''. exact F''. }
  unfold from_edges. change 1%Z with (Z.of_nat 1). rewrite (from_loop_split alloc _ _ 1 (proj1 SR) (proj2 SR)). cbn [bind].
  eexists. split; [reflexivity|]. split; [exact SR|]. split.
  - rewrite data_desc, Dq. unfold D. rewrite <- concat_map, <- data_concat, CP. reflexivity.
  - exists u. unfold rd. rewrite <- app_assoc, nth_error_app2 by (rewrite firstn_length; lia).
    rewrite firstn_length. replace (d - Nat.min d (length s0)) with 0 by lia. split; [reflexivity|].
    destruct (dim_facts _ _ Du) as (_ & Hpar & _). rewrite Hpar, repeat_length. unfold D. rewrite map_length, Lp. reflexivity.
Qed.

(** ** Copying the values *)
Lemma present_app {T} (a b : list (option T)) : present_pairs (a ++ b) = present_pairs a ++ map (fun p => (length a + fst p, snd p)) (present_pairs b).
Proof.
  unfold present_pairs. rewrite app_length, seq_app, Nat.add_0_l.
  assert (C : forall (l : list (option T)) s l' m, length s = length l -> combine (s ++ m) (l ++ l') = combine s l ++ combine (m : list nat) l').
  { induction l as [|x l IH]; intros [|y s] l' m H; try discriminate; [reflexivity|]. cbn. f_equal. apply IH. cbn in H. lia. }
  rewrite C by apply seq_length. rewrite flat_map_app. f_equal.
  assert (G : forall (l : list (option T)) n k, flat_map (fun c => match snd c with Some v => [(fst c, v)] | None => [] end) (combine (seq (n + k) (length l)) l) =
    map (fun p => (n + fst p, snd p)) (flat_map (fun c => match snd c with Some v => [(fst c, v)] | None => [] end) (combine (seq k (length l)) l))).
  { induction l as [|x l IH]; intros n k; [reflexivity|]. cbn [length seq combine flat_map fst snd]. rewrite map_app. f_equal; [destruct x; reflexivity|].
    rewrite <- IH, Nat.add_succ_r. reflexivity. }
  rewrite <- G, Nat.add_0_r. reflexivity.
Qed.

Section Arr.
Context {T Ar : Type}.
Variable a_size : Ar -> Z.
Variable a_each : Ar -> Z -> Z -> option (list (nat * T)).
Variable a_build : list Ar -> list (nat * T) -> option Ar.
Variable rep : Ar -> list (option T) -> Prop.
Hypothesis Hsize : forall a l, rep a l -> a_size a = zl l.
Hypothesis Heach : forall a p x q, rep a (p ++ x ++ q) -> a_each a (zl p) (zl x) = Some (present_pairs x).
Hypothesis Hbuild : forall arrays ls res, Forall2 rep arrays ls -> list_sum (map (@length _) ls) = length res ->
  list_sum (map (fun l => length (present_pairs l)) ls) = length (present_pairs res) ->
  exists a, a_build arrays (present_pairs res) = Some a /\ rep a res.

Definition ditem : Type := Ar * (list (option T) * list (option T) * list (option T)).
Definition dpre (i : ditem) := fst (fst (snd i)).
Definition dgrp (i : ditem) := snd (fst (snd i)).
Definition dpost (i : ditem) := snd (snd i).
Lemma copy_row_ok : forall items j gs st done p1 g1 g2,
  Forall (fun i => rep (fst i) (dpre i ++ dgrp i ++ dpost i)) items -> c_offs st = p1 ++ map (fun i => zl (dpre i)) items -> length p1 = j ->
  gs = g1 ++ map (fun i => zl (dgrp i)) items ++ g2 -> c_gi st = length g1 -> c_res st = zl done -> c_adds st = present_pairs done ->
  exists st', copy_row a_each (map fst items) j gs st = Some st' /\ c_offs st' = p1 ++ map (fun i => zl (dpre i ++ dgrp i)) items /\
    c_gi st' = length g1 + length items /\ c_res st' = zl (done ++ concat (map dgrp items)) /\
    c_adds st' = present_pairs (done ++ concat (map dgrp items)).
Proof.
  induction items as [|[a [[pre c] post]] items IH]; intros j gs st done p1 g1 g2 F P Lp G Gi Hr Hd; cbn [map copy_row].
  - exists st. cbn [map concat length] in *. rewrite !app_nil_r in *. rewrite Nat.add_0_r. auto.
  - inversion F as [|? ? H F']; subst. unfold dpre, dgrp, dpost in H. cbn [fst snd] in H.
    cbn [map app] in P |- *. change (dpre (a, (pre, c, post))) with pre in *. change (dgrp (a, (pre, c, post))) with c in *.
    rewrite Gi, (mid_rd g1 _ _ _ eq_refl). cbn [bind]. rewrite P, (mid_rd p1 _ _ _ eq_refl). cbn [bind].
    cbn [fst]. rewrite (Heach a pre c post H). cbn [bind]. rewrite (mid_upd p1 _ (zl pre + zl c)%Z _ _ eq_refl). cbn [bind].
    set (st1 := mkC _ _ _ _).
    destruct (IH (S (length p1)) (g1 ++ zl c :: map (fun i => zl (dgrp i)) items ++ g2) st1 (done ++ c) (p1 ++ [zl (pre ++ c)]) (g1 ++ [zl c]) g2) as (st' & E' & P' & I' & R' & A').
    + exact F'.
    + unfold st1. cbn [c_offs]. rewrite <- app_assoc. unfold zl. rewrite app_length, Nat2Z.inj_add. reflexivity.
    + rewrite app_length. cbn [length]. lia.
    + rewrite <- app_assoc. reflexivity.
    + unfold st1. cbn [c_gi]. rewrite app_length. cbn [length]. lia.
    + unfold st1. cbn [c_res]. rewrite Hr. unfold zl. rewrite app_length. lia.
    + unfold st1. cbn [c_adds]. rewrite Hd, Hr, present_app. f_equal. apply map_ext. intros p. unfold zl. f_equal. lia.
    + exists st'. split; [exact E'|]. rewrite P', I', R', A', <- !app_assoc, app_length. cbn [app length map concat].
      split; [reflexivity|]. split; [lia|]. split; reflexivity.
Qed.
Lemma copy_rows_ok (arrays : list Ar) da : forall D pres st done g1 gs,
  Forall (fun row => length row = length arrays) D -> length pres = length arrays ->
  (forall j, j < length arrays -> rep (nth j arrays da) (nth j pres [] ++ col j D)) ->
  c_offs st = map zl pres -> gs = g1 ++ concat (map (map zl) D) -> c_gi st = length g1 -> c_res st = zl done -> c_adds st = present_pairs done ->
  exists st', copy_rows a_each arrays gs st (length D) = Some st' /\ c_adds st' = present_pairs (done ++ concat (concat D)).
Proof.
  induction D as [|row D IH]; intros pres st done g1 gs F Lp H P G Gi Hr Hd; cbn [length copy_rows].
  - exists st. cbn [concat]. rewrite app_nil_r. auto.
  - inversion F as [|? ? Lr F']; subst.
    set (k := length arrays) in *.
    set (items := map (fun j => (nth j arrays da, (nth j pres [], nth j row [], col j D)) : ditem) (seq 0 k)).
    assert (M1 : map fst items = arrays) by (unfold items; rewrite map_map; cbn [fst]; apply nth_seq_id).
    assert (M2 : map dgrp items = row). { unfold items. rewrite map_map. unfold dgrp. cbn [fst snd]. rewrite <- Lr. apply nth_seq_id. }
    assert (M3 : map dpre items = pres). { unfold items. rewrite map_map. unfold dpre. cbn [fst snd]. rewrite <- Lp. apply nth_seq_id. }
    assert (Li : length items = k) by (unfold items; rewrite map_length, seq_length; reflexivity).
    destruct (copy_row_ok items 0 (g1 ++ concat (map (map zl) (row :: D))) st done [] g1 (concat (map (map zl) D))) as (st1 & E1 & P1 & I1 & R1 & A1).
    + unfold items. apply Forall_forall. intros i Hi. apply in_map_iff in Hi as (j & <- & Hj). apply in_seq in Hj.
      unfold dpre, dgrp, dpost. cbn [fst snd]. apply (H j). lia.
    + cbn [app]. rewrite P, <- M3, map_map. reflexivity.
    + reflexivity.
    + cbn [map concat]. rewrite <- M2, map_map. reflexivity.
    + exact Gi.
    + exact Hr.
    + exact Hd.
    + rewrite M1 in E1. rewrite E1. cbn [bind]. rewrite M2 in *.
      destruct (IH (map (fun j => nth j pres [] ++ nth j row []) (seq 0 k)) st1 (done ++ concat row) (g1 ++ map zl row) (g1 ++ concat (map (map zl) (row :: D)))) as (st' & E' & A').
      * exact F'.
      * rewrite map_length, seq_length. reflexivity.
      * intros j Hj. rewrite (nth_indep _ [] (nth 0 pres [] ++ nth 0 row [])) by (rewrite map_length, seq_length; exact Hj).
        rewrite (map_nth (fun j => nth j pres [] ++ nth j row [])), seq_nth by exact Hj. rewrite <- app_assoc. apply (H j Hj).
      * rewrite P1. unfold items. rewrite !map_map. reflexivity.
      * cbn [map concat]. rewrite <- app_assoc. reflexivity.
      * rewrite I1, app_length, (map_length zl row), Lr. f_equal. exact Li.
      * exact R1.
      * exact A1.
      * exists st'. split; [exact E'|]. rewrite A', <- app_assoc. cbn [concat]. rewrite concat_app. reflexivity.
Qed.
(** A measure of all columns is the measure of the whole. *)
Lemma cols_measure {X} (m : list X -> nat) k : m [] = 0 -> (forall a b, m (a ++ b) = m a + m b) -> forall D,
  Forall (fun row => length row = k) D -> list_sum (map (fun j => m (col j D)) (seq 0 k)) = m (concat (concat D)).
Proof.
  intros M0 Ma. induction D as [|row D IH]; intros F.
  - cbn [concat]. rewrite M0. unfold col. cbn [map concat]. clear - M0. induction (seq 0 k); [reflexivity|]. cbn [map]. rewrite sum_cons, IHl, M0. reflexivity.
  - inversion F as [|? ? Lr F']; subst. cbn [concat]. rewrite concat_app, Ma, <- IH by exact F'.
    assert (E : m (concat row) = list_sum (map (fun j => m (nth j row [])) (seq 0 (length row)))).
    { rewrite <- (map_map (fun j => nth j row []) m), nth_seq_id. clear - M0 Ma. induction row as [|x row IH]; [exact M0|].
      cbn [concat map]. rewrite Ma, sum_cons, IH. reflexivity. }
    rewrite E. clear - Ma. induction (seq 0 (length row)) as [|j l IH]; [reflexivity|]. cbn [map]. rewrite !sum_cons, IH.
    change (col j (row :: D)) with (nth j row [] ++ col j D). rewrite Ma. lia.
Qed.
Lemma present_len_app (a b : list (option T)) : length (present_pairs (a ++ b)) = length (present_pairs a) + length (present_pairs b).
Proof. rewrite present_app, app_length, map_length. reflexivity. Qed.

Lemma check_sizes_ok arrays ls shapes : forall i, Forall2 rep arrays ls -> length shapes = length arrays ->
  (Forall2 (fun s l => sh_size s = zl l) shapes ls -> check_sizes a_size arrays shapes i = None) /\
  (~ Forall2 (fun s l => sh_size s = zl l) shapes ls -> exists e, check_sizes a_size arrays shapes i = Some e).
Proof using Hsize. clear Heach Hbuild a_each a_build.
  intros i F. revert shapes i. induction F as [|a l arrays ls R F IH]; intros [|s shapes] i L; try discriminate; cbn [check_sizes].
  - split; [reflexivity|]. intros H. exfalso. apply H. constructor.
  - rewrite (Hsize a l R). destruct (Z.eqb_spec (zl l) (sh_size s)) as [E|E]; cbn [negb].
    + destruct (IH shapes (S i)) as [I1 I2]; [cbn in L; lia|]. split; intros H.
      * inversion H; subst. apply I1. assumption.
      * apply I2. intros H'. apply H. constructor; auto.
    + split; [intros H; inversion H; subst; congruence|]. intros _. eexists. reflexivity.
Qed.
(** Interleaving the columns of a matrix. *)
Lemma arrays_ok alloc arrays shapes dim insert D ls s :
  concat_shapes alloc shapes (Z.of_nat dim) insert = Some (inr (s, concat (map (map zl) D))) ->
  length arrays = length shapes -> Forall2 rep arrays ls -> (forall j, j < length arrays -> nth j ls [] = col j D) ->
  Forall (fun row => length row = length arrays) D -> arrays <> [] -> Forall2 (fun s l => sh_size s = zl l) shapes ls ->
  (exists e, rd s dim = Some e /\ e_parent e = Z.of_nat (length D)) ->
  exists a, concat_arrays alloc a_size a_each a_build arrays shapes (Z.of_nat dim) insert = Some (inr (a, s)) /\ rep a (concat (concat D)).
Proof.
  intros E L F Hc Fw Hn Hs (e & Ee & Ep). unfold concat_arrays. replace (length arrays =? length shapes) with true by lia. cbn [negb].
  rewrite E. cbn [bind]. assert (Ll := F2_len _ _ _ F).
  assert (Fl : ls = map (fun j => col j D) (seq 0 (length arrays))).
  { rewrite <- (nth_seq_id ls []), <- Ll. apply map_ext_in. intros j Hj. apply in_seq in Hj. apply Hc. lia. }
  assert (Hcs : check_sizes a_size arrays shapes 0 = None) by (apply (check_sizes_ok arrays ls shapes 0 F); [lia|exact Hs]).
  assert (One : forall a, arrays = [a] -> rep a (concat (concat D))).
  { intros a ->. clear Fl Hcs Hs. inversion F as [|? l ? ? R N]; subst. inversion N; subst. assert (Hl := Hc 0 ltac:(cbn; lia)). cbn [nth] in Hl.
    assert (M : col 0 D = concat (concat D)); [|rewrite <- M, <- Hl; exact R].
    unfold col. clear - Fw. induction Fw as [|row D H _ IH]; [reflexivity|]. destruct row as [|x [|y row]]; try discriminate. cbn [map concat nth app].
    rewrite IH. reflexivity. }
  assert (Many : exists a, (let? e := rd s (Z.to_nat (Z.of_nat dim)) in
      let? st := copy_rows a_each arrays (concat (map (map zl) D)) (mkC (repeat 0%Z (length arrays)) 0%Z 0 []) (Z.to_nat (e_parent e)) in
      let? a := a_build arrays (c_adds st) in Some (inr (a, s))) = Some (inr (a, s) : jerr + (Ar * shape)) /\ rep a (concat (concat D))).
  { rewrite Nat2Z.id, Ee. cbn [bind]. rewrite Ep, Nat2Z.id. destruct arrays as [|a0 arr]; [contradiction|]. set (arrays := a0 :: arr) in *.
    destruct (copy_rows_ok arrays a0 D (repeat [] (length arrays)) (mkC (repeat 0%Z (length arrays)) 0%Z 0 []) [] [] (concat (map (map zl) D)) Fw) as (st & Est & Ast).
    - apply repeat_length.
    - intros j Hj. destruct (F2_nth _ _ _ j a0 F Hj) as (l & El & R). rewrite nth_repeat. cbn [app]. rewrite <- (Hc j Hj), (nth_error_nth _ _ _ El). exact R.
    - cbn [c_offs]. clear. induction (length arrays) as [|n IH]; [reflexivity|]. cbn [repeat map]. f_equal. exact IH.
    - reflexivity.
    - reflexivity.
    - reflexivity.
    - reflexivity.
    - rewrite Est. cbn [bind]. rewrite Ast, app_nil_l.
      destruct (Hbuild arrays ls (concat (concat D)) F) as (a & Ea & Ra).
      + rewrite Fl, map_map. apply (cols_measure (@length _)); [reflexivity|apply app_length|exact Fw].
      + rewrite Fl, map_map. apply (cols_measure (fun l => length (present_pairs l))); [reflexivity|apply present_len_app|exact Fw].
      + rewrite Ea. cbn [bind]. exists a. auto. }
  destruct arrays as [|a0 [|a1 arr]]; [contradiction| |].
  - exists a0. split; [reflexivity|]. apply One. reflexivity.
  - rewrite Hcs. exact Many.
Qed.
Lemma col_data {A} r j (P : list (list (list (nest A r)))) : col j (map (map (data_of r)) P) = data_of r (col j P).
Proof.
  unfold col. induction P as [|row P IH]; [symmetry; apply data_nil|]. cbn [map concat]. rewrite data_app, IH. f_equal.
  rewrite <- (data_nil (A := A) r) at 1. apply map_nth.
Qed.
Lemma shapes_size {A} R (xs : list (nest A R)) shapes : Forall2 (fun s x => shape_rep s (shape_of (A := A) R [x])) shapes xs ->
  Forall2 (fun s l => sh_size s = zl l) shapes (map (fun x => data_of R [x]) xs).
Proof.
  induction 1 as [|s x shapes xs H F IH]; [constructor|]. constructor; [|exact IH]. rewrite (sh_size_ok _ _ H). unfold zl. f_equal.
  destruct (shape_ok R [x]) as [_ E]. exact E.
Qed.
Lemma jagged_ok R d pre alloc arrays shapes insert (xs : list (nest (option T) (d + R))) s :
  let D := map (map (data_of R)) (pieces R d pre xs) in
  concat_shapes alloc shapes (Z.of_nat d) insert = Some (inr (s, concat (map (map zl) D))) -> xs <> [] ->
  Forall2 (fun s x => shape_rep s (shape_of (A := option T) (d + R) [x])) shapes xs -> Forall (fun x => firstn d (shape_of (A := option T) (d + R) [x]) = pre) xs ->
  Forall2 (fun a x => rep a (data_of (A := option T) (d + R) [x])) arrays xs ->
  (exists e, rd s d = Some e /\ e_parent e = Z.of_nat (length D)) ->
  exists a, concat_arrays alloc a_size a_each a_build arrays shapes (Z.of_nat d) insert = Some (inr (a, s)) /\ rep a (concat (concat D)).
Proof.
  intros D E Hn F Hp Fa He. destruct (pieces_ok R d xs shapes pre F Hp Hn) as (Wd & Lp & Ld & Fj & Cx & G1 & Fl).
  assert (L1 := F2_len _ _ _ F). assert (L2 := F2_len _ _ _ Fa).
  apply (arrays_ok alloc arrays shapes d insert D (map (fun x => data_of (d + R) [x]) xs) s).
  - exact E.
  - lia.
  - apply F2_map_r. exact Fa.
  - intros j Hj. unfold D. rewrite col_data. destruct (nth_error xs j) as [x|] eqn:Ex; [|apply nth_error_None in Ex; lia].
    rewrite (Cx j x Ex), <- data_desc. apply nth_error_nth. apply (map_nth_error (fun x => data_of (d + R) [x])). exact Ex.
  - unfold D. replace (length arrays) with (length shapes) by lia. apply rows_map. exact Wd.
  - intros ->. destruct xs; [contradiction|discriminate].
  - apply shapes_size. exact F.
  - exact He.
Qed.
Lemma jagged_concat_ok r d pre alloc arrays shapes (xs : list (nest (option T) (d + S r))) : alloc_ok alloc -> xs <> [] ->
  Forall2 (fun s x => shape_rep s (shape_of (A := option T) (d + S r) [x])) shapes xs ->
  Forall2 (fun a x => rep a (data_of (A := option T) (d + S r) [x])) arrays xs ->
  Forall (fun x => firstn d (shape_of (A := option T) (d + S r) [x]) = pre) xs ->
  exists a s, concat_arrays alloc a_size a_each a_build arrays shapes (Z.of_nat d) false = Some (inr (a, s)) /\
    shape_rep s (shape_of (A := option T) (d + S r) [concat_at r d xs]) /\ rep a (data_of (A := option T) (d + S r) [concat_at r d xs]).
Proof.
  intros Ha Hn F Fa Hp. destruct (concat_shapes_ok alloc r d xs shapes pre Ha Hn F Hp) as (s & E & Rs & Ed & He).
  destruct (jagged_ok (S r) d pre alloc arrays shapes false xs s E Hn F Hp Fa He) as (a & Ea & Ra). exists a, s.
  split; [exact Ea|]. split; [exact Rs|]. rewrite Ed. exact Ra.
Qed.
Lemma jagged_stack_ok r d pre alloc arrays shapes (xs : list (nest (option T) (d + r))) : alloc_ok alloc -> xs <> [] ->
  Forall2 (fun s x => shape_rep s (shape_of (A := option T) (d + r) [x])) shapes xs ->
  Forall2 (fun a x => rep a (data_of (A := option T) (d + r) [x])) arrays xs ->
  Forall (fun x => firstn d (shape_of (A := option T) (d + r) [x]) = pre) xs ->
  (Z.of_nat (total 1 pre) < 2 ^ 63 - 1)%Z -> (Z.of_nat (total 1 pre) * Z.of_nat (length xs) < 2 ^ 63)%Z ->
  exists a s, concat_arrays alloc a_size a_each a_build arrays shapes (Z.of_nat d) true = Some (inr (a, s)) /\
    shape_rep s (shape_of (A := option T) (d + S r) [stack_at r d xs]) /\ rep a (data_of (A := option T) (d + S r) [stack_at r d xs]).
Proof.
  intros Ha Hn F Fa Hp G1 G2. destruct (stack_shapes_ok alloc r d xs shapes pre Ha Hn F Hp G1 G2) as (s & E & Rs & Ed & He).
  destruct (jagged_ok r d pre alloc arrays shapes true xs s E Hn F Hp Fa He) as (a & Ea & Ra). exists a, s.
  split; [exact Ea|]. split; [exact Rs|]. rewrite Ed. exact Ra.
Qed.
(** Rejections. *)
Lemma size_mismatch alloc arrays ls shapes dim insert : Forall2 rep arrays ls -> length shapes = length arrays -> length arrays <> 1 ->
  ~ Forall2 (fun s l => sh_size s = zl l) shapes ls ->
  match concat_shapes alloc shapes dim insert with
  | Some (inr _) => exists e, concat_arrays alloc a_size a_each a_build arrays shapes dim insert = Some (inl e)
  | Some (inl e) => concat_arrays alloc a_size a_each a_build arrays shapes dim insert = Some (inl e)
  | None => True
  end.
Proof using Hsize a_each a_build. clear Heach Hbuild.
  intros F L N H. destruct (concat_shapes alloc shapes dim insert) as [[e|[s gs]]|] eqn:E; [| |exact I].
  - unfold concat_arrays. rewrite L, Nat.eqb_refl, E. reflexivity.
  - destruct (check_sizes_ok arrays ls shapes 0 F L) as [_ H2]. destruct (H2 H) as (e & Ee). exists e. unfold concat_arrays. rewrite L, Nat.eqb_refl, E. cbn [negb bind].
    destruct arrays as [|a [|b t]]; [|cbn in N; lia|]; rewrite Ee; reflexivity.
Qed.
End Arr.

(** ** Every sound shape with fitting data comes from a nested list *)
Lemma cut_ok {X} : forall s (l : list X), length l = list_sum s -> exists c, map (@length X) c = s /\ concat c = l.
Proof.
  induction s as [|n s IH]; intros l H.
  - exists []. destruct l; [auto|discriminate].
  - rewrite sum_cons in H. destruct (IH (skipn n l)) as (c & E1 & E2); [rewrite skipn_length; lia|].
    exists (firstn n l :: c). cbn [map concat]. rewrite E1, E2, firstn_skipn, firstn_length. split; [f_equal; lia|reflexivity].
Qed.
Lemma nested_forest {A} : forall szs p (data : list A), sizes_ok p szs -> length data = total p szs ->
  exists F : list (nest A (length szs)), length F = p /\ shape_of (length szs) F = szs /\ data_of (length szs) F = data.
Proof.
  induction szs as [|s szs IH]; intros p data So L; cbn [length sizes_ok total] in *.
  - exists data. auto.
  - destruct So as [Ls So]. destruct (IH _ data So L) as (F & L1 & S1 & D1). destruct (cut_ok s F L1) as (c & E1 & E2).
    exists c. split; [exact (eq_trans (eq_sym (map_length (@length (nest A (length szs))) c)) (eq_trans (f_equal (@length nat) E1) Ls))|]. 
    change (shape_of (S (length szs)) c) with (map (@length (nest A (length szs))) c :: shape_of (length szs) (@concat (nest A (length szs)) c)).
    change (data_of (S (length szs)) c) with (data_of (length szs) (@concat (nest A (length szs)) c)). rewrite E1, E2, S1, D1. auto.
Qed.
Lemma nested_ok {A} szs (data : list A) : sizes_ok 1 szs -> length data = total 1 szs ->
  exists x : nest A (length szs), shape_of (length szs) [x] = szs /\ data_of (length szs) [x] = data.
Proof.
  intros So L. destruct (nested_forest szs 1 data So L) as (F & L1 & S1 & D1). destruct F as [|x [|y F]]; try discriminate. exists x. auto.
Qed.

(** ** Dense arrays *)
Lemma dense_each {T} (a : darr T) p x q : represents a (p ++ x ++ q) -> d_each a (zl p) (zl x) = Some (present_pairs x).
Proof.
  intros R. unfold d_each, zl. rewrite !Nat2Z.id. destruct (rep_slice a _ (length p) (length x) R) as (r & E & Rr); [rewrite !app_length; lia|].
  rewrite E. cbn [bind]. rewrite skipn_app, skipn_all, Nat.sub_diag in Rr. cbn [app skipn] in Rr.
  rewrite firstn_app, firstn_all, Nat.sub_diag in Rr. cbn [firstn] in Rr. rewrite app_nil_r in Rr. apply rep_for_each_present, Rr.
Qed.
Definition as_set {T} (p : nat * T) : wr T := WSet (fst p) (Some (snd p)).
Lemma d_adds_runs {T} : forall ps (b : dbuilder T), d_adds b ps = wr_runs b (map as_set ps).
Proof.
  induction ps as [|[i v] ps IH]; intros b; [reflexivity|]. cbn [d_adds map wr_runs wr_run as_set fst snd].
  destruct (db_set b i (Some v)) as [b'|]; [|reflexivity]. cbn [bind]. apply IH.
Qed.
Lemma write_mid {X} (pre : list (option X)) o post x : list_write (pre ++ o :: post) (length pre) 1 (Some x) = pre ++ Some x :: post.
Proof.
  cbn [list_write repeat app]. rewrite firstn_app, firstn_all, Nat.sub_diag. cbn [firstn]. rewrite app_nil_r. f_equal.
  cbn [app]. f_equal. rewrite Nat.add_1_r, skipn_app, skipn_all2 by lia. cbn [app]. replace (S (length pre) - length pre) with 1 by lia. reflexivity.
Qed.
Lemma writes_all {T} : forall (l pre : list (option T)),
  fold_left list_wr (map as_set (map (fun p => (length pre + fst p, snd p)) (present_pairs l))) (pre ++ repeat None (length l)) = pre ++ l.
Proof.
  induction l as [|o l IH]; intros pre; [reflexivity|].
  change (o :: l) with ([o] ++ l). rewrite present_app. cbn [length]. rewrite !map_app, fold_left_app, !map_map. cbn [fst snd].
  assert (E : fold_left list_wr (map (fun x => as_set (length pre + fst x, snd x)) (present_pairs [o])) (pre ++ repeat None (length ([o] ++ l))) = (pre ++ [o]) ++ repeat None (length l)).
  { cbn [length app repeat]. rewrite <- app_assoc. destruct o as [x|]; cbn [present_pairs length seq combine flat_map fst snd app map fold_left]; [|reflexivity].
    unfold as_set. cbn [fst snd list_wr]. rewrite Nat.add_0_r. apply write_mid. }
  rewrite E. refine (eq_trans _ (eq_trans (IH (pre ++ [o])) (eq_sym (app_assoc pre [o] l)))). f_equal.
  rewrite !map_map. apply map_ext. intros p. rewrite app_length. cbn [length fst snd]. do 2 f_equal. lia.
Qed.
Lemma present_bound {T} (l : list (option T)) p : In p (present_pairs l) -> fst p < length l.
Proof.
  unfold present_pairs. intros H. apply in_flat_map in H as ([i o] & Hin & H). apply in_combine_l, in_seq in Hin. cbn [fst snd] in *.
  destruct o; [|contradiction]. destruct H as [<-|[]]. cbn. lia.
Qed.
Lemma dense_size {T} (a : darr T) l : represents a l -> Z.of_nat (da_size a) = zl l.
Proof. intros (_ & S & _). unfold zl. f_equal. exact S. Qed.
Lemma dense_build {T} (mem : nat -> list T) arrays ls res : (forall n, length (mem n) = n) -> Forall2 represents arrays ls ->
  list_sum (map (@length _) ls) = length res -> exists a, d_build mem arrays (present_pairs res) = Some a /\ represents a res.
Proof.
  intros Hm F L. unfold d_build.
  assert (En : list_sum (map (@da_size T) arrays) = length res).
  { rewrite <- L. clear - F. induction F as [|a l arrays ls (_ & S & _) F IH]; [reflexivity|]. cbn [map]. rewrite !sum_cons, IH, S. reflexivity. }
  rewrite En, d_adds_runs.
  destruct (rep_builder (mem (length res)) (map as_set (present_pairs res))) as (b & Eb & R & _).
  - rewrite Hm. apply Forall_map. apply Forall_forall. intros p Hp. cbn. apply present_bound, Hp.
  - rewrite Eb. cbn [bind]. eexists. split; [reflexivity|]. rewrite Hm in R.
    assert (Wr := writes_all res []). cbn [app length] in Wr. rewrite (map_ext _ (fun p => p)), map_id in Wr by (intros []; reflexivity). rewrite Wr in R. exact R.
Qed.

(** ** Arrays *)
Lemma present_cons {T} o (l : list (option T)) : present_pairs (o :: l) =
  (match o with Some v => [(0, v)] | None => [] end) ++ map (fun p => (S (fst p), snd p)) (present_pairs l).
Proof. change (o :: l) with ([o] ++ l). rewrite present_app. destruct o; reflexivity. Qed.
Lemma asc_S ids : ascending ids -> ascending (map S ids).
Proof.
  intros H i j L. rewrite map_length in L. rewrite !(nth_indep (map S ids) 0 (S 0)) by (rewrite map_length; lia). rewrite !(map_nth S).
  specialize (H i j ltac:(lia)). lia.
Qed.
Lemma shift_ids {T} (ps : list (nat * T)) : map fst (map (fun p => (S (fst p), snd p)) ps) = map S (map fst ps).
Proof. rewrite !map_map. reflexivity. Qed.
Lemma shift_vals {T} (ps : list (nat * T)) : map (fun p => Some (snd p)) (map (fun p => (S (fst p), snd p)) ps) = map (fun p => Some (snd p)) ps.
Proof. rewrite !map_map. reflexivity. Qed.
Lemma present_asc {T} : forall l : list (option T), ascending (map fst (present_pairs l)).
Proof.
  induction l as [|o l IH]; [intros i j L; cbn in L; lia|]. rewrite present_cons, map_app, shift_ids. apply asc_S in IH.
  destruct o as [v|]; [|exact IH]. cbn [map fst app]. apply asc_cons; [exact IH|].
  apply Forall_map, Forall_forall. intros x _. lia.
Qed.
Lemma index_S i ids : index_of (S i) (map S ids) = index_of i ids.
Proof. induction ids as [|x ids IH]; [reflexivity|]. cbn [map index_of]. rewrite IH. reflexivity. Qed.
Lemma index_0S ids : index_of 0 (map S ids) = None.
Proof. apply index_of_none. intros H. apply in_map_iff in H as (x & E & _). discriminate. Qed.
Lemma by_present {T} : forall (l : list (option T)) i, i < length l ->
  by_id (map fst (present_pairs l)) (map (fun p => Some (snd p)) (present_pairs l)) i = nth i l None.
Proof.
  induction l as [|o l IH]; intros i L; [cbn in L; lia|]. rewrite present_cons, !map_app, shift_ids, shift_vals.
  assert (E : forall k, by_id (map S (map fst (present_pairs l))) (map (fun p => Some (snd p)) (present_pairs l)) k = match k with O => None | S k' => by_id (map fst (present_pairs l)) (map (fun p => Some (snd p)) (present_pairs l)) k' end).
  { intros [|k]; unfold by_id; [rewrite index_0S|rewrite index_S]; reflexivity. }
  cbn [length] in L. destruct i as [|i]; cbn [nth].
  - destruct o; cbn [map app fst snd]; [reflexivity|apply E].
  - rewrite <- (IH i) by lia. destruct o; cbn [map app fst snd]; [|apply E].
    unfold by_id. cbn [index_of]. rewrite index_S. cbn [Nat.eqb]. destruct (index_of i (map fst (present_pairs l))); reflexivity.
Qed.
Lemma by_present_all {T} (l : list (option T)) :
  map (by_id (map fst (present_pairs l)) (map (fun p => Some (snd p)) (present_pairs l))) (seq 0 (length l)) = l.
Proof.
  rewrite <- (nth_seq_id l None) at 4. apply map_ext_in. intros i Hi. apply in_seq in Hi. apply by_present. lia.
Qed.
Lemma s_adds_runs {T} : forall ps (b : sbuilder T), s_adds b ps = sb_adds b (map (fun p => (fst p, Some (snd p))) ps).
Proof.
  induction ps as [|[i v] ps IH]; intros b; [reflexivity|]. cbn [s_adds map sb_adds fst snd].
  destruct (sb_add b i (Some v)) as [b'|]; [|reflexivity]. cbn [bind]. apply IH.
Qed.
Lemma sparse_each {T} (a : arr T) p x q : ar_rep a (p ++ x ++ q) -> s_each a (zl p) (zl x) = Some (present_pairs x).
Proof.
  intros R. unfold s_each, zl. rewrite !Nat2Z.id. destruct (slice_ok a _ (length p) (length x) R) as (r & E & Rr); [rewrite !app_length; lia|].
  rewrite E. cbn [bind]. rewrite skipn_app, skipn_all, Nat.sub_diag in Rr. cbn [app skipn] in Rr.
  rewrite firstn_app, firstn_all, Nat.sub_diag in Rr. cbn [firstn] in Rr. rewrite app_nil_r in Rr.
  destruct (for_each_present_ok r x Rr) as (cs & Ec & Hc). unfold ar_for_each_present_fn. rewrite Ec. cbn [bind]. rewrite Hc. f_equal.
  unfold present_pairs. generalize (combine (seq 0 (length x)) x) as m. intros m. induction m as [|[i o] m IH]; [reflexivity|].
  cbn [filter snd]. destruct o; cbn [is_some flat_map fst snd app]; [f_equal|]; exact IH.
Qed.
Lemma sparse_size {T} (a : arr T) l : ar_rep a l -> Z.of_nat (ar_size a) = zl l.
Proof. intros (_ & S & _). unfold zl. f_equal. exact S. Qed.
Lemma present_count {T} (l : list (option T)) : length (filter is_some l) = length (present_pairs l).
Proof.
  induction l as [|o l IH]; [reflexivity|]. rewrite present_cons, app_length, map_length, <- IH. destruct o; reflexivity.
Qed.
Lemma sparse_build {T} (mem : nat -> list T) addr arrays ls res : alloc_sz mem -> Forall2 ar_rep arrays ls ->
  list_sum (map (@length _) ls) = length res -> list_sum (map (fun l => length (present_pairs l)) ls) = length (present_pairs res) ->
  exists a, s_build mem addr arrays (present_pairs res) = Some a /\ ar_rep a res.
Proof.
  intros Hm F L C. unfold s_build.
  assert (En : list_sum (map (@ar_size T) arrays) = length res).
  { rewrite <- L. clear - F. induction F as [|a l arrays ls (_ & S & _) F IH]; [reflexivity|]. cbn [map]. rewrite !sum_cons, IH, S. reflexivity. }
  assert (Ec : sum_counts arrays = Some (length (present_pairs res))).
  { rewrite <- C. clear - F. induction F as [|a l arrays ls R F IH]; [reflexivity|]. cbn [map sum_counts].
    rewrite (present_count_ok a l R), IH, !sum_cons, present_count. reflexivity. }
  rewrite Ec, En. cbn [bind]. rewrite s_adds_runs.
  destruct (sparse_builder_ok mem addr (length res) (length (present_pairs res)) (map (fun p => (fst p, Some (snd p))) (present_pairs res))) as (b & r & E1 & E2 & R).
  - exact Hm.
  - rewrite map_map. apply present_asc.
  - apply Forall_map, Forall_forall. intros p Hp. exact (present_bound res p Hp).
  - rewrite map_length. lia.
  - rewrite E1. cbn [bind]. exists r. split; [exact E2|]. rewrite !map_map in R. cbn [fst snd] in R. rewrite by_present_all in R. exact R.
Qed.

(** ** When shapes are rejected *)
Lemma concat_rejects alloc (shapes : list shape) (zs : list (list (list nat))) (dim : Z) (insert : bool) : alloc_ok alloc -> Forall2 shape_rep shapes zs ->
  (shapes = [] \/ (exists z0 zs', zs = z0 :: zs' /\
    (~ (0 <= dim < Z.of_nat (length z0 + (if insert then 1 else 0)))%Z \/ ~ Forall (alike (Z.to_nat dim) z0) zs))) ->
  exists e, concat_shapes alloc shapes dim insert = Some (inl e).
Proof.
  intros Ha F [->|(z0 & zs' & -> & H)]; [eexists; reflexivity|].
  inversion F as [|s0 ? shapes' ? R0 F' E0 E1]; subst. unfold concat_shapes. assert (L0 := F2_len _ _ _ (proj1 R0)).
  set (rr := if insert then S (length s0) else length s0).
  assert (Er : rr = length z0 + (if insert then 1 else 0)) by (unfold rr; destruct insert; lia).
  destruct (Nat.eqb_spec rr 0) as [Z|Z]; [eexists; reflexivity|].
  destruct ((dim <? 0)%Z || (Z.of_nat rr <=? dim)%Z) eqn:C; [eexists; reflexivity|]. apply orb_false_iff in C as [C1 C2].
  destruct H as [H|H]; [exfalso; apply H; rewrite <- Er; lia|].
  destruct (check_shapes_ok alloc s0 z0 (Z.to_nat dim) Ha R0) with (shapes := s0 :: shapes') (zs := z0 :: zs') as (c & Ec & Hc); [destruct insert; lia|exact F|].
  rewrite Ec. cbn [bind]. destruct c as [e|]; [eexists; reflexivity|]. exfalso. apply H, Hc. reflexivity.
Qed.
