From Verif Require Import Base Bits_Model Bitmap_Model Dense_Model Dense_Spec Dense_Proofs IdFilter_Model IdFilter_Spec IdFilter_Proofs
  Array_Model Array_Spec Array_Proofs Edge_Model SBuf_Model Fp_Model Fp_Spec.
Local Open Scope Z_scope.

Lemma app_cut {A} (x y r s : list A) : length x = length y -> x ++ r = y ++ s -> x = y /\ r = s.
Proof.
  revert y. induction x as [|a x IH]; intros [|b y] L E; try discriminate; [split; [reflexivity|exact E]|].
  cbn in E. injection E as -> E. cbn in L. destruct (IH y ltac:(lia) E) as [-> ->]. auto.
Qed.
Lemma le_len n z : length (le n z) = n.
Proof. revert z. induction n as [|n IH]; intros z; cbn [le length]; [reflexivity|]. f_equal. apply IH. Qed.
Lemma le_mod n : forall x y, le n x = le n y -> x mod 256 ^ Z.of_nat n = y mod 256 ^ Z.of_nat n.
Proof.
  induction n as [|n IH]; intros x y E.
  - change (256 ^ Z.of_nat 0) with 1. rewrite !Z.mod_1_r. reflexivity.
  - cbn [le] in E. injection E as E0 E1. apply IH in E1. rewrite Nat2Z.inj_succ, Z.pow_succ_r by lia.
    rewrite !Z.rem_mul_r by (try lia; apply Z.pow_pos_nonneg; lia). rewrite E0, E1. reflexivity.
Qed.
Lemma mod_i64 x y : int64_range x -> int64_range y -> x mod 2 ^ 64 = y mod 2 ^ 64 -> x = y.
Proof.
  unfold int64_range. change (2 ^ 63) with 9223372036854775808. change (2 ^ 64) with 18446744073709551616.
  intros Hx Hy E. pose proof (Z.div_mod x 18446744073709551616 ltac:(lia)). pose proof (Z.div_mod y 18446744073709551616 ltac:(lia)).
  pose proof (Z.mod_pos_bound x 18446744073709551616 ltac:(lia)). pose proof (Z.mod_pos_bound y 18446744073709551616 ltac:(lia)).
  assert (x / 18446744073709551616 = 0 \/ x / 18446744073709551616 = -1) by lia.
  assert (y / 18446744073709551616 = 0 \/ y / 18446744073709551616 = -1) by lia. lia.
Qed.
Lemma d_i64 : delimited int64_range fp_i64.
Proof.
  intros x y r s Hx Hy E. unfold fp_i64 in E. cbn [concat] in E. rewrite !app_nil_r in E.
  destruct (app_cut _ _ _ _ ltac:(rewrite !le_len; reflexivity) E) as [E1 E2]. split; [|exact E2].
  apply le_mod in E1. apply mod_i64; assumption.
Qed.
Lemma d_enum x y r s : 0 <= x < 256 -> 0 <= y < 256 -> concat (fp_enum x) ++ r = concat (fp_enum y) ++ s -> x = y /\ r = s.
Proof.
  intros Hx Hy E. unfold fp_enum in E. cbn [concat] in E. rewrite !app_nil_r in E.
  destruct (app_cut _ _ _ _ ltac:(rewrite !le_len; reflexivity) E) as [E1 E2]. split; [|exact E2].
  cbn [le] in E1. injection E1 as E0 _ _ _. rewrite !Z.mod_small in E0 by lia. exact E0.
Qed.
Lemma size_range {A} (l : list A) : size_ok l -> int64_range (zlen l).
Proof. unfold size_ok, int64_range, zlen. change (2 ^ 63) with 9223372036854775808. lia. Qed.
Lemma d_size {A B} (l : list A) (m : list B) r s : size_ok l -> size_ok m ->
  concat (fp_size l) ++ r = concat (fp_size m) ++ s -> length l = length m /\ r = s.
Proof.
  intros Hl Hm E. destruct (d_i64 _ _ _ _ (size_range l Hl) (size_range m Hm) E) as [E1 E2]. split; [|exact E2]. unfold zlen in E1. lia.
Qed.
Lemma d_text : delimited size_ok fp_text.
Proof.
  intros x y r s Hx Hy E. unfold fp_text in E. rewrite !concat_app, <- !app_assoc in E. destruct (d_size _ _ _ _ Hx Hy E) as [L E'].
  cbn [concat] in E'. rewrite !app_nil_r in E'. apply app_cut; assumption.
Qed.
Lemma d_unit : delimited (fun _ => True) fp_unit.
Proof. intros [] [] r s _ _ E. unfold fp_unit in E. apply app_inv_head in E. auto. Qed.

(** Lists of delimited values. *)
Lemma d_flat {A} (dom : A -> Prop) enc : delimited dom enc -> forall l m r s, Forall dom l -> Forall dom m -> length l = length m ->
  concat (flat_map enc l) ++ r = concat (flat_map enc m) ++ s -> l = m /\ r = s.
Proof.
  intros D. induction l as [|a l IH]; intros [|b m] r s Hl Hm L E; try discriminate; [split; [reflexivity|exact E]|].
  cbn [flat_map] in E. rewrite !concat_app, <- !app_assoc in E. inversion Hl; subst. inversion Hm; subst.
  destruct (D a b _ _ ltac:(assumption) ltac:(assumption) E) as [-> E']. destruct (IH m r s ltac:(assumption) ltac:(assumption) ltac:(cbn in L; lia) E') as [-> ->]. auto.
Qed.
Lemma d_ids : forall l m r s, Forall int64_range l -> Forall int64_range m -> length l = length m ->
  concat (map (le 8) l) ++ r = concat (map (le 8) m) ++ s -> l = m /\ r = s.
Proof.
  intros l m r s Hl Hm L E. apply (d_flat int64_range fp_i64 d_i64); try assumption.
Qed.
Lemma d_buffer : delimited (fun l => size_ok l /\ Forall int64_range l) fp_buffer.
Proof.
  intros x y r s [Sx Hx] [Sy Hy] E. unfold fp_buffer in E. rewrite !concat_app, <- !app_assoc in E.
  destruct (d_size _ _ _ _ Sx Sy E) as [L E']. cbn [concat] in E'. rewrite !app_nil_r in E'. apply d_ids; assumption.
Qed.
Section V.
Context {A : Type} (dom : A -> Prop) (enc : A -> list (list Z)) (D : delimited dom enc).
Lemma d_opt : delimited (opt_dom dom) (fp_opt enc).
Proof.
  intros [x|] [y|] r s Hx Hy E; unfold fp_opt, fp_bool in E; rewrite ?concat_app in E; cbn [concat le app] in E; try discriminate.
  - injection E as E. destruct (D _ _ _ _ Hx Hy E) as [-> ->]. auto.
  - injection E as E. auto.
Qed.
Lemma fp_elems_ok d l : represents d l -> forall n i, (i + n <= length l)%nat ->
  fp_elems enc d i n = Some (flat_map (fp_opt enc) (firstn n (skipn i l))).
Proof.
  intros (V & Sz & G). induction n as [|n IH]; intros i Hi; [reflexivity|]. cbn [fp_elems]. rewrite G by lia. cbn [bind]. rewrite IH by lia. cbn [bind].
  destruct (skipn i l) as [|x t] eqn:E.
  - exfalso. assert (length (skipn i l) = 0%nat) by (rewrite E; reflexivity). rewrite skipn_length in H. lia.
  - assert (Hx : nth i l None = x). { rewrite <- (Nat.add_0_r i), <- skipn_nth, E. reflexivity. }
    assert (Ht : skipn (S i) l = t). { change (S i) with (1 + i)%nat. clear -E. revert i E. induction l as [|y l IH]; intros i E.
      - destruct i; discriminate. - destruct i as [|i]; cbn in *; [congruence|]. apply IH, E. }
    rewrite Ht, Hx. reflexivity.
Qed.
Lemma fp_dense_ok d l : represents d l -> fp_dense enc d = Some (fp_size l ++ flat_map (fp_opt enc) l).
Proof.
  intros R. unfold fp_dense. destruct R as (V & S & G). rewrite S. rewrite (fp_elems_ok d l (conj V (conj S G))) by lia. cbn [bind skipn].
  rewrite firstn_all. reflexivity.
Qed.
Lemma d_list l m r s : size_ok l -> size_ok m -> Forall (opt_dom dom) l -> Forall (opt_dom dom) m ->
  concat (fp_size l) ++ concat (flat_map (fp_opt enc) l) ++ r = concat (fp_size m) ++ concat (flat_map (fp_opt enc) m) ++ s -> l = m /\ r = s.
Proof.
  intros Sl Sm Hl Hm E. destruct (d_size _ _ _ _ Sl Sm E) as [L E'].
  exact (d_flat _ _ d_opt l m r s Hl Hm L E').
Qed.
Lemma elems_typed d l : represents d l -> Forall dom (vals d) -> Forall (opt_dom dom) l.
Proof.
  intros (V & S & G) F. apply Forall_forall. intros o Ho. destruct (In_nth _ _ None Ho) as (i & Hi & E). specialize (G i Hi). rewrite E in G.
  destruct o as [v|]; [|exact I]. unfold da_get in G. destruct (da_present d i) as [[]|]; cbn [bind] in G; try discriminate.
  destruct (rd (vals d) i) as [w|] eqn:Ew; cbn [bind] in G; [|discriminate]. injection G as ->. cbn. rewrite Forall_forall in F. apply F.
  unfold rd in Ew. apply nth_error_In in Ew. exact Ew.
Qed.
Lemma d_filter n f g r s : fwf n f -> fwf n g -> Z.of_nat n < 2 ^ 63 ->
  match f with FPartial _ ids _ => Forall (fun x => Z.of_nat x < 2 ^ 63) ids | _ => True end ->
  match g with FPartial _ ids _ => Forall (fun x => Z.of_nat x < 2 ^ 63) ids | _ => True end ->
  concat (fp_filter f) ++ r = concat (fp_filter g) ++ s ->
  r = s /\ match f, g with
           | FEmpty, FEmpty => True | FFull, FFull => True
           | FPartial _ i _, FPartial _ j _ => i = j
           | _, _ => False end.
Proof.
  intros Wf Wg Hn Tf Tg E.
  assert (Ids : forall ids : list nat, Forall (fun x => Z.of_nat x < 2 ^ 63) ids -> (length ids < n)%nat -> size_ok (map Z.of_nat ids) /\ Forall int64_range (map Z.of_nat ids)).
  { intros ids F L. split; [unfold size_ok, zlen; rewrite map_length; lia|]. apply Forall_forall. intros x Hx. apply in_map_iff in Hx. destruct Hx as (k & <- & Hk).
    rewrite Forall_forall in F. specialize (F k Hk). unfold int64_range. change (2 ^ 63) with 9223372036854775808 in *. lia. }
  assert (Nil : size_ok (@nil Z) /\ Forall int64_range []) by (split; [reflexivity|constructor]).
  destruct f as [| |a i o], g as [| |b j p]; unfold fp_filter in E; rewrite ?concat_app, <- ?app_assoc in E.
  - apply app_inv_head in E. apply app_inv_head in E. auto.
  - destruct (d_enum 0 2 _ _ ltac:(lia) ltac:(lia) E). lia.
  - destruct (d_enum 0 1 _ _ ltac:(lia) ltac:(lia) E). lia.
  - destruct (d_enum 2 0 _ _ ltac:(lia) ltac:(lia) E). lia.
  - apply app_inv_head in E. auto.
  - destruct (d_enum 2 1 _ _ ltac:(lia) ltac:(lia) E). lia.
  - destruct (d_enum 1 0 _ _ ltac:(lia) ltac:(lia) E). lia.
  - destruct (d_enum 1 2 _ _ ltac:(lia) ltac:(lia) E). lia.
  - apply app_inv_head in E. destruct Wf as (_ & Lf & _), Wg as (_ & Lg & _). destruct (d_buffer _ _ _ _ (Ids i Tf Lf) (Ids j Tg Lg) E) as [E1 E2].
    split; [exact E2|]. clear -E1. revert j E1. induction i as [|x i IH]; intros [|y j] E; try discriminate; [reflexivity|]. cbn in E. injection E as Ex E.
    f_equal; [lia|]. apply IH, E.
Qed.
Lemma fp_array_ok a l : ar_rep a l -> fp_array enc a = Some (fp_size l ++ (fp_size (at_ids l (fids (length l) (ar_ids a))) ++
    flat_map (fp_opt enc) (at_ids l (fids (length l) (ar_ids a)))) ++ fp_opt enc (ar_miss a) ++ fp_filter (ar_ids a)).
Proof.
  intros R. apply ar_char in R. destruct R as (Wf & Sz & Fm & Rd & _). unfold fp_array. rewrite (fp_dense_ok _ _ Rd). cbn [bind]. rewrite Sz. reflexivity.
Qed.
Lemma fids_len n f : fwf n f -> (length (fids n f) <= n)%nat.
Proof. destruct f; cbn; [lia|rewrite seq_length; lia|]. intros (_ & L & _). rewrite map_length. lia. Qed.
Lemma d_array a b l m x y r s : ar_rep a l -> ar_rep b m -> arr_typed dom a -> arr_typed dom b ->
  ids_shift a = ids_shift b -> fp_array enc a = Some x -> fp_array enc b = Some y -> concat x ++ r = concat y ++ s -> l = m /\ r = s.
Proof.
  intros Ra Rb (Na & Ta & Ma & Ia) (Nb & Tb & Mb & Ib) Sh Ea Eb E. rewrite (fp_array_ok a l Ra) in Ea. rewrite (fp_array_ok b m Rb) in Eb.
  match type of Ea with Some ?u = _ => assert (Ex : x = u) by congruence end. match type of Eb with Some ?u = _ => assert (Ey : y = u) by congruence end.
  clear Ea Eb. subst x y. apply ar_char in Ra. apply ar_char in Rb. destruct Ra as (Wa & Za & Fa & Da & Oa), Rb as (Wb & Zb & Fb & Db & Ob).
  rewrite !concat_app, <- !app_assoc in E.
  assert (Sl : size_ok l) by (unfold size_ok, zlen; lia). assert (Sm : size_ok m) by (unfold size_ok, zlen; lia).
  destruct (d_size _ _ _ _ Sl Sm E) as [L E1]. 
  apply d_list in E1.
  2, 3: unfold size_ok, zlen; rewrite at_ids_len; pose proof (fids_len _ _ Wa); pose proof (fids_len _ _ Wb); lia.
  2: exact (elems_typed _ _ Da Ta). 2: exact (elems_typed _ _ Db Tb).
  destruct E1 as [Ed E2]. destruct (d_opt _ _ _ _ Ma Mb E2) as [Em E3].
  rewrite <- L in *. destruct (d_filter _ _ _ _ _ Wa Wb ltac:(lia) Ia Ib E3) as [Er Ef].
  assert (Eids : fids (length l) (ar_ids a) = fids (length l) (ar_ids b)).
  { unfold ids_shift in Sh. destruct (ar_ids a), (ar_ids b); try contradiction; try reflexivity. cbn. rewrite Ef, Sh. reflexivity. }
  split; [|exact Er]. apply nth_ext with None None; [exact L|]. intros i Hi.
  destruct (in_dec Nat.eq_dec i (fids (length l) (ar_ids a))) as [Hin|Hout].
  - destruct (In_nth _ _ 0%nat Hin) as (o & Ho & Eo). pose proof (f_equal (fun k => nth o k None) Ed) as En. cbv beta in En.
    rewrite !at_ids_nth in En by (try rewrite <- Eids; assumption). rewrite <- Eids, Eo in En. exact En.
  - rewrite Oa by assumption. rewrite Ob by (try rewrite <- Eids; (lia || assumption)). exact Em.
Qed.
End V.

(** ** The hasher *)
Fixpoint cut (pend : list Z) (calls : list (list Z)) : list (list Z) * list Z :=
  match calls with
  | [] => ([], pend)
  | c :: t =>
      if (length pend + length c <=? capacity)%nat then cut (pend ++ c) t
      else let fl := match pend with [] => [] | _ => [pend] end in
           if (length c <? capacity)%nat then let '(bs, p) := cut c t in (fl ++ bs, p)
           else let '(bs, p) := cut [] t in (fl ++ c :: bs, p)
  end.
Definition last_block (p : list Z) : list (list Z) := match p with [] => [] | _ => [p] end.
Definition blocks (calls : list (list Z)) : list (list Z) := fst (cut [] calls) ++ last_block (snd (cut [] calls)).

Lemma cut_concat calls : forall pend, concat (fst (cut pend calls)) ++ snd (cut pend calls) = pend ++ concat calls.
Proof.
  induction calls as [|c t IH]; intros pend; cbn [cut concat]; [cbn [fst snd concat app]; rewrite app_nil_r; reflexivity|].
  destruct (_ <=? _)%nat; [rewrite IH, <- app_assoc; reflexivity|]. destruct (_ <? _)%nat.
  - specialize (IH c). destruct (cut c t) as [bs p]. cbn [fst snd] in *. rewrite concat_app, <- app_assoc, IH. destruct pend; cbn; rewrite ?app_nil_r; reflexivity.
  - specialize (IH []). destruct (cut [] t) as [bs p]. cbn [fst snd] in *. rewrite concat_app, <- app_assoc. cbn [concat]. rewrite <- app_assoc, IH.
    destruct pend; cbn; rewrite ?app_nil_r; reflexivity.
Qed.
Lemma cut_nonempty calls : forall pend, Forall (fun b => b <> []) (fst (cut pend calls)).
Proof.
  induction calls as [|c t IH]; intros pend; cbn [cut]; [constructor|].
  destruct (_ <=? _)%nat; [apply IH|]. destruct (_ <? _)%nat eqn:Ec.
  - specialize (IH c). destruct (cut c t) as [bs p]. cbn [fst snd] in *. destruct pend; [exact IH|]. constructor; [discriminate|exact IH].
  - specialize (IH []). destruct (cut [] t) as [bs p]. cbn [fst snd] in *. apply Nat.ltb_ge in Ec.
    assert (c <> []) by (intros ->; unfold capacity in Ec; cbn in Ec; lia). destruct pend; [constructor; assumption|]. constructor; [discriminate|]. constructor; assumption.
Qed.
Lemma blocks_concat calls : concat (blocks calls) = concat calls.
Proof.
  unfold blocks. rewrite concat_app. pose proof (cut_concat calls []) as E. cbn [app] in E. rewrite <- E. f_equal. destruct (snd _); cbn; rewrite ?app_nil_r; reflexivity.
Qed.
Lemma blocks_nonempty calls : Forall (fun b => b <> []) (blocks calls).
Proof. apply Forall_app. split; [apply cut_nonempty|]. destruct (snd _); [constructor|]. constructor; [discriminate|constructor]. Qed.

Section HashProofs.
Variable H : hash128.
Definition hinv (h : hasher) : Prop := length (h_buf h) = capacity /\ (h_size h <= capacity)%nat.
Definition pending (h : hasher) : list Z := firstn (h_size h) (h_buf h).
Lemma pending_len h : hinv h -> length (pending h) = h_size h.
Proof. intros [L S]. unfold pending. rewrite firstn_length. lia. Qed.
Lemma memcpy_ok dst off src : (off + length src <= length dst)%nat -> exists d, memcpy dst off src = Some d /\ length d = length dst /\
  firstn (off + length src) d = firstn off dst ++ src.
Proof.
  intros Hl. unfold memcpy. replace (_ <=? _)%nat with true by lia. eexists. split; [reflexivity|].
  assert (L1 : length (firstn off dst) = off) by (rewrite firstn_length; lia). split.
  - rewrite !app_length, skipn_length. lia.
  - rewrite firstn_app, L1. rewrite (firstn_all2 (firstn off dst)) by lia. f_equal. rewrite firstn_app.
    replace (off + length src - off)%nat with (length src) by lia. rewrite firstn_all, Nat.sub_diag. cbn [firstn]. apply app_nil_r.
Qed.
Lemma feed_ok calls : forall h, hinv h -> exists h', feed H h calls = Some h' /\ hinv h' /\
  pending h' = snd (cut (pending h) calls) /\ h_state h' = fold_left (fun s b => H b s) (fst (cut (pending h) calls)) (h_state h).
Proof.
  induction calls as [|c t IH]; intros h I; [exists h; cbn; auto|]. cbn [feed cut]. rewrite (pending_len h I). unfold raw.
  destruct (Nat.leb_spec (h_size h + length c) capacity) as [Hle|Hgt].
  - destruct (memcpy_ok (h_buf h) (h_size h) c ltac:(destruct I as [I1 _]; lia)) as (b & E & L & F). rewrite E. cbn [bind].
    edestruct (IH (mkH (h_state h) b (h_size h + length c))) as (h' & E' & I' & P & S).
    { destruct I as [I1 _]. split; cbn [h_buf h_size]; lia. }
    exists h'. split; [exact E'|]. split; [exact I'|].
    assert (Pn : pending (mkH (h_state h) b (h_size h + length c)) = pending h ++ c) by exact F. rewrite Pn in P, S. auto.
  - unfold raw_slow. set (h1 := if (0 <? h_size h)%nat then _ else h). assert (I1 : length (h_buf h1) = capacity /\ h_size h1 = 0%nat /\
      h_state h1 = fold_left (fun s b => H b s) (match pending h with [] => [] | _ => [pending h] end) (h_state h)).
    { pose proof (pending_len h I) as PL. destruct I as [I1 _]. subst h1. destruct (Nat.ltb_spec 0 (h_size h)) as [Hp|Hp].
      - cbn [h_buf h_size h_state]. destruct (pending h) eqn:Ep; [cbn in PL; lia|]. rewrite <- Ep. auto.
      - destruct (pending h); [|cbn in PL; lia]. split; [exact I1|]. split; [lia|reflexivity]. }
    destruct I1 as (L1 & S1 & St1). fold h1. destruct (Nat.ltb_spec (length c) capacity) as [Hs|Hs].
    + destruct (memcpy_ok (h_buf h1) 0 c ltac:(lia)) as (b & E & L & F). rewrite E. cbn [bind].
      edestruct (IH (mkH (h_state h1) b (length c))) as (h' & E' & I' & P & S). { split; cbn [h_buf h_size]; lia. }
      exists h'. split; [exact E'|]. split; [exact I'|]. cbn [Nat.add firstn app] in F.
      assert (Pn : pending (mkH (h_state h1) b (length c)) = c) by exact F. rewrite Pn in P, S. destruct (cut c t) as [bs p]. cbn [fst snd] in *. split; [exact P|].
      rewrite fold_left_app, <- St1. exact S.
    + cbn [bind]. edestruct (IH (mkH (H c (h_state h1)) (h_buf h1) (h_size h1))) as (h' & E' & I' & P & S). { split; cbn [h_buf h_size]; lia. }
      exists h'. split; [exact E'|]. split; [exact I'|]. 
      assert (Pn : pending (mkH (H c (h_state h1)) (h_buf h1) (h_size h1)) = []) by (unfold pending; cbn [h_size h_buf]; rewrite S1; reflexivity).
      rewrite Pn in P, S. destruct (cut [] t) as [bs p]. cbn [fst snd] in *. split; [exact P|].
      rewrite fold_left_app, <- St1. exact S.
Qed.
Lemma feed_app h c d : feed H h (c ++ d) = let? h := feed H h c in feed H h d.
Proof. revert h. induction c as [|x c IH]; intros h; [reflexivity|]. cbn [feed app]. destruct (raw H h x); [apply IH|reflexivity]. Qed.
Lemma fingerprint_ok mem seed salt calls : length mem = capacity ->
  fingerprint H mem seed salt calls = Some (as_uint128 (chain H (blocks (header seed salt ++ calls)))).
Proof.
  intros Lm. unfold fingerprint, new_hasher.
  destruct (feed_ok (header seed salt ++ calls) (mkH seeds mem 0) ltac:(split; cbn [h_buf h_size]; lia)) as (h & E & I & P & S).
  rewrite feed_app in E. destruct (feed H (mkH seeds mem 0) (header seed salt)) as [h1|]; [|discriminate]. cbn [bind] in *. rewrite E. cbn [bind].
  f_equal. assert (Pn : pending (mkH seeds mem 0) = []) by reflexivity. rewrite Pn in P, S. cbn [h_state] in S. unfold finish, chain, blocks.
  rewrite fold_left_app, <- S, <- P. fold (pending h). pose proof (pending_len h I) as PL. unfold as_uint128.
  destruct (Nat.ltb_spec 0 (h_size h)); destruct (pending h) eqn:Ep; cbn [length] in PL; try lia; reflexivity.
Qed.
End HashProofs.

Lemma hashed_blocks seed salt calls : hashed_as seed salt calls (blocks (header seed salt ++ calls)).
Proof. split; [apply blocks_nonempty|]. split; [apply blocks_concat|]. intros. apply fingerprint_ok. assumption. Qed.

Lemma chain_snoc H bs b : chain H (bs ++ [b]) = H b (chain H bs).
Proof. unfold chain. rewrite fold_left_app. reflexivity. Qed.
Lemma pair_neq_dec (b b' : list Z) (s s' : Z * Z) : (b, s) = (b', s') \/ (b, s) <> (b', s').
Proof.
  destruct (list_eq_dec Z.eq_dec b b') as [->|]; [|right; congruence]. destruct s as [x y], s' as [x' y'].
  destruct (Z.eq_dec x x') as [->|]; [|right; congruence]. destruct (Z.eq_dec y y') as [->|]; [left; reflexivity|right; congruence].
Qed.
Lemma chain_collision H t : forall bs bs', chain H bs = chain H bs' -> bs = bs' \/ collision H (bs ++ t) (bs' ++ t).
Proof.
  intros bs. revert t. induction bs as [|b bs IH] using rev_ind; intros t bs' E.
  - destruct bs' as [|b' bs' _] using rev_ind; [left; reflexivity|]. right. right. rewrite chain_snoc in E.
    exists bs', b', t. split; [right; rewrite <- app_assoc; reflexivity|]. symmetry. exact E.
  - destruct bs' as [|b' bs' _] using rev_ind.
    + right. right. rewrite chain_snoc in E. exists bs, b, t. split; [left; rewrite <- app_assoc; reflexivity|]. exact E.
    + rewrite !chain_snoc in E. destruct (pair_neq_dec b b' (chain H bs) (chain H bs')) as [Eq|Ne].
      * injection Eq as -> Es. destruct (IH (b' :: t) bs' Es) as [->|C]; [left; reflexivity|]. right. rewrite <- !app_assoc. exact C.
      * right. left. exists bs, b, bs', b', t. rewrite <- !app_assoc. auto.
Qed.
Lemma uint128_inj s t : u64_pair s -> u64_pair t -> as_uint128 s = as_uint128 t -> s = t.
Proof.
  destruct s as [a b], t as [c d]. unfold u64_pair, as_uint128. cbn [fst snd]. change (2 ^ 64) with 18446744073709551616. intros. f_equal; lia.
Qed.
Lemma chain_range H bs : (forall b s, u64_pair (H b s)) -> u64_pair (chain H bs).
Proof.
  intros HR. destruct bs as [|b bs _] using rev_ind; [unfold chain, seeds, u64_pair; cbn; lia|]. rewrite chain_snoc. apply HR.
Qed.
