(** C17, C28: fingerprints. *)
From Verif Require Import Base Bits_Model Bitmap_Model Dense_Model Dense_Spec Dense_Proofs IdFilter_Model IdFilter_Spec IdFilter_Proofs
  Array_Model Array_Spec Array_Proofs Edge_Model SBuf_Model Fp_Model Fp_Spec Fp_Proofs.
Local Open Scope Z_scope.

(** ** C17: the bytes fed to the hasher determine the value *)

(** int64_t, strings and units are told apart by their bytes, and so are optionals of
    such values. *)
Theorem C17_scalar : delimited int64_range fp_i64 /\ delimited size_ok fp_text /\ delimited (fun _ => True) fp_unit /\
  forall A (dom : A -> Prop) enc, delimited dom enc -> delimited (opt_dom dom) (fp_opt enc).
Proof. split; [exact d_i64|]. split; [exact d_text|]. split; [exact d_unit|]. intros. apply d_opt. assumption. Qed.
Print Assumptions C17_scalar.

(** The bytes of a DenseArray depend on its elements only, and determine them. *)
Theorem C17_dense {A} (dom : A -> Prop) enc a b l m : delimited dom enc -> represents a l -> represents b m ->
  Forall (opt_dom dom) l -> Forall (opt_dom dom) m -> size_ok l -> size_ok m ->
  exists x y, fp_dense enc a = Some x /\ fp_dense enc b = Some y /\ (l = m -> x = y) /\
    forall r s, concat x ++ r = concat y ++ s -> l = m /\ r = s.
Proof.
  intros D Ra Rb Hl Hm Sl Sm. exists (fp_size l ++ flat_map (fp_opt enc) l), (fp_size m ++ flat_map (fp_opt enc) m).
  split; [apply fp_dense_ok; exact Ra|]. split; [apply fp_dense_ok; exact Rb|]. split; [intros ->; reflexivity|].
  intros r s E. rewrite !concat_app, <- !app_assoc in E. exact (d_list dom enc D l m r s Sl Sm Hl Hm E).
Qed.
Print Assumptions C17_dense.
Example C17_ex_dense : fp_dense fp_text (mkD [[7]; [8; 9]; []] [5%N] 0) = fp_dense fp_text (mkD [[7]; []; []] [40%N] 3) /\
  fp_dense fp_text (mkD [[7]; [8; 9]; []] [5%N] 0) =
    Some [le 8 3; [1]; le 8 1; [7]; [0]; [1]; le 8 0; []].
Proof. split; vm_compute; reflexivity. Qed.

(** The bytes of an Array determine its elements if the stored ids of both arrays have
    the same shift. *)
Theorem C17_array {A} (dom : A -> Prop) enc a b l m : delimited dom enc -> ar_rep a l -> ar_rep b m ->
  arr_typed dom a -> arr_typed dom b -> ids_shift a = ids_shift b ->
  exists x y, fp_array enc a = Some x /\ fp_array enc b = Some y /\
    forall r s, concat x ++ r = concat y ++ s -> l = m /\ r = s.
Proof.
  intros D Ra Rb Ta Tb Sh. eexists _, _. split; [apply fp_array_ok; exact Ra|]. split; [apply fp_array_ok; exact Rb|].
  intros r s E. exact (d_array dom enc D a b l m _ _ r s Ra Rb Ta Tb Sh (fp_array_ok enc a l Ra) (fp_array_ok enc b m Rb) E).
Qed.
Print Assumptions C17_array.

(** The shift is not hashed: two slices of the array with the elements 7, 8, 9 at 1, 2, 4,
    namely the rows 1 to 3 and the rows 0 to 2, have the same bytes and different
    elements. *)
Definition shift_a : option (arr Z) := ar_slice (mkArr 5 (FPartial 0 [1; 2; 4]%nat 0) (mkD [7; 8; 9] [] 0) None) 1 3.
Definition shift_b : option (arr Z) := ar_slice (mkArr 5 (FPartial 0 [1; 2; 4]%nat 0) (mkD [7; 8; 9] [] 0) None) 0 3.
Theorem C17_array_shift_refuted : exists a b l m x, shift_a = Some a /\ shift_b = Some b /\ ar_rep a l /\ ar_rep b m /\
  arr_typed int64_range a /\ arr_typed int64_range b /\
  fp_array fp_i64 a = Some x /\ fp_array fp_i64 b = Some x /\ l <> m.
Proof.
  exists (mkArr 3 (FPartial 0 [1; 2]%nat 1) (mkD [7; 8] [] 0) None), (mkArr 3 (FPartial 0 [1; 2]%nat 0) (mkD [7; 8] [] 0) None),
    [Some 7; Some 8; None], [None; Some 7; Some 8].
  eexists. split; [reflexivity|]. split; [reflexivity|].
  assert (As : ascending [1; 2]%nat). { intros i j H. cbn [length] in H. destruct i as [|[|i]], j as [|[|j]]; cbn [nth]; lia. }
  assert (Dv : da_valid (mkD [7; 8] [] 0)). { split; [cbn; lia|]. split; [constructor|]. left. reflexivity. }
  split; [|split].
  - split; [split; [|split; [exact Dv|split; [reflexivity|discriminate]]]|split; [reflexivity|]].
    + cbn. split; [discriminate|]. split; [lia|]. split; [exact As|]. repeat constructor; lia.
    + intros i Hi. cbn [length] in Hi. destruct i as [|[|[|i]]]; try reflexivity. lia.
  - split; [split; [|split; [exact Dv|split; [reflexivity|discriminate]]]|split; [reflexivity|]].
    + cbn. split; [discriminate|]. split; [lia|]. split; [exact As|]. repeat constructor; lia.
    + intros i Hi. cbn [length] in Hi. destruct i as [|[|[|i]]]; try reflexivity. lia.
  - assert (T : forall o, arr_typed int64_range (mkArr 3 (FPartial 0 [1; 2]%nat o) (mkD [7; 8] [] 0) None)).
    { intros o. unfold arr_typed, int64_range. cbn [ar_size ar_data ar_miss ar_ids vals opt_dom].
      change (2 ^ 63) with 9223372036854775808. repeat constructor; lia. }
    split; [apply T|]. split; [apply T|]. split; [vm_compute; reflexivity|]. split; [vm_compute; reflexivity|discriminate].
Qed.
Print Assumptions C17_array_shift_refuted.

(** Equal elements do not imply equal bytes: the representation is hashed. *)
Theorem C17_array_representation_refuted : exists a b l x y, ar_rep a l /\ ar_rep b l /\
  fp_array fp_i64 a = Some x /\ fp_array fp_i64 b = Some y /\ concat x <> concat y.
Proof.
  exists (ar_const 2 (Some 5)), (ar_dense (mkD [5; 5] [] 0)), [Some 5; Some 5]. eexists _, _. split; [apply (ar_const_rep 2 (Some 5))|].
  split. { apply ar_dense_rep. split; [split; [cbn; lia|]; split; [constructor|left; reflexivity]|]. split; [reflexivity|].
    intros i Hi. cbn [length] in Hi. destruct i as [|[|i]]; try reflexivity. lia. }
  split; [vm_compute; reflexivity|]. split; [vm_compute; reflexivity|]. vm_compute. discriminate.
Qed.
Print Assumptions C17_array_representation_refuted.

(** A dense edge is determined by its bytes; so is a jagged shape of such edges. *)
Definition edge_typed (e : edge) (l : list (option Z)) : Prop :=
  int64_range (e_parent e) /\ int64_range (e_child e) /\ represents (e_vals e) l /\ size_ok l /\ Forall (opt_dom int64_range) l.
Definition same_edge (e f : edge) (l m : list (option Z)) : Prop :=
  e_split e = e_split f /\ e_parent e = e_parent f /\ e_child e = e_child f /\ l = m.
Theorem C17_edge e f l m : edge_typed e l -> edge_typed f m ->
  exists x y, fp_edge e = Some x /\ fp_edge f = Some y /\ (same_edge e f l m -> x = y) /\
    forall r s, concat x ++ r = concat y ++ s -> same_edge e f l m /\ r = s.
Proof.
  intros (P1 & C1 & R1 & S1 & F1) (P2 & C2 & R2 & S2 & F2). unfold fp_edge. rewrite (fp_dense_ok _ _ _ R1), (fp_dense_ok _ _ _ R2). cbn [bind].
  eexists _, _. split; [reflexivity|]. split; [reflexivity|]. split; [intros (-> & -> & -> & ->); reflexivity|].
  intros r s E. rewrite !concat_app, <- !app_assoc in E.
  destruct (d_enum (if e_split e then 2 else 1) (if e_split f then 2 else 1) _ _ ltac:(destruct (e_split e); lia) ltac:(destruct (e_split f); lia) E) as [Es E1].
  destruct (d_i64 _ _ _ _ P1 P2 E1) as [Ep E2]. destruct (d_i64 _ _ _ _ C1 C2 E2) as [Ec E3].
  destruct (d_list _ _ d_i64 _ _ _ _ S1 S2 F1 F2 E3) as [El Er]. split; [|exact Er]. split; [|auto].
  destruct (e_split e), (e_split f); try reflexivity; discriminate.
Qed.
Print Assumptions C17_edge.
Theorem C17_shape es fs ls ms : Forall2 edge_typed es ls -> Forall2 edge_typed fs ms -> size_ok es -> size_ok fs ->
  exists x y, fp_shape es = Some x /\ fp_shape fs = Some y /\
    forall r s, concat x ++ r = concat y ++ s -> r = s /\ ls = ms /\
      Forall2 (fun e f => e_split e = e_split f /\ e_parent e = e_parent f /\ e_child e = e_child f) es fs.
Proof.
  intros T1 T2 S1 S2.
  assert (Ex : forall gs ks, Forall2 edge_typed gs ks -> exists z, fp_edges gs = Some z).
  { clear. induction 1 as [|e l gs ks H _ [z IH]]; [exists []; reflexivity|]. cbn [fp_edges].
    destruct (C17_edge e e l l H H) as (x & _ & E & _). rewrite E, IH. cbn [bind]. eexists. reflexivity. }
  destruct (Ex _ _ T1) as [x Hx]. destruct (Ex _ _ T2) as [y Hy]. unfold fp_shape. rewrite Hx, Hy. cbn [bind].
  exists (fp_size es ++ x), (fp_size fs ++ y). split; [reflexivity|]. split; [reflexivity|]. intros r s E. rewrite !concat_app, <- !app_assoc in E.
  destruct (d_size _ _ _ _ S1 S2 E) as [L E1]. clear Ex E S1 S2. revert fs ms x y Hx Hy T2 L E1.
  induction T1 as [|e l es ls H T1 IH]; intros fs ms x y Hx Hy T2 L E; destruct T2 as [|f m fs ms H2 T2]; try discriminate.
  - cbn in Hx, Hy. injection Hx as <-. injection Hy as <-. split; [exact E|]. split; [reflexivity|constructor].
  - cbn [fp_edges] in Hx, Hy. destruct (C17_edge e f l m H H2) as (u & v & Eu & Ev & _ & D). rewrite Eu in Hx. rewrite Ev in Hy.
    cbn [bind] in Hx, Hy. destruct (fp_edges es) as [tx|]; [|discriminate]. destruct (fp_edges fs) as [ty|] eqn:Ey; [|discriminate].
    cbn [bind] in Hx, Hy. assert (x = u ++ tx) by congruence. assert (y = v ++ ty) by congruence. subst x y.
    rewrite !concat_app, <- !app_assoc in E. destruct (D _ _ E) as [(D1 & D2 & D3 & ->) E'].
    destruct (IH fs ms tx ty eq_refl Ey T2 ltac:(cbn in L; lia) E') as (-> & -> & F). split; [reflexivity|]. split; [reflexivity|].
    constructor; auto.
Qed.
Print Assumptions C17_shape.
(** Likewise for an ArrayEdge, if the ids of the values have the same shift. *)
Theorem C17_array_edge e f l m : ar_rep (ae_vals e) l -> ar_rep (ae_vals f) m ->
  arr_typed int64_range (ae_vals e) -> arr_typed int64_range (ae_vals f) -> ids_shift (ae_vals e) = ids_shift (ae_vals f) ->
  int64_range (ae_parent e) -> int64_range (ae_parent f) -> int64_range (ae_child e) -> int64_range (ae_child f) ->
  exists x y, fp_aedge e = Some x /\ fp_aedge f = Some y /\
    forall r s, concat x ++ r = concat y ++ s ->
      r = s /\ ae_split e = ae_split f /\ ae_parent e = ae_parent f /\ ae_child e = ae_child f /\ l = m.
Proof.
  intros R1 R2 T1 T2 Sh P1 P2 C1 C2. destruct (C17_array int64_range fp_i64 _ _ l m d_i64 R1 R2 T1 T2 Sh) as (u & v & Eu & Ev & D).
  unfold fp_aedge. rewrite Eu, Ev. cbn [bind]. eexists _, _. split; [reflexivity|]. split; [reflexivity|].
  intros r s E. rewrite !concat_app, <- !app_assoc in E.
  destruct (d_enum (if ae_split e then 2 else 1) (if ae_split f then 2 else 1) _ _ ltac:(destruct (ae_split e); lia) ltac:(destruct (ae_split f); lia) E) as [Es E1].
  destruct (d_i64 _ _ _ _ P1 P2 E1) as [Ep E2]. destruct (d_i64 _ _ _ _ C1 C2 E2) as [Ec E3]. destruct (D _ _ E3) as [-> ->].
  split; [reflexivity|]. split; [|auto]. destruct (ae_split e), (ae_split f); try reflexivity; discriminate.
Qed.
Print Assumptions C17_array_edge.
Example C17_ex_edges :
  option_map (fun x => length (concat x)) (fp_shape [mkE true 2 3 (mkD [0; 1; 3] [] 0); mkE false 3 2 (mkD [2; 0] [] 0)]) = Some 109%nat /\
  option_map (fun x => length (concat x)) (fp_aedge (mkAE true 2 3 (ar_dense (mkD [0; 1; 3] [] 0)))) = Some 68%nat.
Proof. split; vm_compute; reflexivity. Qed.

(** ** C28: the hasher *)

(** Whatever the sizes of the calls, every byte is hashed exactly once and in order;
    no access leaves the internal array, and its initial content has no effect. *)
Theorem C28_blocks seed salt calls : exists bs, hashed_as seed salt calls bs.
Proof. eexists. apply hashed_blocks. Qed.
Print Assumptions C28_blocks.

(** Up to 256 bytes, including the 12 bytes and the salt at the beginning, are hashed at
    once: the fingerprint does not depend on the sizes of the calls. *)
Theorem C28_small H mem seed salt calls : length mem = capacity ->
  (12 + length salt + length (concat calls) <= capacity)%nat ->
  fingerprint H mem seed salt calls = Some (as_uint128 (H (le 4 seed ++ le 8 (zlen salt) ++ salt ++ concat calls) seeds)).
Proof.
  intros Lm Hs. rewrite fingerprint_ok by exact Lm. do 2 f_equal.
  assert (G : forall cs p, (length p + length (concat cs) <= capacity)%nat -> cut p cs = ([], p ++ concat cs)).
  { clear. induction cs as [|c cs IH]; intros p L; cbn [cut concat] in *; [rewrite app_nil_r; reflexivity|]. rewrite app_length in L.
    replace (_ <=? _)%nat with true by lia. rewrite IH by (rewrite app_length; lia). rewrite <- app_assoc. reflexivity. }
  assert (C : concat (header seed salt ++ calls) = le 4 seed ++ le 8 (zlen salt) ++ salt ++ concat calls).
  { unfold header, fp_text, fp_size, fp_i64. cbn [app concat]. reflexivity. }
  unfold blocks. rewrite G by (rewrite C; rewrite !app_length, !le_len; cbn [length]; lia). cbn [fst snd app]. rewrite C.
  cbn [le app last_block]. reflexivity.
Qed.
Print Assumptions C28_small.

(** Equal fingerprints of different bytes need a collision of CityHash128WithSeed on the
    hashed blocks. *)
Theorem C28_collision H mem mem' seed salt calls calls' : (forall b s, u64_pair (H b s)) ->
  length mem = capacity -> length mem' = capacity ->
  fingerprint H mem seed salt calls = fingerprint H mem' seed salt calls' ->
  concat calls = concat calls' \/
  exists bs bs', hashed_as seed salt calls bs /\ hashed_as seed salt calls' bs' /\ collision H bs bs'.
Proof.
  intros HR L1 L2 E. rewrite !fingerprint_ok in E by assumption.
  assert (E' : as_uint128 (chain H (blocks (header seed salt ++ calls))) = as_uint128 (chain H (blocks (header seed salt ++ calls')))) by congruence.
  apply uint128_inj in E'; [|apply chain_range; exact HR|apply chain_range; exact HR].
  destruct (chain_collision H [] _ _ E') as [Eb|C].
  - left. apply (f_equal (@concat Z)) in Eb. rewrite !blocks_concat, !concat_app in Eb. apply app_inv_head in Eb. exact Eb.
  - right. rewrite !app_nil_r in C. eexists _, _. split; [apply hashed_blocks|]. split; [apply hashed_blocks|]. exact C.
Qed.
Print Assumptions C28_collision.

(** Longer inputs: the same bytes in calls of different sizes may have different
    fingerprints (fingerprint.h:197-200 says that no guarantee is given). *)
Definition count_calls (_ : list Z) (s : Z * Z) : Z * Z := ((fst s + 1) mod 2 ^ 64, snd s).
Theorem C28_chunking_refuted : exists H mem seed salt calls calls', length mem = capacity /\ concat calls = concat calls' /\
  fingerprint H mem seed salt calls <> fingerprint H mem seed salt calls'.
Proof.
  exists count_calls, (repeat 0 capacity), 5, [1; 2], [repeat 3 200; repeat 3 200; repeat 3 200], [repeat 3 600].
  split; [apply repeat_length|]. split; vm_compute; [reflexivity|discriminate].
Qed.
Print Assumptions C28_chunking_refuted.

(** Arrays with equal fingerprints are equal, or there is a collision. *)
Theorem C28_array {A} (dom : A -> Prop) enc a b l m H mem mem' seed salt x y : delimited dom enc -> ar_rep a l -> ar_rep b m ->
  arr_typed dom a -> arr_typed dom b -> ids_shift a = ids_shift b ->
  (forall b s, u64_pair (H b s)) -> length mem = capacity -> length mem' = capacity ->
  fp_array enc a = Some x -> fp_array enc b = Some y ->
  fingerprint H mem seed salt x = fingerprint H mem' seed salt y ->
  l = m \/ exists bs bs', hashed_as seed salt x bs /\ hashed_as seed salt y bs' /\ collision H bs bs'.
Proof.
  intros D Ra Rb Ta Tb Sh HR L1 L2 Ex Ey E. destruct (C28_collision H mem mem' seed salt x y HR L1 L2 E) as [Ec|C]; [left|right; exact C].
  destruct (C17_array dom enc a b l m D Ra Rb Ta Tb Sh) as (x' & y' & Ex' & Ey' & G). rewrite Ex in Ex'. rewrite Ey in Ey'.
  injection Ex' as <-. injection Ey' as <-. apply (G [] []). rewrite Ec. reflexivity.
Qed.
Print Assumptions C28_array.
Example C28_ex : let H b s := ((fst s + fold_left Z.add b 0) mod 2 ^ 64, (snd s + Z.of_nat (length b)) mod 2 ^ 64) in
  fingerprint H (repeat 9 capacity) 5 [1; 2] [repeat 3 200; repeat 3 100; repeat 3 400] =
  Some (((2758948377 + 714) * 2 ^ 64) + 3102879407 + 2110).
Proof. vm_compute. reflexivity. Qed.
