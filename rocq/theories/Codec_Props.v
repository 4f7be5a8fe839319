(** Properties of the codecs for arrays and their edges. *)
From Verif Require Import Base Bits_Model Bitmap_Model Dense_Model Dense_Spec Dense_Proofs SBuf_Model
  IdFilter_Model IdFilter_Spec Array_Model Array_Spec Array_Proofs Edge_Model Edge_Spec ArrEdge_Model ArrEdge_Spec
  Codec_Model Codec_Spec Codec_Proofs Codec_Arr.

(** The message of a dense array says what the array contains, and depends on
    nothing else. *)
Theorem C66_encode_values : forall V (a : darr V) l, represents a l ->
  exists p, encode_values a = Some p /\ says p l /\ forall a2, represents a2 l -> encode_values a2 = Some p.
Proof.
  intros V a l R. destruct (encode_values_ok a l R) as (p & E & S & T). exists p. split; [exact E|]. split; [exact S|].
  intros a2 R2. destruct (encode_values_ok a2 l R2) as (p2 & E2 & S2 & T2). rewrite E2. f_equal.
  assert (B : dp_bitmap p2 = dp_bitmap p) by (apply (tidy_unique l l l _ _ _ _ _ _ eq_refl eq_refl (fun _ _ => eq_refl) (fun _ _ => eq_refl) S2 S T2 T)).
  destruct S as (A1 & _ & _ & V1). destruct S2 as (A2 & _ & _ & V2). destruct p as [s1 b1 v1], p2 as [s2 b2 v2]. cbn [dp_size dp_bitmap dp_values] in *. congruence.
Qed.
Print Assumptions C66_encode_values.
Theorem C66_encode_unit : forall (a : darr unit) l, represents a l ->
  exists p, encode_unit a = Some p /\ describes (dp_size p) (dp_bitmap p) (somes l) l /\ forall a2, represents a2 l -> encode_unit a2 = Some p.
Proof.
  intros a l R. destruct (encode_unit_ok a l R) as (p & E & S & T & Z). exists p. split; [exact E|]. split; [exact S|].
  intros a2 R2. destruct (encode_unit_ok a2 l R2) as (p2 & E2 & S2 & T2 & Z2). rewrite E2. f_equal.
  assert (B : dp_bitmap p2 = dp_bitmap p) by (apply (tidy_unique l l l _ _ _ _ _ _ eq_refl eq_refl (fun _ _ => eq_refl) (fun _ _ => eq_refl) S2 S T2 T)).
  destruct S as (A1 & _). destruct S2 as (A2 & _). destruct p as [s1 b1 v1], p2 as [s2 b2 v2]. cbn [dp_size dp_bitmap dp_values] in *. congruence.
Qed.
Print Assumptions C66_encode_unit.

(** Decoding accepts exactly the messages that describe an array, and returns it. *)
Theorem C66_decode_values : forall V (alloc : nat -> list V) p, alloc_sz alloc -> Forall (fun x => x < 2 ^ 32)%N (dp_bitmap p) ->
  (forall n, dp_size p = Some n -> dp_bitmap p = [] \/ (n + 31 <= int64_max)%Z) ->
  exists r, decode_values alloc p = Some r /\
  match r with inl _ => forall l, ~ says p l | inr a => exists l, says p l /\ represents a l end.
Proof. intros V alloc p HA F Fi. apply decode_values_ok; assumption. Qed.
Print Assumptions C66_decode_values.
Theorem C66_decode_unit : forall p, Forall (fun x => x < 2 ^ 32)%N (dp_bitmap p) ->
  (forall n, dp_size p = Some n -> dp_bitmap p = [] \/ (n + 31 <= int64_max)%Z) ->
  exists r, decode_unit p = Some r /\
  match r with
  | inl _ => forall (values : list unit) l, ~ describes (dp_size p) (dp_bitmap p) values l
  | inr a => exists l, describes (dp_size p) (dp_bitmap p) (somes l) l /\ represents a l
  end.
Proof. intros p F Fi. apply decode_unit_ok; assumption. Qed.
Print Assumptions C66_decode_unit.
(** An array read from a message is not larger than the message. *)
Theorem C66_no_amplification : forall V (alloc : nat -> list V) p a, alloc_sz alloc -> Forall (fun x => x < 2 ^ 32)%N (dp_bitmap p) ->
  (forall n, dp_size p = Some n -> dp_bitmap p = [] \/ (n + 31 <= int64_max)%Z) ->
  decode_values alloc p = Some (inr a) -> da_size a <= length (dp_values p) + 32 * length (dp_bitmap p).
Proof.
  intros V alloc p a HA F Fi E. destruct (decode_values_ok alloc p HA F Fi) as (r & Er & Hr). rewrite E in Er. injection Er as <-.
  destruct Hr as (l & D & (_ & S & _)). rewrite S. destruct (describes_eq _ _ _ _ _ D eq_refl) as (_ & T). destruct D as (_ & [B|B] & _); [|lia].
  rewrite <- T, B. unfold trues. replace (filter _ _) with (bits_of [] (length l)); [rewrite bits_length; lia|].
  unfold bits_of. clear. generalize 0. induction (length l) as [|n IH]; intros s; [reflexivity|]. cbn [seq map shown filter]. f_equal. apply IH.
Qed.
Print Assumptions C66_no_amplification.
(** Round trips. *)
Theorem C66_values_roundtrip : forall V (alloc : nat -> list V) a l, alloc_sz alloc -> represents a l -> (Z.of_nat (length l) + 31 <= int64_max)%Z ->
  exists p a', encode_values a = Some p /\ decode_values alloc p = Some (inr a') /\ represents a' l.
Proof.
  intros V alloc a l HA R G. destruct (encode_values_ok a l R) as (p & E & S & T).
  destruct (decode_values_ok alloc p HA) as (r & Er & Hr); [apply T|intros n En; right; destruct S as (S & _); rewrite S in En; injection En as <-; exact G|].
  destruct r as [e|a']; [destruct (Hr l S)|]. destruct Hr as (l' & S' & R'). exists p, a'. split; [exact E|]. split; [exact Er|].
  assert (l' = l) by (apply (says_unique _ _ _ _ _ S' S)). congruence.
Qed.
Print Assumptions C66_values_roundtrip.
Theorem C66_unit_roundtrip : forall a l, represents a l -> (Z.of_nat (length l) + 31 <= int64_max)%Z ->
  exists p a', encode_unit a = Some p /\ decode_unit p = Some (inr a') /\ represents a' l.
Proof.
  intros a l R G. destruct (encode_unit_ok a l R) as (p & E & S & T & _).
  destruct (decode_unit_ok p) as (r & Er & Hr); [apply T|intros n En; right; destruct S as (S & _); rewrite S in En; injection En as <-; exact G|].
  destruct r as [e|a']; [destruct (Hr _ l S)|]. destruct Hr as (l' & S' & R'). exists p, a'. split; [exact E|]. split; [exact Er|].
  assert (L : length l' = length l). { destruct S as (A & _). destruct S' as (A' & _). rewrite A in A'. injection A' as A'. lia. }
  assert (map is_some l' = map is_some l). { rewrite (describes_bits _ _ _ _ S), (describes_bits _ _ _ _ S'), L. reflexivity. }
  replace l with l'; [exact R'|]. apply nth_ext with (d := None) (d' := None); [exact L|]. intros i _.
  pose proof (f_equal (fun m => nth i m false) H) as K. cbn beta in K.
  rewrite !(map_nth is_some _ None i : nth i (map is_some _) false = _) in K.
  destruct (nth i l' None) as [[]|], (nth i l None) as [[]|]; try discriminate; reflexivity.
Qed.
Print Assumptions C66_unit_roundtrip.

Definition ex_arr : darr Z := mkD [7; 8; 9; 10]%Z [20%N] 1.
Example C66_dense_example :
  encode_values ex_arr = Some (mkDP (Some 4%Z) [10%N] [8; 10]%Z) /\
  decode_values (fun n => repeat 77%Z n) (mkDP (Some 4%Z) [10%N] [8; 10]%Z) = Some (inr (mkD [77; 8; 77; 10]%Z [10%N] 0)) /\
  decode_values (fun n => repeat 77%Z n) (mkDP (Some 4%Z) [10%N] [8]%Z) = Some (inl ValuesCount) /\
  decode_values (fun n => repeat 77%Z n) (mkDP (Some 33%Z) [10%N] [8]%Z) = Some (inl BitmapCount) /\
  encode_unit (mkD [tt; tt; tt] [14%N] 1) = Some (mkDP (Some 3%Z) [] []) /\
  decode_unit (mkDP (Some 3%Z) [5%N] []) = Some (inr (mkD [tt; tt; tt] [5%N] 0)).
Proof. repeat split; vm_compute; reflexivity. Qed.
Example C66_dense_nonvacuous : represents ex_arr [None; Some 8%Z; None; Some 10%Z].
Proof.
  split; [split; [cbn; lia|]; split; [repeat constructor|right; reflexivity]|]. split; [reflexivity|].
  intros i Hi. destruct i as [|[|[|[|i]]]]; try reflexivity. cbn [length] in Hi. lia.
Qed.
(** The size check computes [size + 31] in 64 bits. *)
Theorem C66_size_overflow_refuted : exists p : dproto Z, Forall (fun x => x < 2 ^ 32)%N (dp_bitmap p) /\ forall alloc, decode_values alloc p = None.
Proof. exists (mkDP (Some int64_max) [1%N] []). split; [repeat constructor|]. intros alloc. reflexivity. Qed.
Print Assumptions C66_size_overflow_refuted.

(** ** Strings *)
Theorem C66_encode_strings : forall a l, sd_ok a -> sd_rep a l ->
  exists p, encode_strings a = Some p /\ says_strings p l /\ tidy (sp_bitmap p) l.
Proof. intros a l O R. apply encode_strings_ok; assumption. Qed.
Print Assumptions C66_encode_strings.
Theorem C66_decode_strings : forall alloc p, alloc_sz alloc -> Forall (fun x => x < 2 ^ 32)%N (sp_bitmap p) ->
  (forall n, sp_size p = Some n -> sp_bitmap p = [] \/ (n + 31 <= int64_max)%Z) ->
  exists r, decode_strings alloc p = Some r /\
  match r with inl _ => forall l, ~ says_strings p l | inr a => sd_ok a /\ exists l, says_strings p l /\ sd_rep a l end.
Proof. intros alloc p HA F Fi. apply decode_strings_ok; assumption. Qed.
Print Assumptions C66_decode_strings.
Theorem C66_strings_roundtrip : forall alloc a l, alloc_sz alloc -> sd_ok a -> sd_rep a l -> (Z.of_nat (length l) + 31 <= int64_max)%Z ->
  exists p a', encode_strings a = Some p /\ decode_strings alloc p = Some (inr a') /\ sd_ok a' /\ sd_rep a' l.
Proof.
  intros alloc a l HA O R G. destruct (encode_strings_ok a l O R) as (p & E & S & T).
  destruct (decode_strings_ok alloc p HA) as (r & Er & Hr); [apply T| |].
  { intros n En; right. destruct S as (ch & _ & _ & S & _). rewrite S in En. injection En as <-. exact G. }
  destruct r as [e|a']; [destruct (Hr l S)|]. destruct Hr as (O' & l' & S' & R'). exists p, a'. split; [exact E|]. split; [exact Er|]. split; [exact O'|].
  replace l with l'; [exact R'|]. destruct S as (ch & Ec & _ & S). destruct S' as (ch' & Ec' & _ & S'). assert (ch' = ch) by congruence. subst ch'.
  exact (says_unique _ _ _ _ _ S' S).
Qed.
Print Assumptions C66_strings_roundtrip.
(** Two arrays with the same strings, different messages: a slice is written with
    all the characters of its buffer, also those of no element. *)
Theorem C66_strings_canonical_refuted : exists a b l, sd_ok a /\ sd_ok b /\ sd_rep a l /\ sd_rep b l /\ encode_strings a <> encode_strings b /\
  exists p, encode_strings b = Some p /\ sp_chars p = Some [115; 101; 99; 114; 101; 116; 104; 105]%Z.
Proof.
  exists (mkSD (mkD [(0, 2)%Z] [] 0) [104; 105]%Z 0), (mkSD (mkD [(6, 8)%Z] [] 0) [115; 101; 99; 114; 101; 116; 104; 105]%Z 0), [Some [104; 105]%Z].
  split; [repeat constructor; cbn; lia|]. split; [repeat constructor; cbn; lia|].
  assert (V : forall o : Z * Z, da_valid (mkD [o] [] 0)) by (intros o; split; [cbn; lia|]; split; [constructor|left; reflexivity]).
  split; [split; [apply V|]; split; [reflexivity|]; intros [|i] Hi; [reflexivity|cbn [length] in Hi; lia]|].
  split; [split; [apply V|]; split; [reflexivity|]; intros [|i] Hi; [reflexivity|cbn [length] in Hi; lia]|].
  split; [intros E; vm_compute in E; discriminate|]. eexists. split; vm_compute; reflexivity.
Qed.
Print Assumptions C66_strings_canonical_refuted.
Definition ex_strings : sarr := mkSD (mkD [(10, 12); (10, 10); (12, 15)]%Z [5%N] 0) [1; 2; 3; 4; 5]%Z 10.
Example C66_strings_example :
  encode_strings ex_strings = Some (mkSP (Some 3%Z) [5%N] (Some [1; 2; 3; 4; 5]%Z) [0; 2]%Z [2; 5]%Z) /\
  decode_strings (fun n => repeat (9, 9)%Z n) (mkSP (Some 3%Z) [5%N] (Some [1; 2; 3; 4; 5]%Z) [0; 2]%Z [2; 5]%Z) =
    Some (inr (mkSD (mkD [(0, 2); (0, 0); (2, 5)]%Z [5%N] 0) [1; 2; 3; 4; 5]%Z 0)) /\
  decode_strings (fun n => repeat (9, 9)%Z n) (mkSP (Some 3%Z) [5%N] (Some [1; 2; 3; 4; 5]%Z) [0; 2]%Z [2; 6]%Z) = Some (inl EndTooLarge).
Proof. repeat split; vm_compute; reflexivity. Qed.

Example C66_strings_nonvacuous : sd_ok ex_strings /\ sd_rep ex_strings [Some [1; 2]; None; Some [3; 4; 5]]%Z.
Proof.
  split; [repeat constructor; cbn; lia|]. split; [split; [cbn; lia|]; split; [repeat constructor|right; reflexivity]|]. split; [reflexivity|].
  intros [|[|[|i]]] Hi; try reflexivity. cbn [length] in Hi. lia.
Qed.

(** ** Arrays *)
Theorem C66_decode_array : forall V addr p (ins : list (input V)), Forall good_input ins ->
  exists r, decode_array addr p ins = Some r /\
  match r with inl _ => forall l, ~ says_array p ins l | inr a => exists l, says_array p ins l /\ ar_rep a l end.
Proof. intros V addr p ins G. apply decode_array_ok. exact G. Qed.
Print Assumptions C66_decode_array.
(** An array comes back with its elements, its form, its ids and its default, when
    the data came back with its elements. *)
Theorem C66_array_roundtrip : forall V addr (a : arr V) l ins', ar_rep a l -> Forall2 same_input (snd (encode_array a)) ins' ->
  says_array (fst (encode_array a)) (snd (encode_array a)) l /\
  exists a', decode_array addr (fst (encode_array a)) ins' = Some (inr a') /\ ar_rep a' l /\
    (l <> [] -> fids (length l) (ar_ids a') = fids (length l) (ar_ids a) /\ ar_miss a' = ar_miss a /\
       is_const_form a' = is_const_form a /\ is_dense_form a' = is_dense_form a /\ is_sparse_form a' = is_sparse_form a).
Proof.
  intros V addr a l ins' R S. split; [|apply array_roundtrip_ok; assumption].
  pose proof (encode_array_ok a l R) as E. destruct (encode_array a). apply E.
Qed.
Print Assumptions C66_array_roundtrip.
(** With the data sent through the codec of dense arrays. *)
Definition through {V} (alloc : nat -> list V) (x y : input V) : Prop :=
  match x, y with
  | InDense d, InDense d' => exists p, encode_values d = Some p /\ decode_values alloc p = Some (inr d')
  | InOpt m, InOpt m' => m = m'
  | _, _ => False
  end.
Theorem C66_array_through : forall V alloc addr (a : arr V) l, alloc_sz alloc -> ar_rep a l -> (Z.of_nat (length l) + 31 <= int64_max)%Z ->
  exists ins' a', Forall2 (through alloc) (snd (encode_array a)) ins' /\ decode_array addr (fst (encode_array a)) ins' = Some (inr a') /\ ar_rep a' l.
Proof.
  intros V alloc addr a l HA R G. pose proof (encode_array_ok a l R) as E.
  assert (K : exists ins', Forall2 (through alloc) (snd (encode_array a)) ins' /\ Forall2 same_input (snd (encode_array a)) ins').
  { destruct (encode_array a) as [p ins]. cbn [snd]. destruct E as (Sy & Gd). destruct Sy as (Es & Sy).
    assert (D : forall d dl, represents d dl -> length dl <= length l -> exists d', through alloc (InDense d) (InDense d') /\ same_input (InDense d) (InDense d')).
    { intros d dl Rd Ld. destruct (C66_values_roundtrip V alloc d dl HA Rd ltac:(lia)) as (q & d' & E1 & E2 & Rd'). exists d'. split; [exists q; auto|exists dl; auto]. }
    destruct ins as [|[d|?|?|] [|[?|m|?|] [|? ?]]]; try contradiction.
    - exists []. split; constructor.
    - destruct Sy as (_ & _ & Rd). destruct (D d l Rd ltac:(lia)) as (d' & T & S). exists [InDense d']. split; constructor; auto.
    - destruct Sy as (dl & Rd & Ld & _). destruct (D d dl Rd ltac:(lia)) as (d' & T & S). exists [InDense d'; InOpt m]. split; (constructor; [assumption|constructor; [reflexivity|constructor]]). }
  destruct K as (ins' & T & S). destruct (array_roundtrip_ok addr a l ins' R S) as (a' & E' & R' & _). exists ins', a'. auto.
Qed.
Print Assumptions C66_array_through.
Definition ex_sparse : arr Z := ar_make 6 (FPartial 0 [11; 13; 14] 10) (mkD [1; 2; 3]%Z [5%N] 0) (Some 9%Z).
Example C66_array_example :
  encode_array ex_sparse = (mkAP (Some 6%Z) [1; 3; 4]%Z, [InDense (mkD [1; 2; 3]%Z [5%N] 0); InOpt (Some 9%Z)]) /\
  decode_array 5 (mkAP (Some 6%Z) [1; 3; 4]%Z) [InDense (mkD [1; 2; 3]%Z [5%N] 0); InOpt (Some 9%Z)] =
    Some (inr (ar_make 6 (FPartial 5 [1; 3; 4] 0) (mkD [1; 2; 3]%Z [5%N] 0) (Some 9%Z))) /\
  decode_array 5 (mkAP (Some 6%Z) [1; 3; 6]%Z) [InDense (mkD [1; 2; 3]%Z [5%N] 0); InOpt (Some 9%Z)] = Some (inl IdTooLarge) /\
  decode_array 5 (mkAP (Some 6%Z) [1; 3; 3]%Z) [InDense (mkD [1; 2; 3]%Z [5%N] 0); InOpt (Some 9%Z)] = Some (inl IdsOrder) /\
  decode_array 5 (mkAP (Some 3%Z) []) [InDense (mkD [1; 2; 3]%Z [5%N] 0); InOpt (Some 9%Z)] = Some (inl InputCount).
Proof. repeat split; vm_compute; reflexivity. Qed.
Example C66_array_nonvacuous : ar_rep ex_sparse [Some 9; Some 1; Some 9; None; Some 3; Some 9]%Z.
Proof.
  split; [|split; [reflexivity|]].
  - split; [|split; [|split; [reflexivity|discriminate]]].
    + split; [discriminate|]. split; [cbn; lia|]. split; [|repeat constructor; cbn; lia].
      intros [|[|[|i]]] [|[|[|j]]] H; cbn [nth length] in *; lia.
    + split; [cbn; lia|]. split; [repeat constructor|right; reflexivity].
  - intros i Hi. destruct i as [|[|[|[|[|[|i]]]]]]; try reflexivity. cbn [length] in Hi. lia.
Qed.

(** ** Edges *)
Theorem C66_decode_edge : forall p ins, Forall good_input ins ->
  exists r, decode_edge p ins = Some r /\
  match r with
  | inl _ => forall a l b q m, ins = [InDense a] -> represents a l -> ~ says_edge true p l b q m
  | inr e => exists a l q m, ins = [InDense a] /\ represents a l /\ says_edge true p l (e_split e) q m /\ edge_rep e q m
  end.
Proof.
  intros p ins G.
  assert (Bad : forall err, (forall a, ins <> [InDense a]) -> exists r, Some (@inl derr edge err) = Some r /\
    match r with
    | inl _ => forall a l b q m, ins = [InDense a] -> represents a l -> ~ says_edge true p l b q m
    | inr e => exists a l q m, ins = [InDense a] /\ represents a l /\ says_edge true p l (e_split e) q m /\ edge_rep e q m
    end).
  { intros err N. eexists. split; [reflexivity|]. intros a l b q m E. destruct (N a E). }
  destruct ins as [|i [|j t]]; [apply Bad; discriminate| |destruct i; apply Bad; discriminate].
  destruct i as [a|o|x|]; try (apply Bad; discriminate).
  assert (Va : da_valid a) by (inversion G; assumption). destruct (represents_total a Va) as (l & R).
  destruct (decode_edge_ok p a l R) as (r & Er & Hr). exists r. split; [exact Er|]. destruct r as [e|e].
  - intros a' l' b q m E R'. injection E as <-. assert (l' = l) by (apply (represents_unique a); assumption). subst l'. apply Hr.
  - destruct Hr as (q & m & S & Re). exists a, l, q, m. auto.
Qed.
Print Assumptions C66_decode_edge.
Theorem C66_edge_roundtrip : forall e q m a', edge_rep e q m -> same_input (InDense (e_vals e)) (InDense a') ->
  exists e', decode_edge (encode_edge (e_split e) (e_parent e)) [InDense a'] = Some (inr e') /\ edge_rep e' q m /\ e_split e' = e_split e.
Proof.
  intros e q m a' R (k & R1 & R2). destruct (encode_edge_ok true e q m R) as (l & Rl & S). assert (k = l) by (apply (represents_unique (e_vals e)); assumption). subst k.
  destruct (decode_edge_ok (encode_edge (e_split e) (e_parent e)) a' l R2) as (r & Er & Hr). destruct r as [x|e']; [destruct (Hr _ _ _ S)|].
  destruct Hr as (q' & m' & S' & R'). destruct (says_edge_unique _ _ _ _ _ _ _ _ _ S S') as (E1 & E2 & E3). exists e'. split; [exact Er|]. subst. split; [exact R'|congruence].
Qed.
Print Assumptions C66_edge_roundtrip.
Theorem C66_decode_array_edge : forall alloc allocw p ins, alloc_sz alloc -> allocw_ok allocw -> Forall good_input ins ->
  exists r, decode_array_edge alloc allocw p ins = Some r /\
  match r with
  | inl _ => forall a l b q m, ins = [InArr a] -> ar_rep a l -> ~ says_edge false p l b q m
  | inr e => exists a l q m, ins = [InArr a] /\ ar_rep a l /\ says_edge false p l (ae_split e) q m /\ aedge_rep e q m
  end.
Proof.
  intros alloc allocw p ins HA HW G.
  assert (Bad : (forall a, ins <> [InArr a]) -> exists r, decode_array_edge alloc allocw p ins = Some r /\
    match r with
    | inl _ => forall a l b q m, ins = [InArr a] -> ar_rep a l -> ~ says_edge false p l b q m
    | inr e => exists a l q m, ins = [InArr a] /\ ar_rep a l /\ says_edge false p l (ae_split e) q m /\ aedge_rep e q m
    end).
  { intros N. assert (X : exists err, decode_array_edge alloc allocw p ins = Some (inl err)).
    { unfold decode_array_edge. destruct (decode_edge_type p); [eauto|]. destruct ins as [|[ | |a| ] [|j t]]; eauto. destruct (N a eq_refl). }
    destruct X as (err & X). exists (inl err). split; [exact X|]. intros a l b q m E. destruct (N a E). }
  destruct ins as [|i [|j t]]; [apply Bad; discriminate| |apply Bad; discriminate].
  destruct i as [a|o|a|]; try (apply Bad; discriminate).
  assert (Va : exists l, ar_rep a l) by (inversion G; assumption). destruct Va as (l & R).
  destruct (decode_aedge_ok alloc allocw p a l HA HW R) as (r & Er & Hr). exists r. split; [exact Er|]. destruct r as [e|e].
  - intros a' l' b q m E R'. injection E as <-. assert (l' = l).
    { destruct R as (_ & L1 & H1). destruct R' as (_ & L2 & H2). apply nth_ext with (d := None) (d' := None); [lia|]. intros i Hi. specialize (H2 i Hi). rewrite H1 in H2 by lia. congruence. }
    subst l'. apply Hr.
  - destruct Hr as (q & m & S & Re). exists a, l, q, m. auto.
Qed.
Print Assumptions C66_decode_array_edge.
Theorem C66_array_edge_roundtrip : forall alloc allocw e q m a', alloc_sz alloc -> allocw_ok allocw ->
  aedge_rep e q m -> same_input (InArr (ae_vals e)) (InArr a') ->
  exists e', decode_array_edge alloc allocw (encode_edge (ae_split e) (ae_parent e)) [InArr a'] = Some (inr e') /\ aedge_rep e' q m /\ ae_split e' = ae_split e.
Proof.
  intros alloc allocw e q m a' HA HW R (k & R1 & R2). destruct (encode_aedge_ok false e q m R) as (l & Rl & S).
  assert (k = l).
  { destruct R1 as (_ & L1 & H1). destruct Rl as (_ & L2 & H2). apply nth_ext with (d := None) (d' := None); [lia|]. intros i Hi. specialize (H1 i Hi). rewrite H2 in H1 by lia. congruence. }
  subst k. destruct (decode_aedge_ok alloc allocw (encode_edge (ae_split e) (ae_parent e)) a' l HA HW R2) as (r & Er & Hr). destruct r as [x|e']; [destruct (Hr _ _ _ S)|].
  destruct Hr as (q' & m' & S' & R'). destruct (says_edge_unique _ _ _ _ _ _ _ _ _ S S') as (E1 & E2 & E3). exists e'. split; [exact Er|]. subst. split; [exact R'|congruence].
Qed.
Print Assumptions C66_array_edge_roundtrip.
(** Sizes of shapes and of edges to a scalar. *)
Theorem C66_size : forall n k, decode_size n = inr k <-> n = Z.of_nat k.
Proof.
  intros n k. unfold decode_size. destruct (Z.ltb_spec n 0) as [H|H]; split; intros E; try discriminate; [lia|injection E as <-; lia|f_equal; lia].
Qed.
Print Assumptions C66_size.
Example C66_edge_example :
  decode_edge (mkEP (Some 2%Z) None) [InDense (mkD [0; 2; 2; 3]%Z [] 0)] = Some (inr (mkE true 3 3 (mkD [0; 2; 2; 3]%Z [] 0))) /\
  encode_edge true 3 = mkEP (Some 2%Z) None /\ encode_edge false 3 = mkEP (Some 1%Z) (Some 3%Z) /\
  decode_edge (mkEP (Some 1%Z) (Some 3%Z)) [InDense (mkD [2; 0; 9]%Z [3%N] 0)] = Some (inr (mkE false 3 3 (mkD [2; 0; 9]%Z [3%N] 0))) /\
  (exists e, decode_edge (mkEP (Some 2%Z) None) [InDense (mkD [0; 2; 1]%Z [] 0)] = Some (inl (BadEdge e))) /\
  decode_edge (mkEP (Some 2%Z) (Some 3%Z)) [InDense (mkD [0; 2; 2; 3]%Z [] 0)] = Some (inl UnexpectedParent) /\
  (exists e, decode_array_edge (fun n => repeat 0%Z n) (fun n => repeat 0%N n) (mkEP (Some 1%Z) (Some 10%Z)) [InArr ex_sparse] = Some (inr e)).
Proof. repeat split; try (eexists; vm_compute; reflexivity); vm_compute; reflexivity. Qed.
