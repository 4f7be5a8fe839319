(** C54: iterating over the rows of arrays with frames. *)
From Coq Require Import Permutation.
From Verif Require Import Base Bits_Model Bitmap_Model Dense_Model Dense_Spec IdFilter_Model Array_Model Array_Spec Array_Props
  FrameIter_Model FrameIter_Spec FrameIter_Proofs FrameIter_Loop FrameIter_Main.

(** Create succeeds exactly if every array fits its slot, every output its slot, and all
    sizes agree; [it_rows] is that size. *)
Theorem C54_create {A} alloc allocw iorder oorder arrays islots outs oslots (fresh : frame A) want buffer :
  (forall l, Permutation (iorder l) l) -> (forall l, Permutation (oorder l) l) ->
  (forall it, create A alloc allocw iorder oorder arrays islots outs oslots fresh want buffer = Some it ->
    Forall2 fits_in arrays islots /\ Forall2 fits_out outs oslots /\ agreed arrays want (it_rows A it)) /\
  (forall n, Forall2 fits_in arrays islots -> Forall2 fits_out outs oslots -> agreed arrays want n ->
    exists it, create A alloc allocw iorder oorder arrays islots outs oslots fresh want buffer = Some it /\ it_rows A it = n).
Proof.
  intros IO OO. split.
  - intros it E. destruct (create_ok alloc allocw iorder oorder IO OO _ _ _ _ _ _ _ _ E) as (H1 & H2 & H3 & _). auto.
  - intros n F1 F2 Ag. destruct (create_conv alloc allocw iorder oorder IO arrays islots outs oslots fresh want buffer n F1 F2 Ag) as [it E]. exists it. split; [exact E|].
    destruct (create_ok alloc allocw iorder oorder IO OO _ _ _ _ _ _ _ _ E) as (_ & _ & (H1 & H2 & H3) & _). destruct Ag as (B1 & B2 & B3).
    destruct arrays as [|t ts]; [|rewrite <- (H1 t), <- (B1 t) by (left; reflexivity); reflexivity].
    destruct H2 as [->|H2]; [exfalso; apply H3; reflexivity|]. destruct B2 as [B2|B2]; congruence.
Qed.
Print Assumptions C54_create.

(** The output arrays consist of the rows that the function computes, whatever the number
    of frames in the buffer and the order of the copiers. *)
Theorem C54_for_each {A} (dflt : A) alloc allocw iorder oorder arrays islots outs oslots fresh want buffer it
    (finit fn : frame A -> frame A) (Inv : frame A -> Prop) cols g :
  alloc_sz alloc -> allocw_ok allocw -> (forall l, Permutation (iorder l) l) -> (forall l, Permutation (oorder l) l) ->
  create A alloc allocw iorder oorder arrays islots outs oslots fresh want buffer = Some it ->
  Forall2 (fun t l => column (ts_src A t) l) arrays cols ->
  NoDup (map sl_id islots) -> (forall s, In s islots -> sl_id s < length (finit fresh)) -> Inv (finit fresh) ->
  computes Inv islots oslots cols (it_rows A it) fn g ->
  (forall j s, nth_error oslots j = Some s -> sl_opt s = false -> forall i, i < it_rows A it -> nth j (g i) None <> None) ->
  buffer > 0 \/ it_rows A it = 0 -> forall fuel, it_rows A it <= fuel ->
  exists c fs, iterate_frames A dflt fuel fn (custom_init A finit it) = Finished (c, fs) /\ length (store_output A c) = length outs /\
  forall j o, nth_error outs j = Some o -> exists v, In (as_id o, v) (store_output A c) /\ is_arr A v = as_arr o /\
    column v (map (fun i => nth j (g i) None) (seq 0 (it_rows A it))).
Proof. apply iterate_ok. Qed.
Print Assumptions C54_for_each.

(** frame_buffer_count = 0 is accepted; with rows to process the loop never ends. *)
Theorem C54_zero_buffer_refuted {A} (dflt : A) alloc allocw iorder oorder arrays islots outs oslots fresh want it
    (fn : frame A -> frame A) cols :
  alloc_sz alloc -> allocw_ok allocw -> (forall l, Permutation (iorder l) l) -> (forall l, Permutation (oorder l) l) ->
  create A alloc allocw iorder oorder arrays islots outs oslots fresh want 0 = Some it ->
  Forall2 (fun t l => column (ts_src A t) l) arrays cols -> NoDup (map sl_id islots) -> it_rows A it > 0 ->
  forall fuel, iterate_frames A dflt fuel fn it = Running.
Proof.
  intros Ha Hw IO OO Ec Fc Nd Hn fuel.
  destruct (create_ok alloc allocw iorder oorder IO OO _ _ _ _ _ _ _ _ Ec) as (F1 & F2 & (A1 & _ & _) & Ef & Ic & Pi & ocs & Eo & Go & Po).
  rewrite Nat.min_0_r in Ef. cbn [repeat] in Ef. unfold iterate_frames. rewrite Ef. clear Ef.
  set (n := it_rows A it) in *. set (pairs := combine (map (ts_src A) arrays) islots) in *. destruct (combine_fits arrays islots F1) as [G1 G2].
  assert (Gc := combine_cols n arrays islots cols (Forall2_len F1) Fc A1).
  assert (Cmp : computes (fun _ => False) islots oslots cols n fn (fun _ => map (fun _ => None) oslots)) by (intros i f f' _ []).
  assert (St : st_ok (fun _ => False) oslots (fun _ => map (fun _ => None) oslots) n (S (list_max (map sl_id islots))) pairs 0 (it_cp A it) []).
  { split; [exact Ic|]. split; [exact Pi|]. split; [|constructor].
    rewrite Eo. unfold ocs_at. apply Forall_forall. intros c I. apply in_map_iff in I. destruct I as (c0 & <- & I0). cbn [oc_start oc_row oc_maps]. rewrite Forall_forall in Go. split; [exact (Go c0 I0)|].
    apply Forall_forall. intros m Im. apply in_map_iff in Im. destruct Im as (m0 & <- & Im0). split.
    + cbn [om_start om_slot]. assert (Ip : In (om_slot A m0, om_out A m0) (combine oslots outs)).
      { apply (Permutation_in _ Po). apply (in_map (fun m => (om_slot A m, om_out A m))). apply in_flat_map. eauto. }
      exact (in_combine_l _ _ _ _ Ip).
    + exists []. split; [apply om_start_ok; assumption|]. intros k c E. unfold rd in E. destruct k; discriminate. }
  assert (In1 : forall s, In s islots -> sl_id s < S (list_max (map sl_id islots))).
  { intros s I. apply le_n_S. assert (M := proj1 (list_max_le (map sl_id islots) _) (Nat.le_refl _)). rewrite Forall_forall in M. apply M. apply in_map. exact I. }
  clear Ic Pi ocs Eo Go Po Ec. generalize (it_cp A it), St. induction fuel as [|fuel IH]; intros c Sc; cbn [for_each]; replace (0 <? n) with true by (symmetry; apply Nat.ltb_lt; lia); [reflexivity|].
  destruct (batch_ok dflt fn (fun _ => False) islots oslots cols (fun _ => map (fun _ => None) oslots) n _ pairs Cmp Nd G1 Gc G2 In1 0 c [] Hn Sc) as (c' & fs' & E & Sc' & L & _). rewrite E.
  destruct fs'; [|discriminate]. cbn [length Nat.add] in *. replace (Nat.min 0 n) with 0 in Sc' by lia. apply IH. exact Sc'.
Qed.
Print Assumptions C54_zero_buffer_refuted.

(** Six rows, four frames; a dense and a sparse array as inputs, both sums as outputs. *)
Definition ex_dense : darr nat := mkD [1; 2; 3; 4; 5; 6] [55%N] 0.
Definition ex_in : list (tsrc nat) := [{| ts_ty := 0; ts_src := SD nat ex_dense |}; {| ts_ty := 0; ts_src := SA nat ex_a |}].
Definition ex_islots : list slot := [{| sl_id := 0; sl_ty := 0; sl_opt := true |}; {| sl_id := 1; sl_ty := 0; sl_opt := true |}].
Definition ex_outs : list aslot := [{| as_id := 10; as_ty := 0; as_arr := false |}; {| as_id := 11; as_ty := 0; as_arr := true |}].
Definition ex_oslots : list slot := [{| sl_id := 2; sl_ty := 0; sl_opt := true |}; {| sl_id := 3; sl_ty := 0; sl_opt := false |}].
Definition ex_row (a b : option nat) : list (option nat) :=
  [match a, b with Some x, Some y => Some (x + y) | _, _ => None end; Some (match a, b with None, None => 0 | Some _, Some _ => 2 | _, _ => 1 end)].
Definition ex_fn (f : frame nat) : frame nat :=
  match f with
  | [(p, x); (q, y); _; _; t] => [(p, x); (q, y); (p && q, x + y); (true, Nat.b2n p + Nat.b2n q); t]
  | _ => f
  end.
Definition ex_cols : list (list (option nat)) := [[Some 1; Some 2; Some 3; None; Some 5; Some 6]; ex_l].
Definition ex_it := create nat ex_alloc ex_allocw (@rev _) (@rev _) ex_in ex_islots ex_outs ex_oslots (repeat (false, 0) 5) None 4.
Example C54_ex_create : exists it, ex_it = Some it /\ it_rows nat it = 6.
Proof. eexists. split; vm_compute; reflexivity. Qed.
Example C54_ex_columns : Forall2 (fun t l => column (ts_src nat t) l) ex_in ex_cols.
Proof.
  constructor; [|constructor; [exact C12_ex_rep|constructor]].
  - split; [split; [cbn; lia|]; split; [repeat constructor|right; reflexivity]|]. split; [reflexivity|]. intros i Hi. do 6 (destruct i; [reflexivity|]). cbn in Hi. lia.
Qed.
Example C54_ex_computes :
  computes (fun f => length f = 5) ex_islots ex_oslots ex_cols 6 ex_fn (fun i => match row_of ex_cols i with [a; b] => ex_row a b | _ => [] end).
Proof.
  intros i f f' Hi Lf [Ls _] Ho. rewrite Lf in *. destruct f' as [|[p x] [|[q y] [|c2 [|c3 [|c4 [|c5 f']]]]]]; try discriminate Ls. 
  change (row_of ex_cols i) with [nth i (nth 0 ex_cols []) None; nth i (nth 1 ex_cols []) None] in *. revert Ho. generalize (nth i (nth 0 ex_cols []) None), (nth i (nth 1 ex_cols []) None). intros a b Ho.
  inversion Ho as [|? ? ? ? H1 Ho']; subst. inversion Ho' as [|? ? ? ? H2 _]; subst. clear Ho Ho'.
  destruct H1 as (c & E1 & S1). destruct H2 as (d & E2 & S2). cbn in E1, E2. injection E1 as <-. injection E2 as <-.
  split; [reflexivity|]. split; [reflexivity|]. cbn [sl_opt] in S1, S2.
  unfold holds, ex_row, ex_oslots, ex_fn. destruct a as [a|], b as [b|]; cbn [shows fst snd] in *;
    repeat match goal with H : _ = _ /\ _ |- _ => destruct H as [-> H] end; repeat match goal with H : true = true -> _ |- _ => specialize (H eq_refl); rewrite H in * end;
    (constructor; [eexists; split; [reflexivity|]; cbn; auto|constructor; [eexists; split; [reflexivity|]; cbn; auto|constructor]]); rewrite ?Bool.andb_false_r; auto.
Qed.
Example C54_ex_run :
  match ex_it with
  | Some it => match iterate_frames nat 0 6 ex_fn it with
               | Finished (c, _) => map (fun p => (fst p, map (match snd p with SD _ a => fun i => match da_get a i with Some o => o | None => None end | SA _ a => fun i => match ar_get a i with Some o => o | None => None end end) (seq 0 6))) (store_output nat c)
               | _ => []
               end
  | None => []
  end = [(11, map Some [2; 2; 2; 0; 2; 2]); (10, [Some 8; Some 7; Some 10; None; Some 13; Some 13])].
Proof. vm_compute. reflexivity. Qed.
