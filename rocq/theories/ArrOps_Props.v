(** C15: pointwise operators on Arrays; C40: iteration over several Arrays. *)
From Verif Require Import Base Bits_Model Bitmap_Model Dense_Model Dense_Spec Dense_Proofs
  DenseOps_Model DenseOps_Spec DenseOps_Proofs IdFilter_Model IdFilter_Spec
  Array_Model Array_Spec Array_Proofs ArrOps_Model ArrOps_Spec ArrOps_Proofs.

(** Whatever the forms of the arguments (constant, dense, sparse, with or without
    defaults, sharing id buffers or not), an operator returns the function applied
    row by row, or the error of a row, or the error of the function applied to the
    defaults of the arguments.  It succeeds only if none of these is an error. *)
Theorem C15_array_op : forall A B E (f : fn A B E) fl n args ls alloc allocw addr allocb,
  alloc_sz alloc -> allocw_ok allocw -> alloc_sz allocb ->
  fn_ok f -> length args = length (fn_opts f) -> args <> [] -> args_rep n args ls ->
  (no_bitmap_offset fl = true -> Forall (fun a : arr A => boff (ar_data a) = 0) args) ->
  exists res, array_op alloc allocw addr allocb f fl args = Some res /\
    match row_result f (map ar_miss args) with
    | inr _ => lifted f n ls res
    | inl e => res = ArError e \/ exists i e', i < n /\ row_result f (row ls i) = inl e' /\ res = ArError e'
    end.
Proof.
  intros A B E f fl n args ls alloc allocw addr allocb HA HW HB Fo Hl Ne R Hb.
  destruct (array_op_ok alloc allocw addr HA HW allocb HB f fl n args ls Fo Hl Ne R Hb) as (res & Er & O).
  exists res. split; [exact Er|]. destruct res as [|e|r]; cbn [outcome] in O; [destruct O| |].
  - destruct (row_result f (map ar_miss args)) as [e'|m].
    + destruct O as [(i & Hi & Ei)|Em]; [right; exists i, e; auto|left; congruence].
    + right. destruct O as [(i & Hi & Ei)|Em]; [exists i, e; auto|discriminate].
  - destruct O as (l & P & Rr & Nm). destruct (row_result f (map ar_miss args)) as [e'|m]; [destruct (Nm e' eq_refl)|].
    left. exists l, r. auto.
Qed.
Print Assumptions C15_array_op.

(** The result depends on the rows only, if the function does not fail on the
    defaults (e.g. if one required argument has none) or some row consists of them. *)
Theorem C15_array_op_exact : forall A B E (f : fn A B E) fl n args ls alloc allocw addr allocb,
  alloc_sz alloc -> allocw_ok allocw -> alloc_sz allocb ->
  fn_ok f -> length args = length (fn_opts f) -> args <> [] -> args_rep n args ls ->
  (no_bitmap_offset fl = true -> Forall (fun a : arr A => boff (ar_data a) = 0) args) ->
  fn_status f = false \/
  (exists a, In (false, a) (combine (fn_opts f) args) /\ ar_miss a = None) \/
  (exists i, i < n /\ row ls i = map ar_miss args) ->
  exists res, array_op alloc allocw addr allocb f fl args = Some res /\ lifted f n ls res.
Proof.
  intros A B E f fl n args ls alloc allocw addr allocb HA HW HB Fo Hl Ne R Hb H.
  destruct (C15_array_op A B E f fl n args ls alloc allocw addr allocb HA HW HB Fo Hl Ne R Hb) as (res & Er & O).
  exists res. split; [exact Er|]. destruct (row_result f (map ar_miss args)) as [e|m] eqn:Em; [|exact O].
  right. destruct O as [->|(i & e' & Hi & Ei & ->)]; [|exists i, e'; auto]. destruct H as [H|[(a & Ha & Ma)|(i & Hi & Er')]].
  - exfalso. unfold row_result in Em. destruct (row_defined _ _); [|discriminate].
    destruct (proj1 Fo H (map ar_miss args)) as ([p v] & Ev). rewrite Ev in Em. discriminate.
  - exfalso. unfold row_result in Em. replace (row_defined (fn_opts f) (map ar_miss args)) with false in Em; [discriminate|].
    symmetry. unfold row_defined. revert Hl Ha. generalize (fn_opts f) as opts. clear -Ma.
    induction args as [|c args IH]; intros opts Hl Hin; destruct opts as [|q opts]; try discriminate; [destruct Hin|].
    cbn [combine map forallb fst snd]. destruct Hin as [Eq|Hin].
    + injection Eq as -> ->. rewrite Ma. reflexivity.
    + rewrite IH by (auto; cbn in Hl; lia). apply andb_false_r.
  - exists i, e. rewrite Er'. auto.
Qed.
Print Assumptions C15_array_op_exact.

(** Arguments of different sizes are rejected. *)
Theorem C15_size_mismatch : forall A B E (f : fn A B E) fl args alloc allocw addr allocb a b,
  In a args -> In b args -> ar_size a <> ar_size b ->
  array_op alloc allocw addr allocb f fl args = Some ArMismatch.
Proof.
  intros A B E f fl args alloc allocw addr allocb a b Ha Hb N. destruct args as [|c t]; [destruct Ha|]. unfold array_op.
  replace (forallb (fun b => ar_size c =? ar_size b) t) with false; [reflexivity|]. symmetry.
  destruct (forallb (fun b => ar_size c =? ar_size b) t) eqn:F; [|reflexivity]. exfalso. apply N.
  rewrite forallb_forall in F.
  assert (G : forall x, In x (c :: t) -> ar_size x = ar_size c).
  { intros x [<-|Hx]; [reflexivity|]. specialize (F x Hx). apply Nat.eqb_eq in F. congruence. }
  rewrite (G a Ha), (G b Hb). reflexivity.
Qed.
Print Assumptions C15_size_mismatch.

(** A sparse and a constant argument, different id filters. *)
Definition ex_alloc (n : nat) : list nat := repeat 9 n.
Definition ex_allocw (n : nat) : list N := repeat 5%N n.
Definition ex_s : arr nat := mkArr 6 (FPartial 1 [11; 13; 14] 10) (mkD [20; 21; 22] [5]%N 0) (Some 7).
Definition ex_t : arr nat := mkArr 6 (FPartial 2 [3] 0) (mkD [5] [] 0) None.
Definition ex_ls := [Some 7; Some 20; Some 7; None; Some 22; Some 7].
Definition ex_lt : list (option nat) := [None; None; None; Some 5; None; None].
Definition ex_add : fn nat nat nat :=
  {| fn_opts := [false; true]; fn_status := true; fn_opt_res := false; fn_special := false;
     fn_eval := fun r => match r with
       | [Some x; Some y] => inr (true, x + y)
       | [Some x; None] => if x =? 7 then inr (true, 0) else inl x
       | _ => inr (true, 0) end |}.
Definition ex_min : fn nat nat nat :=
  {| fn_opts := [false; true]; fn_status := true; fn_opt_res := false; fn_special := false;
     fn_eval := fun r => match r with
       | [Some x; Some y] => inr (true, x + y)
       | [Some x; None] => inr (true, x)
       | _ => inr (true, 0) end |}.
Example C15_hyp : args_rep 6 [ex_s; ex_t] [ex_ls; ex_lt] /\ fn_ok ex_add /\ alloc_sz ex_alloc /\ allocw_ok ex_allocw.
Proof.
  split; [split; [|repeat constructor]|].
  - assert (W : forall ad l off, l <> [] -> length l < 6 -> ids_in 6 off l -> fwf 6 (FPartial ad l off)) by (intros; split; auto).
    constructor; [|constructor; [|constructor]].
    + split; [split; [|split; [|split]]|split].
      * apply W; [discriminate|cbn; lia|]. split; [|repeat constructor; lia].
        intros i j Hij. cbn [length] in Hij. do 3 (destruct i as [|i]; [do 3 (destruct j as [|j]; [cbn; lia|]); lia|]). lia.
      * split; [cbn; lia|]. split; [repeat constructor|]. right. reflexivity.
      * reflexivity.
      * discriminate.
      * reflexivity.
      * intros i Hi. cbn in Hi. do 6 (destruct i as [|i]; [reflexivity|]). lia.
    + split; [split; [|split; [|split]]|split].
      * apply W; [discriminate|cbn; lia|]. split; [|repeat constructor; lia].
        intros i j Hij. cbn [length] in Hij. lia.
      * split; [cbn; lia|]. split; [constructor|]. left. reflexivity.
      * reflexivity.
      * discriminate.
      * reflexivity.
      * intros i Hi. cbn in Hi. do 6 (destruct i as [|i]; [reflexivity|]). lia.
  - split; [split|split].
    + discriminate.
    + intros _ r p v. destruct r as [|[x|] [|[y|] [|z r]]]; cbn; try destruct (x =? 7); congruence.
    + intros n. apply repeat_length.
    + intros n. split; [apply repeat_length|]. unfold ex_allocw. apply Forall_forall. intros x Hx. apply repeat_spec in Hx. subst. reflexivity.
Qed.
Example C15_ex_error : array_op ex_alloc ex_allocw 3 ex_alloc ex_add (Build_flags false false false) [ex_s; ex_t]
  = Some (ArError 20).
Proof. reflexivity. Qed.
Example C15_ex_ok : exists r, array_op ex_alloc ex_allocw 3 ex_alloc ex_min (Build_flags false false false) [ex_s; ex_t] = Some (ArOk r)
  /\ map (ar_get r) (seq 0 6) = map Some [Some 7; Some 20; Some 7; None; Some 22; Some 7].
Proof. eexists; split; reflexivity. Qed.

(** A function of one optional argument that fails on a missing value is an error
    on the full array [1; 2], although no row fails. *)
Definition ex_req : fn nat nat nat :=
  {| fn_opts := [true]; fn_status := true; fn_opt_res := false; fn_special := false;
     fn_eval := fun r => match r with [Some x] => inr (true, x) | _ => inl 0 end |}.
Theorem C15_default_error_refuted :
  exists n args ls, args_rep n args ls /\ fn_ok ex_req /\ length args = 1 /\
    pointwise ex_req ls n = inr [Some 1; Some 2] /\
    array_op ex_alloc ex_allocw 3 ex_alloc ex_req (Build_flags false false false) args = Some (ArError 0).
Proof.
  exists 2, [ar_dense (mkD [1; 2] [] 0)], [[Some 1; Some 2]]. split; [split; [|repeat constructor]|split; [|split; [reflexivity|split; reflexivity]]].
  - constructor; [|constructor]. apply ar_dense_rep. split; [split; [cbn; lia|split; [constructor|left; reflexivity]]|].
    split; [reflexivity|]. intros i Hi. cbn in Hi. do 2 (destruct i as [|i]; [reflexivity|]). lia.
  - split; [discriminate|]. intros _ r p v. destruct r as [|[x|] [|z r]]; cbn; congruence.
Qed.
Print Assumptions C15_default_error_refuted.

(** ArrayOpsUtil::Iterate covers every row of the range exactly once and in order,
    with the values of the row or as missing, for every form of the arguments. *)
Theorem C40_iterate : forall A alloc allocw addr to_dense n opts (args : list (arr A)) ls from to,
  alloc_sz alloc -> allocw_ok allocw -> args_rep n args ls -> length args = length opts -> from <= to <= n ->
  exists u cs, ou_make alloc allocw addr to_dense n opts args = Some u /\ ou_iterate u from to = Some cs /\
    flat_map covers cs = map (fun i => (i, row_at opts ls i)) (seq from (to - from)).
Proof.
  intros A alloc allocw addr td n opts args ls from to HA HW R Hl H.
  destruct (make_ok alloc allocw addr HA HW td n opts args ls R Hl) as (u & E & U).
  destruct (iterate_ok n opts ls u from to U H) as (cs & Ec & F).
  - intros ->. destruct args; [|discriminate]. destruct R as [R _]. inversion R. reflexivity.
  - exists u, cs. auto.
Qed.
Print Assumptions C40_iterate.

(** ArrayOpsUtil::IterateSimple, ArraysIterate and ArraysIterateDense call the
    function exactly for the rows with all required values, in order. *)
Theorem C40_iterate_simple : forall A alloc allocw addr to_dense n opts (args : list (arr A)) ls,
  alloc_sz alloc -> allocw_ok allocw -> args_rep n args ls -> length args = length opts ->
  exists u, ou_make alloc allocw addr to_dense n opts args = Some u /\
    ou_iterate_simple u = Some (defined_rows opts ls 0 n) /\
    length (defined_rows opts ls 0 n) <= ou_estimate u <= n.
Proof.
  intros A alloc allocw addr td n opts args ls HA HW R Hl.
  destruct (make_ok alloc allocw addr HA HW td n opts args ls R Hl) as (u & E & U). exists u. split; [exact E|]. split.
  - apply (iterate_simple_ok n opts ls u U). intros ->. destruct args; [|discriminate]. destruct R as [R _]. inversion R. reflexivity.
  - apply (estimate_ok n opts ls u U).
Qed.
Print Assumptions C40_iterate_simple.

Theorem C40_arrays_iterate : forall A alloc allocw addr to_dense n opts (args : list (arr A)) ls,
  alloc_sz alloc -> allocw_ok allocw -> args_rep n args ls -> length args = length opts -> args <> [] ->
  arrays_iterate alloc allocw addr to_dense opts args = Some (defined_rows opts ls 0 n).
Proof.
  intros A alloc allocw addr td n opts args ls HA HW R Hl Ne. destruct args as [|a t]; [congruence|].
  cbn [arrays_iterate]. replace (ar_size a) with n.
  - destruct (C40_iterate_simple A alloc allocw addr td n opts (a :: t) ls HA HW R Hl) as (u & E & I & _). rewrite E. exact I.
  - destruct R as [F N]. inversion F as [|? l ? ls' Ra _]; subst. inversion N; subst. destruct Ra as (_ & S & _). congruence.
Qed.
Print Assumptions C40_arrays_iterate.
Example C40_ex : arrays_iterate ex_alloc ex_allocw 3 false [true; false] [ex_t; ex_s] =
  Some [(0, [None; Some 7]); (1, [None; Some 20]); (2, [None; Some 7]); (4, [None; Some 22]); (5, [None; Some 7])].
Proof. reflexivity. Qed.
Example C40_ex_range : exists u, ou_make ex_alloc ex_allocw 3 false 6 [false] [ex_s] = Some u /\
  ou_iterate u 1 6 = Some [CRow 1 [Some 20]; CRepeat 2 1 [Some 7]; CMiss 3 1; CRow 4 [Some 22]; CRepeat 5 1 [Some 7]].
Proof. eexists; split; reflexivity. Qed.
