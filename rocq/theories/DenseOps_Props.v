(** C07: dense pointwise operators. *)
From Verif Require Import Base Bits_Model Bitmap_Model Dense_Model Dense_Spec Dense_Proofs
  DenseOps_Model DenseOps_Spec DenseOps_Proofs.

(** Whatever implementation the flags and the number of arguments select, the
    operator computes the function row by row on the elements; the contents of
    the uninitialised buffers [mem] and [bmem] do not matter. *)
Theorem C07_dense_op : forall A B E (f : fn A B E) fl arrs ls n mem bmem,
  fn_ok f -> length arrs = length (fn_opts f) -> arrs <> [] ->
  Forall2 represents arrs ls -> Forall (fun l => length l = n) ls ->
  (no_bitmap_offset fl = true -> Forall (fun a => boff a = 0) arrs) ->
  length mem = n -> bitmap_size (n + W) <= length bmem -> Forall (fun x => x < 2 ^ 32)%N bmem ->
  exists res, dense_op f fl arrs mem bmem = Some res /\ op_outcome f ls n res.
Proof.
  exact (fun A B E f fl arrs ls n mem bmem H1 H2 H3 H4 H5 H6 H7 H8 H9 =>
    dense_op_ok f fl arrs ls n mem bmem H1 H2 H3 H4 H5 H6 H7 H8 (words_ok _ H9)).
Qed.
Print Assumptions C07_dense_op.

(** Arguments of different sizes are rejected. *)
Theorem C07_size_mismatch : forall A B E (f : fn A B E) fl arrs mem bmem a b,
  In a arrs -> In b arrs -> da_size a <> da_size b -> no_size_validation fl = false ->
  dense_op f fl arrs mem bmem = Some SizeMismatch.
Proof. exact (fun A B E => @dense_op_mismatch A B E). Qed.
Print Assumptions C07_size_mismatch.

(** DenseOpsUtil::Iterate and IterateFromZero visit every row of the range once,
    in order. *)
Theorem C07_iterate : forall A no n opts (arrs : list (darr A)) ls from to,
  length arrs = length opts -> Forall2 represents arrs ls -> Forall (fun l => length l = n) ls ->
  (no = true -> Forall (fun a => boff a = 0) arrs) -> from <= to <= n ->
  exists cs, ops_iterate no from to (combine opts arrs) = Some cs /\
    Forall2 (row_call opts ls) cs (seq from (to - from)).
Proof. exact (fun A => @rep_iterate A). Qed.
Print Assumptions C07_iterate.

Theorem C07_iterate_from_zero : forall A no n opts (arrs : list (darr A)) ls to,
  length arrs = length opts -> Forall2 represents arrs ls -> Forall (fun l => length l = n) ls ->
  (no = true -> Forall (fun a => boff a = 0) arrs) -> to <= n ->
  exists cs, iterate_from_zero no to (combine opts arrs) = Some cs /\
    Forall2 (row_call opts ls) cs (seq 0 to).
Proof. exact (fun A => @rep_iterate_from_zero A). Qed.
Print Assumptions C07_iterate_from_zero.

(** Two arrays with different bit offsets, an addition and a partial division. *)
Definition ex_a : darr nat := mkD [10; 11; 12; 13; 14] [104]%N 3.
Definition ex_b : darr nat := mkD [1; 2; 0; 4; 5] [14]%N 0.
Definition ex_la := [Some 10; None; Some 12; Some 13; None].
Definition ex_lb := [None; Some 2; Some 0; Some 4; None].
Definition ex_add : fn nat nat nat :=
  {| fn_opts := [false; false]; fn_status := false; fn_opt_res := false; fn_special := false;
     fn_eval := fun r => match r with [Some x; Some y] => inr (true, x + y) | _ => inr (true, 0) end |}.
Definition ex_div : fn nat nat nat :=
  {| fn_opts := [false; true]; fn_status := true; fn_opt_res := true; fn_special := false;
     fn_eval := fun r => match r with
       | [Some x; Some 0] => inl x
       | [Some x; Some y] => inr (true, x / y)
       | _ => inr (false, 0) end |}.
Example C07_hyp : represents ex_a ex_la /\ represents ex_b ex_lb /\ fn_ok ex_add /\ fn_ok ex_div.
Proof.
  split; [|split; [|split]].
  - split; [|split; [reflexivity|]].
    + split; [cbn; lia|]. split; [repeat constructor|]. right. reflexivity.
    + intros i Hi. cbn in Hi. do 5 (destruct i as [|i]; [reflexivity|]). lia.
  - split; [|split; [reflexivity|]].
    + split; [cbn; lia|]. split; [repeat constructor|]. right. reflexivity.
    + intros i Hi. cbn in Hi. do 5 (destruct i as [|i]; [reflexivity|]). lia.
  - split; [intros _ r|intros _ r p v]; destruct r as [|[x|] [|[y|] [|z r]]]; cbn; eauto; congruence.
  - split; cbn; discriminate.
Qed.
Example C07_ex_add : dense_op ex_add (Build_flags true false false) [ex_a; ex_b] [7;7;7;7;7] [9; 9]%N
  = Some (OpOk (mkD [11; 13; 12; 17; 19] [12]%N 0)).
Proof. reflexivity. Qed.
Example C07_ex_add2 : dense_op ex_add (Build_flags false false false) [ex_a; ex_b] [7;7;7;7;7] [9; 9]%N
  = Some (OpOk (mkD [7; 7; 12; 17; 7] [12]%N 0)).
Proof. reflexivity. Qed.
Example C07_ex_div : dense_op ex_div (Build_flags false false false) [ex_a; ex_b] [7;7;7;7;7] [9; 9]%N
  = Some (FnError 12).
Proof. reflexivity. Qed.
Example C07_ex_mismatch : dense_op ex_add (Build_flags false false false) [ex_a; mkD [1] [] 0] [7] [9]%N
  = Some SizeMismatch.
Proof. reflexivity. Qed.
Example C07_ex_iterate : ops_iterate false 1 4 (combine [false; true] [ex_a; ex_b]) =
  Some [(1, false, [Some 11; Some 2]); (2, true, [Some 12; Some 0]); (3, true, [Some 13; Some 4])].
Proof. reflexivity. Qed.
