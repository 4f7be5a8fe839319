(** * C18: buffers of strings *)
From Verif Require Import Base GroupOps_Model SBuf_Model SBuf_Spec SBuf_Proofs.
Local Open Scope Z_scope.

(** Building: whatever is set, copied and filled, the buffer holds the same strings
    as the list on which the same operations were done; no room is wasted. *)
Theorem C18_builder junk max init ops l n :
  Z.of_nat max * 16 <= 2 ^ 60 -> Z.of_nat init <= 2 ^ 60 -> fold_right Z.add 0 (map cost ops) <= 2 ^ 60 ->
  fold_opt spec_op ops (repeat [] max) = Some l -> (n <= length l)%nat ->
  exists bl b, fold_opt (b_step junk) ops (b_new junk max init) = Some bl /\ b_build junk bl n = Some b /\
    holds b (firstn n l) /\ valid b /\ s_ok b = true /\ zlen (s_chars b) <= fold_right Z.add 0 (map cost ops).
Proof.
  intros H1 H2 H3 E Hn. destruct (steps_ok junk ops (b_new junk max init) (repeat [] max) l (new_inv junk max init H1 H2) H3 E) as (bl & Eb & I & N).
  destruct (build_ok junk bl l n I Hn) as (b & Ebu & R & _ & Lc). exists bl, b. destruct (rows_holds b _ R) as [Hh Hv].
  split; [exact Eb|]. split; [exact Ebu|]. split; [exact Hh|]. split; [exact Hv|]. split; [apply s_ok_valid, Hv|]. cbn [b_new b_num] in N. lia.
Qed.
Print Assumptions C18_builder.

(** Slicing and copying. *)
Theorem C18_slice b l off n : holds b l -> valid b -> 0 <= off -> 0 <= n -> off + n <= zlen l ->
  exists b', s_slice b off n = Some b' /\ holds b' (firstn (Z.to_nat n) (skipn (Z.to_nat off) l)) /\ valid b'.
Proof.
  intros H V H1 H2 H3. destruct (slice_rows b l off n (holds_rows b l H V) H1 H2 H3) as (b' & v & E & Ev & R). exists b'. split; [exact E|].
  assert (v = firstn (Z.to_nat n) (skipn (Z.to_nat off) l)) as <-; [|apply rows_holds, R].
  unfold zslice in Ev. destruct (Z.eqb_spec n 0) as [->|]; [inversion Ev; reflexivity|]. destruct (_ && _); [|discriminate]. congruence.
Qed.
Print Assumptions C18_slice.

(** A deep copy holds the same strings and no character outside of their hull. *)
Theorem C18_deep_copy b l : holds b l -> valid b ->
  exists b', s_deep_copy b = Some b' /\ holds b' l /\ valid b' /\
    (l <> [] -> (exists o, In o (s_offs b') /\ fst o = s_base b') /\
                (exists o, In o (s_offs b') /\ snd o = s_base b' + zlen (s_chars b'))).
Proof.
  intros H V. destruct (deep_copy_rows b l (holds_rows b l H V)) as (b' & E & R & K). exists b'. split; [exact E|].
  destruct (rows_holds b' l R) as [H' V']. split; [exact H'|]. split; [exact V'|]. intros N. apply K. intros E0. destruct H as [H _]. rewrite E0 in H.
  destruct l; [contradiction|discriminate].
Qed.
Print Assumptions C18_deep_copy.

Theorem C18_uninitialized n : holds (s_uninit n) (repeat [] n) /\ valid (s_uninit n).
Proof.
  apply rows_holds. unfold rows, s_uninit. cbn [s_offs s_chars s_base]. apply Forall2_repeat. exists [], []. split; [reflexivity|]. split; reflexivity.
Qed.
Print Assumptions C18_uninitialized.

(** Buffers are equal exactly if they hold the same strings. *)
Theorem C18_equal a b la lb : holds a la -> holds b lb -> exists r, s_eq a b = Some r /\ (r = true <-> la = lb).
Proof.
  intros Ha Hb. unfold s_eq. destruct (Nat.eqb_spec (length (s_offs a)) (length (s_offs b))) as [L|L].
  - destruct (eq_from_ok a b la lb Ha Hb ltac:(destruct Ha, Hb; lia) (length (s_offs a)) 0) as (r & E & Hr); [destruct Ha; lia|]. exists r. split; [exact E|exact Hr].
  - exists false. split; [reflexivity|]. split; [discriminate|]. intros ->. destruct Ha, Hb. lia.
Qed.
Print Assumptions C18_equal.

(** Reordering the rows of another buffer.  Rows that are not set have the default
    value (the empty string if there is none). *)
Theorem C18_reshuffle b old max def ops l n : holds b old -> valid b -> s_base b = 0 ->
  fold_opt (spec_rop old) ops (repeat (match def with Some d => d | None => [] end) max) = Some l -> (n <= length l)%nat ->
  exists r b', fold_opt r_step ops (r_new max b def) = Some r /\ r_build r n = Some b' /\ holds b' (firstn n l) /\ valid b'.
Proof.
  intros H V Hb E Hn. pose proof (holds_rows b old H V) as R. unfold rows in R. rewrite Hb in R.
  assert (X : exists cs os, r_new max b def = mkR os (s_offs b) cs 0 /\ Forall2 (row cs 0) (s_offs b) old /\
     Forall2 (row cs 0) os (repeat (match def with Some d => d | None => [] end) max)).
  { assert (Z0 : forall d, d = [] -> exists cs os, mkR (repeat (0, 0) max) (s_offs b) (s_chars b) (s_base b) = mkR os (s_offs b) cs 0 /\ Forall2 (row cs 0) (s_offs b) old /\
     Forall2 (row cs 0) os (repeat d max)).
    { intros d ->. rewrite Hb. exists (s_chars b), (repeat (0, 0) max). split; [reflexivity|]. split; [exact R|]. apply Forall2_repeat. exists [], (s_chars b). split; [reflexivity|]. split; reflexivity. }
    unfold r_new. destruct def as [[|c d]|]; [apply Z0; reflexivity| |apply Z0; reflexivity]. rewrite Hb.
    eexists (s_chars b ++ c :: d), _. split; [reflexivity|]. split.
    - clear -R. induction R; constructor; [apply row_grow; assumption|assumption].
    - apply Forall2_repeat. exists (s_chars b), []. rewrite app_nil_r. split; [reflexivity|]. cbn [fst snd]. unfold zlen. lia. }
  destruct X as (cs & os & -> & R1 & R2). destruct (rsteps_ok (row cs 0) old (s_offs b) R1 cs 0 ops os _ l R2 E) as (os' & E' & F).
  destruct (rbuild_ok (row cs 0) (s_offs b) cs 0 os' l n F Hn) as (b' & Eb & Ec & Ebs & Fb). eexists _, b'. split; [exact E'|]. split; [exact Eb|].
  apply rows_holds. unfold rows. rewrite Ec, Ebs. exact Fb.
Qed.
Print Assumptions C18_reshuffle.

(** Without default value the base offset does not matter for reading the rows. *)
Theorem C18_reshuffle_no_default b old max def ops l n : holds b old -> valid b -> def = None \/ def = Some [] ->
  fold_opt (spec_rop old) ops (repeat [] max) = Some l -> (n <= length l)%nat ->
  exists r b', fold_opt r_step ops (r_new max b def) = Some r /\ r_build r n = Some b' /\ holds b' (firstn n l).
Proof.
  intros H V Hd E Hn. pose proof (holds_rows b old H V) as R. set (cs := s_chars b). set (base := s_base b).
  assert (R1 : Forall2 (reads cs base) (s_offs b) old).
  { unfold rows in R. fold cs base in R. clear -R. induction R; constructor; [apply row_reads; assumption|assumption]. }
  assert (R2 : Forall2 (reads cs base) (repeat (0, 0) max) (repeat [] max)) by (apply Forall2_repeat; reflexivity).
  assert (En : r_new max b def = mkR (repeat (0, 0) max) (s_offs b) cs base) by (destruct Hd as [-> | ->]; reflexivity).
  rewrite En. destruct (rsteps_ok (reads cs base) old (s_offs b) R1 cs base ops _ _ l R2 E) as (os' & E' & F).
  destruct (rbuild_ok (reads cs base) (s_offs b) cs base os' l n F Hn) as (b' & Eb & Ec & Ebs & Fb). eexists _, b'. split; [exact E'|]. split; [exact Eb|].
  apply reads_holds. rewrite Ec, Ebs. exact Fb.
Qed.
Print Assumptions C18_reshuffle_no_default.

(** A buffer of the strings "ab", "cde" and a copy of its second row, made with the
    operations above: the copy has base offset 2. *)
Definition abc : sbuf := mkS [(0, 2); (2, 5)] [97; 98; 99; 100; 101] 0.
Definition cde : sbuf := mkS [(2, 5)] [99; 100; 101] 2.
Example abc_built junk : (let? b := fold_opt (b_step junk) [BSet 0 [97; 98]; BSet 1 [99; 100; 101]] (b_new junk 2 0) in b_build junk b 2) = Some abc.
Proof. vm_compute. reflexivity. Qed.
Example cde_copied : (let? b := s_slice abc 1 1 in s_deep_copy b) = Some cde /\ holds cde [[99; 100; 101]] /\ valid cde.
Proof.
  split; [reflexivity|]. split; [split; [reflexivity|]|]. 
  - intros [|[|i]] v H; cbn in H; inversion H; reflexivity.
  - constructor; [cbn; lia|constructor].
Qed.

(** With a default value the base offset is not taken into account
    (strings_buffer.cc:68-69): a row that is not set has a wrong value, here "de"
    instead of "xy", or lies outside of the characters. *)
Theorem C18_reshuffle_default_refuted :
  (exists b old, holds b old /\ valid b /\ exists b', r_build (r_new 1 b (Some [120; 121])) 1 = Some b' /\
    s_get b' 0 = Some [100; 101]) /\
  (exists b old, holds b old /\ valid b /\ exists b', r_build (r_new 1 b (Some [120; 121])) 1 = Some b' /\ s_get b' 0 = None).
Proof.
  split.
  - exists cde, [[99; 100; 101]]. split; [apply cde_copied|]. split; [apply cde_copied|]. eexists. split; [reflexivity|]. reflexivity.
  - exists (mkS [(9, 10)] [99] 9), [[99]]. split; [split; [reflexivity|]; intros [|[|i]] v H; cbn in H; inversion H; reflexivity|].
    split; [constructor; [cbn; lia|constructor]|]. eexists. split; [reflexivity|]. reflexivity.
Qed.
Print Assumptions C18_reshuffle_default_refuted.

(** Without default value a row that is not set has offset 0, below the base offset:
    the constructor's debug check fails and a deep copy reads outside of the
    characters. *)
Theorem C18_reshuffle_copy_refuted : exists b old, holds b old /\ valid b /\
  exists r b', fold_opt r_step [RCopy 0 0] (r_new 2 b None) = Some r /\ r_build r 2 = Some b' /\
    holds b' [[99; 100; 101]; []] /\ s_ok b' = false /\ s_deep_copy b' = None.
Proof.
  exists cde, [[99; 100; 101]]. split; [apply cde_copied|]. split; [apply cde_copied|]. eexists _, _. split; [reflexivity|]. split; [reflexivity|].
  split; [split; [reflexivity|]; intros [|[|[|i]]] v H; cbn in H; inversion H; reflexivity|]. split; reflexivity.
Qed.
Print Assumptions C18_reshuffle_copy_refuted.

(** The hashed stream determines the strings of buffers with the same base offset, also
    when more values are hashed after it: it is known where the stream ends. *)
Theorem C18_stream a b l p q : valid a -> s_base a = s_base b -> s_stream a ++ p = s_stream b ++ q -> holds a l ->
  holds b l /\ p = q.
Proof.
  intros V Hb Hs H. assert (E : s_offs a = s_offs b /\ (s_offs a <> [] -> s_chars a = s_chars b) /\ p = q).
  { unfold s_stream in Hs. pose proof (f_equal (hd 0) Hs) as Hl. cbn [hd app] in Hl. apply (f_equal (@tl Z)) in Hs. cbn [tl app] in Hs. unfold zlen in Hl.
    assert (L : length (s_offs a) = length (s_offs b)) by lia. clear Hl.
    assert (G : forall x y p q, length x = length y -> flat_map (fun o : Z * Z => [fst o; snd o]) x ++ p = flat_map (fun o => [fst o; snd o]) y ++ q -> x = y /\ p = q).
    { clear. induction x as [|[s e] x IH]; intros [|[s' e'] y] p q Hl E; try discriminate; [auto|]. cbn in E. injection E as -> -> E.
      destruct (IH y p q ltac:(cbn in Hl; lia) E) as [-> ->]. auto. }
    destruct (s_offs a) as [|x xs]; destruct (s_offs b) as [|y ys]; try discriminate; [split; [reflexivity|split; [contradiction|exact Hs]]|].
    rewrite <- !app_assoc in Hs.
    destruct (G _ _ _ _ L Hs) as [E1 E2]. split; [exact E1|].
    cbn [app] in E2. pose proof (f_equal (hd 0) E2) as Hl. apply (f_equal (@tl Z)) in E2. cbn [hd tl] in Hl, E2. unfold zlen in Hl.
    assert (Lc : length (s_chars a) = length (s_chars b)) by lia.
    assert (K : s_chars a = s_chars b /\ p = q).
    { revert Lc E2. clear. generalize (s_chars a) as c, (s_chars b) as d. induction c as [|x c IH]; intros [|y d] L E; try discriminate; [auto|].
      cbn in E. injection E as -> E. destruct (IH d) as [-> ->]; [cbn in L; lia|exact E|auto]. }
    destruct K. split; [intros _; assumption|assumption]. }
  destruct E as (E1 & E2 & E3). split; [|exact E3]. destruct H as [H1 H2]. split; [congruence|]. intros i v Ei. specialize (H2 i v Ei). unfold s_get in *. rewrite <- E1, <- Hb.
  rewrite <- E2; [exact H2|]. intros K. rewrite K in H2. destruct i; discriminate.
Qed.
Print Assumptions C18_stream.

(** The base offset is not hashed: the last row of ["ab", "cd"] and the first row of
    a deep copy of a later part of another buffer have the same stream, although the
    strings differ. *)
Definition hash_x : option sbuf := s_slice (mkS [(0, 2); (2, 4)] [97; 98; 99; 100] 0) 1 1.
Definition hash_y : option sbuf :=
  let? b := s_slice (mkS [(0, 2); (2, 4); (4, 6)] [120; 120; 97; 98; 99; 100] 0) 1 2 in
  let? c := s_deep_copy b in s_slice c 0 1.
Theorem C18_stream_refuted : exists a b x y, hash_x = Some a /\ hash_y = Some b /\ valid a /\ valid b /\
  holds a [x] /\ holds b [y] /\ x <> y /\ s_stream a = s_stream b.
Proof.
  exists (mkS [(2, 4)] [97; 98; 99; 100] 0), (mkS [(2, 4)] [97; 98; 99; 100] 2), [99; 100], [97; 98]. split; [reflexivity|]. split; [reflexivity|].
  split; [constructor; [cbn; lia|constructor]|]. split; [constructor; [cbn; lia|constructor]|].
  split; [split; [reflexivity|]; intros [|[|i]] v H; cbn in H; inversion H; reflexivity|].
  split; [split; [reflexivity|]; intros [|[|i]] v H; cbn in H; inversion H; reflexivity|]. split; [discriminate|reflexivity].
Qed.
Print Assumptions C18_stream_refuted.

(** Three rows, filled with growth of the characters from 0, and a reordering. *)
Definition ex_ops : list bop := [BSet 2 [1; 2; 3]; BConst 0 2 [4]; BCopy 2 1; BSet 0 (repeat 9 60)].
Example C18_ex : let b := (let? b := fold_opt (b_step (fun _ => 0)) ex_ops (b_new (fun _ => 0) 3 0) in b_build (fun _ => 0) b 3) in
  match b with
  | Some b => (map (s_get b) [0; 1; 2]%nat, match fold_opt r_step [RRange 1 3 2; RCopy 0 0] (r_new 4 b (Some [7; 7])) with
                                            | Some r => match r_build r 4 with Some b' => map (fun i => option_map (@length Z) (s_get b' i)) [0; 1; 2; 3]%nat | None => [] end
                                            | None => [] end)
  | None => ([], [])
  end = ([Some (repeat 9 60); Some [1; 2; 3]; Some [1; 2; 3]], [Some 60; Some 3; Some 3; Some 2]%nat).
Proof. vm_compute. reflexivity. Qed.
