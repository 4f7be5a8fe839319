From Coq Require Import QArith Lqa.
From Verif Require Import Base Curve_Model Curve_Spec Curve_Num.
Local Open Scope nat_scope.
Local Open Scope list_scope.

(** ** Slices *)
Definition slice {A} (b e : nat) (l : list A) : list A := firstn (e - b) (skipn b l).
Lemma rd_skipn {A} (l : list A) b i : rd (skipn b l) i = rd l (b + i).
Proof. revert l. induction b as [|b IH]; intros [|x l]; try reflexivity; [destruct i; reflexivity|apply (IH l)]. Qed.
Lemma rd_firstn {A} (l : list A) k i : i < k -> rd (firstn k l) i = rd l i.
Proof. revert l i. induction k as [|k IH]; intros [|x l] [|i] H; try reflexivity; try lia. apply (IH l i). lia. Qed.
Lemma rd_slice {A} b e (l : list A) i : i < e - b -> rd (slice b e l) i = rd l (b + i).
Proof. intros H. unfold slice. rewrite rd_firstn by exact H. apply rd_skipn. Qed.
Lemma slice_length {A} b e (l : list A) : e <= List.length l -> List.length (slice b e l) = e - b.
Proof. intros H. unfold slice. rewrite firstn_length, skipn_length. lia. Qed.
Lemma slice_tl {A} b e (l : list A) : tl (slice b e l) = slice (S b) e l.
Proof.
  unfold slice. replace (e - S b) with (e - b - 1) by lia. generalize (e - b) as k. intros k. revert b k. 
  induction l as [|x l IH]; intros b k; [rewrite !skipn_nil, !firstn_nil; reflexivity|]. destruct b as [|b].
  - destruct k; [reflexivity|]. cbn. rewrite Nat.sub_0_r. reflexivity.
  - cbn [skipn]. apply IH.
Qed.
Lemma slice_removelast {A} b e (l : list A) : e <= List.length l -> removelast (slice b e l) = slice b (e - 1) l.
Proof.
  intros H. unfold slice. destruct (Nat.le_gt_cases e b).
  - replace (e - b) with 0 by lia. replace (e - 1 - b) with 0 by lia. reflexivity.
  - replace (e - b) with (S (e - 1 - b)) by lia. apply removelast_firstn. rewrite skipn_length. lia.
Qed.
Lemma rd_rev {A} (l : list A) i : i < List.length l -> rd (rev l) i = rd l (List.length l - 1 - i).
Proof.
  revert i. induction l as [|x l IH] using rev_ind; intros i H; [cbn in H; lia|]. rewrite app_length in *. cbn [List.length] in *. rewrite rev_app_distr. cbn [rev app].
  destruct i as [|i].
  - unfold rd. rewrite nth_error_app2 by lia. replace (_ - _ - _ - _)%nat with 0 by lia. reflexivity.
  - unfold rd in *. cbn [nth_error]. rewrite IH by lia. rewrite nth_error_app1 by lia. f_equal. lia.
Qed.

(** ** Trimming *)
Lemma trim_begin_ok l : l <> [] -> exists b, b < List.length l /\ trim_begin l = skipn b l /\
  (forall i p q, i < b -> rd l i = Some p -> rd l b = Some q -> same (py p) (py q)) /\
  (forall p q, rd l b = Some p -> rd l (S b) = Some q -> ~ same (py p) (py q)).
Proof.
  induction l as [|x [|y l] IH]; intros N; [congruence| |].
  - exists 0. repeat split; [cbn; lia|intros; lia|intros p q _ H; discriminate].
  - change (trim_begin (x :: y :: l)) with (if num_eq (py x) (py y) then trim_begin (y :: l) else x :: y :: l). destruct (num_eq (py x) (py y)) eqn:E.
    + destruct IH as (b & B1 & B2 & B3 & B4); [discriminate|]. exists (S b). split; [cbn [List.length] in *; lia|]. split; [exact B2|]. split; [|exact B4].
      intros i p q Hi Hp Hq. apply num_eq_ok in E. destruct i as [|i].
      * injection Hp as <-. destruct b as [|b]; [injection Hq as <-; exact E|]. apply same_trans with (py y); [exact E|]. apply (B3 0); [lia|reflexivity|exact Hq].
      * apply (B3 i); [lia|exact Hp|exact Hq].
    + exists 0. split; [cbn; lia|]. split; [reflexivity|]. split; [intros; lia|]. intros p q Hp Hq K. injection Hp as <-. injection Hq as <-.
      apply num_eq_ok in K. congruence.
Qed.
Lemma trim_ok l : l <> [] -> exists b e, b < e /\ e <= List.length l /\ trim l = slice b e l /\
  (forall i p q, i < b -> rd l i = Some p -> rd l b = Some q -> same (py p) (py q)) /\
  (forall i p q, e <= i -> rd l i = Some p -> rd l (e - 1) = Some q -> same (py p) (py q)) /\
  (S b < e -> (forall p q, rd l b = Some p -> rd l (S b) = Some q -> ~ same (py p) (py q)) /\
              (forall p q, rd l (e - 1) = Some p -> rd l (e - 2) = Some q -> ~ same (py p) (py q))).
Proof.
  intros N. destruct (trim_begin_ok l N) as (b & B1 & B2 & B3 & B4). set (m := skipn b l).
  assert (ML : List.length m = List.length l - b) by (unfold m; apply skipn_length).
  destruct (trim_begin_ok (rev m)) as (k & K1 & K2 & K3 & K4).
  { intros K. apply (f_equal (@List.length _)) in K. rewrite rev_length in K. change (List.length (@nil point)) with 0 in K. lia. }
  rewrite rev_length in K1.
  assert (R : forall i, i < List.length m -> rd (rev m) i = rd l (List.length l - 1 - i)).
  { intros i Hi. rewrite rd_rev by exact Hi. rewrite ML. unfold m. rewrite rd_skipn. f_equal. lia. }
  exists b, (List.length l - k). split; [lia|]. split; [lia|]. split.
  { unfold trim. rewrite B2. fold m. rewrite K2, skipn_rev, rev_involutive. unfold slice. fold m. f_equal. lia. }
  split; [exact B3|]. split.
  - intros i p q Hi Hp Hq. pose proof (rd_Some_lt _ _ _ Hp). apply (K3 (List.length l - 1 - i)); [lia| |].
    + rewrite R by lia. rewrite <- Hp. f_equal. lia.
    + rewrite R by lia. rewrite <- Hq. f_equal. lia.
  - intros L. split; [exact B4|]. intros p q Hp Hq. apply K4.
    + rewrite R by lia. rewrite <- Hp. f_equal. lia.
    + rewrite R by lia. rewrite <- Hq. f_equal. lia.
Qed.

Lemma increasing_ok l : (forall p, In p l -> px p <> NaN) -> (increasing l = true <-> forall i p q, rd l i = Some p -> rd l (S i) = Some q -> nlt (px p) (px q)).
Proof.
  induction l as [|a [|b l] IH]; intros N.
  - split; [intros _ i p q H; destruct i; discriminate|reflexivity].
  - split; [intros _ i p q _ H; destruct i; discriminate|reflexivity].
  - change (increasing (a :: b :: l)) with (if num_le (px b) (px a) then false else increasing (b :: l)). destruct (num_le (px b) (px a)) eqn:E.
    + split; [discriminate|]. intros H. apply num_le_ok in E. destruct (nlt_irrefl _ _ (H 0 a b eq_refl eq_refl) E).
    + rewrite IH by (intros p Hp; apply N; right; exact Hp). split.
      * intros H [|i] p q Hp Hq; [|apply (H i); assumption]. injection Hp as <-. injection Hq as <-.
        destruct (nle_or_lt (px b) (px a)) as [K|K]; [apply N; cbn; auto|apply N; cbn; auto|apply num_le_ok in K; congruence|exact K].
      * intros H i p q Hp Hq. apply (H (S i)); assumption.
Qed.
Lemma chain {A} (f : A -> num) l : (forall i p q, rd l i = Some p -> rd l (S i) = Some q -> nlt (f p) (f q)) ->
  forall j i p q, i < j -> rd l i = Some p -> rd l j = Some q -> nlt (f p) (f q).
Proof.
  intros H. induction j as [|j IH]; intros i p q L Hp Hq; [lia|]. destruct (Nat.eq_dec i j) as [->|N]; [apply (H j); assumption|].
  assert (j < List.length l) as Lj by (apply rd_Some_lt in Hq; lia). destruct (rd_lt l j Lj) as (r & Hr).
  apply nlt_trans with (f r); [apply (IH i); [lia|exact Hp|exact Hr]|apply (H j); assumption].
Qed.

(** ** Construction *)
(** Everything that is known of an accepted curve that is not constant. *)
Record built (h : hook) (ps : list point) (b e b' e' : nat) (first last front back : point) : Prop := {
  bt_range : S b < e /\ e <= List.length ps;
  bt_first : rd ps 0 = Some first; bt_last : rd ps (List.length ps - 1) = Some last;
  bt_front : rd ps b = Some front; bt_back : rd ps (e - 1) = Some back;
  bt_pre : forall i p, i < b -> rd ps i = Some p -> same (py p) (py front);
  bt_post : forall i p, e <= i -> rd ps i = Some p -> same (py p) (py back);
  bt_step1 : forall p, rd ps (S b) = Some p -> ~ same (py front) (py p);
  bt_step2 : forall p, rd ps (e - 2) = Some p -> ~ same (py back) (py p);
  bt_valid : validate_min h (px first) = true;
  bt_b : (b' = b /\ ~ infinite (h_in h (px front)) /\ ~ infinite (py front)) \/ (b' = S b /\ infinite (h_in h (px front)) /\ infinite (py front));
  bt_e : (e' = e /\ ~ infinite (h_in h (px back)) /\ ~ infinite (py back)) \/ (S e' = e /\ infinite (h_in h (px back)) /\ infinite (py back));
  bt_ne : b' < e';
  bt_fin : forall i p, b' <= i -> i < e' -> rd ps i = Some p -> ~ infinite (py p);
  bt_mono1 : b + 3 <= e -> infinite (py front) -> forall p q, rd ps (S b) = Some p -> rd ps (S (S b)) = Some q ->
    nlt (py front) (py p) /\ nlt (py p) (py q) \/ nlt (py p) (py front) /\ nlt (py q) (py p);
  bt_mono2 : b + 3 <= e -> infinite (py back) -> forall p q, rd ps (e - 3) = Some p -> rd ps (e - 2) = Some q ->
    nlt (py p) (py q) /\ nlt (py q) (py back) \/ nlt (py q) (py p) /\ nlt (py back) (py q);
  bt_flat1 : b + 3 <= e -> infinite (px first) \/ infinite (py first) -> forall p q, rd ps (S b) = Some p -> rd ps (S (S b)) = Some q -> ~ same (py p) (py q);
  bt_flat2 : b + 3 <= e -> infinite (px last) \/ infinite (py last) -> forall p q, rd ps (e - 3) = Some p -> rd ps (e - 2) = Some q -> ~ same (py p) (py q) }.

Lemma monotonic_ok a b c : strictly_monotonic a b c = true <-> nlt a b /\ nlt b c \/ nlt b a /\ nlt c b.
Proof. unfold strictly_monotonic. rewrite orb_true_iff, !andb_true_iff, !num_lt_ok. reflexivity. Qed.
Lemma bool_dec_prop (b : bool) : b = true \/ b = false.
Proof. destruct b; auto. Qed.
Lemma isinf_not a : isinf a = false <-> ~ infinite a.
Proof. rewrite <- isinf_ok. destruct (isinf a); intuition congruence. Qed.

Lemma transformed_ok h ps b' e' front back tf tb : b' < e' -> e' <= List.length ps ->
  (forall p, rd ps b' = Some p -> num_eq (px front) (px p) = true -> tf = transform h p) ->
  (forall p, rd ps (e' - 1) = Some p -> num_eq (px back) (px p) = true -> tb = transform h p) ->
  transformed_points h front back tf tb (slice b' e' ps) = map (transform h) (slice b' e' ps).
Proof.
  intros L1 L2 Hf Hb. unfold transformed_points. rewrite slice_length by exact L2. apply list_eq_rd. intros i.
  unfold rd. rewrite !nth_error_map. destruct (Nat.lt_ge_cases i (e' - b')) as [Hi|Hi].
  - assert (E : nth_error (seq 0 (e' - b')) i = Some i).
    { rewrite nth_error_nth' with (d := 0) by (rewrite seq_length; exact Hi). rewrite seq_nth by exact Hi. reflexivity. }
    rewrite E. cbn [option_map]. change (@nth_error point) with (@rd point). rewrite rd_slice by exact Hi.
    destruct (rd_lt ps (b' + i)) as (p & Hp); [lia|]. rewrite Hp. cbn [option_map].
    assert (En : nth i (slice b' e' ps) front = p).
    { apply nth_error_nth. change (@nth_error point) with (@rd point). rewrite rd_slice by exact Hi. exact Hp. }
    rewrite En. f_equal. destruct (Nat.eqb_spec i 0) as [->|N0]; cbn [andb].
    + destruct (num_eq (px front) (px p)) eqn:Ef; [apply Hf; [rewrite Nat.add_0_r in Hp; exact Hp|exact Ef]|].
      destruct (Nat.eqb_spec 0 (e' - b' - 1)) as [E1|N1]; cbn [andb]; [|reflexivity]. destruct (num_eq (px back) (px p)) eqn:Eb; [|reflexivity].
      apply Hb; [rewrite <- Hp; f_equal; lia|exact Eb].
    + destruct (Nat.eqb_spec i (e' - b' - 1)) as [E1|N1]; cbn [andb]; [|reflexivity]. destruct (num_eq (px back) (px p)) eqn:Eb; [|reflexivity].
      apply Hb; [rewrite <- Hp; f_equal; lia|exact Eb].
  - rewrite !(proj2 (nth_error_None _ _)); [reflexivity| |].
    + rewrite slice_length by exact L2. exact Hi.
    + rewrite seq_length. exact Hi.
Qed.

Lemma rd_last {A} (l : list A) : l <> [] -> exists x, rd l (List.length l - 1) = Some x.
Proof. intros N. apply rd_lt. destruct l; [congruence|cbn; lia]. Qed.
Definition end_ok (a : bool) (y : bool) : Prop := a = y.

Lemma build_inv h ps c : no_nan ps -> build h ps = Some (inr c) ->
  (forall i p q, rd ps i = Some p -> rd ps (S i) = Some q -> nlt (px p) (px q)) /\ ps <> [] /\
  ((exists y, c = Constant y /\ y <> NaN /\ (forall i p, rd ps i = Some p -> same (py p) y) /\ exists p, In p ps /\ y = py p) \/
   exists b e b' e' first last front back, built h ps b e b' e' first last front back /\
     c = Pwl front back (coefficients_for (num_lt (py front) (py back)) (map (transform h) (slice b' e' ps)))).
Proof.
  intros NN H. unfold build, common_checks in H. destruct ps as [|first ps0]; [discriminate|]. remember (first :: ps0) as ps eqn:Eps.
  destruct (increasing ps) eqn:Inc; cbn [negb bind] in H; [|discriminate]. pose proof (proj1 (increasing_ok ps (fun p Hp => proj1 (NN p Hp))) Inc) as Inc'. clear Inc. rename Inc' into Inc.
  assert (Ne : ps <> []) by (rewrite Eps; discriminate).
  assert (H0 : rd ps 0 = Some first) by (rewrite Eps; reflexivity). clear Eps ps0.
  destruct (trim_ok ps Ne) as (b & e & B1 & B2 & Et & B3 & B4 & B5). rewrite Et in H. rewrite slice_length in H by exact B2.
  destruct (rd_lt ps b) as (front & Hf); [lia|]. destruct (rd_lt ps (e - 1)) as (back & Hb); [lia|]. destruct (rd_last ps Ne) as (last & Hl).
  split; [exact Inc|]. split; [exact Ne|].
  destruct (Nat.eqb_spec (e - b) 1) as [E1|N1].
  - left. cbn [bind] in H. rewrite slice_length, rd_slice, Nat.add_0_r, Hf in H by lia. cbn [bind] in H.
    rewrite E1 in H. cbn [Nat.eqb] in H. injection H as <-. exists (py front). split; [reflexivity|].
    assert (Nf : py front <> NaN) by (apply NN, (nth_error_In _ _ Hf)). split; [exact Nf|]. split; [|exists front; split; [apply (nth_error_In _ _ Hf)|reflexivity]].
    intros i p Hp. destruct (Nat.lt_trichotomy i b) as [L|[->|G]].
    + apply (B3 i); assumption.
    + rewrite Hf in Hp. injection Hp as ->. apply same_refl, Nf.
    + apply (B4 i); [lia|exact Hp|]. rewrite <- Hf. f_equal. lia.
  - right. specialize (B5 ltac:(lia)). destruct B5 as [B5 B6]. set (n := e - b) in *.
    assert (Rd : forall i, i < n -> rd (slice b e ps) i = rd ps (b + i)) by (intros i Hi; apply rd_slice; exact Hi).
    assert (Bad : forall bad : bool, (if 3 <=? n then
         let? back0 := rd ps (List.length ps - 1) in
         let? l1 := rd (slice b e ps) 1 in let? l2 := rd (slice b e ps) 2 in
         let? m3 := rd (slice b e ps) (n - 3) in let? m2 := rd (slice b e ps) (n - 2) in
         Some ((isinf (px first) || isinf (py first)) && num_eq (py l1) (py l2) || (isinf (px back0) || isinf (py back0)) && num_eq (py m3) (py m2))
       else Some false) = Some bad -> bad = false ->
       (b + 3 <= e -> infinite (px first) \/ infinite (py first) -> forall p q, rd ps (S b) = Some p -> rd ps (S (S b)) = Some q -> ~ same (py p) (py q)) /\
       (b + 3 <= e -> infinite (px last) \/ infinite (py last) -> forall p q, rd ps (e - 3) = Some p -> rd ps (e - 2) = Some q -> ~ same (py p) (py q))).
    { intros bad HB ->. destruct (Nat.leb_spec 3 n) as [L3|L3]; [|split; intros; lia]. rewrite Hl in HB. rewrite !Rd in HB by lia. cbn [bind] in HB.
      replace (b + 1) with (S b) in HB by lia. replace (b + 2) with (S (S b)) in HB by lia. replace (b + (n - 3)) with (e - 3) in HB by lia. replace (b + (n - 2)) with (e - 2) in HB by lia.
      split; intros _ HI p q Hp Hq K; apply num_eq_ok in K; rewrite <- !isinf_ok, <- orb_true_iff in HI.
      - rewrite Hp, Hq in HB. cbn [bind] in HB. destruct (rd ps (e - 3)), (rd ps (e - 2)); try discriminate. cbn [bind] in HB. rewrite HI, K in HB. discriminate.
      - rewrite Hp, Hq in HB. cbn [bind] in HB. destruct (rd ps (S b)), (rd ps (S (S b))); try discriminate. cbn [bind] in HB. rewrite HI, K in HB. cbn [andb] in HB. rewrite orb_true_r in HB. discriminate. }
    match type of Bad with forall bad, ?X = _ -> _ => destruct X as [bad|] eqn:EB; [|discriminate] end.
    cbn [bind] in H. destruct bad; [discriminate|]. destruct (Bad false eq_refl eq_refl) as [Fl1 Fl2]. clear Bad EB.
    destruct (validate_min h (px first)) eqn:Val; [|discriminate]. cbn [bind] in H. rewrite slice_length in H by exact B2. fold n in H.
    rewrite (Rd 0) in H by lia. rewrite Nat.add_0_r, Hf in H. cbn [bind] in H. destruct (Nat.eqb_spec n 1) as [|_]; [lia|].
    rewrite (Rd (n - 1)) in H by lia. replace (b + (n - 1)) with (e - 1) in H by lia. rewrite Hb in H. cbn [bind] in H.
    assert (Wrong : forall wrong : bool, (if 3 <=? n then
         let? l1 := rd (slice b e ps) 1 in let? l2 := rd (slice b e ps) 2 in
         let? m3 := rd (slice b e ps) (n - 3) in let? m2 := rd (slice b e ps) (n - 2) in
         Some (isinf (py (transform h front)) && negb (strictly_monotonic (py (transform h front)) (py l1) (py l2)) ||
               isinf (py (transform h back)) && negb (strictly_monotonic (py m3) (py m2) (py (transform h back))))
       else Some false) = Some wrong -> wrong = false ->
       (b + 3 <= e -> infinite (py front) -> forall p q, rd ps (S b) = Some p -> rd ps (S (S b)) = Some q ->
          nlt (py front) (py p) /\ nlt (py p) (py q) \/ nlt (py p) (py front) /\ nlt (py q) (py p)) /\
       (b + 3 <= e -> infinite (py back) -> forall p q, rd ps (e - 3) = Some p -> rd ps (e - 2) = Some q ->
          nlt (py p) (py q) /\ nlt (py q) (py back) \/ nlt (py q) (py p) /\ nlt (py back) (py q))).
    { intros bad HB ->. destruct (Nat.leb_spec 3 n) as [L3|L3]; [|split; intros; lia]. rewrite !Rd in HB by lia. cbn [bind] in HB.
      replace (b + 1) with (S b) in HB by lia. replace (b + 2) with (S (S b)) in HB by lia. replace (b + (n - 3)) with (e - 3) in HB by lia. replace (b + (n - 2)) with (e - 2) in HB by lia.
      unfold transform in HB. cbn [py] in HB.
      split; intros _ HI p q Hp Hq; apply isinf_ok in HI; apply monotonic_ok.
      - rewrite Hp, Hq in HB. cbn [bind] in HB. destruct (rd ps (e - 3)), (rd ps (e - 2)); try discriminate. cbn [bind] in HB. rewrite HI in HB.
        destruct (strictly_monotonic (py front) (py p) (py q)); [reflexivity|discriminate].
      - rewrite Hp, Hq in HB. cbn [bind] in HB. destruct (rd ps (S b)), (rd ps (S (S b))); try discriminate. cbn [bind] in HB. rewrite HI in HB.
        destruct (strictly_monotonic (py p) (py q) (py back)); [reflexivity|]. cbn [andb negb] in HB. rewrite orb_true_r in HB. discriminate. }
    match type of Wrong with forall wrong, ?X = _ -> _ => destruct X as [wrong|] eqn:EW; [|discriminate] end.
    cbn [bind] in H. destruct wrong; [discriminate|]. destruct (Wrong false eq_refl eq_refl) as [Mo1 Mo2]. clear Wrong EW.
    assert (Front : exists b' tf', (if isinf (px (transform h front)) then
           if negb (isinf (py (transform h front))) then Some None
           else match tl (slice b e ps) with [] => Some None | p :: _ => Some (Some (tl (slice b e ps), transform h p)) end
         else if isinf (py (transform h front)) then Some None else Some (Some (slice b e ps, transform h front))) = Some (Some (slice b' e ps, tf')) /\
       ((b' = b /\ ~ infinite (h_in h (px front)) /\ ~ infinite (py front)) \/ (b' = S b /\ infinite (h_in h (px front)) /\ infinite (py front))) /\
       (forall p, rd ps b' = Some p -> num_eq (px front) (px p) = true -> tf' = transform h p)).
    { change (px (transform h front)) with (h_in h (px front)) in *. change (py (transform h front)) with (py front) in *.
      destruct (isinf (h_in h (px front))) eqn:I1; [apply isinf_ok in I1|apply isinf_not in I1].
      - destruct (isinf (py front)) eqn:I2; [apply isinf_ok in I2|cbn [negb bind] in H; discriminate]. cbn [negb] in *. rewrite slice_tl in *.
        destruct (rd_lt ps (S b)) as (p1 & Hp1); [lia|]. 
        destruct (slice (S b) e ps) as [|p r] eqn:Es; [cbn [bind] in H; discriminate|]. exists (S b), (transform h p). rewrite Es. split; [reflexivity|]. split; [auto|].
        intros p' Hp' K. exfalso. apply num_eq_ok in K. apply (nlt_irrefl (px front) (px p')); [apply (Inc b); assumption|apply same_le, same_sym, K].
      - destruct (isinf (py front)) eqn:I2; [cbn [bind] in H; discriminate|apply isinf_not in I2]. exists b, (transform h front). split; [reflexivity|]. split; [auto|].
        intros p' Hp' K. rewrite Hf in Hp'. injection Hp' as ->. reflexivity. }
    destruct Front as (b' & tf' & EF & Hb' & Htf). rewrite EF in H. cbn [bind] in H. clear EF.
    assert (Back : exists e', (if isinf (px (transform h back)) then
               if negb (isinf (py (transform h back))) then Some None
               else match removelast (slice b' e ps) with [] => Some None | l2 => Some (Some l2) end
             else if isinf (py (transform h back)) then Some None else Some (Some (slice b' e ps))) = Some (Some (slice b' e' ps)) /\
       ((e' = e /\ ~ infinite (h_in h (px back)) /\ ~ infinite (py back)) \/ (S e' = e /\ infinite (h_in h (px back)) /\ infinite (py back))) /\ b' < e' /\
       (forall p, rd ps (e' - 1) = Some p -> num_eq (px back) (px p) = true -> transform h back = transform h p)).
    { change (px (transform h back)) with (h_in h (px back)) in *. change (py (transform h back)) with (py back) in *.
      destruct (isinf (h_in h (px back))) eqn:I1; [apply isinf_ok in I1|apply isinf_not in I1].
      - destruct (isinf (py back)) eqn:I2; [apply isinf_ok in I2|cbn [negb bind] in H; discriminate]. cbn [negb] in *. rewrite slice_removelast in * by exact B2.
        destruct (slice b' (e - 1) ps) as [|p r] eqn:Es; [cbn [bind] in H; discriminate|]. exists (e - 1). rewrite Es. split; [reflexivity|]. split; [right; split; [lia|auto]|].
        assert (b' < e - 1).
        { apply (f_equal (@List.length _)) in Es. rewrite slice_length in Es by lia. change (List.length (p :: r)) with (S (List.length r)) in Es. lia. }
        split; [assumption|]. intros p' Hp' K. exfalso. apply num_eq_ok in K. apply (nlt_irrefl (px p') (px back)); [|apply same_le, K].
        apply (Inc (e - 1 - 1)); [exact Hp'|]. rewrite <- Hb. f_equal. lia.
      - destruct (isinf (py back)) eqn:I2; [cbn [bind] in H; discriminate|apply isinf_not in I2]. exists e. split; [reflexivity|]. split; [auto|]. split; [destruct Hb' as [[-> _]|[-> _]]; lia|].
        intros p' Hp' K. rewrite Hb in Hp'. injection Hp' as ->. reflexivity. }
    destruct Back as (e' & EB & He' & Hne & Htb). rewrite EB in H. cbn [bind] in H. clear EB.
    destruct (existsb _ (slice b' e' ps)) eqn:EX; [discriminate|].
    assert (Le : e' <= List.length ps) by (destruct He' as [[-> _]|[He' _]]; lia).
    rewrite transformed_ok in H; [|exact Hne|exact Le|exact Htf|exact Htb]. injection H as <-.
    exists b, e, b', e', first, last, front, back. split; [|reflexivity].
    constructor; try assumption.
    + lia.
    + intros i p Hi Hp. apply (B3 i); assumption.
    + intros i p Hi Hp. apply (B4 i); assumption.
    + intros p Hp. apply B5; assumption.
    + intros p Hp. apply B6; assumption.
    + intros i p Hi1 Hi2 Hp K. assert (existsb (fun p => isinf (py p)) (slice b' e' ps) = true); [|congruence].
      apply existsb_exists. exists p. split; [|apply isinf_ok, K]. apply (nth_error_In _ (i - b')). change (@nth_error point) with (@rd point).
      rewrite rd_slice by lia. rewrite <- Hp. f_equal. lia.
Qed.
