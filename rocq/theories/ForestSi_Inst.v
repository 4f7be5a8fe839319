(** Floats and integers as inputs; conditions are constant between their points. *)
From Coq Require Import Permutation.
From Verif Require Import Base Forest_Model Forest_Spec Forest_Proofs FullAcc_Spec ForestBm_Model ForestBm_Spec ForestBm_Proofs ForestSi_Model ForestSi_Spec ForestSi_Proofs.
From Verif Require ForestSi_Mid.

Definition f32_good (x : f32) : Prop := x <> S754_nan.
Definition f32_inp (x : f32) : Prop := valid_binary 24 128 x = true.
Lemma bound_good x : f32_bound x -> f32_good x.
Proof. intros [_ B] ->. discriminate. Qed.
Lemma bound_max x : f32_bound x -> flt f32_lowest x = true /\ flt x f32_max = true.
Proof.
  intros [_ B]. destruct x as [s|s| |s m e]; try discriminate; [destruct s; split; reflexivity|].
  unfold flt, SFltb, SFabs, SFcompare in B. unfold flt, SFltb, f32_lowest, f32_max, SFcompare.
  assert (H : (e < 104)%Z \/ e = 104%Z /\ (m < 8388608)%positive).
  { destruct (Z.compare_spec e 104) as [E|E|E]; [right; split; [exact E|]|left; exact E|discriminate].
    destruct (Pos.compare_cont Eq m 8388608) eqn:F; try discriminate. exact F. }
  destruct H as [H|[-> H]].
  - destruct s; split; try reflexivity.
    + destruct (Z.compare_spec 104 e) as [E|E|E]; [lia|lia|reflexivity].
    + destruct (Z.compare_spec e 104) as [E|E|E]; [lia|reflexivity|lia].
  - assert (M : (m < 16777215)%positive) by (apply (Pos.lt_trans _ _ _ H); reflexivity). clear B H. destruct s; split; try reflexivity; rewrite Z.compare_refl.
    + apply Pos.lt_gt in M. unfold Pos.gt, Pos.compare in M. rewrite M. reflexivity.
    + unfold Pos.lt, Pos.compare in M. rewrite M. reflexivity.
Qed.
Lemma f32_num_ok : num_ok f32_num f32_good f32_bound f32_inp.
Proof.
  split.
  - exact flt_asym.
  - exact flt_ntrans.
  - exact feq_flt.
  - exact bound_good.
  - intros v H. apply fnan_false. exact H.
  - intros p P. split; [discriminate|apply bound_max; exact P].
  - intros p P. split; [discriminate|apply bound_max; exact P].
  - discriminate.
  - intros l r P Q. exists (f32_mid l r). split; [reflexivity|]. intros v G I A B. destruct P as [V1 B1], Q as [V2 B2].
    destruct (ForestSi_Mid.middle_float l v r V1 I V2 B1 B2 A B) as [M1 M2].
    split; [|split; [exact M1|exact M2]]. intros E. change (flt l (f32_mid l r) = true) in M1. rewrite E, flt_nan_r in M1. discriminate.
Qed.
Definition i64_pt (v : Z) : Prop := (- 2 ^ 62 <= v < 2 ^ 62)%Z.
Lemma i64_num_ok : num_ok i64_num (fun _ => True) i64_pt (fun _ => True).
Proof.
  split; cbn; intros; try exact I; try lia.
  - unfold i64_pt, i64_min in *. split; [exact I|lia].
  - unfold i64_pt, i64_max in *. split; [exact I|lia].
  - unfold i64_pt in *. unfold i64_mid, i64_min, i64_max.
    destruct (Z.leb_spec (- 2 ^ 63) (l + r)) as [H1|H1]; [|lia]. destruct (Z.leb_spec (l + r) (2 ^ 63 - 1)) as [H2|H2]; [|lia]. cbn [andb].
    eexists. split; [reflexivity|]. intros v _ _ A B. split; [exact I|].
    pose proof (Z.quot_rem' (l + r) 2) as Q. pose proof (Z.rem_bound_abs (l + r) 2 ltac:(lia)) as R. pose proof (Z.rem_sign_mul (l + r) 2 ltac:(lia)) as S. lia.
Qed.

(** What the two instances have in common. *)
Record inst_ok {T} (nm : num T) (good pt inp : T -> Prop) : Prop := {
  io_num : num_ok nm good pt inp;
  io_cond : forall ot c i, csig ot c = [(i, n_type nm)] -> cond_fine c -> exists ps, n_points nm c = Some ps /\ (forall p, In p ps -> pt p) /\
    forall fr fr' v w, n_read nm fr i = Some v -> n_read nm fr' i = Some w -> n_nan nm v = false -> good w -> same_cell nm ps v w -> ceval ot fr c = ceval ot fr' c;
  io_miss : forall ot c i fr, csig ot c = [(i, n_type nm)] -> cond_fine c -> nan_ok fr c ->
    match n_read nm fr i with None => True | Some v => n_nan nm v = true end -> ceval ot fr c = ceval ot (n_frame nm None) c;
  io_frame : forall x i, n_read nm (n_frame nm x) i = x;
  io_row : forall fr i v, row_ok fr -> n_read nm fr i = Some v -> inp v }.

Lemma fle_ninf v : v <> S754_nan -> fle fninf v = true.
Proof. destruct v as [s|[]| |s m e]; try reflexivity. congruence. Qed.
Lemma fle_inf v : v <> S754_nan -> fle v finf = true.
Proof. destruct v as [s|[]| |[] m e]; try reflexivity. congruence. Qed.
Lemma bound_ninf x : f32_bound x -> feq x fninf = false.
Proof. intros [_ B]. destruct x as [s|[]| |[] m e]; try discriminate; reflexivity. Qed.
Lemma bound_inf x : f32_bound x -> feq x finf = false.
Proof. intros [_ B]. destruct x as [s|[]| |[] m e]; try discriminate; reflexivity. Qed.
Lemma feq_sym_ x y : x <> S754_nan -> y <> S754_nan -> feq x y = feq y x.
Proof. intros X Y. rewrite !feq_flt by assumption. apply andb_comm. Qed.

Lemma f32_inst : inst_ok f32_num f32_good f32_bound f32_inp.
Proof.
  split.
  - exact f32_num_ok.
  - intros ot c i S F. destruct c as [j l r|j vs m|j vs m|k]; cbn in S, F; [| discriminate | | contradiction]; injection S as S; subst j.
    + destruct F as [Fl Fr]. eexists. split; [reflexivity|].
      assert (Nl : l <> S754_nan) by (destruct Fl as [->|Fl]; [discriminate|apply bound_good; exact Fl]).
      assert (Nr : r <> S754_nan) by (destruct Fr as [->|Fr]; [discriminate|apply bound_good; exact Fr]).
      split.
      * intros p I. apply in_app_iff in I. destruct I as [I|I].
        -- destruct (feq l fninf) eqn:E; [destruct I|]. destruct I as [<-|[]]. destruct Fl as [->|Fl]; [discriminate|exact Fl].
        -- destruct (negb (feq r finf) && negb (feq r l)) eqn:E; [|destruct I]. destruct I as [<-|[]]. destruct Fr as [->|Fr]; [discriminate|exact Fr].
      * intros fr fr' v w Rv Rw Nv Gw C. cbn in Rv, Rw, Nv. cbn [ceval]. rewrite Rv, Rw. apply fnan_false in Nv.
        assert (Cl : fle l v = fle l w).
        { destruct Fl as [->|Fl]; [rewrite !fle_ninf by assumption; reflexivity|]. rewrite !fle_flt by assumption. f_equal.
          apply (proj1 (C l ltac:(apply in_app_iff; left; rewrite (bound_ninf l Fl); left; reflexivity))). }
        assert (Cr : fle v r = fle w r).
        { destruct Fr as [->|Fr]; [rewrite !fle_inf by assumption; reflexivity|]. rewrite !fle_flt by assumption. f_equal.
          destruct (feq r l) eqn:E.
          - assert (Bl : f32_bound l).
            { destruct Fl as [->|Fl]; [|exact Fl]. rewrite (bound_ninf r Fr) in E. discriminate. }
            destruct (eq_cell f32_num f32_good f32_bound f32_inp f32_num_ok r l v Nr Nl Nv E) as [E1 _]. destruct (eq_cell f32_num f32_good f32_bound f32_inp f32_num_ok r l w Nr Nl Gw E) as [E2 _].
            cbn in E1, E2. rewrite E1, E2. apply (proj2 (C l ltac:(apply in_app_iff; left; rewrite (bound_ninf l Bl); left; reflexivity))).
          - apply (proj2 (C r ltac:(apply in_app_iff; right; rewrite (bound_inf r Fr); left; reflexivity))). }
        rewrite Cl, Cr. reflexivity.
    + exists vs. split; [reflexivity|]. split; [exact F|]. intros fr fr' v w Rv Rw Nv Gw C. cbn in Rv, Rw, Nv. cbn [ceval]. rewrite Rv, Rw. apply fnan_false in Nv.
      unfold fin. clear - F C Nv Gw. induction vs as [|x r IH]; [reflexivity|]. cbn [existsb].
      rewrite IH; [|intros y Y; apply F; right; exact Y|intros y Y; apply C; right; exact Y]. f_equal.
      assert (Nx : x <> S754_nan) by (apply bound_good, F; left; reflexivity). rewrite !feq_flt by assumption.
      destruct (C x (or_introl eq_refl)) as [C1 C2]. cbn in C1, C2. rewrite C1, C2. reflexivity.
  - intros ot c i fr S F Nk. destruct c as [j l r|j vs m|j vs m|k]; cbn in S, F; [| discriminate | | contradiction]; injection S as S; subst j; cbn.
    + destruct (in_f32 fr i) as [v|]; [|reflexivity]. intros N. apply fnan_iff in N. subst v. rewrite fle_nan_r. reflexivity.
    + destruct (in_f32 fr i) as [v|] eqn:E; [|reflexivity]. intros N. apply fnan_iff in N. subst v. destruct m; [exfalso; apply Nk; exact E|]. clear Nk.
      unfold fin. induction vs as [|x r IH]; [reflexivity|]. cbn. apply IH. intros y Y. apply F. right. exact Y.
  - reflexivity.
  - intros fr i v R E. exact (R i v E).
Qed.
Lemma i64_inst : inst_ok i64_num (fun _ => True) i64_pt (fun _ => True).
Proof.
  split.
  - exact i64_num_ok.
  - intros ot c i S F. destruct c as [j l r|j vs m|j vs m|k]; cbn in S, F; [discriminate| | discriminate | contradiction]; injection S as S; subst j.
    exists vs. split; [reflexivity|]. split; [apply F|]. intros fr fr' v w Rv Rw _ _ C. cbn in Rv, Rw. cbn [ceval]. rewrite Rv, Rw.
    unfold zin. clear - C. induction vs as [|x r IH]; [reflexivity|]. cbn [existsb].
    rewrite IH by (intros y Y; apply C; right; exact Y). f_equal. destruct (C x (or_introl eq_refl)) as [C1 C2]. cbn in C1, C2.
    destruct (Z.eqb_spec v x), (Z.eqb_spec w x); try reflexivity; lia.
  - intros ot c i fr S F _. destruct c as [j l r|j vs m|j vs m|k]; cbn in S, F; [discriminate| | discriminate | contradiction]; injection S as S; subst j; cbn.
    destruct (in_i64 fr i); [discriminate|reflexivity].
  - reflexivity.
  - intros. exact I.
Qed.
