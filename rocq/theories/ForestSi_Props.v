(** C49: evaluation of decision trees that use a single input. *)
From Coq Require Import Permutation.
From Verif Require Import Base Forest_Model Forest_Spec Forest_Proofs Forest_Props FullAcc_Spec ForestBm_Model ForestBm_Spec ForestBm_Proofs ForestBm_Props
  ForestSi_Model ForestSi_Spec ForestSi_Proofs ForestSi_Inst ForestSi_Build.

(** The midpoint of two floats below 2^127 in absolute value is a float strictly between
    them, if there is one. *)
Theorem C49_midpoint : forall l v r, f32_bound l -> f32_bound r -> valid_binary 24 128 v = true ->
  flt l v = true -> flt v r = true -> flt l (f32_mid l r) = true /\ flt (f32_mid l r) r = true.
Proof. intros l v r [Vl Bl] [Vr Br] Vv A B. exact (ForestSi_Mid.middle_float l v r Vl Vv Vr Bl Br A B). Qed.
Print Assumptions C49_midpoint.

(** Building an evaluator from any trees of an accepted forest that use one input each
    never fails, and evaluating a row (of any values, including infinities) adds to the
    output of each group the values of exactly the leaves that the row reaches in the
    trees of the group, each once. *)
Theorem C49_eval : forall V (vo : vops V) lib ot internal (cs : list (scall V)) n slots req,
  lib_ok lib -> internal_ok vo ot cond_fine (map sc_tree cs) internal ->
  from_trees ot (map sc_tree cs) = inr req ->
  (forall c, In c cs -> sc_group c < n /\ proper (sc_tree c) /\ (sc_type c = TF32 \/ sc_type c = TI64) /\
     single_input ot (sc_tree c) (sc_input c) (sc_type c) /\ nth_error slots (sc_input c) = Some (sc_type c) /\
     forall nd, In nd (t_nodes (sc_tree c)) -> cond_fine (n_cond nd)) ->
  exists b e, si_calls n cs = Some b /\ si_build V lib ot internal slots b = Some (Some e) /\
  forall fr out, row_ok fr -> (forall c nd, In c cs -> In nd (t_nodes (sc_tree c)) -> nan_ok fr (n_cond nd)) -> length out = n ->
  exists out', si_eval V vo lib e fr out = Some out' /\ length out' = n /\
  forall g x, nth_error out g = Some x -> exists y vs, nth_error out' g = Some y /\
    Forall2 (fun c v => exists d, is_tree (sc_tree c) d /\ tree_value vo ot fr (sc_tree c) d = Some v) (filter (fun c => sc_group c =? g) cs) vs /\
    sum_of vo (x :: vs) y.
Proof.
  intros V vo lib ot internal cs n slots req L Int Acc H.
  destruct (calls_builder n cs) as (b & Eb & Lb & Kb); [intros c C; destruct (H c C) as (A & _ & B & _); auto|]. exists b.
  assert (Sub : forall ty m g, map_ok g ty cs m -> forall i ts, In (i, ts) (l_iter lib _ m) ->
    (exists req, from_trees ot ts = inr req) /\ (forall t, In t ts -> In t (map sc_tree cs)) /\ (forall t, In t ts -> proper t) /\ (forall t, In t ts -> single_input ot t i ty) /\
    (forall t nd, In t ts -> In nd (t_nodes t) -> cond_fine (n_cond nd)) /\ nth_error slots i = Some ty).
  { intros ty m g (_ & Ne & Q) i ts I. apply (Permutation_in _ (lib_iter _ L _ m)) in I. specialize (Ne i ts I).
    split; [apply (from_trees_sub ot (map sc_tree cs) ts req Acc); intros u U; destruct (Q i ts u I U) as (c & C & <- & _); apply in_map; exact C|].
    split; [intros u U; destruct (Q i ts u I U) as (c & C & <- & _); apply in_map; exact C|].
    split; [intros t T; destruct (Q i ts t I T) as (c & C & <- & _); apply H; exact C|].
    split; [intros t T; destruct (Q i ts t I T) as (c & C & <- & <- & <-); apply H; exact C|].
    split; [intros t nd T; destruct (Q i ts t I T) as (c & C & <- & _); apply H; exact C|].
    destruct ts as [|t ts]; [congruence|]. destruct (Q i (t :: ts) t I (or_introl eq_refl)) as (c & C & _ & <- & <-). apply H; exact C. }
  destruct (groups_ok vo lib L ot internal _ Int slots b) as (e & Ee & Ke).
  { intros pg P. apply In_nth_error in P. destruct P as [g G]. destruct (Kb g pg G) as [Kf Ki]. split; intros i ts I.
    - destruct (Sub TF32 _ g Kf i ts I) as (A & A' & B & C & D & S). split; [split; assumption|exact S].
    - destruct (Sub TI64 _ g Ki i ts I) as (A & A' & B & C & D & S). split; [split; assumption|exact S]. }
  exists e. split; [exact Eb|]. split; [exact Ee|]. intros fr out Rk Nk Lo.
  assert (Gt : forall g pg, nth_error b g = Some pg -> Permutation (group_trees lib pg) (map sc_tree (filter (fun c => sc_group c =? g) cs))).
  { intros g pg G. destruct (Kb g pg G) as [[Pf _] [Pi _]]. unfold group_trees.
    rewrite (Permutation_flat_map snd (lib_iter _ L _ (pg_f V pg))), (Permutation_flat_map snd (lib_iter _ L _ (pg_i V pg))), Pf, Pi.
    rewrite <- map_app. apply Permutation_map. assert (Ty : forall c, In c cs -> sc_type c = TF32 \/ sc_type c = TI64) by (intros c C; apply H; exact C). clear - Ty.
    induction cs as [|c r IH]; [constructor|]. cbn [filter]. specialize (IH (fun x X => Ty x (or_intror X))).
    assert (K : forall ty, of_kind g ty c = (sc_group c =? g) && ity_eqb (sc_type c) ty) by reflexivity. rewrite !K.
    destruct (sc_group c =? g); cbn [andb]; [|exact IH]. destruct (Ty c (or_introl eq_refl)) as [->| ->]; cbn [ity_eqb].
    - cbn [app]. apply perm_skip. exact IH.
    - rewrite <- Permutation_middle. apply perm_skip. exact IH. }
  destruct (Ke fr out) as (out' & Eo & Lo' & G); [|lia|].
  { split; [exact Rk|]. intros t n' T. apply in_flat_map in T. destruct T as (pg & P & T). apply In_nth_error in P. destruct P as [g Hg].
    apply (Permutation_in _ (Gt g pg Hg)) in T. apply in_map_iff in T. destruct T as (c & <- & C). apply filter_In in C. apply Nk. apply C. }
  exists out'. split; [exact Eo|]. split; [lia|]. intros g x X.
  destruct (nth_error b g) as [pg|] eqn:Hg; [|apply nth_error_None in Hg; assert (g < length out) by (apply nth_error_Some; congruence); lia].
  destruct (G g pg x Hg X) as (y & vs & Y & F & S). destruct (forall2_perm _ _ _ (Gt g pg Hg) vs F) as (vs' & F' & P').
  exists y, vs'. split; [exact Y|]. split; [|apply (sum_perm vo (x :: vs)); [apply perm_skip; exact P'|exact S]].
  clear - F'. remember (map sc_tree (filter (fun c => sc_group c =? g) cs)) as l. revert Heql. generalize (filter (fun c => sc_group c =? g) cs) as q.
  induction F' as [|t v ts vs' Tv F IH]; intros [|c q] E; try discriminate; constructor; cbn in E; injection E as -> ->; [exact Tv|apply IH; reflexivity].
Qed.
Print Assumptions C49_eval.

(** The naive evaluation, for one, is such an internal evaluator. *)
Definition naive_internal {V} (vo : vops V) (ot : others) (fuel : nat) (ts : list (tree V)) (_ : list ity) : option (frame -> option V) :=
  Some (fun fr => match naive vo ot fr fuel every_tree ts with Done v => Some v | _ => None end).
Theorem C49_internal : forall V (vo : vops V) ot us req, from_trees ot us = inr req -> (forall t, In t us -> proper t) ->
  exists k, forall fuel, k <= fuel -> internal_ok vo ot cond_fine us (naive_internal vo ot fuel).
Proof.
  intros V vo ot us req Acc Pr.
  assert (D : forall t, In t us -> exists d, is_tree t d).
  { intros t T. destruct (Pr t T) as [N R]. apply (C46_terminates V ot us req t Acc T); [unfold split_children; apply NoDup_filter; exact N|exact R]. }
  destruct (enough_fuel us D) as [k K]. exists k. intros fuel F ts slots req' Acc' _ Sub _ _. eexists. split; [reflexivity|]. intros fr.
  pose proof (from_trees_ok ot ts) as H. rewrite Acc' in H. destruct H as [_ S].
  destruct (values_some vo ot fr every_tree ts S) as [vs Vs]; [intros t T; apply D, Sub, T|].
  exists vs, (vrnd vo (fold_left (vadd vo) vs (vzero vo))). split; [exact Vs|]. unfold naive.
  rewrite (naive_sum_values vo ot fr every_tree ts vs fuel Vs); [|intros t d T U; specialize (K t d (Sub t T) U); lia]. split; [reflexivity|].
  apply sum_rnd. apply (sum_of_fold vo vs [] (vzero vo)). apply sum_zero.
Qed.
Print Assumptions C49_internal.

(** ** Where the guards are needed: an accepted forest of one tree, and a row for which
    the naive value is another one than the piecewise constant function. *)
Definition one_split (c : cond) : tree Z :=
  {| t_nodes := [{| n_false := (-1)%Z; n_true := (-2)%Z; n_cond := c |}]; t_adj := [10; 20]%Z; t_weight := 1%Z; t_step := 0%Z; t_sub := 0%Z |}.
Definition wrong (ty : ity) (t : tree Z) (fr : frame) (good bad : Z) : Prop :=
  exists lib req b e, lib_ok lib /\ from_trees no_others [t] = inr req /\ proper t /\ row_ok fr /\ single_input no_others t 0 ty /\
  naive zops no_others fr 5 every_tree [t] = Done good /\
  si_calls 1 [{| sc_group := 0; sc_tree := t; sc_input := 0; sc_type := ty |}] = Some b /\
  si_build Z lib no_others (naive_internal zops no_others 5) [ty] b = Some (Some e) /\
  si_eval Z zops lib e fr [0%Z] = Some [bad] /\ good <> bad.
Ltac show_wrong :=
  exists ref_lib; do 3 eexists; split; [apply ref_lib_ok|]; split; [reflexivity|];
  split; [split; [repeat constructor; cbn; intuition discriminate|cbn; intuition discriminate]|];
  split; [intros i x [= <-]; reflexivity|]; split; [intros n [<-|[]]; reflexivity|];
  split; [reflexivity|]; split; [reflexivity|]; split; [vm_compute; reflexivity|]; split; [vm_compute; reflexivity|discriminate].
Definition float_row (x : f32) : frame := {| in_f32 := fun _ => Some x; in_i64 := fun _ => None |}.

(** The sum of two bounds overflows: the midpoint is infinite. *)
Theorem C49_overflow_refuted : exists l r v, wrong TF32 (one_split (Interval 0 l r)) (float_row v) 20 10.
Proof.
  exists (S754_finite false 8388608 104), (S754_finite false 12582912 104), (S754_finite false 10485760 104). show_wrong.
Qed.
Print Assumptions C49_overflow_refuted.
(** A bound is the lowest float: minus infinity is taken for it. *)
Theorem C49_lowest_refuted : exists r, wrong TF32 (one_split (Interval 0 f32_lowest r)) (float_row fninf) 10 20.
Proof. exists one. show_wrong. Qed.
Print Assumptions C49_lowest_refuted.
(** Both bounds are minus infinity: there is no split point. *)
Theorem C49_neg_inf_refuted : wrong TF32 (one_split (Interval 0 fninf fninf)) (float_row fninf) 20 10.
Proof. show_wrong. Qed.
Print Assumptions C49_neg_inf_refuted.
(** Both bounds are plus infinity: the midpoint is infinite. *)
Theorem C49_pos_inf_refuted : exists l v, wrong TF32
  {| t_nodes := [{| n_false := (-1)%Z; n_true := 1%Z; n_cond := Interval 0 l finf |}; {| n_false := (-2)%Z; n_true := (-3)%Z; n_cond := Interval 0 finf finf |}];
     t_adj := [10; 20; 30]%Z; t_weight := 1%Z; t_step := 0%Z; t_sub := 0%Z |} (float_row v) 20 30.
Proof.
  exists half, one. exists ref_lib; do 3 eexists; split; [apply ref_lib_ok|]; split; [reflexivity|].
  split; [split; [repeat constructor; cbn; intuition discriminate|cbn; intuition discriminate]|].
  split; [intros i x [= <-]; reflexivity|]; split; [intros n [<-|[<-|[]]]; reflexivity|].
  split; [reflexivity|]; split; [reflexivity|]; split; [vm_compute; reflexivity|]; split; [vm_compute; reflexivity|discriminate].
Qed.
Print Assumptions C49_pos_inf_refuted.
(** A present NaN is taken for a missing value. *)
Theorem C49_nan_refuted : exists vs, wrong TF32 (one_split (SetF32 0 vs true)) (float_row S754_nan) 10 20.
Proof. exists [half; one]. show_wrong. Qed.
Print Assumptions C49_nan_refuted.
(** The sum of two large integers is undefined. *)
Theorem C49_int_overflow_refuted : exists (t : tree Z) req b, from_trees no_others [t] = inr req /\ proper t /\ single_input no_others t 0 TI64 /\
  (exists vs, t = one_split (SetI64 0 vs false) /\ NoDup vs /\ forall v, In v vs -> (i64_min <= v <= i64_max)%Z) /\
  si_calls 1 [{| sc_group := 0; sc_tree := t; sc_input := 0; sc_type := TI64 |}] = Some b /\
  si_build Z ref_lib no_others (naive_internal zops no_others 5) [TI64] b = Some None.
Proof.
  exists (one_split (SetI64 0 [2 ^ 62; 2 ^ 62 + 1]%Z false)). do 2 eexists. split; [reflexivity|].
  split; [split; [repeat constructor; cbn; intuition discriminate|cbn; intuition discriminate]|]. split; [intros n [<-|[]]; reflexivity|].
  split; [eexists; split; [reflexivity|]; split; [repeat constructor; cbn; intuition discriminate|intros v [<-|[<-|[]]]; split; discriminate]|].
  split; [reflexivity|]. vm_compute. reflexivity.
Qed.
Print Assumptions C49_int_overflow_refuted.
(** A custom condition over one optional float makes Build fail, although it can be
    evaluated. *)
Theorem C49_custom_refuted : exists ot (t : tree Z) req b, from_trees ot [t] = inr req /\ proper t /\ single_input ot t 0 TF32 /\
  (forall fr, exists v, naive zops ot fr 5 every_tree [t] = Done v) /\
  si_calls 1 [{| sc_group := 0; sc_tree := t; sc_input := 0; sc_type := TF32 |}] = Some b /\
  si_build Z ref_lib ot (naive_internal zops ot 5) [TF32] b = None.
Proof.
  exists {| o_eval := fun _ _ => true; o_sig := fun _ => [(0, TF32)] |}, (one_split (Other 7)). do 2 eexists. split; [reflexivity|].
  split; [split; [repeat constructor; cbn; intuition discriminate|cbn; intuition discriminate]|]. split; [intros n [<-|[]]; reflexivity|].
  split; [intros fr; eexists; reflexivity|]. split; reflexivity.
Qed.
Print Assumptions C49_custom_refuted.

(** Three trees of two inputs in two groups. *)
Definition float_tree : tree Z :=
  {| t_nodes := [{| n_false := (-2)%Z; n_true := 1%Z; n_cond := Interval 0 half finf |};
                 {| n_false := (-1)%Z; n_true := (-3)%Z; n_cond := Interval 0 fninf one |}];
     t_adj := [10; 20; 30]%Z; t_weight := 2%Z; t_step := 0%Z; t_sub := 0%Z |}.
Definition int_tree : tree Z := one_split (SetI64 1 [3; 7; 5]%Z true).
Definition calls49 : list (scall Z) :=
  [{| sc_group := 1; sc_tree := float_tree; sc_input := 0; sc_type := TF32 |};
   {| sc_group := 0; sc_tree := int_tree; sc_input := 1; sc_type := TI64 |};
   {| sc_group := 1; sc_tree := one_split (SetF32 0 [one] false); sc_input := 0; sc_type := TF32 |};
   {| sc_group := 1; sc_tree := int_tree; sc_input := 1; sc_type := TI64 |}].
Definition three_quarters : f32 := S754_finite false 12582912 (-24).
Definition run49 (fr : frame) (out : list Z) : option (list Z) :=
  match si_calls 2 calls49 with
  | Some b => match si_build Z ref_lib no_others (naive_internal zops no_others 5) [TF32; TI64] b with
              | Some (Some e) => si_eval Z zops ref_lib e fr out
              | _ => None
              end
  | None => None
  end.
Example C49_ex :
  (exists req, from_trees no_others (map sc_tree calls49) = inr req) /\
  (forall c, In c calls49 -> sc_group c < 2 /\ proper (sc_tree c) /\ (sc_type c = TF32 \/ sc_type c = TI64) /\
     single_input no_others (sc_tree c) (sc_input c) (sc_type c) /\ nth_error [TF32; TI64] (sc_input c) = Some (sc_type c) /\
     forall nd, In nd (t_nodes (sc_tree c)) -> cond_fine (n_cond nd)) /\
  run49 {| in_f32 := fun _ => Some three_quarters; in_i64 := fun _ => Some 4%Z |} [1; 0]%Z = Some [11; 80]%Z /\
  run49 {| in_f32 := fun _ => Some one; in_i64 := fun _ => Some 5%Z |} [1; 0]%Z = Some [21; 100]%Z /\
  run49 {| in_f32 := fun _ => Some finf; in_i64 := fun _ => None |} [1; 0]%Z = Some [21; 50]%Z /\
  run49 {| in_f32 := fun _ => Some fninf; in_i64 := fun _ => Some (- 2 ^ 63)%Z |} [1; 0]%Z = Some [11; 60]%Z.
Proof.
  split; [eexists; reflexivity|]. split.
  - intros c C. repeat (destruct C as [<-|C]); [..|destruct C];
      (split; [cbn; lia|]; split; [split; [repeat constructor; cbn; intuition discriminate|cbn; intuition discriminate]|]; split; [cbn; tauto|];
       split; [intros n N; repeat (destruct N as [<-|N]; [reflexivity|]); destruct N|]; split; [reflexivity|]).
    + intros nd [<-|[<-|[]]]; cbn; repeat split; auto; right; split; reflexivity.
    + intros nd [<-|[]]; cbn. split; [repeat constructor; cbn; intuition discriminate|]. intros v [<-|[<-|[<-|[]]]]; lia.
    + intros nd [<-|[]]; cbn. intros v [<-|[]]. split; reflexivity.
    + intros nd [<-|[]]; cbn. split; [repeat constructor; cbn; intuition discriminate|]. intros v [<-|[<-|[<-|[]]]]; lia.
  - repeat split; vm_compute; reflexivity.
Qed.
