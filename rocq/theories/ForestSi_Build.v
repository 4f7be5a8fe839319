(** Building and evaluating the piecewise constant functions of all groups. *)
From Coq Require Import Permutation.
From Verif Require Import Base Forest_Model Forest_Spec Forest_Proofs Forest_Props FullAcc_Spec ForestBm_Model ForestBm_Spec ForestBm_Proofs
  ForestSi_Model ForestSi_Spec ForestSi_Proofs ForestSi_Inst.

(** ** Values of trees. *)
Section values.
Context {V : Type} (vo : vops V) (ot : others).
Definition has_value (fr : frame) (t : tree V) (v : V) : Prop := exists d, is_tree t d /\ tree_value vo ot fr t d = Some v.

Lemma deval_ext fr fr' (t : tree V) id d : unfolds (t_nodes t) id d ->
  (forall n, In n (t_nodes t) -> ceval ot fr (n_cond n) = ceval ot fr' (n_cond n)) -> deval ot fr d = deval ot fr' d.
Proof.
  intros U H. induction U as [id|k n f t2 E U1 IH1 U2 IH2]; [reflexivity|]. cbn. rewrite (H n (nth_error_In _ _ E)), IH1, IH2. reflexivity.
Qed.
Lemma has_value_ext fr fr' t v : (forall n, In n (t_nodes t) -> ceval ot fr (n_cond n) = ceval ot fr' (n_cond n)) ->
  has_value fr t v -> has_value fr' t v.
Proof.
  intros H (d & It & E). exists d. split; [exact It|]. unfold tree_value in *. rewrite <- (deval_ext fr fr' t _ d It H). exact E.
Qed.
Lemma every_selects (t : tree V) : (0 <= t_step t)%Z -> selects every_tree t = true.
Proof. intros H. unfold selects, tfilter_ok, every_tree. cbn. destruct (Z.leb_spec 0 (t_step t)); [reflexivity|lia]. Qed.
Lemma values_all fr ts vs : (forall t, In t ts -> (0 <= t_step t)%Z) -> values vo ot fr every_tree ts vs -> Forall2 (has_value fr) ts vs.
Proof.
  intros St H. induction H as [|t ts vs S _ IH|t ts vs d v S It E _ IH].
  - constructor.
  - rewrite every_selects in S by (apply St; left; reflexivity). discriminate.
  - constructor; [exists d; auto|apply IH; intros t' T; apply St; right; exact T].
Qed.
Lemma forall2_ext {A B} (P Q : A -> B -> Prop) l l' : (forall x y, In x l -> P x y -> Q x y) -> Forall2 P l l' -> Forall2 Q l l'.
Proof.
  intros H F. induction F as [|x y l l' X F IH]; constructor; [apply H; [left; reflexivity|exact X]|apply IH; intros a b A'; apply H; right; exact A'].
Qed.
Lemma forall2_perm {A B} (P : A -> B -> Prop) l l2 : Permutation l l2 -> forall l', Forall2 P l l' -> exists l2', Forall2 P l2 l2' /\ Permutation l' l2'.
Proof.
  intros Q. induction Q as [|x l l2 Q IH|x y l|l l2 l3 Q1 IH1 Q2 IH2]; intros l' F.
  - inversion F. exists []. split; constructor.
  - inversion F as [|? b ? m X F']; subst. destruct (IH m F') as (m2 & F2 & Q2). exists (b :: m2). split; [constructor; assumption|apply perm_skip; exact Q2].
  - inversion F as [|? b ? m X F']; subst. inversion F' as [|? c ? k Y F'']; subst. exists (c :: b :: k). split; [repeat constructor; assumption|apply perm_swap].
  - destruct (IH1 l' F) as (m & Fm & Qm). destruct (IH2 m Fm) as (m2 & F2 & Q2'). exists m2. split; [exact F2|etransitivity; eassumption].
Qed.
Lemma from_trees_sub (ts : list (tree V)) us req : from_trees ot ts = inr req -> (forall u, In u us -> In u ts) -> exists req', from_trees ot us = inr req'.
Proof.
  intros E H. apply C46_accepts. destruct (proj1 (C46_accepts V ot ts) (ex_intro _ req E)) as [ty Ty]. exists ty. intros t T. apply Ty, H, T.
Qed.
Lemma from_trees_step (ts : list (tree V)) req t : from_trees ot ts = inr req -> In t ts -> (0 <= t_step t)%Z.
Proof. intros E H. destruct (proj1 (C46_accepts V ot ts) (ex_intro _ req E)) as [ty Ty]. apply Ty. exact H. Qed.
End values.

Section build.
Context {V : Type} (vo : vops V) (lib : library) (L : lib_ok lib) (ot : others).
Variable internal : list (tree V) -> list ity -> option (frame -> option V).
Variable pool : list (tree V).
Hypothesis Int : internal_ok vo ot cond_fine pool internal.
(** Rows for which the conditions of the trees are evaluated like this. *)
Definition rows (ts : list (tree V)) (fr : frame) : Prop := row_ok fr /\ forall t n, In t ts -> In n (t_nodes t) -> nan_ok fr (n_cond n).

Section typed.
Context {T : Type} (nm : num T) (good pt inp : T -> Prop) (I : inst_ok nm good pt inp).
(** What the trees of one input satisfy. *)
Record entry_ok (i : nat) (ts : list (tree V)) : Prop := {
  eo_acc : exists req, from_trees ot ts = inr req;
  eo_in : forall t, In t ts -> In t pool;
  eo_proper : forall t, In t ts -> proper t;
  eo_single : forall t, In t ts -> single_input ot t i (n_type nm);
  eo_fine : forall t n, In t ts -> In n (t_nodes t) -> cond_fine (n_cond n) }.

Lemma all_points_ok i cs : (forall c, In c cs -> csig ot c = [(i, n_type nm)] /\ cond_fine c) ->
  exists l, all_points nm cs = Some l /\ (forall p, In p l -> pt p) /\
  forall c ps, In c cs -> n_points nm c = Some ps -> forall p, In p ps -> In p l.
Proof.
  induction cs as [|c r IH]; intros H; [exists []; split; [reflexivity|split; [intros p []|intros c ps []]]|].
  destruct IH as (l & E & P & K); [intros c' C; apply H; right; exact C|].
  destruct (H c (or_introl eq_refl)) as [S F]. destruct (io_cond _ _ _ _ I ot c i S F) as (ps & Ep & Pp & _).
  exists (ps ++ l). cbn. rewrite Ep. cbn [bind]. rewrite E. split; [reflexivity|]. split.
  - intros p X. apply in_app_iff in X. destruct X as [X|X]; auto.
  - intros c' ps' [<-|C] E' p X; apply in_app_iff; [left; congruence|right; eapply K; eassumption].
Qed.

Lemma pce_ok i ts : entry_ok i ts -> exists p, pce_build V lib ot internal nm ts i = Some (Some p) /\
  forall fr, rows ts fr -> exists vs y, pce_eval V lib nm p (n_read nm fr i) = Some y /\ Forall2 (has_value vo ot fr) ts vs /\ sum_of vo vs y.
Proof.
  intros [[req Acc] In_ Pr Si Fi].
  assert (Cs : forall c, In c (map n_cond (flat_map t_nodes ts)) -> csig ot c = [(i, n_type nm)] /\ cond_fine c).
  { intros c C. apply in_map_iff in C. destruct C as (n & <- & C). apply in_flat_map in C. destruct C as (t & Tt & C). split; [exact (Si t Tt n C)|exact (Fi t n Tt C)]. }
  destruct (all_points_ok i _ Cs) as (l & El & Pl & Kl).
  destruct (points_ok nm good pt inp (io_num _ _ _ _ I) lib L l Pl) as (Inc & Ppt & Same). cbv zeta in Inc, Ppt, Same.
  assert (Sl : validate_slots req (repeat (n_type nm) (S i)) = true).
  { apply (validate_slots_iff ot ts req _ Acc). intros j k (t & n & Tt & Nn & X). rewrite (Si t Tt n Nn) in X. destruct X as [[= <- <-]|[]]. apply nth_error_repeat. lia. }
  destruct (Int ts _ req Acc Sl In_ Pr Fi) as (ev & Ei & Hev).
  assert (Tot : forall x, exists y, ev (n_frame nm x) = Some y) by (intros x; destruct (Hev (n_frame nm x)) as (vs & y & _ & Y & _); eauto).
  destruct (table_ok nm good pt inp (io_num _ _ _ _ I) lib L (fun x => ev (n_frame nm x)) Tot _ Inc Ppt) as (p & Et & Miss & Cell).
  exists p. unfold pce_build, split_points. rewrite El. cbn [bind]. rewrite Acc, Ei, Et. split; [reflexivity|].
  intros fr [Rk Nk].
  (* the frame of the representative *)
  assert (Rep : exists x, pce_eval V lib nm p (n_read nm fr i) = ev (n_frame nm x) /\ forall c, In c (map n_cond (flat_map t_nodes ts)) -> ceval ot (n_frame nm x) c = ceval ot fr c).
  { assert (Q : match n_read nm fr i with None => True | Some v => n_nan nm v = true end \/ exists v, n_read nm fr i = Some v /\ n_nan nm v = false).
    { destruct (n_read nm fr i) as [v|]; [|left; exact Logic.I]. destruct (n_nan nm v) eqn:E; [left; reflexivity|right; exists v; auto]. }
    destruct Q as [Q|(v & Rv & Nv)].
    - exists None. split; [apply Miss; exact Q|]. intros c C. symmetry. destruct (Cs c C) as [S F]. apply (io_miss _ _ _ _ I ot c i); auto.
      apply in_map_iff in C. destruct C as (n & <- & C). apply in_flat_map in C. destruct C as (t & Tt & C). exact (Nk t n Tt C).
    - destruct (Cell v (io_row _ _ _ _ I fr i v Rk Rv) Nv) as (w & Gw & Sc & E). exists (Some w). rewrite Rv. split; [exact E|].
      intros c C. destruct (Cs c C) as [S F]. destruct (io_cond _ _ _ _ I ot c i S F) as (ps & Ep & Pp & Hc). symmetry.
      apply (Hc fr (n_frame nm (Some w)) v w Rv (io_frame _ _ _ _ I _ _) Nv Gw).
      intros q Hq. apply (Same v w (no_good _ _ _ _ (io_num _ _ _ _ I) v Nv) Gw Sc). exact (Kl c ps C Ep q Hq). }
  destruct Rep as (x & E & Cx). destruct (Hev (n_frame nm x)) as (vs & y & Vs & Y & Sm). exists vs, y. rewrite E. split; [exact Y|]. split; [|exact Sm].
  apply values_all in Vs; [|intros t Tt; exact (from_trees_step ot ts req t Acc Tt)]. eapply forall2_ext; [|exact Vs]. intros t v Tt Hv.
  eapply has_value_ext; [|exact Hv]. intros n Nn. apply Cx. apply in_map_iff. exists n. split; [reflexivity|]. apply in_flat_map. eauto.
Qed.

Lemma vector_ok slots m : (forall i ts, In (i, ts) m -> entry_ok i ts /\ nth_error slots i = Some (n_type nm)) ->
  exists ps, build_vector V lib ot internal nm slots m = Some (Some ps) /\
  forall fr, rows (flat_map snd m) fr -> forall l0 a, sum_of vo l0 a -> exists vs y, add_all V vo lib nm ps fr a = Some y /\ Forall2 (has_value vo ot fr) (flat_map snd m) vs /\ sum_of vo (l0 ++ vs) y.
Proof.
  induction m as [|[i ts] r IH]; intros H.
  - exists []. split; [reflexivity|]. intros fr _ l0 a S. exists [], a. split; [reflexivity|]. split; [constructor|]. rewrite app_nil_r. exact S.
  - destruct IH as (ps & E & K); [intros j us J; apply H; right; exact J|]. destruct (H i ts (or_introl eq_refl)) as [Eo Sl].
    destruct (pce_ok i ts Eo) as (p & Ep & Kp). exists ((i, p) :: ps). cbn [build_vector]. unfold rd. rewrite Sl.
    rewrite (proj2 (ity_eqb_eq _ _) eq_refl), Ep. cbn [sbind]. rewrite E. split; [reflexivity|].
    intros fr [Rk Nk] l0 a S. cbn [flat_map snd] in Nk. destruct (Kp fr) as (vs & y & Ey & Fv & Sv).
    { split; [exact Rk|]. intros t n Tt. apply Nk. apply in_app_iff. left. exact Tt. }
    destruct (K fr) with (l0 := l0 ++ vs) (a := vadd vo a y) as (ws & z & Ez & Fw & Sw).
    { split; [exact Rk|]. intros t n Tt. apply Nk. apply in_app_iff. right. exact Tt. }
    { apply sum_add; assumption. }
    exists (vs ++ ws), z. cbn [add_all]. rewrite Ey. cbn [bind]. rewrite Ez. split; [reflexivity|]. split; [apply Forall2_app; assumption|]. rewrite app_assoc. exact Sw.
Qed.
End typed.

(** ** The groups of the builder. *)
Definition upsert_perm (i : nat) (t : tree V) (m : list (nat * list (tree V))) :
  Permutation (flat_map snd (upsert i [] (fun l => l ++ [t]) m)) (flat_map snd m ++ [t]).
Proof.
  induction m as [|[j ts] r IH]; cbn [upsert flat_map snd]; [reflexivity|]. destruct (i =? j); cbn [flat_map snd].
  - rewrite <- !app_assoc. apply Permutation_app_head. apply Permutation_app_comm.
  - rewrite <- app_assoc. apply Permutation_app_head. exact IH.
Qed.
Lemma upsert_in i (t : tree V) m j ts : In (j, ts) (upsert i [] (fun l => l ++ [t]) m) ->
  forall u, In u ts -> (u = t /\ j = i) \/ exists ts', In (j, ts') m /\ In u ts'.
Proof.
  induction m as [|[k us] r IH]; cbn [upsert].
  - intros [[= <- <-]|[]] u [<-|[]]. left. auto.
  - destruct (Nat.eqb_spec i k) as [->|Ne].
    + intros [[= <- <-]|H] u U.
      * apply in_app_iff in U. destruct U as [U|[<-|[]]]; [right; exists us; split; [left; reflexivity|exact U]|left; auto].
      * right. exists ts. split; [right; exact H|exact U].
    + intros [[= <- <-]|H] u U; [right; exists us; split; [left; reflexivity|exact U]|].
      destruct (IH H u U) as [X|(ts' & X & Y)]; [left; exact X|right; exists ts'; split; [right; exact X|exact Y]].
Qed.
Definition of_kind (g : nat) (ty : ity) (c : scall V) : bool := (sc_group c =? g) && ity_eqb (sc_type c) ty.
Definition map_ok (g : nat) (ty : ity) (cs : list (scall V)) (m : list (nat * list (tree V))) : Prop :=
  Permutation (flat_map snd m) (map sc_tree (filter (of_kind g ty) cs)) /\
  (forall i ts, In (i, ts) m -> ts <> []) /\
  forall i ts t, In (i, ts) m -> In t ts -> exists c, In c cs /\ sc_tree c = t /\ sc_input c = i /\ sc_type c = ty.
Lemma upsert_nonempty i (t : tree V) m : (forall i ts, In (i, ts) m -> ts <> []) ->
  forall j ts, In (j, ts) (upsert i [] (fun l => l ++ [t]) m) -> ts <> [].
Proof.
  induction m as [|[k us] r IH]; cbn [upsert]; intros H j ts.
  - intros [[= <- <-]|[]]. discriminate.
  - destruct (i =? k).
    + intros [[= <- <-]|X]; [destruct us; discriminate|exact (H j ts (or_intror X))].
    + intros [[= <- <-]|X]; [exact (H k us (or_introl eq_refl))|]. apply (IH (fun a b c => H a b (or_intror c)) j ts X).
Qed.
Lemma map_ok_skip g ty cs c m : of_kind g ty c = false -> map_ok g ty cs m -> map_ok g ty (cs ++ [c]) m.
Proof.
  intros K [P [Ne Q]]. split; [|split; [exact Ne|]].
  - rewrite filter_app. cbn [filter]. rewrite K, app_nil_r. exact P.
  - intros i ts t A B. destruct (Q i ts t A B) as (c' & C & X). exists c'. split; [apply in_app_iff; left; exact C|exact X].
Qed.
Lemma map_ok_add g ty cs c m : of_kind g ty c = true -> map_ok g ty cs m ->
  map_ok g ty (cs ++ [c]) (upsert (sc_input c) [] (fun l => l ++ [sc_tree c]) m).
Proof.
  intros K [P [Ne Q]]. split; [|split; [apply upsert_nonempty; exact Ne|]].
  - rewrite filter_app. cbn [filter]. rewrite K, map_app, upsert_perm. apply Permutation_app_tail. exact P.
  - intros i ts t A B. destruct (upsert_in _ _ _ _ _ A t B) as [[-> ->]|(ts' & A' & B')].
    + exists c. split; [apply in_app_iff; right; left; reflexivity|]. unfold of_kind in K. apply andb_true_iff in K. destruct K as [_ K]. apply ity_eqb_eq in K. auto.
    + destruct (Q i ts' t A' B') as (c' & C & X). exists c'. split; [apply in_app_iff; left; exact C|exact X].
Qed.
Lemma kind_true g ty c : of_kind g ty c = true <-> sc_group c = g /\ sc_type c = ty.
Proof. unfold of_kind. rewrite andb_true_iff, Nat.eqb_eq, ity_eqb_eq. tauto. Qed.
Lemma kind_false g ty c : of_kind g ty c = false <-> ~ (sc_group c = g /\ sc_type c = ty).
Proof. rewrite <- kind_true. destruct (of_kind g ty c); split; congruence. Qed.

Lemma calls_builder n cs : (forall c, In c cs -> sc_group c < n /\ (sc_type c = TF32 \/ sc_type c = TI64)) ->
  exists b, si_calls n cs = Some b /\ length b = n /\
  forall g pg, nth_error b g = Some pg -> map_ok g TF32 cs (pg_f V pg) /\ map_ok g TI64 cs (pg_i V pg).
Proof.
  induction cs as [|c cs IH] using rev_ind; intros H.
  - exists (si_new V n). split; [reflexivity|]. split; [apply repeat_length|]. intros g pg G. apply nth_error_In, repeat_spec in G. subst pg. cbn. split; (split; [constructor|split; [intros i ts []|intros i ts t []]]).
  - destruct IH as (b & E & Ln & K); [intros x X; apply H; apply in_app_iff; left; exact X|].
    destruct (H c) as [Hg Ht]; [apply in_app_iff; right; left; reflexivity|].
    unfold si_calls in *. rewrite fold_left_app, E. cbn [fold_left bind]. unfold si_add. cbn [fst snd].
    destruct (nth_error b (sc_group c)) as [pg|] eqn:Eg; [|apply nth_error_None in Eg; lia]. unfold rd. rewrite Eg. cbn [bind].
    destruct (K _ _ Eg) as [Kf Ki].
    assert (U : forall pg', exists b', upd b (sc_group c) pg' = Some b') by (intros pg'; destruct (upd b (sc_group c) pg') as [b'|] eqn:X; [eauto|]; apply upd_None in X; lia).
    destruct Ht as [Ht|Ht]; rewrite Ht.
    + destruct (U {| pg_f := upsert (sc_input c) [] (fun l => l ++ [sc_tree c]) (pg_f V pg); pg_i := pg_i V pg |}) as [b' Eb]. exists b'. split; [exact Eb|].
      destruct (upd_spec _ _ _ _ Eb) as (_ & Lb & Nb). split; [rewrite Lb; exact Ln|]. intros g pg' G. rewrite Nb in G.
      destruct (Nat.eq_dec g (sc_group c)) as [->|Ne].
      * rewrite ?Nat.eqb_refl in G. injection G as <-. cbn. split; [apply map_ok_add; [apply kind_true; auto|exact Kf]|apply map_ok_skip; [apply kind_false; intros [_ X]; congruence|exact Ki]].
      * apply Nat.eqb_neq in Ne. rewrite ?Ne, ?(Nat.eqb_sym _ g), ?Ne in G. destruct (K g pg' G) as [A B]. apply Nat.eqb_neq in Ne.
        split; apply map_ok_skip; try assumption; apply kind_false; intros [X _]; congruence.
    + destruct (U {| pg_f := pg_f V pg; pg_i := upsert (sc_input c) [] (fun l => l ++ [sc_tree c]) (pg_i V pg) |}) as [b' Eb]. exists b'. split; [exact Eb|].
      destruct (upd_spec _ _ _ _ Eb) as (_ & Lb & Nb). split; [rewrite Lb; exact Ln|]. intros g pg' G. rewrite Nb in G.
      destruct (Nat.eq_dec g (sc_group c)) as [->|Ne].
      * rewrite ?Nat.eqb_refl in G. injection G as <-. cbn. split; [apply map_ok_skip; [apply kind_false; intros [_ X]; congruence|exact Kf]|apply map_ok_add; [apply kind_true; auto|exact Ki]].
      * apply Nat.eqb_neq in Ne. rewrite ?Ne, ?(Nat.eqb_sym _ g), ?Ne in G. destruct (K g pg' G) as [A B]. apply Nat.eqb_neq in Ne.
        split; apply map_ok_skip; try assumption; apply kind_false; intros [X _]; congruence.
Qed.

(** ** All groups. *)
Definition group_trees (pg : pergroup V) : list (tree V) := flat_map snd (l_iter lib _ (pg_f V pg)) ++ flat_map snd (l_iter lib _ (pg_i V pg)).
Lemma groups_ok slots b :
  (forall pg, In pg b -> (forall i ts, In (i, ts) (l_iter lib _ (pg_f V pg)) -> entry_ok f32_num i ts /\ nth_error slots i = Some TF32) /\
                         (forall i ts, In (i, ts) (l_iter lib _ (pg_i V pg)) -> entry_ok i64_num i ts /\ nth_error slots i = Some TI64)) ->
  exists e, si_build V lib ot internal slots b = Some (Some e) /\
  forall fr out, rows (flat_map group_trees b) fr -> length out = length b ->
  exists out', si_eval V vo lib e fr out = Some out' /\ length out' = length b /\
  forall g pg x, nth_error b g = Some pg -> nth_error out g = Some x ->
    exists y vs, nth_error out' g = Some y /\ Forall2 (has_value vo ot fr) (group_trees pg) vs /\ sum_of vo (x :: vs) y.
Proof.
  induction b as [|pg r IH]; intros H.
  - exists []. split; [reflexivity|]. intros fr [|x out] _ Lo; [|discriminate]. exists []. split; [reflexivity|]. split; [reflexivity|]. intros [|g] pg x; discriminate.
  - destruct IH as (e & E & K); [intros pg' P; apply H; right; exact P|]. destruct (H pg (or_introl eq_refl)) as [Hf Hi].
    destruct (vector_ok f32_num _ _ _ f32_inst slots _ Hf) as (fs & Ef & Kf). destruct (vector_ok i64_num _ _ _ i64_inst slots _ Hi) as (is & Ei & Ki).
    exists ((fs, is) :: e). cbn [si_build]. rewrite Ef. cbn [sbind]. rewrite Ei. cbn [sbind]. rewrite E. split; [reflexivity|].
    intros fr [|x out] [Rk Nk] Lo; [discriminate|]. cbn [flat_map] in Nk. unfold group_trees at 1 in Nk.
    destruct (Kf fr) with (l0 := @nil V) (a := vzero vo) as (vs & a & Ea & Fa & Sa); [split; [exact Rk|]; intros t n T; apply Nk; rewrite !in_app_iff; tauto|apply sum_zero|].
    destruct (Ki fr) with (l0 := @nil V ++ vs) (a := a) as (ws & c & Ec & Fc & Sc); [split; [exact Rk|]; intros t n T; apply Nk; rewrite !in_app_iff; tauto|exact Sa|].
    destruct (K fr out) as (out' & Eo & Lo' & G); [split; [exact Rk|]; intros t n T; apply Nk; rewrite !in_app_iff; tauto|cbn in Lo; lia|].
    exists (vrnd vo (vadd vo x c) :: out'). cbn [si_eval]. rewrite Ea. cbn [bind]. rewrite Ec. cbn [bind]. rewrite Eo. split; [reflexivity|]. split; [cbn; lia|].
    intros [|g] pg' x'; cbn; [|apply G]. intros [= <-] [= <-]. eexists. exists (vs ++ ws). split; [reflexivity|]. split; [apply Forall2_app; assumption|].
    apply sum_rnd. apply (sum_add vo [x]); [apply sum_one|exact Sc].
Qed.
End build.
