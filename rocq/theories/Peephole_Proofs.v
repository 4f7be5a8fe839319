(** Proofs about compiled patterns. *)
From Verif Require Import Base Visit_Model Visit_Spec Visit_Proofs VisitOrder_Proofs Peephole_Model Peephole_Spec.

Lemma str_spec a b : reflect (a = b) (str_eqb a b).
Proof. apply iff_reflect. symmetry. apply nats_eq. Qed.
Definition of_conds (cs : conds) : matchers := map (fun c => (fst c, Some (snd c))) cs.
Lemma find_of (cs : conds) k : NoDup (map fst cs) ->
  match find_m (of_conds cs) k with Some (Some c) => In (k, c) cs /\ (forall c', In (k, c') cs -> c' = c) | Some None => False | None => forall c, ~ In (k, c) cs end.
Proof.
  induction cs as [|[k' c] cs IH]; cbn [of_conds map find_m fst snd]; intros N; [intros c []|]. inversion N as [|? ? N1 N2]; subst. fold (of_conds cs) in *.
  destruct (str_spec k' k) as [->|Nk].
  - split; [left; reflexivity|]. intros c' [H|H]; [congruence|]. exfalso. apply N1, (in_map fst _ _ H).
  - specialize (IH N2). destruct (find_m (of_conds cs) k) as [[c0|]|].
    + destruct IH as [I1 I2]. split; [right; exact I1|]. intros c' [H|H]; [congruence|auto].
    + exact IH.
    + intros c' [H|H]; [congruence|]. apply (IH c' H).
Qed.
Lemma find_move ms k k' : k' <> k -> find_m (move_m ms k) k' = find_m ms k'.
Proof.
  intros N. induction ms as [|[q p] ms IH]; [reflexivity|]. cbn [move_m]. destruct (str_spec q k) as [->|Nq]; cbn [find_m].
  - destruct (str_spec k k'); [congruence|reflexivity].
  - rewrite IH. reflexivity.
Qed.

(** ** First places *)
Definition first (M : list node) (j : nat) (n : node) : Prop := nth_error M j = Some n /\ forall j', j' < j -> nth_error M j' <> Some n.
Lemma first_fun M j j' n : first M j n -> first M j' n -> j = j'.
Proof. intros [A B] [C D]. destruct (Nat.lt_trichotomy j j') as [L|[L|L]]; [apply D in L; contradiction|exact L|apply B in L; contradiction]. Qed.
Lemma first_ex M j n : nth_error M j = Some n -> exists j', first M j' n /\ j' <= j.
Proof.
  revert j. induction M as [|x M IH]; intros [|j] H; try discriminate.
  - exists 0. split; [|lia]. split; [exact H|]. intros; lia.
  - destruct (node_spec x n) as [->|N]; [exists 0; split; [|lia]; split; [reflexivity|intros; lia]|].
    destruct (IH j H) as (j' & [F1 F2] & L). exists (S j'). split; [|lia]. split; [exact F1|]. intros [|q] Q; cbn; [congruence|apply F2; lia].
Qed.
Lemma first_app M ds j n : first M j n -> first (M ++ ds) j n.
Proof.
  intros [A B]. assert (L : j < length M) by (apply nth_error_Some; congruence). split; [rewrite nth_error_app1 by exact L; exact A|].
  intros j' H. rewrite nth_error_app1 by lia. apply B, H.
Qed.
Lemma first_inv M ds j n : first (M ++ ds) j n -> j < length M -> first M j n.
Proof.
  intros [A B] L. rewrite nth_error_app1 in A by exact L. split; [exact A|]. intros j' H. specialize (B j' H). rewrite nth_error_app1 in B by lia. exact B.
Qed.

Section Compile.
Context {E : Type}.
Variable dname : nat -> list nat.

(** The pattern memory grows by the arguments of unfolded operators. *)
Inductive unf (from : node) : list (nat * nat * list nat) -> list node -> Prop :=
  | unf_nil : unf from [] [from]
  | unf_snoc us M j o a ds : unf from us M -> nth_error M j = Some (Op o a ds) -> unf from (us ++ [(j, length ds, dname o)]) (M ++ ds).
Lemma unf_sub from us M : unf from us M -> forall n, In n M -> sub n from.
Proof.
  induction 1 as [|us M j o a ds U IH Ej]; intros n H; [destruct H as [->|[]]; constructor|]. apply in_app_iff in H as [H|H]; [apply IH, H|].
  apply nth_error_In, IH in Ej. apply (sub_trans n (Op o a ds)); [|exact Ej]. apply (sub_dep n _ n); [exact H|constructor].
Qed.

Lemma unf_from from us M : unf from us M -> In from M.
Proof. induction 1; [left; reflexivity|]. apply in_app_iff. left. assumption. Qed.

Record inv (from : node) (cs : conds) (st : cst) (i : nat) : Prop := mkInv {
  v_unf : unf from (pl_unfold (c_plan st)) (c_mem st);
  v_le : i <= length (c_mem st);
  v_fps : forall n j, find_fp (c_fps st) n = Some j <-> first (c_mem st) j n /\ j < i;
  v_un : forall j o a ds, first (c_mem st) j (Op o a ds) -> j < i -> In (j, length ds, dname o) (pl_unfold (c_plan st)) /\ exists b, forall q d, nth_error ds q = Some d -> nth_error (c_mem st) (b + q) = Some d;
  v_fix : forall j n, In (j, n) (pl_fixed (c_plan st)) <-> (exists v, n = Lit v) /\ first (c_mem st) j n /\ j < i;
  v_same : forall j j', In (j, j') (pl_same (c_plan st)) <-> exists n, nth_error (c_mem st) j = Some n /\ first (c_mem st) j' n /\ j' < j /\ j < i;
  v_pred : forall j m, In (j, m) (pl_preds (c_plan st)) <-> exists k c, m = Some c /\ In (k, c) cs /\ first (c_mem st) j (Plh k) /\ j < i;
  v_ms : forall k, find_fp (c_fps st) (Plh k) = None -> find_m (c_ms st) k = find_m (of_conds cs) k;
  v_leaf : forall j k, j < i -> nth_error (c_mem st) j <> Some (Leaf k)
}.
Lemma inv_init from cs : inv from cs (mkC [from] [] (of_conds cs) (mkPlan [] [] [] [] 0)) 0.
Proof.
  constructor; cbn [c_mem c_fps c_ms c_plan pl_unfold pl_fixed pl_same pl_preds find_fp].
  - constructor.
  - lia.
  - intros n j. split; [discriminate|intros [_ H]; lia].
  - intros j o a ds _ H. lia.
  - intros j n. cbn. split; [intros []|intros (_ & _ & H); lia].
  - intros j j'. cbn. split; [intros []|intros (n & _ & _ & _ & H); lia].
  - intros j m. cbn. split; [intros []|intros (k & c & _ & _ & _ & H); lia].
  - reflexivity.
  - intros j k H. lia.
Qed.
Lemma lt_S_cases j i : j < S i -> j < i \/ j = i. Proof. lia. Qed.
Lemma lt_lt_S j i : j < i -> j < S i. Proof. lia. Qed.
Lemma node_eqb_find fps x i n : find_fp ((x, i) :: fps) n = if node_eqb x n then Some i else find_fp fps n.
Proof. reflexivity. Qed.
Section Step.
Variables (from : node) (cs : conds) (st : cst) (i : nat) (n : node).
Hypothesis V : inv from cs st i.
Hypothesis Nd : NoDup (map fst cs).
Hypothesis En : nth_error (c_mem st) i = Some n.
Lemma step_known j : find_fp (c_fps st) n = Some j -> inv from cs (mkC (c_mem st) (c_fps st) (c_ms st) (add_same i j (c_plan st))) (S i).
Proof.
  intros F. pose proof (proj1 (v_fps _ _ _ _ V n j) F) as [Fj Lj]. assert (Li : i < length (c_mem st)) by (apply nth_error_Some; congruence).
  assert (NF : forall q m, first (c_mem st) q m -> q < S i -> q < i).
  { intros q m Fq L. apply lt_S_cases in L as [L| ->]; [exact L|]. destruct Fq as [A B]. assert (m = n) by congruence. subst m. exfalso. apply (B j Lj), Fj. }
  constructor; cbn [c_mem c_fps c_ms c_plan add_same pl_unfold pl_fixed pl_same pl_preds].
  - apply (v_unf _ _ _ _ V).
  - lia.
  - intros m q. rewrite (v_fps _ _ _ _ V m q). split; intros [A B]; (split; [exact A|]); [lia|eauto].
  - intros q o a ds A B. apply (v_un _ _ _ _ V q o a ds A (NF _ _ A B)).
  - intros q m. rewrite (v_fix _ _ _ _ V q m). split; intros (A & B & C); (split; [exact A|split; [exact B|]]); [lia|eauto].
  - intros q q'. rewrite in_app_iff, (v_same _ _ _ _ V q q'). cbn [In]. split.
    + intros [(m & A & B & C & D)|[H|[]]]; [exists m; auto using lt_lt_S|]. injection H as <- <-. exists n. split; [exact En|]. split; [exact Fj|]. split; [exact Lj|lia].
    + intros (m & A & B & C & D). apply lt_S_cases in D as [D| ->]; [left; exists m; auto|]. right. left. assert (m = n) by congruence. subst m. rewrite (first_fun _ _ _ _ B Fj). reflexivity.
  - intros q m. rewrite (v_pred _ _ _ _ V q m). split; intros (k & c & A & B & C & D); exists k, c; (split; [exact A|split; [exact B|split; [exact C|]]]); [lia|eauto].
  - apply (v_ms _ _ _ _ V).
  - intros q k L. apply lt_S_cases in L as [L| ->]; [apply (v_leaf _ _ _ _ V q k L)|]. intros H. assert (n = Leaf k) by congruence. subst n. apply (v_leaf _ _ _ _ V j k Lj), Fj.
Qed.
Hypothesis Fn : find_fp (c_fps st) n = None.
Lemma new_first : first (c_mem st) i n.
Proof.
  split; [exact En|]. intros j L H. destruct (first_ex _ _ _ H) as (j' & A & B). assert (X : find_fp (c_fps st) n = Some j') by (apply (v_fps _ _ _ _ V); split; [exact A|lia]). congruence.
Qed.
Lemma new_fps ds m q : find_fp ((n, i) :: c_fps st) m = Some q <-> first (c_mem st ++ ds) q m /\ q < S i.
Proof.
  assert (Li : i < length (c_mem st)) by (apply nth_error_Some; congruence). rewrite node_eqb_find. destruct (node_spec n m) as [<-|N].
  - split; [intros H; injection H as <-; split; [apply first_app, new_first|lia]|]. intros [A _]. f_equal. apply (first_fun _ _ _ _ (first_app _ ds _ _ new_first) A).
  - rewrite (v_fps _ _ _ _ V). split; intros [A B].
    + split; [apply first_app, A|lia].
    + apply first_inv in A; [|lia]. split; [exact A|]. apply lt_S_cases in B as [B| ->]; [exact B|]. destruct A as [A _]. congruence.
Qed.
Lemma step_new ms pl : pl_unfold pl = pl_unfold (c_plan st) -> pl_same pl = pl_same (c_plan st) ->
  (match n with Lit _ => pl_fixed pl = pl_fixed (c_plan st) ++ [(i, n)] | _ => pl_fixed pl = pl_fixed (c_plan st) end) ->
  (match n with
   | Plh k => match find_m (c_ms st) k with Some m => pl_preds pl = pl_preds (c_plan st) ++ [(i, m)] /\ ms = move_m (c_ms st) k | None => pl_preds pl = pl_preds (c_plan st) /\ ms = c_ms st end
   | _ => pl_preds pl = pl_preds (c_plan st) /\ ms = c_ms st end) ->
  is_op n = false -> (forall k, n <> Leaf k) -> inv from cs (mkC (c_mem st) ((n, i) :: c_fps st) ms pl) (S i).
Proof.
  intros Hu Hs Hf Hp No Nl. assert (Li : i < length (c_mem st)) by (apply nth_error_Some; congruence).
  assert (Ap : forall q m, first (c_mem st ++ []) q m <-> first (c_mem st) q m) by (intros; rewrite app_nil_r; tauto).
  constructor; cbn [c_mem c_fps c_ms c_plan].
  - rewrite Hu. apply (v_unf _ _ _ _ V).
  - lia.
  - intros m q. rewrite (new_fps [] m q), Ap. tauto.
  - intros q o a ds A B. rewrite Hu. apply lt_S_cases in B as [B| ->]; [apply (v_un _ _ _ _ V q o a ds A B)|]. destruct A as [A _]. rewrite En in A. injection A as ->. discriminate.
  - intros q m. assert (K : In (q, m) (pl_fixed pl) <-> In (q, m) (pl_fixed (c_plan st)) \/ (q = i /\ m = n /\ exists v, n = Lit v)).
    { destruct n as [v|v|v|o a ds]; rewrite Hf; try (split; [auto|]; intros [H|(-> & -> & v' & H)]; [exact H|discriminate]). rewrite in_app_iff. cbn [In]. split; intros [H|H]; auto.
      - destruct H as [H|[]]. injection H as <- <-. right. eauto.
      - destruct H as (-> & -> & _). right. left. reflexivity. }
    rewrite K, (v_fix _ _ _ _ V q m). split.
    + intros [(A & B & C)|(-> & -> & H)]; [auto using lt_lt_S|]. split; [exact H|]. split; [apply new_first|lia].
    + intros (A & B & C). apply lt_S_cases in C as [C| ->]; [left; auto|right]. destruct B as [B _]. assert (m = n) by congruence. subst m. auto.
  - intros q q'. rewrite Hs, (v_same _ _ _ _ V q q'). split; intros (m & A & B & C & D); exists m; (split; [exact A|split; [exact B|split; [exact C|]]]); [lia|].
    apply lt_S_cases in D as [D| ->]; [exact D|]. exfalso. assert (m = n) by congruence. subst m. pose proof (first_fun _ _ _ _ B new_first). lia.
  - intros q m. assert (K : In (q, m) (pl_preds pl) <-> In (q, m) (pl_preds (c_plan st)) \/ (q = i /\ exists k c, n = Plh k /\ m = Some c /\ In (k, c) cs)).
    { destruct n as [v|v|k|o a ds]; try (destruct Hp as [-> _]; split; [auto|]; intros [H|(-> & k' & c' & H & _)]; [exact H|discriminate]).
      pose proof (v_ms _ _ _ _ V k Fn) as Hm. pose proof (find_of cs k Nd) as Q. rewrite Hm in Hp. destruct (find_m (of_conds cs) k) as [[c|]|].
      - destruct Hp as [-> _]. rewrite in_app_iff. cbn [In]. split; intros [H|H]; auto.
        + destruct H as [H|[]]. injection H as <- <-. right. split; [reflexivity|]. exists k, c. destruct Q; auto.
        + destruct H as (-> & k' & c' & Hk & -> & Hc). injection Hk as <-. right. left. destruct Q as [_ Q]. rewrite (Q c' Hc). reflexivity.
      - contradiction.
      - destruct Hp as [-> _]. split; [auto|]. intros [H|(-> & k' & c' & Hk & -> & Hc)]; [exact H|]. injection Hk as <-. exfalso. apply (Q c' Hc). }
    rewrite K, (v_pred _ _ _ _ V q m). split.
    + intros [(k & c & A & B & C & D)|(-> & k & c & A & B & C)]; [exists k, c; auto using lt_lt_S|]. exists k, c. split; [exact B|]. split; [exact C|]. split; [rewrite <- A; apply new_first|lia].
    + intros (k & c & A & B & C & D). apply lt_S_cases in D as [D| ->]; [left; exists k, c; auto|right]. split; [reflexivity|]. exists k, c. destruct C as [C _]. split; [congruence|auto].
  - intros k. rewrite node_eqb_find. destruct (node_spec n (Plh k)) as [->|Nk]; [discriminate|]. intros F.
    rewrite <- (v_ms _ _ _ _ V k F). destruct n as [v|v|k'|o a ds]; try (destruct Hp as [_ ->]; reflexivity). destruct (find_m (c_ms st) k'); destruct Hp as [_ ->]; [apply find_move; congruence|reflexivity].
  - intros q k L. apply lt_S_cases in L as [L| ->]; [apply (v_leaf _ _ _ _ V q k L)|]. intros H. apply (Nl k). congruence.
Qed.
Lemma step_op o a ds : n = Op o a ds -> inv from cs (mkC (c_mem st ++ ds) ((n, i) :: c_fps st) (c_ms st) (add_unfold i (length ds) (dname o) (c_plan st))) (S i).
Proof.
  intros X. assert (Li : i < length (c_mem st)) by (apply nth_error_Some; congruence).
  assert (Ap : forall q m, q < S i -> (first (c_mem st ++ ds) q m <-> first (c_mem st) q m)) by (intros; split; [intros A; apply (first_inv _ ds); [exact A|lia]|apply first_app]).
  constructor; cbn [c_mem c_fps c_ms c_plan add_unfold pl_unfold pl_fixed pl_same pl_preds].
  - apply unf_snoc with (a := a); [apply (v_unf _ _ _ _ V)|congruence].
  - rewrite app_length. lia.
  - apply new_fps.
  - intros q o' a' ds' A B. apply (Ap q _ B) in A. apply lt_S_cases in B as [B| ->].
    + destruct (v_un _ _ _ _ V q o' a' ds' A B) as (H & b & Hb). split; [apply in_app_iff; auto|]. exists b. intros r d Er. specialize (Hb r d Er). rewrite nth_error_app1; [exact Hb|apply nth_error_Some; congruence].
    + destruct A as [A _]. assert (Op o' a' ds' = Op o a ds) as Y by congruence. injection Y as -> -> ->. split; [apply in_app_iff; right; left; reflexivity|].
      exists (length (c_mem st)). intros r d Er. rewrite nth_error_app2 by lia. replace (_ - _) with r by lia. exact Er.
  - intros q m. rewrite (v_fix _ _ _ _ V q m). split.
    + intros (A & B & C). split; [exact A|]. split; [apply first_app, B|lia].
    + intros (A & B & C). apply (Ap q m C) in B. split; [exact A|]. split; [exact B|]. apply lt_S_cases in C as [C| ->]; [exact C|]. destruct A as [v ->]. destruct B as [B _]. congruence.
  - intros q q'. rewrite (v_same _ _ _ _ V q q'). split; intros (m & A & B & C & D); exists m.
    + split; [rewrite nth_error_app1 by lia; exact A|]. split; [apply first_app, B|]. lia.
    + rewrite nth_error_app1 in A by lia. apply Ap in B; [|lia]. split; [exact A|]. split; [exact B|]. split; [exact C|]. apply lt_S_cases in D as [D| ->]; [exact D|].
      exfalso. assert (m = n) by congruence. subst m. pose proof (first_fun _ _ _ _ B new_first). lia.
  - intros q m. rewrite (v_pred _ _ _ _ V q m). split; intros (k & c & A & B & C & D); exists k, c; (split; [exact A|split; [exact B|]]).
    + split; [apply first_app, C|lia].
    + apply (Ap q _ D) in C. split; [exact C|]. apply lt_S_cases in D as [D| ->]; [exact D|]. destruct C as [C _]. congruence.
  - intros k. rewrite node_eqb_find. destruct (node_spec n (Plh k)) as [->|Nk]; [discriminate|]. apply (v_ms _ _ _ _ V).
  - intros q k L. rewrite nth_error_app1 by lia. apply lt_S_cases in L as [L| ->]; [apply (v_leaf _ _ _ _ V q k L)|]. congruence.
Qed.
End Step.

Lemma skip_nth {A} (l : list A) i x : nth_error l i = Some x -> skipn i l = x :: skipn (S i) l.
Proof. revert i. induction l as [|y l IH]; intros [|i] H; try discriminate; [injection H as ->; reflexivity|]. cbn [skipn]. apply IH, H. Qed.
Definition weight (l : list node) : nat := list_sum (map size l).
Lemma weight_app a b : weight (a ++ b) = weight a + weight b.
Proof. unfold weight. rewrite map_app, list_sum_app. reflexivity. Qed.
(** The loop ends with all places processed, unless the pattern has a leaf. *)
Lemma compile_loop_ok from cs : NoDup (map fst cs) -> (forall k, ~ sub (Leaf k) from) -> forall fuel st i, inv from cs st i -> weight (skipn i (c_mem st)) <= fuel ->
  exists st', compile_loop (E := E) dname fuel st i = Some (inr st') /\ inv from cs st' (length (c_mem st')).
Proof.
  intros Nd NL. induction fuel as [|fuel IH]; intros st i V W.
  - cbn [compile_loop]. destruct (i <? length (c_mem st)) eqn:L.
    + apply Nat.ltb_lt in L. destruct (nth_error (c_mem st) i) as [n|] eqn:En; [|apply nth_error_None in En; lia]. rewrite (skip_nth _ _ _ En) in W. unfold weight in W. cbn [map] in W. rewrite sum_cons', size_deps in W. lia.
    + apply Nat.ltb_ge in L. exists st. split; [reflexivity|]. replace (length (c_mem st)) with i; [exact V|]. pose proof (v_le _ _ _ _ V). lia.
  - cbn [compile_loop]. destruct (i <? length (c_mem st)) eqn:L.
    + apply Nat.ltb_lt in L. destruct (nth_error (c_mem st) i) as [n|] eqn:En; [|apply nth_error_None in En; lia]. rewrite (skip_nth _ _ _ En) in W. unfold weight in W. cbn [map] in W. rewrite sum_cons', size_deps in W. fold (weight (deps n)) in W. fold (weight (skipn (S i) (c_mem st))) in W.
      assert (Sn : sub n from) by (apply (unf_sub _ _ _ (v_unf _ _ _ _ V)), (nth_error_In _ _ En)).
      unfold compile_step. unfold rd at 1. rewrite En. cbn [bind]. destruct (find_fp (c_fps st) n) as [j|] eqn:F.
      * cbn [bind]. apply IH; [apply (step_known from cs st i n V En j F)|cbn [c_mem]; lia].
      * destruct n as [v|k|k|o a ds].
        -- cbn [bind]. apply IH; [|cbn [c_mem]; lia]. apply (step_new from cs st i _ V Nd En F); auto; discriminate.
        -- exfalso. apply (NL k Sn).
        -- destruct (find_m (c_ms st) k) as [m|] eqn:Fm; cbn [bind]; (apply IH; [|cbn [c_mem]; lia]); apply (step_new from cs st i _ V Nd En F); auto; try discriminate; rewrite Fm; auto.
        -- cbn [bind]. apply IH; [apply (step_op from cs st i _ V En F o a ds eq_refl)|]. cbn [c_mem deps] in *. rewrite skipn_app, weight_app. replace (S i - length (c_mem st)) with 0 by lia. change (skipn 0 ds) with ds. lia.
    + apply Nat.ltb_ge in L. exists st. split; [reflexivity|]. replace (length (c_mem st)) with i; [exact V|]. pose proof (v_le _ _ _ _ V). lia.
Qed.

(** ** Matching *)
(** The nodes at the places of the pattern memory *)
Inductive par (from root : node) : list (nat * nat * list nat) -> list node -> list node -> Prop :=
  | par_nil : par from root [] [from] [root]
  | par_snoc us M X j o a ds o' a' xs : par from root us M X -> nth_error M j = Some (Op o a ds) -> nth_error X j = Some (Op o' a' xs) ->
      length xs = length ds -> dname o' = dname o -> par from root (us ++ [(j, length ds, dname o)]) (M ++ ds) (X ++ xs).
Lemma par_len from root us M X : par from root us M X -> length M = length X.
Proof. induction 1; [reflexivity|]. rewrite !app_length. congruence. Qed.
Definition filled_mem (X : list node) (rest : nat) : memory := map Some X ++ repeat None rest.
Lemma mem_at_filled X r i n : nth_error X i = Some n -> mem_at (filled_mem X r) i = Some n.
Proof.
  intros H. assert (L : i < length X) by (apply nth_error_Some; congruence). unfold mem_at, rd, filled_mem. rewrite nth_error_app1 by (rewrite map_length; exact L). rewrite nth_error_map, H. reflexivity.
Qed.
Lemma write_deps_ok ds : forall X r, write_deps (filled_mem X (length ds + r)) (length X) ds = Some (filled_mem (X ++ ds) r).
Proof.
  induction ds as [|d ds IH]; intros X r; [rewrite app_nil_r; reflexivity|]. cbn [write_deps length]. unfold filled_mem at 1. cbn [Nat.add repeat]. rewrite upd_mid by apply map_length. cbn [bind].
  specialize (IH (X ++ [d]) r). rewrite app_length in IH. cbn [length] in IH. rewrite Nat.add_1_r in IH. rewrite <- app_assoc in IH. cbn [app] in IH. rewrite <- IH. f_equal.
  unfold filled_mem. rewrite map_app, <- app_assoc. reflexivity.
Qed.
Lemma unfold_app l1 l2 : forall m next, unfold_loop dname m next (l1 ++ l2) =
  match unfold_loop dname m next l1 with
  | None => None
  | Some None => Some None
  | Some (Some m') => unfold_loop dname m' (next + list_sum (map (fun a => snd (fst a)) l1)) l2
  end.
Proof.
  induction l1 as [|[[i ar] nm] l1 IH]; intros m next; [cbn; rewrite Nat.add_0_r; reflexivity|]. cbn [app unfold_loop]. destruct (mem_at m i) as [n|]; cbn [bind]; [|reflexivity]. destruct n as [v|v|v|o a ds]; try reflexivity.
  destruct (length ds =? ar) eqn:L; cbn [negb orb]; [|reflexivity]. apply Nat.eqb_eq in L. destruct (str_eqb (dname o) nm); cbn [negb]; [|reflexivity]. destruct (write_deps m next ds) as [m'|]; cbn [bind]; [|reflexivity].
  rewrite IH. cbn [map]. rewrite sum_cons'. cbn [fst snd]. rewrite <- L, Nat.add_assoc. reflexivity.
Qed.
Lemma unf_len from us M : unf from us M -> length M = 1 + list_sum (map (fun a : nat * nat * list nat => snd (fst a)) us).
Proof. induction 1 as [|us M j o a ds U IH Ej]; [reflexivity|]. rewrite app_length, IH, map_app, list_sum_app. cbn [map fst snd list_sum fold_right]. lia. Qed.
Lemma par_unf from root us M X : par from root us M X -> unf from us M.
Proof. induction 1; [constructor|]. econstructor; eassumption. Qed.
Lemma snoc_inv {A} (a b : list A) x y : a ++ [x] = b ++ [y] -> a = b /\ x = y.
Proof. apply app_inj_tail. Qed.
Lemma par_inv from root us M' X' u : par from root (us ++ [u]) M' X' ->
  exists M X j o a ds o' a' xs, u = (j, length ds, dname o) /\ M' = M ++ ds /\ X' = X ++ xs /\ par from root us M X /\ nth_error M j = Some (Op o a ds) /\ nth_error X j = Some (Op o' a' xs) /\ length xs = length ds /\ dname o' = dname o.
Proof.
  intros P. remember (us ++ [u]) as l eqn:El. destruct P as [|us0 M X j o a ds o' a' xs P E1 E2 E3 E4]; [destruct us; discriminate|].
  apply snoc_inv in El as [-> <-]. exists M, X, j, o, a, ds, o', a', xs. auto 10.
Qed.
Lemma unf_fun from us : forall M M', unf from us M -> unf from us M' -> M = M'.
Proof.
  intros M M' U. revert M'. induction U as [|us M j o a ds U IH Ej]; intros M' U'.
  - inversion U' as [|us0 ? ? ? ? ? ? ? X]; [reflexivity|]. destruct us0; discriminate.
  - remember (us ++ [(j, length ds, dname o)]) as l eqn:El. destruct U' as [|us0 M0 j0 o0 a0 ds0 U0 E0]; [destruct us; discriminate|]. apply snoc_inv in El as [-> El]. injection El as -> _ _.
    pose proof (IH M0 U0). subst M0. congruence.
Qed.
Lemma par_fun from root us : forall M X X', par from root us M X -> par from root us M X' -> X = X'.
Proof.
  intros M X X' P. revert X'. induction P as [|us M X j o a ds o' a' xs P IH Em Ex L N]; intros X' P'.
  - remember [] as l eqn:El in P'. destruct P'; [reflexivity|]. destruct us; discriminate.
  - apply par_inv in P' as (M1 & X1 & j1 & o1 & a1 & ds1 & o1' & a1' & xs1 & E1 & E2 & -> & P1 & Em1 & Ex1 & L1 & N1). injection E1 as <- _ _.
    pose proof (unf_fun _ _ _ _ (par_unf _ _ _ _ _ P) (par_unf _ _ _ _ _ P1)). subst M1. pose proof (IH X1 P1). subst X1. congruence.
Qed.
Lemma unfold_ok from root us M : unf from us M -> forall cap, length M <= cap ->
  exists r, unfold_loop dname (filled_mem [root] (cap - 1)) 1 us = Some r /\
    match r with
    | Some m => exists X, par from root us M X /\ m = filled_mem X (cap - length M)
    | None => forall X, ~ par from root us M X
    end.
Proof.
  intros U. induction U as [|us M j o a ds U IH Ej]; intros cap L.
  - eexists. split; [reflexivity|]. exists [root]. split; [constructor|reflexivity].
  - rewrite app_length in L. destruct (IH cap) as (r & Er & Hr); [lia|]. rewrite unfold_app, Er. destruct r as [m|].
    2:{ eexists. split; [reflexivity|]. intros X P. apply par_inv in P as (M1 & X1 & j1 & o1 & a1 & ds1 & o1' & a1' & xs1 & E1 & E2 & -> & P1 & _). apply (Hr X1).
        rewrite (unf_fun _ _ _ _ U (par_unf _ _ _ _ _ P1)). exact P1. }
    destruct Hr as (X & P & ->). pose proof (par_len _ _ _ _ _ P) as Lx. rewrite <- (unf_len _ _ _ U).
    cbn [unfold_loop]. assert (Lj : j < length M) by (apply nth_error_Some; congruence). destruct (nth_error X j) as [x|] eqn:Ex; [|apply nth_error_None in Ex; lia].
    rewrite (mem_at_filled X _ j x Ex). cbn [bind].
    assert (Inv : forall X', par from root (us ++ [(j, length ds, dname o)]) (M ++ ds) X' -> exists o' a' xs, x = Op o' a' xs /\ length xs = length ds /\ dname o' = dname o).
    { intros X' P'. apply par_inv in P' as (M1 & X1 & j1 & o1 & a1 & ds1 & o1' & a1' & xs1 & E1 & E2 & -> & P1 & Em1 & Ex1 & L1 & N1). injection E1 as <- Hl Hd.
      pose proof (unf_fun _ _ _ _ U (par_unf _ _ _ _ _ P1)). subst M1. pose proof (par_fun _ _ _ _ _ _ P P1). subst X1. exists o1', a1', xs1. repeat split; congruence. }
    destruct x as [v|v|v|o' a' xs]; try (eexists; split; [reflexivity|]; intros X' P'; destruct (Inv X' P') as (? & ? & ? & H & _); discriminate).
    destruct (Nat.eqb_spec (length xs) (length ds)) as [Ll|Ll]; cbn [negb orb]; [|eexists; split; [reflexivity|]; intros X' P'; destruct (Inv X' P') as (? & ? & ? & H & H1 & _); injection H as <- <- <-; contradiction].
    destruct (str_spec (dname o') (dname o)) as [Ln|Ln]; cbn [negb]; [|eexists; split; [reflexivity|]; intros X' P'; destruct (Inv X' P') as (? & ? & ? & H & _ & H1); injection H as <- <- <-; contradiction].
    replace (cap - length M) with (length xs + (cap - length (M ++ ds))) by (rewrite app_length; lia). rewrite Lx, write_deps_ok. cbn [bind]. eexists. split; [reflexivity|].
    exists (X ++ xs). split; [|reflexivity]. apply par_snoc with (a := a) (o' := o') (a' := a'); auto.
Qed.
Lemma par_in from root us M X : par from root us M X -> forall j ar nm, In (j, ar, nm) us ->
  exists o a ds o' a' xs, nth_error M j = Some (Op o a ds) /\ nth_error X j = Some (Op o' a' xs) /\ length xs = length ds /\ dname o' = dname o /\
    forall q d x, nth_error ds q = Some d -> nth_error xs q = Some x -> exists p, nth_error M p = Some d /\ nth_error X p = Some x.
Proof.
  induction 1 as [|us M X j o a ds o' a' xs P IH Em Ex L N]; intros i ar nm H; [destruct H|]. pose proof (par_len _ _ _ _ _ P) as Lx. apply in_app_iff in H as [H|[H|[]]].
  - destruct (IH i ar nm H) as (o1 & a1 & ds1 & o1' & a1' & xs1 & A & B & C & D & F). exists o1, a1, ds1, o1', a1', xs1.
    split; [rewrite nth_error_app1; [exact A|apply nth_error_Some; congruence]|]. split; [rewrite nth_error_app1; [exact B|apply nth_error_Some; congruence]|]. split; [exact C|]. split; [exact D|].
    intros q d x Q1 Q2. destruct (F q d x Q1 Q2) as (p & P1 & P2). exists p. rewrite !nth_error_app1 by (apply nth_error_Some; congruence). auto.
  - injection H as <- _ _. exists o, a, ds, o', a', xs. split; [rewrite nth_error_app1; [exact Em|apply nth_error_Some; congruence]|]. split; [rewrite nth_error_app1; [exact Ex|apply nth_error_Some; congruence]|]. split; [exact L|]. split; [exact N|].
    intros q d x Q1 Q2. exists (length M + q). rewrite !nth_error_app2 by lia. replace (_ - _) with q by lia. replace (length M + q - length X) with q by lia. auto.
Qed.
Lemma all_ok_spec {A} (f : A -> option bool) (g : A -> bool) l : (forall x, In x l -> f x = Some (g x)) -> all_ok f l = Some (forallb g l).
Proof.
  induction l as [|x l IH]; intros H; [reflexivity|]. cbn [all_ok forallb]. rewrite (H x (or_introl eq_refl)). cbn [bind]. destruct (g x); [|reflexivity]. apply IH. intros y Hy. apply H. right. exact Hy.
Qed.
Definition at_ (X : list node) (i : nat) : node := nth i X (Lit 0).
Lemma at_nth X i : i < length X -> nth_error X i = Some (at_ X i).
Proof. intros L. apply nth_error_nth'. exact L. Qed.

Section Match.
Variables (from root : node) (cs : conds) (st : cst).
Hypothesis Nd : NoDup (map fst cs).
Hypothesis V : inv from cs st (length (c_mem st)).
Notation M := (c_mem st).
Let pl := let p := c_plan st in mkPlan (pl_unfold p) (pl_fixed p) (pl_same p) (pl_preds p) (length M).
Lemma in_mem p : sub p from -> exists j, first M j p.
Proof.
  assert (Z : In from M). { apply (unf_from _ _ _ (v_unf _ _ _ _ V)). }
  assert (K : forall p, sub p from -> In p M -> exists j, first M j p). { intros q _ H. apply In_nth_error in H as (j & H). destruct (first_ex _ _ _ H) as (j' & F & _). eauto. }
  assert (C : forall p q, sub p q -> In q M -> In p M).
  { intros x y S. induction S as [|n d Hd S IH]; [auto|]. intros Hn. apply IH. apply In_nth_error in Hn as (j & Hj). destruct (first_ex _ _ _ Hj) as (j' & F & _).
    destruct n as [v|v|v|o a ds]; try contradiction. destruct (v_un _ _ _ _ V j' o a ds F) as (_ & b & Hb); [apply nth_error_Some; destruct F; congruence|].
    apply In_nth_error in Hd as (q & Hq). apply (nth_error_In _ _ (Hb q d Hq)). }
  intros S. apply K; [exact S|]. apply (C p from S Z).
Qed.
(** Every node of a match is what its pattern stands for. *)
Lemma stands_par t : stands dname cs t from root -> par from root (pl_unfold (c_plan st)) M (map t M).
Proof.
  intros [Ht Hs]. pose proof (v_unf _ _ _ _ V) as U. assert (S : forall n, In n M -> sub n from) by apply (unf_sub _ _ _ U). clear V pl. revert S.
  induction U as [|us N j o a ds U IH Ej]; intros S; [cbn [map]; rewrite Ht; constructor|].
  assert (S' : forall n, In n N -> sub n from) by (intros n H; apply S, in_app_iff; auto).
  pose proof (Hs _ (S' _ (nth_error_In _ _ Ej))) as (o' & a' & Et & En). rewrite map_app. apply par_snoc with (a := a) (o' := o') (a' := a').
  - apply IH, S'.
  - exact Ej.
  - rewrite nth_error_map, Ej, <- Et. reflexivity.
  - apply map_length.
  - exact En.
Qed.
Lemma match_ok : exists r, match_pattern (E := E) dname pl root (repeat None (pl_cap pl)) = Some (inr r) /\
  match r with
  | Some m => exists t, stands dname cs t from root /\ m = filled_mem (map t M) 0
  | None => forall t, ~ stands dname cs t from root
  end.
Proof.
  pose proof (v_unf _ _ _ _ V) as U. assert (L1 : 1 <= length M) by (rewrite (unf_len _ _ _ U); lia).
  unfold match_pattern. rewrite repeat_length, Nat.ltb_irrefl. cbn [pl pl_cap pl_unfold pl_fixed pl_same pl_preds].
  replace (repeat None (length M)) with (@nil (option node) ++ None :: repeat None (length M - 1)) by (replace (length M) with (S (length M - 1)) at 2 by lia; reflexivity).
  rewrite upd_mid by reflexivity. cbn [bind app]. change (Some root :: repeat None (length M - 1)) with (filled_mem [root] (length M - 1)).
  destruct (unfold_ok from root _ _ U (length M) (le_n _)) as (r & -> & Hr). cbn [bind]. destruct r as [m|].
  2:{ eexists. split; [reflexivity|]. intros t Ht. apply (Hr _ (stands_par t Ht)). }
  destruct Hr as (X & P & ->). rewrite Nat.sub_diag. pose proof (par_len _ _ _ _ _ P) as Lx.
  assert (B : forall i n, nth_error M i = Some n -> nth_error X i = Some (at_ X i)) by (intros i n H; apply at_nth; rewrite <- Lx; apply nth_error_Some; congruence).
  rewrite (all_ok_spec (check_fixed _) (fun a => node_eqb (at_ X (fst a)) (snd a))).
  2:{ intros [i n] H. apply (v_fix _ _ _ _ V) in H as (_ & [H _] & _). unfold check_fixed. cbn [fst snd]. rewrite (mem_at_filled X 0 i _ (B _ _ H)). reflexivity. }
  rewrite (all_ok_spec (check_same _) (fun a => node_eqb (at_ X (fst a)) (at_ X (snd a)))).
  2:{ intros [i j] H. apply (v_same _ _ _ _ V) in H as (n & H & [H' _] & _). unfold check_same. cbn [fst snd]. rewrite (mem_at_filled X 0 i _ (B _ _ H)), (mem_at_filled X 0 j _ (B _ _ H')). reflexivity. }
  rewrite (all_ok_spec (check_pred _) (fun a => match snd a with Some c => c (at_ X (fst a)) | None => false end)).
  2:{ intros [i m] H. apply (v_pred _ _ _ _ V) in H as (k & c & -> & _ & [H _] & _). unfold check_pred. cbn [fst snd]. rewrite (mem_at_filled X 0 i _ (B _ _ H)). reflexivity. }
  cbn [bind].
  (* the checks hold if the pattern matches *)
  assert (K : forall t, stands dname cs t from root -> forallb (fun a : nat * node => node_eqb (at_ X (fst a)) (snd a)) (pl_fixed (c_plan st)) = true /\
     forallb (fun a => node_eqb (at_ X (fst a)) (at_ X (snd a))) (pl_same (c_plan st)) = true /\
     forallb (fun a : nat * option matcher => match snd a with Some c => c (at_ X (fst a)) | None => false end) (pl_preds (c_plan st)) = true).
  { intros t Ht. pose proof (par_fun _ _ _ _ _ _ P (stands_par t Ht)) as ->. assert (Q : forall i n, nth_error M i = Some n -> at_ (map t M) i = t n).
    { intros i n H. specialize (B i n H). rewrite nth_error_map, H in B. cbn [option_map] in B. congruence. }
    assert (Sb : forall i n, nth_error M i = Some n -> sub n from) by (intros i n H; apply (unf_sub _ _ _ U), (nth_error_In _ _ H)).
    rewrite !forallb_forall. split; [|split].
    - intros [i n] H. apply (v_fix _ _ _ _ V) in H as ((v & ->) & [H _] & _). cbn [fst snd]. apply node_eq. rewrite (Q i _ H). apply (proj2 Ht (Lit v) (Sb _ _ H)).
    - intros [i j] H. apply (v_same _ _ _ _ V) in H as (n & H & [H' _] & _). cbn [fst snd]. apply node_eq. rewrite (Q i n H), (Q j n H'). reflexivity.
    - intros [i m] H. apply (v_pred _ _ _ _ V) in H as (k & c & -> & Hc & [H _] & _). cbn [fst snd]. rewrite (Q i _ H). apply (proj2 Ht (Plh k) (Sb _ _ H) c Hc). }
  destruct (forallb (fun a : nat * node => _) (pl_fixed (c_plan st))) eqn:C1; [|eexists; split; [reflexivity|]; intros t Ht; destruct (K t Ht) as (H & _); discriminate].
  destruct (forallb (fun a : nat * nat => _) (pl_same (c_plan st))) eqn:C2; [|eexists; split; [reflexivity|]; intros t Ht; destruct (K t Ht) as (_ & H & _); discriminate].
  destruct (forallb (fun a : nat * option matcher => _) (pl_preds (c_plan st))) eqn:C3; [|eexists; split; [reflexivity|]; intros t Ht; destruct (K t Ht) as (_ & _ & H); discriminate].
  eexists. split; [reflexivity|]. rewrite forallb_forall in C1, C2, C3.
  set (t := fun p => match index_in p M with Some j => at_ X j | None => p end).
  assert (T : forall j n, nth_error M j = Some n -> t n = at_ X j).
  { intros j n H. unfold t. destruct (index_in_spec n M (nth_error_In _ _ H)) as (j0 & E0 & H0). rewrite E0.
    destruct (first_ex _ _ _ H) as (f & Ff & Lf). destruct (first_ex _ _ _ H0) as (f0 & Ff0 & Lf0). pose proof (first_fun _ _ _ _ Ff Ff0) as <-.
    assert (G : forall q, nth_error M q = Some n -> at_ X q = at_ X f).
    { intros q Hq. destruct (first_ex _ _ _ Hq) as (f1 & F1 & L1'). pose proof (first_fun _ _ _ _ Ff F1) as <-. apply Nat.lt_eq_cases in L1' as [L1'| ->]; [|reflexivity].
      apply node_eq. apply (C2 (q, f)). apply (v_same _ _ _ _ V). exists n. repeat split; auto; [apply Ff|apply Ff|]. apply nth_error_Some. congruence. }
    rewrite (G j H), (G j0 H0). reflexivity. }
  assert (TX : map t M = X).
  { apply (nth_ext _ _ (Lit 0) (Lit 0)); [rewrite map_length; exact Lx|]. intros q Lq. rewrite map_length in Lq. destruct (nth_error M q) as [n|] eqn:Hq; [|apply nth_error_None in Hq; lia].
    rewrite (nth_indep _ (Lit 0) (t (Lit 0))) by (rewrite map_length; exact Lq). rewrite map_nth. apply nth_error_nth with (d := Lit 0) in Hq as Hn. rewrite Hn. apply (T q n Hq). }
  exists t. split; [|rewrite TX; reflexivity]. split.
  - assert (Z : nth_error M 0 = Some from /\ nth_error X 0 = Some root).
    { clear - P. induction P as [|us N Y j o a ds o' a' xs P IH]; [auto|]. destruct IH as [A B]. rewrite !nth_error_app1 by (apply nth_error_Some; congruence). auto. }
    destruct Z as [Z1 Z2]. rewrite (T 0 _ Z1). specialize (B 0 _ Z1). congruence.
  - intros p Sp. destruct (in_mem p Sp) as (j & Fj). pose proof (proj1 Fj) as Hj. assert (Lj : j < length M) by (apply nth_error_Some; congruence). destruct p as [v|k|k|o a ds].
    + rewrite (T j _ Hj). apply node_eq. apply (C1 (j, Lit v)). apply (v_fix _ _ _ _ V). eauto.
    + apply (v_leaf _ _ _ _ V j k Lj Hj).
    + intros c Hc. rewrite (T j _ Hj). apply (C3 (j, Some c)). apply (v_pred _ _ _ _ V). exists k, c. auto.
    + destruct (v_un _ _ _ _ V j o a ds Fj Lj) as (Hu & _). destruct (par_in _ _ _ _ _ P _ _ _ Hu) as (o1 & a1 & ds1 & o' & a' & xs & A & Bx & Ll & Ln & F).
      rewrite Hj in A. injection A as <- <- <-. exists o', a'. split; [|exact Ln]. rewrite (T j _ Hj). specialize (B j _ Hj). rewrite Bx in B. injection B as <-. f_equal.
      apply (nth_ext _ _ (Lit 0) (Lit 0)); [rewrite map_length; exact Ll|]. intros q Lq. destruct (nth_error ds q) as [d|] eqn:Hd; [|apply nth_error_None in Hd; lia].
      rewrite (nth_indep (map t ds) (Lit 0) (t (Lit 0))) by (rewrite map_length; lia). rewrite map_nth. rewrite (nth_error_nth _ _ (Lit 0) Hd).
      destruct (nth_error xs q) as [x|] eqn:Hx; [|apply nth_error_None in Hx; lia]. rewrite (nth_error_nth _ _ (Lit 0) Hx).
      destruct (F q d x Hd Hx) as (p & P1 & P2). rewrite (T p d P1). unfold at_. rewrite (nth_error_nth _ _ (Lit 0) P2). reflexivity.
Qed.
End Match.
End Compile.
