(** The graph built from a batch of initializers. *)
From Coq Require Import Permutation Relations.
From Verif Require Import Base Visit_Model Init_Model Init_Spec.

Lemma name_eqb_eq a : forall b, name_eqb a b = true <-> a = b.
Proof.
  induction a as [|x a IH]; intros [|y b]; cbn; try (split; intros; congruence).
  rewrite andb_true_iff, Nat.eqb_eq, IH. split; [intros [-> ->]; reflexivity|intros [= -> ->]; auto].
Qed.
Lemma name_eqb_neq a b : name_eqb a b = false <-> a <> b.
Proof. rewrite <- not_true_iff_false, name_eqb_eq. reflexivity. Qed.
Lemma mem_In x l : mem x l = true <-> In x l.
Proof.
  unfold mem. rewrite existsb_exists. split.
  - intros (y & H & E). apply name_eqb_eq in E as ->. exact H.
  - intros H. exists x. split; [exact H|]. apply name_eqb_eq. reflexivity.
Qed.
Lemma mem_nIn x l : mem x l = false <-> ~ In x l.
Proof. rewrite <- not_true_iff_false, mem_In. reflexivity. Qed.
Lemma phony_iff n : starts_with n phony_prefix = true <-> phony n.
Proof.
  unfold starts_with, phony, phony_prefix. rewrite name_eqb_eq. cbn [length]. split.
  - intros H. exists (skipn 6 n). rewrite <- (firstn_skipn 6 n) at 1. rewrite H. reflexivity.
  - intros [s ->]. reflexivity.
Qed.
Lemma phony_false n : starts_with n phony_prefix = false <-> ~ phony n.
Proof. rewrite <- not_true_iff_false, phony_iff. reflexivity. Qed.
Lemma phony_nil : ~ phony [].
Proof. intros [s H]. discriminate. Qed.
Lemma empty_nil n : empty n = true <-> n = [].
Proof. destruct n; cbn; split; intros; congruence. Qed.
Lemma name_dec (a b : name) : {a = b} + {a <> b}.
Proof. apply list_eq_dec, Nat.eq_dec. Qed.

Definition size (g : digraph) : nat := length (g_nodes g).
Lemma gname_out g n : size g <= n -> gname g n = [].
Proof. intros H. unfold gname. destruct (rd (g_nodes g) n) eqn:E; [|reflexivity]. apply rd_Some_lt in E. unfold size in H. lia. Qed.
Lemma ginit_out g n : size g <= n -> ginit g n = None.
Proof. intros H. unfold ginit. destruct (rd (g_nodes g) n) eqn:E; [|reflexivity]. apply rd_Some_lt in E. unfold size in H. lia. Qed.
Lemma ginit_lt g n i : ginit g n = Some i -> n < size g.
Proof. intros H. destruct (Nat.lt_ge_cases n (size g)) as [L|L]; [exact L|]. rewrite (ginit_out _ _ L) in H. discriminate. Qed.
Lemma gdeps_out g n : size g <= n -> gdeps g n = [].
Proof. intros H. unfold gdeps. destruct (rd (g_nodes g) n) eqn:E; [|reflexivity]. apply rd_Some_lt in E. unfold size in H. lia. Qed.
Lemma gdeps_lt g n m : In m (gdeps g n) -> n < size g.
Proof. intros H. destruct (Nat.lt_ge_cases n (size g)) as [L|L]; [exact L|]. rewrite (gdeps_out _ _ L) in H. contradiction. Qed.
Lemma gname_lt g n : gname g n <> [] -> n < size g.
Proof. intros H. destruct (Nat.lt_ge_cases n (size g)) as [L|L]; [exact L|]. rewrite (gname_out _ _ L) in H. congruence. Qed.

(** The index knows exactly the named nodes, and names are unique. *)
Definition index_ok (g : digraph) : Prop :=
  forall x n, x <> [] -> (lookup x (g_index g) = Some n <-> gname g n = x).
Lemma index_unique g n m : index_ok g -> gname g n <> [] -> gname g n = gname g m -> n = m.
Proof.
  intros H N E. pose proof (proj2 (H _ n N) eq_refl) as A. pose proof (proj2 (H _ m N) (eq_sym E)) as B. congruence.
Qed.

(** Same nodes, with possibly one more at the end. *)
Lemma rd_snoc {A} (l : list A) x n : rd (l ++ [x]) n = if n =? length l then Some x else rd l n.
Proof.
  unfold rd. destruct (n =? length l) eqn:E.
  - apply Nat.eqb_eq in E as ->. rewrite nth_error_app2, Nat.sub_diag; [reflexivity|lia].
  - apply Nat.eqb_neq in E. destruct (Nat.lt_ge_cases n (length l)) as [L|L]; [apply nth_error_app1, L|].
    rewrite nth_error_app2 by exact L. rewrite (proj2 (nth_error_None l n) L). destruct (n - length l) as [|k] eqn:K; [lia|]. destruct k; reflexivity.
Qed.
Lemma fresh_node g nm ix : let g' := mkG (g_nodes g ++ [mkN None nm []]) ix in
  size g' = S (size g) /\ (forall m, gname g' m = if m =? size g then nm else gname g m) /\
  (forall m, ginit g' m = ginit g m) /\ (forall m, gdeps g' m = gdeps g m).
Proof.
  intros g'. unfold size at 1. subst g'. cbn [g_nodes]. rewrite app_length. cbn [length]. split; [unfold size; lia|].
  unfold gname, ginit, gdeps. cbn [g_nodes]. split; [|split]; intros m; rewrite rd_snoc; fold (size g); destruct (m =? size g) eqn:E; try reflexivity;
    apply Nat.eqb_eq in E as ->; cbn; destruct (rd (g_nodes g) (size g)) eqn:R; try reflexivity; apply rd_Some_lt in R; unfold size in R; lia.
Qed.
Lemma get_node_ok g nm g' n : index_ok g -> get_node g nm = (g', n) ->
  index_ok g' /\ n < size g' /\ size g <= size g' /\ gname g' n = nm /\
  (forall m, m < size g -> gname g' m = gname g m) /\ (forall m, ginit g' m = ginit g m) /\ (forall m, gdeps g' m = gdeps g m) /\
  (nm = [] -> n = size g) /\ (forall m, gname g m <> [] -> gname g' m = gname g m).
Proof.
  intros I H. unfold get_node in H. destruct (empty nm) eqn:Em.
  - apply empty_nil in Em as ->. injection H as <- <-.
    destruct (fresh_node g [] (g_index g)) as (A & B & C & D). fold (size g). cbn [g_index] in *.
    set (g' := mkG (g_nodes g ++ [mkN None [] []]) (g_index g)) in *.
    split; [|split; [lia|split; [lia|split; [rewrite B, Nat.eqb_refl; reflexivity|]]]].
    + intros x m Nx. change (g_index g') with (g_index g). rewrite (I x m Nx), B. destruct (m =? size g) eqn:E; [|reflexivity].
      apply Nat.eqb_eq in E as ->. rewrite (gname_out g (size g)) by lia. split; congruence.
    + split; [|split; [exact C|split; [exact D|split; [reflexivity|]]]]; intros m Hm; rewrite B.
      * destruct (m =? size g) eqn:E; [apply Nat.eqb_eq in E; lia|reflexivity].
      * destruct (m =? size g) eqn:E; [|reflexivity]. apply Nat.eqb_eq in E as ->. rewrite (gname_out g (size g)) in Hm by lia. congruence.
  - assert (Nn : nm <> []) by (intros ->; discriminate). destruct (lookup nm (g_index g)) as [m0|] eqn:L.
    + injection H as <- <-. apply (I nm m0 Nn) in L.
      split; [exact I|]. split; [apply gname_lt; congruence|]. split; [lia|]. split; [exact L|]. repeat (split; [intros; reflexivity|]).
      split; [intros; congruence|intros; reflexivity].
    + injection H as <- <-.
      destruct (fresh_node g nm ((nm, size g) :: g_index g)) as (A & B & C & D). fold (size g).
      set (g' := mkG (g_nodes g ++ [mkN None nm []]) ((nm, size g) :: g_index g)) in *.
      assert (F : forall m, gname g m <> nm) by (intros m E; apply (I nm m Nn) in E; congruence).
      split; [|split; [lia|split; [lia|split; [rewrite B, Nat.eqb_refl; reflexivity|]]]].
      * intros x m Nx. change (g_index g') with ((nm, size g) :: g_index g). cbn [lookup]. rewrite B. destruct (name_eqb x nm) eqn:E.
        -- apply name_eqb_eq in E as ->. destruct (m =? size g) eqn:E; [apply Nat.eqb_eq in E as ->; tauto|]. apply Nat.eqb_neq in E.
           split; intros H; [injection H as <-; congruence|exfalso; exact (F m H)].
        -- apply name_eqb_neq in E. rewrite (I x m Nx). destruct (m =? size g) eqn:E'; [|reflexivity]. apply Nat.eqb_eq in E' as ->.
           rewrite (gname_out g (size g)) by lia. split; congruence.
      * split; [|split; [exact C|split; [exact D|split; [congruence|]]]]; intros m Hm; rewrite B.
        -- destruct (m =? size g) eqn:E; [apply Nat.eqb_eq in E; lia|reflexivity].
        -- destruct (m =? size g) eqn:E; [|reflexivity]. apply Nat.eqb_eq in E as ->. rewrite (gname_out g (size g)) in Hm by lia. congruence.
Qed.

Lemma upd_node g n f : n < size g -> exists nd, rd (g_nodes g) n = Some nd /\ exists ns, upd (g_nodes g) n (f nd) = Some ns /\
  length ns = length (g_nodes g) /\ forall m, rd ns m = if m =? n then Some (f nd) else rd (g_nodes g) m.
Proof.
  intros H. destruct (rd_lt (g_nodes g) n H) as [nd E]. exists nd. split; [exact E|].
  destruct (upd_lt (g_nodes g) n (f nd) H) as [ns U]. exists ns. split; [exact U|]. apply upd_spec in U. tauto.
Qed.
Lemma add_dep_ok g n d : n < size g -> index_ok g -> exists g', add_dep g n d = Some g' /\
  index_ok g' /\ size g' = size g /\ (forall m, gname g' m = gname g m) /\ (forall m, ginit g' m = ginit g m) /\
  forall m, gdeps g' m = if m =? n then gdeps g n ++ [d] else gdeps g m.
Proof.
  intros H I. destruct (upd_node g n (fun nd => mkN (n_init nd) (n_name nd) (n_deps nd ++ [d])) H) as (nd & E & ns & U & L & R).
  exists (mkG ns (g_index g)). unfold add_dep. rewrite E. cbn [bind]. rewrite U. cbn [bind]. split; [reflexivity|].
  assert (Nm : forall m, gname (mkG ns (g_index g)) m = gname g m).
  { intros m. unfold gname. cbn [g_nodes]. rewrite R. destruct (m =? n) eqn:Em; [|reflexivity]. apply Nat.eqb_eq in Em as ->. rewrite E. reflexivity. }
  split; [|split; [exact L|split; [exact Nm|split]]].
  - intros x m Nx. cbn [g_index]. rewrite Nm. apply I, Nx.
  - intros m. unfold ginit. cbn [g_nodes]. rewrite R. destruct (m =? n) eqn:Em; [|reflexivity]. apply Nat.eqb_eq in Em as ->. rewrite E. reflexivity.
  - intros m. unfold gdeps. cbn [g_nodes]. rewrite R. destruct (m =? n) eqn:Em; [|reflexivity]. rewrite E. reflexivity.
Qed.
Lemma set_init_ok g n i : n < size g -> index_ok g -> exists g', set_init g n i = Some g' /\
  index_ok g' /\ size g' = size g /\ (forall m, gname g' m = gname g m) /\ (forall m, gdeps g' m = gdeps g m) /\
  forall m, ginit g' m = if m =? n then Some i else ginit g m.
Proof.
  intros H I. destruct (upd_node g n (fun nd => mkN (Some i) (n_name nd) (n_deps nd)) H) as (nd & E & ns & U & L & R).
  exists (mkG ns (g_index g)). unfold set_init. rewrite E. cbn [bind]. rewrite U. cbn [bind]. split; [reflexivity|].
  assert (Nm : forall m, gname (mkG ns (g_index g)) m = gname g m).
  { intros m. unfold gname. cbn [g_nodes]. rewrite R. destruct (m =? n) eqn:Em; [|reflexivity]. apply Nat.eqb_eq in Em as ->. rewrite E. reflexivity. }
  split; [|split; [exact L|split; [exact Nm|split]]].
  - intros x m Nx. cbn [g_index]. rewrite Nm. apply I, Nx.
  - intros m. unfold gdeps. cbn [g_nodes]. rewrite R. destruct (m =? n) eqn:Em; [|reflexivity]. apply Nat.eqb_eq in Em as ->. rewrite E. reflexivity.
  - intros m. unfold ginit. cbn [g_nodes]. rewrite R. destruct (m =? n) eqn:Em; reflexivity.
Qed.
