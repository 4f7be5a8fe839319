From Coq Require Import Permutation.
From Verif Require Import Base Visit_Model Visit_Spec Visit_Proofs VisitOrder_Proofs Lambda_Model Lambda_Spec.

Lemma key_eq a b : key_eqb a b = true <-> a = b.
Proof. apply nats_eq. Qed.
Lemma key_mem k l : existsb (key_eqb k) l = true <-> In k l.
Proof.
  rewrite existsb_exists. split; [intros (x & H & E); apply key_eq in E; subst; exact H|]. intros H. exists k. split; [exact H|apply key_eq; reflexivity].
Qed.
Lemma unique_ok l : forall seen, unique_names seen l = true <-> NoDup l /\ forall k, In k l -> ~ In k seen.
Proof.
  induction l as [|x l IH]; intros seen; cbn [unique_names]; [split; [intros _; split; [constructor|intros k []]|reflexivity]|].
  rewrite andb_true_iff, negb_true_iff, IH. split.
  - intros (A & N & B). split; [constructor; [intros H; apply (B x H); left; reflexivity|exact N]|].
    intros k [<-|H]; [intros C; apply (proj2 (key_mem x seen)) in C; congruence|]. intros C. apply (B k H). right. exact C.
  - intros (N & B). inversion N as [|? ? N1 N2]; subst. split; [|split; [exact N2|]].
    + destruct (existsb (key_eqb x) seen) eqn:C; [|reflexivity]. apply key_mem in C. exfalso. apply (B x); [left; reflexivity|exact C].
    + intros k H [<-|C]; [auto|]. apply (B k); [right; exact H|exact C].
Qed.
Lemma leaf_mem l : existsb is_leaf l = true <-> exists k, In (Leaf k) l.
Proof.
  rewrite existsb_exists. split; [intros (x & H & E); destruct x; try discriminate; eauto|]. intros (k & H). exists (Leaf k). auto.
Qed.
Lemma plh_unique_ok l : forall seen, NoDup l -> (forall k, In k seen -> ~ In (Plh k) l) -> plh_unique seen l = true.
Proof.
  induction l as [|x l IH]; intros seen N H; [reflexivity|]. inversion N as [|? ? N1 N2]; subst.
  destruct x; cbn [plh_unique]; try (apply IH; [exact N2|intros k' Hk Hi; apply (H k' Hk); right; exact Hi]).
  apply andb_true_iff. split.
  - apply negb_true_iff. destruct (existsb (key_eqb k) seen) eqn:C; [|reflexivity]. apply key_mem in C. exfalso. apply (H k C). left. reflexivity.
  - apply IH; [exact N2|]. intros k' [<-|Hk] Hi; [exact (N1 Hi)|]. apply (H k' Hk). right. exact Hi.
Qed.
Lemma check_params_ok names l : match check_params names l with
  | None => forall k, In (Plh k) l -> In k names
  | Some e => exists k, e = MissingParam k /\ In (Plh k) l /\ ~ In k names
  end.
Proof.
  induction l as [|x l IH]; [intros k []|]. destruct x; cbn [check_params]; try (destruct (check_params names l) as [e|];
    [destruct IH as (k' & -> & A & B); exists k'; split; [reflexivity|split; [right; exact A|exact B]]|intros k' [D|H]; [discriminate|apply IH, H]]).
  destruct (existsb (key_eqb k) names) eqn:C.
  - apply key_mem in C. destruct (check_params names l) as [e|].
    + destruct IH as (k' & -> & A & B). exists k'. split; [reflexivity|split; [right; exact A|exact B]].
    + intros k' [D|H]; [injection D as <-; exact C|apply IH, H].
  - exists k. split; [reflexivity|]. split; [left; reflexivity|]. intros H. apply (proj2 (key_mem k names)) in H. congruence.
Qed.
Lemma param_index_ok names : NoDup names -> forall i k j, param_index names i k = Some j <-> exists q, j = i + q /\ nth_error names q = Some k.
Proof.
  induction 1 as [|x l N1 N2 IH]; intros i k j; cbn [param_index]; [split; [discriminate|intros ([|q] & _ & D); discriminate]|].
  destruct (param_index l (S i) k) as [j'|] eqn:E.
  - apply IH in E as (q & -> & Eq). split.
    + intros D. injection D as <-. exists (S q). split; [lia|exact Eq].
    + intros ([|q'] & -> & Eq').
      * injection Eq' as ->. apply nth_error_In in Eq. contradiction.
      * cbn in Eq'. f_equal. assert (q = q'); [|lia]. apply (proj1 (NoDup_nth_error l) N2); [apply nth_error_Some; congruence|congruence].
  - destruct (key_eqb x k) eqn:C.
    + apply key_eq in C as ->. split; [intros D; injection D as <-; exists 0; split; [lia|reflexivity]|]. intros ([|q'] & -> & Eq'); [f_equal; lia|].
      cbn in Eq'. apply nth_error_In in Eq'. contradiction.
    + split; [discriminate|]. intros ([|q'] & -> & Eq'); [cbn in Eq'; injection Eq' as ->; rewrite (proj2 (key_eq k k) eq_refl) in C; discriminate|].
      cbn in Eq'. exfalso. assert (X : param_index l (S i) k = Some (S i + q')) by (apply IH; eauto). congruence.
Qed.

(** Indices of parameters: where the placeholder of a parameter is *)
Definition idx_ok (names : list key) (nodes : list node) (idx : list (option nat)) : Prop :=
  length idx = length names /\
  (forall i k j, nth_error nodes i = Some (Plh k) -> nth_error names j = Some k -> nth_error idx j = Some (Some i)) /\
  (forall j i, nth_error idx j = Some (Some i) -> exists k, nth_error nodes i = Some (Plh k) /\ nth_error names j = Some k).
Lemma upd_nth {A} (l : list A) i x : i < length l -> exists l', upd l i x = Some l' /\ length l' = length l /\ nth_error l' i = Some x /\ (forall j, j <> i -> nth_error l' j = nth_error l j).
Proof.
  revert i. induction l as [|y l IH]; intros [|i] H; cbn [length] in H; try lia.
  - exists (x :: l). split; [reflexivity|]. split; [reflexivity|]. split; [reflexivity|]. intros [|j] N; [congruence|reflexivity].
  - destruct (IH i) as (l' & E & L & Ha & Hb); [lia|]. exists (y :: l'). cbn [upd]. rewrite E. split; [reflexivity|]. split; [cbn; congruence|]. split; [exact Ha|].
    intros [|j] N; [reflexivity|]. apply Hb. congruence.
Qed.
Lemma put_ok names : NoDup names -> forall rest done idx, NoDup (done ++ rest) -> (forall k, In (Plh k) rest -> In k names) -> idx_ok names done idx ->
  exists idx', put_indices names idx (length done) rest = Some idx' /\ idx_ok names (done ++ rest) idx'.
Proof.
  intros Nn. induction rest as [|x rest IH]; intros done idx N Hin (L & A & B).
  { exists idx. rewrite app_nil_r. split; [reflexivity|]. split; [exact L|split; assumption]. }
  assert (Ea : done ++ x :: rest = (done ++ [x]) ++ rest) by (rewrite <- app_assoc; reflexivity).
  assert (Lx : S (length done) = length (done ++ [x])) by (rewrite app_length; cbn; lia).
  assert (Hr : forall k, In (Plh k) rest -> In k names) by (intros k H; apply Hin; right; exact H).
  assert (Skip : is_plh x = false -> exists idx', put_indices names idx (S (length done)) rest = Some idx' /\ idx_ok names (done ++ x :: rest) idx').
  { intros Np. rewrite Ea, Lx. apply IH; [rewrite <- Ea; exact N|exact Hr|]. split; [exact L|]. split.
    - intros i k j Ei. destruct (Nat.lt_ge_cases i (length done)) as [Hl|Hl]; [rewrite nth_error_app1 in Ei by exact Hl; apply A, Ei|].
      rewrite nth_error_app2 in Ei by exact Hl. destruct (i - length done) as [|q]; [injection Ei as ->; discriminate|destruct q; discriminate].
    - intros j i Ej. destruct (B j i Ej) as (k & Ei & Ek). exists k. split; [|exact Ek]. rewrite nth_error_app1; [exact Ei|apply nth_error_Some; congruence]. }
  destruct x; cbn [put_indices]; try (apply Skip; reflexivity).
  destruct (In_nth_error names k (Hin k (or_introl eq_refl))) as (j & Ej).
  assert (Pj : param_index names 0 k = Some j) by (apply param_index_ok; [exact Nn|exists j; auto]). rewrite Pj. cbn [bind].
  assert (Lj : j < length idx) by (rewrite L; apply nth_error_Some; congruence).
  destruct (upd_nth idx j (Some (length done)) Lj) as (idx1 & U & L1 & A1 & B1). rewrite U. cbn [bind]. rewrite Ea, Lx. apply IH; [rewrite <- Ea; exact N|exact Hr|].
  split; [congruence|].
  assert (Nk : ~ In (Plh k) done).
  { intros H. apply NoDup_remove_2 in N. apply N. apply in_app_iff. left. exact H. }
  split.
  - intros i k' j' Ei Ej'. destruct (Nat.lt_ge_cases i (length done)) as [Hl|Hl].
    + rewrite nth_error_app1 in Ei by exact Hl. rewrite B1; [apply (A i k' j' Ei Ej')|]. intros ->. assert (k' = k) by congruence. subst. apply Nk. apply (nth_error_In _ _ Ei).
    + rewrite nth_error_app2 in Ei by exact Hl. destruct (i - length done) as [|q] eqn:Eq; [|destruct q; discriminate]. injection Ei as <-.
      assert (i = length done) by lia. subst. assert (j' = j); [|congruence]. apply (proj1 (NoDup_nth_error names) Nn); [apply nth_error_Some; congruence|congruence].
  - intros j' i Ej'. destruct (Nat.eq_dec j' j) as [->|Nj].
    + rewrite A1 in Ej'. injection Ej' as <-. exists k. split; [|exact Ej]. rewrite nth_error_app2, Nat.sub_diag by lia. reflexivity.
    + rewrite B1 in Ej' by exact Nj. destruct (B j' i Ej') as (k' & Ei & Ek). exists k'. split; [|exact Ek]. rewrite nth_error_app1; [exact Ei|apply nth_error_Some; congruence].
Qed.
Lemma idx_inj names nodes idx j1 j2 i : NoDup names -> idx_ok names nodes idx -> nth_error idx j1 = Some (Some i) -> nth_error idx j2 = Some (Some i) -> j1 = j2.
Proof.
  intros N (_ & _ & B) H1 H2. destruct (B _ _ H1) as (k1 & E1 & F1). destruct (B _ _ H2) as (k2 & E2 & F2). assert (k1 = k2) by congruence. subst.
  apply (proj1 (NoDup_nth_error names) N); [apply nth_error_Some; congruence|congruence].
Qed.

(** What Make does *)
Lemma make_cases s body :
  (unique_names [] (s_names s) = false /\ make s body = Some (inl BadSignature)) \/
  (NoDup (s_names s) /\ (exists k, sub (Leaf k) body) /\ make s body = Some (inl LeafInBody)) \/
  (NoDup (s_names s) /\ (~ exists k, sub (Leaf k) body) /\ exists k, sub (Plh k) body /\ ~ In k (s_names s) /\ make s body = Some (inl (MissingParam k))) \/
  (NoDup (s_names s) /\ (~ exists k, sub (Leaf k) body) /\ (forall k, sub (Plh k) body -> In k (s_names s)) /\
   exists idx, idx_ok (s_names s) (po body []) idx /\ make s body = Some (inr (mkL s (mkP (po body []) (adj_of (po body []))) idx))).
Proof.
  unfold make. destruct (unique_names [] (s_names s)) eqn:U; [|left; auto]. right. cbn [negb]. apply unique_ok in U as [Nn _].
  rewrite post_order_ok. cbn [bind p_nodes]. unfold validate_body. pose proof (proj1 (po_ordered body [] ordered_nil)) as Np.
  destruct (existsb is_leaf (po body [])) eqn:Lf.
  { left. split; [exact Nn|]. split; [|reflexivity]. apply leaf_mem in Lf as (k & H). exists k. apply po_root, H. }
  right. assert (NL : ~ exists k, sub (Leaf k) body).
  { intros (k & H). apply (proj2 (po_root _ _)) in H. assert (X : existsb is_leaf (po body []) = true) by (apply leaf_mem; eauto). congruence. }
  rewrite plh_unique_ok; [|exact Np|intros k []].
  pose proof (check_params_ok (s_names s) (po body [])) as C. destruct (check_params (s_names s) (po body [])) as [e|].
  { left. destruct C as (k & -> & A & B). split; [exact Nn|]. split; [exact NL|]. exists k. split; [apply po_root, A|]. auto. }
  right. split; [exact Nn|]. split; [exact NL|]. split; [intros k H; apply C, po_root, H|].
  unfold construct. cbn [p_nodes]. destruct (put_ok (s_names s) Nn (po body []) [] (repeat None (length (s_names s)))) as (idx & E & I); [exact Np|exact C| |].
  { split; [apply repeat_length|]. split; [intros [|i] k j D; discriminate|]. intros j i H. apply nth_error_In, repeat_spec in H. discriminate. }
  cbn [length app] in E, I. rewrite E. cbn [bind]. eauto.
Qed.

Section Gen.
Context {E T : Type}.
Variable wrap : list T -> E + T.
Variable inputs : list T.
Variable vr : bool.
Variable m : nat.
Definition bnd (q : nat) (x : T) : Prop := if vr && (S q =? m) then wrap (skipn q inputs) = inr x else nth_error inputs q = Some x.
Lemma fill_ok : (if vr then m <= S (length inputs) else length inputs = m) -> forall idx i res, i + length idx = m ->
  (forall j p, nth_error idx j = Some (Some p) -> p < length res) ->
  (forall j1 j2 p, nth_error idx j1 = Some (Some p) -> nth_error idx j2 = Some (Some p) -> j1 = j2) ->
  (exists res', fill vr wrap idx inputs i res = Some (inr res') /\ length res' = length res /\
    (forall j p, nth_error idx j = Some (Some p) -> exists x, nth_error res' p = Some (Some x) /\ bnd (i + j) x) /\
    (forall p, (forall j, nth_error idx j <> Some (Some p)) -> nth_error res' p = nth_error res p)) \/
  (exists e p, fill vr wrap idx inputs i res = Some (inl (LErr e)) /\ vr = true /\ wrap (skipn (m - 1) inputs) = inl e /\ nth_error idx (length idx - 1) = Some (Some p)).
Proof.
  intros Hc. induction idx as [|o idx IH]; intros i res L P I.
  { left. exists res. cbn [fill]. split; [reflexivity|]. split; [reflexivity|]. split; [intros [|j] p D; discriminate|]. reflexivity. }
  destruct idx as [|o' idx].
  - clear IH. cbn [length] in L. destruct o as [j|]; cbn [fill].
    + pose proof (P 0 j eq_refl) as Lj. destruct vr eqn:Ev.
      * destruct (length inputs <? i) eqn:Hl; [apply Nat.ltb_lt in Hl; lia|]. replace (m - 1) with i by lia. destruct (wrap (skipn i inputs)) as [e|x] eqn:W; cbn [lift].
        -- right. exists e, j. auto.
        -- left. destruct (upd_nth res j (Some x) Lj) as (res' & U & L1 & A1 & B1). rewrite U. cbn [bind]. exists res'. split; [reflexivity|]. split; [exact L1|]. split.
           ++ intros [|[|q]] p D; try discriminate. cbn in D. injection D as <-. exists x. split; [exact A1|]. unfold bnd. replace (S (i + 0) =? m) with true by (symmetry; apply Nat.eqb_eq; lia).
              rewrite Ev. cbn [andb]. rewrite Nat.add_0_r. exact W.
           ++ intros p H. apply B1. intros ->. apply (H 0). reflexivity.
      * left. destruct (nth_error inputs (length inputs - 1)) as [x|] eqn:Ex; [|apply nth_error_None in Ex; lia]. unfold rd. rewrite Ex. cbn [bind].
        destruct (upd_nth res j (Some x) Lj) as (res' & U & L1 & A1 & B1). rewrite U. cbn [bind]. exists res'. split; [reflexivity|]. split; [exact L1|]. split.
        -- intros [|[|q]] p D; try discriminate. cbn in D. injection D as <-. exists x. split; [exact A1|]. unfold bnd. rewrite Ev. cbn [andb]. rewrite <- Ex. f_equal. lia.
        -- intros p H. apply B1. intros ->. apply (H 0). reflexivity.
    + left. exists res. split; [reflexivity|]. split; [reflexivity|]. split; [intros [|[|j]] p D; discriminate|]. reflexivity.
  - cbn [length] in L. assert (Li : i < length inputs) by (destruct vr; lia).
    assert (I' : forall j1 j2 p, nth_error (o' :: idx) j1 = Some (Some p) -> nth_error (o' :: idx) j2 = Some (Some p) -> j1 = j2).
    { intros j1 j2 p H1 H2. assert (S j1 = S j2) by (apply (I (S j1) (S j2) p); assumption). lia. }
    assert (Go : forall res1, length res1 = length res -> (forall p, (forall j, nth_error (o' :: idx) j <> Some (Some p)) -> o = Some p -> exists x, nth_error res1 p = Some (Some x) /\ bnd i x) ->
      (forall p, o <> Some p -> nth_error res1 p = nth_error res p) ->
      (exists res', fill vr wrap (o' :: idx) inputs (S i) res1 = Some (inr res') /\ length res' = length res /\
       (forall j p, nth_error (o :: o' :: idx) j = Some (Some p) -> exists x, nth_error res' p = Some (Some x) /\ bnd (i + j) x) /\
       (forall p, (forall j, nth_error (o :: o' :: idx) j <> Some (Some p)) -> nth_error res' p = nth_error res p)) \/
      (exists e p, fill vr wrap (o' :: idx) inputs (S i) res1 = Some (inl (LErr e)) /\ vr = true /\ wrap (skipn (m - 1) inputs) = inl e /\ nth_error (o :: o' :: idx) (length (o :: o' :: idx) - 1) = Some (Some p))).
    { intros res1 L1 A1 B1. destruct (IH (S i) res1) as [(res' & F & L' & A & B)|(e & p & F & V & W & X)].
      - cbn [length]. lia.
      - intros j p H. rewrite L1. apply (P (S j) p H).
      - exact I'.
      - left. exists res'. split; [exact F|]. split; [congruence|]. split.
        + intros [|j] p H.
          * cbn in H. injection H as ->. assert (Nn : forall j, nth_error (o' :: idx) j <> Some (Some p)) by (intros j Hj; assert (X : 0 = S j) by (apply (I 0 (S j) p); [reflexivity|exact Hj]); lia).
            rewrite (B p Nn), Nat.add_0_r. apply A1; [exact Nn|reflexivity].
          * destruct (A j p H) as (x & E1 & E2). exists x. split; [exact E1|]. replace (i + S j) with (S i + j) by lia. exact E2.
        + intros p H. rewrite (B p (fun j => H (S j))). apply B1. intros ->. apply (H 0). reflexivity.
      - right. exists e, p. split; [exact F|]. split; [exact V|]. split; [exact W|]. cbn [length] in X |- *. replace (S (S (length idx)) - 1) with (S (length idx)) by lia. cbn [nth_error].
        replace (S (length idx) - 1) with (length idx) in X by lia. exact X. }
    destruct o as [j|].
    + change (fill vr wrap (Some j :: o' :: idx) inputs i res) with (let? x := rd inputs i in let? res := upd res j (Some x) in fill vr wrap (o' :: idx) inputs (S i) res).
      unfold rd. destruct (nth_error inputs i) as [x|] eqn:Ex; [|apply nth_error_None in Ex; lia]. cbn [bind].
      destruct (upd_nth res j (Some x) (P 0 j eq_refl)) as (res1 & U & L1 & A1 & B1). rewrite U. cbn [bind]. apply Go; [exact L1| |].
      * intros p _ D. injection D as <-. exists x. split; [exact A1|]. unfold bnd. replace (S i =? m) with false by (symmetry; apply Nat.eqb_neq; lia). rewrite andb_false_r. exact Ex.
      * intros p D. apply B1. congruence.
    + change (fill vr wrap (None :: o' :: idx) inputs i res) with (fill vr wrap (o' :: idx) inputs (S i) res). apply Go; [reflexivity|intros p _ D; discriminate|reflexivity].
Qed.

End Gen.
Section Loop.
Context {E T : Type}.
Variable v : node -> list T -> E + T.
Variable step : nat -> node -> option (list T) -> option (E + T).
Notation bu := (bottom_up v).
Variable nodes : list node.
Hypothesis O : ordered nodes.
Hypothesis Hs : forall i n args, nth_error nodes i = Some n -> is_plh n = false -> step i n (Some args) = Some (v n args).
Definition Inv (i : nat) (res : list (option T)) : Prop :=
  length res = length nodes /\ forall j n, nth_error nodes j = Some n -> j < i \/ is_plh n = true -> exists x, nth_error res j = Some (Some x) /\ bu n = inr x.
Lemma rds_inv i res ds : Inv i res -> (forall d, In d ds -> In d (firstn i nodes)) ->
  exists args, (let? os := rds res (map (idx nodes) ds) in sequence os) = Some args /\ collect (map bu ds) = inr args.
Proof.
  intros (_ & A). induction ds as [|d ds IH]; intros H; [exists []; auto|].
  destruct IH as (args & E1 & E2); [intros; apply H; right; assumption|]. destruct (idx_spec nodes i d (proj1 O) (H d (or_introl eq_refl))) as [L Ed].
  destruct (A _ _ Ed (or_introl L)) as (x & Ex & Bx). exists (x :: args). cbn [map rds]. unfold rd. rewrite Ex. cbn [bind].
  destruct (rds res (map (idx nodes) ds)) as [os|]; [|discriminate]. cbn [bind] in *. cbn [sequence bind]. rewrite E1. cbn [bind]. split; [reflexivity|].
  cbn [collect]. rewrite Bx, E2. reflexivity.
Qed.
Lemma loop_ok_gen : forall cnt i res, i + cnt = length nodes -> Inv i res -> 
  match err (collect (map bu (skipn i nodes))) with
  | Some e => body_loop step (mkP nodes (adj_of nodes)) res i cnt = Some (inl (LErr e))
  | None => exists res', body_loop step (mkP nodes (adj_of nodes)) res i cnt = Some (inr res') /\ Inv (length nodes) res'
  end.
Proof.
  induction cnt as [|cnt IH]; intros i res L Iv.
  - rewrite skipn_all2 by lia. cbn [map collect err body_loop]. exists res. split; [reflexivity|]. replace (length nodes) with i by lia. exact Iv.
  - destruct (nth_error nodes i) as [n|] eqn:En; [|apply nth_error_None in En; lia]. remember (body_loop step (mkP nodes (adj_of nodes)) res i (S cnt)) as bl eqn:Eb. cbn [body_loop p_nodes] in Eb. unfold rd at 1 in Eb. rewrite En in Eb. cbn [bind] in Eb.
    assert (Sk : skipn i nodes = n :: skipn (S i) nodes).
    { clear - En. revert i En. induction nodes as [|y l IHl]; intros [|i] En; try discriminate; [injection En as ->; reflexivity|]. cbn [skipn]. apply IHl, En. }
    rewrite Sk. cbn [map collect]. destruct (is_plh n) eqn:Pn.
    + destruct (proj2 Iv i n En (or_intror Pn)) as (x & Ex & Bx). rewrite Bx. subst bl. assert (Iv' : Inv (S i) res).
      { split; [apply Iv|]. intros j n' Ej [H|H]; [|apply (proj2 Iv j n' Ej); auto]. destruct (Nat.eq_dec j i) as [->|Nj]; [|apply (proj2 Iv j n' Ej); left; lia].
        assert (n' = n) by congruence. subst. eauto. }
      specialize (IH (S i) res ltac:(lia) Iv'). destruct (collect (map bu (skipn (S i) nodes))); exact IH.
    + rewrite (dep_indices_ok nodes i n O En) in Eb. cbn [bind] in Eb. destruct (rds_inv i res (deps n) Iv (proj2 O i n En)) as (args & E1 & E2).
      rewrite E1, (Hs i n args En Pn) in Eb. cbn [bind] in Eb. assert (Bn : bu n = v n args) by (rewrite (bu_eq v n), E2; reflexivity). rewrite Bn.
      destruct (v n args) as [e|x]; [exact Eb|]. destruct (upd_nth res i (Some x)) as (res1 & U & L1 & A1 & B1); [rewrite (proj1 Iv); lia|]. rewrite U in Eb. cbn [bind] in Eb. subst bl.
      assert (Iv' : Inv (S i) res1).
      { split; [rewrite L1; apply Iv|]. intros j n' Ej H. destruct (Nat.eq_dec j i) as [->|Nj].
        - assert (n' = n) by congruence. subst. exists x. auto.
        - rewrite B1 by exact Nj. apply (proj2 Iv j n' Ej). destruct H as [H|H]; [left; lia|auto]. }
      specialize (IH (S i) res1 ltac:(lia) Iv'). destruct (collect (map bu (skipn (S i) nodes))); exact IH.
Qed.
End Loop.

Lemma variadic_len s : variadic s = true <-> s_variadic s = true /\ s_names s <> [].
Proof.
  unfold variadic. rewrite andb_true_iff, negb_true_iff, Nat.eqb_neq. destruct (s_names s); cbn [length]; split; intros [A B]; split; auto; congruence || lia.
Qed.
Lemma count_spec s n : count_ok s n = true <-> fits s n.
Proof.
  unfold count_ok, fits, variadic. destruct (s_variadic s); cbn [andb negb]; destruct (s_names s) as [|k l]; cbn [length Nat.eqb negb andb];
    rewrite negb_true_iff, orb_false_iff, ?andb_false_iff, !Nat.ltb_ge; intuition (discriminate || lia).
Qed.
Section Main.
Context {E T : Type}.
Variable wrap : list T -> E + T.
Variable v : node -> list T -> E + T.
Variable step : nat -> node -> option (list T) -> option (E + T).
Notation bu := (bottom_up v).
Lemma run_ok s body l inputs : make s body = Some (inr l) -> fits s (length inputs) ->
  (forall k x, bound s (fun ts x => wrap ts = inr x) inputs k x -> v (Plh k) [] = inr x) ->
  (forall i n args, nth_error (po body []) i = Some n -> is_plh n = false -> step i n (Some args) = Some (v n args)) ->
  run step l wrap inputs = Some (lift (bu body)) \/
  exists e, run step l wrap inputs = Some (inl (LErr e)) /\ s_variadic s = true /\ wrap (skipn (length (s_names s) - 1) inputs) = inl e.
Proof.
  intros Mk Ft Hv Hs. destruct (make_cases s body) as [[_ M]|[(_ & _ & M)|[(_ & _ & k & _ & _ & M)|(Nn & NL & Hin & idx & I & M)]]]; rewrite M in Mk; try discriminate. injection Mk as <-.
  unfold run. cbn [l_sig l_body l_idx p_nodes]. rewrite (proj2 (count_spec s _) Ft). cbn [negb].
  pose proof (po_ordered body [] ordered_nil) as O. set (nodes := po body []) in *.
  assert (Hc : if variadic s then length (s_names s) <= S (length inputs) else length inputs = length (s_names s)).
  { unfold variadic. unfold fits in Ft. destruct (s_variadic s), (s_names s); cbn [andb negb length Nat.eqb] in *; lia. }
  assert (Vr : forall q, q < length (s_names s) -> variadic s && (S q =? length (s_names s)) = s_variadic s && (S q =? length (s_names s))).
  { intros q Hq. unfold variadic. destruct (s_names s); cbn [length] in *; [lia|]. rewrite andb_true_r. reflexivity. }
  destruct (fill_ok wrap inputs (variadic s) (length (s_names s)) Hc idx 0 (repeat None (length nodes))) as [(res & F & Lr & A & _)|(e & p & F & V & W & _)].
  - rewrite (proj1 I). reflexivity.
  - intros j p H. destruct (proj2 (proj2 I) j p H) as (k & Ek & _). rewrite repeat_length. apply nth_error_Some. congruence.
  - intros j1 j2 p. apply (idx_inj (s_names s) nodes idx); assumption.
  - left. rewrite F. cbn [bind].
    assert (Iv : Inv v nodes 0 res).
    { split; [rewrite Lr; apply repeat_length|]. intros i n Ei [H|H]; [lia|]. destruct n; try discriminate.
      assert (Hk : In k (s_names s)) by (apply Hin, po_root, (nth_error_In _ _ Ei)). apply In_nth_error in Hk as (j & Ej).
      pose proof (proj1 (proj2 I) i k j Ei Ej) as Ix. destruct (A j i Ix) as (x & Ex & Bx). exists x. split; [exact Ex|]. cbn [bottom_up]. apply Hv. exists j. split; [exact Ej|].
      unfold bnd in Bx. cbn [Nat.add] in Bx. rewrite (Vr j) in Bx by (apply nth_error_Some; congruence). exact Bx. }
    pose proof (loop_ok_gen v step nodes O Hs (length nodes) 0 res eq_refl Iv) as Lo. cbn [skipn] in Lo. unfold nodes in Lo at 1. rewrite (first_err_po v body [] eq_refl) in Lo.
    destruct (po_last body) as (l0 & El). assert (Er : nth_error nodes (length nodes - 1) = Some body).
    { unfold nodes. rewrite El, app_length. cbn [length]. rewrite nth_error_app2 by lia. replace (_ - _) with 0 by lia. reflexivity. }
    assert (Ln : 0 < length nodes) by (unfold nodes; rewrite El, app_length; cbn [length]; lia).
    destruct (bu body) as [e|x] eqn:B; cbn [err] in Lo.
    + rewrite Lo. reflexivity.
    + destruct Lo as (res' & -> & Iv'). cbn [bind]. destruct (proj2 Iv' _ _ Er) as (y & Ey & By); [left; lia|]. unfold rd. rewrite Ey. cbn [bind]. assert (y = x) by congruence. subst. reflexivity.
  - right. exists e. rewrite F. cbn [bind]. split; [reflexivity|]. split; [apply variadic_len, V|exact W].
Qed.
End Main.
