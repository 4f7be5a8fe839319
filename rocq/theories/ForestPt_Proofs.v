(** Proofs about the tree compiler and the predictors. *)
From Coq Require Import Permutation.
From Verif Require Import Base Forest_Model Forest_Spec Forest_Proofs ForestPt_Model ForestPt_Spec.

Lemma upd_split {A} (l l' : list A) i x : upd l i x = Some l' -> exists a y b, l = a ++ y :: b /\ l' = a ++ x :: b /\ length a = i.
Proof.
  revert i l'. induction l as [|y l IH]; intros [|i] l' H; try discriminate.
  - cbn in H. injection H as <-. exists [], y, l. auto.
  - cbn in H. destruct (upd l i x) as [t|] eqn:E; cbn in H; [|discriminate]. injection H as <-.
    destruct (IH i t E) as (a & z & b & -> & -> & L). exists (y :: a), z, b. cbn. auto.
Qed.

Lemma filter_both {A} (f : A -> bool) l : length (filter f l) + length (filter (fun x => negb (f x)) l) = length l.
Proof. induction l as [|x l IH]; cbn; [reflexivity|]. destruct (f x); cbn; lia. Qed.

Section calls.
Variables T V : Type.
Implicit Types (ops : list (bop T V)) (b : builder T V).

Definition mem (i : nat) (l : list nat) : bool := existsb (Nat.eqb i) l.
Lemma mem_In i l : mem i l = true <-> In i l.
Proof. unfold mem. rewrite existsb_exists. split; [intros (x & A & B); apply Nat.eqb_eq in B; congruence|]. intros H. exists i. rewrite Nat.eqb_refl. auto. Qed.
Lemma mem_app i l l' : mem i (l ++ l') = mem i l || mem i l'.
Proof. apply existsb_app. Qed.

Lemma calls_ok_app b ops o : calls_ok b (ops ++ [o]) = let? b' := calls_ok b ops in if snd (step b' o) then Some (fst (step b' o)) else None.
Proof.
  revert b. induction ops as [|p r IH]; intros b; cbn [app calls_ok bind].
  - destruct (step b o) as [b' []]; reflexivity.
  - destruct (step b p) as [b' []]; [apply IH|reflexivity].
Qed.
Lemma ids_app ops o : ids (ops ++ [o]) = ids ops ++ [op_id o].
Proof. unfold ids. rewrite map_app. reflexivity. Qed.
Lemma kids_app ops o : kids (ops ++ [o]) = kids ops ++ op_children o.
Proof. unfold kids. rewrite flat_map_app. cbn. rewrite app_nil_r. reflexivity. Qed.

Lemma test_node_ok (P : nat -> bool) n used id : (forall i, nth_error used i = if i <? n then Some (P i) else None) ->
  match test_node id used with
  | Some used' => id < n /\ P id = false /\ forall i, nth_error used' i = if i <? n then Some (P i || (i =? id)) else None
  | None => ~ (id < n /\ P id = false)
  end.
Proof.
  intros H. unfold test_node, rd. rewrite H. destruct (Nat.ltb_spec id n) as [L|L]; [|lia].
  destruct (P id) eqn:E; [intros [_ X]; discriminate|].
  assert (LL : id < length used) by (apply nth_error_Some; rewrite H; destruct (Nat.ltb_spec id n); [discriminate|lia]).
  destruct (upd_lt used id true LL) as [u U]. rewrite U. split; [exact L|]. split; [reflexivity|].
  apply upd_spec in U. destruct U as (_ & _ & U). intros i. unfold rd in U. rewrite U, H.
  destruct (Nat.eqb_spec i id) as [->|N].
  - destruct (Nat.ltb_spec id n); [|lia]. rewrite orb_true_r. reflexivity.
  - destruct (i <? n); [rewrite orb_false_r|]; reflexivity.
Qed.

Definition nleaf (n : bnode T) : bool := match b_leaf n with Some _ => true | None => false end.
Record inv (n : nat) ops b : Prop := {
  inv_valid : calls_valid n ops;
  inv_len : length (b_nodes b) = n;
  inv_used : forall i, nth_error (b_used b) i = if i <? n then Some (mem i (ids ops)) else None;
  inv_child : forall i, nth_error (b_child b) i = if i <? n then Some ((i =? 0) || mem i (kids ops)) else None;
  inv_node : forall i l r t, In (SetNode i l r t) ops ->
    nth_error (b_nodes b) i = Some {| b_leaf := None; b_left := Some l; b_right := Some r; b_test := Some t |};
  inv_leaf : forall i v, In (SetLeaf i v) ops -> exists j,
    nth_error (b_nodes b) i = Some {| b_leaf := Some j; b_left := None; b_right := None; b_test := None |} /\ nth_error (b_values b) j = Some v;
  inv_empty : forall i, i < n -> ~ In i (ids ops) -> nth_error (b_nodes b) i = Some empty_node;
  inv_count : length (filter nleaf (b_nodes b)) = length (b_values b) }.

Lemma new_inv n : inv n [] (new_builder n).
Proof.
  constructor; cbn [new_builder b_nodes b_used b_child b_values].
  - split; [apply NoDup_nil|]. split; [intros i []|]. split; [apply NoDup_nil|intros i []].
  - apply repeat_length.
  - intros i. destruct (Nat.ltb_spec i n) as [L|L].
    + rewrite nth_error_repeat by exact L. reflexivity.
    + apply nth_error_None. rewrite repeat_length. exact L.
  - intros i. destruct n as [|m]; [destruct i; reflexivity|]. destruct i as [|i]; [reflexivity|]. cbn [nth_error].
    destruct (Nat.ltb_spec (Datatypes.S i) (Datatypes.S m)) as [L|L].
    + rewrite nth_error_repeat by lia. reflexivity.
    + apply nth_error_None. rewrite repeat_length. lia.
  - intros ? ? ? ? [].
  - intros ? ? [].
  - intros i L _. apply nth_error_repeat. exact L.
  - induction n as [|m IH]; [reflexivity|]. cbn. exact IH.
Qed.

Definition step_pre (n : nat) ops (o : bop T V) : Prop :=
  op_id o < n /\ ~ In (op_id o) (ids ops) /\
  match o with SetNode _ l r _ => (0 < l < n /\ ~ In l (kids ops)) /\ (0 < r < n /\ ~ In r (kids ops)) /\ l <> r | SetLeaf _ _ => True end.
Lemma mem_false i l : mem i l = false <-> ~ In i l.
Proof. rewrite <- mem_In. destruct (mem i l); split; congruence. Qed.

Lemma set_nodes b id x n : length (b_nodes b) = n -> id < n ->
  exists ns, upd (b_nodes b) id x = Some ns /\ set_b_node b id x = {| b_nodes := ns; b_used := b_used b; b_child := b_child b; b_values := b_values b |}.
Proof.
  intros L I. unfold set_b_node. destruct (upd_lt (b_nodes b) id x) as [ns E]; [lia|]. rewrite E. eauto.
Qed.

Lemma calls_valid_snoc n ops o : calls_valid n ops -> step_pre n ops o -> calls_valid n (ops ++ [o]).
Proof.
  intros (A & B & C & D) (P & Q & S). unfold calls_valid. rewrite ids_app, kids_app. split; [|split; [|split]].
  - apply (Permutation_NoDup (l := op_id o :: ids ops)); [apply Permutation_cons_append|]. constructor; assumption.
  - intros i. rewrite in_app_iff. intros [X|[<-|[]]]; [apply B; exact X|exact P].
  - destruct o as [i l r t|i v]; cbn [op_children] in *; [|rewrite app_nil_r; exact C].
    apply (Permutation_NoDup (l := [l; r] ++ kids ops)); [apply Permutation_app_comm|].
    cbn. destruct S as ((S1 & S2) & (S3 & S4) & S5). constructor; [intros [X|X]; congruence|]. constructor; assumption.
  - intros i. rewrite in_app_iff. intros [X|X]; [apply D; exact X|].
    destruct o as [j l r t|j v]; cbn [op_children] in *; [|destruct X]. destruct X as [<-|[<-|[]]]; tauto.
Qed.

Lemma step_inv n ops b o : inv n ops b ->
  (step_pre n ops o -> exists b', step b o = (b', true) /\ inv n (ops ++ [o]) b') /\
  (snd (step b o) = true -> step_pre n ops o).
Proof.
  intros I. destruct o as [id l r t|id v].
  - cbn [step]. pose proof (test_node_ok _ n (b_used b) id (inv_used _ _ _ I)) as U.
    destruct (test_node id (b_used b)) as [used|]; cbn zeta.
    2: { split; [|discriminate]. intros (A & B & _). exfalso. apply U. cbn in *. rewrite mem_false. auto. }
    pose proof (test_node_ok _ n (b_child b) l (inv_child _ _ _ I)) as C.
    destruct (test_node l (b_child b)) as [child1|].
    2: { split; [|discriminate]. intros (_ & _ & (A & B) & _). exfalso. apply C. rewrite orb_false_iff, Nat.eqb_neq, mem_false. lia || (split; [lia|]; split; [lia|exact B]). }
    destruct C as (C1 & C2 & C3). pose proof (test_node_ok _ n child1 r C3) as D.
    destruct (test_node r child1) as [child2|].
    2: { split; [|discriminate]. intros (_ & _ & _ & (A & B) & E). exfalso. apply D.
         rewrite !orb_false_iff, !Nat.eqb_neq, mem_false. split; [lia|]. split; [split; [lia|exact B]|lia]. }
    destruct U as (U1 & U2 & U3). destruct D as (D1 & D2 & D3).
    apply orb_false_iff in C2. destruct C2 as [C2 C2']. apply orb_false_iff in D2. destruct D2 as [D2 D2'']. apply orb_false_iff in D2. destruct D2 as [D2 D2'].
    apply Nat.eqb_neq in C2, D2, D2''. apply mem_false in C2', D2', U2.
    assert (Pre : step_pre n ops (SetNode id l r t)).
    { split; [exact U1|]. split; [exact U2|]. split; [split; [lia|exact C2']|]. split; [split; [lia|exact D2']|]. congruence. }
    split; [intros _|intros _; exact Pre].
    set (b3 := {| b_nodes := b_nodes b; b_used := used; b_child := child2; b_values := b_values b |}).
    destruct (set_nodes b3 id {| b_leaf := None; b_left := Some l; b_right := Some r; b_test := Some t |} n (inv_len _ _ _ I) U1) as (ns & E & ->).
    eexists. split; [reflexivity|]. cbn [b_nodes b_used b_child b_values b3] in *.
    pose proof (upd_spec _ _ _ _ E) as (_ & EL & EN). unfold rd in EN.
    constructor; cbn [b_nodes b_used b_child b_values].
    + apply calls_valid_snoc; [apply (inv_valid _ _ _ I)|exact Pre].
    + rewrite EL. apply (inv_len _ _ _ I).
    + intros i. rewrite U3, ids_app, mem_app. cbn. rewrite orb_false_r. reflexivity.
    + intros i. rewrite D3, kids_app, mem_app. cbn. rewrite orb_false_r, !orb_assoc. reflexivity.
    + intros i l' r' t' J. apply in_app_iff in J. rewrite EN. destruct J as [J|[J|[]]].
      * destruct (Nat.eqb_spec i id) as [->|_]; [|apply (inv_node _ _ _ I); exact J].
        exfalso. apply U2. apply in_map_iff. exists (SetNode id l' r' t'). auto.
      * injection J as <- <- <- <-. rewrite Nat.eqb_refl. reflexivity.
    + intros i v J. apply in_app_iff in J. rewrite EN. destruct J as [J|[J|[]]]; [|discriminate].
      destruct (Nat.eqb_spec i id) as [->|_]; [|apply (inv_leaf _ _ _ I); exact J].
      exfalso. apply U2. apply in_map_iff. exists (SetLeaf id v). auto.
    + intros i L N. rewrite ids_app, in_app_iff in N. cbn in N. rewrite EN.
      destruct (Nat.eqb_spec i id) as [->|_]; [tauto|]. apply (inv_empty _ _ _ I); [exact L|tauto].
    + destruct (upd_split _ _ _ _ E) as (a & y & c & F1 & F2 & F3). rewrite <- (inv_count _ _ _ I), F1, F2, !filter_app, !app_length.
      f_equal. assert (Y : nth_error (b_nodes b) id = Some empty_node) by (apply (inv_empty _ _ _ I); assumption).
      rewrite F1, nth_error_app2, F3, Nat.sub_diag in Y by lia. cbn in Y. injection Y as ->. reflexivity.
  - cbn [step]. pose proof (test_node_ok _ n (b_used b) id (inv_used _ _ _ I)) as U.
    destruct (test_node id (b_used b)) as [used|]; cbn zeta.
    2: { split; [|discriminate]. intros (A & B & _). exfalso. apply U. cbn in *. rewrite mem_false. auto. }
    destruct U as (U1 & U2 & U3). apply mem_false in U2.
    assert (Pre : step_pre n ops (SetLeaf id v)) by (split; [exact U1|]; split; [exact U2|exact Logic.I]).
    split; [intros _|intros _; exact Pre].
    set (b3 := {| b_nodes := b_nodes b; b_used := used; b_child := b_child b; b_values := b_values b ++ [v] |}).
    destruct (set_nodes b3 id {| b_leaf := Some (length (b_values b)); b_left := None; b_right := None; b_test := None |} n (inv_len _ _ _ I) U1) as (ns & E & ->).
    eexists. split; [reflexivity|]. cbn [b_nodes b_used b_child b_values b3] in *.
    pose proof (upd_spec _ _ _ _ E) as (_ & EL & EN). unfold rd in EN.
    constructor; cbn [b_nodes b_used b_child b_values].
    + apply calls_valid_snoc; [apply (inv_valid _ _ _ I)|exact Pre].
    + rewrite EL. apply (inv_len _ _ _ I).
    + intros i. rewrite U3, ids_app, mem_app. cbn. rewrite orb_false_r. reflexivity.
    + intros i. rewrite kids_app. cbn [op_children]. rewrite app_nil_r. apply (inv_child _ _ _ I).
    + intros i l' r' t' J. apply in_app_iff in J. rewrite EN. destruct J as [J|[J|[]]]; [|discriminate].
      destruct (Nat.eqb_spec i id) as [->|_]; [|apply (inv_node _ _ _ I); exact J].
      exfalso. apply U2. apply in_map_iff. exists (SetNode id l' r' t'). auto.
    + intros i w J. apply in_app_iff in J. rewrite EN. destruct J as [J|[J|[]]].
      * destruct (Nat.eqb_spec i id) as [->|_].
        -- exfalso. apply U2. apply in_map_iff. exists (SetLeaf id w). auto.
        -- destruct (inv_leaf _ _ _ I i w J) as (j & A & B). exists j. split; [exact A|].
           rewrite nth_error_app1; [exact B|]. apply nth_error_Some. congruence.
      * injection J as <- <-. rewrite Nat.eqb_refl. eexists. split; [reflexivity|].
        rewrite nth_error_app2, Nat.sub_diag by lia. reflexivity.
    + intros i L N. rewrite ids_app, in_app_iff in N. cbn in N. rewrite EN.
      destruct (Nat.eqb_spec i id) as [->|_]; [tauto|]. apply (inv_empty _ _ _ I); [exact L|tauto].
    + destruct (upd_split _ _ _ _ E) as (a & y & c & F1 & F2 & F3).
      assert (Y : nth_error (b_nodes b) id = Some empty_node) by (apply (inv_empty _ _ _ I); assumption).
      rewrite F1, nth_error_app2, F3, Nat.sub_diag in Y by lia. cbn in Y. injection Y as ->.
      rewrite app_length, <- (inv_count _ _ _ I), F1, F2, !filter_app, !app_length. cbn. lia.
Qed.

Lemma step_pre_of_valid n ops o : calls_valid n (ops ++ [o]) -> calls_valid n ops /\ step_pre n ops o.
Proof.
  unfold calls_valid. rewrite ids_app, kids_app. intros (A & B & C & D).
  apply (Permutation_NoDup (l' := op_id o :: ids ops)) in A; [|symmetry; apply Permutation_cons_append].
  apply (Permutation_NoDup (l' := op_children o ++ kids ops)) in C; [|apply Permutation_app_comm].
  inversion A as [|? ? A1 A2]; subst. split.
  - split; [exact A2|]. split; [intros i X; apply B; apply in_app_iff; tauto|]. split.
    + destruct o as [i l r t|i v]; cbn in C; [inversion C as [|? ? C1 C2]; inversion C2; assumption|exact C].
    + intros i X. apply D. apply in_app_iff. tauto.
  - split; [apply B; apply in_app_iff; cbn; tauto|]. split; [exact A1|].
    destruct o as [i l r t|i v]; [|exact I]. cbn in C. inversion C as [|? ? C1 C2]; subst. inversion C2 as [|? ? C3 C4]; subst.
    cbn in C1. assert (0 < l < n) by (apply D; apply in_app_iff; cbn; tauto). assert (0 < r < n) by (apply D; apply in_app_iff; cbn; tauto).
    repeat split; try lia; tauto.
Qed.
Lemma calls_inv n ops : match calls_ok (new_builder n) ops with Some b => inv n ops b | None => ~ calls_valid n ops end.
Proof.
  induction ops as [|o ops IH] using rev_ind; [apply new_inv|].
  rewrite calls_ok_app. destruct (calls_ok (new_builder n) ops) as [b|]; cbn [bind].
  - destruct (step_inv n ops b o IH) as [S1 S2]. destruct (step b o) as [b' []] eqn:E; cbn [fst snd] in *.
    + destruct (S1 (S2 eq_refl)) as (b'' & F & G). injection F as <-. exact G.
    + intros X. apply step_pre_of_valid in X. destruct (S1 (proj2 X)) as (b'' & F & _). discriminate.
  - intros X. apply step_pre_of_valid in X. tauto.
Qed.

(** ** Compile. *)
Definition kind_ok (n : nat) (x : bnode T) : Prop :=
  (exists j, x = {| b_leaf := Some j; b_left := None; b_right := None; b_test := None |}) \/
  (exists l r t, x = {| b_leaf := None; b_left := Some l; b_right := Some r; b_test := Some t |} /\ l < n /\ r < n).
(** How many split nodes come before. *)
Definition rank (ns : list (bnode T)) (i : nat) : nat := length (filter (fun x => negb (nleaf x)) (firstn i ns)).
Lemma node_mapping_nth ns : forall cur i, nth_error (node_mapping ns cur) i =
  option_map (fun x => match b_leaf x with Some k => cleaf_id k | None => csplit_id (cur + rank ns i) end) (nth_error ns i).
Proof.
  induction ns as [|x r IH]; intros cur i; [destruct i; reflexivity|]. cbn [node_mapping]. unfold rank.
  destruct i as [|i].
  - cbn. destruct (b_leaf x); cbn; [reflexivity|]. rewrite Nat.add_0_r. reflexivity.
  - cbn [firstn filter]. unfold nleaf at 1. destruct (b_leaf x) as [k|]; cbn [negb nth_error]; rewrite IH; [reflexivity|].
    destruct (nth_error r i) as [y|]; [|reflexivity]. cbn. destruct (b_leaf y); [reflexivity|]. unfold rank, csplit_id. cbn [length]. apply f_equal. lia.
Qed.
Lemma compile_splits_ok mapping ns n : length mapping = n -> (forall x, In x ns -> kind_ok n x) ->
  exists ss, compile_splits mapping ns = Some ss /\ length ss = length (filter (fun x => negb (nleaf x)) ns) /\
  (forall i l r t, nth_error ns i = Some {| b_leaf := None; b_left := Some l; b_right := Some r; b_test := Some t |} ->
     exists m0 m1, nth_error mapping l = Some m1 /\ nth_error mapping r = Some m0 /\
       nth_error ss (rank ns i) = Some {| c_test := t; c_next0 := m0; c_next1 := m1 |}) /\
  (forall k s, nth_error ss k = Some s -> exists i l r t, nth_error ns i = Some {| b_leaf := None; b_left := Some l; b_right := Some r; b_test := Some t |} /\
     rank ns i = k /\ nth_error mapping l = Some (c_next1 s) /\ nth_error mapping r = Some (c_next0 s) /\ t = c_test s).
Proof.
  intros L. induction ns as [|x r IH]; intros K.
  - exists []. split; [reflexivity|]. split; [reflexivity|]. split; [intros [|i]; discriminate|intros [|k]; discriminate].
  - destruct IH as (ss & E & EL & E1 & E2); [intros; apply K; right; assumption|].
    destruct (K x (or_introl eq_refl)) as [(j & ->)|(l & rr & t & -> & Hl & Hr)]; cbn [compile_splits b_leaf b_left b_right b_test bind].
    + exists ss. split; [exact E|]. split; [exact EL|]. split.
      * intros [|i] l0 r0 t0 N; [discriminate|]. destruct (E1 i l0 r0 t0 N) as (m0 & m1 & A & B & C). exists m0, m1. auto.
      * intros k s N. destruct (E2 k s N) as (i & l0 & r0 & t0 & A & B & C). exists (Datatypes.S i), l0, r0, t0. auto.
    + rewrite <- L in Hl, Hr. destruct (rd_lt mapping l Hl) as [m1 M1]. destruct (rd_lt mapping rr Hr) as [m0 M0]. rewrite M1, M0, E. cbn [bind].
      eexists. split; [reflexivity|]. split; [cbn; rewrite EL; reflexivity|]. split.
      * intros [|i] l0 r0 t0 N.
        -- injection N as <- <- <-. exists m0, m1. auto.
        -- destruct (E1 i l0 r0 t0 N) as (m0' & m1' & A & B & C). exists m0', m1'. split; [exact A|]. split; [exact B|]. exact C.
      * intros [|k] s N.
        -- injection N as <-. exists 0, l, rr, t. auto 8.
        -- destruct (E2 k s N) as (i & l0 & r0 & t0 & A & B & C). exists (Datatypes.S i), l0, r0, t0. split; [exact A|]. split; [|exact C].
           rewrite <- B. reflexivity.
Qed.

Lemma forallb_flags (P : nat -> bool) n l : (forall i, nth_error l i = if i <? n then Some (P i) else None) ->
  (forallb (fun x => x) l = true <-> forall i, i < n -> P i = true).
Proof.
  intros H. rewrite forallb_forall. split.
  - intros A i L. apply A. apply (nth_error_In l i). rewrite H. destruct (Nat.ltb_spec i n); [reflexivity|lia].
  - intros A x X. apply In_nth_error in X. destruct X as [i X]. rewrite H in X. destruct (Nat.ltb_spec i n); [|discriminate].
    injection X as <-. apply A. assumption.
Qed.
Lemma complete_iff n ops b : inv n ops b ->
  (b_nodes b <> [] /\ forallb (fun x => x) (b_child b) && forallb (fun x => x) (b_used b) = true <-> calls_complete n ops).
Proof.
  intros I. rewrite andb_true_iff, (forallb_flags _ _ _ (inv_child _ _ _ I)), (forallb_flags _ _ _ (inv_used _ _ _ I)).
  unfold calls_complete. pose proof (inv_len _ _ _ I) as L. split.
  - intros (A & B & C). split; [destruct (b_nodes b); [congruence|cbn in L; lia]|]. split.
    + intros i X. apply mem_In. apply C. exact X.
    + intros i X. specialize (B i (proj2 X)). apply orb_true_iff in B. destruct B as [B|B]; [lia|]. apply mem_In. exact B.
  - intros (A & B & C). split; [intros X; rewrite X in L; cbn in L; lia|]. split.
    + intros i X. apply orb_true_iff. destruct (Nat.eqb_spec i 0); [left; reflexivity|right]. apply mem_In. apply C. lia.
    + intros i X. apply mem_In. apply B. exact X.
Qed.

Lemma kinds n ops b : inv n ops b -> calls_complete n ops -> forall i x, nth_error (b_nodes b) i = Some x -> kind_ok n x /\
  ((exists j v, x = {| b_leaf := Some j; b_left := None; b_right := None; b_test := None |} /\ In (SetLeaf i v) ops /\ nth_error (b_values b) j = Some v) \/
   (exists l r t, x = {| b_leaf := None; b_left := Some l; b_right := Some r; b_test := Some t |} /\ In (SetNode i l r t) ops)).
Proof.
  intros I (C1 & C2 & C3) i x E.
  assert (L : i < n) by (rewrite <- (inv_len _ _ _ I); apply nth_error_Some; congruence).
  specialize (C2 i L). apply in_map_iff in C2. destruct C2 as ([id l r t|id v] & A & B); cbn in A; subst id.
  - pose proof (inv_node _ _ _ I i l r t B) as N. rewrite E in N. injection N as ->.
    assert (Hl : forall c, c = l \/ c = r -> c < n).
    { intros c Hc. apply (proj2 (proj2 (proj2 (inv_valid _ _ _ I)))). apply in_flat_map. exists (SetNode i l r t). split; [exact B|]. cbn. intuition. }
    split; [right; exists l, r, t; repeat split; apply Hl; tauto|]. right. exists l, r, t. auto.
  - destruct (inv_leaf _ _ _ I i v B) as (j & N & M). rewrite E in N. injection N as ->.
    split; [left; eauto|]. left. exists j, v. auto.
Qed.

Lemma compile_ok n ops b : inv n ops b ->
  (calls_complete n ops -> exists t, compile b = COk t) /\ (~ calls_complete n ops -> exists e, compile b = CErr e) /\
  (forall t, compile b = COk t -> calls_complete n ops /\
    exists ss, compile_splits (node_mapping (b_nodes b) 0) (b_nodes b) = Some ss /\ t = {| c_splits := ss; c_adj := b_values b |}).
Proof.
  intros I. pose proof (complete_iff n ops b I) as C. unfold compile.
  assert (Count : length (b_nodes b) - length (b_values b) = length (filter (fun x => negb (nleaf x)) (b_nodes b))).
  { rewrite <- (inv_count _ _ _ I). pose proof (filter_both nleaf (b_nodes b)). lia. }
  destruct (b_nodes b) as [|x r] eqn:EN.
  - split; [intros X; apply C in X; destruct X as [[] _]; reflexivity|]. split; [intros _; eauto|]. discriminate.
  - destruct (forallb (fun x => x) (b_child b) && forallb (fun x => x) (b_used b)) eqn:F.
    + assert (CC : calls_complete n ops) by (apply C; split; [discriminate|reflexivity]). rewrite <- EN in *.
      destruct (compile_splits_ok (node_mapping (b_nodes b) 0) (b_nodes b) n) as (ss & E & EL & _).
      * assert (A : forall ns cur, length (@node_mapping T ns cur) = length ns) by (induction ns as [|y q IHq]; intros cur; cbn; [reflexivity|]; destruct (b_leaf y); cbn; rewrite IHq; reflexivity).
        rewrite A. apply (inv_len _ _ _ I).
      * intros y Y. apply In_nth_error in Y. destruct Y as [i Y]. apply (kinds n ops b I CC i y Y).
      * rewrite E, EL, Count, Nat.eqb_refl. split; [eauto|]. split; [tauto|]. intros t T'. injection T' as <-. split; [exact CC|]. eauto.
    + split; [intros X; apply C in X; destruct X; discriminate|]. split; [eauto|discriminate].
Qed.

(** ** Predictions. *)
Section pred.
Variables (n : nat) (ops : list (bop T V)) (b : builder T V) (ss : list (csplit T)) (ev : T -> bool).
Hypothesis I : inv n ops b.
Hypothesis CC : calls_complete n ops.
Hypothesis E : compile_splits (node_mapping (b_nodes b) 0) (b_nodes b) = Some ss.
Let mapping := node_mapping (b_nodes b) 0.
Let t : ctree T V := {| c_splits := ss; c_adj := b_values b |}.

Lemma mapping_len : length mapping = n.
Proof.
  assert (A : forall ns cur, length (@node_mapping T ns cur) = length ns) by (induction ns as [|y q IHq]; intros cur; cbn; [reflexivity|]; destruct (b_leaf y); cbn; rewrite IHq; reflexivity).
  unfold mapping. rewrite A. apply (inv_len _ _ _ I).
Qed.
Lemma ss_spec : length ss = length (filter (fun x => negb (nleaf x)) (b_nodes b)) /\
  (forall i l r t, nth_error (b_nodes b) i = Some {| b_leaf := None; b_left := Some l; b_right := Some r; b_test := Some t |} ->
     exists m0 m1, nth_error mapping l = Some m1 /\ nth_error mapping r = Some m0 /\
       nth_error ss (rank (b_nodes b) i) = Some {| c_test := t; c_next0 := m0; c_next1 := m1 |}) /\
  (forall k s, nth_error ss k = Some s -> exists i l r t, nth_error (b_nodes b) i = Some {| b_leaf := None; b_left := Some l; b_right := Some r; b_test := Some t |} /\
     rank (b_nodes b) i = k /\ nth_error mapping l = Some (c_next1 s) /\ nth_error mapping r = Some (c_next0 s) /\ t = c_test s).
Proof.
  destruct (compile_splits_ok mapping (b_nodes b) n mapping_len) as (ss' & E' & A).
  - intros y Y. apply In_nth_error in Y. destruct Y as [i Y]. apply (kinds n ops b I CC i y Y).
  - unfold mapping in E'. rewrite E in E'. injection E' as ->. exact A.
Qed.
Lemma rank_mono (ns : list (bnode T)) i j x : i < j -> nth_error ns i = Some x -> nleaf x = false -> rank ns i < rank ns j.
Proof.
  intros L N F. unfold rank. revert i j L N. induction ns as [|y r IH]; intros i j L N; [destruct i; discriminate|].
  destruct j as [|j]; [lia|]. destruct i as [|i]; cbn [nth_error] in N.
  - injection N as ->. cbn. rewrite F. cbn. lia.
  - cbn [firstn filter]. specialize (IH i j ltac:(lia) N). destruct (negb (nleaf y)); cbn; lia.
Qed.
Lemma rank_lt_ss i l r tt : nth_error (b_nodes b) i = Some {| b_leaf := None; b_left := Some l; b_right := Some r; b_test := Some tt |} -> rank (b_nodes b) i < length ss.
Proof. intros N. destruct ss_spec as (_ & A & _). destruct (A i l r tt N) as (m0 & m1 & _ & _ & B). apply nth_error_Some. congruence. Qed.

(** The compiled node of a node. *)
Lemma map_node i l r tt : In (SetNode i l r tt) ops -> exists m0 m1, nth_error mapping i = Some (csplit_id (rank (b_nodes b) i)) /\
  nth_error mapping l = Some m1 /\ nth_error mapping r = Some m0 /\
  nth_error ss (rank (b_nodes b) i) = Some {| c_test := tt; c_next0 := m0; c_next1 := m1 |}.
Proof.
  intros O. pose proof (inv_node _ _ _ I i l r tt O) as N. destruct ss_spec as (_ & A & _). destruct (A i l r tt N) as (m0 & m1 & B & C & D).
  exists m0, m1. split; [|auto]. unfold mapping. rewrite node_mapping_nth, N. reflexivity.
Qed.
Lemma map_leaf i v : In (SetLeaf i v) ops -> exists j, nth_error mapping i = Some (cleaf_id j) /\ nth_error (b_values b) j = Some v.
Proof.
  intros O. destruct (inv_leaf _ _ _ I i v O) as (j & N & M). exists j. split; [|exact M]. unfold mapping. rewrite node_mapping_nth, N. reflexivity.
Qed.
Lemma predict_follows i v : follows ops ev i v -> forall m, nth_error mapping i = Some m ->
  exists k, forall fuel, k <= fuel -> predict_from ev t fuel m = Done v.
Proof.
  intros F. induction F as [i v O|i l r tt v O F IH]; intros m M.
  - destruct (map_leaf i v O) as (j & A & B). rewrite M in A. injection A as ->. exists 0. intros fuel _.
    assert (G : get_value t (cleaf_id j) = Some v).
    { unfold get_value, cleaf_id. replace (- (- Z.of_nat j - 1) - 1)%Z with (Z.of_nat j) by lia. rewrite zrd_nat. exact B. }
    unfold cleaf_id in *. destruct fuel; cbn [predict_from]; unfold can_step; destruct (Z.ltb_spec (- Z.of_nat j - 1) 0); try lia; cbn [negb]; rewrite G; reflexivity.
  - destruct (map_node i l r tt O) as (m0 & m1 & A & B & C & D). rewrite M in A. injection A as ->.
    assert (N : nth_error mapping (if ev tt then l else r) = Some (if ev tt then m1 else m0)) by (destruct (ev tt); assumption).
    destruct (IH _ N) as [k K]. exists (Datatypes.S k). intros [|fuel] L; [lia|]. cbn [predict_from]. unfold can_step, csplit_id.
    destruct (Z.ltb_spec (Z.of_nat (rank (b_nodes b) i)) 0); [lia|]. cbn [negb]. unfold make_step. rewrite zrd_nat. cbn [c_splits t].
    replace (nth_error ss (rank (b_nodes b) i)) with (Some {| c_test := tt; c_next0 := m0; c_next1 := m1 |}) by (symmetry; exact D).
    cbn [bind c_test c_next0 c_next1]. apply K. lia.
Qed.

(** The described tree is finite below node 0. *)
Definition as_snodes : list snode :=
  map (fun s => {| n_false := c_next0 s; n_true := c_next1 s; n_cond := Other 0 |}) ss.
Lemma as_children c : In c (children as_snodes) <-> exists s, In s ss /\ (c = c_next0 s \/ c = c_next1 s).
Proof.
  unfold as_snodes. rewrite children_In. split.
  - intros (x & X & Y). apply in_map_iff in X. destruct X as (s & <- & S). exists s. auto.
  - intros (s & S & Y). eexists. split; [apply in_map_iff; exists s; split; [reflexivity|exact S]|]. exact Y.
Qed.
Lemma map_inj i j k : nth_error mapping i = Some k -> nth_error mapping j = Some k -> (0 <= k)%Z -> i = j.
Proof.
  unfold mapping. rewrite !node_mapping_nth. destruct (nth_error (b_nodes b) i) as [x|] eqn:X; [|discriminate].
  destruct (nth_error (b_nodes b) j) as [y|] eqn:Y; [|discriminate]. cbn [option_map]. intros A B P.
  injection A as A. injection B as B. unfold cleaf_id, csplit_id in *. destruct (b_leaf x) eqn:LX; [lia|]. destruct (b_leaf y) eqn:LY; [lia|].
  assert (R : rank (b_nodes b) i = rank (b_nodes b) j) by lia.
  destruct (Nat.lt_trichotomy i j) as [L|[L|L]]; [|exact L|]; exfalso.
  - pose proof (rank_mono (b_nodes b) i j x L X) as M. unfold nleaf in M. rewrite LX in M. specialize (M eq_refl). lia.
  - pose proof (rank_mono (b_nodes b) j i y L Y) as M. unfold nleaf in M. rewrite LY in M. specialize (M eq_refl). lia.
Qed.
Lemma map_split_range i k : nth_error mapping i = Some k -> (0 <= k)%Z -> (k < Z.of_nat (length ss))%Z.
Proof.
  unfold mapping. rewrite node_mapping_nth. destruct (nth_error (b_nodes b) i) as [x|] eqn:X; [|discriminate].
  cbn [option_map]. intros A P. injection A as A. unfold cleaf_id, csplit_id in A.
  destruct (kinds n ops b I CC i x X) as [[(j & ->)|(l & r & tt & -> & _)] _]; cbn [b_leaf] in A; [lia|].
  pose proof (rank_lt_ss i l r tt X). lia.
Qed.

Lemma kids_nodes i l r tt : In (SetNode i l r tt) ops -> (0 < l < n /\ 0 < r < n) /\ In l (kids ops) /\ In r (kids ops).
Proof.
  intros O. pose proof (proj2 (proj2 (proj2 (inv_valid _ _ _ I)))) as V0.
  assert (A : In l (kids ops)) by (apply in_flat_map; eexists; split; [exact O|cbn; auto]).
  assert (B : In r (kids ops)) by (apply in_flat_map; eexists; split; [exact O|cbn; auto]).
  split; [split; apply V0; assumption|]. split; assumption.
Qed.
(** A child has one parent, on one side. *)
Lemma kids_once i l r tt i' l' r' tt' : In (SetNode i l r tt) ops -> In (SetNode i' l' r' tt') ops ->
  (l = l' -> i = i') /\ (r = r' -> i = i') /\ l <> r'.
Proof.
  pose proof (proj1 (proj2 (proj2 (inv_valid _ _ _ I)))) as ND. pose proof (proj1 (inv_valid _ _ _ I)) as NI.
  assert (G : forall q : list (bop T V), NoDup (kids q) -> NoDup (ids q) -> In (SetNode i l r tt) q -> In (SetNode i' l' r' tt') q ->
    (l = l' -> i = i') /\ (r = r' -> i = i') /\ l <> r').
  { assert (Sub : forall q i l r tt, In (SetNode (T := T) (V := V) i l r tt) q -> In l (kids q) /\ In r (kids q)).
    { intros q i0 l0 r0 tt0 Q. split; apply in_flat_map; eexists; (split; [exact Q|cbn; auto]). }
    induction q as [|o q IH]; [intros _ _ []|]. intros K D. cbn in D. inversion D as [|? ? D1 D2]; subst.
    assert (Kq : NoDup (kids q)).
    { destruct o; cbn in K; [inversion K as [|? ? K1 K2]; inversion K2; assumption|exact K]. }
    intros [O|O] [O'|O'].
    - rewrite O in O'. injection O' as <- <- <- <-. subst o. cbn in K. inversion K as [|? ? K1 K2]; subst. cbn in K1.
      split; [auto|]. split; [auto|]. intros <-. apply K1. left. reflexivity.
    - subst o. cbn in K. inversion K as [|? ? K1 K2]; subst. inversion K2 as [|? ? K3 K4]; subst. destruct (Sub q _ _ _ _ O') as [S1 S2]. cbn in K1.
      split; [intros <-; tauto|]. split; [intros <-; tauto|]. intros <-. tauto.
    - subst o. cbn in K. inversion K as [|? ? K1 K2]; subst. inversion K2 as [|? ? K3 K4]; subst. destruct (Sub q _ _ _ _ O) as [S1 S2]. cbn in K1.
      split; [intros <-; tauto|]. split; [intros <-; tauto|]. intros <-. tauto.
    - apply IH; assumption. }
  intros O O'. apply (G ops ND NI O O').
Qed.
Lemma node_of_split k s : nth_error ss k = Some s -> exists i l r tt, In (SetNode i l r tt) ops /\ rank (b_nodes b) i = k /\
  nth_error mapping l = Some (c_next1 s) /\ nth_error mapping r = Some (c_next0 s).
Proof.
  intros S. destruct ss_spec as (_ & _ & A). destruct (A k s S) as (i & l & r & tt & N & R & M1 & M0 & Tt).
  exists i, l, r, tt. split; [|auto].
  destruct (kinds n ops b I CC i _ N) as [_ [(j & v & X & _)|(l' & r' & t' & X & Y)]]; [discriminate|]. injection X as <- <- <-. exact Y.
Qed.
Lemma as_nodup : NoDup (split_children as_snodes).
Proof.
  assert (G : forall q p, ss = p ++ q -> NoDup (split_children (map (fun s => {| n_false := c_next0 s; n_true := c_next1 s; n_cond := Other 0 |}) q)) /\
    forall c, In c (split_children (map (fun s => {| n_false := c_next0 s; n_true := c_next1 s; n_cond := Other 0 |}) q)) ->
      exists k s, length p <= k /\ nth_error ss k = Some s /\ (c = c_next0 s \/ c = c_next1 s)).
  { induction q as [|s q IH]; intros p P; [split; [constructor|intros c []]|].
    destruct (IH (p ++ [s])) as [IH1 IH2]; [rewrite P, <- app_assoc; reflexivity|].
    assert (Sk : nth_error ss (length p) = Some s) by (rewrite P, nth_error_app2, Nat.sub_diag by lia; reflexivity).
    destruct (node_of_split _ _ Sk) as (i & l & r & tt & O & R & M1 & M0).
    assert (Fresh : forall c, (0 <= c)%Z -> c = c_next0 s \/ c = c_next1 s ->
      ~ In c (split_children (map (fun s => {| n_false := c_next0 s; n_true := c_next1 s; n_cond := Other 0 |}) q))).
    { intros c Pc C X. destruct (IH2 c X) as (k & s' & K & S' & C'). rewrite app_length in K. cbn in K.
      destruct (node_of_split _ _ S') as (i' & l' & r' & tt' & O' & R' & M1' & M0').
      destruct (kids_once _ _ _ _ _ _ _ _ O O') as (H1 & H2 & H3). destruct (kids_once _ _ _ _ _ _ _ _ O' O) as (H1' & H2' & H3').
      assert (i <> i') by (intros <-; lia).
      destruct C as [-> | ->], C' as [C'|C'].
      - apply H. apply H2. rewrite <- C' in M0'. eapply map_inj; eassumption.
      - apply H3'. rewrite <- C' in M1'. eapply map_inj; eassumption.
      - apply H3. rewrite <- C' in M0'. eapply map_inj; eassumption.
      - apply H. apply H1. rewrite <- C' in M1'. eapply map_inj; eassumption. }
    unfold split_children in *. cbn [map]. change (children (?a :: ?z)) with (n_false a :: n_true a :: children z). cbn [filter n_false n_true].
    split.
    - assert (LR : (0 <= c_next0 s)%Z -> c_next0 s <> c_next1 s).
      { intros Pc Q. destruct (kids_once _ _ _ _ _ _ _ _ O O) as (_ & _ & H3). apply H3. rewrite <- Q in M1. eapply map_inj; eassumption. }
      destruct (Z.leb_spec 0 (c_next0 s)), (Z.leb_spec 0 (c_next1 s)).
      + constructor; [intros [X|X]; [symmetry in X; apply LR; assumption|]; revert X; apply Fresh; auto|]. constructor; [apply Fresh; auto|exact IH1].
      + constructor; [apply Fresh; auto|exact IH1].
      + constructor; [apply Fresh; auto|exact IH1].
      + exact IH1.
    - intros c C. assert (D : c = c_next0 s \/ c = c_next1 s \/ In c (filter (fun c => (0 <=? c)%Z) (children (map (fun s => {| n_false := c_next0 s; n_true := c_next1 s; n_cond := Other 0 |}) q)))).
      { destruct (0 <=? c_next0 s)%Z, (0 <=? c_next1 s)%Z; cbn in C; intuition. }
      destruct D as [D|[D|D]].
      + exists (length p), s. auto.
      + exists (length p), s. auto.
      + destruct (IH2 c D) as (k & s' & K & S' & C'). exists k, s'. rewrite app_length in K. cbn in K. split; [lia|auto]. }
  apply (G ss []). reflexivity.
Qed.
Lemma as_range c : In c (children as_snodes) -> (c < Z.of_nat (length as_snodes))%Z.
Proof.
  intros C. apply as_children in C. destruct C as (s & S & C). unfold as_snodes. rewrite map_length.
  destruct (Z.ltb_spec c 0); [lia|]. apply In_nth_error in S. destruct S as [k S].
  destruct (node_of_split _ _ S) as (i & l & r & tt & O & R & M1 & M0).
  destruct C as [-> | ->]; eapply map_split_range; eassumption.
Qed.
Lemma as_no_root l r tt : In (SetNode 0 l r tt) ops -> ~ In 0%Z (children as_snodes).
Proof.
  intros O C. apply as_children in C. destruct C as (s & S & C). apply In_nth_error in S. destruct S as [k S].
  destruct (node_of_split _ _ S) as (i & l' & r' & tt' & O' & R & M1 & M0).
  destruct (map_node 0 l r tt O) as (m0 & m1 & A & _). unfold rank in A. cbn in A. unfold csplit_id in A. cbn in A.
  destruct (kids_nodes _ _ _ _ O') as [[Q1 Q2] _].
  destruct C as [C|C]; rewrite <- C in *.
  - assert (r' = 0); [|lia]. eapply map_inj; [exact M0|exact A|lia].
  - assert (l' = 0); [|lia]. eapply map_inj; [exact M1|exact A|lia].
Qed.
(** Every node of a finite part has a value. *)
Lemma follows_of_unfolds id d : unfolds as_snodes id d -> forall i, nth_error mapping i = Some id -> exists v, follows ops ev i v.
Proof.
  intros U. induction U as [id L|k x f d N U1 IH1 U2 IH2]; intros i M.
  - assert (Li : i < n) by (rewrite <- mapping_len; apply nth_error_Some; congruence).
    destruct (rd_lt (b_nodes b) i) as [x X]; [rewrite (inv_len _ _ _ I); exact Li|]. unfold rd in X.
    destruct (kinds n ops b I CC i x X) as [_ [(j & v & -> & O & _)|(l & r & tt & -> & O)]].
    + exists v. apply fol_leaf. exact O.
    + destruct (map_node i l r tt O) as (m0 & m1 & A & _). rewrite M in A. injection A as ->. unfold csplit_id in L. lia.
  - unfold as_snodes in N. rewrite nth_error_map in N. destruct (nth_error ss k) as [s|] eqn:S; [|discriminate]. cbn in N. injection N as <-.
    cbn [n_false n_true] in *. destruct (node_of_split k s S) as (i' & l & r & tt & O & R & M1 & M0).
    destruct (map_node i' l r tt O) as (m0 & m1 & A & _). rewrite R in A. fold (csplit_id k) in M.
    assert (i = i') by (eapply map_inj; [exact M|exact A|unfold csplit_id; lia]). subst i'.
    destruct (ev tt) eqn:Et.
    + destruct (IH2 l M1) as [v F]. exists v. eapply fol_node; [exact O|]. rewrite Et. exact F.
    + destruct (IH1 r M0) as [v F]. exists v. eapply fol_node; [exact O|]. rewrite Et. exact F.
Qed.
Lemma root_mapping : (n = 1 \/ exists l r tt, In (SetNode 0 l r tt) ops) -> nth_error mapping 0 = Some (croot t).
Proof.
  intros G. destruct CC as (C1 & C2 & C3). assert (C20 := C2 0 C1). apply in_map_iff in C20. destruct C20 as ([id l r tt|id v] & A & B); cbn in A; subst id.
  - destruct (map_node 0 l r tt B) as (m0 & m1 & A & _ & _ & D). unfold croot. cbn [c_splits t]. destruct ss; [destruct (rank (b_nodes b) 0); discriminate|]. exact A.
  - destruct G as [G|(l & r & tt & G)].
    + assert (S0 : ss = []).
      { apply length_zero_iff_nil. destruct (nth_error ss 0) as [s|] eqn:S; [|apply nth_error_None in S; lia]. exfalso.
        destruct (node_of_split 0 s S) as (i & l & r & tt & O & _). destruct (kids_nodes _ _ _ _ O) as [[Q _] _]. lia. }
      destruct (map_leaf 0 v B) as (j & A & Bj). rewrite A. unfold croot. cbn [c_splits t]. rewrite S0.
      assert (j = 0); [|subst; reflexivity].
      pose proof (inv_count _ _ _ I) as Ct. pose proof (inv_len _ _ _ I) as Ln. assert (j < length (b_values b)) by (apply nth_error_Some; congruence).
      pose proof (filter_both nleaf (b_nodes b)). lia.
    + pose proof (inv_node _ _ _ I 0 l r tt G) as N. destruct (inv_leaf _ _ _ I 0 v B) as (j & N' & _). congruence.
Qed.
Lemma compile_predicts : (n = 1 \/ exists l r tt, In (SetNode 0 l r tt) ops) ->
  exists v, follows ops ev 0 v /\ exists k, forall fuel, k <= fuel -> predict ev t fuel = Done v.
Proof.
  intros G. pose proof (root_mapping G) as M. enough (exists v, follows ops ev 0 v) as [v F].
  { exists v. split; [exact F|]. apply (predict_follows 0 v F _ M). }
  assert (D : exists d, unfolds as_snodes (croot t) d).
  { unfold croot. destruct (c_splits t) as [|s q] eqn:S; [eexists; apply unf_leaf; unfold cleaf_id; lia|].
    destruct CC as (C1 & C2 & C3). cbn [c_splits t] in S.
    destruct G as [G|(l & r & tt & G)].
    - exfalso. destruct (node_of_split 0 s) as (i & l & r & tt & O & _); [rewrite S; reflexivity|].
      destruct (kids_nodes _ _ _ _ O) as [[Q _] _]. lia.
    - change (csplit_id 0) with (Z.of_nat 0). eapply (finite_from as_snodes as_range as_nodup (as_no_root l r tt G) _ 0 0); [constructor| |reflexivity].
      unfold as_snodes. rewrite map_length, S. cbn. lia. }
  destruct D as [d D]. apply (follows_of_unfolds _ _ D 0 M).
Qed.
End pred.
End calls.

(** ** The boosted predictor. *)
Definition settles {T V} (ev : T -> bool) (t : ctree T V) (v : V) : Prop := exists k, forall fuel, k <= fuel -> predict ev t fuel = Done v.

Section boost.
Variables (T V R : Type) (op : R -> V -> R) (ev : T -> bool).
Lemma added_app s vs1 vs2 r1 r2 : added op s vs1 r1 -> added op r1 vs2 r2 -> added op s (vs1 ++ vs2) r2.
Proof.
  intros (l1 & P1 & ->) (l2 & P2 & ->). exists (l1 ++ l2). split; [apply Permutation_app; assumption|]. rewrite fold_left_app. reflexivity.
Qed.
Lemma added_perm s vs vs' r : Permutation vs vs' -> added op s vs r -> added op s vs' r.
Proof. intros P (l & Q & E). exists l. split; [rewrite Q; exact P|exact E]. Qed.

Lemma pass_ok k (act : list (ctree T V * Z)) vs : Forall2 (fun x v => predict_from ev (fst x) k (snd x) = Done v) act vs ->
  forall start, exists act' fin rest, pass op ev act start = Some (act', fold_left op fin start) /\ Permutation (fin ++ rest) vs /\
    Forall2 (fun x v => exists j, k = Datatypes.S j /\ predict_from ev (fst x) j (snd x) = Done v) act' rest.
Proof.
  intros F. induction F as [|[t id] v act vs H F IH]; intros start; cbn [pass].
  - exists [], [], []. repeat split; constructor.
  - cbn [fst snd] in H. destruct (can_step id) eqn:C.
    + destruct k as [|k]; cbn [predict_from] in H; rewrite C in H; [discriminate|].
      destruct (make_step ev t id) as [id'|]; [|discriminate]. cbn [bind].
      destruct (IH start) as (act' & fin & rest & E & P & G). rewrite E. cbn [bind fst snd].
      exists ((t, id') :: act'), fin, (v :: rest). split; [reflexivity|]. split.
      * rewrite <- Permutation_middle. constructor. exact P.
      * constructor; [exists k; split; [reflexivity|exact H]|exact G].
    + assert (G0 : get_value t id = Some v) by (destruct k; cbn [predict_from] in H; rewrite C in H; destruct (get_value t id); congruence).
      rewrite G0. cbn [bind]. destruct (IH (op start v)) as (act' & fin & rest & E & P & G). rewrite E.
      exists act', (v :: fin), rest. split; [reflexivity|]. split; [cbn; constructor; exact P|exact G].
Qed.
Lemma drain_ok k : forall (act : list (ctree T V * Z)) vs, Forall2 (fun x v => predict_from ev (fst x) k (snd x) = Done v) act vs ->
  forall start fuel, k < fuel -> exists r, drain op ev fuel act start = Done r /\ added op start vs r.
Proof.
  induction k as [|k IH]; intros act vs F start fuel L.
  - destruct (pass_ok 0 act vs F start) as (act' & fin & rest & E & P & G).
    destruct G as [|? ? ? ? (j & X & _) _]; [|discriminate]. rewrite app_nil_r in P.
    destruct act as [|a act].
    + inversion F; subst. exists start. split; [destruct fuel; reflexivity|]. exists []. split; [constructor|reflexivity].
    + destruct fuel as [|fuel]; [lia|]. cbn [drain]. rewrite E. exists (fold_left op fin start). split; [destruct fuel; reflexivity|]. exists fin. auto.
  - destruct (pass_ok (Datatypes.S k) act vs F start) as (act' & fin & rest & E & P & G).
    destruct act as [|a act].
    + inversion F; subst. exists start. split; [destruct fuel; reflexivity|]. exists []. split; [constructor|reflexivity].
    + destruct fuel as [|fuel]; [lia|]. cbn [drain]. rewrite E.
      assert (G' : Forall2 (fun x v => predict_from ev (fst x) k (snd x) = Done v) act' rest).
      { clear - G. induction G as [|x v act' rest (j & X & Y) G IH]; constructor; [|exact IH]. injection X as ->. exact Y. }
      destruct (IH act' rest G' (fold_left op fin start) fuel) as (r & D & A); [lia|]. exists r. split; [exact D|].
      eapply added_perm; [exact P|]. eapply added_app; [|exact A]. exists fin. split; reflexivity.
Qed.

Lemma settle_all (ts : list (ctree T V)) vs : Forall2 (settles ev) ts vs ->
  exists k, Forall2 (fun t v => forall fuel, k <= fuel -> predict ev t fuel = Done v) ts vs.
Proof.
  intros F. induction F as [|t v ts vs [k K] F [m IH]]; [exists 0; constructor|].
  exists (Nat.max k m). constructor; [intros fuel L; apply K; lia|].
  clear - IH. induction IH as [|t v ts vs H F G]; constructor; [|exact G]. intros fuel L. apply H. lia.
Qed.
Variable Tag : Type.
Variable flt : Tag -> bool.
Definition kept (trees : list (ctree T V * Tag)) : list (ctree T V) := map fst (filter (fun x => flt (snd x)) trees).
Lemma batches_ok k m : forall (trees : list (ctree T V * Tag)) vs, length trees <= m ->
  Forall2 (fun t v => forall fuel, k <= fuel -> predict ev t fuel = Done v) (kept trees) vs ->
  forall fuel start, k < fuel -> exists r, batches op Tag ev flt fuel m trees start = Done r /\ added op start vs r.
Proof.
  induction m as [|m IH]; intros trees vs L F fuel start K.
  - destruct trees; [|cbn in L; lia]. inversion F; subst. exists start. split; [reflexivity|]. exists []. split; [constructor|reflexivity].
  - destruct trees as [|x trees].
    + inversion F; subst. exists start. split; [reflexivity|]. exists []. split; [constructor|reflexivity].
    + cbn [batches]. set (all := x :: trees) in *.
      assert (Sp : kept all = kept (firstn 16 all) ++ kept (skipn 16 all)).
      { unfold kept. rewrite <- map_app, <- filter_app, firstn_skipn. reflexivity. }
      rewrite Sp in F. apply Forall2_app_inv_l in F. destruct F as (vs1 & vs2 & F1 & F2 & ->).
      destruct (drain_ok k (map (fun x => (fst x, croot (fst x))) (filter (fun x => flt (snd x)) (firstn 16 all))) vs1) with (start := start) (fuel := fuel) as (r1 & D & A); [|exact K|].
      { unfold kept in F1. clear - F1. revert vs1 F1. induction (filter (fun x => flt (snd x)) (firstn 16 all)) as [|y q IHq]; intros vs1 F1; inversion F1; subst; constructor.
        - cbn. match goal with H : forall fuel, _ |- _ => apply (H k); lia end.
        - apply IHq. assumption. }
      rewrite D. assert (LL : length (skipn 16 all) <= m) by (rewrite skipn_length; cbn [length all] in *; lia).
      destruct (IH (skipn 16 all) vs2 LL F2 fuel r1 K) as (r & B & C). exists r. split; [exact B|]. eapply added_app; eassumption.
Qed.
Lemma boosted_ok (trees : list (ctree T V * Tag)) vs : Forall2 (settles ev) (kept trees) vs ->
  exists k, forall start fuel, k <= fuel -> exists r, boosted op Tag ev flt fuel trees start = Done r /\ added op start vs r.
Proof.
  intros F. destruct (settle_all _ _ F) as [k K]. exists (Datatypes.S k). intros start fuel L.
  apply (batches_ok k (length trees) trees vs); [lia|exact K|lia].
Qed.
Lemma added_comm s vs r : (forall a x y, op (op a x) y = op (op a y) x) -> added op s vs r -> r = fold_left op vs s.
Proof.
  intros C (l & P & ->). revert s. induction P as [|x l l' P IH|x y l|l l1 l2 P1 IH1 P2 IH2]; intros s; cbn.
  - reflexivity.
  - apply IH.
  - rewrite C. reflexivity.
  - rewrite IH1. apply IH2.
Qed.
End boost.

(** ** The trees of a forest. *)
Section forest.
Variable V : Type.
Variable vo : vops V.
Variable t : tree V.
Hypothesis Sh : shape_ok t.
Let n := length (t_nodes t).
Let m := length (t_adj t).
Let ops := tree_calls vo t.

Lemma map_combine_fst {A B C} (f : A -> C) (l : list A) (l' : list B) : length l = length l' -> map (fun '(a, b) => f a) (combine l l') = map f l.
Proof. revert l'. induction l as [|a l IH]; intros [|b l'] L; cbn in *; try reflexivity; try lia. rewrite IH by lia. reflexivity. Qed.
Lemma flat_map_combine_snd {A B C} (f : B -> list C) (l : list A) (l' : list B) : length l = length l' -> flat_map (fun '(a, b) => f b) (combine l l') = flat_map f l'.
Proof. revert l'. induction l as [|a l IH]; intros [|b l'] L; cbn in *; try reflexivity; try lia. rewrite IH by lia. reflexivity. Qed.
Lemma tree_ids : ids ops = seq 0 (n + m).
Proof.
  unfold ids, ops, tree_calls. rewrite map_app, !map_map.
  assert (A : map (fun x => op_id (let '(id, x0) := x in SetNode id (child_number t (n_true x0)) (child_number t (n_false x0)) (n_cond x0) : bop cond V)) (combine (seq 0 (length (t_nodes t))) (t_nodes t)) = seq 0 n).
  { transitivity (map (fun '(a, b) => (fun i : nat => i) a) (combine (seq 0 (length (t_nodes t))) (t_nodes t))).
    - apply map_ext. intros [a b]. reflexivity.
    - rewrite map_combine_fst by apply seq_length. apply map_id. }
  rewrite A. rewrite seq_app. f_equal.
  transitivity (map (fun '(a, b) => (fun i : nat => i + n) a) (combine (seq 0 (length (t_adj t))) (t_adj t))).
  - apply map_ext. intros [a b]. reflexivity.
  - rewrite map_combine_fst by apply seq_length. cbn [Nat.add]. fold m.
    assert (G : forall s q, map (fun i => i + n) (seq s q) = seq (s + n) q) by (intros s q; revert s; induction q as [|q IHq]; intros s; cbn; [reflexivity|]; rewrite IHq; reflexivity).
    rewrite G. reflexivity.
Qed.
Lemma flat_map_map {A B C} (f : A -> B) (g : B -> list C) l : flat_map g (map f l) = flat_map (fun x => g (f x)) l.
Proof. induction l as [|x l IH]; cbn; [reflexivity|]. rewrite IH. reflexivity. Qed.
Lemma tree_kids : Permutation (kids ops) (map (child_number t) (children (t_nodes t))).
Proof.
  unfold kids, ops, tree_calls. rewrite flat_map_app, !flat_map_map.
  assert (Z0 : flat_map (fun x : nat * V => op_children (let '(i, a) := x in SetLeaf (i + length (t_nodes t)) (vmul vo a (t_weight t)) : bop cond V)) (combine (seq 0 (length (t_adj t))) (t_adj t)) = []).
  { induction (combine (seq 0 (length (t_adj t))) (t_adj t)) as [|[a b] q IH]; cbn; [reflexivity|exact IH]. }
  rewrite Z0, app_nil_r.
  transitivity (flat_map (fun '(a, b) => (fun x => [child_number t (n_true x); child_number t (n_false x)]) b) (combine (seq 0 (length (t_nodes t))) (t_nodes t))).
  { match goal with |- Permutation ?a ?b => replace a with b; [reflexivity|] end. apply flat_map_ext. intros [a b]. reflexivity. }
  rewrite flat_map_combine_snd by apply seq_length. unfold children. clear Z0.
  induction (t_nodes t) as [|x r IH]; [constructor|]. cbn. rewrite IH. apply perm_swap.
Qed.
Lemma child_number_ok c : In c (children (t_nodes t)) -> child_number t c < n + m /\ (child_number t c = 0 <-> c = 0%Z).
Proof.
  intros C. destruct Sh as (_ & _ & L & H). pose proof (proj1 (shape_children t L) H c C) as R.
  assert (N : 0 < n) by (unfold n; destruct (t_nodes t); [destruct C|cbn; lia]).
  unfold child_number, is_leaf, adjustment_index. fold n in R, L |- *. fold m in R, L. destruct (Z.ltb_spec c 0); split; lia.
Qed.
Lemma child_number_inj c c' : In c (children (t_nodes t)) -> In c' (children (t_nodes t)) -> child_number t c = child_number t c' -> c = c'.
Proof.
  intros C C'. destruct Sh as (_ & _ & L & H). pose proof (proj1 (shape_children t L) H c C) as R. pose proof (proj1 (shape_children t L) H c' C') as R'.
  unfold child_number, is_leaf, adjustment_index. fold n in R, R', L |- *. fold m in R, R', L. destruct (Z.ltb_spec c 0), (Z.ltb_spec c' 0); lia.
Qed.
Lemma NoDup_map_in {A B} (f : A -> B) l : (forall x y, In x l -> In y l -> f x = f y -> x = y) -> (NoDup (map f l) <-> NoDup l).
Proof.
  intros I. split; [apply NoDup_map_inv|]. induction l as [|x l IH]; intros D; cbn; [constructor|].
  inversion D as [|? ? D1 D2]; subst. constructor.
  - intros X. apply in_map_iff in X. destruct X as (y & E & Y). assert (y = x) by (apply I; cbn; auto). subst y. contradiction.
  - apply IH; [|exact D2]. intros a b A0 B0. apply I; cbn; auto.
Qed.
Lemma tree_calls_valid : calls_valid (n + m) ops <-> NoDup (children (t_nodes t)) /\ ~ In 0%Z (children (t_nodes t)).
Proof.
  unfold calls_valid. rewrite tree_ids. pose proof tree_kids as P. split.
  - intros (_ & _ & K & R). split.
    + apply (NoDup_map_in (child_number t)); [intros; apply child_number_inj; assumption|]. eapply Permutation_NoDup; eassumption.
    + intros C. assert (X : In (child_number t 0) (kids ops)) by (eapply Permutation_in; [symmetry; exact P|apply in_map; exact C]).
      apply R in X. destruct (child_number_ok 0 C) as [_ Y]. assert (child_number t 0 = 0) by (apply Y; reflexivity). lia.
  - intros [D N]. split; [apply seq_NoDup|]. split; [intros i X; apply in_seq in X; lia|]. split.
    + eapply Permutation_NoDup; [symmetry; exact P|]. apply NoDup_map_in; [intros; apply child_number_inj; assumption|exact D].
    + intros i X. apply (Permutation_in _ P) in X. apply in_map_iff in X. destruct X as (c & <- & C).
      destruct (child_number_ok c C) as [A B]. split; [|exact A]. destruct (child_number t c) eqn:E; [|lia].
      exfalso. apply N. rewrite <- (proj1 B eq_refl). exact C.
Qed.
Lemma children_length ns : length (children ns) = 2 * length ns.
Proof. unfold children. induction ns as [|x r IH]; cbn in *; [reflexivity|]. rewrite IH. lia. Qed.
Lemma tree_calls_complete : calls_valid (n + m) ops -> calls_complete (n + m) ops.
Proof.
  intros (D & R & K & KR). destruct Sh as (_ & _ & L & _). fold n m in L. split; [lia|]. split.
  - intros i X. rewrite tree_ids. apply in_seq. lia.
  - intros i X.
    assert (Len : length (kids ops) = 2 * n) by (rewrite (Permutation_length tree_kids), map_length; apply children_length).
    assert (In i (seq 1 (2 * n)) -> In i (kids ops)) as G.
    { apply (NoDup_length_incl (l := kids ops)); [exact K|rewrite seq_length; lia|]. intros j J. apply KR in J. apply in_seq. lia. }
    apply G. apply in_seq. lia.
Qed.
Lemma nth_combine_seq {A} (l : list A) k x : nth_error l k = Some x -> In (k, x) (combine (seq 0 (length l)) l).
Proof.
  assert (G : forall s, nth_error l k = Some x -> In (s + k, x) (combine (seq s (length l)) l)); [|apply (G 0)].
  revert k. induction l as [|y l IH]; intros [|k] s H; try discriminate; cbn in *.
  - injection H as ->. left. f_equal. lia.
  - right. replace (s + Datatypes.S k) with (Datatypes.S s + k) by lia. apply IH. exact H.
Qed.
Lemma unfolds_follows ot fr id d : unfolds (t_nodes t) id d -> id_ok t id ->
  forall a, nth_error (t_adj t) (deval ot fr d) = Some a -> follows ops (ceval ot fr) (child_number t id) (vmul vo a (t_weight t)).
Proof.
  intros U. induction U as [id L|k x f d N U1 IH1 U2 IH2]; intros I a A.
  - cbn [deval] in A. apply fol_leaf. unfold ops, tree_calls. apply in_app_iff. right. apply in_map_iff.
    exists (Z.to_nat (- id - 1), a). split; [|apply nth_combine_seq; exact A]. cbn. f_equal. unfold child_number, is_leaf, adjustment_index.
    destruct (Z.ltb_spec id 0); [reflexivity|lia].
  - assert (NN : In x (t_nodes t)) by (eapply nth_error_In; exact N).
    replace (child_number t (Z.of_nat k)) with k by (unfold child_number, is_leaf; destruct (Z.ltb_spec (Z.of_nat k) 0); lia).
    eapply (fol_node _ _ k (child_number t (n_true x)) (child_number t (n_false x)) (n_cond x)).
    + unfold ops, tree_calls. apply in_app_iff. left. apply in_map_iff. exists (k, x). split; [reflexivity|]. apply nth_combine_seq. exact N.
    + cbn [deval] in A. destruct (ceval ot fr (n_cond x)).
      * apply IH2; [exact (node_children_ok t x true Sh NN)|exact A].
      * apply IH1; [exact (node_children_ok t x false Sh NN)|exact A].
Qed.
Lemma add_regular_ok : match add_regular_tree vo t with
  | Some b => inv cond V (n + m) ops b
  | None => ~ (NoDup (children (t_nodes t)) /\ ~ In 0%Z (children (t_nodes t)))
  end.
Proof.
  unfold add_regular_tree. fold n m ops. pose proof (calls_inv cond V (n + m) ops) as C. destruct (calls_ok (new_builder (n + m)) ops) as [b|]; [exact C|].
  intros X. apply C. apply tree_calls_valid. exact X.
Qed.
Lemma regular_ok : NoDup (children (t_nodes t)) -> ~ In 0%Z (children (t_nodes t)) ->
  exists b ct, add_regular_tree vo t = Some b /\ compile b = COk ct /\
  forall ot fr d v, is_tree t d -> tree_value vo ot fr t d = Some v -> settles (ceval ot fr) ct v.
Proof.
  intros D N. pose proof add_regular_ok as A. destruct (add_regular_tree vo t) as [b|] eqn:E; [|exfalso; tauto].
  destruct (compile_ok cond V _ _ _ A) as (C1 & _ & C3). pose proof (inv_valid _ _ _ _ _ A) as Va.
  pose proof (tree_calls_complete Va) as CC. destruct (C1 CC) as [ct Ct]. destruct (C3 ct Ct) as (_ & ss & Es & ->).
  exists b. eexists. split; [reflexivity|]. split; [exact Ct|]. intros ot fr d v U Tv. apply (proj1 (root_is_tree t d)) in U.
  unfold tree_value in Tv. destruct (nth_error (t_adj t) (deval ot fr d)) as [a|] eqn:Na; cbn in Tv; [|discriminate]. injection Tv as <-.
  pose proof (unfolds_follows ot fr _ d U (root_ok t Sh) a Na) as F.
  assert (G : n + m = 1 \/ exists l r tt, In (SetNode 0 l r tt) ops).
  { destruct (t_nodes t) as [|x q] eqn:Q.
    - left. destruct Sh as (_ & _ & L & _). unfold n, m. rewrite L, Q. reflexivity.
    - right. exists (child_number t (n_true x)), (child_number t (n_false x)), (n_cond x). unfold ops, tree_calls. rewrite Q. left. reflexivity. }
  assert (M := root_mapping cond V _ _ _ ss (ceval ot fr) A CC Es G).
  assert (Rn : child_number t (root t) = 0).
  { destruct Sh as (_ & _ & L & _). unfold root, child_number, is_leaf, adjustment_id, adjustment_index. destruct (t_nodes t); reflexivity. }
  rewrite Rn in F. exact (predict_follows cond V _ _ _ ss (ceval ot fr) A CC Es 0 _ F _ M).
Qed.
End forest.
