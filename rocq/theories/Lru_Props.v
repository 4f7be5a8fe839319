(** C22: the LRU cache.  Keys are compared by an equivalence. *)
From Verif Require Import Base Lru_Model Lru_Spec Lru_Proofs.

(** Every history runs without dereferencing a dangling iterator, and the results of
    all calls are those of the specification, in which the entries still available are
    the [n] most recently used ones. *)
Theorem C22_history : forall K V (eqb : K -> K -> bool) cap (h : list (op K V)),
  equivalence_b eqb -> (cap < 2 ^ 63)%N -> Forall (fun o => (op_weight o < 2 ^ 63)%N) h ->
  exists c xs s, run eqb (lru_init cap) h = Some (c, xs) /\ rel_run eqb cap ([], 0) h s xs /\
    (snd s <= 1 \/ (total (firstn (snd s) (fst s)) <= cap)%N).
Proof.
  intros K V eqb cap h Eq Hc F.
  destruct (run_ok eqb Eq h (lru_init cap) ([], 0) (init_rel eqb cap) Hc F) as (c & s & xs & E & R & Cap & S).
  exists c, xs, s. split; [exact E|]. split; [exact S|]. destruct R as (_ & _ & Sn & _ & C & T & _).
  rewrite <- C, Sn. cbn in Cap. rewrite Cap in T. exact T.
Qed.
Print Assumptions C22_history.

(** A lookup returns null or the value of the last Put of the key since the last Clear. *)
Theorem C22_lookup_fresh : forall K V (eqb : K -> K -> bool) cap (h : list (op K V)) k,
  equivalence_b eqb -> (cap < 2 ^ 63)%N -> Forall (fun o => (op_weight o < 2 ^ 63)%N) h ->
  exists c xs c' x, run eqb (lru_init cap) h = Some (c, xs) /\ lookup eqb c k = Some (c', x) /\
    forall v, x = Some v -> exists w, last_put eqb (rev h) k = Some (v, w).
Proof.
  intros K V eqb cap h k Eq Hc F.
  destruct (run_ok eqb Eq h (lru_init cap) ([], 0) (init_rel eqb cap) Hc F) as (c & s & xs & E & R & Cap & S).
  destruct (lookup_ok eqb Eq c s k R) as (c' & s' & x & El & _ & _ & Sl).
  exists c, xs, c', x. split; [exact E|]. split; [exact El|]. intros v ->.
  assert (Fr : fresh_ok eqb (rev h ++ []) (fst s)).
  { eapply rel_run_fresh; [exact Eq|exact S|]. split; [constructor|]. intros; discriminate. }
  rewrite app_nil_r in Fr. inversion Sl; subst. exists (weight e). apply Fr. eapply find_firstn. eassumption.
Qed.
Print Assumptions C22_lookup_fresh.

(** The pointer returned by Put holds the value, and so does a lookup right after it,
    whatever its weight. *)
Theorem C22_put_found : forall K V (eqb : K -> K -> bool) cap (h : list (op K V)) k v w,
  equivalence_b eqb -> (cap < 2 ^ 63)%N -> Forall (fun o => (op_weight o < 2 ^ 63)%N) h -> (w < 2 ^ 63)%N ->
  exists c xs c1 c2, run eqb (lru_init cap) h = Some (c, xs) /\ put eqb c k v w = Some (c1, Some v) /\
    lookup eqb c1 k = Some (c2, Some v).
Proof.
  intros K V eqb cap h k v w Eq Hc F Hw.
  destruct (run_ok eqb Eq h (lru_init cap) ([], 0) (init_rel eqb cap) Hc F) as (c & s & xs & E & R & Cap & S).
  destruct (put_ok eqb Eq c s k v w R) as (c1 & s1 & x & E1 & R1 & Cap1 & S1); [rewrite Cap; exact Hc|exact Hw|].
  destruct (lookup_ok eqb Eq c1 s1 k R1) as (c2 & s2 & y & E2 & _ & _ & S2).
  exists c, xs, c1, c2. split; [exact E|].
  assert (X : x = Some v) by (inversion S1; reflexivity). subst x. split; [exact E1|]. rewrite E2. repeat f_equal.
  assert (G : forall l m e, s1 = (e :: l, m) -> 1 <= m -> eqb (key e) k = true -> value e = v -> y = Some v).
  { intros l m e -> Hm Ke Ve. destruct m as [|m]; [lia|]. assert (Fk : find (is_key eqb k) (firstn (Datatypes.S m) (e :: l)) = Some e) by (cbn [firstn find]; unfold is_key at 1; rewrite Ke; reflexivity).
    inversion S2; subst.
    - match goal with H : find _ _ = Some ?e1 |- _ => rewrite Fk in H; assert (e1 = e) by congruence; subst; reflexivity end.
    - match goal with H : find _ _ = None |- _ => rewrite Fk in H; discriminate end. }
  inversion S1; subst.
  - eapply G; [reflexivity| |apply Eq|reflexivity]. match goal with H : fits _ _ _ _ |- _ => destruct H as (_ & [Z|Z] & _); [discriminate|exact Z] end.
  - match goal with H : find _ _ = Some ?e |- _ => pose proof (find_some _ _ H) as [_ Ke] end.
    eapply G; [reflexivity| |exact Ke|reflexivity].
    match goal with H : fits _ _ _ _ |- _ => destruct H as (_ & [Z|Z] & _); [|exact Z] end. subst. discriminate.
Qed.
Print Assumptions C22_put_found.

(** Without the bound on the weights the sum wraps and the cache keeps entries whose
    total weight exceeds the capacity. *)
Definition ex_huge : list (op nat nat) := [Put 1 10 (2 ^ 63); Put 2 20 (2 ^ 63); Lookup 1; Lookup 2].
Theorem C22_weight_overflow_refuted : exists (h : list (op nat nat)) c,
  run Nat.eqb (lru_init 5) h = Some (c, [Some 10; Some 20; Some 10; Some 20]) /\
  last_put Nat.eqb (rev h) 1 = Some (10, (2 ^ 63)%N) /\ last_put Nat.eqb (rev h) 2 = Some (20, (2 ^ 63)%N).
Proof. exists ex_huge. eexists. split; [vm_compute; reflexivity|]. split; reflexivity. Qed.
Print Assumptions C22_weight_overflow_refuted.

Example C22_hyp : equivalence_b Nat.eqb.
Proof.
  split; [apply Nat.eqb_refl|]. split; [apply Nat.eqb_sym|]. intros x y z H1 H2. apply Nat.eqb_eq in H1, H2. subst. apply Nat.eqb_refl.
Qed.
(** Capacity 3: the lookup of 1 protects it, 2 is evicted; a heavy entry stays alone. *)
Example C22_ex : exists c, run Nat.eqb (lru_init 3)
    [Put 1 10 1; Put 2 20 1; Put 3 30 1; Lookup 1; Put 4 40 1; Lookup 2; Lookup 1; Put 1 11 9; Lookup 1; Lookup 4] =
  Some (c, [Some 10; Some 20; Some 30; Some 10; Some 40; None; Some 10; Some 11; Some 11; None]).
Proof. eexists. vm_compute. reflexivity. Qed.
