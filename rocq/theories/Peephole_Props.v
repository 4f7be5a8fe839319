(** C58: peephole optimization replaces exactly the instances of patterns, and keeps meanings. *)
From Verif Require Import Base Visit_Model Visit_Spec Visit_Proofs VisitOrder_Proofs Peephole_Model Peephole_Spec Peephole_Proofs Peephole_Subst Peephole_Opt.

(** ** Example: operators 1..3 are power, product and sum, 4 is another product, 12 and 13
    are references to 2 and 3 *)
Definition pname (o : nat) : list nat := match o with 12 | 4 => [2] | 13 => [3] | _ => [o] end.
Definition pref (o : nat) : option nat := match o with 12 => Some 2 | 13 => Some 3 | _ => None end.
Definition pinfer (o : nat) (l : list attr) : nat + attr := match o with 12 | 13 => inr ANone | 9 => inl 5 | _ => inr (AType 7) end.
Definition phash (s : list nat) : nat := match s with [x] => x mod 2 | _ => 0 end.
Definition phfp (n : node) : nat := 1.
Definition pa := Plh [97]. Definition pb := Plh [98]. Definition pc := Plh [99].
Definition px := Leaf [120]. Definition py := Leaf [121]. Definition pz := Leaf [122].
Definition mul a b := Op 2 (AType 7) [a; b].
Definition add a b := Op 3 (AType 7) [a; b].
(** a ** 2 to a * a, for a that is not a literal *)
Definition no_lit (n : node) : bool := match n with Lit _ => false | _ => true end.
Definition square_from := Op 1 ANone [pa; Lit 2].
Definition square_to := Op 12 ANone [pa; pa].
Definition square_cs : conds := [([97], no_lit)].
(** a * b + a * c to a * (b + c) *)
Definition distr_from := Op 13 ANone [Op 12 ANone [pa; pb]; Op 12 ANone [pa; pc]].
Definition distr_to := Op 12 ANone [pa; Op 13 ANone [pb; pc]].
(** (a + b) + (a + b) to 2 * (a + b) *)
Definition twice_from := Op 13 ANone [Op 13 ANone [pa; pb]; Op 13 ANone [pa; pb]].
Definition twice_to := Op 12 ANone [Lit 2; Op 13 ANone [pa; pb]].

(** ** Patterns *)
Section Pattern.
Context {E : Type}.
Variable infer : nat -> list attr -> E + attr.
Variable dname : nat -> list nat.
Variable refop : nat -> option nat.
(** A pattern is refused for one of the listed reasons, and otherwise satisfies all
    conditions. *)
Theorem C58_compile from to cs : NoDup (map fst cs) -> exists r, compile infer dname refop from to (of_conds cs) = Some r /\
  match r with
  | inr c => verified from to cs
  | inl PPlaceholder => exists k, from = Plh k
  | inl PLeaves => exists k, sub (Leaf k) from \/ sub (Leaf k) to
  | inl PToKeys => exists k, sub (Plh k) to /\ ~ sub (Plh k) from
  | inl PMatcherKeys => exists k c, In (k, c) cs /\ ~ sub (Plh k) from
  | inl (PErr e) => forall to', resolve infer refop to <> Some (inr to')
  | inl _ => False
  end.
Proof.
  intros Nd. destruct (compile_ok infer dname refop from to cs Nd) as (r & Er & Hr). exists r. split; [exact Er|]. destruct r as [[| | | | | | |e]|c]; try exact Hr; [|apply Hr].
  intros to' H. unfold resolve in H. rewrite transform_ok in H. congruence.
Qed.
(** The compiled pattern is applied exactly where the pattern stands for the node, and the
    result is the replacement with what the placeholders stand for. *)
Theorem C58_pattern from to cs c : NoDup (map fst cs) -> compile infer dname refop from to (of_conds cs) = Some (inr c) ->
  exists to', renamed infer refop to to' /\ forall root, exists r, apply_pattern infer dname c root = Some r /\ pattern_result infer dname cs from to' root r.
Proof.
  intros Nd H. destruct (compile_ok infer dname refop from to cs Nd) as (r & Er & Hr). rewrite H in Er. injection Er as <-. destruct Hr as (_ & to' & _ & R & Q). exists to'. auto.
Qed.
(** What a part of the pattern stands for is unique. *)
Theorem C58_unique cs t t' from root : stands dname cs t from root -> stands dname cs t' from root -> forall p, sub p from -> t p = t' p.
Proof.
  intros [H1 H2] [H1' H2'] p S. assert (K : forall p q, sub p q -> sub q from -> t q = t' q -> t p = t' p).
  { clear p S. intros p q S. induction S as [|q d Hd S IH]; [auto|]. intros Sq Eq. apply IH; [apply (sub_trans d q); [apply (sub_dep _ q d Hd); constructor|exact Sq]|].
    specialize (H2 q Sq). specialize (H2' q Sq). destruct q as [v|k|k|o a ds]; try contradiction. destruct H2 as (o1 & a1 & E1 & _), H2' as (o2 & a2 & E2 & _). rewrite Eq, E2 in E1. injection E1 as _ _ E1. cbn [deps] in Hd.
    clear - E1 Hd. induction ds as [|x ds IHd]; [contradiction|]. injection E1 as E0 E1. destruct Hd as [->|Hd]; [congruence|apply IHd; assumption]. }
  apply (K p from S (sub_refl _)). congruence.
Qed.
(** Sharing aside, matching is being an instance, when nodes with the same name of the
    operator and the same arguments are the same. *)
Theorem C58_instance from to cs root : verified from to cs -> one_op_per_name dname root ->
  (exists t, stands dname cs t from root) <-> exists s, instance dname s from root /\ forall k c, In (k, c) cs -> c (s k) = true.
Proof.
  intros (Np & Nl & _ & _ & Hc) One. split.
  - intros (t & St). exists (fun k => t (Plh k)). split; [|intros k c I; apply (proj2 St (Plh k) (Hc k c I) c I)]. rewrite <- (proj1 St). apply (stands_instance dname cs t from root St from (sub_refl _)).
  - intros (s & I & H). exists (meant dname s root). apply instance_stands; assumption.
Qed.
End Pattern.
Print Assumptions C58_compile.
Print Assumptions C58_pattern.
Print Assumptions C58_unique.
Print Assumptions C58_instance.
Definition square := compile pinfer pname pref square_from square_to (of_conds square_cs).
Definition distr := compile pinfer pname pref distr_from distr_to [].
Definition twice := compile pinfer pname pref twice_from twice_to [].
Definition run (r : option (perr nat + compiled)) (n : node) := match r with Some (inr c) => apply_pattern pinfer pname c n | _ => None end.
Example C58_pattern_ex :
  run square (Op 1 (AType 7) [add px py; Lit 2]) = Some (inr (mul (add px py) (add px py))) /\
  run square (Op 1 (AType 7) [Lit 6; Lit 2]) = Some (inr (Op 1 (AType 7) [Lit 6; Lit 2])) /\
  run square (Op 1 (AType 7) [px; Lit 3]) = Some (inr (Op 1 (AType 7) [px; Lit 3])) /\
  run distr (add (mul px py) (mul px (add py pz))) = Some (inr (mul px (add py (add py pz)))) /\
  run distr (add (mul px py) (mul py px)) = Some (inr (add (mul px py) (mul py px))) /\
  run distr (add px (mul py px)) = Some (inr (add px (mul py px))) /\
  run twice (add (add px py) (add px py)) = Some (inr (mul (Lit 2) (add px py))).
Proof. repeat split; vm_compute; reflexivity. Qed.
Example C58_pattern_hyps : (exists c, square = Some (inr c)) /\ (exists c, distr = Some (inr c)) /\ exists c, twice = Some (inr c).
Proof. repeat split; eexists; vm_compute; reflexivity. Qed.
Example C58_compile_ex : compile pinfer pname pref pa pa [] = Some (inl PPlaceholder) /\ compile pinfer pname pref (mul pa px) pa [] = Some (inl PLeaves) /\
  compile pinfer pname pref square_from (mul pa pb) [] = Some (inl PToKeys) /\ compile pinfer pname pref square_from pa (of_conds [([98], no_lit)]) = Some (inl PMatcherKeys) /\
  compile pinfer pname pref square_from (Op 9 ANone [square_to]) [] = Some (inl (PErr 5)).
Proof. repeat split; vm_compute; reflexivity. Qed.
Example C58_instance_ex : verified twice_from twice_to [] /\ one_op_per_name pname (add (add px py) (add px py)).
Proof.
  split.
  - destruct (C58_compile pinfer pname pref twice_from twice_to [] (NoDup_nil _)) as (r & Er & Hr). vm_compute in Er. injection Er as <-. exact Hr.
  - intros o a o' a' ds S S' H. assert (K : forall q b cs, sub (Op q b cs) (add (add px py) (add px py)) -> q = 3 /\ b = AType 7).
    { intros q b cs Q. apply po_root in Q. vm_compute in Q. destruct Q as [Q|[Q|[Q|[Q|[]]]]]; try discriminate; injection Q as <- <- _; auto. }
    destruct (K _ _ _ S) as [-> ->], (K _ _ _ S') as [-> ->]. reflexivity.
Qed.

(** ** Optimizers *)
Section Optimizer.
Context {E : Type}.
Variable infer : nat -> list attr -> E + attr.
Variable dname : nat -> list nat.
Variable refop : nat -> option nat.
Variable hname : list nat -> nat.
Variable hfp : node -> nat.
Variable vtype : nat -> nat.
Notation key := (pattern_key dname hname hfp).
Notation opt := (@opt E).
(** A pattern optimization leaves nodes with other keys as they are, whatever the hash
    functions are. *)
Theorem C58_key from to cs o n : NoDup (map fst cs) -> create_pattern infer dname refop hname hfp from to (of_conds cs) = Some (inr o) ->
  exists k, o_key o = Some k /\ (key n <> k -> o_apply o n = Some (inr n)).
Proof.
  intros Nd H. unfold create_pattern in H. destruct (compile_ok infer dname refop from to cs Nd) as (r & Er & Hr). rewrite Er in H. cbn [bind] in H. destruct r as [e|c]; [discriminate|]. injection H as <-. cbn [o_key o_apply].
  exists (key from). split; [reflexivity|]. intros Nk. destruct Hr as ((Np & Nl & _) & to' & _ & _ & Q). destruct (Q n) as (r & -> & P).
  assert (X : forall t, ~ stands dname cs t from n).
  { intros t [Ht Hs]. apply Nk. specialize (Hs from (sub_refl _)). destruct from as [v|k|k|o a ds]; cbn [pattern_key].
    - rewrite <- Ht, Hs. reflexivity.
    - contradiction.
    - exfalso. apply (Np k). reflexivity.
    - destruct Hs as (o' & a' & X & Y). rewrite <- Ht, X. cbn [pattern_key]. rewrite Y. reflexivity. }
  destruct r as [e|m]; [destruct e; try contradiction; destruct P as (t & St & _); exfalso; apply (X t St)|]. destruct P as [(t & St & _)|[_ ->]]; [exfalso; apply (X t St)|reflexivity].
Qed.
(** For a node: optimizations with its key in their order, while the key is the same; then
    those without a key. *)
Theorem C58_node (opts : list opt) n r : apply_node dname hname hfp (create opts) n = Some (inr r) <->
  exists m, until_key dname hname hfp (key n) (with_key (key n) opts) n m /\ chain (without_key opts) m r.
Proof. apply apply_node_chain. Qed.
(** Nothing is undefined if that holds for the optimizations. *)
Theorem C58_defined (opts : list opt) : (forall o n, In o opts -> exists r, o_apply o n = Some r) ->
  forall n, (exists r, apply_node dname hname hfp (create opts) n = Some r) /\ (exists r, apply infer dname hname hfp (create opts) n = Some r) /\
    exists r, make_optimizer dname hname hfp vtype (create opts) n = Some r.
Proof. intros T n. split; [apply apply_node_total, T|]. split; [apply apply_total, T|]. apply optimize_total, T. Qed.
(** Relations kept by every optimization are kept; for whole expressions they have to be
    congruences. *)
Theorem C58_keeps (opts : list opt) (R : node -> node -> Prop) : (forall a, R a a) -> (forall a b c, R a b -> R b c -> R a c) ->
  (forall o n m, In o opts -> o_apply o n = Some (inr m) -> R n m) ->
  (forall n m, apply_node dname hname hfp (create opts) n = Some (inr m) -> R n m) /\
  (forall n m, make_optimizer dname hname hfp vtype (create opts) n = Some (inr m) -> R n m) /\
  ((forall o a a' ds ds', Forall2 R ds ds' -> R (Op o a ds) (Op o a' ds')) -> forall n m, apply infer dname hname hfp (create opts) n = Some (inr m) -> R n m).
Proof.
  intros R0 R1 K. pose proof (apply_node_keep dname hname hfp opts R R0 R1 K) as An. split; [exact An|]. split.
  - intros n m H. pose proof (optimize_ok dname hname hfp (create opts) vtype iterations_limit n) as Q. unfold make_optimizer in H. rewrite H in Q. destruct Q as (c & _ & Q & _).
    apply (rounds_keep dname hname hfp (create opts) vtype R R0 R1 An c n m Q).
  - intros C n m. apply (apply_keep infer dname hname hfp opts R R0 R1 K C).
Qed.
(** If optimizations honour their keys and only ever make a node smaller, a node that is
    returned as it is cannot be optimized by any of them. *)
Theorem C58_nothing_missed (opts : list opt) (mu : node -> nat) : (forall o k n, In o opts -> o_key o = Some k -> key n <> k -> o_apply o n = Some (inr n)) ->
  (forall o n m, In o opts -> o_apply o n = Some (inr m) -> m = n \/ mu m < mu n) ->
  (forall n, apply_node dname hname hfp (create opts) n = Some (inr n) -> forall o, In o opts -> o_apply o n = Some (inr n)) /\
  (forall n r, make_optimizer dname hname hfp vtype (create opts) n = Some (inr r) -> forall o, In o opts -> o_apply o r = Some (inr r)) /\
  (forall n, mu n < iterations_limit -> (forall m, apply_node dname hname hfp (create opts) m <> Some (inl PTooMany)) -> make_optimizer dname hname hfp vtype (create opts) n <> Some (inl PTooMany)).
Proof.
  intros Hk Hmu. assert (Fx : forall n, apply_node dname hname hfp (create opts) n = Some (inr n) -> forall o, In o opts -> o_apply o n = Some (inr n)).
  { intros n H o I. destruct (apply_node_mu dname hname hfp opts Hk mu Hmu n n H) as [L|[_ F]]; [lia|apply F, I]. }
  split; [exact Fx|]. split.
  - intros n r H. pose proof (optimize_ok dname hname hfp (create opts) vtype iterations_limit n) as Q. unfold make_optimizer in H. rewrite H in Q. destruct Q as (c & _ & _ & Q). apply Fx, Q.
  - intros n L N H. destruct (optimize_enough dname hname hfp opts Hk mu Hmu vtype iterations_limit n L) as [X|(m & X)]; [apply X, H|apply (N m X)].
Qed.
(** Repetition: at most 100 rounds, up to a node that stays the same. *)
Theorem C58_rounds (opts : list opt) n : match make_optimizer dname hname hfp vtype (create opts) n with
  | Some (inr r) => exists c, c < 100 /\ rounds dname hname hfp (create opts) vtype c n r /\ apply_node dname hname hfp (create opts) r = Some (inr r) /\ qtype vtype r = qtype vtype n
  | Some (inl e) => (e = PTooMany /\ exists r, rounds dname hname hfp (create opts) vtype 100 n r) \/
      (exists c m, c < 100 /\ rounds dname hname hfp (create opts) vtype c n m /\ (apply_node dname hname hfp (create opts) m = Some (inl e) \/
         e = PQType /\ exists m', apply_node dname hname hfp (create opts) m = Some (inr m') /\ qtype vtype m' <> qtype vtype m))
  | None => exists c m, c < 100 /\ rounds dname hname hfp (create opts) vtype c n m /\ apply_node dname hname hfp (create opts) m = None
  end.
Proof.
  pose proof (optimize_ok dname hname hfp (create opts) vtype iterations_limit n) as Q. unfold make_optimizer. destruct (optimize dname hname hfp vtype iterations_limit (create opts) n) as [[e|r]|]; try exact Q.
  destruct Q as (c & L & H & A). exists c. split; [exact L|]. split; [exact H|]. split; [exact A|]. apply (rounds_qtype dname hname hfp (create opts) vtype c n r H).
Qed.

(** ** Meanings *)
Context {D : Type}.
Variables (dlit : nat -> D) (dleaf : list nat -> D) (dop : list nat -> list D -> D).
Notation mean := (meaning dname dlit dleaf dop).
(** If the meaning of an operator depends on its name only, and both sides of every rule
    have the same meaning for all expressions allowed for the placeholders, then optimized
    expressions have the meaning they had before. *)
Theorem C58_sound (rules : list (node * node * conds)) (opts : list opt) (r0 : list nat -> D) : (forall o r, refop o = Some r -> dname r = dname o) ->
  Forall2 (fun rule o => let '(from, to, cs) := rule in NoDup (map fst cs) /\ create_pattern infer dname refop hname hfp from to (of_conds cs) = Some (inr o)) rules opts ->
  (forall from to cs, In (from, to, cs) rules -> forall s, (forall k c, In (k, c) cs -> c (s k) = true) -> mean (fun k => mean r0 (s k)) from = mean (fun k => mean r0 (s k)) to) ->
  forall n, (exists r, apply infer dname hname hfp (create opts) n = Some r) /\
    (forall m, apply infer dname hname hfp (create opts) n = Some (inr m) -> mean r0 m = mean r0 n) /\
    (forall m, make_optimizer dname hname hfp vtype (create opts) n = Some (inr m) -> mean r0 m = mean r0 n).
Proof.
  intros Hr F V n.
  assert (G : forall o, In o opts -> forall n, exists r, o_apply o n = Some r /\ forall m, r = inr m -> mean r0 m = mean r0 n).
  { clear n. induction F as [|[[from to] cs] o rules opts [Nd H] F IH]; intros o' I; [contradiction|]. destruct I as [<-|I]; [|apply IH; [|exact I]; intros a b c Ic; apply V; right; exact Ic].
    intros n. unfold create_pattern in H. destruct (compile_ok infer dname refop from to cs Nd) as (r & Er & Hq). rewrite Er in H. cbn [bind] in H. destruct r as [e|c]; [discriminate|]. injection H as <-. cbn [o_apply].
    destruct Hq as (Vf & to' & _ & Rn & Q). destruct (Q n) as (r & -> & P). exists r. split; [reflexivity|]. intros m ->.
    apply (pattern_mean infer dname refop Hr dlit dleaf dop cs from to to' n m r0 Rn P); [apply Vf|]. apply (V from to cs (or_introl eq_refl)). }
  assert (T : forall o n, In o opts -> exists r, o_apply o n = Some r) by (intros o q I; destruct (G o I q) as (r & H & _); eauto).
  pose (R := fun a b : node => mean r0 b = mean r0 a).
  destruct (C58_keeps opts R) as (_ & K2 & K3); [reflexivity|unfold R; congruence| |].
  - intros o q m I H. destruct (G o I q) as (r & H' & X). unfold R. apply X. congruence.
  - split; [apply apply_total, T|]. split; [|intros m; apply K2]. intros m. apply K3. intros o a a' ds ds' Fd. unfold R. cbn [meaning]. f_equal. induction Fd as [|d d' ds ds' Hd Fd IHd]; [reflexivity|]. cbn [map]. rewrite Hd, IHd. reflexivity.
Qed.
End Optimizer.
Print Assumptions C58_key.
Print Assumptions C58_node.
Print Assumptions C58_defined.
Print Assumptions C58_keeps.
Print Assumptions C58_nothing_missed.
Print Assumptions C58_rounds.
Print Assumptions C58_sound.

(** The three rules; keys of powers and sums collide *)
Definition prules : list (node * node * conds) := [(square_from, square_to, square_cs); (distr_from, distr_to, []); (twice_from, twice_to, [])].
Definition the (r : option (perr nat + compiled)) : compiled := match r with Some (inr c) => c | _ => mkCP (mkPlan [] [] [] [] 0) (mkP [] []) [] end.
Definition popt (from : node) (r : option (perr nat + compiled)) : @opt nat := mkOpt (Some (pattern_key pname phash phfp from)) (apply_pattern pinfer pname (the r)).
Definition popts : list (@opt nat) := [popt square_from square; popt distr_from distr; popt twice_from twice].
Lemma popt_ok from to ms r : compile pinfer pname pref from to ms = r -> r = Some (inr (the r)) -> create_pattern pinfer pname pref phash phfp from to ms = Some (inr (popt from r)).
Proof. intros H1 H2. unfold create_pattern. rewrite H1, H2. reflexivity. Qed.
Definition pval (s : list nat) (l : list nat) : nat := match s, l with [1], [a; b] => a ^ b | [2], [a; b] => a * b | [3], [a; b] => a + b | _, _ => 0 end.
Definition pe := Op 1 (AType 7) [add (mul px py) (mul px pz); Lit 2].
Example C58_sound_ex : length popts = 3 /\ map o_key popts = [Some 1; Some 1; Some 1] /\
  apply pinfer pname phash phfp (create popts) pe = Some (inr (mul (mul px (add py pz)) (mul px (add py pz)))) /\
  make_optimizer pname phash phfp (fun _ => 0) (create popts) (add (mul (Op 1 (AType 7) [px; Lit 2]) py) (mul (Op 1 (AType 7) [px; Lit 2]) pz)) =
    Some (inr (mul (Op 1 (AType 7) [px; Lit 2]) (add py pz))).
Proof. repeat split; vm_compute; reflexivity. Qed.
Example C58_sound_hyps r0 : (forall o r, pref o = Some r -> pname r = pname o) /\
  Forall2 (fun rule o => let '(from, to, cs) := rule in NoDup (map fst cs) /\ create_pattern pinfer pname pref phash phfp from to (of_conds cs) = Some (inr o)) prules popts /\
  forall from to cs, In (from, to, cs) prules -> forall s, (forall k c, In (k, c) cs -> c (s k) = true) ->
    meaning pname (fun v => v) (fun _ => 1) pval (fun k => meaning pname (fun v => v) (fun _ => 1) pval r0 (s k)) from = meaning pname (fun v => v) (fun _ => 1) pval (fun k => meaning pname (fun v => v) (fun _ => 1) pval r0 (s k)) to.
Proof.
  split; [|split].
  - intros o r H. assert (K : (o = 12 /\ r = 2) \/ (o = 13 /\ r = 3)) by (do 14 (destruct o as [|o]; [cbn in H; try discriminate; injection H as <-; auto|]); discriminate). destruct K as [[-> ->]|[-> ->]]; reflexivity.
  - constructor; [split; [repeat constructor; intros []|]|constructor; [split; [constructor|]|constructor; [split; [constructor|]|constructor]]]; apply popt_ok; try reflexivity; vm_compute; reflexivity.
  - intros from to cs [H|[H|[H|[]]]] s _; injection H as <- <- _; cbn [meaning square_from square_to distr_from distr_to twice_from twice_to pa pb pc map pname pval]; generalize (meaning pname (fun v => v) (fun _ => 1) pval r0 (s [97])) as x, (meaning pname (fun v => v) (fun _ => 1) pval r0 (s [98])) as y, (meaning pname (fun v => v) (fun _ => 1) pval r0 (s [99])) as z; intros x y z.
    + cbn [Nat.pow]. lia.
    + lia.
    + lia.
Qed.
(** The second optimization is skipped when the first changes the key; a node without rules *)
Example C58_node_ex : apply_node pname phash phfp (create popts) (Op 1 (AType 7) [px; Lit 2]) = Some (inr (mul px px)) /\ apply_node pname phash phfp (create popts) (mul px py) = Some (inr (mul px py)) /\
  map o_key (with_key 1 popts) = [Some 1; Some 1; Some 1] /\ with_key 0 popts = [] /\ without_key popts = [].
Proof. repeat split; vm_compute; reflexivity. Qed.
(** Rules that go round in circles, and a rule that changes the type *)
Definition flip : @opt nat := mkOpt None (fun n => Some (inr (match n with Op 2 a [x; y] => Op 2 a [y; x] | _ => n end))).
Definition retype : @opt nat := mkOpt None (fun n => Some (inr (Op 2 (AType 8) (deps n)))).
Example C58_rounds_ex : make_optimizer pname phash phfp (fun _ => 0) (create [flip]) (mul px py) = Some (inl PTooMany) /\
  make_optimizer pname phash phfp (fun _ => 0) (create [flip]) (mul px px) = Some (inr (mul px px)) /\
  make_optimizer pname phash phfp (fun _ => 0) (create [retype]) (mul px px) = Some (inl PQType).
Proof. repeat split; vm_compute; reflexivity. Qed.
(** A rule that removes a node, with the size of expressions *)
Definition drop1 : @opt nat := mkOpt (Some (phash [1])) (fun n => Some (inr (match n with Op 1 _ [x] => x | _ => n end))).
Example C58_missed_ex : (forall o k n, In o [drop1] -> o_key o = Some k -> pattern_key pname phash phfp n <> k -> o_apply o n = Some (inr n)) /\
  (forall o n m, In o [drop1] -> o_apply o n = Some (inr m) -> m = n \/ size m < size n) /\
  make_optimizer pname phash phfp (fun _ => 0) (create [drop1]) (Op 1 ANone [Op 1 ANone [px]]) = Some (inr px).
Proof.
  split; [|split; [|vm_compute; reflexivity]].
  - intros o k n [<-|[]] H N. cbn [drop1 o_key] in H. injection H as <-. cbn [drop1 o_apply]. destruct n as [v|v|v|[|[|o]] a [|x [|y ds]]]; try reflexivity. exfalso. apply N. reflexivity.
  - intros o n m [<-|[]] H. cbn [drop1 o_apply] in H. destruct n as [v|v|v|[|[|o]] a [|x [|y ds]]]; injection H as <-; auto. right. rewrite (size_deps (Op 1 a [x])). cbn [deps map list_sum fold_right]. lia.
Qed.

(** Operators are compared by name only.  Operator 4 has the name of 2: a rule that is valid
    for 2 is applied to it, and the meaning changes. *)
Theorem C58_name_refuted : exists c n m, compile pinfer pname pref (Op 2 ANone [pa; Lit 1]) pa [] = Some (inr c) /\ apply_pattern pinfer pname c n = Some (inr m) /\
  let dop (o l : list nat) := match o, l with [2], [a; b] => a * b | [4], [a; b] => a + b | _, _ => 0 end in
  let mean := meaning (fun o => [o]) (fun v => v) (fun _ => 5) dop in
  (forall r, mean r (Op 2 ANone [pa; Lit 1]) = mean r pa) /\ mean (fun _ => 0) m <> mean (fun _ => 0) n.
Proof.
  eexists. exists (Op 4 (AType 7) [px; Lit 1]), px. split; [vm_compute; reflexivity|]. split; [vm_compute; reflexivity|]. cbv zeta. split; [intros r; cbn [meaning map pa]; lia|]. vm_compute. discriminate.
Qed.
Print Assumptions C58_name_refuted.
(** Equal parts of a pattern stand for the same node: an instance with two operators of
    the same name is not matched. *)
Theorem C58_sharing_refuted : exists s n, instance pname s twice_from n /\ forall t, ~ stands pname [] t twice_from n.
Proof.
  set (b := mul px py). exists (fun k => match k with [97] => px | _ => py end), (add (add px py) (Op 3 (AType 8) [px; py])). split.
  - constructor; [reflexivity|]. repeat constructor.
  - intros t [H1 H2]. pose proof (H2 twice_from (sub_refl _)) as (o & a & E1 & _). rewrite H1 in E1. cbn [map] in E1. injection E1 as _ _ E1 E2. rewrite <- E1 in E2. discriminate.
Qed.
Print Assumptions C58_sharing_refuted.
(** A part of a replacement without placeholders, made of references to operators, gets no
    attributes, although they could be found out. *)
Theorem C58_attributes_refuted : exists c, compile pinfer pname pref square_from (Op 12 ANone [Op 13 ANone [Lit 1; Lit 1]; pa]) [] = Some (inr c) /\
  apply_pattern pinfer pname c (Op 1 (AType 7) [px; Lit 2]) = Some (inr (Op 2 (AType 7) [Op 3 ANone [Lit 1; Lit 1]; px])) /\ pinfer 3 [AValue 1; AValue 1] = inr (AType 7).
Proof. eexists. split; [vm_compute; reflexivity|]. split; vm_compute; reflexivity. Qed.
Print Assumptions C58_attributes_refuted.
