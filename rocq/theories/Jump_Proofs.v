(** Bound programs run as their nested meaning says. *)
From Verif Require Import Base Jump_Model Jump_Spec.

Section P.
Context {F err node : Type}.
Notation code := (code F err node). Notation bop := (bop F err). Notation builder := (builder F err node).

Fixpoint flat1 (x : code) : list bop :=
  match x with
  | Atom o _ => [o]
  | Cond c _ t e =>
      let go := fix go (p : list code) : list bop := match p with [] => [] | y :: q => flat1 y ++ go q end in
      jump_if_not_op c (Z.of_nat (S (length (go t)))) :: go t ++ jump_op (Z.of_nat (length (go e))) :: go e
  end.
Fixpoint flat (p : list code) : list bop := match p with [] => [] | y :: q => flat1 y ++ flat q end.
Lemma flat1_cond c nd t e : flat1 (Cond c nd t e) = jump_if_not_op c (Z.of_nat (S (length (flat t)))) :: flat t ++ jump_op (Z.of_nat (length (flat e))) :: flat e.
Proof. reflexivity. Qed.
Fixpoint labels1 (x : code) : list (option node) :=
  match x with
  | Atom _ nd => [nd]
  | Cond _ nd t e =>
      let go := fix go (p : list code) : list (option node) := match p with [] => [] | y :: q => labels1 y ++ go q end in
      Some nd :: go t ++ Some nd :: go e
  end.
Fixpoint labels (p : list code) : list (option node) := match p with [] => [] | y :: q => labels1 y ++ labels q end.
Lemma labels1_cond c nd t e : labels1 (Cond c nd t e) = Some nd :: labels t ++ Some nd :: labels e.
Proof. reflexivity. Qed.

Section Ind.
Variable P : list code -> Prop.
Hypothesis Hn : P [].
Hypothesis Ha : forall o nd p, P p -> P (Atom o nd :: p).
Hypothesis Hc : forall c nd t e p, P t -> P e -> P p -> P (Cond c nd t e :: p).
Lemma code_one : forall x p, P p -> P (x :: p).
Proof.
  fix IH 1. intros [o nd|c nd t e] p Hp; [apply Ha, Hp|]. apply Hc; [| |exact Hp].
  - induction t as [|y q IHq]; [exact Hn|apply IH, IHq].
  - induction e as [|y q IHq]; [exact Hn|apply IH, IHq].
Qed.
Lemma code_ind2 : forall p, P p.
Proof. induction p as [|x p IH]; [exact Hn|apply code_one, IH]. Qed.
End Ind.

Lemma labels_length p : length (labels p) = length (flat p).
Proof.
  revert p; apply code_ind2.
  - reflexivity.
  - intros o nd p IH. cbn [flat labels flat1 labels1 app length]. now rewrite IH.
  - intros c nd t e p It Ie Ip. cbn [flat labels]. rewrite flat1_cond, labels1_cond. cbn [app length].
    rewrite !app_length. cbn [length]. rewrite ?app_length. cbn [length]. lia.
Qed.
Lemma flat_pos p : p <> [] -> 0 < length (flat p).
Proof.
  destruct p as [|[o nd|c nd t e] p]; intros H; [congruence|cbn [flat flat1 app length]; lia|].
  cbn [flat]. rewrite flat1_cond. cbn [app length]. lia.
Qed.
Lemma last_cons {A} (l : list A) : forall x d, last (x :: l) d = last l x.
Proof.
  induction l as [|y l IH]; intros x d; [reflexivity|].
  change (last (x :: y :: l) d) with (last (y :: l) d). rewrite (IH y d), (IH y x). reflexivity.
Qed.
Lemma last_mid {A} (a b : list A) : forall x d, last (a ++ x :: b) d = last b x.
Proof.
  induction a as [|y a IHa]; intros x d; cbn [app]; [apply last_cons|]. rewrite last_cons. apply IHa.
Qed.
Lemma last_of_eq p : forall d, last_of d p = last (labels p) d.
Proof.
  revert p; apply (code_ind2 (fun p => forall d, last_of d p = last (labels p) d)).
  - reflexivity.
  - intros o nd p IH d. cbn [last_of labels labels1 last_node app]. rewrite IH. symmetry. apply last_cons.
  - intros c nd t e p It Ie Ip d. cbn [last_of labels]. rewrite labels1_cond, Ip.
    change (last_node (Cond c nd t e)) with (last_of (Some nd) e). rewrite Ie.
    rewrite <- app_comm_cons, <- app_assoc, <- app_comm_cons.
    rewrite last_cons, last_mid. destruct (labels p) as [|x l]; [now rewrite app_nil_r|].
    rewrite last_mid, last_cons. reflexivity.
Qed.

(** ** Emission *)
Lemma upd_mid {A} (a c : list A) x y n : n = length a -> upd (a ++ x :: c) n y = Some (a ++ y :: c).
Proof. intros ->. induction a as [|z a IH]; cbn [app length upd]; [reflexivity|]. now rewrite IH. Qed.
Lemma nth_mid {A} (a c : list A) x n : n = length a -> nth_error (a ++ x :: c) n = Some x.
Proof. intros ->. rewrite nth_error_app2, Nat.sub_diag by lia. reflexivity. Qed.

Definition lab (p : list code) (base : nat) (l : list (nat * node)) : Prop :=
  forall i, named l i = if (Z.of_nat base <=? i)%Z then match nth_error (labels p) (Z.to_nat i - base) with Some x => x | None => None end else None.
Definition traced (p : list code) (base : nat) (tr tr1 : option (list (nat * node))) : Prop :=
  match tr with None => tr1 = None | Some l => exists l2, tr1 = Some (l ++ l2) /\ lab p base l2 end.
Lemma named_app (a b : list (nat * node)) i : named (a ++ b) i = match named a i with Some n => Some n | None => named b i end.
Proof.
  unfold named. induction a as [|[j n] a IH]; cbn [app find fst]; [reflexivity|].
  destruct (Z.of_nat j =? i)%Z; [reflexivity|apply IH].
Qed.
Definition emits (p : list code) : Prop := proper p -> forall b, exists b1, emit p b = Some b1 /\
  b_ops b1 = b_ops b ++ map Some (flat p) /\ traced p (length (b_ops b)) (b_trace b) (b_trace b1).
Lemma register_lab ip nd : lab [Atom (jump_op 0) nd] ip (match nd with Some n => [(ip, n)] | None => [] end).
Proof.
  intros i. unfold named. destruct nd as [n|]; cbn [find fst labels labels1 app].
  - destruct (Z.eqb_spec (Z.of_nat ip) i) as [E|E].
    + subst i. rewrite (proj2 (Z.leb_le _ _)) by lia. replace (Z.to_nat (Z.of_nat ip) - ip) with 0 by lia. reflexivity.
    + destruct (Z.leb_spec (Z.of_nat ip) i); [|reflexivity].
      destruct (Z.to_nat i - ip) as [|[|?]] eqn:G; [lia|reflexivity|reflexivity].
  - destruct (Z.of_nat ip <=? i)%Z; [|reflexivity]. destruct (Z.to_nat i - ip) as [|[|?]]; reflexivity.
Qed.
Lemma lab_app (p q r : list code) base l1 l2 : labels r = labels p ++ labels q ->
  lab p base l1 -> lab q (base + length (labels p)) l2 -> lab r base (l1 ++ l2).
Proof.
  intros E H1 H2 i. rewrite named_app, (H1 i), (H2 i), E.
  destruct (Z.leb_spec (Z.of_nat base) i); [|rewrite (proj2 (Z.leb_gt _ _)) by lia; reflexivity].
  destruct (lt_dec (Z.to_nat i - base) (length (labels p))) as [L|L].
  - rewrite nth_error_app1 by exact L. destruct (nth_error_Some (labels p) (Z.to_nat i - base)) as [_ G].
    rewrite (proj2 (Z.leb_gt _ _)) by lia.
    destruct (nth_error (labels p) (Z.to_nat i - base)) as [[n|]|]; reflexivity.
  - rewrite (proj2 (nth_error_None (labels p) _)) by lia. rewrite nth_error_app2 by lia.
    rewrite (proj2 (Z.leb_le _ _)) by lia.
    replace (Z.to_nat i - (base + length (labels p))) with (Z.to_nat i - base - length (labels p)) by lia. reflexivity.
Qed.
Lemma lab_at (p : list code) a b l : lab p a l -> b = a -> lab p b l.
Proof. intros H ->. exact H. Qed.
Lemma lab_perm (p : list code) base l1 l2 : (forall i, named l2 i = named l1 i) -> lab p base l1 -> lab p base l2.
Proof. intros E H i. rewrite E. apply H. Qed.

Lemma emit_cond (c : F -> bool) (nd : node) (t e q : list code) (b : builder) : emit (Cond c nd t e :: q) b = (let? b1 := compile_where c nd (emit t) (emit e) b in emit q b1).
Proof. reflexivity. Qed.

Lemma emit_all p : emits p.
Proof.
  revert p; apply code_ind2; unfold emits.
  - intros _ b. exists b. split; [reflexivity|]. split; [cbn [flat map]; now rewrite app_nil_r|].
    unfold traced. destruct (b_trace b) as [l|]; [|reflexivity]. exists []. split; [now rewrite app_nil_r|].
    intros i. cbn. destruct (Z.of_nat _ <=? i)%Z; [|reflexivity]. now destruct (Z.to_nat i - _).
  - intros o nd p IH H b. inversion H as [|? ? ? Hp E|]; subst. cbn [emit emit1 bind].
    destruct (IH Hp (snd (add_op (Some o) nd b))) as (b1 & E1 & E2 & E3). exists b1. split; [exact E1|]. clear E1.
    unfold add_op in E2, E3. cbn [snd b_ops b_trace] in E2, E3. split; [rewrite E2, <- app_assoc; reflexivity|].
    unfold traced, register in *. destruct (b_trace b) as [l|]; [|exact E3].
    assert (G : exists l2, b_trace b1 = Some ((l ++ match nd with Some n => [(length (b_ops b), n)] | None => [] end) ++ l2) /\ lab p (length (b_ops b ++ [Some o])) l2).
    { destruct nd as [n|]; [exact E3|]. rewrite app_nil_r. exact E3. }
    destruct G as (l2 & G1 & G2). exists (match nd with Some n => [(length (b_ops b), n)] | None => [] end ++ l2).
    split; [rewrite G1, app_assoc; reflexivity|]. eapply lab_app; [|apply register_lab|].
    2:{ rewrite app_length in G2. exact G2. }
    reflexivity.
  - intros c nd t e p It Ie Ip H b. inversion H as [| |? ? ? ? ? Ht He Hne Hp]; subst.
    rewrite emit_cond. unfold compile_where, skip_op, add_op.
    set (n0 := length (b_ops b)). cbn [b_ops b_trace].
    set (b0 := {| b_ops := b_ops b ++ [None]; b_trace := register n0 None (b_trace b) |}).
    destruct (It Ht b0) as (bt & T1 & T2 & T3). rewrite T1. cbn [bind]. clear T1.
    set (b2 := {| b_ops := b_ops bt ++ [None]; b_trace := register (length (b_ops bt)) None (b_trace bt) |}).
    destruct (Ie He b2) as (bf & F1 & F2 & F3). rewrite F1. cbn [bind]. clear F1.
    unfold b0 in T2, T3. cbn [b_ops b_trace] in T2, T3. unfold b2 in F2, F3. cbn [b_ops b_trace] in F2, F3. clear b0 b2.
    assert (L1 : length (b_ops bt) = n0 + S (length (flat t))).
    { rewrite T2, !app_length, map_length. cbn [length]. unfold n0. lia. }
    rewrite L1. rewrite (proj2 (Z.eqb_neq _ _)) by lia.
    assert (Ops : b_ops bf = b_ops b ++ None :: map Some (flat t) ++ None :: map Some (flat e)).
    { rewrite F2, T2, <- !app_assoc. reflexivity. }
    unfold set_op. rewrite Ops, nth_mid, upd_mid by reflexivity. cbn [bind b_ops b_trace].
    replace (b_ops b ++ Some (jump_if_not_op c (Z.of_nat (n0 + S (length (flat t))) - Z.of_nat n0)) :: map Some (flat t) ++ None :: map Some (flat e))
      with ((b_ops b ++ Some (jump_if_not_op c (Z.of_nat (n0 + S (length (flat t))) - Z.of_nat n0)) :: map Some (flat t)) ++ None :: map Some (flat e))
      by (rewrite <- app_assoc; reflexivity).
    set (pre := b_ops b ++ Some (jump_if_not_op c (Z.of_nat (n0 + S (length (flat t))) - Z.of_nat n0)) :: map Some (flat t)).
    assert (Lp : length pre = n0 + S (length (flat t))).
    { unfold pre. rewrite app_length. cbn [length]. rewrite map_length. fold n0. lia. }
    rewrite app_length, Lp. cbn [length]. rewrite map_length.
    pose proof (flat_pos e Hne) as Pe.
    rewrite (proj2 (Z.eqb_neq _ _)) by lia.
    rewrite nth_mid, upd_mid by (symmetry; exact Lp). cbn [bind].
    set (bc := {| b_ops := pre ++ _ :: map Some (flat e); b_trace := _ |}).
    destruct (Ip Hp bc) as (b1 & G1 & G2 & G3). exists b1. split; [exact G1|]. clear G1.
    unfold bc in G2, G3. cbn [b_ops b_trace] in G2, G3. clear bc. split.
    { rewrite G2. cbn [flat]. rewrite flat1_cond. unfold pre.
      replace (Z.of_nat (n0 + S (length (flat t))) - Z.of_nat n0)%Z with (Z.of_nat (S (length (flat t)))) by lia.
      replace (Z.of_nat (n0 + S (length (flat t)) + S (length (flat e))) - Z.of_nat (n0 + S (length (flat t))) - 1)%Z with (Z.of_nat (length (flat e))) by lia.
      rewrite map_app. cbn [map]. rewrite map_app. cbn [map]. rewrite <- !app_assoc. cbn [app]. rewrite <- !app_assoc. reflexivity. }
    replace (length (pre ++ Some (jump_op (Z.of_nat (n0 + S (length (flat t)) + S (length (flat e))) - Z.of_nat (n0 + S (length (flat t))) - 1)%Z) :: map Some (flat e)))
      with (n0 + S (length (flat t)) + S (length (flat e))) in G3 by (rewrite app_length, Lp; cbn [length]; rewrite map_length; reflexivity).
    clear F2 T2 Ops Lp G2. unfold traced, register in *. destruct (b_trace b) as [l|].
    2:{ rewrite T3 in F3. rewrite F3 in G3. exact G3. }
    destruct T3 as (lt & T3 & T4). rewrite T3 in F3. destruct F3 as (lf & F3 & F4). rewrite F3 in G3.
    destruct G3 as (lp & G3 & G4).
    exists (lt ++ lf ++ [(n0, nd)] ++ [(n0 + S (length (flat t)), nd)] ++ lp).
    split; [rewrite G3, <- !app_assoc; reflexivity|].
    rewrite app_length in T4, F4. cbn [length] in T4, F4. fold n0 in T4. rewrite L1 in F4.
    pose proof (register_lab n0 (Some nd)) as R0. pose proof (register_lab (n0 + S (length (flat t))) (Some nd)) as R1.
    apply (lab_perm _ _ ([(n0, nd)] ++ lt ++ [(n0 + S (length (flat t)), nd)] ++ lf ++ lp)).
    + intros i. rewrite !named_app, (T4 i), (F4 i), (R0 i), (R1 i), (G4 i).
      cbn [labels labels1 app].
      pose proof (labels_length t) as LT. pose proof (labels_length e) as LE.
      assert (B0 : forall k, nth_error [Some nd] k = if k =? 0 then Some (Some nd) else None) by (intros [|[|k]]; reflexivity).
      rewrite !B0.
      assert (B1 : length (labels t) <= Z.to_nat i - (n0 + 1) -> nth_error (labels t) (Z.to_nat i - (n0 + 1)) = None) by (intros ?; apply nth_error_None; lia).
      assert (B2 : length (labels e) <= Z.to_nat i - (n0 + S (length (flat t)) + 1) -> nth_error (labels e) (Z.to_nat i - (n0 + S (length (flat t)) + 1)) = None) by (intros ?; apply nth_error_None; lia).
      destruct (Z.leb_spec (Z.of_nat n0) i) as [C0|C0].
      2:{ repeat (rewrite (proj2 (Z.leb_gt _ _)) by lia). reflexivity. }
      destruct (Z.leb_spec (Z.of_nat (n0 + 1)) i) as [C1|C1].
      2:{ replace (Z.to_nat i - n0) with 0 by lia. repeat (rewrite (proj2 (Z.leb_gt _ _)) by lia). reflexivity. }
      rewrite (proj2 (Nat.eqb_neq (Z.to_nat i - n0) 0)) by lia.
      destruct (Z.leb_spec (Z.of_nat (n0 + S (length (flat t)))) i) as [C2|C2].
      2:{ repeat (rewrite (proj2 (Z.leb_gt _ _)) by lia). destruct (nth_error (labels t) _) as [[?|]|]; reflexivity. }
      rewrite B1 by lia.
      destruct (Z.leb_spec (Z.of_nat (n0 + S (length (flat t)) + 1)) i) as [C3|C3].
      2:{ replace (Z.to_nat i - (n0 + S (length (flat t)))) with 0 by lia. repeat (rewrite (proj2 (Z.leb_gt _ _)) by lia). reflexivity. }
      rewrite (proj2 (Nat.eqb_neq (Z.to_nat i - (n0 + S (length (flat t)))) 0)) by lia.
      destruct (nth_error (labels e) _) as [[?|]|]; reflexivity.
    + set (A n := [Atom (jump_op 0) (Some n)] : list code).
      apply (lab_app (A nd) (t ++ A nd ++ e ++ p)); [|exact R0|].
      { assert (LA : forall a b, labels (a ++ b) = labels a ++ labels b).
        { induction a as [|x a IHa]; intros b'; [reflexivity|]. cbn [app labels]. rewrite IHa, app_assoc. reflexivity. }
        cbn [labels]. rewrite labels1_cond, !LA. unfold A. cbn [labels labels1 app]. rewrite <- app_assoc. reflexivity. }
      assert (LA : forall a b : list code, labels (a ++ b) = labels a ++ labels b).
      { induction a as [|x a IHa]; intros b'; [reflexivity|]. cbn [app labels]. rewrite IHa, app_assoc. reflexivity. }
      assert (AL : length (labels (A nd)) = 1) by reflexivity.
      apply (lab_app t (A nd ++ e ++ p)); [apply LA|exact T4|].
      apply (lab_app (A nd) (e ++ p)); [apply LA| |].
      { apply (lab_at _ _ _ _ R1). rewrite AL, labels_length. lia. }
      apply (lab_app e p); [apply LA| |].
      { apply (lab_at _ _ _ _ F4). rewrite AL, labels_length. lia. }
      apply (lab_at _ _ _ _ G4). rewrite AL, !labels_length. lia.
Qed.
End P.
