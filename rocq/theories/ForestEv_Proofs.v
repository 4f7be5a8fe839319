(** Proofs about the forest evaluator: parts that do not depend on the loop over trees. *)
From Coq Require Import Permutation.
From Verif Require Import Base Forest_Model Forest_Spec Forest_Proofs Forest_Props ForestPt_Model ForestPt_Spec ForestPt_Proofs FullAcc_Spec
  ForestBm_Model ForestBm_Spec ForestBm_Proofs ForestBm_Trees ForestBm_Eval ForestSi_Model ForestSi_Spec ForestSi_Build ForestEv_Model ForestEv_Spec.

(** ** Sums of sums. *)
Lemma concat_perm {A} (l l' : list (list A)) : Permutation l l' -> Permutation (concat l) (concat l').
Proof.
  intros P. induction P as [|x l l' P IH|x y l|l l' l'' P1 IH1 P2 IH2]; cbn.
  - constructor.
  - apply Permutation_app_head, IH.
  - rewrite !app_assoc. apply Permutation_app_tail, Permutation_app_comm.
  - etransitivity; eassumption.
Qed.
Lemma Forall2_flip {A B} (P : A -> B -> Prop) l l' : Forall2 P l l' -> Forall2 (fun b a => P a b) l' l.
Proof. intros F. induction F; constructor; assumption. Qed.
Lemma NoDup_app' {A} (l l' : list A) : NoDup l -> NoDup l' -> (forall x, In x l -> In x l' -> False) -> NoDup (l ++ l').
Proof.
  intros H H' D. induction H as [|x l N H IH]; [exact H'|]. cbn. constructor.
  - intros I. apply in_app_iff in I. destruct I as [I|I]; [contradiction|exact (D x (or_introl eq_refl) I)].
  - apply IH. intros y Y. apply D. right. exact Y.
Qed.
Lemma forall2_perm_r {A B} (P : A -> B -> Prop) l' l2' : Permutation l' l2' -> forall l, Forall2 P l l' -> exists l2, Forall2 P l2 l2' /\ Permutation l l2.
Proof.
  intros Q l F. apply Forall2_flip in F. destruct (forall2_perm _ _ _ Q l F) as (l2 & F2 & Q2). exists l2. split; [apply Forall2_flip; exact F2|exact Q2].
Qed.
Lemma sum_subst {V} (vo : vops V) l y : sum_of vo l y -> forall parts, Forall2 (sum_of vo) parts l -> sum_of vo (concat parts) y.
Proof.
  intros S. induction S as [|v|l1 l2 a b S1 IH1 S2 IH2|l a S IH|l l' a P S IH]; intros parts F.
  - inversion F; subst. constructor.
  - inversion F as [|x ? r ? X R]; subst. inversion R; subst. cbn. rewrite app_nil_r. exact X.
  - apply Forall2_app_inv_r in F. destruct F as (p1 & p2 & F1 & F2 & ->). rewrite concat_app. apply sum_add; auto.
  - apply sum_rnd. apply IH. exact F.
  - destruct (forall2_perm_r _ _ _ (Permutation_sym P) parts F) as (q & Fq & Pq). apply (sum_perm vo (concat q)).
    + apply concat_perm. symmetry. exact Pq.
    + apply IH. exact Fq.
Qed.
Lemma sum_cons {V} (vo : vops V) l x vs y : sum_of vo l x -> sum_of vo (x :: vs) y -> sum_of vo (l ++ vs) y.
Proof.
  intros S T. assert (F : Forall2 (sum_of vo) (l :: map (fun v => [v]) vs) (x :: vs)).
  { constructor; [exact S|]. clear T. induction vs as [|v vs IH]; constructor; [apply sum_one|exact IH]. }
  pose proof (sum_subst vo _ _ T _ F) as R. cbn in R. replace (concat (map (fun v => [v]) vs)) with vs in R; [exact R|].
  clear. induction vs as [|v vs IH]; cbn; congruence.
Qed.

(** ** Proper trees have every leaf once. *)
Section paths.
Variable ns : list snode.
Definition pick (b : bool) (n : snode) : Z := if b then n_true n else n_false n.
Fixpoint go (id : Z) (p : list bool) : option Z :=
  match p with [] => Some id | b :: r => let? n := zrd ns id in go (pick b n) r end.
Fixpoint lpaths (d : dtree) : list (list bool) :=
  match d with DLeaf _ => [[]] | DNode _ f t => map (cons false) (lpaths f) ++ map (cons true) (lpaths t) end.
Lemma lpaths_nodup d : NoDup (lpaths d).
Proof.
  induction d as [i|c f IHf t IHt]; cbn; [repeat constructor; tauto|].
  apply NoDup_app'; [apply FinFun.Injective_map_NoDup; [intros x y [= ->]; reflexivity|exact IHf]|apply FinFun.Injective_map_NoDup; [intros x y [= ->]; reflexivity|exact IHt]|].
  intros x X Y. apply in_map_iff in X, Y. destruct X as (a & <- & _), Y as (b & E & _). discriminate.
Qed.
Lemma go_app id p b : go id (p ++ [b]) = let? k := go id p in let? n := zrd ns k in Some (pick b n).
Proof. revert id. induction p as [|c p IH]; intros id; cbn; [destruct (zrd ns id); reflexivity|]. destruct (zrd ns id); [apply IH|reflexivity]. Qed.
Lemma leaves_paths id d : unfolds ns id d -> map (go id) (lpaths d) = map (fun i => Some (- Z.of_nat i - 1)%Z) (leaves d).
Proof.
  intros U. induction U as [id N|k n f t E U1 IH1 U2 IH2]; cbn.
  - do 2 f_equal. lia.
  - rewrite !map_app, !map_map. f_equal; [rewrite <- IH1|rewrite <- IH2]; apply map_ext; intros p; cbn; rewrite zrd_nat, E; reflexivity.
Qed.
Lemma nth_children k n b : nth_error ns k = Some n -> nth_error (children ns) (2 * k + Nat.b2n b) = Some (pick b n).
Proof.
  unfold children. revert k. induction ns as [|m r IH]; intros [|k] E; try discriminate; cbn in E.
  - injection E as ->. destruct b; reflexivity.
  - replace (2 * S k + Nat.b2n b) with (S (S (2 * k + Nat.b2n b))) by lia. cbn [flat_map app nth_error]. apply IH. exact E.
Qed.
Hypothesis D : NoDup (children ns).
Hypothesis R : ~ In 0%Z (children ns).
Lemma go_last id p b x : go id (p ++ [b]) = Some x -> exists k n, go id p = Some (Z.of_nat k) /\ nth_error ns k = Some n /\ x = pick b n.
Proof.
  rewrite go_app. destruct (go id p) as [z|]; [|discriminate]. cbn [bind]. unfold zrd. destruct (Z.ltb_spec z 0); [discriminate|].
  destruct (rd ns (Z.to_nat z)) as [n|] eqn:E; [|discriminate]. intros [= <-]. exists (Z.to_nat z), n. rewrite Z2Nat.id by lia. auto.
Qed.
Lemma go_child id p b x : go id (p ++ [b]) = Some x -> In x (children ns).
Proof. intros H. destruct (go_last id p b x H) as (k & n & _ & E & ->). eapply nth_error_In. exact (nth_children k n b E). Qed.
Lemma go_inj p : forall q x, go 0 p = Some x -> go 0 q = Some x -> p = q.
Proof.
  induction p as [|b p IH] using rev_ind; intros q x P Q.
  - destruct q as [|c q _] using rev_ind; [reflexivity|]. cbn in P. injection P as <-. apply go_child in Q. contradiction.
  - destruct q as [|c q _] using rev_ind; [cbn in Q; injection Q as <-; apply go_child in P; contradiction|].
    destruct (go_last _ _ _ _ P) as (k & n & Gp & En & X). destruct (go_last _ _ _ _ Q) as (k' & n' & Gq & En' & X').
    assert (K : 2 * k + Nat.b2n b = 2 * k' + Nat.b2n c).
    { apply (proj1 (NoDup_nth_error (children ns)) D).
      - apply nth_error_Some. rewrite (nth_children k n b En). discriminate.
      - rewrite (nth_children k n b En), (nth_children k' n' c En'). congruence. }
    assert (k = k') as <- by (destruct b, c; cbn in K; lia). assert (b = c) as <- by (destruct b, c; cbn in K; [reflexivity|lia|lia|reflexivity]).
    f_equal. exact (IH q _ Gp Gq).
Qed.
Lemma root_leaves d : unfolds ns 0 d -> NoDup (leaves d).
Proof.
  intros U. apply (NoDup_map_inv (fun i => Some (- Z.of_nat i - 1)%Z)). rewrite <- (leaves_paths 0 d U).
  assert (G : forall p, In p (lpaths d) -> exists x, go 0 p = Some x).
  { intros p P. assert (I : In (go 0 p) (map (go 0) (lpaths d))) by (apply in_map; exact P). rewrite (leaves_paths 0 d U) in I. apply in_map_iff in I. destruct I as (i & <- & _). eauto. }
  pose proof (lpaths_nodup d) as N. revert G N. induction (lpaths d) as [|p l IH]; intros G N; cbn; [constructor|]. inversion N as [|? ? Np Nl]; subst.
  constructor; [|apply IH; [intros q Qq; apply G; right; exact Qq|exact Nl]].
  intros I. apply in_map_iff in I. destruct I as (q & E & Iq). destruct (G p (or_introl eq_refl)) as [x X]. rewrite X in E. rewrite (go_inj p q x X E) in Np. contradiction.
Qed.
End paths.
Lemma proper_leaves {V} (t : tree V) d : proper t -> is_tree t d -> NoDup (leaves d).
Proof.
  intros [D R] U. unfold is_tree in U. destruct (t_nodes t) as [|n r] eqn:E.
  - inversion U as [id|k n f t2 X Y Z]; subst; [repeat constructor; intros []|lia].
  - rewrite <- E in *. exact (root_leaves _ D R d U).
Qed.
