(** An executable sort, to show that the guarantees assumed of std::sort and
    std::nth_element can be met. *)
From Coq Require Import Permutation.
From Verif Require Import Base Accum_Model Accum_Spec Accum_Proofs.

Section S.
Context {T : Type}.
Variable lt : T -> T -> bool.
Fixpoint ins (x : T) (l : list T) : list T :=
  match l with [] => [x] | y :: t => if lt y x then y :: ins x t else x :: y :: t end.
Definition isort (l : list T) : list T := fold_right ins [] l.
Lemma ins_perm x l : Permutation (ins x l) (x :: l).
Proof.
  induction l as [|y t IH]; [apply Permutation_refl|]. cbn. destruct (lt y x); [|apply Permutation_refl].
  apply (perm_trans (l' := y :: x :: t)); [constructor; exact IH|apply perm_swap].
Qed.
Lemma isort_perm l : Permutation (isort l) l.
Proof. induction l as [|x t IH]; [constructor|]. cbn. apply (perm_trans (ins_perm x (isort t))). constructor. exact IH. Qed.

(** [good x] : values the order is total on. *)
Variable good : T -> Prop.
Hypothesis asym : forall a b, good a -> good b -> lt a b = true -> lt b a = false.
Hypothesis ntrans : forall a b c, good a -> good b -> good c -> lt a b = false -> lt b c = false -> lt a c = false.
Fixpoint srt (l : list T) : Prop := match l with [] => True | x :: t => (forall y, In y t -> lt y x = false) /\ srt t end.
Lemma ins_srt x l : good x -> (forall y, In y l -> good y) -> srt l -> srt (ins x l).
Proof.
  intros Gx. induction l as [|y t IH]; intros G H; [cbn; split; [intros y []|exact I]|]. cbn. destruct H as [H1 H2].
  assert (Gy : good y) by (apply G; left; reflexivity). assert (Gt : forall z, In z t -> good z) by (intros z Hz; apply G; right; exact Hz).
  destruct (lt y x) eqn:E.
  - cbn. split; [|apply IH; assumption]. intros z Hz. apply (Permutation_in _ (ins_perm x t)) in Hz. destruct Hz as [<-|Hz]; [apply asym; assumption|apply H1, Hz].
  - cbn. split; [|split; assumption]. intros z [<-|Hz]; [exact E|]. apply (ntrans z y x); auto.
Qed.
Lemma isort_srt l : (forall y, In y l -> good y) -> srt (isort l).
Proof.
  induction l as [|x t IH]; intros G; [exact I|]. cbn. apply ins_srt; [apply G; left; reflexivity| |apply IH; intros y Hy; apply G; right; exact Hy].
  intros y Hy. apply (Permutation_in _ (isort_perm t)) in Hy. apply G. right. exact Hy.
Qed.
Lemma srt_split a : forall x b, srt (a ++ x :: b) -> (forall y, In y a -> lt x y = false) /\ (forall y, In y b -> lt y x = false).
Proof.
  induction a as [|z a IH]; intros x b H; cbn in H; destruct H as [H1 H2]; [split; [intros y []|exact H1]|].
  destruct (IH _ _ H2) as [A B]. split; [|exact B]. intros y [<-|Hy]; [apply H1, in_or_app; right; left; reflexivity|apply A, Hy].
Qed.
End S.

Lemma isort_nth_element {T} (o : ord T) : ord_ok o -> nth_element o (fun l _ => isort (o_lt o) l).
Proof.
  intros Ho l k N Hk. split; [apply isort_perm|].
  pose proof (isort_perm (o_lt o) l) as P. pose proof (Permutation_length P) as L.
  assert (Sr : srt (o_lt o) (isort (o_lt o) l)).
  { apply (isort_srt (o_lt o) (fun x => nan o x = false)); [| |exact N].
    - intros a b A B H. destruct (o_lt o b a) eqn:E; [|reflexivity]. pose proof (lt_trans o Ho _ _ _ H E) as C. rewrite (lt_irrefl o Ho) in C. discriminate.
    - intros a b c A B C. apply (nlt_trans o Ho); assumption. }
  destruct (isort (o_lt o) l) as [|d0 t] eqn:E; [cbn in L; lia|]. rewrite <- E in *.
  exists (firstn k (isort (o_lt o) l)), (nth k (isort (o_lt o) l) d0), (skipn (S k) (isort (o_lt o) l)).
  assert (D : isort (o_lt o) l = firstn k (isort (o_lt o) l) ++ nth k (isort (o_lt o) l) d0 :: skipn (S k) (isort (o_lt o) l)).
  { rewrite <- (firstn_skipn k (isort (o_lt o) l)) at 1. f_equal. assert (Hk' : k < length (isort (o_lt o) l)) by lia. clear - Hk'.
    revert k Hk'. generalize (isort (o_lt o) l) as q. induction q as [|x q IH]; intros [|k] Hk; cbn in *; try lia; [reflexivity|]. apply IH. lia. }
  split; [exact D|]. split; [apply firstn_length_le; lia|]. rewrite D in Sr. apply srt_split in Sr. destruct Sr as [A B]. split; [exact A|exact B].
Qed.
