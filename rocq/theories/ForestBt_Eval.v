(** Evaluating the parts on arrays. *)
From Coq Require Import Permutation FunctionalExtensionality.
From Verif Require Import Base Bits_Model Bitmap_Model Dense_Model Dense_Spec Edge_Proofs IdFilter_Model Array_Model Array_Spec Array_Proofs
  FrameIter_Model FrameIter_Spec FrameIter_Main FrameIter_Props
  Forest_Model Forest_Spec Forest_Proofs ForestPt_Model ForestBm_Model ForestSi_Model ForestSi_Spec ForestEv_Model ForestEv_Spec
  ForestBt_Model ForestBt_Spec ForestBt_Proofs.

(** ** Rows agree on the used inputs. *)
Section rows.
Context {V : Type} (vo : vops V) (ot : others).
Definition agree (us : list (tree V)) (fr fr' : Forest_Model.frame) : Prop :=
  forall j ty, uses ot us j ty -> in_f32 fr j = in_f32 fr' j /\ in_i64 fr j = in_i64 fr' j.
Lemma ceval_agree (us : list (tree V)) fr fr' t n : others_local ot -> agree us fr fr' -> In t us -> In n (t_nodes t) -> ceval ot fr (n_cond n) = ceval ot fr' (n_cond n).
Proof.
  intros Lo A T N. assert (U : forall j ty, In (j, ty) (csig ot (n_cond n)) -> in_f32 fr j = in_f32 fr' j /\ in_i64 fr j = in_i64 fr' j) by (intros j ty I; apply (A j ty); exists t, n; auto).
  destruct (n_cond n) as [i l r|i vs m|i vs m|k]; cbn [ceval csig] in *.
  - destruct (U i TF32) as [-> _]; [left; reflexivity|reflexivity].
  - destruct (U i TI64) as [_ ->]; [left; reflexivity|reflexivity].
  - destruct (U i TF32) as [-> _]; [left; reflexivity|reflexivity].
  - apply Lo. exact U.
Qed.
Lemma deval_agree (us : list (tree V)) fr fr' t : others_local ot -> agree us fr fr' -> In t us -> forall d, is_tree t d -> deval ot fr d = deval ot fr' d.
Proof.
  intros Lo A T d. unfold is_tree. generalize (match t_nodes t with [] => (-1)%Z | _ => 0%Z end). intros id D.
  induction D as [id Neg|k n f d En D1 IH1 D2 IH2]; cbn [deval]; [reflexivity|]. rewrite (ceval_agree us fr fr' t n Lo A T (nth_error_In _ _ En)), IH1, IH2. reflexivity.
Qed.
Lemma values_agree (us : list (tree V)) fr fr' f : others_local ot -> agree us fr fr' -> forall ts vs, incl ts us -> values vo ot fr f ts vs -> values vo ot fr' f ts vs.
Proof.
  intros Lo A ts vs I H. induction H as [|t ts vs Sel H IH|t ts vs d v Sel D Tv H IH].
  - constructor.
  - constructor; [exact Sel|]. apply IH. intros x X. apply I. right. exact X.
  - apply (vals_take vo ot fr' f t ts vs d v); [exact Sel|exact D| |apply IH; intros x X; apply I; right; exact X].
    unfold tree_value in *. rewrite <- (deval_agree us fr fr' t Lo A (I t (or_introl eq_refl)) d D). exact Tv.
Qed.
Lemma output_agree (us : list (tree V)) fr fr' f y : others_local ot -> agree us fr fr' -> output_ok vo ot fr us f y -> output_ok vo ot fr' us f y.
Proof. intros Lo A (vs & Vv & Sv). exists vs. split; [|exact Sv]. apply (values_agree us fr fr' f Lo A us vs (incl_refl _) Vv). Qed.
Lemma values_app fr f (us : list (tree V)) : forall vs us' vs', values vo ot fr f us vs -> values vo ot fr f us' vs' -> values vo ot fr f (us ++ us') (vs ++ vs').
Proof.
  intros vs us' vs' H H'. induction H as [|t ts vs Sel H IH|t ts vs d v Sel D Tv H IH]; cbn [app]; [exact H'|constructor; assumption|].
  apply (vals_take vo ot fr f t _ _ d v); assumption.
Qed.
Lemma output_app fr f us us' y y' : output_ok vo ot fr us f y -> output_ok vo ot fr us' f y' -> output_ok vo ot fr (us ++ us') f (vrnd vo (vadd vo y y')).
Proof. intros (vs & A & B) (vs' & A' & B'). exists (vs ++ vs'). split; [apply values_app; assumption|]. apply sum_rnd, sum_add; assumption. Qed.
End rows.

(** ** Lists of options. *)
Lemma all_some_map {X Y} (f : X -> option Y) (l : list X) (ys : list Y) : Forall2 (fun x y => f x = Some y) l ys -> all_some (map f l) = Some ys.
Proof. induction 1 as [|x y l ys E F IH]; [reflexivity|]. cbn [map all_some]. rewrite E. cbn [bind]. rewrite IH. reflexivity. Qed.
Lemma all_some_inv {X Y} (f : X -> option Y) (l : list X) : forall ys, all_some (map f l) = Some ys -> Forall2 (fun x y => f x = Some y) l ys.
Proof.
  induction l as [|x l IH]; intros ys E; cbn [map all_some] in E; [injection E as <-; constructor|]. destruct (f x) as [y|] eqn:Ex; [|discriminate]. cbn [bind] in E.
  destruct (all_some (map f l)) as [ys'|]; [|discriminate]. injection E as <-. constructor; auto.
Qed.

(** ** Writing the outputs of one frame. *)
Section frames.
Context {V : Type}.
Lemma put_outputs_ok (ss : list slot) : forall (vs : list V) f, NoDup (map sl_id ss) -> (forall s, In s ss -> sl_id s < length f) -> length vs = length ss ->
  exists f', put_outputs V ss vs f = Some f' /\ length f' = length f /\ (forall k, ~ In k (map sl_id ss) -> nth_error f' k = nth_error f k) /\
  Forall2 (fun s v => nth_error f' (sl_id s) = Some (true, BV v)) ss vs.
Proof.
  induction ss as [|s ss IH]; intros [|v vs] f Nd In1 Ln; try discriminate.
  - exists f. cbn. auto.
  - inversion Nd as [|? ? Ni Nd']; subst. cbn [put_outputs map]. destruct (upd_lt f (sl_id s) (true, BV v) (In1 s (or_introl eq_refl))) as [f1 E1]. rewrite E1. cbn [bind].
    destruct (upd_spec _ _ _ _ E1) as (_ & L1 & R1). destruct (IH vs f1 Nd') as (f' & E & L & R & F); [intros x X; rewrite L1; apply In1; right; exact X|cbn in Ln; lia|].
    exists f'. split; [exact E|]. split; [lia|]. unfold rd in R1. split.
    + intros k K. cbn [In] in K. rewrite R by tauto. rewrite R1. destruct (Nat.eqb_spec k (sl_id s)); [subst; tauto|reflexivity].
    + constructor; [|exact F]. rewrite R by exact Ni. rewrite R1, Nat.eqb_refl. reflexivity.
Qed.
End frames.

(** ** Storing arrays in the frame. *)
Section memory.
Context {A : Type}.
Notation store := (fix store (mem : list A) (ws : list (nat * A)) : option (list A) :=
  match ws with [] => Some mem | (i, a) :: r => let? mem' := upd mem i a in store mem' r end).
Lemma store_ok (ws : list (nat * A)) : forall mem, NoDup (map fst ws) -> (forall i, In i (map fst ws) -> i < length mem) ->
  exists mem', store mem ws = Some mem' /\ length mem' = length mem /\ (forall k, ~ In k (map fst ws) -> nth_error mem' k = nth_error mem k) /\
  forall i a, In (i, a) ws -> nth_error mem' i = Some a.
Proof.
  induction ws as [|[i a] ws IH]; intros mem Nd In1.
  - exists mem. split; [reflexivity|]. split; [reflexivity|]. split; [auto|intros i a []].
  - inversion Nd as [|? ? Ni Nd']; subst. cbn [map fst] in *. destruct (upd_lt mem i a (In1 i (or_introl eq_refl))) as [m1 E1]. rewrite E1. cbn [bind].
    destruct (upd_spec _ _ _ _ E1) as (_ & L1 & R1). unfold rd in R1. destruct (IH m1 Nd') as (m' & E & L & R & F); [intros x X; rewrite L1; apply In1; right; exact X|].
    exists m'. split; [exact E|]. split; [lia|]. split.
    + intros k K. cbn [In] in K. rewrite R by tauto. rewrite R1. destruct (Nat.eqb_spec k i); [subst; tauto|reflexivity].
    + intros k b [H|H]; [injection H as <- <-|exact (F k b H)]. rewrite R by exact Ni. rewrite R1, Nat.eqb_refl. reflexivity.
Qed.
End memory.
