(** Common definitions: option monad for undefined behaviour, list updates,
    fixed-width unsigned words represented by [N]. *)
From Coq Require Export List Arith ZArith NArith Bool Lia.
From Coq Require Export ZifyBool ZifyNat ZifyN.
Export ListNotations.

(** [None] is the distinct outcome "undefined behaviour": a read or a write
    outside an allocation, or a shift by at least the width of the word. *)
Definition bind {A B} (x : option A) (f : A -> option B) : option B :=
  match x with Some a => f a | None => None end.
Notation "'let?' x ':=' e 'in' f" := (bind e (fun x => f))
  (at level 200, x pattern, e at level 100, f at level 200, right associativity).

Definition guard (b : bool) : option unit := if b then Some tt else None.

(** Memory read/write at a position of a list. *)
Definition rd {A} (l : list A) (i : nat) : option A := nth_error l i.

Fixpoint upd {A} (l : list A) (i : nat) (x : A) : option (list A) :=
  match l, i with
  | [], _ => None
  | _ :: t, O => Some (x :: t)
  | a :: t, S j => let? t' := upd t j x in Some (a :: t')
  end.

Lemma rd_lt {A} (l : list A) i : i < length l -> exists x, rd l i = Some x.
Proof.
  intros H. unfold rd. destruct (nth_error l i) as [x|] eqn:E; [eauto|].
  apply nth_error_None in E. lia.
Qed.

Lemma rd_Some_lt {A} (l : list A) i x : rd l i = Some x -> i < length l.
Proof. intros H. apply nth_error_Some. unfold rd in H. congruence. Qed.

Lemma rd_None_ge {A} (l : list A) i : rd l i = None <-> length l <= i.
Proof. apply nth_error_None. Qed.

Lemma upd_lt {A} (l : list A) i x : i < length l -> exists l', upd l i x = Some l'.
Proof.
  revert i; induction l as [|a t IH]; intros i H; simpl in H; [lia|].
  destruct i as [|j]; [exists (x :: t); reflexivity|].
  destruct (IH j) as [t' E]; [lia|]. exists (a :: t'). simpl. rewrite E. reflexivity.
Qed.

Lemma upd_spec {A} (l l' : list A) i x :
  upd l i x = Some l' ->
  i < length l /\ length l' = length l /\
  forall j, rd l' j = if j =? i then Some x else rd l j.
Proof.
  revert i l'; induction l as [|a t IH]; intros i l' H; [discriminate|].
  destruct i as [|k]; simpl in H.
  - injection H as <-. simpl. split; [lia|]. split; [reflexivity|].
    intros [|j]; reflexivity.
  - destruct (upd t k x) as [t'|] eqn:E; simpl in H; [|discriminate].
    injection H as <-. destruct (IH _ _ E) as (H1 & H2 & H3).
    simpl. split; [lia|]. split; [lia|].
    intros [|j]; [reflexivity|]. apply (H3 j).
Qed.

Lemma upd_None {A} (l : list A) i x : upd l i x = None <-> length l <= i.
Proof.
  split; intros H.
  - destruct (Nat.lt_ge_cases i (length l)) as [L|L]; [|exact L].
    destruct (upd_lt l i x L) as [l' E]. congruence.
  - destruct (upd l i x) as [l'|] eqn:E; [|reflexivity].
    apply upd_spec in E. lia.
Qed.

Lemma list_eq_rd {A} (l l' : list A) :
  (forall i, rd l i = rd l' i) -> l = l'.
Proof.
  revert l'; induction l as [|a t IH]; intros [|b t'] H.
  - reflexivity.
  - specialize (H 0); discriminate.
  - specialize (H 0); discriminate.
  - f_equal; [specialize (H 0); simpl in H; congruence|].
    apply IH. intros i. apply (H (S i)).
Qed.

(** ** Words.  [tb x i] is bit [i] of [x]. *)
Definition tb (x : N) (i : nat) : bool := N.testbit x (N.of_nat i).

(** All words of a list fit into [w] bits. *)
Definition wok (w : nat) (x : N) : Prop := forall i, w <= i -> tb x i = false.

(** [~Word{0}]. *)
Definition wones (w : nat) : N := N.ones (N.of_nat w).
(** [~x]. *)
Definition wnot (w : nat) (x : N) : N := N.ldiff (wones w) x.
(** [x << k] in a word of [w] bits; undefined for [k >= w]. *)
Definition wshl (w : nat) (x : N) (k : nat) : option N :=
  if k <? w then Some (N.land (N.shiftl x (N.of_nat k)) (wones w)) else None.
(** [x >> k] in a word of [w] bits; undefined for [k >= w]. *)
Definition wshr (w : nat) (x : N) (k : nat) : option N :=
  if k <? w then Some (N.shiftr x (N.of_nat k)) else None.

Lemma tb_land x y i : tb (N.land x y) i = tb x i && tb y i.
Proof. apply N.land_spec. Qed.
Lemma tb_lor x y i : tb (N.lor x y) i = tb x i || tb y i.
Proof. apply N.lor_spec. Qed.
Lemma tb_0 i : tb 0 i = false.
Proof. apply N.bits_0. Qed.
Lemma tb_1 i : tb 1 i = (i =? 0).
Proof.
  destruct i as [|i]; [reflexivity|].
  unfold tb. apply N.bits_above_log2. simpl. lia.
Qed.
Lemma tb_ones w i : tb (wones w) i = (i <? w).
Proof.
  unfold tb, wones. destruct (Nat.ltb_spec i w).
  - apply N.ones_spec_low. lia.
  - apply N.ones_spec_high. lia.
Qed.
Lemma tb_wnot w x i : tb (wnot w x) i = (i <? w) && negb (tb x i).
Proof. unfold wnot, tb. rewrite N.ldiff_spec. fold (tb (wones w) i). rewrite tb_ones. reflexivity. Qed.
Lemma tb_wshl w x k y i :
  wshl w x k = Some y -> tb y i = (i <? w) && (k <=? i) && tb x (i - k).
Proof.
  unfold wshl. destruct (k <? w); [|discriminate]. intros H; injection H as <-.
  rewrite tb_land, tb_ones. unfold tb.
  destruct (Nat.leb_spec k i).
  - rewrite N.shiftl_spec_high' by lia.
    replace (N.of_nat i - N.of_nat k)%N with (N.of_nat (i - k)) by lia.
    destruct (i <? w), (N.testbit x (N.of_nat (i - k))); reflexivity.
  - rewrite N.shiftl_spec_low by lia. rewrite andb_false_r. reflexivity.
Qed.
Lemma tb_wshr w x k y i : wshr w x k = Some y -> tb y i = tb x (i + k).
Proof.
  unfold wshr. destruct (k <? w); [|discriminate]. intros H; injection H as <-.
  unfold tb. rewrite N.shiftr_spec'. f_equal. lia.
Qed.
Lemma wshl_def w x k : k < w -> exists y, wshl w x k = Some y.
Proof. intros H. unfold wshl. apply Nat.ltb_lt in H. rewrite H. eauto. Qed.
Lemma wshr_def w x k : k < w -> exists y, wshr w x k = Some y.
Proof. intros H. unfold wshr. apply Nat.ltb_lt in H. rewrite H. eauto. Qed.
Lemma tb_inj x y : (forall i, tb x i = tb y i) -> x = y.
Proof.
  intros H. apply N.bits_inj. intros n. specialize (H (N.to_nat n)).
  unfold tb in H. rewrite N2Nat.id in H. exact H.
Qed.

Lemma wok_lt w x : wok w x <-> (x < 2 ^ N.of_nat w)%N.
Proof.
  split; intros H.
  - destruct (N.eq_dec x 0) as [->|Hx]; [apply N.neq_0_lt_0, N.pow_nonzero; lia|].
    apply N.log2_lt_pow2; [lia|].
    destruct (N.lt_ge_cases (N.log2 x) (N.of_nat w)) as [L|L]; [exact L|].
    specialize (H (N.to_nat (N.log2 x))). unfold tb in H.
    rewrite N2Nat.id in H. rewrite N.bit_log2 in H by exact Hx.
    discriminate H. lia.
  - intros i Hi. unfold tb.
    destruct (N.eq_dec x 0) as [->|Hx]; [apply N.bits_0|].
    apply N.bits_above_log2. apply N.log2_lt_pow2 in H; lia.
Qed.

(** Index arithmetic for word vectors of width [w]. *)
Lemma div_lt_iff w i q : 0 < w -> (i / w < q <-> i < w * q).
Proof.
  intros Hw. split; intros H.
  - destruct (Nat.lt_ge_cases i (w * q)) as [L|L]; [exact L|].
    apply Nat.div_le_mono with (c := w) in L; [|lia].
    rewrite Nat.mul_comm, Nat.div_mul in L by lia. lia.
  - apply Nat.div_lt_upper_bound; lia.
Qed.
Lemma div_eq_iff w i q : 0 < w -> (i / w = q <-> w * q <= i < w * q + w).
Proof.
  intros Hw. pose proof (div_lt_iff w i q Hw). pose proof (div_lt_iff w i (S q) Hw). lia.
Qed.
Lemma divmod w i : 0 < w -> i = w * (i / w) + i mod w /\ i mod w < w.
Proof.
  intros Hw. split; [apply Nat.div_mod; lia | apply Nat.mod_upper_bound; lia].
Qed.
