From Coq Require Import Permutation.
From Verif Require Import Base GroupOps_Model Frame_Model Frame_Spec.

Lemma op_ind' (P : op -> Prop) : (forall t, P (OSlot t)) -> (forall ord ops, Forall P ops -> P (OSub ord ops)) ->
  (forall o sz t dup, P (OReg o sz t dup)) -> forall p, P p.
Proof.
  intros H1 H2 H3. fix IH 1. intros [t|ord ops|o sz t dup]; [apply H1| |apply H3].
  apply H2. induction ops as [|q r IHr]; constructor; [apply IH|exact IHr].
Qed.

Lemma pow2_pos a : is_pow2 a -> 0 < a.
Proof. intros [k ->]. pose proof (Nat.pow_nonzero 2 k). lia. Qed.
Lemma pow2_div a b : is_pow2 a -> is_pow2 b -> a <= b -> b mod a = 0.
Proof.
  intros [i ->] [j ->] H. assert (i <= j) by (apply (Nat.pow_le_mono_r_iff 2); lia).
  replace j with (i + (j - i)) by lia. rewrite Nat.pow_add_r, Nat.mul_comm. apply Nat.mod_mul, Nat.pow_nonzero. lia.
Qed.
Lemma pow2_max a b : is_pow2 a -> is_pow2 b -> is_pow2 (Nat.max a b).
Proof. intros Ha Hb. destruct (Nat.max_spec a b) as [[_ ->]|[_ ->]]; assumption. Qed.
Lemma mod_trans x a b : 0 < a -> 0 < b -> x mod b = 0 -> b mod a = 0 -> x mod a = 0.
Proof.
  intros Ha Hb H1 H2. apply Nat.mod_divide in H1; [|lia]. apply Nat.mod_divide in H2; [|lia].
  apply Nat.mod_divide; [lia|]. eapply Nat.divide_trans; eassumption.
Qed.
Lemma mod_add x y a : 0 < a -> x mod a = 0 -> y mod a = 0 -> (x + y) mod a = 0.
Proof.
  intros Ha H1 H2. apply Nat.mod_divide in H1; [|lia]. apply Nat.mod_divide in H2; [|lia]. apply Nat.mod_divide; [lia|].
  apply Nat.divide_add_r; assumption.
Qed.
Lemma round_up_ok v d : 0 < d -> round_up v d mod d = 0 /\ v <= round_up v d < v + d.
Proof.
  intros Hd. unfold round_up. split; [apply Nat.mod_mul; lia|].
  pose proof (Nat.div_mod (v + d - 1) d). pose proof (Nat.mod_upper_bound (v + d - 1) d).
  rewrite (Nat.mul_comm d) in H. lia.
Qed.
Lemma round_up_id v d : 0 < d -> v mod d = 0 -> round_up v d = v.
Proof.
  intros Hd H. destruct (round_up_ok v d Hd) as [H1 H2].
  apply Nat.mod_divide in H as [x ->]; [|lia]. apply Nat.mod_divide in H1 as [y E]; [|lia]. rewrite E in *. f_equal. nia.
Qed.

(** ** The map of factories *)
Definition map_inv (fs : list fac) (m : list (nat * nat)) : Prop :=
  m = combine (map f_ty fs) (seq 0 (length fs)) /\ NoDup (map f_ty fs).
Definition all_fields (fs : list fac) : list (nat * nat) := flat_map (fun f => map (fun o => (o, f_ty f)) (f_offs f)) fs.

Lemma assoc_combine t l : forall b, assoc t (combine l (seq b (length l))) = None /\ ~ In t l \/
  exists i, assoc t (combine l (seq b (length l))) = Some (b + i) /\ rd l i = Some t.
Proof.
  induction l as [|x l IH]; intros b; [left; split; [reflexivity|tauto]|]. cbn [length seq combine assoc].
  destruct (Nat.eqb_spec t x) as [->|N].
  - right. exists 0. split; [f_equal; lia|reflexivity].
  - destruct (IH (S b)) as [[E H]|(i & E & H)]; rewrite E.
    + left. split; [reflexivity|]. intros [K|K]; [congruence|contradiction].
    + right. exists (S i). split; [f_equal; lia|exact H].
Qed.
Lemma map_inv_assoc fs m t : map_inv fs m -> assoc t m = None /\ ~ In t (map f_ty fs) \/
  exists i f, assoc t m = Some i /\ rd fs i = Some f /\ f_ty f = t.
Proof.
  intros [-> _]. replace (length fs) with (length (map f_ty fs)) by apply map_length. destruct (assoc_combine t (map f_ty fs) 0) as [H|(i & E & H)]; [left; exact H|right].
  unfold rd in H. rewrite nth_error_map in H. destruct (nth_error fs i) as [f|] eqn:Ef; [|discriminate].
  exists i, f. cbn [Nat.add] in E. split; [exact E|]. split; [exact Ef|]. cbn in H. congruence.
Qed.
Lemma map_inv_app fs m f : map_inv fs m -> ~ In (f_ty f) (map f_ty fs) -> map_inv (fs ++ [f]) (m ++ [(f_ty f, length fs)]).
Proof.
  intros [-> ND] Hin. split.
  - rewrite app_length, map_app. cbn [length map]. rewrite Nat.add_1_r, seq_S. cbn [Nat.add].
    assert (G : forall (a : list nat) b x y, length a = length b -> combine (a ++ [x]) (b ++ [y]) = combine a b ++ [(x, y : nat)]).
    { induction a as [|u a IH]; intros [|v b] x y H; try discriminate; [reflexivity|]. cbn [app combine]. rewrite IH by (cbn in H; lia). reflexivity. }
    symmetry. apply G. rewrite map_length, seq_length. reflexivity.
  - rewrite map_app. cbn [map]. apply Permutation_NoDup with (l := f_ty f :: map f_ty fs); [apply Permutation_cons_append|constructor; assumption].
Qed.
Lemma upd_split {A} (l l' : list A) i x y : rd l i = Some x -> upd l i y = Some l' ->
  exists a b, l = a ++ x :: b /\ l' = a ++ y :: b /\ length a = i.
Proof.
  revert i l'. induction l as [|u l IH]; intros [|i] l' H1 H2; try discriminate; cbn in H1, H2.
  - exists [], l. split; [cbn; congruence|]. split; [cbn; congruence|reflexivity].
  - destruct (upd l i y) as [t|] eqn:E; [|discriminate]. cbn in H2. destruct (IH i t H1 E) as (a & b & -> & -> & L).
    exists (u :: a), b. split; [reflexivity|]. split; [cbn; congruence|cbn; lia].
Qed.
Lemma map_inv_upd fs m i f f' fs' : map_inv fs m -> rd fs i = Some f -> f_ty f' = f_ty f -> upd fs i f' = Some fs' -> map_inv fs' m.
Proof.
  intros [-> ND] H1 H2 H3. destruct (upd_split _ _ _ _ _ H1 H3) as (a & b & -> & -> & _).
  unfold map_inv. rewrite !map_app, !app_length in *. cbn [map length] in *. rewrite H2. auto.
Qed.
Lemma all_fields_app a b : all_fields (a ++ b) = all_fields a ++ all_fields b.
Proof. apply flat_map_app. Qed.
Lemma all_fields_upd fs i f extra fs' : rd fs i = Some f -> upd fs i (mkFac (f_ty f) (f_offs f ++ extra)) = Some fs' ->
  Permutation (all_fields fs') (map (fun o => (o, f_ty f)) extra ++ all_fields fs).
Proof.
  intros H1 H2. destruct (upd_split _ _ _ _ _ H1 H2) as (a & b & -> & -> & _). rewrite !all_fields_app.
  cbn [all_fields flat_map f_ty f_offs]. fold (all_fields b). rewrite map_app.
  rewrite <- !app_assoc. etransitivity; [|apply Permutation_app_comm]. rewrite <- !app_assoc.
  apply Permutation_app_head, Permutation_app_head. apply Permutation_app_comm.
Qed.
Lemma add_offset_ok fs m o t : map_inv fs m -> exists fs' m', add_offset fs m o t = Some (fs', m') /\ map_inv fs' m' /\
  Permutation (all_fields fs') ((o, t) :: all_fields fs).
Proof.
  intros I. unfold add_offset. destruct (map_inv_assoc fs m t I) as [[-> Hin]|(i & f & -> & Hf & Ht)].
  - rewrite app_length. cbn [length]. replace (length fs <? length fs + 1) with true by lia.
    assert (R : rd (fs ++ [mkFac t []]) (length fs) = Some (mkFac t [])) by (unfold rd; rewrite nth_error_app2, Nat.sub_diag by lia; reflexivity).
    rewrite R. cbn [bind]. destruct (upd_lt (fs ++ [mkFac t []]) (length fs) (f_add (mkFac t []) o)) as [fs' E]; [rewrite app_length; cbn; lia|].
    rewrite E. cbn [bind]. eexists _, _. split; [reflexivity|].
    assert (I' : map_inv (fs ++ [mkFac t []]) (m ++ [(t, length fs)])) by (apply (map_inv_app fs m (mkFac t [])); assumption).
    split; [eapply map_inv_upd; [exact I'|exact R| |exact E]; reflexivity|].
    etransitivity; [exact (all_fields_upd _ _ _ [o] _ R E)|]. cbn [map app f_ty]. rewrite all_fields_app. cbn. rewrite app_nil_r. reflexivity.
  - pose proof (rd_Some_lt _ _ _ Hf). replace (i <? length fs) with true by lia. rewrite Hf. cbn [bind].
    destruct (upd_lt fs i (f_add f o)) as [fs' E]; [lia|]. rewrite E. cbn [bind]. eexists _, _. split; [reflexivity|].
    split; [eapply map_inv_upd; [exact I|exact Hf| |exact E]; reflexivity|].
    etransitivity; [exact (all_fields_upd _ _ _ [o] _ Hf E)|]. rewrite Ht. reflexivity.
Qed.

Lemma derive_fields d o : map (fun x => (x, f_ty d)) (f_offs (f_derive d o)) = shift o (map (fun x => (x, f_ty d)) (f_offs d)).
Proof. cbn [f_derive f_offs]. unfold shift. rewrite !map_map. apply map_ext. intros x. cbn [fst snd]. f_equal. lia. Qed.
Lemma derived_step_ok o dfs fs m t id d : map_inv fs m -> rd dfs id = Some d -> f_ty d = t ->
  exists fs' m', derived_step o dfs (fs, m) (t, id) = Some (fs', m') /\ map_inv fs' m' /\
    Permutation (all_fields fs') (shift o (map (fun x => (x, t)) (f_offs d)) ++ all_fields fs).
Proof.
  intros I Hd Ht. unfold derived_step. rewrite Hd. cbn [bind]. destruct (map_inv_assoc fs m t I) as [[-> Hin]|(i & f & -> & Hf & Hft)].
  - eexists _, _. split; [reflexivity|]. rewrite <- Ht in *. split; [apply (map_inv_app fs m (f_derive d o)); assumption|].
    rewrite all_fields_app. cbn [all_fields flat_map]. rewrite app_nil_r. change (f_ty (f_derive d o)) with (f_ty d).
    rewrite derive_fields. apply Permutation_app_comm.
  - rewrite Hf. cbn [bind]. pose proof (rd_Some_lt _ _ _ Hf). destruct (upd_lt fs i (f_add_derived f (f_derive d o))) as [fs' E]; [lia|].
    rewrite E. cbn [bind]. eexists _, _. split; [reflexivity|].
    split; [eapply map_inv_upd; [exact I|exact Hf| |exact E]; reflexivity|].
    etransitivity; [exact (all_fields_upd _ _ _ _ _ Hf E)|]. rewrite Hft, <- Ht, derive_fields. reflexivity.
Qed.
Definition entry_fields (dfs : list fac) (c : nat * nat) : list (nat * nat) :=
  match rd dfs (snd c) with Some d => map (fun x => (x, fst c)) (f_offs d) | None => [] end.
Lemma derived_fold_ok o dfs : forall cs fs m, map_inv fs m ->
  Forall (fun c => exists d, rd dfs (snd c) = Some d /\ f_ty d = fst c) cs ->
  exists fs' m', fold_opt (derived_step o dfs) cs (fs, m) = Some (fs', m') /\ map_inv fs' m' /\
    Permutation (all_fields fs') (shift o (flat_map (entry_fields dfs) cs) ++ all_fields fs).
Proof.
  induction cs as [|[t id] cs IH]; intros fs m I F; [exists fs, m; split; [reflexivity|split; [exact I|reflexivity]]|].
  inversion F as [|c' cs' (d & Hd & Ht) F']; subst. cbn [fst snd] in Hd, Ht.
  destruct (derived_step_ok o dfs fs m t id d I Hd Ht) as (fs1 & m1 & E1 & I1 & P1). cbn [fold_opt]. rewrite E1. cbn [bind].
  destruct (IH fs1 m1 I1 F') as (fs2 & m2 & E2 & I2 & P2). exists fs2, m2. split; [exact E2|]. split; [exact I2|].
  etransitivity; [exact P2|]. cbn [flat_map]. unfold entry_fields at 2. cbn [snd fst]. rewrite Hd. unfold shift at 2. rewrite map_app.
  fold (shift o (map (fun x => (x, t)) (f_offs d))). fold (shift o (flat_map (entry_fields dfs) cs)).
  rewrite <- app_assoc. etransitivity; [apply Permutation_app_head, P1|]. rewrite !app_assoc. apply Permutation_app_tail, Permutation_app_comm.
Qed.
Lemma entries_ok dfs dm : map_inv dfs dm -> Forall (fun c => exists d, rd dfs (snd c) = Some d /\ f_ty d = fst c) dm /\
  flat_map (entry_fields dfs) dm = all_fields dfs.
Proof.
  intros [-> _]. assert (G : forall l pre, Forall (fun c => exists d, rd (pre ++ l) (snd c) = Some d /\ f_ty d = fst c) (combine (map f_ty l) (seq (length pre) (length l))) /\
    flat_map (entry_fields (pre ++ l)) (combine (map f_ty l) (seq (length pre) (length l))) = all_fields l).
  { induction l as [|f l IH]; intros pre; [split; [constructor|reflexivity]|]. specialize (IH (pre ++ [f])). rewrite <- app_assoc in IH. cbn [app] in IH.
    rewrite app_length in IH. cbn [length] in IH. rewrite Nat.add_1_r in IH. destruct IH as [IH1 IH2].
    cbn [map length seq combine flat_map all_fields].
    assert (R : rd (pre ++ f :: l) (length pre) = Some f) by (unfold rd; rewrite nth_error_app2, Nat.sub_diag by lia; reflexivity).
    split; [constructor; [exists f; cbn [fst snd]; auto|exact IH1]|]. unfold entry_fields at 1. cbn [snd fst]. rewrite R. f_equal. exact IH2. }
  exact (G dfs []).
Qed.

Lemma reg_mem_in x r : reg_mem x r = true <-> In x r.
Proof.
  unfold reg_mem. rewrite existsb_exists. split.
  - intros (y & H & E). destruct x as [a b], y as [c d]. cbn in E. replace a with c by lia. replace b with d by lia. exact H.
  - intros H. exists x. split; [exact H|]. lia.
Qed.
Lemma reg_add_in r x y : In y (reg_add r x) <-> y = x \/ In y r.
Proof.
  unfold reg_add. destruct (reg_mem x r) eqn:E; [|cbn; intuition congruence]. apply reg_mem_in in E. split; [tauto|]. intros [->|H]; assumption.
Qed.
Lemma reg_fold_in o l : forall r y, In y (fold_left (fun r x => reg_add r (o + fst x, snd x)) l r) <-> In y (shift o l) \/ In y r.
Proof.
  induction l as [|x l IH]; intros r y; [cbn; tauto|]. cbn [fold_left shift map]. rewrite IH, reg_add_in. cbn [In shift]. intuition congruence.
Qed.

Section P.
Variable T : nat -> tinfo.
Definition needs (t : nat) : bool := negb (t_bzero (T t)) || negb (t_trivial (T t)).

(** Fields in a row: each ends before the next starts, all between [lo] and [hi]. *)
Fixpoint chain (lo hi : nat) (l : list (nat * nat)) : Prop :=
  match l with
  | [] => lo <= hi
  | f :: r => lo <= fst f /\ chain (fst f + t_size (T (snd f))) hi r
  end.
Lemma chain_le lo hi l : chain lo hi l -> lo <= hi.
Proof. revert lo. induction l as [|f r IH]; intros lo H; [exact H|]. destruct H as [H1 H2]. specialize (IH _ H2). lia. Qed.
Lemma chain_weak lo lo' hi hi' l : lo' <= lo -> hi <= hi' -> chain lo hi l -> chain lo' hi' l.
Proof. revert lo lo'. induction l as [|f r IH]; intros lo lo' H1 H2 H; [cbn in *; lia|]. destruct H as [H3 H4]. split; [lia|]. eapply IH; [|exact H2|exact H4]. lia. Qed.
Lemma chain_app lo mid hi a b : chain lo mid a -> chain mid hi b -> chain lo hi (a ++ b).
Proof.
  revert lo. induction a as [|f r IH]; intros lo H1 H2; [cbn [app]; eapply chain_weak; [exact H1|apply Nat.le_refl|exact H2]|].
  destruct H1 as [H1 H3]. split; [exact H1|]. apply IH; assumption.
Qed.
Lemma chain_shift o lo hi l : chain lo hi l -> chain (o + lo) (o + hi) (shift o l).
Proof.
  revert lo. induction l as [|f r IH]; intros lo H; [cbn in *; lia|]. destruct H as [H1 H2]. cbn [shift map]. split; [cbn; lia|]. cbn [fst snd].
  rewrite <- Nat.add_assoc. apply IH, H2.
Qed.
Lemma chain_in lo hi l f : chain lo hi l -> In f l -> lo <= fst f /\ fst f + t_size (T (snd f)) <= hi.
Proof.
  revert lo. induction l as [|g r IH]; intros lo H Hin; [destruct Hin|]. destruct H as [H1 H2]. destruct Hin as [->|Hin].
  - split; [exact H1|apply (chain_le _ _ _ H2)].
  - specialize (IH _ H2 Hin). lia.
Qed.
Lemma chain_pairs lo hi l : chain lo hi l -> ForallOrdPairs (fun f g => fst f + t_size (T (snd f)) <= fst g) l.
Proof.
  revert lo. induction l as [|f r IH]; intros lo H; constructor; [|eapply IH, H].
  apply Forall_forall. intros g Hg. apply (chain_in _ _ _ g (proj2 H) Hg).
Qed.

(** Fields registered by a slot. *)
Definition registers (f : nat * nat) : list (nat * nat) := f :: shift (fst f) (t_sub (T (snd f))).

Definition inv (b : builder) (ss : list slot) : Prop :=
  is_pow2 (b_align b) /\ map_inv (b_fac b) (b_map b) /\
  chain 0 (b_size b) (fields ss) /\
  Forall (fun f => is_pow2 (t_align (T (snd f))) /\ t_align (T (snd f)) <= b_align b /\ fst f mod t_align (T (snd f)) = 0) (fields ss) /\
  Forall (fun s => is_pow2 (s_align T s) /\ s_align T s <= b_align b /\ s_off s mod s_align T s = 0 /\
                   s_off s + s_size T s <= b_size b) ss /\
  ForallOrdPairs (fun s r => s_off s + s_size T s <= s_off r) ss /\
  Permutation (all_fields (b_fac b)) (filter (fun f => needs (snd f)) (fields ss)) /\
  (forall f, In f (fields ss) -> In f (b_reg b)).

Lemma inv_init : inv b_init [].
Proof.
  split; [exists 0; reflexivity|]. split; [split; [reflexivity|constructor]|]. split; [cbn; lia|].
  split; [constructor|]. split; [constructor|]. split; [constructor|]. split; [constructor|]. intros f [].
Qed.

Lemma register_data b o sz t dup : let '(b', _) := register b o sz t dup in
  b_size b' = b_size b /\ b_align b' = b_align b /\ b_fac b' = b_fac b /\ b_map b' = b_map b /\
  (forall x, In x (b_reg b) -> In x (b_reg b')) /\
  (o + sz <= b_size b -> In (o, t) (b_reg b')).
Proof.
  unfold register. destruct ((_ <? _) || (_ <? _)) eqn:E.
  - repeat split; auto. intros H. apply orb_true_iff in E. lia.
  - cbn. repeat split; auto; intros; apply reg_add_in; auto.
Qed.
Lemma register_all_data o subs : forall b, let '(b', _) := register_all T b o subs in
  b_size b' = b_size b /\ b_align b' = b_align b /\ b_fac b' = b_fac b /\ b_map b' = b_map b /\
  (forall x, In x (b_reg b) -> In x (b_reg b')).
Proof.
  induction subs as [|[so st] t IH]; intros b; cbn [register_all]; [repeat split; auto|].
  pose proof (register_data b (o + so) (t_size (T st)) st false) as H. destruct (register b (o + so) (t_size (T st)) st false) as [b1 ok].
  destruct H as (H1 & H2 & H3 & H4 & H5 & _). destruct ok; [|repeat split; auto].
  specialize (IH b1). destruct (register_all T b1 o t) as [b2 ok2]. destruct IH as (K1 & K2 & K3 & K4 & K5).
  repeat split; try congruence. auto.
Qed.

Lemma ord_pairs_app {A} (R : A -> A -> Prop) l x : ForallOrdPairs R l -> Forall (fun y => R y x) l -> ForallOrdPairs R (l ++ [x]).
Proof.
  induction 1 as [|a l H1 H2 IH]; intros F; [repeat constructor|]. inversion F; subst. cbn [app]. constructor; [|apply IH; assumption].
  apply Forall_app. split; [exact H1|constructor; [assumption|constructor]].
Qed.
Lemma fields_snoc ss s : fields (ss ++ [s]) = fields ss ++ fields1 s.
Proof. unfold fields. rewrite flat_map_app. cbn. rewrite app_nil_r. reflexivity. Qed.

Lemma add_slot_ok b ss t : inv b ss -> type_ok T t -> exists b' o ok, add_slot T b t = Some (b', o, ok) /\ inv b' (ss ++ [SSlot o t]).
Proof.
  intros (A & M & C & F & S & D & P & R) (Ht1 & Ht2 & Ht3). unfold add_slot. set (o := round_up _ _).
  pose proof (pow2_pos _ Ht1) as Hpos. destruct (round_up_ok (b_size b) (t_align (T t)) Hpos) as [O1 O2]. fold o in O1, O2.
  assert (X : exists fs m, (if negb (t_bzero (T t)) || negb (t_trivial (T t)) then add_offset (b_fac b) (b_map b) o t else Some (b_fac b, b_map b)) = Some (fs, m) /\
     map_inv fs m /\ Permutation (all_fields fs) (filter (fun f => needs (snd f)) [(o, t)] ++ all_fields (b_fac b))).
  { cbn [filter snd]. unfold needs at 1. destruct (negb _ || _).
    - destruct (add_offset_ok (b_fac b) (b_map b) o t M) as (fs & m & E & I & Pm). exists fs, m. auto.
    - exists (b_fac b), (b_map b). split; [reflexivity|]. split; [exact M|reflexivity]. }
  destruct X as (fs & m & -> & M' & P'). cbn [bind].
  match goal with |- context [register ?x ?y ?z ?w ?d] => pose proof (register_data x y z w d) as H1; destruct (register x y z w d) as [b1 ok1] end.
  pose proof (register_all_data o (t_sub (T t)) b1) as H2. destruct (register_all T b1 o (t_sub (T t))) as [b2 ok2].
  destruct H1 as (A1 & A2 & A3 & A4 & A5 & A6), H2 as (B1 & B2 & B3 & B4 & B5). cbn [b_size b_align b_fac b_map b_reg] in *.
  exists b2, o, (ok1 && ok2). split; [reflexivity|]. unfold inv. rewrite B1, B2, B3, B4, A1, A2, A3, A4, fields_snoc. cbn [fields1].
  split; [apply pow2_max; assumption|]. split; [exact M'|]. split.
  { eapply chain_app; [exact C|]. cbn. lia. }
  split.
  { apply Forall_app. split; [eapply Forall_impl; [|exact F]; cbn; intros f (K1 & K2 & K3); repeat split; try assumption; lia|].
    constructor; [|constructor]. cbn [fst snd]. repeat split; try assumption. lia. }
  split.
  { apply Forall_app. split; [eapply Forall_impl; [|exact S]; cbn; intros f (K1 & K2 & K3 & K4); repeat split; try assumption; lia|].
    constructor; [|constructor]. cbn [s_align s_off s_size]. repeat split; try assumption; lia. }
  split.
  { apply ord_pairs_app; [exact D|]. eapply Forall_impl; [|exact S]. cbn. intros f (_ & _ & _ & K). lia. }
  split.
  { rewrite filter_app. etransitivity; [exact P'|]. etransitivity; [apply Permutation_app_head, P|]. apply Permutation_app_comm. }
  intros f Hf. apply B5. apply in_app_iff in Hf as [Hf|[<-|[]]]; [apply A5, R, Hf|apply A6]. lia.
Qed.

Lemma filter_shift o l : filter (fun f => needs (snd f)) (shift o l) = shift o (filter (fun f => needs (snd f)) l).
Proof. induction l as [|f l IH]; [reflexivity|]. cbn [shift map filter snd]. fold (shift o l). rewrite IH. destruct (needs (snd f)); reflexivity. Qed.

Lemma add_subframe_ok ord b ss l inner : inv b ss -> inv l inner -> (forall x, Permutation (ord x) x) -> 
  exists b' o, add_subframe ord b l = Some (b', o) /\ inv b' (ss ++ [SSub o (b_size l) (b_align l) inner]).
Proof.
  intros (A & M & C & F & S & D & P & R) (A2 & M2 & C2 & F2 & S2 & D2 & P2 & R2) Hord. unfold add_subframe. set (o := round_up _ _).
  pose proof (pow2_pos _ A2) as Hpos. destruct (round_up_ok (b_size b) (b_align l) Hpos) as [O1 O2]. fold o in O1, O2.
  destruct (entries_ok _ _ M2) as [E1 E2].
  destruct (derived_fold_ok o (b_fac l) (ord (b_map l)) (b_fac b) (b_map b) M) as (fs & m & E & M' & P').
  { eapply Permutation_Forall; [symmetry; apply Hord|exact E1]. }
  rewrite E. cbn [bind fst snd]. eexists _, o. split; [reflexivity|]. unfold inv. cbn [b_size b_align b_fac b_map b_reg].
  rewrite fields_snoc. cbn [fields1]. fold (fields inner).
  split; [apply pow2_max; assumption|]. split; [exact M'|]. split.
  { eapply chain_app; [exact C|]. eapply chain_weak; [| |apply (chain_shift o), C2]; lia. }
  split.
  { apply Forall_app. split; [eapply Forall_impl; [|exact F]; cbn; intros f (K1 & K2 & K3); repeat split; try assumption; lia|].
    apply Forall_forall. intros f Hf. apply in_map_iff in Hf as (g & <- & Hg). cbn [fst snd].
    rewrite Forall_forall in F2. destruct (F2 g Hg) as (K1 & K2 & K3). pose proof (pow2_pos _ K1). split; [exact K1|]. split; [lia|].
    apply mod_add; [assumption| |exact K3]. apply (mod_trans o _ (b_align l)); [assumption|exact Hpos|exact O1|]. apply pow2_div; assumption. }
  split.
  { apply Forall_app. split; [eapply Forall_impl; [|exact S]; cbn; intros f (K1 & K2 & K3 & K4); repeat split; try assumption; lia|].
    constructor; [|constructor]. cbn [s_align s_off s_size]. repeat split; try assumption; lia. }
  split.
  { apply ord_pairs_app; [exact D|]. eapply Forall_impl; [|exact S]. cbn. intros f (_ & _ & _ & K). lia. }
  split.
  { rewrite filter_app, filter_shift. etransitivity; [exact P'|].
    assert (Q : Permutation (flat_map (entry_fields (b_fac l)) (ord (b_map l))) (filter (fun f => needs (snd f)) (fields inner))).
    { etransitivity; [apply Permutation_flat_map, Hord|]. rewrite E2. exact P2. }
    etransitivity; [apply Permutation_app_comm|]. apply Permutation_app; [exact P|]. apply Permutation_map, Q. }
  intros f Hf. apply reg_fold_in. apply in_app_iff in Hf as [Hf|Hf]; [right; apply R, Hf|left].
  apply in_map_iff in Hf as (g & <- & Hg). apply in_map_iff. exists g. split; [reflexivity|apply R2, Hg].
Qed.

Lemma build_inv b ss : inv b ss -> inv (build b) ss /\ b_size (build b) mod b_align (build b) = 0.
Proof.
  intros (A & M & C & F & S & D & P & R). destruct (round_up_ok (b_size b) (b_align b) (pow2_pos _ A)) as [O1 O2].
  split; [|exact O1]. unfold inv, build. cbn [b_size b_align b_fac b_map b_reg]. split; [exact A|]. split; [exact M|].
  split; [eapply chain_weak; [| |exact C]; lia|]. split; [exact F|].
  split; [eapply Forall_impl; [|exact S]; cbn; intros s (K1 & K2 & K3 & K4); repeat split; try assumption; lia|]. auto.
Qed.

Lemma exec_ok p : op_ok T p -> forall b ss, inv b ss -> exists b' s, exec T p b = Some (b', s) /\ inv b' (ss ++ s).
Proof.
  induction p as [t|ord ops IH|o sz t dup] using op_ind'; intros Hp b ss I; inversion Hp; subst.
  - destruct (add_slot_ok b ss t I ltac:(assumption)) as (b' & o & ok & E & I'). cbn [exec]. rewrite E. cbn [bind]. eauto.
  - cbn [exec]. set (go := fix go (ops : list op) (b : builder) := _).
    assert (G : forall ops b ss, Forall (fun p => op_ok T p -> forall b ss, inv b ss -> exists b' s, exec T p b = Some (b', s) /\ inv b' (ss ++ s)) ops ->
      Forall (op_ok T) ops -> inv b ss -> exists b' s, go ops b = Some (b', s) /\ inv b' (ss ++ s)).
    { clear. induction ops as [|q r IHr]; intros b ss F1 F2 I; [exists b, []; split; [reflexivity|]; rewrite app_nil_r; exact I|].
      inversion F1; inversion F2; subst. destruct (H1 H5 b ss I) as (b1 & s1 & E1 & I1).
      destruct (IHr b1 (ss ++ s1) ltac:(assumption) ltac:(assumption) I1) as (b2 & s2 & E2 & I2).
      exists b2, (s1 ++ s2). split; [|rewrite app_assoc; exact I2]. cbn [go]. rewrite E1. cbn [bind]. rewrite E2. reflexivity. }
    destruct (G ops b_init [] IH ltac:(assumption) inv_init) as (b0 & inner & E & I0). rewrite E. cbn [bind app] in *.
    destruct (build_inv b0 inner I0) as [I1 _].
    destruct (add_subframe_ok ord b ss (build b0) inner I I1 ltac:(assumption)) as (b' & o & E' & I'). rewrite E'. cbn [bind]. eauto.
  - cbn [exec]. eexists _, []. split; [reflexivity|]. rewrite app_nil_r. pose proof (register_data b o sz t dup) as H.
    destruct (register b o sz t dup) as [b' ok]. cbn [fst]. destruct H as (H1 & H2 & H3 & H4 & H5 & _).
    destruct I as (A & M & C & F & S & D & P & R). unfold inv. rewrite H1, H2, H3, H4. repeat (split; [assumption|]). auto.
Qed.
Lemma exec_all_ok ops : forall b ss, Forall (op_ok T) ops -> inv b ss -> exists b' s, exec_all T ops b = Some (b', s) /\ inv b' (ss ++ s).
Proof.
  induction ops as [|q r IH]; intros b ss F I; [exists b, []; split; [reflexivity|]; rewrite app_nil_r; exact I|].
  inversion F; subst. destruct (exec_ok q ltac:(assumption) b ss I) as (b1 & s1 & E1 & I1).
  destruct (IH b1 (ss ++ s1) ltac:(assumption) I1) as (b2 & s2 & E2 & I2).
  exists b2, (s1 ++ s2). split; [|rewrite app_assoc; exact I2]. cbn [exec_all]. rewrite E1. cbn [bind]. rewrite E2. reflexivity.
Qed.
Lemma run_ok ops : Forall (op_ok T) ops -> exists l ss, run T ops = Some (l, ss) /\ inv l ss /\ b_size l mod b_align l = 0.
Proof.
  intros F. destruct (exec_all_ok ops b_init [] F inv_init) as (b & s & E & I). unfold run. rewrite E. cbn [bind app] in *.
  exists (build b), s. split; [reflexivity|]. apply build_inv, I.
Qed.

(** ** Constructors and destructors *)
Lemma calls_ok (skip : nat -> bool) fs l : Permutation (all_fields fs) (filter (fun f => needs (snd f)) l) ->
  (forall t, skip t = false -> needs t = true) ->
  Permutation (flat_map (fun f => if skip (f_ty f) then [] else map (fun o => (o, f_ty f)) (f_offs f)) fs)
              (filter (fun f => negb (skip (snd f))) l).
Proof.
  intros P Hs.
  assert (E : flat_map (fun f => if skip (f_ty f) then [] else map (fun o => (o, f_ty f)) (f_offs f)) fs = filter (fun f => negb (skip (snd f))) (all_fields fs)).
  { clear P. induction fs as [|f fs IH]; [reflexivity|]. cbn [flat_map all_fields]. fold (all_fields fs). rewrite filter_app, IH. f_equal.
    induction (f_offs f) as [|o os IHo]; [destruct (skip (f_ty f)); reflexivity|]. cbn [map filter snd]. destruct (skip (f_ty f)); [exact IHo|]. cbn. f_equal. exact IHo. }
  rewrite E. etransitivity.
  - assert (PF : forall a b, Permutation a b -> Permutation (filter (fun f : nat * nat => negb (skip (snd f))) a) (filter (fun f => negb (skip (snd f))) b)).
    { induction 1; cbn [filter]; [constructor|destruct (negb _); [constructor|]; assumption| |etransitivity; eassumption].
      destruct (negb (skip (snd x))), (negb (skip (snd y))); try reflexivity. constructor. }
    apply PF, P.
  - clear -Hs. induction l as [|f l IH]; [constructor|]. cbn [filter]. destruct (skip (snd f)) eqn:E; cbn [negb].
    + destruct (needs (snd f)); cbn [filter]; rewrite ?E; exact IH.
    + rewrite (Hs _ E). cbn [filter]. rewrite E. cbn [negb]. constructor. exact IH.
Qed.
Lemma calls_n_ok (skip : nat -> bool) fs z n :
  Permutation (flat_map (fun f => if skip (f_ty f) then [] else flat_map (fun i => map (fun o => (o + i * z, f_ty f)) (f_offs f)) (seq 0 n)) fs)
              (flat_map (fun i => shift (i * z) (flat_map (fun f => if skip (f_ty f) then [] else map (fun o => (o, f_ty f)) (f_offs f)) fs)) (seq 0 n)).
Proof.
  induction fs as [|f fs IH]; cbn [flat_map].
  - induction (seq 0 n) as [|i l IHl]; [constructor|exact IHl].
  - etransitivity; [apply Permutation_app_head, IH|]. clear IH. set (g := flat_map _ fs).
    transitivity (flat_map (fun i => shift (i * z) (if skip (f_ty f) then [] else map (fun o => (o, f_ty f)) (f_offs f)) ++ shift (i * z) g) (seq 0 n)).
    2:{ induction (seq 0 n) as [|i l IHl]; [constructor|]. cbn [flat_map]. apply Permutation_app; [|exact IHl]. unfold shift. rewrite map_app. reflexivity. }
    assert (E : (if skip (f_ty f) then [] else flat_map (fun i => map (fun o => (o + i * z, f_ty f)) (f_offs f)) (seq 0 n)) =
      flat_map (fun i => shift (i * z) (if skip (f_ty f) then [] else map (fun o => (o, f_ty f)) (f_offs f))) (seq 0 n)).
    { destruct (skip (f_ty f)); [induction (seq 0 n) as [|i l IHl]; [reflexivity|exact IHl]|].
      rewrite !flat_map_concat_map. f_equal. apply map_ext. intros i. unfold shift. rewrite map_map. apply map_ext. intros o. cbn [fst snd]. f_equal. lia. }
    rewrite E. clear E. induction (seq 0 n) as [|i l IHl]; [constructor|]. cbn [flat_map]. rewrite <- app_assoc.
    etransitivity; [|rewrite <- app_assoc; apply Permutation_app_head, Permutation_app_head, IHl].
    apply Permutation_app_head. rewrite !app_assoc. apply Permutation_app_tail, Permutation_app_comm.
Qed.
End P.

(** ** Registered fields *)
Section R.
Variable T : nat -> tinfo.
Definition reg_lt (b : builder) : Prop := forall x, In x (b_reg b) -> fst x < b_size b.

Lemma register_lt b o sz t dup : 0 < sz -> reg_lt b -> reg_lt (fst (register b o sz t dup)).
Proof.
  intros Hs H. unfold register. destruct ((_ <? _) || (_ <? _)) eqn:E; [exact H|]. cbn [fst]. intros x Hx. cbn [b_reg b_size] in *.
  apply reg_add_in in Hx as [->|Hx]; [|apply H, Hx]. cbn [fst]. apply orb_false_iff in E. lia.
Qed.
Lemma register_all_ok o size : forall subs b, b_size b = size -> reg_lt b ->
  Forall (fun s => 0 < t_size (T (snd s)) /\ o + fst s + t_size (T (snd s)) <= size) subs -> NoDup subs ->
  (forall s, In s subs -> ~ In (o + fst s, snd s) (b_reg b)) ->
  exists b', register_all T b o subs = (b', true) /\ reg_lt b' /\ b_size b' = size /\
    (forall x, In x (b_reg b') <-> In x (b_reg b) \/ In x (shift o subs)).
Proof.
  induction subs as [|[so st] subs IH]; intros b Hb HL F ND Hn; cbn [register_all].
  - exists b. repeat split; auto. cbn. tauto.
  - inversion F as [|? ? [P1 P2] F']; subst. inversion ND as [|? ? N1 N2]; subst. cbn [fst snd] in *. unfold register.
    replace (b_size b <? o + so) with false by lia. replace (b_size b - (o + so) <? t_size (T st)) with false by lia. cbn [orb].
    destruct (reg_mem (o + so, st) (b_reg b)) eqn:E.
    { apply reg_mem_in in E. exfalso. exact (Hn (so, st) (or_introl eq_refl) E). }
    cbn [negb orb]. match goal with |- context [register_all T ?x o subs] => set (b1 := x) end.
    destruct (IH b1) as (b' & E' & L' & Z' & R').
    + reflexivity.
    + intros x Hx. cbn [b1 b_reg] in Hx. apply reg_add_in in Hx as [->|Hx]; [cbn; lia|apply HL, Hx].
    + exact F'.
    + exact N2.
    + intros s Hs Hx. cbn [b1 b_reg] in Hx. apply reg_add_in in Hx as [Hx|Hx].
      * inversion Hx. apply N1. replace (so, st) with s; [exact Hs|]. destruct s; cbn in *. f_equal; lia.
      * apply (Hn s); [right; exact Hs|exact Hx].
    + exists b'. split; [exact E'|]. split; [exact L'|]. split; [exact Z'|]. intros x. rewrite R'. cbn [b1 b_reg shift map In fst snd]. rewrite reg_add_in.
      fold (shift o subs). intuition congruence.
Qed.
Lemma add_slot_reg b t : type_ok T t -> type_pos T t -> map_inv (b_fac b) (b_map b) -> reg_lt b ->
  exists b' o, add_slot T b t = Some (b', o, true) /\ reg_lt b' /\
    (forall x, In x (b_reg b') <-> In x (b_reg b) \/ x = (o, t) \/ In x (shift o (t_sub (T t)))).
Proof.
  intros (K1 & K2 & K3) (P1 & P2 & P3) M HL. unfold add_slot. set (o := round_up _ _).
  destruct (round_up_ok (b_size b) (t_align (T t)) (pow2_pos _ K1)) as [O1 O2]. fold o in O1, O2.
  assert (X : exists fs m, (if negb (t_bzero (T t)) || negb (t_trivial (T t)) then add_offset (b_fac b) (b_map b) o t else Some (b_fac b, b_map b)) = Some (fs, m)).
  { destruct (negb _ || _); [destruct (add_offset_ok (b_fac b) (b_map b) o t M) as (fs & m & E & _); eauto|eauto]. }
  destruct X as (fs & m & ->). cbn [bind]. unfold register at 1. cbn [b_size b_align b_fac b_map b_reg].
  replace (o + t_size (T t) <? o) with false by lia. replace (o + t_size (T t) - o <? t_size (T t)) with false by lia. cbn [orb].
  destruct (reg_mem (o, t) (b_reg b)) eqn:E.
  { apply reg_mem_in, HL in E. cbn in E. lia. }
  cbn [negb orb]. match goal with |- context [register_all T ?x o _] => set (b1 := x) end.
  assert (L1 : reg_lt b1).
  { intros x Hx. cbn [b1 b_reg] in Hx. apply reg_add_in in Hx as [->|Hx]; [cbn; lia|]. apply HL in Hx. cbn [b1 b_size]. lia. }
  inversion P3 as [|? ? N1 N2]; subst. destruct (register_all_ok o (b_size b1) (t_sub (T t)) b1) as (b' & E' & L' & Z' & R').
  - reflexivity.
  - exact L1.
  - rewrite Forall_forall in *. intros s Hs. specialize (P2 s Hs). specialize (K3 s Hs). cbn [b1 b_size]. lia.
  - exact N2.
  - intros s Hs Hx. cbn [b1 b_reg] in Hx. apply reg_add_in in Hx as [Hx|Hx].
    + inversion Hx. apply N1. replace (0, t) with s; [exact Hs|]. destruct s; cbn in *. f_equal; lia.
    + apply HL in Hx. cbn in Hx. lia.
  - rewrite E'. exists b', o. split; [reflexivity|]. split; [exact L'|]. intros x. rewrite R'. cbn [b1 b_reg]. rewrite reg_add_in. tauto.
Qed.

Definition rinv (b : builder) (ss : list slot) : Prop :=
  inv T b ss /\ reg_lt b /\ (forall f s, In f (fields ss) -> In s (t_sub (T (snd f))) -> In (fst f + fst s, snd s) (b_reg b)).
Lemma rinv_build b ss : rinv b ss -> rinv (build b) ss.
Proof.
  intros (I & L & S). split; [apply build_inv, I|]. split; [|exact S]. intros x Hx. apply L in Hx.
  destruct (round_up_ok (b_size b) (b_align b) (pow2_pos _ (proj1 I))) as [_ O2]. cbn [build b_size]. lia.
Qed.
Lemma rinv_slot b ss t : rinv b ss -> type_ok T t -> type_pos T t ->
  exists b' o, add_slot T b t = Some (b', o, true) /\ rinv b' (ss ++ [SSlot o t]).
Proof.
  intros (I & L & S) K P. destruct (add_slot_ok T b ss t I K) as (b' & o & ok & E & I').
  destruct (add_slot_reg b t K P (proj1 (proj2 I)) L) as (b2 & o2 & E2 & L2 & R2). rewrite E in E2. inversion E2; subst.
  exists b2, o2. split; [exact E|]. split; [exact I'|]. split; [exact L2|]. intros f s Hf Hs. rewrite fields_snoc in Hf. cbn [fields1] in Hf.
  apply R2. apply in_app_iff in Hf as [Hf|[<-|[]]]; [left; apply S; assumption|]. right; right. cbn [fst snd] in *.
  apply in_map_iff. exists s. auto.
Qed.
Lemma rinv_sub ord b ss l inner : rinv b ss -> rinv l inner -> (forall x, Permutation (ord x) x) ->
  exists b' o, add_subframe ord b l = Some (b', o) /\ rinv b' (ss ++ [SSub o (b_size l) (b_align l) inner]).
Proof.
  intros (I & L & S) (I2 & L2 & S2) Hord. destruct (add_subframe_ok T ord b ss l inner I I2 Hord) as (b' & o & E & I').
  exists b', o. split; [exact E|]. split; [exact I'|]. unfold add_subframe in E. destruct (fold_opt _ _ _) as [r|]; [|discriminate].
  cbn [bind] in E. inversion E; subst. clear E. set (o := round_up (b_size b) (b_align l)) in *.
  destruct (round_up_ok (b_size b) (b_align l) (pow2_pos _ (proj1 I2))) as [_ O2]. fold o in O2.
  split.
  - intros x Hx. cbn [b_reg b_size] in *. apply reg_fold_in in Hx as [Hx|Hx]; [|apply L in Hx; lia].
    apply in_map_iff in Hx as (y & <- & Hy). apply L2 in Hy. cbn [fst]. lia.
  - intros f s Hf Hs. rewrite fields_snoc in Hf. cbn [fields1] in Hf. fold (fields inner) in Hf. cbn [b_reg]. apply reg_fold_in.
    apply in_app_iff in Hf as [Hf|Hf]; [right; apply S; assumption|left]. apply in_map_iff in Hf as (g & <- & Hg). cbn [fst snd] in *.
    specialize (S2 g s Hg Hs). apply in_map_iff. eexists. split; [|exact S2]. cbn [fst snd]. f_equal. lia.
Qed.
Lemma rinv_exec p : op_ok T p -> op_pos T p -> forall b ss, rinv b ss -> exists b' s, exec T p b = Some (b', s) /\ rinv b' (ss ++ s).
Proof.
  induction p as [t|ord ops IH|o sz t dup] using op_ind'; intros Hp Hq b ss I; inversion Hp; inversion Hq; subst.
  - destruct (rinv_slot b ss t I ltac:(assumption) ltac:(assumption)) as (b' & o & E & I'). cbn [exec]. rewrite E. cbn [bind]. eauto.
  - cbn [exec]. set (go := fix go (ops : list op) (b : builder) := _).
    assert (G : forall ops b ss, Forall (fun p => op_ok T p -> op_pos T p -> forall b ss, rinv b ss -> exists b' s, exec T p b = Some (b', s) /\ rinv b' (ss ++ s)) ops ->
      Forall (op_ok T) ops -> Forall (op_pos T) ops -> rinv b ss -> exists b' s, go ops b = Some (b', s) /\ rinv b' (ss ++ s)).
    { clear. induction ops as [|q r IHr]; intros b ss F1 F2 F3 I; [exists b, []; split; [reflexivity|]; rewrite app_nil_r; exact I|].
      inversion F1; inversion F2; inversion F3; subst. destruct (H1 H5 H9 b ss I) as (b1 & s1 & E1 & I1).
      destruct (IHr b1 (ss ++ s1) ltac:(assumption) ltac:(assumption) ltac:(assumption) I1) as (b2 & s2 & E2 & I2).
      exists b2, (s1 ++ s2). split; [|rewrite app_assoc; exact I2]. cbn [go]. rewrite E1. cbn [bind]. rewrite E2. reflexivity. }
    assert (I0' : rinv b_init []) by (split; [apply inv_init|split; [intros x []|intros f s []]]).
    destruct (G ops b_init [] IH ltac:(assumption) ltac:(assumption) I0') as (b0 & inner & E & I0). rewrite E. cbn [bind app] in *.
    destruct (rinv_sub ord b ss (build b0) inner I (rinv_build _ _ I0) ltac:(assumption)) as (b' & o & E' & I'). rewrite E'. cbn [bind]. eauto.
  - destruct (exec_ok T (OReg o sz t dup) Hp b ss (proj1 I)) as (b' & s & E & I'). exists b', s. split; [exact E|]. split; [exact I'|].
    cbn [exec] in E. inversion E; subst. rewrite app_nil_r in *. destruct I as (_ & L & S). split; [apply register_lt; assumption|].
    intros f s Hf Hs. specialize (S f s Hf Hs). pose proof (register_data T b o sz t dup) as H.
    destruct (register b o sz t dup) as [b' ok]. cbn [fst]. apply H, S.
Qed.
Lemma rinv_exec_all ops : forall b ss, Forall (op_ok T) ops -> Forall (op_pos T) ops -> rinv b ss ->
  exists b' s, exec_all T ops b = Some (b', s) /\ rinv b' (ss ++ s).
Proof.
  induction ops as [|q r IH]; intros b ss F F2 I; [exists b, []; split; [reflexivity|]; rewrite app_nil_r; exact I|].
  inversion F; inversion F2; subst. destruct (rinv_exec q ltac:(assumption) ltac:(assumption) b ss I) as (b1 & s1 & E1 & I1).
  destruct (IH b1 (ss ++ s1) ltac:(assumption) ltac:(assumption) I1) as (b2 & s2 & E2 & I2).
  exists b2, (s1 ++ s2). split; [|rewrite app_assoc; exact I2]. cbn [exec_all]. rewrite E1. cbn [bind]. rewrite E2. reflexivity.
Qed.
End R.
