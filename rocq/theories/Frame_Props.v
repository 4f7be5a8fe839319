(** * C19: the fields of a frame layout *)
From Coq Require Import Permutation.
From Verif Require Import Base GroupOps_Model Frame_Model Frame_Spec Frame_Proofs.

(** Slots returned by the builder are aligned, inside the frame and one after
    another; the same holds for every field of every nested frame.  A block of
    memory with the alignment of the frame can be followed by another one. *)
Theorem C19_layout T ops : Forall (op_ok T) ops ->
  exists l ss, run T ops = Some (l, ss) /\
    is_pow2 (b_align l) /\ b_size l mod b_align l = 0 /\
    Forall (fun s => s_off s mod s_align T s = 0 /\ b_align l mod s_align T s = 0 /\ s_off s + s_size T s <= b_size l) ss /\
    ForallOrdPairs (fun s r => s_off s + s_size T s <= s_off r) ss /\
    Forall (fun f => fst f mod t_align (T (snd f)) = 0 /\ b_align l mod t_align (T (snd f)) = 0 /\
                     fst f + t_size (T (snd f)) <= b_size l) (fields ss) /\
    ForallOrdPairs (fun f g => fst f + t_size (T (snd f)) <= fst g) (fields ss).
Proof.
  intros F. destruct (run_ok T ops F) as (l & ss & E & (A & _ & C & Fs & S & D & _) & Z). exists l, ss.
  split; [exact E|]. split; [exact A|]. split; [exact Z|]. split.
  { eapply Forall_impl; [|exact S]. cbn. intros s (K1 & K2 & K3 & K4). split; [exact K3|]. split; [apply pow2_div; assumption|exact K4]. }
  split; [exact D|]. split; [|apply (chain_pairs T 0 (b_size l)), C].
  rewrite Forall_forall in *. intros f Hf. destruct (Fs f Hf) as (K1 & K2 & K3). split; [exact K3|]. split; [apply pow2_div; assumption|].
  apply (chain_in T 0 (b_size l) (fields ss) f C Hf).
Qed.
Print Assumptions C19_layout.

(** Every field that is not constructed by zero bytes is constructed exactly once,
    and every field with a destructor is destroyed exactly once, at its own place,
    in one frame and in each of [n] consecutive frames; whatever the iteration
    order of the hash maps. *)
Theorem C19_lifetime T ops l ss n : Forall (op_ok T) ops -> run T ops = Some (l, ss) ->
  let built := filter (fun f => negb (t_bzero (T (snd f)))) (fields ss) in
  let killed := filter (fun f => negb (t_trivial (T (snd f)))) (fields ss) in
  Permutation (constructs T l) built /\ Permutation (destroys T l) killed /\
  Permutation (constructs_n T l n) (flat_map (fun i => shift (i * b_size l) built) (seq 0 n)) /\
  Permutation (destroys_n T l n) (flat_map (fun i => shift (i * b_size l) killed) (seq 0 n)).
Proof.
  intros F E built killed. destruct (run_ok T ops F) as (l' & ss' & E' & (_ & _ & _ & _ & _ & _ & P & _) & _).
  rewrite E in E'. inversion E'; subst l' ss'. clear E'.
  assert (Pc : Permutation (constructs T l) built).
  { apply (calls_ok T (fun t => t_bzero (T t)) (b_fac l) (fields ss) P). intros t H. unfold needs. rewrite H. reflexivity. }
  assert (Pd : Permutation (destroys T l) killed).
  { apply (calls_ok T (fun t => t_trivial (T t)) (b_fac l) (fields ss) P). intros t H. unfold needs. rewrite H. apply orb_true_r. }
  assert (G : forall z a b, Permutation a b -> Permutation (flat_map (fun i => shift (i * z) a) (seq 0 n)) (flat_map (fun i => shift (i * z) b) (seq 0 n))).
  { intros z a b H. induction (seq 0 n) as [|i r IH]; [constructor|]. cbn [flat_map]. apply Permutation_app; [apply Permutation_map, H|exact IH]. }
  split; [exact Pc|]. split; [exact Pd|]. split.
  - etransitivity; [apply (calls_n_ok T (fun t => t_bzero (T t)))|]. apply G, Pc.
  - etransitivity; [apply (calls_n_ok T (fun t => t_trivial (T t)))|]. apply G, Pd.
Qed.
Print Assumptions C19_lifetime.

(** Slots of one type added one after another form an array. *)
Theorem C19_array T ops b ss t b1 o1 k1 b2 o2 k2 : Forall (op_ok T) ops -> exec_all T ops b_init = Some (b, ss) -> type_ok T t ->
  add_slot T b t = Some (b1, o1, k1) -> add_slot T b1 t = Some (b2, o2, k2) -> o2 = o1 + t_size (T t).
Proof.
  intros F E K E1 E2. assert (Z : b_size b1 = o1 + t_size (T t) /\ o1 mod t_align (T t) = 0).
  { unfold add_slot in E1. match type of E1 with context [bind ?r _] => destruct r as [[fs m]|]; [|discriminate] end. cbn [bind] in E1.
    match type of E1 with context [register ?x ?y ?z ?w ?d] => pose proof (register_data T x y z w d) as H1; destruct (register x y z w d) as [b3 ok1] end.
    match type of E1 with context [register_all T ?x ?y ?z] => pose proof (register_all_data T y z x) as H2; destruct (register_all T x y z) as [b4 ok2] end.
    inversion E1; subst. split; [destruct H1, H2; cbn in *; lia|]. apply round_up_ok, pow2_pos, K. }
  assert (Z2 : o2 = round_up (b_size b1) (t_align (T t))).
  { unfold add_slot in E2. match type of E2 with context [bind ?r _] => destruct r as [[fs m]|]; [|discriminate] end. cbn [bind] in E2.
    destruct (register _ _ _ _ _) as [b3 ok1]. destruct (register_all _ _ _ _) as [b4 ok2]. inversion E2. reflexivity. }
  destruct Z as [Z1 Z3]. rewrite Z2, Z1. apply round_up_id; [apply pow2_pos, K|]. apply mod_add; [apply pow2_pos, K|exact Z3|apply K].
Qed.
Print Assumptions C19_array.

(** The debug-only registry: [AddSlot] never trips its own checks, and every field
    of the frame and every struct field inside it is registered. *)
Theorem C19_registered T ops t : Forall (op_ok T) ops -> Forall (op_pos T) ops -> type_ok T t -> type_pos T t ->
  exists b ss, exec_all T ops b_init = Some (b, ss) /\
    (exists b' o, add_slot T b t = Some (b', o, true)) /\
    forall f, In f (fields ss) -> has_field (build b) (fst f) (snd f) = true /\
      forall s, In s (t_sub (T (snd f))) -> has_field (build b) (fst f + fst s) (snd s) = true.
Proof.
  intros F1 F2 K P. assert (I0 : rinv T b_init []) by (split; [apply inv_init|split; [intros x []|intros f s []]]).
  destruct (rinv_exec_all T ops b_init [] F1 F2 I0) as (b & ss & E & I). cbn [app] in I. exists b, ss. split; [exact E|]. split.
  - destruct (rinv_slot T b ss t I K P) as (b' & o & E' & _). eauto.
  - intros f Hf. destruct I as ((_ & _ & _ & _ & _ & _ & _ & R) & _ & S). unfold has_field. split.
    + apply reg_mem_in. cbn [build b_reg]. destruct f; apply R, Hf.
    + intros s Hs. apply reg_mem_in. apply S; assumption.
Qed.
Print Assumptions C19_registered.

(** A slot registered by hand is accepted exactly if it lies inside the frame and is
    new (or may be repeated). *)
Theorem C19_register b o sz t dup : let '(b', ok) := register b o sz t dup in
  (ok = true <-> o + sz <= b_size b /\ (has_field b o t = false \/ dup = true)) /\
  (ok = true -> forall o' t', has_field b' o' t' = true <-> has_field b o' t' = true \/ (o', t') = (o, t)).
Proof.
  unfold register. destruct ((_ <? _) || (_ <? _)) eqn:E.
  - apply orb_true_iff in E. split; [|discriminate]. split; [discriminate|lia].
  - apply orb_false_iff in E. unfold has_field. cbn [b_reg]. split.
    + destruct (reg_mem (o, t) (b_reg b)), dup; cbn; intuition (discriminate || lia || auto).
    + intros _ o' t'. rewrite !reg_mem_in, reg_add_in. tauto.
Qed.
Print Assumptions C19_register.

(** Frame of a 1-byte flag, a string, and twice a subframe with a string and an
    8-byte struct of two 4-byte integers: types 0 flag, 1 string, 2 struct, 3 int. *)
Definition ex_T (t : nat) : tinfo :=
  match t with
  | 0 => mkT 1 1 true true []
  | 1 => mkT 32 8 false false []
  | 2 => mkT 8 4 true true [(0, 3); (4, 3)]
  | _ => mkT 4 4 true true []
  end.
Definition ex_sub : op := OSub (fun l => rev l) [OSlot 2; OSlot 1; OSlot 0].
Definition ex_ops : list op := [OSlot 0; OSlot 1; ex_sub; OSlot 0; OSub (fun l => l) [ex_sub; OSlot 2]].
Lemma ex_types t : type_ok ex_T t /\ type_pos ex_T t.
Proof.
  destruct t as [|[|[|t]]]; (split; [split; [|split; [reflexivity|repeat constructor; cbn; lia]]|split; [cbn; lia|split; [repeat constructor; cbn; lia|]]]).
  - exists 0; reflexivity.
  - repeat constructor; cbn; intuition discriminate.
  - exists 3; reflexivity.
  - repeat constructor; cbn; intuition discriminate.
  - exists 2; reflexivity.
  - repeat constructor; cbn; intuition discriminate.
  - exists 2; reflexivity.
  - repeat constructor; cbn; intuition discriminate.
Qed.
Lemma ex_ops_ok : Forall (op_ok ex_T) ex_ops /\ Forall (op_pos ex_T) ex_ops.
Proof.
  assert (S1 : forall t, op_ok ex_T (OSlot t)) by (intros t; apply ok_slot, ex_types).
  assert (S2 : forall t, op_pos ex_T (OSlot t)) by (intros t; apply pos_slot, ex_types).
  assert (U1 : op_ok ex_T ex_sub) by (apply ok_sub; [intros l; symmetry; apply Permutation_rev|auto]).
  assert (U2 : op_pos ex_T ex_sub) by (apply pos_sub; auto).
  assert (V1 : op_ok ex_T (OSub (fun l => l) [ex_sub; OSlot 2])) by (apply ok_sub; [intros l; reflexivity|auto]).
  assert (V2 : op_pos ex_T (OSub (fun l => l) [ex_sub; OSlot 2])) by (apply pos_sub; auto).
  split; unfold ex_ops; auto 10.
Qed.
Example C19_ex : match run ex_T ex_ops with
  | Some (l, ss) => (b_size l, b_align l, fields ss, destroys ex_T l, has_field l 100 3)
  | None => (0, 0, [], [], false)
  end = (152, 8, [(0, 0); (8, 1); (40, 2); (48, 1); (80, 0); (88, 0); (96, 2); (104, 1); (136, 0); (144, 2)],
         [(8, 1); (48, 1); (104, 1)], true).
Proof. vm_compute. reflexivity. Qed.
