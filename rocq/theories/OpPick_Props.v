(** C76: operators chosen, or allowed, by the types of their inputs. *)
From Coq Require Import Sorted.
From Verif Require Import Base Visit_Model Visit_Proofs Lambda_Model Lambda_Spec Lambda_Proofs OpPick_Model OpPick_Spec OpPick_Proofs OpPick_Main OpPick_Ops.

Section Props.
Context {E : Type}.
Variable I : nat -> list val -> E + val.
Variable tuple_type : list nat -> nat.
Hypothesis tuple_known : forall l, tuple_type l <> 0.
Variable s : sig.
Hypothesis names : NoDup (s_names s).

(** An expression is accepted exactly when it reads no other leaf than the sequence of input
    types and no other placeholder than the parameters. *)
Theorem C76_accepted e : exists a, resolve s e = Some a /\
  ((exists p, a = inr p) <-> (forall k, reads k e -> k = seq_key) /\ (forall k, uses k e -> In k (s_names s))).
Proof. exact (resolve_total s e). Qed.

(** The types of the parameters are well defined. *)
Theorem C76_types seq : fits s (length seq) -> exists rho, agrees tuple_type s seq rho.
Proof. exact (agrees_exists tuple_type tuple_known s seq names). Qed.

(** It is ready exactly when the types of the parameters it mentions are known, and then it
    evaluates to its meaning at these types; until then all its parameters are NOTHING. *)
Theorem C76_parameters e seq r rdy rho : fits s (length seq) -> agrees tuple_type s seq rho -> resolve s e = Some (inr (r, rdy)) ->
  exists b x, run I tuple_type seq rdy = Some (inr (VU b)) /\ run I tuple_type seq r = Some x /\
    (b = true <-> ready tuple_type s seq e) /\
    ((ready tuple_type s seq e /\ x = mean I rho seq e) \/ (~ ready tuple_type s seq e /\ x = mean I (fun _ => 0) seq e)).
Proof. intros Hf Hr H. exact (resolve_run I tuple_type tuple_known s e seq r rdy rho names Hf Hr H). Qed.

(** Constraints and output type. *)
Theorem C76_constraints cs out l seq rho : fits s (length seq) -> agrees tuple_type s seq rho ->
  (forall c, In c cs -> decides I seq c) -> names_type I seq out -> prepare_inference s cs out = Some (inr l) ->
  exists r, infer_type I tuple_type (length cs) l seq = Some r /\ outcome I tuple_type s cs out seq rho r.
Proof. intros Hf Hr. exact (infer_outcome I tuple_type tuple_known s cs out l seq rho names Hf Hr). Qed.
Theorem C76_constraints_accepted cs out : exists a, prepare_inference s cs out = Some a /\
  ((exists l, a = inr l) <-> forall c, In c (out :: cs) -> (forall k, reads k c -> k = seq_key) /\ (forall k, uses k c -> In k (s_names s))).
Proof. exact (prepare_inference_total s cs out). Qed.
(** Once the type is known it stays, and a violated constraint stays violated. *)
Theorem C76_constraints_stable cs out l seq seq' : fits s (length seq) -> refines seq seq' ->
  (forall c k, In c (out :: cs) -> ~ reads k c) -> (forall c, In c cs -> decides I seq c) -> names_type I seq out -> prepare_inference s cs out = Some (inr l) ->
  match infer_type I tuple_type (length cs) l seq with
  | Some (inr (Some t)) => infer_type I tuple_type (length cs) l seq' = Some (inr (Some t))
  | Some (inl (Unsatisfied i)) => exists j, j <= i /\ infer_type I tuple_type (length cs) l seq' = Some (inl (Unsatisfied j))
  | _ => True
  end.
Proof.
  intros Hf Hs. destruct (agrees_exists tuple_type tuple_known s seq' names) as [rho Hr]; [rewrite <- (refines_len _ _ Hs); exact Hf|].
  exact (infer_stable I tuple_type tuple_known s cs out l seq seq' rho names Hf Hr Hs).
Qed.

(** Overloads. *)
Theorem C76_dispatch cs (dflt : bool) l seq rho : fits s (length seq) -> agrees tuple_type s seq rho ->
  (forall c, In c cs -> decides I seq c) -> prepare_dispatch s cs = Some (inr l) ->
  exists r, get_overload I tuple_type (length cs + if dflt then 1 else 0) l seq = Some r /\ choice I tuple_type s cs dflt seq rho r.
Proof. intros Hf Hr. exact (dispatch_choice I tuple_type tuple_known s cs dflt l seq rho names Hf Hr). Qed.
Theorem C76_dispatch_accepted cs : exists a, prepare_dispatch s cs = Some a /\
  ((exists l, a = inr l) <-> forall c, In c cs -> (forall k, reads k c -> k = seq_key) /\ (forall k, uses k c -> In k (s_names s))).
Proof. exact (prepare_dispatch_total s cs). Qed.
(** The choice stays when more is known. *)
Theorem C76_dispatch_stable cs (dflt : bool) l seq seq' : fits s (length seq) -> refines seq seq' ->
  (forall c k, In c cs -> ~ reads k c) -> (forall c, In c cs -> decides I seq c) -> prepare_dispatch s cs = Some (inr l) ->
  get_overload I tuple_type (length cs + if dflt then 1 else 0) l seq = Some (inr None) \/
  get_overload I tuple_type (length cs + if dflt then 1 else 0) l seq' = get_overload I tuple_type (length cs + if dflt then 1 else 0) l seq.
Proof.
  intros Hf Hs. destruct (agrees_exists tuple_type tuple_known s seq' names) as [rho Hr]; [rewrite <- (refines_len _ _ Hs); exact Hf|].
  exact (dispatch_stable I tuple_type tuple_known s cs dflt l seq seq' rho names Hf Hr Hs).
Qed.

(** The dispatch operator asks the chosen operator. *)
Section Operators.
Variable type_of : nat -> nat.
Variable infer : nat -> list attr -> oerr + attr.
Variable lower : nat -> node -> option (oerr + node).

Theorem C76_dispatch_infer cs ops dflt prep l : prepare_dispatch s cs = Some (inr prep) -> length ops = length cs ->
  let d := mkD s (ops ++ match dflt with Some o => [o] | None => [] end) prep in
  let r := dispatch_infer I tuple_type type_of infer d l in
  (~ fits s (length l) -> r = Some (inl WrongCount)) /\
  (fits s (length l) -> (exists a, In a l /\ qtype type_of a = Some 0) -> r = Some (inl NothingInput)) /\
  (fits s (length l) -> forall seq rho, types_as type_of l seq -> agrees tuple_type s seq rho -> (forall c, In c cs -> decides I seq c) ->
     exists g, choice I tuple_type s cs (match dflt with Some _ => true | None => false end) seq rho g /\
     match g with
     | inl e => r = Some (inl (Pick e))
     | inr None => r = Some (inr ANone)
     | inr (Some i) => exists o, nth_error (d_ops d) i = Some o /\ r = Some (match infer o l with inl e => inl (Inner e) | inr a => inr a end)
     end).
Proof.
  intros Hp Hl d r. subst r. unfold dispatch_infer. split; [|split].
  - intros H. destruct (count_ok (d_sig d) (length l)) eqn:C; [apply count_spec in C; contradiction|reflexivity].
  - intros Hf Hz. rewrite (proj2 (count_spec (d_sig d) (length l)) Hf). cbn [negb]. rewrite (proj2 (type_sequence_none type_of l) Hz). reflexivity.
  - intros Hf seq rho Ht Hr Hd. rewrite (proj2 (count_spec (d_sig d) (length l)) Hf). cbn [negb]. rewrite (proj2 (type_sequence_spec type_of l seq) Ht).
    assert (Hf' : fits s (length seq)) by (rewrite <- (F2_len _ _ _ Ht); exact Hf).
    destruct (dispatch_choice I tuple_type tuple_known s cs (match dflt with Some _ => true | None => false end) prep seq rho names Hf' Hr Hd Hp) as [g [Hg Hc]].
    exists g. split; [exact Hc|].
    assert (L : length (d_ops d) = length cs + if match dflt with Some _ => true | None => false end then 1 else 0) by (unfold d; cbn [d_ops]; rewrite app_length, Hl; destruct dflt; reflexivity).
    rewrite L. cbn [d_prep d]. change (d_prep d) with prep. rewrite Hg. cbn [bind]. destruct g as [e|[i|]]; [reflexivity| |reflexivity].
    assert (i < length (d_ops d)) as Hi.
    { rewrite L. inversion Hc as [|? Hrd Hh| |? Hh Hdf|]; subst.
      - destruct (proj2 (Hh i) eq_refl) as [c [Hn _]]. assert (i < length cs) by (apply nth_error_Some; congruence). lia.
      - match goal with H : _ = true |- _ => rewrite H end. lia. }
    unfold rd. destruct (nth_error (d_ops d) i) as [o|] eqn:Eo; [|apply nth_error_None in Eo; lia]. exists o. split; [reflexivity|]. reflexivity.
Qed.
(** A node with a type is lowered by the operator that gave it the type. *)
Theorem C76_dispatch_lower d self a ds t : dispatch_infer I tuple_type type_of infer d (map attr_of ds) = Some (inr a) -> qtype type_of a = Some t ->
  exists i o, nth_error (d_ops d) i = Some o /\ infer o (map attr_of ds) = inr a /\
    dispatch_lower I tuple_type type_of lower d self a ds = match lower o (Op o a ds) with Some (inl e) => Some (inl (Inner e)) | Some (inr m) => Some (inr m) | None => None end.
Proof. exact (dispatch_lower_same I tuple_type type_of infer lower d self a ds t). Qed.

(** A restricted operator: the constraints decide before the operator is asked. *)
Theorem C76_restricted cs base unit_type l : unit_type <> 0 ->
  match make_restricted s base unit_type cs with
  | Some (inr r) =>
      let res := restricted_infer I tuple_type type_of infer r l in
      (~ fits s (length l) -> res = Some (inl WrongCount)) /\
      (fits s (length l) -> (exists a, In a l /\ qtype type_of a = Some 0) -> res = Some (inl NothingInput)) /\
      (fits s (length l) -> forall seq rho, types_as type_of l seq -> agrees tuple_type s seq rho -> (forall c, In c cs -> decides I seq c) ->
         (exists i c, res = Some (inl (Infer (Unsatisfied i))) /\ nth_error cs i = Some c /\ ready tuple_type s seq c /\ mean I rho seq c = inr (VU false)) \/
         ((forall c, In c cs -> ready tuple_type s seq c -> mean I rho seq c = inr (VU true)) /\
          ((res = Some (inr ANone) /\ exists c, In c cs /\ ~ ready tuple_type s seq c) \/
           (res = Some (match infer base l with inl e => inl (Inner e) | inr a => inr a end) /\ forall c, In c cs -> ready tuple_type s seq c))))
  | Some (inl _) => exists c k, In c cs /\ (uses k c /\ ~ In k (s_names s) \/ reads k c /\ k <> seq_key)
  | None => False
  end.
Proof.
  intros Hu. unfold make_restricted.
  destruct (existsb (fun k => negb (existsb (key_eqb k) (s_names s))) (flat_map plhs cs)) eqn:Ex.
  { apply existsb_exists in Ex. destruct Ex as [k [Hk Hn]]. apply in_flat_map in Hk. destruct Hk as [c [Hc Hk]]. exists c, k. split; [exact Hc|]. left.
    split; [apply uses_in, Hk|]. intros X. apply kin in X. rewrite X in Hn. discriminate. }
  destruct (prepare_inference_total s cs (XLit (VT unit_type))) as [a [Ha G]]. rewrite Ha. cbn [bind]. destruct a as [e|prep].
  - clear G. unfold prepare_inference in Ha. destruct (prepare_constraints_total s cs) as [b [Hb Gb]]. rewrite Hb in Ha. cbn [bind] in Ha.
    destruct b as [e'|l']; [|cbn in Ha; discriminate]. clear Ha.
    assert (exists c, In c cs /\ check_expr s c <> None) as [c [Hc Hn]].
    { clear Ex Gb. revert e' Hb. induction cs as [|c t IH]; intros e' Hb; [discriminate|]. cbn [prepare_constraints] in Hb. destruct (check_expr s c) as [er|] eqn:Ec.
      - exists c. split; [left; reflexivity|congruence].
      - destruct (resolve_total s c) as [x [Hx Gx]]. destruct (proj2 Gx (proj1 (check_ok s c) Ec)) as [[r0 rdy0] ->]. rewrite Hx in Hb. cbn [bind] in Hb.
        destruct (prepare_constraints s t) as [[e2|l2]|]; [|discriminate|discriminate]. destruct (IH e2 eq_refl) as [d [H1 H2]]. exists d. split; [right; exact H1|exact H2]. }
    unfold check_expr in Hn. destruct (existsb (fun k => negb (key_eqb k seq_key)) (leaves c)) eqn:E1.
    + apply existsb_exists in E1. destruct E1 as [k [Hk Hk']]. exists c, k. split; [exact Hc|]. right. split; [apply reads_in, Hk|]. intros X. apply kq in X. rewrite X in Hk'. discriminate.
    + destruct (existsb (fun k => negb (existsb (key_eqb k) (s_names s))) (plhs c)) eqn:E2; [|contradiction].
      apply existsb_exists in E2. destruct E2 as [k [Hk Hk']]. exists c, k. split; [exact Hc|]. left. split; [apply uses_in, Hk|]. intros X. apply kin in X. rewrite X in Hk'. discriminate.
  - cbv zeta. unfold restricted_infer. cbn [r_sig r_base r_n r_prep]. split; [|split].
    + intros H. destruct (count_ok s (length l)) eqn:C; [apply count_spec in C; contradiction|reflexivity].
    + intros Hf Hz. rewrite (proj2 (count_spec s (length l)) Hf). cbn [negb]. rewrite (proj2 (type_sequence_none type_of l) Hz). reflexivity.
    + intros Hf seq rho Ht Hr Hd. rewrite (proj2 (count_spec s (length l)) Hf). cbn [negb]. rewrite (proj2 (type_sequence_spec type_of l seq) Ht).
      assert (Hf' : fits s (length seq)) by (rewrite <- (F2_len _ _ _ Ht); exact Hf).
      assert (Hn : names_type I seq (XLit (VT unit_type))) by (intros r; exists unit_type; reflexivity).
      destruct (infer_outcome I tuple_type tuple_known s cs _ prep seq rho names Hf' Hr Hd Hn Ha) as [r [-> O]]. cbn [bind].
      destruct O as [i c N R M F|c A C R|t A R M Z|A R M].
      * left. exists i, c. auto.
      * right. split; [exact A|]. left. split; [reflexivity|]. destruct C as [<-|C]; [|eauto]. exfalso. apply R. intros k Hk. inversion Hk.
      * right. split; [intros c Hc _; apply A, Hc|]. right. split; [reflexivity|]. intros c Hc. apply A, Hc.
      * exfalso. cbn in M. congruence.
Qed.
End Operators.
End Props.
Print Assumptions C76_accepted.
Print Assumptions C76_types.
Print Assumptions C76_parameters.
Print Assumptions C76_constraints.
Print Assumptions C76_constraints_accepted.
Print Assumptions C76_constraints_stable.
Print Assumptions C76_dispatch.
Print Assumptions C76_dispatch_accepted.
Print Assumptions C76_dispatch_stable.
Print Assumptions C76_dispatch_infer.
Print Assumptions C76_dispatch_lower.
Print Assumptions C76_restricted.

(** An operator with several implementations is the first one that does not reject the
    inputs; if that one cannot tell, or fails otherwise, so does the whole. *)
Theorem C76_overloaded type_of infer ops l :
  match lookup type_of infer ops l with
  | inl Invalid => forall o, In o ops -> rejects infer l o
  | inl (Other x) => exists pre o post, ops = pre ++ o :: post /\ (forall p, In p pre -> rejects infer l p) /\ infer o l = inl (Other x)
  | inr (None, a) => a = ANone /\ exists pre o post, ops = pre ++ o :: post /\ (forall p, In p pre -> rejects infer l p) /\ cannot_tell type_of infer l o
  | inr (Some o, a) => exists pre post, ops = pre ++ o :: post /\ (forall p, In p pre -> rejects infer l p) /\ accepts type_of infer l o a
  end.
Proof. exact (lookup_spec type_of infer ops l). Qed.
Print Assumptions C76_overloaded.
(** The choice stays when more is known, if the implementations do not change their minds. *)
Theorem C76_overloaded_stable type_of infer ops l l' : settled type_of infer -> Forall2 (below type_of) l l' ->
  (forall o a, lookup type_of infer ops l = inr (Some o, a) -> exists a', lookup type_of infer ops l' = inr (Some o, a') /\ below type_of a a') /\
  (lookup type_of infer ops l = inl Invalid -> lookup type_of infer ops l' = inl Invalid).
Proof. exact (lookup_stable type_of infer ops l l'). Qed.
Print Assumptions C76_overloaded_stable.
(** Lowering gives the node of the implementation that gave the type. *)
Theorem C76_overloaded_lower type_of infer ops self a a' ds :
  overloaded_infer type_of infer ops (map attr_of ds) = inr a -> 
  (exists o, overloaded_lower type_of infer ops self a' ds = inr (Op o a ds) /\ In o ops /\ accepts type_of infer (map attr_of ds) o a) \/
  (a = ANone /\ overloaded_lower type_of infer ops self a' ds = inr (Op self a' ds)).
Proof.
  unfold overloaded_infer, overloaded_lower. assert (S := lookup_spec type_of infer ops (map attr_of ds)).
  destruct (lookup type_of infer ops (map attr_of ds)) as [e|[[o|] b]]; [discriminate| |]; intros [= <-].
  - left. destruct S as [pre [post [-> [_ H]]]]. exists o. split; [reflexivity|]. split; [apply in_or_app; right; left; reflexivity|exact H].
  - right. destruct S as [-> _]. auto.
Qed.
Print Assumptions C76_overloaded_lower.

(** Cases.  Operator 1 compares two types, operator 2 fails on NOTHING and is present
    otherwise, operator 3 is the presence of a last input type in the whole sequence. *)
Definition ex_I (o : nat) (vs : list val) : nat + val :=
  match o, vs with
  | 1, [VT a; VT b] => inr (VU (a =? b))
  | 2, [VT a] => if a =? 0 then inl 7 else inr (VU true)
  | 3, [VS l] => inr (VU (negb (last l 0 =? 0)))
  | _, _ => inr (VU false)
  end.
Definition ex_tup (l : list nat) : nat := 100 + length l.
Definition ex_sig : sig := mkS [[1]; [2]; [3]] true.
Definition ex_is k t : ex := XOp 1 [XPar [k]; XLit (VT t)].
Example C76_case_constraints :
  let cs := [ex_is 1 4; ex_is 3 102] in
  match prepare_inference ex_sig cs (XPar [2]) with
  | Some (inr l) =>
      let f := infer_type ex_I ex_tup 2 l in
      (f [4; 5; 6; 7], f [4; 5; 6; 0], f [4; 5; 6], f [9; 5; 6; 0], f [4; 0; 6; 7], f [0; 5; 6; 7]) =
      (Some (inr (Some 5)), Some (inr None), Some (inl (Unsatisfied 1)), Some (inl (Unsatisfied 0)), Some (inr None), Some (inr None))
  | _ => False
  end.
Proof. reflexivity. Qed.
Example C76_case_dispatch :
  let cs := [ex_is 1 4; ex_is 2 5] in
  match prepare_dispatch ex_sig cs with
  | Some (inr l) =>
      let f n := get_overload ex_I ex_tup n l in
      (f 2 [4; 6; 0], f 2 [8; 5], f 2 [4; 5], f 2 [4; 0], f 2 [8; 9], f 3 [8; 9]) =
      (Some (inr (Some 0)), Some (inr (Some 1)), Some (inl (Multiple 0 [1])), Some (inr None), Some (inl NoOverload), Some (inr (Some 2)))
  | _ => False
  end.
Proof. reflexivity. Qed.
Example C76_case_decides seq k t : decides ex_I seq (ex_is k t).
Proof. intros rho. exists (rho [k] =? t). reflexivity. Qed.
Definition ex_infer (o : nat) (l : list attr) : oerr + attr :=
  match o, l with
  | 1, [AType 4] => inr (AType 5)
  | 1, [ANone] => inr ANone
  | 2, [AType _] => inr (AType 6)
  | 2, [ANone] => inr (AType 6)
  | 3, _ => inl (Other 9)
  | _, _ => inl Invalid
  end.
Example C76_case_overloaded :
  map (lookup (fun v => v) ex_infer [1; 2; 3]) [[AType 4]; [AType 7]; [ANone]; [AType 1; AType 1]] =
  [inr (Some 1, AType 5); inr (Some 2, AType 6); inr (None, ANone); inl (Other 9)].
Proof. reflexivity. Qed.

(** A constraint is evaluated before the types are known, with NOTHING for all its parameters:
    if that fails, the operator fails although the constraint holds for every type. *)
Theorem C76_unready_error_refuted :
  ~ (forall (I : nat -> list val -> nat + val) tuple_type, (forall l, tuple_type l <> 0) ->
     forall s cs out l seq, NoDup (s_names s) -> fits s (length seq) ->
       (forall c rho, In c cs -> (forall k, rho k <> 0) -> mean I rho seq c = inr (VU true)) ->
       names_type I seq out -> prepare_inference s cs out = Some (inr l) ->
       exists r, infer_type I tuple_type (length cs) l seq = Some (inr r)).
Proof.
  intros H. destruct (H ex_I ex_tup (fun l => ltac:(unfold ex_tup; lia)) (mkS [[1]] false) [XOp 2 [XPar [1]]] (XLit (VT 1)) [RField [CP] 0; ROp 2 [RField [CP] 1]; RField [Cp] 0; RLit (VT 1)] [0]) as [r Hr].
  - constructor; [intros []|constructor].
  - reflexivity.
  - intros c rho [<-|[]] Hk. cbn. destruct (rho [1] =? 0) eqn:E; [apply Nat.eqb_eq in E; destruct (Hk _ E)|reflexivity].
  - intros rho. exists 1. reflexivity.
  - reflexivity.
  - vm_compute in Hr. discriminate.
Qed.
Print Assumptions C76_unready_error_refuted.
(** Readiness does not look at the use of the whole sequence: a condition that reads it can
    change the overload when more is known. *)
Theorem C76_sequence_refuted :
  ~ (forall (I : nat -> list val -> nat + val) tuple_type, (forall l, tuple_type l <> 0) ->
     forall s cs l seq seq' i, NoDup (s_names s) -> fits s (length seq) -> refines seq seq' ->
       (forall c, In c cs -> decides I seq c) -> prepare_dispatch s cs = Some (inr l) ->
       get_overload I tuple_type (length cs + 1) l seq = Some (inr (Some i)) -> get_overload I tuple_type (length cs + 1) l seq' = Some (inr (Some i))).
Proof.
  intros H. assert (X : Some (inr (Some 0)) = Some (inr (Some 1)) :> option (gerr nat + option nat)); [|discriminate].
  rewrite <- (H ex_I ex_tup (fun l => ltac:(unfold ex_tup; lia)) (mkS [[1]] false) [XOp 3 [XLeaf seq_key]] [RField [Cp] 0; ROp 3 [RSeq]] [0] [4] 1).
  - reflexivity.
  - constructor; [intros []|constructor].
  - reflexivity.
  - constructor; [left; reflexivity|constructor].
  - intros c [<-|[]] rho. exists false. reflexivity.
  - reflexivity.
  - reflexivity.
Qed.
Print Assumptions C76_sequence_refuted.
(** Implementations that look at the type of one input do not change their minds. *)
Definition ex_settled (o : nat) (l : list attr) : oerr + attr :=
  match map (qtype (fun v => v)) l with
  | [Some t] => if t =? o then inr (AType 5) else inl Invalid
  | [None] => inr ANone
  | _ => inl Invalid
  end.
Example C76_case_settled : settled (fun v => v) ex_settled.
Proof.
  assert (B : forall a b, below (fun v => v) a b -> a = ANone \/ qtype (fun v => v) a = qtype (fun v => v) b) by (intros a b H; destruct H; auto).
  intros o l l' H. destruct H as [|x y l l' Hxy H]; [split; [auto|intros a [? _]; discriminate]|]. destruct H as [|x2 y2 l l' Hxy2 H].
  - destruct (B x y Hxy) as [->|E].
    + split; [discriminate|]. intros a [H [t Ht]]. injection H as <-. discriminate.
    + unfold accepts, ex_settled. cbn [map]. rewrite E. split; [auto|]. intros a H. exists a. split; [exact H|]. destruct H as [H [t Ht]].
      destruct (qtype (fun v => v) y) as [ty|]; [|injection H as <-; discriminate]. destruct (ty =? o); [|discriminate]. injection H as <-. constructor.
  - unfold accepts, ex_settled. cbn [map]. destruct (qtype (fun v => v) x), (qtype (fun v => v) y); (split; [reflexivity|intros a [Ha _]; discriminate]).
Qed.

(** The parsing operator by itself, for every pattern and sequence: ready exactly if the
    sequence is of that form, with the fields in order; otherwise every field is NOTHING. *)
Lemma parse_loop_any tuple pat : forall seq outs, match parse_loop tuple pat seq outs with
  | (true, [], o) => exists fs, o = outs ++ fs /\ parses tuple pat seq fs /\ length fs = field_count pat
  | _ => forall fs, ~ parses tuple pat seq fs
  end.
Proof.
  induction pat as [|c pat IH]; intros seq outs; cbn [parse_loop].
  - destruct seq as [|x seq]; [exists []; rewrite app_nil_r; split; [reflexivity|split; [constructor|reflexivity]]|intros fs H; inversion H].
  - destruct c.
    + destruct seq as [|x seq]; [intros fs H; inversion H|]. specialize (IH seq outs). destruct (parse_loop tuple pat seq outs) as [[[] [|y l]] o]; try (intros fs H; inversion H; subst; apply (IH fs); assumption).
      destruct IH as (fs & -> & P & L). exists fs. split; [reflexivity|]. split; [constructor; exact P|exact L].
    + destruct seq as [|x seq]; [intros fs H; inversion H|]. destruct (x =? 0) eqn:Z; [apply Nat.eqb_eq in Z; intros fs H; inversion H; subst; auto|]. apply Nat.eqb_neq in Z.
      specialize (IH seq (outs ++ [x])). destruct (parse_loop tuple pat seq (outs ++ [x])) as [[[] [|y l]] o]; try (intros fs H; inversion H as [| |? ? ? fs' ? Q| |]; subst; apply (IH fs'); exact Q).
      destruct IH as (fs & -> & P & L). exists (x :: fs). rewrite <- app_assoc. split; [reflexivity|]. split; [constructor; assumption|cbn; rewrite L; reflexivity].
    + specialize (IH [] outs). destruct (parse_loop tuple pat [] outs) as [[[] [|y l]] o]; try (intros fs H; inversion H; subst; apply (IH fs); assumption).
      destruct IH as (fs & -> & P & L). exists fs. split; [reflexivity|]. split; [constructor; exact P|exact L].
    + destruct (existsb (Nat.eqb 0) seq) eqn:Z.
      * apply existsb_exists in Z as (y & I & Z). apply Nat.eqb_eq in Z. subst y. intros fs H. inversion H; subst. auto.
      * assert (N : ~ In 0 seq) by (intros I; assert (T : existsb (Nat.eqb 0) seq = true) by (apply existsb_exists; exists 0; auto); congruence).
        specialize (IH [] (outs ++ [tuple seq])). destruct (parse_loop tuple pat [] (outs ++ [tuple seq])) as [[[] [|y l]] o]; try (intros fs H; inversion H as [| | | |? ? fs' ? Q]; subst; apply (IH fs'); exact Q).
        destruct IH as (fs & -> & P & L). exists (tuple seq :: fs). rewrite <- app_assoc. split; [reflexivity|]. split; [constructor; assumption|cbn; rewrite L; reflexivity].
Qed.
Theorem C76_parse tuple pat seq : match parse tuple pat seq with
  | (true, fs) => parses tuple pat seq fs
  | (false, fs) => (forall fs', ~ parses tuple pat seq fs') /\ fs = repeat 0 (length (filter (fun c => match c with CP | CV => true | _ => false end) pat))
  end.
Proof.
  unfold parse. pose proof (parse_loop_any tuple pat seq []) as H. destruct (parse_loop tuple pat seq []) as [[[] [|y l]] o]; cbn [andb length Nat.eqb]; try (split; [exact H|reflexivity]).
  destruct H as (fs & -> & P & L). cbn [app]. rewrite <- L, firstn_all, Nat.sub_diag. cbn [repeat]. rewrite app_nil_r. exact P.
Qed.
Print Assumptions C76_parse.
Example C76_parse_case : parse (fun l => 100 + length l) [Cp; CP; CV] [0; 4; 5; 6] = (true, [4; 102]) /\
  parse (fun l => 100 + length l) [Cp; CP] [0] = (false, [0]) /\ parse (fun l => 100 + length l) [Cp] [] = (false, []) /\ parse (fun l => 100 + length l) [CP] [3; 4] = (false, [0]).
Proof. repeat split; reflexivity. Qed.
