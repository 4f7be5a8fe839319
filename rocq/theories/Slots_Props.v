(** C32: assigning slots to the nodes of an expression. *)
From Verif Require Import Base Visit_Model Visit_Spec Slots_Model Slots_Spec Slots_Proofs SlotsTree_Proofs.

(** A well-formed expression can always be bound. *)
Theorem C32_binds nodes inputs layout reuse out_idx out_slot : well_formed nodes inputs layout reuse out_idx out_slot ->
  exists c, bind_all nodes inputs layout reuse out_idx out_slot = Some c.
Proof. apply binds. Qed.
Print Assumptions C32_binds.

(** Running the bound program on a frame with inputs and literals gives the value of the
    expression, leaves literals in place, so that it can be run again, changes no slot the
    caller knows but the output (and the inputs, if that is allowed), and at the end all
    outputs collected by the root operator are still there. *)
Theorem C32_run {V} (lit : nat -> V) opf proj leafv nodes inputs layout reuse out_idx out_slot vals c fr :
  well_formed nodes inputs layout reuse out_idx out_slot -> value_ok lit opf proj leafv nodes vals ->
  bind_all nodes inputs layout reuse out_idx out_slot = Some c -> holds_inputs leafv inputs fr -> holds_literals lit (c_init c) fr ->
  let fr' := exec opf proj (c_prog c) fr in
  fr' out_slot = vals (length nodes - 1) /\
  holds_literals lit (c_init c) fr' /\
  (forall s, s < length layout -> s <> out_slot -> (reuse = true -> ~ In s (map snd inputs)) -> fr' s = fr s) /\
  (forall n ins, nth_error nodes (length nodes - 1) = Some n -> g_kind n = GRoot -> rds (c_res c) (g_deps n) = Some ins -> map (read proj fr') ins = map vals (g_deps n)).
Proof. intros W Hv Ec Hi Hl. exact (run_ok nodes inputs layout reuse out_idx out_slot W lit opf proj leafv vals c fr Hv Ec Hi Hl). Qed.
Print Assumptions C32_run.

(** Initialisation puts all literals in place and changes only slots that did not exist
    before binding. *)
Theorem C32_init {V} (lit : nat -> V) nodes inputs layout reuse out_idx out_slot c (fr : nat -> V) :
  well_formed nodes inputs layout reuse out_idx out_slot -> bind_all nodes inputs layout reuse out_idx out_slot = Some c ->
  holds_literals lit (c_init c) (init_frame lit (c_init c) fr) /\ forall s, s < length layout -> init_frame lit (c_init c) fr s = fr s.
Proof.
  intros W Ec. destruct (static nodes inputs layout reuse out_idx out_slot W c Ec) as (S1 & S2 & _). destruct (init_frame_ok lit (c_init c) S1 fr) as [H1 H2]. split; [exact H1|].
  intros s Ls. apply H2. intros C. apply in_map_iff in C as ((s' & v) & E & C). cbn in E. subst s'. apply S2 in C. lia.
Qed.
Print Assumptions C32_init.

(** The layout only grows; a slot is given only to nodes of its type, so it is never used
    for values of two types; the program writes only to slots of the
    layout, and no operator writes to a slot it reads. *)
Theorem C32_types nodes inputs layout reuse out_idx out_slot c :
  well_formed nodes inputs layout reuse out_idx out_slot -> bind_all nodes inputs layout reuse out_idx out_slot = Some c ->
  (exists more, a_layout (c_al c) = layout ++ more) /\
  (forall ins, In ins (c_prog c) -> dst ins < length (a_layout (c_al c)) /\ forall s, In s (srcs ins) -> t_slot s <> dst ins) /\
  (forall j n, nth_error nodes j = Some n -> j <> out_idx -> computed n -> exists s, rd (c_res c) j = Some (mkT s []) /\ rd (a_layout (c_al c)) s = Some (g_ty n)).
Proof. intros W Ec. destruct (static nodes inputs layout reuse out_idx out_slot W c Ec) as (_ & _ & S3 & S4 & S5). auto. Qed.
Print Assumptions C32_types.

(** From an expression to its value: compile, initialise, run. *)
Theorem C32_expression {V} (cls : nat -> opclass) ty (lit : nat -> V) opf proj leafv root inputs layout reuse out_slot :
  supported cls root -> good_slots root inputs layout reuse out_slot ->
  exists c, compile cls ty root inputs layout reuse out_slot = Some c /\
    forall fr, holds_inputs leafv inputs fr -> exec opf proj (c_prog c) (init_frame lit (c_init c) fr) out_slot = ev cls lit opf proj leafv root.
Proof.
  intros Hs Hg. destruct (compile_all cls ty root Hs inputs layout reuse out_slot Hg) as (e & He & W & Ec). rewrite Ec.
  destruct (binds _ _ _ _ _ _ W) as (c & Eb). exists c. split; [exact Eb|]. intros fr Hi.
  destruct (C32_init lit _ _ _ _ _ _ c fr W Eb) as [I1 I2].
  assert (Hi' : holds_inputs leafv inputs (init_frame lit (c_init c) fr)) by (intros k s H; rewrite I2; [apply (Hi k s H)|apply (proj1 (wf_inputs _ _ _ _ _ _ W k s H))]).
  destruct (C32_run lit opf proj leafv _ _ _ _ _ _ _ c _ W (tree_vals cls ty root Hs lit opf proj leafv) Eb Hi' I1) as (R & _). rewrite R, map_length.
  destruct (last_node ty root) as [L _]. apply (vals_nth cls root lit opf proj leafv _ _ L).
Qed.
Print Assumptions C32_expression.

(** ** Cases *)
(** f(g(f(x) + y) . 1, x) where [.1] is a view: slots are reused, with and without
    overwriting inputs *)
Definition ex_cls (o : nat) : opclass := if o =? 7 then CView else if o =? 9 then CRoot else CPlain.
Definition ex_x : node := Leaf [1].
Definition ex_y : node := Leaf [2].
Definition ex_f (a : node) : node := Op 1 ANone [a].
Definition ex_tree : node := Op 2 ANone [ex_f (ex_f (Op 7 ANone [Op 2 ANone [ex_f ex_x; ex_y]])); Op 2 ANone [ex_x; Lit 5]].
Definition ex_opf (o : nat) (l : list nat) : nat := list_sum (map (fun x => 2 * x + o) l) + 1.
Example C32_supported_ex : supported ex_cls ex_tree /\ good_slots ex_tree [([1], 0); ([2], 1)] [3; 3; 3] true 2.
Proof.
  assert (P : forall (P : node -> Prop), (forall n, P n -> forall d, In d (deps n) -> P d) -> forall x r, sub x r -> P r -> P x).
  { intros P H x r S. induction S; intros Pr; [exact Pr|]. apply IHS. eapply H; eassumption. }
  set (Q := fun n => In n [ex_tree; ex_f (ex_f (Op 7 ANone [Op 2 ANone [ex_f ex_x; ex_y]])); ex_f (Op 7 ANone [Op 2 ANone [ex_f ex_x; ex_y]]); Op 7 ANone [Op 2 ANone [ex_f ex_x; ex_y]]; Op 2 ANone [ex_f ex_x; ex_y]; ex_f ex_x; Op 2 ANone [ex_x; Lit 5]; ex_x; ex_y; Lit 5]).
  assert (A : forall x, sub x ex_tree -> Q x).
  { intros x S. apply (P Q) with (r := ex_tree); [|exact S|left; reflexivity]. intros n Hn d Hd. unfold Q in *. cbn [In] in Hn.
    repeat (destruct Hn as [<-|Hn]; [cbn [deps ex_tree ex_f ex_x ex_y In] in Hd; repeat (destruct Hd as [<-|Hd]; [cbn; tauto|]); destruct Hd|]). destruct Hn. }
  split.
  - intros x S. apply A in S. unfold Q in S. cbn [In] in S. repeat (destruct S as [<-|S]; [cbn; auto|]). destruct S.
  - split; [|split; [|split; [|split]]].
    + intros k S. apply A in S. unfold Q in S. cbn [In] in S. repeat (destruct S as [S|S]; [try discriminate S; injection S as <-; eexists; cbn; eauto|]). destruct S.
    + repeat constructor; cbn; intuition discriminate.
    + intros _. repeat constructor; cbn; intuition discriminate.
    + intros k s [H|[H|[]]]; injection H as <- <-; cbn; lia.
    + cbn. lia.
Qed.
Example C32_expression_ex :
  let run reuse := match compile ex_cls (fun _ => 3) ex_tree [([1], 0); ([2], 1)] [3; 3; 3] reuse 2 with
                   | Some c => Some (length (a_layout (c_al c)), map dst (c_prog c), exec ex_opf (fun p v => v + p) (c_prog c) (init_frame (fun v => v) (c_init c) (fun s => 10 + s)) 2)
                   | None => None end in
  run true = Some (6, [3; 4; 1; 4; 1; 2], 711) /\ run false = Some (6, [3; 4; 3; 4; 3; 2], 711) /\ ev ex_cls (fun v => v) ex_opf (fun p v => v + p) (fun k => match k with [1] => 10 | _ => 11 end) ex_tree = 711.
Proof. vm_compute. auto. Qed.
(** The collecting operator: f(x) and g(f(x)) are both outputs *)
Example C32_named_ex :
  let root := Op 9 ANone [ex_f (ex_f ex_x); ex_f ex_x; Op 2 ANone [ex_f (ex_f ex_x); ex_x]] in
  match compile ex_cls (fun _ => 3) root [([1], 0)] [3; 3] true 1 with
  | Some c => let fr := exec ex_opf (fun p v => v + p) (c_prog c) (fun s => 10 + s) in
              option_map (map (read (fun p v => v + p) fr)) (rds (c_res c) [2; 1; 3]) = Some [46; 22; 117] /\
              map (ev ex_cls (fun v => v) ex_opf (fun p v => v + p) (fun _ => 10)) (deps root) = [46; 22; 117]
  | None => False end.
Proof. vm_compute. auto. Qed.

(** ** The conditions on slots are needed *)
(** Two leaves in one slot that may be overwritten: g(f(x)) takes the slot of [x], which is
    that of [y] too. *)
Theorem C32_shared_inputs_refuted : exists nodes inputs layout out_idx out_slot c vals leafv (fr : nat -> nat),
  acyclic nodes /\ (forall k s, In (k, s) inputs -> s < length layout /\ s <> out_slot) /\ bind_all nodes inputs layout true out_idx out_slot = Some c /\
  value_ok (fun v => v) ex_opf (fun p v => v + p) leafv nodes vals /\ holds_inputs leafv inputs fr /\ holds_literals (fun v => v) (c_init c) fr /\
  exec ex_opf (fun p v => v + p) (c_prog c) fr out_slot <> vals (length nodes - 1).
Proof.
  exists [mkG (GLeaf [1]) 3 []; mkG (GOp 1) 3 [0]; mkG (GOp 1) 3 [1]; mkG (GLeaf [2]) 3 []; mkG (GOp 2) 3 [2; 3]], [([1], 0); ([2], 0)], [3; 3], 4, 1.
  eexists. exists (fun i => match i with 0 => 10 | 1 => 22 | 2 => 46 | 3 => 10 | _ => 117 end), (fun _ => 10), (fun _ => 10).
  split; [|split; [|split; [|split; [|split; [|split]]]]].
  - intros i n d Ei Hd. do 5 (destruct i as [|i]; [injection Ei as <-; cbn in Hd; lia|]). destruct i; discriminate.
  - intros k s [H|[H|[]]]; injection H as <- <-; cbn; lia.
  - vm_compute. reflexivity.
  - intros i n Ei. do 5 (destruct i as [|i]; [injection Ei as <-; reflexivity|]). destruct i; discriminate.
  - intros k s _. reflexivity.
  - intros s v [].
  - vm_compute. discriminate.
Qed.
Print Assumptions C32_shared_inputs_refuted.
