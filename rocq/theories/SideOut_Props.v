(** C78: annotations and side outputs. *)
From Verif Require Import Base Visit_Model Visit_Spec Visit_Proofs VisitOrder_Proofs SideOut_Model SideOut_Spec SideOut_Proofs SideOut_Main.

(** Operators: 1 export, 2 export_value, 3 name, 4 qtype, 7 unknown, others plain.
    Values: 50 and 51 are the texts "u" and "t", 60 is a type. *)
Definition dec0 (o : nat) : nat + kind :=
  match o with 1 => inr KExport | 2 => inr KExportValue | 3 => inr KName | 4 => inr KQType | 7 => inl 99 | _ => inr KPlain end.
Definition look0 (v : nat) : view := match v with 50 => VText [117] | 51 => VText [116] | 60 => VQType 6 | _ => VElse end.
Definition inf1 (o : nat) (l : list attr) : nat + attr := match o with 1 | 2 | 3 | 4 => match l with a :: _ => inr a | [] => inl 1 end | 9 => inl 9 | _ => inr (AType o) end.
Definition sx := Leaf [120].
Definition sy := Leaf [121].
Definition ex_u n := Op 1 ANone [n; Lit 50].
Definition ex_t n v := Op 2 ANone [n; Lit 51; v].
(** x + export_value(x, "t", export(y, "u")) * export(y, "u") *)
Definition s0 : node := Op 5 ANone [sx; Op 6 ANone [ex_t sx (ex_u sy); ex_u sy]].

(** The result has every export annotation replaced by what it annotates, the side outputs are
    the exported values, cleaned in the same way, under different names.  It is an error if an
    operator refuses its cleaned dependencies, or if two parts of the expression export under
    the same name. *)
Theorem C78_extract {E} (infer : nat -> list attr -> E + attr) decay look_at root : exists res, extract infer decay look_at root = Some res /\
  match res with
  | inr (r, outs) => cleaned infer decay look_at root r /\ NoDup (map fst outs) /\ (forall t v, In (t, v) outs <-> exists n, output infer decay look_at root n t v) /\
      (forall n n' t v v', output infer decay look_at root n t v -> output infer decay look_at root n' t v' -> n = n')
  | inl (SErr e) => exists n, sub n root /\ broken infer decay look_at n e
  | inl (SDup t) => exists n n' v v', n <> n' /\ output infer decay look_at root n t v /\ output infer decay look_at root n' t v'
  end.
Proof. apply extract_ok. Qed.
Print Assumptions C78_extract.
Example C78_extract_ex : extract inf1 dec0 look0 s0 = Some (inr (Op 5 (AType 5) [sx; Op 6 (AType 6) [sx; sy]], [([117], sy); ([116], sy)])) /\
  extract inf1 dec0 look0 (Op 5 ANone [ex_u sx; ex_u sy]) = Some (inl (SDup [117])) /\
  extract inf1 dec0 look0 (Op 9 ANone [ex_u sx]) = Some (inl (SErr 9)).
Proof. repeat split; reflexivity. Qed.
(** The two nodes exporting under one name may even be equal once cleaned. *)
Example C78_extract_same_ex : extract inf1 dec0 look0 (Op 5 ANone [ex_t sx sx; ex_t (ex_u sx) sx]) = Some (inl (SDup [116])).
Proof. reflexivity. Qed.

(** If the expression can be cleaned and no two parts export under one name, that is returned. *)
Theorem C78_complete {E} (infer : nat -> list attr -> E + attr) decay look_at root r : cleaned infer decay look_at root r ->
  (forall n n' t v v', output infer decay look_at root n t v -> output infer decay look_at root n' t v' -> n = n') ->
  exists outs, extract infer decay look_at root = Some (inr (r, outs)).
Proof. apply extract_complete. Qed.
Print Assumptions C78_complete.

(** No export annotation is left, in the result or in the side outputs. *)
Theorem C78_clean {E} (infer : nat -> list attr -> E + attr) decay look_at root r outs : extract infer decay look_at root = Some (inr (r, outs)) ->
  (forall m x t v, sub m r -> ~ exports decay look_at m x t v) /\
  (forall k w m x t v, In (k, w) outs -> sub m w -> ~ exports decay look_at m x t v).
Proof.
  intros H. destruct (extract_ok infer decay look_at root) as (res & Q & R). rewrite H in Q. injection Q as <-. destruct R as (C & _ & O & _). split.
  - intros m x t v S X. apply (cleaned_none infer decay look_at root r m C S). exists x, t, v. exact X.
  - intros k w m x t v I S X. apply O in I as (n & I). apply (output_none infer decay look_at root n k w m I S). exists x, t, v. exact X.
Qed.
Print Assumptions C78_clean.

(** The values are the same, if export annotations are ignored by the evaluation. *)
Theorem C78_values {E V} (infer : nat -> list attr -> E + attr) decay look_at (sem : nat -> list V -> V) lit leaf plh root r outs :
  (forall o k, decay o = inr k -> k = KExport \/ k = KExportValue -> forall x l, sem o (x :: l) = x) ->
  extract infer decay look_at root = Some (inr (r, outs)) ->
  value sem lit leaf plh r = value sem lit leaf plh root /\
  forall t v, In (t, v) outs -> exists o a ds i d, sub (Op o a ds) root /\
    (decay o = inr KExport /\ i = 0 \/ decay o = inr KExportValue /\ i = 2) /\ nth_error ds i = Some d /\ value sem lit leaf plh v = value sem lit leaf plh d.
Proof.
  intros Hs H. destruct (extract_ok infer decay look_at root) as (res & Q & R). rewrite H in Q. injection Q as <-. destruct R as (C & _ & O & _). split.
  - apply (cleaned_val infer decay look_at sem lit leaf plh Hs root r C).
  - intros t v I. apply O in I as (n & I). destruct (output_val infer decay look_at sem lit leaf plh Hs root n t v I) as (o & a & ds & i & d & -> & K). exists o, a, ds, i, d. split; [exact (proj1 I)|exact K].
Qed.
Print Assumptions C78_values.
Definition sem0 (o : nat) (l : list nat) : nat := match o with 1 | 2 | 3 | 4 => hd 0 l | 5 => list_sum l | _ => fold_right Nat.mul 1 l end.
Example C78_values_ex : value sem0 S (fun k => hd 0 k) (fun _ => 0) s0 = 120 + 120 * 121 /\
  value sem0 S (fun k => hd 0 k) (fun _ => 0) (Op 5 (AType 5) [sx; Op 6 (AType 6) [sx; sy]]) = 120 + 120 * 121.
Proof. split; reflexivity. Qed.

(** Without export annotations nothing happens. *)
Theorem C78_same {E} (infer : nat -> list attr -> E + attr) decay look_at root : (forall m x t v, sub m root -> ~ exports decay look_at m x t v) ->
  extract infer decay look_at root = Some (inr (root, [])).
Proof. intros H. apply extract_same. intros m S (x & t & v & X). apply (H m x t v S X). Qed.
Print Assumptions C78_same.
(** Also if an annotation has no literal tag, as a lambda's body may have *)
Example C78_same_ex : extract inf1 dec0 look0 (Op 1 ANone [sx; Plh [7]]) = Some (inr (Op 1 ANone [sx; Plh [7]], [])).
Proof. reflexivity. Qed.

(** The readers of one node *)
Theorem C78_read {E} (decay : nat -> E + kind) look_at n :
  (forall t, is_export decay look_at n = Some true /\ read_tag decay look_at n = Some t <-> exists x v, exports decay look_at n x t v) /\
  (forall v, read_value decay look_at n = Some v <-> exists x t, exports decay look_at n x t v) /\
  (is_export decay look_at n = Some false <-> ~ exists x t v, exports decay look_at n x t v).
Proof.
  rewrite is_export_ok, read_tag_ok, read_value_ok. destruct (exported decay look_at n) as [[[x t] v]|] eqn:X.
  - split; [|split].
    + intros t'. split; [intros [_ H]; injection H as <-; exists x, v; apply exported_ok, X|]. intros (x' & v' & H). apply exported_ok in H. rewrite X in H. injection H as -> -> ->. auto.
    + intros v'. split; [intros H; injection H as <-; exists x, t; apply exported_ok, X|]. intros (x' & t' & H). apply exported_ok in H. rewrite X in H. injection H as -> -> ->. auto.
    + split; [discriminate|]. intros H. elim H. exists x, t, v. apply exported_ok, X.
  - assert (K : forall x t v, ~ exports decay look_at n x t v) by (intros x t v H; apply exported_ok in H; congruence). split; [|split].
    + intros t. split; [intros [H _]; discriminate|intros (x & v & H); elim (K _ _ _ H)].
    + intros v. split; [discriminate|intros (x & t & H); elim (K _ _ _ H)].
    + split; [intros _ (x & t & v & H); elim (K _ _ _ H)|reflexivity].
Qed.
Print Assumptions C78_read.
Theorem C78_read_name {E} (decay : nat -> E + kind) look_at n t : t <> [] ->
  read_name decay look_at n = Some t <-> exists o a x g, n = Op o a [x; g] /\ decay o = inr KName /\ has_text look_at g t.
Proof.
  intros N. unfold read_name, is_name. split.
  - destruct n as [v|k|k|o a [|x [|g [|y ds]]]]; cbn [deps length Nat.eqb negb bind]; try (intros H; injection H as <-; elim N; reflexivity).
    cbn [rd nth_error bind]. destruct (text_value look_at g) as [s|] eqn:T; cbn [bind]; [|intros H; injection H as <-; elim N; reflexivity].
    cbn [kind_of]. destruct (decay o) as [e|[]] eqn:D; cbn [bind]; try (intros H; injection H as <-; elim N; reflexivity).
    intros H. injection H as <-. exists o, a, x, g. split; [reflexivity|]. split; [exact D|]. apply text_of_ok. exact T.
  - intros (o & a & x & g & -> & D & T). cbn [deps length Nat.eqb negb rd nth_error bind kind_of]. apply text_of_ok in T. change (text_value look_at g) with (text_of look_at g). rewrite T, D. reflexivity.
Qed.
Print Assumptions C78_read_name.
Theorem C78_read_qtype {E} (decay : nat -> E + kind) look_at n : exists r, read_qtype decay look_at n = Some r /\
  forall q, r = Some q <-> exists o a x g v, n = Op o a [x; g] /\ decay o = inr KQType /\ attr_of g = AValue v /\ look_at v = VQType q.
Proof.
  unfold read_qtype, is_qtype. assert (No : (forall q, ~ exists o a x g v, n = Op o a [x; g] /\ decay o = inr KQType /\ attr_of g = AValue v /\ look_at v = VQType q) ->
    forall q, (None : option nat) = Some q <-> exists o a x g v, n = Op o a [x; g] /\ decay o = inr KQType /\ attr_of g = AValue v /\ look_at v = VQType q) by (intros H q; split; [discriminate|intros K; elim (H q K)]).
  destruct n as [v|k|k|o a [|x [|g [|y ds]]]]; cbn [deps length Nat.eqb negb]; try (exists None; split; [reflexivity|]; apply No; intros q (? & ? & ? & ? & ? & H & _); discriminate).
  cbn [kind_of]. destruct (decay o) as [e|[]] eqn:D; try (exists None; split; [reflexivity|]; apply No; intros q (? & ? & ? & ? & ? & H & H' & _); injection H as -> -> -> ->; congruence).
  cbn [rd nth_error bind]. destruct (attr_of g) as [|t|v] eqn:A; try (exists None; split; [reflexivity|]; apply No; intros q (? & ? & ? & ? & ? & H & _ & H' & _); injection H as -> -> -> ->; congruence).
  destruct (look_at v) as [s|q|] eqn:L; try (exists None; split; [reflexivity|]; apply No; intros q (? & ? & ? & ? & w & H & _ & H' & H''); injection H as -> -> -> ->; congruence).
  exists (Some q). split; [reflexivity|]. intros q'. split; [intros H; injection H as <-; exists o, a, x, g, v; auto|]. intros (o' & a' & x' & g' & w & H & _ & H' & H''). injection H as <- <- <- <-. congruence.
Qed.
Print Assumptions C78_read_qtype.
Example C78_read_ex : read_tag dec0 look0 (ex_t sx sy) = Some [116] /\ read_value dec0 look0 (ex_t sx sy) = Some sy /\
  read_name dec0 look0 (Op 3 ANone [sx; Lit 51]) = Some [116] /\ read_qtype dec0 look0 (Op 4 ANone [sx; Lit 60]) = Some (Some 6) /\ read_tag dec0 look0 (Op 1 ANone [sx; Lit 60]) = Some [].
Proof. repeat split; reflexivity. Qed.

(** Topmost annotations: exactly what is under them *)
Theorem C78_topmost {E} (decay : nat -> E + kind) n : exists res, strip_topmost decay n = Some res /\
  match res with
  | inr r => under decay n r /\ (forall x, ~ annotates decay r x) /\ forall e, ~ unknown decay r e
  | inl e => exists m, under decay n m /\ unknown decay m e
  end.
Proof.
  destruct (strip_top_ok decay (size n) n (le_n _)) as (res & Q & R). exists res. split; [exact Q|]. destruct res as [e|r]; [exact R|]. destruct R as (U & A & K). split; [exact U|]. split; [intros x H; apply A; exists x; exact H|exact K].
Qed.
Print Assumptions C78_topmost.
Example C78_topmost_ex : strip_topmost dec0 (ex_u (Op 3 ANone [Op 5 ANone [ex_u sx; sy]; Lit 51])) = Some (inr (Op 5 ANone [ex_u sx; sy])) /\
  strip_topmost dec0 (ex_u (Op 7 ANone [sx])) = Some (inl 99).
Proof. split; reflexivity. Qed.

(** StripAnnotations leaves no annotation and does not change the value; errors come only from
    unknown operators or from operators applied to stripped dependencies. *)
Theorem C78_strip {E} (infer : nat -> list attr -> E + attr) decay root : exists res, strip_annotations infer decay root = Some res /\
  match res with
  | inr r => (forall m x, sub m r -> ~ annotates decay m x) /\
      forall V (sem : nat -> list V -> V) lit leaf plh, (forall o k, decay o = inr k -> k <> KPlain -> forall x l, sem o (x :: l) = x) ->
        value sem lit leaf plh r = value sem lit leaf plh root
  | inl e => exists o, (exists l, infer o l = inl e) \/ exists o', decay o' = inl e
  end.
Proof.
  unfold strip_annotations. rewrite transform_ok. unfold rewritten. eexists. split; [reflexivity|]. destruct (bottom_up (reapply infer (strip_fn decay)) root) as [e|r] eqn:B.
  - destruct (bu_err infer (strip_fn decay) root e B) as (o & [H|(m & H)]); exists o; [left; exact H|right; apply (strip_err decay m e H)].
  - split.
    + intros m x S A. apply (bu_none infer (strip_fn decay) (is_ann decay) (strip_Hf decay) root r m B S). exists x. exact A.
    + intros V sem lit leaf plh Hs. apply (bu_val infer (strip_fn decay) (is_ann decay) (strip_Hf decay) sem lit leaf plh) with (n := root); [|exact B].
      intros o a x ds (y & A). inversion A; subst. apply (Hs o k); assumption.
Qed.
Print Assumptions C78_strip.
Theorem C78_strip_same {E} (infer : nat -> list attr -> E + attr) decay root : (forall m x, sub m root -> ~ annotates decay m x) -> (forall m e, sub m root -> ~ unknown decay m e) ->
  strip_annotations infer decay root = Some (inr root).
Proof.
  intros A U. unfold strip_annotations. rewrite transform_ok. unfold rewritten. f_equal. apply bu_same. intros m S. apply strip_keep; [intros (x & H); apply (A m x S H)|intros e; apply (U m e S)].
Qed.
Print Assumptions C78_strip_same.
Example C78_strip_ex : strip_annotations inf1 dec0 (Op 3 ANone [Op 5 ANone [ex_u sx; Op 4 (AType 6) [sy; Lit 60]]; Lit 51]) = Some (inr (Op 5 (AType 5) [sx; sy])) /\
  strip_annotations inf1 dec0 (Op 5 ANone [Op 7 ANone [sx]]) = Some (inl 99).
Proof. split; reflexivity. Qed.

(** Side outputs for a listener: the same names; those it knows are cast to its types. *)
Theorem C78_prepare {E} qtype_of (cast : node -> nat -> E + node) outs : NoDup (map fst outs) ->
  match prepare qtype_of cast outs with
  | inr l => Forall2 (fun c c' => fst c' = fst c /\ match qtype_of (fst c) with Some q => cast (snd c) q = inr (snd c') | None => snd c' = snd c end) outs l
  | inl e => exists t v q, In (t, v) outs /\ qtype_of t = Some q /\ cast v q = inl e
  end.
Proof.
  intros N. unfold prepare. rewrite (prepare_loop_ok qtype_of cast outs [] N). clear N. induction outs as [|[t v] outs IH]; [constructor|]. cbn [map]. unfold prep1 at 1. cbn [fst snd].
  destruct (qtype_of t) as [q|] eqn:Q; [destruct (cast v q) as [e|w] eqn:C|]; cbn [collect].
  - exists t, v, q. split; [left; reflexivity|auto].
  - destruct (collect (map (prep1 qtype_of cast) outs)) as [e|l]; [destruct IH as (t' & v' & q' & I & H); exists t', v', q'; split; [right; exact I|exact H]|].
    constructor; [cbn [fst snd]; rewrite Q; auto|exact IH].
  - destruct (collect (map (prep1 qtype_of cast) outs)) as [e|l]; [destruct IH as (t' & v' & q' & I & H); exists t', v', q'; split; [right; exact I|exact H]|].
    constructor; [cbn [fst snd]; rewrite Q; auto|exact IH].
Qed.
Print Assumptions C78_prepare.
Definition cast0 (n : node) (q : nat) : nat + node := if q =? 0 then inl 3 else inr (Op 8 (AType q) [n; Lit q]).
Definition qt0 (t : key) : option nat := match t with [117] => Some 4 | [119] => Some 0 | _ => None end.
Example C78_prepare_ex : prepare qt0 cast0 [([117], sx); ([116], sy)] = inr [([117], Op 8 (AType 4) [sx; Lit 4]); ([116], sy)] /\ prepare qt0 cast0 [([117], sx); ([119], sy)] = inl 3.
Proof. split; reflexivity. Qed.
(** The header says that only the names known to the listener are left; the others are kept. *)
Theorem C78_prepare_filter_refuted : ~ (forall qtype_of (cast : node -> nat -> nat + node) outs l, NoDup (map fst outs) -> prepare qtype_of cast outs = inr l ->
  forall t v, In (t, v) l -> qtype_of t <> None).
Proof.
  intros H. apply (H qt0 cast0 [([116], sy)] [([116], sy)]) with (t := [116]) (v := sy); [constructor; [intros []|constructor]|reflexivity|left; reflexivity|reflexivity].
Qed.
Print Assumptions C78_prepare_filter_refuted.
