(** Model of arolla/expr/eval/side_output.cc and of the annotations it reads
    (expr/annotation_utils.cc).  Expressions, their post order and the attributes are those of
    Visit_Model.  Left out: source locations, the texts of the errors (an error of
    DecayRegisteredOperator or of InferAttributes is a value of [E]). *)
From Verif Require Import Base Visit_Model.

Notation key := (list nat).
(** What DecayRegisteredOperator(op) gives: an operator without the annotation tag, or an
    instance of QTypeAnnotation, NameAnnotation, ExportAnnotation, ExportValueAnnotation
    (all with the tag, annotation_expr_operators.cc:50-140), or another tagged operator. *)
Inductive kind := KPlain | KQType | KName | KExport | KExportValue | KOther.
(** A value as seen by the readers: a Text, a QType, something else *)
Inductive view := VText (s : key) | VQType (t : nat) | VElse.

Section Side.
Context {E : Type}.
Variable infer : nat -> list attr -> E + attr.
Variable decay : nat -> E + kind.
Variable look_at : nat -> view.

(** HasAnnotationExprOperatorTag *)
Definition tagged (k : kind) : bool := match k with KPlain => false | _ => true end.
(** annotation_utils.cc:41-47 [IsAnnotation]; a node with dependencies has an operator *)
Definition is_annotation (n : node) : E + bool :=
  match n with
  | Op o _ ds => match ds with
                 | [] => inr false
                 | _ => match decay o with inl e => inl e | inr k => inr (tagged k) end
                 end
  | _ => inr false
  end.
(** 49-57 [StripTopmostAnnotations]; every round goes to a dependency *)
Fixpoint strip_top_loop (fuel : nat) (n : node) : option (E + node) :=
  match fuel with
  | O => None
  | S fu => match is_annotation n with
            | inl e => Some (inl e)
            | inr false => Some (inr n)
            | inr true => let? d := rd (deps n) 0 in strip_top_loop fu d
            end
  end.
Definition strip_topmost (n : node) : option (E + node) := strip_top_loop (size n) n.
(** 59-70 [StripAnnotations], the function given to Transform *)
Definition strip_fn (n : node) : E + node :=
  match is_annotation n with
  | inl e => inl e
  | inr true => match rd (deps n) 0 with Some d => inr d | None => inr n end
  | inr false => inr n
  end.
Definition strip_annotations (n : node) : option (E + node) := transform infer strip_fn n.

(** qvalue() of a node as a Text *)
Definition text_value (n : node) : option key :=
  match attr_of n with AValue v => match look_at v with VText s => Some s | _ => None end | _ => None end.
(** DecayRegisteredOperator(op).value_or(nullptr) *)
Definition kind_of (n : node) : option kind :=
  match n with Op o _ _ => match decay o with inr k => Some k | inl _ => None end | _ => None end.
(** 72-78 [IsQTypeAnnotation] *)
Definition is_qtype (n : node) : bool :=
  if negb (length (deps n) =? 2) then false else
  match kind_of n with Some KQType => true | _ => false end.
(** 80-90 [IsNameAnnotation] *)
Definition is_name (n : node) : option bool :=
  if negb (length (deps n) =? 2) then Some false else
  let? g := rd (deps n) 1 in
  match text_value g with
  | None => Some false
  | Some _ => Some (match kind_of n with Some KName => true | _ => false end)
  end.
(** 92-105 [IsExportAnnotation] *)
Definition is_export (n : node) : option bool :=
  let c := length (deps n) in
  if (c <? 2) || (3 <? c) then Some false else
  let? g := rd (deps n) 1 in
  match text_value g with
  | None => Some false
  | Some _ => Some (match kind_of n with
                    | Some KExport => c =? 2
                    | Some KExportValue => c =? 3
                    | _ => false
                    end)
  end.
(** 107-118 [ReadQTypeAnnotation] *)
Definition read_qtype (n : node) : option (option nat) :=
  if is_qtype n then
    let? g := rd (deps n) 1 in
    match attr_of g with AValue v => match look_at v with VQType t => Some (Some t) | _ => Some None end | _ => Some None end
  else Some None.
(** 120-127 [ReadNameAnnotation]; the empty text if it is not one *)
Definition read_name (n : node) : option key :=
  let? b := is_name n in
  if b then let? g := rd (deps n) 1 in text_value g else Some [].
(** 129-137 [ReadExportAnnotationTag] *)
Definition read_tag (n : node) : option key :=
  let? b := is_export n in
  if b then let? g := rd (deps n) 1 in text_value g else Some [].
(** 139-151 [ReadExportAnnotationValue]; [None] is also nullptr, which the caller checks *)
Definition read_value (n : node) : option node :=
  let? b := is_export n in
  if b then
    if length (deps n) =? 2 then rd (deps n) 0
    else if length (deps n) =? 3 then rd (deps n) 2 else None
  else None.

(** flat_hash_map<std::string, ExprNodePtr>, in order of insertion *)
Notation omap := (list (key * node)).
Fixpoint ofind (m : omap) (t : key) : option node :=
  match m with [] => None | (k, v) :: r => if leqb Nat.eqb k t then Some v else ofind r t end.
Inductive serr := SErr (e : E) | SDup (t : key).
(** side_output.cc:46-67, the function given to TransformOnPostOrder *)
Definition side_fn (outs : omap) (n : node) : option (serr + (omap * node)) :=
  let? b := is_export n in
  if negb b then Some (inr (outs, n)) else
  let? w := rd (deps n) 0 in
  let? t := read_tag n in
  let? v := read_value n in
  match ofind outs t with
  | Some _ => Some (inl (SDup t))
  | None => Some (inr (outs ++ [(t, v)], w))
  end.
(** expr_visitor.h:255-288, one round with that function *)
Definition side_step (p : porder) (results : list (option node)) (outs : omap) (i : nat) : option (serr + (list (option node) * omap)) :=
  let? n := rd (p_nodes p) i in
  let? is := dep_indices p i in
  let? rs := rds results is in
  let input := match n with
               | Op o _ ds => if existsb changed rs then make_op infer o (map (fun c => pick (fst c) (snd c)) (combine rs ds)) else inr n
               | _ => inr n
               end in
  match input with
  | inl e => Some (inl (SErr e))
  | inr m =>
      let? r := side_fn outs m in
      match r with
      | inl e => Some (inl e)
      | inr (outs, n') => if node_eqb n' n then Some (inr (results, outs))
                          else let? results := upd results i (Some n') in Some (inr (results, outs))
      end
  end.
Fixpoint side_loop (p : porder) (results : list (option node)) (outs : omap) (i cnt : nat) : option (serr + (list (option node) * omap)) :=
  match cnt with
  | O => Some (inr (results, outs))
  | S c => let? r := side_step p results outs i in
           match r with inl e => Some (inl e) | inr (results, outs) => side_loop p results outs (S i) c end
  end.
(** side_output.cc:41-69, [ExtractSideOutputs] of a post order *)
Definition extract_po (p : porder) : option (serr + (node * omap)) :=
  let n := length (p_nodes p) in
  let? r := side_loop p (repeat None n) [] 0 n in
  match r with
  | inl e => Some (inl e)
  | inr (results, outs) => let? last := rd results (n - 1) in
                           match last with
                           | Some r => Some (inr (r, outs))
                           | None => let? n := rd (p_nodes p) (n - 1) in Some (inr (n, outs))
                           end
  end.
(** 36-39 *)
Definition extract (root : node) : option (serr + (node * omap)) :=
  let? p := post_order root in extract_po p.

(** 71-85 [PrepareSideOutputsForListener]; [qtype_of] is SlotListenerBase::GetQTypeOf and
    [cast] the expression built by CoreCast; the map is walked in any order, the order of
    the list *)
Variable qtype_of : key -> option nat.
Variable cast : node -> nat -> E + node.
Definition emplace (m : omap) (t : key) (v : node) : omap :=
  match ofind m t with Some _ => m | None => m ++ [(t, v)] end.
Fixpoint prepare_loop (outs res : omap) : E + omap :=
  match outs with
  | [] => inr res
  | (t, v) :: r =>
      match qtype_of t with
      | Some q => match cast v q with inl e => inl e | inr v => prepare_loop r (emplace res t v) end
      | None => prepare_loop r (emplace res t v)
      end
  end.
Definition prepare (outs : omap) : E + omap := prepare_loop outs [].
End Side.
Arguments serr : clear implicits.
