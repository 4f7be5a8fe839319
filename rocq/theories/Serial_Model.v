(** Model of the serialization of values and expressions: the Encoder and the Decoder
    (arolla/serialization_base/{encoder,decoder}.{h,cc}), containers
    (serialization_base/container_proto.cc, serialization/riegeli.cc) and
    serialization/{encode,decode}.cc.

    Expressions are those of Visit_Model.  Values are numbered, values with equal
    fingerprints have the same number.  A value encoder is a program that may call the
    encoder and then returns a ValueProto or an error; [X] are the extensions of ValueProto.
    Adding to a container never fails (no I/O errors).  Which error is returned is not
    modelled, apart from errors of different sides. *)
From Verif Require Import Base Visit_Model.

Definition str := list nat.
Definition str_eqb : str -> str -> bool := leqb Nat.eqb.

Section serialization.
Variable X : Type.

(** ** Messages, arolla/serialization_base/base.proto. *)
Record vproto := { p_vals : list nat; p_exprs : list nat; p_codec : option nat; p_ext : X }.
Inductive step :=
  | SLit (value : option nat) | SLeaf (key : option str) | SPlh (key : option str)
  | SOp (op : option nat) (deps : list nat)
  | SVal (p : vproto) | SCodec (name : str) | SOutV (i : nat) | SOutE (i : nat) | SNone.
(** A step and the usage counts of its hints; none if there are no hints. *)
Record dstep := { s_type : step; s_hints : list nat }.
Definition plain (s : step) : dstep := {| s_type := s; s_hints := [] |}.
Record container := { c_version : option Z; c_codecs : list str; c_steps : list dstep; c_out_vals : list nat; c_out_exprs : list nat }.

(** ** Encoder. *)
Inductive call := CVal (v : nat) | CExpr (e : node) | CCodec (name : str).
(** A value encoder: calls of the encoder, with the returned index, and the result. *)
Inductive prog := Ret (p : vproto) | Fail | Call (c : call) (k : nat -> prog).
Inductive eres A := EOk (a : A) | EErr | EUndef | EFuel.
Arguments EOk {A}. Arguments EErr {A}. Arguments EUndef {A}. Arguments EFuel {A}.
Definition ebind {A B} (x : eres A) (f : A -> eres B) : eres B :=
  match x with EOk a => f a | EErr => EErr | EUndef => EUndef | EFuel => EFuel end.

(** The state: the steps of the container, known_values_, known_exprs_, known_codecs_ (the
    last entry of a key is first), nesting_. *)
Record est := { e_steps : list dstep; e_vals : list (nat * nat); e_exprs : list (node * nat); e_codecs : list (str * nat); e_nest : nat }.
Fixpoint find {K} (eqb : K -> K -> bool) (k : K) (m : list (K * nat)) : option nat :=
  match m with [] => None | (k', i) :: r => if eqb k k' then Some i else find eqb k r end.
Variable venc : nat -> prog.
(** TypedValue::FromValue of an operator *)
Variable opval : nat -> nat.

(** ContainerProtoBuilder::Add, container_proto.cc:29-33; RiegeliContainerBuilder::Add,
    riegeli.cc:60-64: the index is the number of the steps before. *)
Definition add (s : step) (st : est) : nat * est :=
  (length (e_steps st), {| e_steps := e_steps st ++ [plain s]; e_vals := e_vals st; e_exprs := e_exprs st; e_codecs := e_codecs st; e_nest := e_nest st |}).
Definition set_val (v i : nat) (st : est) : est := {| e_steps := e_steps st; e_vals := (v, i) :: e_vals st; e_exprs := e_exprs st; e_codecs := e_codecs st; e_nest := e_nest st |}.
Definition set_expr (e : node) (i : nat) (st : est) : est := {| e_steps := e_steps st; e_vals := e_vals st; e_exprs := (e, i) :: e_exprs st; e_codecs := e_codecs st; e_nest := e_nest st |}.
Definition set_codec (n : str) (i : nat) (st : est) : est := {| e_steps := e_steps st; e_vals := e_vals st; e_exprs := e_exprs st; e_codecs := (n, i) :: e_codecs st; e_nest := e_nest st |}.
Definition set_nest (n : nat) (st : est) : est := {| e_steps := e_steps st; e_vals := e_vals st; e_exprs := e_exprs st; e_codecs := e_codecs st; e_nest := n |}.

Section calls.
(** The calls of the encoder from a value encoder or from the encoder itself. *)
Variable enc : call -> est -> eres (nat * est).
Fixpoint run (p : prog) (st : est) : eres (vproto * est) :=
  match p with
  | Ret q => EOk (q, st)
  | Fail => EErr
  | Call c k => ebind (enc c st) (fun r => run (k (fst r)) (snd r))
  end.
(** EncodeCodec, encoder.cc:70-80. *)
Definition encode_codec (n : str) (st : est) : eres (nat * est) :=
  match find str_eqb n (e_codecs st) with
  | Some i => EOk (i, st)
  | None => let '(i, st1) := add (SCodec n) st in EOk (i, set_codec n i st1)
  end.
(** encoder.cc:61-66 and 98-103. *)
Definition output (mk : nat -> step) (i : nat) (st : est) : eres (nat * est) :=
  if e_nest st =? 0 then EOk (i, snd (add (mk i) st)) else EOk (i, st).
(** EncodeValue, encoder.cc:46-68. *)
Definition encode_value (v : nat) (st : est) : eres (nat * est) :=
  match find Nat.eqb v (e_vals st) with
  | Some i => output SOutV i st
  | None =>
    ebind (run (venc v) (set_nest (S (e_nest st)) st)) (fun r =>
    let '(i, st1) := add (SVal (fst r)) (snd r) in
    let st2 := set_val v i st1 in
    output SOutV i (set_nest (e_nest st2 - 1) st2))
  end.
Fixpoint dep_indices (ds : list node) (st : est) : option (list nat) :=
  match ds with
  | [] => Some []
  | d :: r => let? i := find node_eqb d (e_exprs st) in let? l := dep_indices r st in Some (i :: l)
  end.
(** EncodeExprNode and the functions for the kinds of nodes, encoder.cc:107-169. *)
Definition encode_node (n : node) (st : est) : eres est :=
  match find node_eqb n (e_exprs st) with
  | Some _ => EOk st
  | None =>
    let finish s st1 := let '(i, st2) := add s st1 in EOk (set_expr n i st2) in
    match n with
    | Lit v => ebind (enc (CVal v) st) (fun r => finish (SLit (Some (fst r))) (snd r))
    | Leaf k => finish (SLeaf (Some k)) st
    | Plh k => finish (SPlh (Some k)) st
    | Op o _ ds =>
      ebind (enc (CVal (opval o)) st) (fun r =>
      match dep_indices ds (snd r) with
      | None => EErr
      | Some l => finish (SOp (Some (fst r)) l) (snd r)
      end)
    end
  end.
Fixpoint encode_nodes (ns : list node) (st : est) : eres est :=
  match ns with [] => EOk st | n :: r => ebind (encode_node n st) (encode_nodes r) end.
(** EncodeExpr, encoder.cc:82-105; known_exprs_.at of a missing key is not defined.  The
    expression is not null. *)
Definition encode_expr (e : node) (st : est) : eres (nat * est) :=
  match find node_eqb e (e_exprs st) with
  | Some i => output SOutE i st
  | None =>
    match visitor_order e with
    | None => EUndef
    | Some ns =>
      ebind (encode_nodes ns (set_nest (S (e_nest st)) st)) (fun st1 =>
      match find node_eqb e (e_exprs st1) with
      | None => EUndef
      | Some i => output SOutE i (set_nest (e_nest st1 - 1) st1)
      end)
    end
  end.
End calls.
Fixpoint enc (fuel : nat) (c : call) (st : est) : eres (nat * est) :=
  match fuel with
  | O => EFuel
  | S k => match c with
           | CVal v => encode_value (enc k) v st
           | CExpr e => encode_expr (enc k) e st
           | CCodec n => encode_codec n st
           end
  end.
Fixpoint enc_all (fuel : nat) (cs : list call) (st : est) : eres est :=
  match cs with [] => EOk st | c :: r => ebind (enc fuel c st) (fun x => enc_all fuel r (snd x)) end.
Definition est0 : est := {| e_steps := []; e_vals := []; e_exprs := []; e_codecs := []; e_nest := 0 |}.
(** EncodeToContainerBuilder, encode.cc:43-54, and riegeli.cc:112-120: the steps. *)
Definition encode_steps (fuel : nat) (values : list nat) (exprs : list node) : eres (list dstep) :=
  ebind (enc_all fuel (map CVal values ++ map CExpr exprs) est0) (fun st => EOk (e_steps st)).
(** Encode, encode.cc:58-63, with ContainerProtoBuilder::Finish. *)
Definition encode (fuel : nat) (values : list nat) (exprs : list node) : eres container :=
  ebind (encode_steps fuel values exprs) (fun l => EOk {| c_version := Some 2%Z; c_codecs := []; c_steps := l; c_out_vals := []; c_out_exprs := [] |}).
(** The records of EncodeAsRiegeliData, riegeli.cc:103-127, with the "stop" record. *)
Definition encode_records (fuel : nat) (values : list nat) (exprs : list node) : eres (list dstep) :=
  ebind (encode_steps fuel values exprs) (fun l => EOk (l ++ [plain SNone])).

(** ** Decoder. *)
Inductive dres A := DOk (a : A) | DErr | DUndef.
Arguments DOk {A}. Arguments DErr {A}. Arguments DUndef {A}.
Definition dbind {A B} (x : dres A) (f : A -> dres B) : dres B := match x with DOk a => f a | DErr => DErr | DUndef => DUndef end.
Definition d_undef {A} (x : option A) : dres A := match x with Some a => DOk a | None => DUndef end.
(** A value decoder and its results: a value, no extension found, an error. *)
Inductive vres := VOk (v : nat) | VNone | VErr.
Definition vdec := vproto -> list nat -> list node -> vres.
(** value_decoder_provider; None is an error. *)
Variable provider : str -> option vdec.
(** The operator in a value of type ExprOperatorPtr. *)
Variable as_op : nat -> option nat.
(** ExprOperator::InferAttributes, and options_.infer_attributes_for_operator_nodes *)
Variable infer : nat -> list attr -> unit + attr.
Variable infer_on : bool.

Inductive slot := Empty | HasVal (v : nat) | HasExpr (e : node).
Record result := { r_slot : slot; r_codec : option vdec; r_usage : nat }.
(** decoding_step_results_, expected_usage_counts_, known_codecs_, result_ *)
Record dst := { d_results : list result; d_expected : list nat; d_known : list vdec; d_vals : list nat; d_exprs : list node }.
Definition with_results (rs : list result) (d : dst) : dst :=
  {| d_results := rs; d_expected := d_expected d; d_known := d_known d; d_vals := d_vals d; d_exprs := d_exprs d |}.
Definition set_result (i : nat) (r : result) (d : dst) : dres dst :=
  dbind (d_undef (upd (d_results d) i r)) (fun rs => DOk (with_results rs d)).
Definition empty_result : result := {| r_slot := Empty; r_codec := None; r_usage := 0 |}.
Definition is_empty (s : slot) : bool := match s with Empty => true | _ => false end.

(** CheckUsageCount, decoder.cc:118-139. *)
Definition check_usage (i : nat) (d : dst) : dres dst :=
  match rd (d_expected d) i with
  | None => DOk d
  | Some x =>
    dbind (d_undef (rd (d_results d) i)) (fun r =>
    if x <? r_usage r then DErr
    else if negb (is_empty (r_slot r)) && (x <? 1) then DErr
    else if r_usage r =? x then set_result i {| r_slot := Empty; r_codec := r_codec r; r_usage := r_usage r |} d
    else DOk d)
  end.
Fixpoint check_all (is : list nat) (d : dst) : dres dst :=
  match is with [] => DOk d | i :: r => dbind (check_usage i d) (check_all r) end.
(** ProcessDecoderHints, decoder.cc:101-116. *)
Definition hints (counts : list nat) (d : dst) : dres dst :=
  match counts with
  | [] => DOk d
  | _ =>
    match d_expected d with
    | _ :: _ => DErr
    | [] => check_all (seq 0 (Nat.min (length counts) (length (d_results d))))
              {| d_results := d_results d; d_expected := counts; d_known := d_known d; d_vals := d_vals d; d_exprs := d_exprs d |}
    end
  end.
(** StoreDecodedValueOrExpr, decoder.cc:345-355. *)
Definition store (i : nat) (s : slot) (d : dst) : dres dst :=
  dbind (d_undef (rd (d_results d) i)) (fun r =>
  if negb (is_empty (r_slot r)) || (0 <? r_usage r) then DErr
  else dbind (set_result i {| r_slot := s; r_codec := r_codec r; r_usage := r_usage r |} d) (check_usage i)).
(** StoreDecodedCodec, decoder.cc:371-380. *)
Definition store_codec (i : nat) (c : vdec) (d : dst) : dres dst :=
  dbind (d_undef (rd (d_results d) i)) (fun r =>
  match r_codec r with
  | Some _ => DErr
  | None => dbind (set_result i {| r_slot := r_slot r; r_codec := Some c; r_usage := r_usage r |} d) (fun d =>
            DOk {| d_results := d_results d; d_expected := d_expected d; d_known := d_known d ++ [c]; d_vals := d_vals d; d_exprs := d_exprs d |})
  end).
(** LoadDecodedValueOrExpr, decoder.cc:382-392. *)
Definition load (i : nat) (d : dst) : dres (slot * dst) :=
  match rd (d_results d) i with
  | None => DErr
  | Some r =>
    dbind (set_result i {| r_slot := r_slot r; r_codec := r_codec r; r_usage := S (r_usage r) |} d) (fun d =>
    dbind (check_usage i d) (fun d => DOk (r_slot r, d)))
  end.
(** LoadDecodedValue and LoadDecodedExpr, decoder.cc:394-414. *)
Definition load_value (i : nat) (d : dst) : dres (nat * dst) := dbind (load i d) (fun x => match fst x with HasVal v => DOk (v, snd x) | _ => DErr end).
Definition load_expr (i : nat) (d : dst) : dres (node * dst) := dbind (load i d) (fun x => match fst x with HasExpr e => DOk (e, snd x) | _ => DErr end).
Fixpoint loads {T} (f : nat -> dst -> dres (T * dst)) (is : list nat) (d : dst) : dres (list T * dst) :=
  match is with
  | [] => DOk ([], d)
  | i :: r => dbind (f i d) (fun x => dbind (loads f r (snd x)) (fun y => DOk (fst x :: fst y, snd y)))
  end.
(** MakeOpNode, expr.cc:97-108, or UnsafeMakeOperatorNode without attributes. *)
Definition make_node (o : nat) (ds : list node) : option node :=
  if infer_on then match make_op infer o ds with inr n => Some n | inl _ => None end else Some (Op o ANone ds).
(** DecodeOperatorNode, decoder.cc:247-272. *)
Definition decode_op (o : option nat) (is : list nat) (d : dst) : dres (node * dst) :=
  match o with
  | None => DErr
  | Some i =>
    dbind (load_value i d) (fun x =>
    match as_op (fst x) with
    | None => DErr
    | Some op => dbind (loads load_expr is (snd x)) (fun y => match make_node op (fst y) with Some n => DOk (n, snd y) | None => DErr end)
    end)
  end.
(** DecodeValueWithUnknownCodec, decoder.cc:316-332. *)
Fixpoint try_codecs (cs : list vdec) (p : vproto) (vs : list nat) (es : list node) : dres nat :=
  match cs with
  | [] => DErr
  | c :: r => match c p vs es with VOk v => DOk v | VErr => DErr | VNone => try_codecs r p vs es end
  end.
(** DecodeValue and DecodeValueWithKnownCodec, decoder.cc:274-314. *)
Definition decode_value (p : vproto) (d : dst) : dres (nat * dst) :=
  dbind (loads load_value (p_vals p) d) (fun x =>
  dbind (loads load_expr (p_exprs p) (snd x)) (fun y =>
  let d := snd y in
  dbind (match p_codec p with
         | Some c => match rd (d_results d) c with
                     | None => DErr
                     | Some r => match r_codec r with
                                 | None => DErr
                                 | Some f => match f p (fst x) (fst y) with VOk v => DOk v | _ => DErr end
                                 end
                     end
         | None => try_codecs (d_known d) p (fst x) (fst y)
         end) (fun v => DOk (v, d)))).
(** OnDecodingStep, decoder.cc:141-215. *)
Definition on_step (i : nat) (s : dstep) (d : dst) : dres dst :=
  if length (d_results d) <? i then DErr else
  let d := if i =? length (d_results d) then with_results (d_results d ++ [empty_result]) d else d in
  dbind (hints (s_hints s) d) (fun d =>
  match s_type s with
  | SLit None => DErr
  | SLit (Some k) => dbind (load_value k d) (fun x => store i (HasExpr (Lit (fst x))) (snd x))
  | SLeaf None => DErr
  | SLeaf (Some k) => store i (HasExpr (Leaf k)) d
  | SPlh None => DErr
  | SPlh (Some k) => store i (HasExpr (Plh k)) d
  | SOp o is => dbind (decode_op o is d) (fun x => store i (HasExpr (fst x)) (snd x))
  | SVal p => dbind (decode_value p d) (fun x => store i (HasVal (fst x)) (snd x))
  | SCodec n => match provider n with None => DErr | Some c => store_codec i c d end
  | SOutV k => dbind (load_value k d) (fun x =>
      DOk {| d_results := d_results (snd x); d_expected := d_expected (snd x); d_known := d_known (snd x); d_vals := d_vals (snd x) ++ [fst x]; d_exprs := d_exprs (snd x) |})
  | SOutE k => dbind (load_expr k d) (fun x =>
      DOk {| d_results := d_results (snd x); d_expected := d_expected (snd x); d_known := d_known (snd x); d_vals := d_vals (snd x); d_exprs := d_exprs (snd x) ++ [fst x] |})
  | SNone => DOk d
  end).
Fixpoint on_steps (l : list (nat * dstep)) (d : dst) : dres dst :=
  match l with [] => DOk d | (i, s) :: r => dbind (on_step i s d) (on_steps r) end.
Definition dst0 : dst := {| d_results := []; d_expected := []; d_known := []; d_vals := []; d_exprs := [] |}.
Definition finish (d : dst) : dres (list nat * list node) := DOk (d_vals d, d_exprs d).
Definition numbered {A} (l : list A) : list (nat * A) := combine (seq 0 (length l)) l.

(** ProcessContainerProto, container_proto.cc:40-86, and Decode, decode.cc:33-41. *)
Definition version_ok (v : option Z) : bool := match v with Some v => (v =? 1)%Z || (v =? 2)%Z | None => false end.
Definition container_steps (c : container) : list (nat * dstep) :=
  numbered (map (fun n => plain (SCodec n)) (c_codecs c)) ++ numbered (c_steps c) ++
  map (fun i => (0, plain (SOutV i))) (c_out_vals c) ++ map (fun i => (0, plain (SOutE i))) (c_out_exprs c).
Definition decode (c : container) : dres (list nat * list node) :=
  if version_ok (c_version c) then dbind (on_steps (container_steps c) dst0) finish else DErr.
(** ProcessRiegeliContainer, riegeli.cc:79-99: the state and the records that are left. *)
Fixpoint read_records (l : list dstep) (i : nat) (d : dst) : dres (dst * list dstep) :=
  match l with
  | [] => DErr
  | s :: r => match s_type s with
              | SNone => DOk (d, r)
              | _ => dbind (on_step i s d) (read_records r (S i))
              end
  end.
(** DecodeFromRiegeliData, riegeli.cc:129-141. *)
Definition decode_records (l : list dstep) : dres (list nat * list node) := dbind (read_records l 0 dst0) (fun x => finish (fst x)).
End serialization.
Arguments EOk {A}. Arguments EErr {A}. Arguments EUndef {A}. Arguments EFuel {A}.
Arguments DOk {A}. Arguments DErr {A}. Arguments DUndef {A}.
Arguments p_vals {X}. Arguments p_exprs {X}. Arguments p_codec {X}. Arguments p_ext {X}.
Arguments SLit {X}. Arguments SLeaf {X}. Arguments SPlh {X}. Arguments SOp {X}. Arguments SVal {X}. Arguments SCodec {X}. Arguments SOutV {X}. Arguments SOutE {X}. Arguments SNone {X}.
Arguments s_type {X}. Arguments s_hints {X}. Arguments plain {X}.
Arguments c_version {X}. Arguments c_codecs {X}. Arguments c_steps {X}. Arguments c_out_vals {X}. Arguments c_out_exprs {X}.
Arguments Ret {X}. Arguments Fail {X}. Arguments Call {X}.
Arguments e_steps {X}. Arguments e_vals {X}. Arguments e_exprs {X}. Arguments e_codecs {X}. Arguments e_nest {X}.
Arguments r_slot {X}. Arguments r_codec {X}. Arguments r_usage {X}.
Arguments d_results {X}. Arguments d_expected {X}. Arguments d_known {X}. Arguments d_vals {X}. Arguments d_exprs {X}.
