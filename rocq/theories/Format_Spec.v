(** What strings.format is meant to do, independent of the code. *)
From Coq Require Import ZArith.
From Verif Require Import Base Strings_Spec Format_Model.
Local Open Scope Z_scope.

(** A format is a sequence of chars to copy and of arguments (name and format of the value). *)
Definition item : Type := Z + (str * str).
(** How a format is written: braces are doubled, an argument is {name} or {name:format}. *)
Inductive writes : str -> list item -> Prop :=
| w_nil : writes [] []
| w_chr c s r : c <> 123 -> c <> 125 -> writes s r -> writes (c :: s) (inl c :: r)
| w_open s r : writes s r -> writes (123 :: 123 :: s) (inl 123 :: r)
| w_close s r : writes s r -> writes (125 :: 125 :: s) (inl 125 :: r)
| w_arg n s r : identifier n -> writes s r -> writes (123 :: n ++ 125 :: s) (inr (n, []) :: r)
| w_argf n f s r : identifier n -> ~ In 125 f -> writes s r ->
    writes (123 :: (n ++ 58 :: f) ++ 125 :: s) (inr (n, f) :: r).
(** The text with its braces doubled *)
Fixpoint escape (t : str) : str :=
  match t with
  | [] => []
  | c :: r => if (c =? 123) || (c =? 125) then c :: c :: escape r else c :: escape r
  end.

(** The names in a comma-separated list; no names in the empty text. *)
Definition named (text : str) (names : list str) : Prop :=
  (text = [] /\ names = []) \/
  (text <> [] /\ names <> [] /\ Forall (fun n => ~ In 44 n) names /\ text = join [44] names).

Section Values.
Variable val : Type.
Variable kind_of : val -> kind.
Variables bytes_of repr strcat : val -> str.
Variable untyped : str -> val -> option str.
Definition floating (k : kind) : Prop := k = KFloat \/ k = KDouble \/ k = KWeak.
Definition integral (k : kind) : Prop := k = KInt32 \/ k = KInt64.
(** The text of a value without a format *)
Inductive plain : val -> str -> Prop :=
| p_bytes v : kind_of v = KBytes -> plain v (bytes_of v)
| p_repr v : kind_of v = KInt32 \/ kind_of v = KFloat \/ kind_of v = KBool -> plain v (repr v)
| p_strcat v : kind_of v = KInt64 \/ kind_of v = KDouble \/ kind_of v = KWeak -> plain v (strcat v).
(** The text of a value: numbers take printf formats; the conversion may be left out. *)
Inductive shows : val -> str -> str -> Prop :=
| sh_plain v o : plain v o -> shows v [] o
| sh_v v o : plain v o -> shows v [118] o
| sh_conv v f c o : letter c -> f ++ [c] <> [118] -> floating (kind_of v) \/ integral (kind_of v) ->
    untyped (37 :: f ++ [c]) v = Some o -> shows v (f ++ [c]) o
| sh_float v f c o : ~ letter c -> floating (kind_of v) ->
    untyped (37 :: f ++ [c; 102]) v = Some o -> shows v (f ++ [c]) o
| sh_int v f c o : ~ letter c -> integral (kind_of v) ->
    untyped (37 :: f ++ [c; 100]) v = Some o -> shows v (f ++ [c]) o.
Inductive renders (names : list str) (vals : list val) : list item -> str -> Prop :=
| r_nil : renders names vals [] []
| r_chr c r o : renders names vals r o -> renders names vals (inl c :: r) (c :: o)
| r_arg i n f v t r o : nth_error names i = Some n -> nth_error vals i = Some v -> shows v f t ->
    renders names vals r o -> renders names vals (inr (n, f) :: r) (t ++ o).
(** The whole operation *)
Definition formatted (spec arg_names : str) (vals : list val) (out : str) : Prop :=
  exists names items, named arg_names names /\ NoDup names /\ length names = length vals /\
    writes spec items /\ renders names vals items out.
End Values.
