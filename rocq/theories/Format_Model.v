(** Model of strings.format, arolla/qexpr/operators/strings/format.cc.  A string is the list of its
    chars.  Errors carry only their kind.  strings.printf is not modelled: it hands everything over
    to absl::FormatUntyped. *)
From Coq Require Import ZArith.
From Verif Require Import Base Strings_Model.
Local Open Scope Z_scope.

Definition str := list Z.
Definition ch_lb := 123. Definition ch_rb := 125. Definition ch_colon := 58. Definition ch_comma := 44.
Inductive kind := KInt32 | KInt64 | KFloat | KDouble | KWeak | KBytes | KBool.
Inductive ferr := EDup | ECount | ESpec | EArg | EName | EFormat | EUnsupported.

(** string_view::find *)
Fixpoint find (c : Z) (s : str) : option nat :=
  match s with
  | [] => None
  | x :: t => if x =? c then Some 0%nat else option_map S (find c t)
  end.

(** format.cc:276-300: the texts around the arguments ([texts ++ [cur]]) and the arguments.  The
    loop runs at most once per char ([fuel]). *)
Fixpoint scan (fuel : nat) (spec : str) (texts : list str) (cur : str) (args : list str)
  : ferr + (list str * list str) :=
  match fuel with
  | O => inl ESpec
  | S fuel =>
    match spec with
    | [] => inr (texts ++ [cur], args)
    | c :: t =>
      if c =? ch_lb then
        if match t with c2 :: _ => c2 =? ch_lb | [] => false end
        then scan fuel (tl t) texts (cur ++ [ch_lb]) args
        else match find ch_rb t with
             | None => inl ESpec
             | Some n => scan fuel (skipn (n + 1) t) (texts ++ [cur]) [] (args ++ [firstn n t])
             end
      else if c =? ch_rb then
        if match t with c2 :: _ => c2 =? ch_rb | [] => false end
        then scan fuel (tl t) texts (cur ++ [ch_rb]) args
        else inl ESpec
      else scan fuel t texts (cur ++ [c]) args
    end
  end.
(** format.cc:310-322, one argument *)
Definition split_arg (arg : str) : ferr + (str * str) :=
  let name := match find ch_colon arg with Some n => firstn n arg | None => arg end in
  let rest := skipn (length name) arg in
  if is_identifier name then inr (name, match rest with [] => [] | _ :: r => r end) else inl EArg.
Fixpoint split_args (args : list str) : ferr + list (str * str) :=
  match args with
  | [] => inr []
  | a :: t =>
    match split_arg a with
    | inl e => inl e
    | inr x => match split_args t with inl e => inl e | inr r => inr (x :: r) end
    end
  end.
(** format.cc:256-325 [PyFormatParser::Parse] *)
Definition parse (spec : str) : ferr + (list str * list (str * str)) :=
  match scan (S (length spec)) spec [] [] [] with
  | inl e => inl e
  | inr (texts, args) =>
    match split_args args with inl e => inl e | inr r => inr (texts, r) end
  end.

(** absl::StrSplit by a char *)
Fixpoint split_on (c : Z) (s : str) : list str :=
  match s with
  | [] => [[]]
  | x :: t => if x =? c then [] :: split_on c t
              else match split_on c t with [] => [[x]] | p :: ps => (x :: p) :: ps end
  end.
(** absl::flat_hash_map from names to positions *)
Fixpoint lookup (n : str) (m : list (str * nat)) : option nat :=
  match m with
  | [] => None
  | (k, i) :: t => if str_eqb k n then Some i else lookup n t
  end.
(** format.cc:454-467 *)
Fixpoint index_loop (names : list str) (m : list (str * nat)) (count : nat)
  : ferr + (list (str * nat) * nat) :=
  match names with
  | [] => inr (m, count)
  | n :: t => match lookup n m with
              | Some _ => inl EDup
              | None => index_loop t (m ++ [(n, count)]) (S count)
              end
  end.

Section Values.
(** A value of a supported type.  [bytes_of]: the content of bytes; [repr], [strcat]: the texts
    given by TypedRef::Repr and absl::StrCat; [untyped]: absl::FormatUntyped with one argument. *)
Variable val : Type.
Variable kind_of : val -> kind.
Variables bytes_of repr strcat : val -> str.
Variable untyped : str -> val -> option str.

(** format.cc:410-431 [FormatTypeReferenceNoFormat] *)
Definition show_plain (v : val) : str :=
  match kind_of v with
  | KBytes => bytes_of v
  | KInt32 | KFloat | KBool => repr v
  | KInt64 | KDouble | KWeak => strcat v
  end.
(** format.cc:360-408 [FormatTypeReference] *)
Definition show (v : val) (fmt : str) : ferr + str :=
  if match fmt with [] => true | _ => false end || str_eqb fmt [118] then inr (show_plain v)
  else
    let has_suffix := is_alpha (last fmt 0) in
    let try (s : str) := match untyped s v with Some r => inr r | None => inl EFormat end in
    match kind_of v with
    | KFloat | KDouble | KWeak => try (37 :: fmt ++ (if has_suffix then [] else [102]))
    | KInt32 | KInt64 => try (37 :: fmt ++ (if has_suffix then [] else [100]))
    | KBytes | KBool => inl EUnsupported
    end.
(** format.cc:333-349 *)
Fixpoint process_loop (m : list (str * nat)) (vals : list val) (args : list (str * str))
    (texts : list str) (result : str) : ferr + str :=
  match args with
  | [] => inr result
  | (n, f) :: t =>
    match lookup n m with
    | None => inl EName
    | Some i =>
      match rd vals i with
      | None => inl EName (* not reached: every index is below the number of values *)
      | Some v =>
        match show v f with
        | inl e => inl e
        | inr txt => process_loop m vals t (tl texts) (result ++ txt ++ hd [] texts)
        end
      end
    end
  end.
(** format.cc:329-350 [PyFormatParser::Process] *)
Definition process m vals (p : list str * list (str * str)) : ferr + str :=
  process_loop m vals (snd p) (tl (fst p)) (hd [] (fst p)).

(** format.cc:451-483 [FormatBoundOperator::Run] *)
Definition format (spec arg_names : str) (vals : list val) : ferr + str :=
  match index_loop (match arg_names with [] => [] | _ => split_on ch_comma arg_names end) [] 0 with
  | inl e => inl e
  | inr (m, count) =>
    if (count =? length vals)%nat then
      match parse spec with
      | inl e => inl e
      | inr p => process m vals p
      end
    else inl ECount
  end.

(** An input slot: a value, and for an optional type whether it is present. *)
Definition input (A : Type) : Type := option bool * A.
(** format.cc:145-173 [ReadFormatSpecSlot], [ReadValueArgSlots]: the presence slots *)
Definition presence {A} (x : input A) : list bool := match fst x with Some b => [b] | None => [] end.
(** format.cc:498-527 [FormatOperator::DoBind] and qexpr/bound_operators.h:107-126
    [WhereAllBoundOperator::Run].  [inr None]: a missing value. *)
Definition run_op (spec : input str) (arg_names : str) (vals : list (input val)) : ferr + option str :=
  let conds := presence spec ++ flat_map presence vals in
  if forallb (fun b => b) conds then
    match format (snd spec) arg_names (map snd vals) with
    | inl e => inl e
    | inr out => inr (Some out)
    end
  else inr None.
End Values.

(** The type of an input: whether it is optional, and the type of the value *)
Inductive base := BKind (k : kind) | BText | BOther (n : nat).
Definition qtype : Type := bool * base.
(** format.cc:101-118 [GetWrapValueFn] *)
Definition wrappable (b : base) : bool := match b with BKind _ => true | _ => false end.
(** format.cc:562-594 [FormatOperatorFamily::DoGetOperator]: the type of the result; [None]: no
    such operator.  The check of the requested output type is left out. *)
Definition get_operator (types : list qtype) : option qtype :=
  match types with
  | t0 :: t1 :: rest =>
    match snd t0, t1 with
    | BKind KBytes, (false, BText) =>
      if forallb (fun t => wrappable (snd t)) rest
      then Some (fst t0 || existsb fst rest, BKind KBytes)
      else None
    | _, _ => None
    end
  | _ => None
  end.
