(** Model of the texts of curves, arolla/pwlcurve/curves.cc.  A text is the list of its chars,
    a position an index (the code uses int: texts are shorter than 2^31).  [None]: undefined
    behaviour, or not enough rounds given to the loop. *)
From Coq Require Import Ascii String QArith.
From Verif Require Import Base Strings_Model Repr_Model Naming_Model Curve_Model.
Local Open Scope nat_scope.
Local Open Scope list_scope.

(** curves.h:30-43 [CurveType] *)
Inductive ctype := PWLCurve | LogPWLCurve | Log1pPWLCurve | Symlog1pPWLCurve.
(** curves.h:128-133 [CurveType_Name] *)
Definition type_name (t : ctype) : list Z :=
  match t with
  | PWLCurve => bytes "PWLCurve" | LogPWLCurve => bytes "LogPWLCurve"
  | Log1pPWLCurve => bytes "Log1pPWLCurve" | Symlog1pPWLCurve => bytes "Symlog1pPWLCurve"
  end.
(** curves.cc:84-93 [NewCurveTypeByName] *)
Definition type_by_name : list (list Z * ctype) :=
  map (fun t => (type_name t, t)) [PWLCurve; LogPWLCurve; Log1pPWLCurve; Symlog1pPWLCurve]
  ++ [(bytes "LogP1PWLCurve", Log1pPWLCurve); (bytes "SymmetricLogP1PWLCurve", Symlog1pPWLCurve)].
(** curves.cc:100-108 [ParseType] *)
Definition parse_type (s : list Z) : option ctype :=
  let? e := find (fun e => str_eqb (fst e) s) type_by_name in Some (snd e).

(** The errors, in the order of the code. *)
Inductive perr :=
| MissingOpeningCurlyForPoint | MissingSeparatorBetweenCoordinates | MissingClosingCurlyForPoint | InvalidDouble
| InvalidSeparatorChar | MissingOpenParen | UnknownCurveType | MissingOpeningCurlyForList
| MissingClosingCurlyOrSeparator | MissingClosingParen | TrailingJunk.

Definition lcurly := 123%Z. Definition rcurly := 125%Z. Definition lparen := 40%Z. Definition rparen := 41%Z.
Definition semicolon := 59%Z. Definition bar := 124%Z.

(** string_view::find of a char from a position; [None] is npos *)
Definition find_from (s : list Z) (c : Z) (pos : nat) : option nat := let? i := find_first (skipn pos s) c in Some (pos + i).
(** string_view::substr *)
Definition substr (s : list Z) (pos len : nat) : list Z := firstn len (skipn pos s).
(** pos < size && s[pos] == c *)
Definition char_is (s : list Z) (pos : nat) (c : Z) : option bool :=
  if pos <? List.length s then let? x := rd s pos in Some (x =? c)%Z else Some false.

Section Text.
  (** absl::SimpleAtod *)
  Variable atod : list Z -> option num.

  (** curves.cc:113-154 [ParsePoint]: the point and the new position *)
  Definition parse_point (sep : Z) (s : list Z) (pos : nat) : option (perr + point * nat) :=
    let? open := char_is s pos lcurly in
    if negb open then Some (inl MissingOpeningCurlyForPoint) else
    let pos := S pos in
    match find_from s sep pos with
    | None => Some (inl MissingSeparatorBetweenCoordinates)
    | Some separator =>
        match find_from s rcurly pos with
        | None => Some (inl MissingClosingCurlyForPoint)
        | Some closing =>
            if closing <? separator then Some (inl MissingSeparatorBetweenCoordinates) else
            match atod (substr s pos (separator - pos)) with
            | None => Some (inl InvalidDouble)
            | Some x =>
                match atod (substr s (S separator) (closing - separator - 1)) with
                | None => Some (inl InvalidDouble)
                | Some y => Some (inr (mkPt x y, S closing))
                end
            end
        end
    end.

  (** curves.cc:157-159 [IsValidSeparatorChar] *)
  Definition valid_separator (c : Z) : bool := (c =? semicolon)%Z || (c =? bar)%Z.

  (** curves.cc:192-198, the loop *)
  Fixpoint points_loop (fuel : nat) (sep : Z) (s : list Z) (pos : nat) (acc : list point) : option (perr + list point * nat) :=
    let? more := char_is s pos sep in
    if negb more then Some (inr (acc, pos)) else
    match fuel with
    | O => None
    | S fu =>
        let? r := parse_point sep s (S pos) in
        match r with inl e => Some (inl e) | inr (p, pos) => points_loop fu sep s pos (acc ++ [p]) end
    end.

  (** curves.cc:163-212 [Parse] *)
  Definition parse_curve (sep : Z) (s : list Z) : option (perr + ctype * list point) :=
    if negb (valid_separator sep) then Some (inl InvalidSeparatorChar) else
    match find_from s lparen 0 with
    | None => Some (inl MissingOpenParen)
    | Some pos =>
        match parse_type (substr s 0 pos) with
        | None => Some (inl UnknownCurveType)
        | Some t =>
            let? open := char_is s (S pos) lcurly in
            if negb open then Some (inl MissingOpeningCurlyForList) else
            let? r := parse_point sep s (S (S pos)) in
            match r with
            | inl e => Some (inl e)
            | inr (p, pos) =>
                let? r := points_loop (List.length s) sep s pos [p] in
                match r with
                | inl e => Some (inl e)
                | inr (ps, pos) =>
                    let? ok := (if pos + 2 =? List.length s then
                                  let? a := rd s pos in let? b := rd s (pos + 1) in Some ((a =? rcurly)%Z && (b =? rparen)%Z)
                                else Some false) in
                    if ok then Some (inr (t, ps)) else
                    let? end1 := (if pos =? List.length s then Some true else let? a := rd s pos in Some (negb (a =? rcurly)%Z)) in
                    if end1 then Some (inl MissingClosingCurlyOrSeparator) else
                    let? end2 := (if S pos =? List.length s then Some true else let? a := rd s (S pos) in Some (negb (a =? rparen)%Z)) in
                    if end2 then Some (inl MissingClosingParen) else Some (inl TrailingJunk)
                end
            end
        end
    end.

  (** curves.cc:220-233 [FindSeparatorUsed]; a char is between -128 and 127 *)
  Fixpoint separator_loop (allowed : list Z) (s : list Z) (used : Z) : Z + Z :=
    match allowed with
    | [] => inr used
    | c :: t =>
        if negb (existsb (Z.eqb c) s) then separator_loop t s used
        else if (used =? -1)%Z then separator_loop t s c else inl (-1)%Z
    end.
  Definition find_separator_used (allowed s : list Z) : Z :=
    match allowed with
    | [] => (-1)%Z
    | first :: _ =>
        match separator_loop allowed s (-1)%Z with
        | inl r => r
        | inr used => if (used =? -1)%Z then first else used
        end
    end.

  (** The library functions of the hooks *)
  Variables log log1p : num -> num.
  Definition hook_of (t : ctype) : hook :=
    match t with
    | PWLCurve => identity_hook | LogPWLCurve => log_hook log
    | Log1pPWLCurve => log1p_hook log1p | Symlog1pPWLCurve => symlog1p_hook log1p
    end.
  (** A curve keeps its type and points; curves.cc:737-757 [NewCurve] *)
  Record typed_curve := mkTC { tc_type : ctype; tc_points : list point; tc_curve : curve }.
  Definition new_curve (t : ctype) (ps : list point) : option (unit + typed_curve) :=
    let? r := build (hook_of t) ps in
    match r with inl e => Some (inl e) | inr c => Some (inr (mkTC t ps c)) end.
  (** curves.cc:759-766 [NewCurveWithSeparator] *)
  Definition new_curve_with_separator (sep : Z) (s : list Z) : option (unit + typed_curve) :=
    let? r := parse_curve sep s in
    match r with inl _ => Some (inl tt) | inr (t, ps) => new_curve t ps end.
  (** curves.cc:768-770 *)
  Definition new_curve_of_text (s : list Z) : option (unit + typed_curve) := new_curve_with_separator semicolon s.
  (** curves.cc:772-800 [NewCurve] of coordinates *)
  Definition new_curve_of_coordinates (t : ctype) (xs ys : list num) : option (unit + typed_curve) :=
    if negb (List.length xs =? List.length ys) then Some (inl tt) else
    let? ps := fold_left (fun acc i => let? ps := acc in let? x := rd xs i in let? y := rd ys i in Some (ps ++ [mkPt x y])) (seq 0 (List.length xs)) (Some []) in
    new_curve t ps.
  (** curves.cc:802-810 [NewCurveWithAllowedSeparators] *)
  Definition new_curve_with_allowed (allowed s : list Z) : option (unit + typed_curve) :=
    let c := find_separator_used allowed s in
    if (c =? -1)%Z then Some (inl tt) else new_curve_with_separator c s.

  (** DoubleToStringConverter::ToShortest *)
  Variable to_shortest : num -> list Z.
  (** curves.cc:56-69 [PointToString] *)
  Definition point_to_string (p : point) : list Z := lcurly :: to_shortest (px p) ++ semicolon :: to_shortest (py p) ++ [rcurly].
  (** absl::StrJoin *)
  Fixpoint join (sep : list Z) (l : list (list Z)) : list Z :=
    match l with [] => [] | [x] => x | x :: t => x ++ sep ++ join sep t end.
  (** curves.cc:813-821 [ToString] *)
  Definition to_string (c : typed_curve) : list Z :=
    type_name (tc_type c) ++ [lparen; lcurly] ++ join [semicolon] (map point_to_string (tc_points c)) ++ [rcurly; rparen].
  (** curves.cc:452-460 [PWLCurveTmpl::Eval], of a curve that keeps its type; [lb] is
      std::lower_bound *)
  Definition eval_typed (lb : list bool -> nat) (c : typed_curve) (x : num) : option num := eval lb (hook_of (tc_type c)) (tc_curve c) x.
End Text.
