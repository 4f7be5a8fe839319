(** Model of arolla/naming/table.h, table.cc, protopath_id.cc and policy.cc.  A string is the
    list of its chars.  [None] from a loop: not enough rounds given, from the others:
    undefined behaviour or std::out_of_range. *)
From Coq Require Import Ascii String.
From Verif Require Import Base Strings_Model Repr_Model.
Local Open Scope Z_scope.
Local Open Scope list_scope.

Definition slash := 47.
(** table.h:35-41 *)
Definition size_column := bytes "@size". Definition ext_prefix := bytes "Ext::". Definition index_marker := bytes "[:]".
(** table.h:66-107 [PathSegment]; equality of the two fields *)
Record segment := mkSeg { field_name : list Z; is_index : bool }.
Definition seg_eqb (a b : segment) : bool := str_eqb (field_name a) (field_name b) && Bool.eqb (is_index a) (is_index b).
Definition path := list segment.
Fixpoint path_eqb (a b : path) : bool :=
  match a, b with
  | [], [] => true
  | x :: a', y :: b' => seg_eqb x y && path_eqb a' b'
  | _, _ => false
  end.

(** protopath_id.cc:36-42 [FormatAsProtopathId] *)
Definition format_protopath (p : path) : list Z :=
  List.concat (map (fun s => slash :: field_name s ++ if is_index s then index_marker else []) p).
(** absl::ConsumeSuffix *)
Definition consume_suffix (s suf : list Z) : list Z * bool :=
  if (Nat.leb (List.length suf) (List.length s)) && str_eqb (skipn (List.length s - List.length suf) s) suf
  then (firstn (List.length s - List.length suf) s, true) else (s, false).
(** protopath_id.cc:44-47 [ParsePathSegment] *)
Definition parse_segment (s : list Z) : segment := let '(n, i) := consume_suffix s index_marker in mkSeg n i.
(** string_view::find_first_of for one char *)
Fixpoint find_first (s : list Z) (c : Z) : option nat :=
  match s with [] => None | x :: t => if x =? c then Some O else let? i := find_first t c in Some (S i) end.
(** protopath_id.cc:62-70, the loop *)
Fixpoint parse_loop (fuel : nat) (s : list Z) : option path :=
  match s with
  | [] => Some []
  | _ =>
      match fuel with
      | O => None
      | S fu =>
          match find_first s slash with
          | None => Some [parse_segment s]
          | Some len => let? r := parse_loop fu (skipn (S len) s) in Some (parse_segment (firstn len s) :: r)
          end
      end
  end.
(** protopath_id.cc:49-72 [ParseProtopathId]; [inl tt] is the error *)
Definition parse_protopath (s : list Z) : option (unit + path) :=
  match s with
  | [] => Some (inr [])
  | c :: t => if negb (c =? slash) then Some (inl tt) else let? p := parse_loop (List.length t) t in Some (inr p)
  end.

(** table.cc:36-47 [FormatSegments] *)
Definition format_segments (show : bool) (p : path) : list Z :=
  fold_left (fun ret s => ret ++ [slash] ++ field_name s ++ if show && is_index s then index_marker else []) p [].
(** table.h:143-160, table.cc:56-76 [Child], [Column]: a segment, or a path one by one *)
Definition child1 (p : path) (s : segment) : path := p ++ [s].
Definition child (p suffix : path) : path := fold_left child1 suffix p.
(** table.cc:78-85 [Size] of a name and of a path *)
Definition size_of_name (p : path) (name : list Z) : path :=
  match name with [] => child1 p (mkSeg size_column false) | _ => child1 (child1 p (mkSeg name false)) (mkSeg size_column false) end.
Definition size_of_path (p c : path) : path := child1 (child p c) (mkSeg size_column false).

(** table.cc:115-117, 123-125: the loop that pops segments; the path is reversed *)
Fixpoint pop_to_index (r : path) : path :=
  match r with [] => [] | s :: t => if negb (is_index s) then pop_to_index t else r end.
(** table.cc:105-119 [TablePath::ParentIndexPath] *)
Definition table_parent_index (p : path) : option path :=
  match rev p with
  | [] => None
  | s :: t => Some (rev (pop_to_index (if is_index s then t else s :: t)))
  end.
(** table.cc:121-127 [ColumnPath::ParentIndexPath] *)
Definition column_parent_index (p : path) : path := rev (pop_to_index (rev p)).
(** absl::Span::subspan: out_of_range if the position is beyond the end *)
Definition subspan (p : path) (pos len : nat) : option path := if Nat.leb pos (List.length p) then Some (firstn len (skipn pos p)) else None.
(** table.cc:131-142 [RemovePrefixSegments] *)
Definition remove_prefix (p prefix : path) : option (unit + path) :=
  let n := List.length prefix in
  let? a := subspan p 0 n in
  if negb (path_eqb a prefix) then Some (inl tt)
  else let? b := subspan p n (List.length p) in Some (inr b).

(** absl::StrReplaceAll of one char *)
Definition replace_char (c : Z) (by_ : list Z) (s : list Z) : list Z := List.concat (map (fun x => if x =? c then by_ else [x]) s).
(** policy.cc:111-127 [SingleUnderscorePolicyImpl] *)
Definition single_underscore (p : path) : list Z :=
  match format_segments false p with [] => [] | _ :: t => replace_char slash [95] t end.
(** string_view::find_last_of for one char *)
Fixpoint find_last (s : list Z) (c : Z) : option nat :=
  match s with
  | [] => None
  | x :: t => match find_last t c with Some i => Some (S i) | None => if x =? c then Some O else None end
  end.
(** policy.cc:129-146 [LeafOnlyPolicyImpl]; npos + 1 is 0 *)
Definition leaf_only (p : path) : list Z :=
  let name := format_segments false p in
  if snd (consume_suffix name size_column) then name
  else skipn (match find_last name slash with Some i => S i | None => O end) name.
