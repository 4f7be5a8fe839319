(** Bitmask evaluation of decision trees.
    arolla/decision_forest/pointwise_evaluation/{oblivious.cc, bitmask_builder.cc,
    bitmask_builder.h, bitmask_eval.cc, bitmask_eval.h}. *)
From Verif Require Import Base Bits_Model Forest_Model.

Definition obind {A B} (x : outcome A) (f : A -> outcome B) : outcome B :=
  match x with Done a => f a | OutOfFuel => OutOfFuel | OutOfBounds => OutOfBounds end.
Definition oopt {A} (x : option A) : outcome A := match x with Some a => Done a | None => OutOfBounds end.

(** ** Library functions with results the standard leaves open: std::sort, the iteration
    order of a hash map and std::upper_bound (of a range that may be not partitioned; the
    predicate is the negation of comp(value, element)). *)
Record library := {
  l_sort : forall E, (E -> E -> bool) -> list E -> list E;
  l_iter : forall E, list E -> list E;
  l_upper : forall E, (E -> bool) -> list E -> nat }.

Section bitmask.
Variable V : Type.
Variable vo : vops V.
Variable lib : library.

(** ** ToObliviousTree, oblivious.cc:31-103.  The result [None] is std::nullopt. *)
Record otree := { ot_sub : Z; ot_layers : list cond; ot_adj : list V }.
(** IsPowerOf2, line 31 (0 - 1 wraps in C++ and saturates here, with the same result). *)
Definition is_pow2 (n : nat) : bool := (N.land (N.of_nat n) (N.of_nat n - 1) =? 0)%N.
(** __builtin_ctz takes 32 bits and is undefined for 0. *)
Definition ctz32 (n : nat) : option nat := find_lsb 32 (N.land (N.of_nat n) (wones 32)).
(** [ceq] is the operator== of split_condition.h:70-72: identity of pointers, or Equals. *)
Variable ceq : cond -> cond -> bool.
(** process_node, lines 73-95: [Some None] is the result false. *)
Definition process_node (t : tree V) (depth : nat) (id : Z) (cur : nat) (st : list cond * list V) : option (option (list cond * list V)) :=
  let '(layers, adj) := st in
  if is_leaf id
  then if negb (cur =? depth) then Some None
       else let? a := zrd (t_adj t) (adjustment_index id) in Some (Some (layers, adj ++ [vmul vo a (t_weight t)]))
  else if depth <=? cur then Some None
       else let? n := zrd (t_nodes t) id in
            if length layers =? cur then Some (Some (layers ++ [n_cond n], adj))
            else let? c := rd layers cur in if negb (ceq c (n_cond n)) then Some None else Some (Some (layers, adj)).
(** TraverseTree, lines 40-58; the top of the stack is the head of the list. *)
Fixpoint traverse (t : tree V) (depth fuel : nat) (stack : list (Z * nat)) (st : list cond * list V) : outcome (option (list cond * list V)) :=
  match stack with
  | [] => Done (Some st)
  | (id, cur) :: rest =>
    match fuel with
    | 0 => OutOfFuel
    | S k =>
      match process_node t depth id cur st with
      | None => OutOfBounds
      | Some None => Done None
      | Some (Some st') =>
        if is_leaf id then traverse t depth k rest st'
        else match zrd (t_nodes t) id with
             | None => OutOfBounds
             | Some n => traverse t depth k ((n_false n, S cur) :: (n_true n, S cur) :: rest) st'
             end
      end
    end
  end.
Definition to_oblivious (fuel : nat) (t : tree V) : outcome (option otree) :=
  let region_count := length (t_adj t) in
  if negb (is_pow2 region_count) then Done None
  else obind (oopt (if region_count =? 0 then Some 0 else ctz32 region_count)) (fun depth =>
       obind (traverse t depth fuel [(root t, 0)] ([], [])) (fun r =>
       Done (option_map (fun st => {| ot_sub := t_sub t; ot_layers := fst st; ot_adj := snd st |}) r))).

(** ** BitmaskBuilder::AddSmallTree, bitmask_builder.cc:130-166. *)
Record masked := { m_sub : Z; m_splits : list (N * cond); m_adj : list V }.
Fixpoint dfs (t : tree V) (fuel : nat) (id : Z) (adj : list V) (sp : list (N * cond)) : outcome (list V * list (N * cond) * N) :=
  if is_leaf id
  then obind (oopt (zrd (t_adj t) (adjustment_index id))) (fun a =>
       obind (oopt (wshl 64 1 (length adj))) (fun m =>
       Done (adj ++ [vmul vo a (t_weight t)], sp, m)))
  else match fuel with
       | 0 => OutOfFuel
       | S k =>
         obind (oopt (zrd (t_nodes t) id)) (fun n =>
         obind (dfs t k (n_false n) adj sp) (fun '(adj1, sp1, mf) =>
         obind (dfs t k (n_true n) adj1 sp1) (fun '(adj2, sp2, mt) =>
         Done (adj2, sp2 ++ [(mf, n_cond n)], N.lor mf mt))))
       end.
(** The builder: bitmask_builder.h:92-99. *)
Record bbuilder := { bb_masked : list (nat * masked); bb_oblivious : list (nat * otree); bb_wide : bool }.
Definition new_bbuilder : bbuilder := {| bb_masked := []; bb_oblivious := []; bb_wide := false |}.
Definition add_small (fuel : nat) (b : bbuilder) (t : tree V) (g : nat) : outcome bbuilder :=
  obind (dfs t fuel (root t) [] []) (fun '(adj, sp, _) =>
  Done {| bb_masked := bb_masked b ++ [(g, {| m_sub := t_sub t; m_splits := sp; m_adj := adj |})];
          bb_oblivious := bb_oblivious b; bb_wide := bb_wide b || (32 <? length (t_adj t)) |}).
(** AddObliviousTree, lines 168-173. *)
Definition add_oblivious (b : bbuilder) (o : otree) (g : nat) : bbuilder :=
  {| bb_masked := bb_masked b; bb_oblivious := bb_oblivious b ++ [(g, o)];
     bb_wide := bb_wide b || (32 <? length (ot_layers o)) |}.
(** IsSplitNodeSupported, lines 122-128. *)
Definition supported (c : cond) : bool := match c with Interval _ _ _ => true | SetI64 _ _ _ => true | _ => false end.

(** ** SplitsBuildingData, bitmask_builder.cc:175-281.  The parallel vectors of metas and
    thresholds are one list of pairs; the map from a value to its metas is the list of
    the push_backs; the hash maps by input are association lists. *)
Definition meta : Type := (N * nat)%type.
Record isplits := { s_left : list (f32 * meta); s_right : list (f32 * meta); s_eq : list (f32 * meta); s_range : list (f32 * f32 * meta) }.
Record ssplits := { s_metas : list (Z * meta); s_default : list meta }.
Record sdata := { by_interval : list (nat * isplits); by_set : list (nat * ssplits) }.
Fixpoint upsert {B} (i : nat) (e : B) (f : B -> B) (m : list (nat * B)) : list (nat * B) :=
  match m with
  | [] => [(i, f e)]
  | (j, x) :: r => if i =? j then (j, f x) :: r else (j, x) :: upsert i e f r
  end.
Definition no_isplits : isplits := {| s_left := []; s_right := []; s_eq := []; s_range := [] |}.
Definition no_ssplits : ssplits := {| s_metas := []; s_default := [] |}.
(** AddSplit, lines 228-280, for masks of [w] bits.  [None] is the error status. *)
Definition add_isplit (l r : f32) (m : meta) (s : isplits) : isplits :=
  if feq l fninf then {| s_left := s_left s ++ [(r, m)]; s_right := s_right s; s_eq := s_eq s; s_range := s_range s |}
  else if feq r finf then {| s_left := s_left s; s_right := s_right s ++ [(l, m)]; s_eq := s_eq s; s_range := s_range s |}
  else if feq l r then {| s_left := s_left s; s_right := s_right s; s_eq := s_eq s ++ [(l, m)]; s_range := s_range s |}
  else {| s_left := s_left s; s_right := s_right s; s_eq := s_eq s; s_range := s_range s ++ [(l, r, m)] |}.
Definition add_ssplit (vs : list Z) (missed : bool) (m : meta) (s : ssplits) : ssplits :=
  {| s_metas := s_metas s ++ map (fun v => (v, m)) vs; s_default := if missed then s_default s ++ [m] else s_default s |}.
Definition add_split (w : nat) (split : N * cond) (tree_id : nat) (d : sdata) : option sdata :=
  let m := (N.land (fst split) (wones w), tree_id) in
  match snd split with
  | Interval i l r => Some {| by_interval := upsert i no_isplits (add_isplit l r m) (by_interval d); by_set := by_set d |}
  | SetI64 i vs missed => Some {| by_interval := by_interval d; by_set := upsert i no_ssplits (add_ssplit vs missed m) (by_set d) |}
  | _ => None
  end.

(** ** The evaluator: bitmask_eval.h:112-191. *)
Record espl := { e_metas : list meta; e_ranges : list (f32 * (nat * nat)) }.
Record esplits := { e_left : list (nat * list (f32 * meta)); e_right : list (nat * list (f32 * meta));
                    e_eq : list (nat * espl); e_range : list (nat * list (f32 * f32 * meta)); e_set : list (nat * ssplits) }.
Record edata := { d_offsets : list nat; d_groups : list (nat * nat * (nat * nat)); d_adj : list V; d_splits : esplits; d_width : nat }.

(** SortAndDeduplicate, bitmask_builder.cc:55-86.  The vector of ids is replaced by the
    pairs they stand for. *)
Definition key_lt (key : f32 -> f32) (a b : f32 * meta) : bool :=
  flt (key (fst a)) (key (fst b)) || (negb (flt (key (fst b)) (key (fst a))) && (snd (snd a) <? snd (snd b))).
Definition key_eq (key : f32 -> f32) (a b : f32 * meta) : bool :=
  feq (key (fst a)) (key (fst b)) && (snd (snd a) =? snd (snd b)).
Fixpoint dedup (key : f32 -> f32) (last : f32 * meta) (l : list (f32 * meta)) : list (f32 * meta) :=
  match l with
  | [] => [last]
  | x :: r => if key_eq key last x
              then dedup key (fst last, (N.lor (fst (snd last)) (fst (snd x)), snd (snd last))) r
              else last :: dedup key x r
  end.
Definition sort_dedup (key : f32 -> f32) (l : list (f32 * meta)) : list (f32 * meta) :=
  if length l <? 2 then l
  else match l_sort lib _ (key_lt key) l with [] => [] | x :: r => dedup key x r end.
(** FillValue2Range, lines 88-101; the newest entry of the hash map comes first. *)
Fixpoint fill_ranges (i : nat) (last : nat) (lastv : f32) (l : list f32) (acc : list (f32 * (nat * nat))) : list (f32 * (nat * nat)) :=
  match l with
  | [] => (lastv, (last, i)) :: acc
  | x :: r => if negb (feq x lastv) then fill_ranges (S i) i x r ((lastv, (last, i)) :: acc)
              else fill_ranges (S i) last lastv r acc
  end.
Definition value2range (l : list f32) : list (f32 * (nat * nat)) :=
  match l with [] => [] | x :: _ => fill_ranges 0 0 x l [] end.
(** SortSplits, lines 103-118, and the loops at the end of BuildImpl, lines 359-382. *)
Definition nonempty {A} (l : list A) : bool := match l with [] => false | _ => true end.
Definition finish (d : sdata) : esplits :=
  let its := l_iter lib _ (by_interval d) in
  {| e_left := filter (fun x => nonempty (snd x)) (map (fun '(i, s) => (i, sort_dedup fneg (s_left s))) its);
     e_right := filter (fun x => nonempty (snd x)) (map (fun '(i, s) => (i, sort_dedup (fun x => x) (s_right s))) its);
     e_eq := filter (fun x => nonempty (e_ranges (snd x)))
       (map (fun '(i, s) => let l := sort_dedup (fun x => x) (s_eq s) in (i, {| e_metas := map snd l; e_ranges := value2range (map fst l) |})) its);
     e_range := filter (fun x => nonempty (snd x)) (map (fun '(i, s) => (i, l_sort lib _ (fun a b => flt (fst (fst a)) (fst (fst b))) (s_range s))) its);
     e_set := l_iter lib _ (by_set d) |}.

(** ** Build, bitmask_builder.cc:283-395. *)
Record bstate := { b_offsets : list nat; b_adjs : list V; b_data : sdata }.
Fixpoint add_splits (w : nat) (sp : list (N * cond)) (tree_id : nat) (d : sdata) : option sdata :=
  match sp with [] => Some d | s :: r => let? d' := add_split w s tree_id d in add_splits w r tree_id d' end.
(** Build_MaskedTree, lines 283-296. *)
Definition build_masked (w : nat) (m : masked) (b : bstate) : option bstate :=
  let? d := add_splits w (m_splits m) (length (b_offsets b)) (b_data b) in
  Some {| b_offsets := b_offsets b ++ [length (b_adjs b)]; b_adjs := b_adjs b ++ m_adj m; b_data := d |}.
(** Build_ObliviousTree, lines 298-315. *)
Fixpoint layer_masks (mask : N) (layers : list cond) : list (N * cond) :=
  match layers with [] => [] | c :: r => (N.shiftr mask 1, c) :: layer_masks (N.shiftr mask 1) r end.
Definition build_oblivious (w : nat) (o : otree) (b : bstate) : option bstate :=
  let? d := add_splits w (layer_masks (N.land (N.of_nat (length (ot_adj o))) (wones w)) (ot_layers o)) (length (b_offsets b)) (b_data b) in
  Some {| b_offsets := b_offsets b ++ [length (b_adjs b)]; b_adjs := b_adjs b ++ ot_adj o; b_data := d |}.
(** The while loops, lines 344-347 and 350-354: the trees of the group at the front. *)
Fixpoint take_group {T} (add : T -> bstate -> option bstate) (g : nat) (l : list (nat * T)) (b : bstate) : option (list (nat * T) * bstate) :=
  match l with
  | [] => Some ([], b)
  | (h, x) :: r => if h =? g then let? b' := add x b in take_group add g r b' else Some (l, b)
  end.
(** SortTreesByGroupAndSubmodel, lines 317-327. *)
Definition by_group {T} (sub : T -> Z) (a b : nat * T) : bool :=
  if fst a =? fst b then (sub (snd a) <? sub (snd b))%Z else fst a <? fst b.
(** The loop over groups, lines 340-357. *)
Fixpoint build_groups (w : nat) (gs : list nat) (ms : list (nat * masked)) (os : list (nat * otree)) (b : bstate)
    (acc : list (nat * nat * (nat * nat))) : option (list (nat * nat * (nat * nat)) * bstate) :=
  match gs with
  | [] => Some (acc, b)
  | g :: r =>
    let? p := take_group (build_masked w) g ms b in
    let? q := take_group (build_oblivious w) g os (snd p) in
    build_groups w r (fst p) (fst q) (snd q)
      (acc ++ [((length (b_offsets b), length (b_offsets (snd p))), (length (b_offsets (snd p)), length (b_offsets (snd q))))])
  end.
(** BuildImpl, lines 329-385, and Build, lines 387-395, for [n] output slots.  The outer
    [None] is an error status, [Some None] is nullptr. *)
Definition build (n : nat) (bb : bbuilder) : option (option edata) :=
  if negb (nonempty (bb_masked bb)) && negb (nonempty (bb_oblivious bb)) then Some None
  else
    let w := if bb_wide bb then 64 else 32 in
    let ms := l_sort lib _ (by_group m_sub) (bb_masked bb) in
    let os := l_sort lib _ (by_group ot_sub) (bb_oblivious bb) in
    let? p := build_groups w (seq 0 n) ms os {| b_offsets := []; b_adjs := []; b_data := {| by_interval := []; by_set := [] |} |} [] in
    Some (Some {| d_offsets := b_offsets (snd p); d_groups := fst p; d_adj := b_adjs (snd p); d_splits := finish (b_data (snd p)); d_width := w |}).

(** ** Evaluation, bitmask_eval.cc.  Each Process function is given by the metas it
    applies, in order. *)
Definition float_input (fr : frame) (i : nat) (f : f32 -> list meta) : list meta :=
  match in_f32 fr i with Some v => if fnan v then [] else f v | None => [] end.
(** ProcessLeftSplits, lines 53-65; ProcessRightSplits, lines 67-79. *)
Definition process_left (fr : frame) (s : nat * list (f32 * meta)) : list meta :=
  float_input fr (fst s) (fun v => firstn (l_upper lib _ (fun x => negb (flt x v)) (map fst (snd s))) (map snd (snd s))).
Definition process_right (fr : frame) (s : nat * list (f32 * meta)) : list meta :=
  float_input fr (fst s) (fun v => firstn (l_upper lib _ (fun x => negb (flt v x)) (map fst (snd s))) (map snd (snd s))).
(** ProcessEqSplits, lines 81-93. *)
Definition process_eq (fr : frame) (s : nat * espl) : list meta :=
  float_input fr (fst s) (fun v =>
    match find (fun x => feq (fst x) v) (e_ranges (snd s)) with
    | Some (_, (lo, hi)) => firstn (hi - lo) (skipn lo (e_metas (snd s)))
    | None => []
    end).
(** ProcessRangeSplits, lines 95-107. *)
Fixpoint range_loop (v : f32) (l : list (f32 * f32 * meta)) : list meta :=
  match l with
  | [] => []
  | (lo, hi, m) :: r => if flt v lo then [] else if fle v hi then m :: range_loop v r else range_loop v r
  end.
Definition process_range (fr : frame) (s : nat * list (f32 * f32 * meta)) : list meta :=
  float_input fr (fst s) (fun v => range_loop v (snd s)).
(** ProcessSetOfValuesSplits, lines 109-129. *)
Definition process_set (fr : frame) (s : nat * ssplits) : list meta :=
  match in_i64 fr (fst s) with
  | Some v => map snd (filter (fun x => (fst x =? v)%Z) (s_metas (snd s)))
  | None => s_default (snd s)
  end.
(** FindTreeMasks, lines 131-150. *)
Definition active_metas (fr : frame) (e : esplits) : list meta :=
  flat_map (process_left fr) (e_left e) ++ flat_map (process_right fr) (e_right e) ++
  flat_map (process_eq fr) (e_eq e) ++ flat_map (process_range fr) (e_range e) ++ flat_map (process_set fr) (e_set e).
Fixpoint apply_masks (ms : list meta) (masks : list N) : option (list N) :=
  match ms with
  | [] => Some masks
  | (m, t) :: r => let? x := rd masks t in let? masks' := upd masks t (N.lor x m) in apply_masks r masks'
  end.
Definition find_tree_masks (fr : frame) (d : edata) : option (list N) :=
  apply_masks (active_metas fr (d_splits d)) (repeat 0%N (length (d_offsets d))).
(** IncrementalEval, lines 170-202, and InternalEval, lines 152-168. *)
Definition regular_leaf (w : nat) (mask : N) : option nat := find_lsb w (wnot w mask).
Definition leaf_value (d : edata) (masks : list N) (leaf : N -> option nat) (tree_id : nat) : option V :=
  let? off := rd (d_offsets d) tree_id in let? m := rd masks tree_id in let? k := leaf m in rd (d_adj d) (off + k).
Fixpoint unrolled (val : nat -> option V) (n : nat) (tree_id : nat) (r0 r1 : V) : option (V * V) :=
  match n with
  | 0 => Some (r0, r1)
  | S k => let? a := val tree_id in let? b := val (S tree_id) in unrolled val k (S (S tree_id)) (vadd vo r0 a) (vadd vo r1 b)
  end.
Definition sum_range (val : nat -> option V) (range : nat * nat) : option V :=
  let '(lo, hi) := range in
  let? p := (if (hi - lo) mod 2 =? 1
             then let? a := val lo in unrolled val ((hi - lo) / 2) (S lo) (vzero vo) (vadd vo (vzero vo) a)
             else unrolled val ((hi - lo) / 2) lo (vzero vo) (vzero vo)) in
  Some (vadd vo (fst p) (snd p)).
Fixpoint eval_groups (d : edata) (masks : list N) (gs : list (nat * nat * (nat * nat))) (out : list V) : option (list V) :=
  match gs, out with
  | [], _ => Some out
  | (reg, obl) :: r, x :: out' =>
    let? a := sum_range (leaf_value d masks (regular_leaf (d_width d))) reg in
    let? b := sum_range (leaf_value d masks (fun m => Some (N.to_nat m))) obl in
    let? rest := eval_groups d masks r out' in
    Some (vrnd vo (vadd vo x (vadd vo a b)) :: rest)
  | _ :: _, [] => None
  end.
(** [out] are the values of the output slots, which are distinct. *)
Definition incremental_eval (d : edata) (fr : frame) (out : list V) : option (list V) :=
  let? masks := find_tree_masks fr d in eval_groups d masks (d_groups d) out.
End bitmask.
