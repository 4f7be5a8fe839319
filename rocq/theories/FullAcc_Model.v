(** Model of the accumulators of
    arolla/qexpr/operators/aggregation/group_op_accumulators.h that give one result
    per value after seeing the whole group.  Arguments of different types are values
    of one type [C] with functions that read them.  Conventions as in Accum_Model:
    reading outside a vector gives an arbitrary [oob], writing outside one ends in
    an arbitrary state [ub]. *)
From Verif Require Import Base GroupOps_Model Accum_Model.

(** std::vector::resize *)
Definition resize {A} (n : nat) (x : A) (l : list A) : list A := firstn n l ++ repeat x (n - length l).

(** ** 770-855 [OrdinalRankAccumulator] *)
Record elem (T : Type) := mkEl { el_val : T; el_tie : Z; el_pos : nat }.
Arguments mkEl {T}. Arguments el_val {T}. Arguments el_tie {T}. Arguments el_pos {T}.
Record rank_st (E : Type) := mkRank { rk_ret : nat; rk_elems : list E; rk_ranks : list Z }.
Arguments mkRank {E}. Arguments rk_ret {E}. Arguments rk_elems {E}. Arguments rk_ranks {E}.

Section Ordinal.
Context {C T : Type}.
Variables (o : ord T) (val : C -> T) (tie : C -> Z).
(** std::sort(first, last, comp) *)
Variable sort : (elem T -> elem T -> bool) -> list (elem T) -> list (elem T).
Variables (descending : bool) (oob : Z) (ub : rank_st (elem T)).

(** 822-827 AscendingComparator; std::tie compares lexicographically *)
Definition asc_lt (a b : elem T) : bool :=
  match cmp o (el_val a) (el_val b) with
  | Some Lt => true
  | Some Eq => match (el_tie a ?= el_tie b)%Z with Lt => true | Eq => el_pos a <? el_pos b | Gt => false end
  | _ => false
  end.
(** 829-849 DescendingComparator: (a.value, b.tie_breaker, b.position) > (b.value,
    a.tie_breaker, a.position) *)
Definition desc_lt (a b : elem T) : bool :=
  match cmp o (el_val a) (el_val b) with
  | Some Gt => true
  | Some Eq => match (el_tie b ?= el_tie a)%Z with Gt => true | Eq => el_pos a <? el_pos b | Lt => false end
  | _ => false
  end.
(** 809-812 *)
Fixpoint ordinal_ranks (es : list (elem T)) (current_rank : Z) (ranks : list Z) : option (list Z) :=
  match es with
  | [] => Some ranks
  | e :: t => let? ranks' := upd ranks (el_pos e) current_rank in ordinal_ranks t (current_rank + 1)%Z ranks'
  end.
(** 790-813 FinalizeFullGroup; std::stable_partition keeps the order on both sides *)
Definition ordinal_finalize (s : rank_st (elem T)) : rank_st (elem T) :=
  let ranks := resize (length (rk_elems s)) 0%Z (rk_ranks s) in
  let head := filter (fun e => negb (nan o (el_val e))) (rk_elems s) in
  let tail := filter (fun e => nan o (el_val e)) (rk_elems s) in
  let es := sort (if descending then desc_lt else asc_lt) head ++ tail in
  match ordinal_ranks es 0%Z ranks with
  | Some ranks' => mkRank (rk_ret s) es ranks'
  | None => ub
  end.
Definition ordinal_add (r : list (option C)) (s : rank_st (elem T)) : rank_st (elem T) :=
  match r with
  | [Some v; Some t] => mkRank (rk_ret s) (rk_elems s ++ [mkEl (val v) (tie t) (length (rk_elems s))]) (rk_ranks s)
  | _ => s
  end.
Definition rank_result {E} (s : rank_st E) : option Z * rank_st E :=
  (Some (nth (rk_ret s) (rk_ranks s) oob), mkRank (S (rk_ret s)) (rk_elems s) (rk_ranks s)).
Definition ordinal_rank_acc : accum (rank_st (elem T)) C C Z unit :=
  plain Full [false; false] (mkRank 0 [] []) (fun s => mkRank 0 [] (rk_ranks s)) ordinal_add ordinal_finalize rank_result.
End Ordinal.

(** ** 857-915 [DenseRankAccumulator], not cancelled *)
Section DenseRank.
Context {T : Type}.
Variable o : ord T.
Variable sort : (T * nat -> T * nat -> bool) -> list (T * nat) -> list (T * nat).
(** std::partition: the two sides, in any order *)
Variable partition : (T * nat -> bool) -> list (T * nat) -> list (T * nat) * list (T * nat).
Variables (descending : bool) (oob : Z) (ub : rank_st (T * nat)).

(** operator<, operator> of std::pair *)
Definition pair_lt (a b : T * nat) : bool :=
  match cmp o (fst a) (fst b) with Some Lt => true | Some Eq => snd a <? snd b | _ => false end.
Definition pair_gt (a b : T * nat) : bool :=
  match cmp o (fst a) (fst b) with Some Gt => true | Some Eq => snd b <? snd a | _ => false end.
(** 898-903 *)
Fixpoint dense_ranks (prev : T) (vs : list (T * nat)) (current_rank : Z) (ranks : list Z) : option (list Z) :=
  match vs with
  | [] => Some ranks
  | (v, p) :: t =>
    let r := if negb (o_eq o v prev) then (current_rank + 1)%Z else current_rank in
    let? ranks' := upd ranks p r in dense_ranks v t r ranks'
  end.
Definition dense_finalize (s : rank_st (T * nat)) : rank_st (T * nat) :=
  let ranks := resize (length (rk_elems s)) 0%Z (rk_ranks s) in
  let '(head, tail) := partition (fun e => negb (nan o (fst e))) (rk_elems s) in
  let vs := sort (if descending then pair_gt else pair_lt) head ++ tail in
  match match vs with
        | [] => Some ranks
        | (v, p) :: t => let? ranks' := upd ranks p 0%Z in dense_ranks v t 0%Z ranks'
        end with
  | Some ranks' => mkRank (rk_ret s) vs ranks'
  | None => ub
  end.
Definition dense_add (r : list (option T)) (s : rank_st (T * nat)) : rank_st (T * nat) :=
  match r with
  | [Some v] => mkRank (rk_ret s) (rk_elems s ++ [(v, length (rk_elems s))]) (rk_ranks s)
  | _ => s
  end.
Definition dense_rank_acc : accum (rank_st (T * nat)) T T Z unit :=
  plain Full [false] (mkRank 0 [] []) (fun s => mkRank 0 [] (rk_ranks s)) dense_add dense_finalize (rank_result oob).
End DenseRank.

(** ** 414-460 [InverseMappingAccumulator] (modelled in GroupOps_Model) without the
    type of parent arguments. *)
Definition inverse_mapping : accum im_state Z Z Z Z :=
  {| a_kind := a_kind inverse_mapping_acc; a_forward_id := a_forward_id inverse_mapping_acc; a_popts := [];
     a_copts := a_copts inverse_mapping_acc; a_empty := a_empty inverse_mapping_acc; a_reset := fun _ => a_reset inverse_mapping_acc [];
     a_add := a_add inverse_mapping_acc; a_finalize := a_finalize inverse_mapping_acc; a_result := a_result inverse_mapping_acc;
     a_status := a_status inverse_mapping_acc |}.

(** ** 541-592 [ArrayTakeOverAccumulator]; an OptionalValue<int64_t> is a flag and a
    value, [junk] the value of a missing one *)
Record take_st (T : Type) := mkTake { tk_ret : nat; tk_values : list (option T); tk_offsets : list (bool * Z); tk_status : option unit }.
Arguments mkTake {T}. Arguments tk_ret {T}. Arguments tk_values {T}. Arguments tk_offsets {T}. Arguments tk_status {T}.
Section Take.
Context {C T : Type}.
Variables (val : C -> T) (off : C -> Z) (junk : Z) (oob : option T).
Definition take_add (r : list (option C)) (s : take_st T) : take_st T :=
  match r with
  | [v; i] => mkTake (tk_ret s) (tk_values s ++ [option_map val v])
                (tk_offsets s ++ [match i with Some i => (true, off i) | None => (false, junk) end]) (tk_status s)
  | _ => s
  end.
(** 565-580 *)
Definition take_finalize (s : take_st T) : take_st T :=
  let n := Z.of_nat (length (tk_offsets s)) in
  let fake := Z.of_nat (length (tk_values s)) in
  let bad (i : bool * Z) := fst i && ((snd i <? 0)%Z || (n <=? snd i)%Z) in
  let offsets := map (fun i => if bad i || negb (fst i) then (fst i, fake) else i) (tk_offsets s) in
  mkTake (tk_ret s) (tk_values s ++ [None]) offsets (if existsb bad (tk_offsets s) then Some tt else tk_status s).
Definition take_result (s : take_st T) : option T * take_st T :=
  (match nth_error (tk_offsets s) (tk_ret s) with
   | Some i => if (snd i <? 0)%Z then oob else nth (Z.to_nat (snd i)) (tk_values s) oob
   | None => oob
   end, mkTake (S (tk_ret s)) (tk_values s) (tk_offsets s) (tk_status s)).
Definition take_over_acc : accum (take_st T) C C T unit :=
  with_status Full [true; true] (mkTake 0 [] [] None) (fun s => mkTake 0 [] [] (tk_status s)) take_add take_finalize take_result tk_status.
End Take.

(** ** 690-768 [WeightedCDFAccumulator]; [A] is double, [to_ret] its conversion to
    the type [R] of the results, [div] the division of a result by a double
    converted back, [nan_ret] the conversion of a NaN *)
Record cdf_st (T W R : Type) := mkCdf { cd_ret : nat; cd_values : list (T * nat * W); cd_cdf : list R; cd_nan : option R }.
Arguments mkCdf {T W R}. Arguments cd_ret {T W R}. Arguments cd_values {T W R}. Arguments cd_cdf {T W R}. Arguments cd_nan {T W R}.
Section Cdf.
Context {C T W A R : Type}.
Variables (o : ord T) (val : C -> T) (weight : C -> W).
Variables (zero : A) (add : A -> W -> A) (to_ret : A -> R) (div : R -> A -> R) (nan_ret : T -> R).
Variable sort : (T * nat * W -> T * nat * W -> bool) -> list (T * nat * W) -> list (T * nat * W).
Variables (oob zero_ret : R) (ub : cdf_st T W R).
Definition cv (e : T * nat * W) : T := fst (fst e).
Definition cp (e : T * nat * W) : nat := snd (fst e).
(** operator< of std::tuple; the positions differ, so weights are never compared *)
Definition tuple_lt (a b : T * nat * W) : bool :=
  match cmp o (cv a) (cv b) with Some Lt => true | Some Eq => cp a <? cp b | _ => false end.
(** 734-738 *)
Fixpoint cdf_running (vs : list (T * nat * W)) (running : A) (cdf : list R) : option (A * list R) :=
  match vs with
  | [] => Some (running, cdf)
  | e :: t => let running' := add running (snd e) in
              let? cdf' := upd cdf (cp e) (to_ret running') in cdf_running t running' cdf'
  end.
(** 750-755, backwards: [vs] is reversed, [prev] the element before in this order *)
Fixpoint cdf_equal (prev : T * nat * W) (vs : list (T * nat * W)) (cdf : list R) : option (list R) :=
  match vs with
  | [] => Some cdf
  | e :: t => let? cdf' := (if o_eq o (cv e) (cv prev)
                            then let? x := rd cdf (cp prev) in upd cdf (cp e) x else Some cdf) in
              cdf_equal e t cdf'
  end.
(** 716-756 *)
Definition cdf_finalize (s : cdf_st T W R) : cdf_st T W R :=
  match find (fun e => nan o (cv e)) (cd_values s) with
  | Some e => mkCdf (cd_ret s) (cd_values s) (cd_cdf s) (Some (nan_ret (cv e)))
  | None =>
    let cdf := resize (length (cd_values s)) zero_ret (cd_cdf s) in
    let vs := sort tuple_lt (cd_values s) in
    match (let? rc := cdf_running vs zero cdf in
           let '(total, cdf1) := rc in
           let cdf2 := map (fun x => div x total) cdf1 in
           match rev vs with [] => Some cdf2 | last :: t => cdf_equal last t cdf2 end) with
    | Some cdf3 => mkCdf (cd_ret s) vs cdf3 (cd_nan s)
    | None => ub
    end
  end.
Definition cdf_add (r : list (option C)) (s : cdf_st T W R) : cdf_st T W R :=
  match r with
  | [Some v; Some w] => mkCdf (cd_ret s) (cd_values s ++ [(val v, length (cd_values s), weight w)]) (cd_cdf s) (cd_nan s)
  | _ => s
  end.
Definition cdf_result (s : cdf_st T W R) : option R * cdf_st T W R :=
  match cd_nan s with
  | Some x => (Some x, s)
  | None => (Some (nth (cd_ret s) (cd_cdf s) oob), mkCdf (S (cd_ret s)) (cd_values s) (cd_cdf s) (cd_nan s))
  end.
Definition weighted_cdf_acc : accum (cdf_st T W R) C C R unit :=
  plain Full [false; false] (mkCdf 0 [] [] None) (fun s => mkCdf 0 [] (cd_cdf s) None) cdf_add cdf_finalize cdf_result.
End Cdf.

(** ** 207-240 [MeanAccumulator]; [div] is DivideOp on the narrowed sum and the
    narrowed count *)
Definition mean_acc {V A} (ar : arith V A) (count : Z -> V) (div : V -> V -> V) (k : kind) (init : A * Z) : accum (A * Z) V V V unit :=
  plain k [false] init (fun _ => (r_wide ar (r_zero ar), 0%Z))
    (fun r s => match r with [Some v] => (r_add ar (fst s) (r_wide ar v), (snd s + 1)%Z) | _ => s end) (fun s => s)
    (fun s => (if (snd s =? 0)%Z then None else Some (div (r_narrow ar (fst s)) (count (snd s))), s)).
Definition mean_addn {V A} (ar : arith V A) (n : nat) (r : list (option V)) (s : A * Z) : A * Z :=
  match r with
  | [Some v] => (r_add ar (fst s) (r_mul ar (r_wide ar v) (r_count ar (Z.of_nat n))), (snd s + Z.of_nat n)%Z)
  | _ => s
  end.
(** 644-673 [WeightedAverageAccumulator] *)
Definition wavg_acc {V A} (ar : arith V A) (div : A -> A -> A) (init : A * A) : accum (A * A) V V V unit :=
  plain Aggregator [false; false] init (fun _ => (r_wide ar (r_zero ar), r_wide ar (r_zero ar)))
    (fun r s => match r with
                | [Some v; Some w] => (r_add ar (fst s) (r_mul ar (r_wide ar v) (r_wide ar w)), r_add ar (snd s) (r_wide ar w))
                | _ => s end) (fun s => s)
    (fun s => (Some (r_narrow ar (div (fst s) (snd s))), s)).
