(** Model of arolla/expr/expr_visitor.h, expr_visitor.cc and of the node constructors they
    use (expr_node.cc, expr.cc).  An expression is a tree; the nodes of the real DAG are its
    distinct subtrees, and comparing fingerprints is comparing trees.  Operators, types,
    values are numbers, strings are lists of characters.  [None]: access out of bounds, or
    a loop that does not end within the given number of rounds.  The log function of
    DeepTransform is left out. *)
From Verif Require Import Base.

(** expr_attributes.h: nothing, a type, or a value *)
Inductive attr := ANone | AType (t : nat) | AValue (v : nat).
(** expr_node.h: literal, leaf, placeholder, operator node *)
Inductive node := Lit (v : nat) | Leaf (k : list nat) | Plh (k : list nat) | Op (o : nat) (a : attr) (ds : list node).
Definition deps (n : node) : list node := match n with Op _ _ ds => ds | _ => [] end.
Definition is_op (n : node) : bool := match n with Op _ _ _ => true | _ => false end.
Definition attr_of (n : node) : attr := match n with Lit v => AValue v | Op _ a _ => a | _ => ANone end.

Definition attr_eqb (a b : attr) : bool :=
  match a, b with
  | ANone, ANone => true
  | AType x, AType y => x =? y
  | AValue x, AValue y => x =? y
  | _, _ => false
  end.
Definition leqb {A} (eqb : A -> A -> bool) : list A -> list A -> bool :=
  fix go (a b : list A) : bool :=
  match a, b with
  | [], [] => true
  | x :: a', y :: b' => eqb x y && go a' b'
  | _, _ => false
  end.
(** Comparison of fingerprints, expr_node.cc:57-107 *)
Fixpoint node_eqb (a b : node) {struct a} : bool :=
  match a, b with
  | Lit x, Lit y => x =? y
  | Leaf x, Leaf y => leqb Nat.eqb x y
  | Plh x, Plh y => leqb Nat.eqb x y
  | Op o p ds, Op o' p' ds' => (o =? o') && attr_eqb p p' && leqb node_eqb ds ds'
  | _, _ => false
  end.
Definition mem (n : node) (l : list node) : bool := existsb (node_eqb n) l.
Fixpoint size (n : node) : nat :=
  match n with Op _ _ ds => S (list_sum (map size ds)) | _ => 1 end.

(** ** Orders *)
(** expr_visitor.cc:60-75, the loop of VisitorOrderImpl; the calls of previsit_fn and
    postvisit_fn in order *)
Record vframe := mkF { v_node : node; v_cnt : nat }.
Fixpoint visit_loop (fuel : nat) (visited : list node) (stack : list vframe) (ev : list (bool * node)) : option (list (bool * node)) :=
  match stack with
  | [] => Some ev
  | fr :: st =>
      match fuel with
      | O => None
      | S fu =>
          let ev := if v_cnt fr =? 0 then ev ++ [(true, v_node fr)] else ev in
          let ds := deps (v_node fr) in
          if v_cnt fr =? length ds then visit_loop fu visited st (ev ++ [(false, v_node fr)]) else
          let? d := rd ds (v_cnt fr) in
          let st := mkF (v_node fr) (S (v_cnt fr)) :: st in
          if mem d visited then visit_loop fu visited st ev
          else visit_loop fu (d :: visited) (mkF d 0 :: st) ev
      end
  end.
(** 46-76; every round is counted below by the arcs and nodes of the tree *)
Definition visit_impl (root : node) : option (list (bool * node)) :=
  visit_loop (2 * size root) [root] [mkF root 0] [].
(** 80-89 *)
Definition visitor_order (root : node) : option (list node) :=
  let? ev := visit_impl root in Some (map snd (filter (fun e => negb (fst e)) ev)).
(** 91-103 *)
Definition pre_post_order (root : node) : option (list (bool * node)) := visit_impl root.

(** expr_visitor.cc:125-128 *)
Fixpoint skip_known (nodes : list node) (ds : list node) (idx fuel : nat) : nat :=
  match fuel with
  | O => idx
  | S f => match nth_error ds idx with
           | Some d => if mem d nodes then skip_known nodes ds (S idx) f else idx
           | None => idx
           end
  end.
(** 123-146; [node_indices] holds exactly the positions in [nodes] *)
Fixpoint po_loop (fuel : nat) (nodes : list node) (stack : list vframe) (fr : node) (idx arcs : nat) : option (list node * nat) :=
  match fuel with
  | O => None
  | S fu =>
      let ds := deps fr in
      let idx := skip_known nodes ds idx (length ds) in
      if idx <? length ds then
        let? d := rd ds idx in
        po_loop fu nodes (mkF fr (idx + 1) :: stack) d 0 arcs
      else
        let arcs := arcs + length ds in
        let nodes := nodes ++ [fr] in
        match stack with
        | [] => Some (nodes, arcs)
        | f :: st => po_loop fu nodes st (v_node f) (v_cnt f) arcs
        end
  end.
Fixpoint index_in (n : node) (l : list node) : option nat :=
  match l with [] => None | x :: t => if node_eqb x n then Some 0 else option_map S (index_in n t) end.
(** 156-158 *)
Fixpoint put_deps (nodes : list node) (adj : list nat) (j : nat) (ds : list node) : option (list nat * nat) :=
  match ds with
  | [] => Some (adj, j)
  | d :: t => let? k := index_in d nodes in
              let? adj := upd adj j k in
              put_deps nodes adj (S j) t
  end.
(** 154-159 *)
Fixpoint put_nodes (nodes : list node) (adj : list nat) (i j : nat) (rest : list node) : option (list nat * nat) :=
  match rest with
  | [] => Some (adj, j)
  | n :: t => let? adj := upd adj i j in
              let? r := put_deps nodes adj j (deps n) in
              put_nodes nodes (fst r) (S i) (snd r) t
  end.
Record porder := mkP { p_nodes : list node; p_adj : list nat }.
(** 105-172 [PostOrder::PostOrder]; new memory of make_unique<size_t[]> is zero *)
Definition post_order (root : node) : option porder :=
  let? r := po_loop (2 * size root) [] [] root 0 0 in
  let nodes := fst r in
  let n := length nodes in
  let? a := put_nodes nodes (repeat 0 (n + 1 + snd r)) 0 (n + 1) nodes in
  let? adj := upd (fst a) n (snd a) in
  Some (mkP nodes adj).
(** expr_visitor.h:94-100 *)
Definition dep_indices (p : porder) (i : nat) : option (list nat) :=
  let? a := rd (p_adj p) i in
  let? b := rd (p_adj p) (i + 1) in
  if (a <=? b) && (b <=? length (p_adj p)) then Some (firstn (b - a) (skipn a (p_adj p))) else None.
(** expr_visitor.h:108-114 *)
Definition node_index (p : porder) (n : node) : option nat := index_in n (p_nodes p).

(** ** Keys *)
Fixpoint str_leb (a b : list nat) : bool :=
  match a, b with
  | [], _ => true
  | _ :: _, [] => false
  | x :: a', y :: b' => (x <? y) || ((x =? y) && str_leb a' b')
  end.
(** std::sort of strings *)
Fixpoint insert (x : list nat) (l : list (list nat)) : list (list nat) :=
  match l with [] => [x] | y :: t => if str_leb x y then x :: l else y :: insert x t end.
Definition sort (l : list (list nat)) : list (list nat) := fold_right insert [] l.
Definition leaf_key (n : node) : list (list nat) := match n with Leaf k => [k] | _ => [] end.
Definition plh_key (n : node) : list (list nat) := match n with Plh k => [k] | _ => [] end.
(** 356-368, 370-383 *)
Definition get_keys (key : node -> list (list nat)) (root : node) : option (list (list nat)) :=
  let? ev := visit_impl root in
  Some (sort (flat_map (fun e : bool * node => if fst e then key (snd e) else []) ev)).
(** 385-405 *)
Definition get_keys_po (key : node -> list (list nat)) (p : porder) : list (list nat) :=
  sort (flat_map key (p_nodes p)).

(** ** Traversal and transformation *)
Fixpoint rds {T} (rs : list T) (is : list nat) : option (list T) :=
  match is with [] => Some [] | i :: t => let? x := rd rs i in let? r := rds rs t in Some (x :: r) end.
Section Trav.
Context {E T : Type}.
Variable visitor : node -> list T -> E + T.
(** expr_visitor.h:193-200 *)
Definition invoke (p : porder) (rs : list T) (i : nat) : option (E + T) :=
  let? is := dep_indices p i in
  let? n := rd (p_nodes p) i in
  let? args := rds rs is in
  Some (visitor n args).
(** 201-208; [cnt] nodes left before the last one *)
Fixpoint trav_loop (p : porder) (rs : list T) (i cnt : nat) : option (E + T) :=
  match cnt with
  | O => invoke p rs (length (p_nodes p) - 1)
  | S c => let? r := invoke p rs i in
           match r with inl e => Some (inl e) | inr v => trav_loop p (rs ++ [v]) (S i) c end
  end.
(** expr_visitor.h:176-209 [PostOrderTraverse] *)
Definition traverse (p : porder) : option (E + T) := trav_loop p [] 0 (length (p_nodes p) - 1).
End Trav.

Section Trans.
Context {E : Type}.
(** ExprOperator::InferAttributes *)
Variable infer : nat -> list attr -> E + attr.
Variable f : node -> E + node.
(** expr.cc:97-108 [MakeOpNode] *)
Definition make_op (o : nat) (ds : list node) : E + node :=
  match infer o (map attr_of ds) with inl e => inl e | inr a => inr (Op o a ds) end.
Definition pick (res : option node) (dep : node) : node := match res with Some r => r | None => dep end.
Definition changed (r : option node) : bool := match r with Some _ => true | None => false end.
(** expr_visitor.h:255-288, one round; [results] has all entries *)
Definition trans_step (p : porder) (results : list (option node)) (i : nat) : option (E + list (option node)) :=
  let? n := rd (p_nodes p) i in
  let? is := dep_indices p i in
  let? rs := rds results is in
  let input := match n with
               | Op o _ ds => if existsb changed rs then make_op o (map (fun c => pick (fst c) (snd c)) (combine rs ds)) else inr n
               | _ => inr n
               end in
  match input with
  | inl e => Some (inl e)
  | inr m =>
      match f m with
      | inl e => Some (inl e)
      | inr n' => if node_eqb n' n then Some (inr results)
                  else let? results := upd results i (Some n') in Some (inr results)
      end
  end.
Fixpoint trans_loop (p : porder) (results : list (option node)) (i cnt : nat) : option (E + list (option node)) :=
  match cnt with
  | O => Some (inr results)
  | S c => let? r := trans_step p results i in
           match r with inl e => Some (inl e) | inr results => trans_loop p results (S i) c end
  end.
(** expr_visitor.h:247-295 [TransformOnPostOrder] *)
Definition transform_po (p : porder) : option (E + node) :=
  let n := length (p_nodes p) in
  let? r := trans_loop p (repeat None n) 0 n in
  match r with
  | inl e => Some (inl e)
  | inr results => let? last := rd results (n - 1) in
                   match last with
                   | Some r => Some (inr r)
                   | None => let? n := rd (p_nodes p) (n - 1) in Some (inr n)
                   end
  end.
(** 229-232 *)
Definition transform (root : node) : option (E + node) :=
  let? p := post_order root in transform_po p.

(** ** DeepTransform *)
(** expr.cc:135-159 [WithNewDependencies]; [bad] is the error of a node that cannot have
    dependencies *)
Variable bad : E.
Definition with_new (n : node) (ds : list node) : E + node :=
  if leqb node_eqb (deps n) ds then inr n else
  match n with
  | Op o a old => if leqb attr_eqb (map attr_of old) (map attr_of ds) then inr (Op o a ds) else make_op o ds
  | _ => match ds with [] => inr n | _ => inl bad end
  end.

Definition cache : Type := list (node * option node).
Fixpoint look (c : cache) (n : node) : option (option node) :=
  match c with [] => None | (k, v) :: t => if node_eqb k n then Some v else look t n end.
(** flat_hash_map::emplace(n, nullptr), only used when the key is missing *)
Definition add_key (c : cache) (n : node) : cache := (n, None) :: c.
(** cache[n] = v *)
Fixpoint set_key (c : cache) (n : node) (v : node) : cache :=
  match c with [] => [(n, Some v)] | (k, w) :: t => if node_eqb k n then (k, Some v) :: t else (k, w) :: set_key t n v end.
(** 236-243; [d_idx] is None for kSkipFirstStage *)
Record dframe := mkDF { d_node : node; d_idx : option nat; d_new : node; d_trans : node }.
Inductive derr := DTooMany | DLoop (n : node) | DErr (e : E).
(** The cache, the stack and the nodes given to transform_fn so far *)
Record dst := mkDS { ds_cache : cache; ds_stack : list dframe; ds_calls : list node }.
Inductive dres := DMore (s : dst) | DFail (e : derr).

(** 263-267: the first dependency from [idx] which is not in the cache, and it is added *)
Fixpoint first_new (c : cache) (ds : list node) (idx fuel : nat) : nat * cache :=
  match fuel with
  | O => (idx, c)
  | S fu => match nth_error ds idx with
            | None => (idx, c)
            | Some d => match look c d with
                        | Some _ => first_new c ds (S idx) fu
                        | None => (idx, add_key c d)
                        end
            end
  end.
(** 278-283: [Some None] if some dependency has no result *)
Fixpoint new_deps (c : cache) (ds : list node) : option (option (list node)) :=
  match ds with
  | [] => Some (Some [])
  | d :: t => let? v := look c d in
              match v with
              | None => Some None
              | Some r => let? rs := new_deps c t in Some (option_map (cons r) rs)
              end
  end.
(** sets the result of the node and of the node with new dependencies *)
Definition set_both (c : cache) (n n' r : node) : cache :=
  let c := set_key c n r in
  if negb (node_eqb n' n) then set_key c n' r else c.
(** 248-350, one round for the top frame *)
Definition deep_step (limit : nat) (s : dst) (fr : dframe) (st : list dframe) : option dres :=
  let c := ds_cache s in
  let n := d_node fr in
  if limit <? length c then Some (DFail DTooMany) else
  match d_idx fr with
  | Some idx =>
      let '(idx, c) := first_new c (deps n) idx (length (deps n)) in
      if idx <? length (deps n) then
        let? d := rd (deps n) idx in
        Some (DMore (mkDS c (mkDF d (Some 0) d d :: mkDF n (Some (idx + 1)) n n :: st) (ds_calls s)))
      else
      let? nd := new_deps c (deps n) in
      match nd with
      | None => Some (DFail (DLoop n))
      | Some nd =>
          match with_new n nd with
          | inl e => Some (DFail (DErr e))
          | inr n' =>
              let other := negb (node_eqb n' n) in
              match (if other then look c n' else None) with
              | Some None => Some (DFail (DLoop n))
              | Some (Some r) => Some (DMore (mkDS (set_key c n r) st (ds_calls s)))
              | None =>
                  let c := if other then add_key c n' else c in
                  match f n' with
                  | inl e => Some (DFail (DErr e))
                  | inr t =>
                      let calls := ds_calls s ++ [n'] in
                      if node_eqb t n' then Some (DMore (mkDS (set_both c n n' t) st calls)) else
                      match look c t with
                      | Some None => Some (DFail (DLoop n))
                      | Some (Some r) => Some (DMore (mkDS (set_both c n n' r) st calls))
                      | None => Some (DMore (mkDS (add_key c t) (mkDF t (Some 0) t t :: mkDF n None n' t :: st) calls))
                      end
                  end
              end
          end
      end
  | None =>
      let? v := look c (d_trans fr) in
      let? r := v in
      Some (DMore (mkDS (set_both c n (d_new fr) r) st (ds_calls s)))
  end.
Fixpoint deep_loop (fuel limit : nat) (s : dst) : option (derr + dst) :=
  match ds_stack s with
  | [] => Some (inr s)
  | fr :: st =>
      match fuel with
      | O => None
      | S fu => let? r := deep_step limit s fr st in
                match r with DFail e => Some (inl e) | DMore s => deep_loop fu limit s end
      end
  end.
(** 174-354 [DeepTransform]; every round adds to the cache or shortens the stack, the cache
    is bounded by the limit *)
Definition deep_init (root : node) : dst := mkDS [(root, None)] [mkDF root (Some 0) root root] [].
Definition deep_run (limit : nat) (root : node) : option (derr + (node * list node)) :=
  let? r := deep_loop (2 * limit + 3) limit (deep_init root) in
  match r with
  | inl e => Some (inl e)
  | inr s => let? v := look (ds_cache s) root in
             let? r := v in Some (inr (r, ds_calls s))
  end.
End Trans.
