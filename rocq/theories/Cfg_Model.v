(** Model of arolla/algorithm/control_flow_graph.h and control_flow_graph.cc.  Node ids
    given by the user are integers of any sign; ids of an accepted graph are natural
    numbers.  [None]: access outside of a vector, or a loop that does not end. *)
From Verif Require Import Base.

(** control_flow_graph.h:63-64 *)
Record cfg := mkG { g_deps : list (list nat); g_rev : list (list nat) }.
Inductive cerr :=
  | ENoNodes
  | EOrder (node : nat) (dep : Z)
  | ERange (dep : Z)
  | EUnreachable (node : nat).

Definition push {A} (l : list (list A)) (i : nat) (x : A) : option (list (list A)) :=
  let? r := rd l i in upd l i (r ++ [x]).

(** control_flow_graph.cc:41-52, the inner loop *)
Fixpoint add_deps (n : nat) (rev : list (list nat)) (node : nat) (ds : list Z) : option (list (list nat) + cerr) :=
  match ds with
  | [] => Some (inl rev)
  | d :: t =>
      if (d <=? Z.of_nat node)%Z then Some (inr (EOrder node d))
      else if (Z.of_nat n <=? d)%Z then Some (inr (ERange d))
      else let? rev := push rev (Z.to_nat d) node in add_deps n rev node t
  end.
(** 40-53, the outer loop *)
Fixpoint add_all (n : nat) (rev : list (list nat)) (node : nat) (deps : list (list Z)) : option (list (list nat) + cerr) :=
  match deps with
  | [] => Some (inl rev)
  | ds :: t => let? r := add_deps n rev node ds in
               match r with inl rev => add_all n rev (S node) t | inr e => Some (inr e) end
  end.
(** 54-60 *)
Fixpoint check_reach (rev : list (list nat)) (node cnt : nat) : option (option cerr) :=
  match cnt with
  | O => Some None
  | S c => let? r := rd rev node in
           match r with [] => Some (Some (EUnreachable node)) | _ => check_reach rev (S node) c end
  end.
(** control_flow_graph.cc:32-63 [AcyclicCFG::Create] *)
Definition create (deps : list (list Z)) : option (cfg + cerr) :=
  let n := length deps in
  match n with
  | O => Some (inr ENoNodes)
  | S m =>
      let? r := add_all n (repeat [] n) 0 deps in
      match r with
      | inr e => Some (inr e)
      | inl rev => let? c := check_reach rev 1 m in
                   match c with
                   | Some e => Some (inr e)
                   | None => Some (inl (mkG (map (map Z.to_nat) deps) rev))
                   end
      end
  end.

(** control_flow_graph.h:105-109 *)
Record info := mkI { i_par : nat; i_dep : nat; i_ch : list nat }.
(** control_flow_graph.cc:84-86 *)
Fixpoint climb (fuel : nat) (ts : list info) (a d : nat) : option nat :=
  let? ia := rd ts a in
  if d <? i_dep ia then match fuel with O => None | S f => climb f ts (i_par ia) d end else Some a.
(** 87-90 *)
Fixpoint meet (fuel : nat) (ts : list info) (a b : nat) : option nat :=
  if a =? b then Some a else
  match fuel with
  | O => None
  | S f => let? ia := rd ts a in let? ib := rd ts b in meet f ts (i_par ia) (i_par ib)
  end.
(** control_flow_graph.cc:79-92 [Lca] *)
Definition lca (ts : list info) (a b : nat) : option nat :=
  let? ia := rd ts a in
  let? ib := rd ts b in
  let '(a, b, d) := if i_dep ia <? i_dep ib then (b, a, i_dep ia) else (a, b, i_dep ib) in
  let? a := climb (length ts) ts a d in
  meet (length ts) ts a b.
(** control_flow_graph.cc:94-100 *)
Fixpoint lca_from (ts : list info) (res : nat) (l : list nat) : option nat :=
  match l with [] => Some res | x :: t => let? r := lca ts res x in lca_from ts r t end.
Definition lca_all (ts : list info) (l : list nat) : option nat :=
  let? r := rd l 0 in lca_from ts r l.
(** control_flow_graph.cc:70-75 *)
Definition tree_step (g : cfg) (ts : list info) (node : nat) : option (list info) :=
  let? rs := rd (g_rev g) node in
  let? p := lca_all ts rs in
  let? ip := rd ts p in
  let? i := rd ts node in
  let? ts := upd ts node (mkI p (i_dep ip + 1) (i_ch i)) in
  let? ip := rd ts p in
  upd ts p (mkI (i_par ip) (i_dep ip) (i_ch ip ++ [node])).
Fixpoint tree_loop (g : cfg) (ts : list info) (node cnt : nat) : option (list info) :=
  match cnt with O => Some ts | S c => let? ts := tree_step g ts node in tree_loop g ts (S node) c end.
(** control_flow_graph.cc:65-77 [DominatorTree::DominatorTree] *)
Definition tree (g : cfg) : option (list info) :=
  let n := length (g_deps g) in
  let? ts := upd (repeat (mkI 0 0 []) n) 0 (mkI 0 0 []) in
  tree_loop g ts 1 (n - 1).

(** control_flow_graph.cc:111-115 *)
Fixpoint keep_local (glob : nat -> bool) (out : list (list Z)) (node : nat) (ds : list nat) : option (list (list Z)) :=
  match ds with
  | [] => Some out
  | d :: t => if negb (glob d) then let? out := push out node (Z.of_nat d) in keep_local glob out node t
              else keep_local glob out node t
  end.
(** 107-116 *)
Definition ext_step (g : cfg) (ts : list info) (glob : nat -> bool) (out : list (list Z)) (node : nat) : option (list (list Z)) :=
  let? out := if glob node && negb (node =? 0)
              then let? i := rd ts node in push out (i_par i) (Z.of_nat node) else Some out in
  let? ds := rd (g_deps g) node in
  keep_local glob out node ds.
Fixpoint ext_loop (g : cfg) (ts : list info) (glob : nat -> bool) (out : list (list Z)) (node cnt : nat) : option (list (list Z)) :=
  match cnt with O => Some out | S c => let? out := ext_step g ts glob out node in ext_loop g ts glob out (S node) c end.
(** control_flow_graph.cc:102-118 [ExternalizeNodes]; the hash set is its characteristic function *)
Definition externalize (g : cfg) (ts : list info) (glob : nat -> bool) : option (cfg + cerr) :=
  let n := length (g_deps g) in
  let? out := ext_loop g ts glob (repeat [] n) 0 n in
  create out.

(** control_flow_graph.cc:129-134 *)
Fixpoint min_deps (ts : list info) (ms : list nat) (m : nat) (ds : list nat) : option nat :=
  match ds with
  | [] => Some m
  | d :: t => let? md := rd ms d in
              let? i := rd ts d in
              min_deps ts ms (Nat.min m (Nat.min md (i_dep i - 1))) t
  end.
(** 127-137: nodes [cnt - 1] down to 0 *)
Fixpoint frontier_loop (g : cfg) (ts : list info) (ms : list nat) (es : list bool) (cnt : nat) : option (list bool) :=
  match cnt with
  | O => Some es
  | S node =>
      let? i := rd ts node in
      let? ds := rd (g_deps g) node in
      let? m := min_deps ts ms (i_dep i) ds in
      let? es := upd es node (m =? i_dep i) in
      let? ms := upd ms node m in
      frontier_loop g ts ms es node
  end.
(** control_flow_graph.cc:120-139 [FindVerticesWithEmptyDominanceFrontier]; a depth of a
    node that has an incoming edge is positive, so [i_dep i - 1] is exact *)
Definition empty_frontier (g : cfg) (ts : list info) : option (list bool) :=
  let n := length (g_deps g) in
  frontier_loop g ts (repeat 0 n) (repeat false n) n.
