(** C70: paths to tables and columns, and their names. *)
From Coq Require Import Ascii String.
From Verif Require Import Base Strings_Model Strings_Proofs Repr_Model Naming_Model Naming_Spec Naming_Proofs.
Local Open Scope list_scope.

Definition fld (s : string) : segment := mkSeg (bytes s) false.
Definition idx (s : string) : segment := mkSeg (bytes s) true.
Definition ex_path : path := [fld "query"; idx "doc"; fld "cost"].

(** A protopath id is accepted exactly if it is empty or starts with a slash, and then yields
    the path it says; there is only one such path. *)
Theorem C70_parse s p : parse_protopath s = Some (inr p) <-> says s p.
Proof.
  pose proof (parse_ok s) as H. destruct s as [|c t].
  - destruct H as [-> H]. split; [injection 1 as <-; exact H|intros K; rewrite (says_fun _ _ H _ K); reflexivity].
  - destruct (c =? slash)%Z.
    + destruct H as (p' & -> & H). split; [injection 1 as <-; exact H|intros K; rewrite (says_fun _ _ H _ K); reflexivity].
    + destruct H as [-> H]. split; [discriminate|]. intros K. destruct (H _ K).
Qed.
Print Assumptions C70_parse.
Theorem C70_parse_error s : parse_protopath s = Some (inl tt) <-> s <> [] /\ forall t, s <> bytes "/" ++ t.
Proof.
  pose proof (parse_ok s) as H. destruct s as [|c t].
  - destruct H as [-> _]. split; [discriminate|]. intros [K _]. congruence.
  - destruct (Z.eqb_spec c slash) as [->|N].
    + destruct H as (p' & -> & _). split; [discriminate|]. intros [_ K]. destruct (K t). reflexivity.
    + destruct H as [-> _]. split; [|reflexivity]. intros _. split; [discriminate|]. intros u E. injection E as E _. apply N, E.
Qed.
Print Assumptions C70_parse_error.
Theorem C70_parse_total s : parse_protopath s <> None.
Proof.
  pose proof (parse_ok s) as H. destruct s as [|c t]; [destruct H as [-> _]; discriminate|].
  destruct (c =? slash)%Z; [destruct H as (p & -> & _)|destruct H as [-> _]]; discriminate.
Qed.
Print Assumptions C70_parse_total.
Example C70_parse_ex : parse_protopath (bytes "/query/doc[:]/cost") = Some (inr ex_path) /\ parse_protopath (bytes "query") = Some (inl tt) /\
  parse_protopath (bytes "/query//") = Some (inr [fld "query"; fld ""]).
Proof. repeat split; vm_compute; reflexivity. Qed.

(** Writing a path as an id and reading it returns the path exactly for the expressible ones;
    conversely what was read is written again, up to one slash at the end. *)
Theorem C70_roundtrip p : parse_protopath (format_protopath p) = Some (inr p) <-> expressible p.
Proof. rewrite C70_parse. split; [apply says_expressible|apply expressible_says]. Qed.
Print Assumptions C70_roundtrip.
Theorem C70_reformat s p : parse_protopath s = Some (inr p) -> s = format_protopath p \/ s = format_protopath p ++ bytes "/".
Proof. intros H. apply C70_parse in H. apply says_format, H. Qed.
Print Assumptions C70_reformat.
Theorem C70_ids_injective p q : expressible p -> expressible q -> format_protopath p = format_protopath q -> p = q.
Proof. intros Hp Hq E. apply C70_roundtrip in Hp, Hq. rewrite E, Hq in Hp. injection Hp; auto. Qed.
Print Assumptions C70_ids_injective.
Example C70_roundtrip_ex : expressible ex_path /\ format_protopath ex_path = bytes "/query/doc[:]/cost".
Proof. split; [apply C70_roundtrip; vm_compute; reflexivity|vm_compute; reflexivity]. Qed.
(** Without the guard it fails in three ways. *)
Theorem C70_roundtrip_refuted :
  parse_protopath (format_protopath [fld "a"; fld ""]) = Some (inr [fld "a"]) /\
  parse_protopath (format_protopath [fld "a[:]"]) = Some (inr [idx "a"]) /\
  parse_protopath (format_protopath [fld "a/b"]) = Some (inr [fld "a"; fld "b"]).
Proof. repeat split; vm_compute; reflexivity. Qed.
Print Assumptions C70_roundtrip_refuted.

(** Children and prefixes. *)
Theorem C70_child p q : child p q = p ++ q /\ (forall n, size_of_name p n = match n with [] => p | _ => p ++ [mkSeg n false] end ++ [mkSeg (bytes "@size") false]) /\
  size_of_path p q = p ++ q ++ [mkSeg (bytes "@size") false].
Proof.
  split; [apply child_ok|split]; [intros [|c n]; reflexivity|]. unfold size_of_path, child1. rewrite child_ok, <- app_assoc. reflexivity.
Qed.
Print Assumptions C70_child.
Theorem C70_prefix p q r : remove_prefix p q = Some (inr r) <-> p = q ++ r.
Proof.
  pose proof (remove_prefix_ok p q) as H. destruct (remove_prefix p q) as [[[]|r']|]; [| |destruct H].
  - split; [discriminate|]. intros ->. destruct (H r eq_refl).
  - split; [injection 1 as <-; exact H|]. intros E. rewrite E in H. apply app_inv_head in H. subst. reflexivity.
Qed.
Print Assumptions C70_prefix.
Theorem C70_prefix_error p q : remove_prefix p q = Some (inl tt) <-> forall r, p <> q ++ r.
Proof.
  pose proof (remove_prefix_ok p q) as H. destruct (remove_prefix p q) as [[[]|r']|]; [| |destruct H].
  - split; [intros _; exact H|reflexivity].
  - split; [discriminate|]. intros K. destruct (K r' H).
Qed.
Print Assumptions C70_prefix_error.
Example C70_prefix_ex : remove_prefix ex_path [fld "query"; idx "doc"] = Some (inr [fld "cost"]) /\ remove_prefix ex_path [fld "query"; fld "doc"] = Some (inl tt) /\
  remove_prefix [fld "query"] ex_path = Some (inl tt) /\ child [fld "query"] [idx "doc"; fld "cost"] = ex_path.
Proof. repeat split; vm_compute; reflexivity. Qed.

(** The parent index of a column is the closest index above it, or the root; that of a table
    is strictly above it, and only the root has none. *)
Theorem C70_column_parent p : longest_prefix index_path p (column_parent_index p).
Proof. apply column_ok. Qed.
Print Assumptions C70_column_parent.
Theorem C70_table_parent p : match table_parent_index p with
  | None => p = []
  | Some q => p <> [] /\ longest_prefix (fun q => index_path q /\ List.length q < List.length p) p q end.
Proof. apply table_ok. Qed.
Print Assumptions C70_table_parent.
Example C70_parent_ex : column_parent_index ex_path = [fld "query"; idx "doc"] /\ table_parent_index [idx "q"; fld "x"; idx "doc"] = Some [idx "q"] /\
  table_parent_index [fld "query"; idx "doc"] = Some [].
Proof. repeat split; vm_compute; reflexivity. Qed.

(** Full names, with and without the index markers. *)
Theorem C70_debug_name p : format_segments true p = format_protopath p.
Proof. apply full_name_markers. Qed.
Print Assumptions C70_debug_name.
Theorem C70_full_name p q : (forall s, In s (p ++ q) -> ~ In slash (field_name s)) ->
  (format_segments false p = format_segments false q <-> map field_name p = map field_name q).
Proof.
  intros H. rewrite !full_name_plain. split.
  - apply (joined_inj slash p); intros s Hs; apply H, in_or_app; auto.
  - intros E. change (fun s : segment => slash :: field_name s) with (fun s : segment => (fun n => slash :: n) (field_name s)).
    rewrite <- !(map_map field_name (fun n => slash :: n)), E. reflexivity.
Qed.
Print Assumptions C70_full_name.
Example C70_full_name_ex : format_segments false ex_path = bytes "/query/doc/cost" /\ forall s, In s (ex_path ++ ex_path) -> ~ In slash (field_name s).
Proof. split; [vm_compute; reflexivity|]. intros s H K. vm_compute in H. repeat (destruct H as [<-|H]; [vm_compute in K; intuition discriminate|]). destruct H. Qed.

(** The leaf-only name is the last field, except that names of sizes are left whole. *)
Theorem C70_leaf p s : ~ In slash (field_name s) ->
  ((forall m, format_segments false (p ++ [s]) <> m ++ bytes "@size") -> leaf_only (p ++ [s]) = field_name s) /\
  (forall m, format_segments false (p ++ [s]) = m ++ bytes "@size" -> leaf_only (p ++ [s]) = format_segments false (p ++ [s])).
Proof. intros H. split; [apply leaf_ok, H|apply leaf_size]. Qed.
Print Assumptions C70_leaf.
Example C70_leaf_ex : leaf_only ex_path = bytes "cost" /\ leaf_only (size_of_path [] [idx "doc"]) = bytes "/doc/@size".
Proof. split; vm_compute; reflexivity. Qed.

(** Names joined by single underscores tell paths apart if no field has an underscore. *)
Theorem C70_underscore p q : p <> [] -> q <> [] -> (forall s, In s (p ++ q) -> ~ In slash (field_name s) /\ ~ In 95%Z (field_name s)) ->
  (single_underscore p = single_underscore q <-> map field_name p = map field_name q).
Proof.
  intros Np Nq H. split.
  - apply single_inj; auto; intros s Hs; apply H, in_or_app; auto.
  - intros E. unfold single_underscore. rewrite (proj2 (C70_full_name p q (fun s Hs => proj1 (H s Hs))) E). reflexivity.
Qed.
Print Assumptions C70_underscore.
Example C70_underscore_ex : single_underscore ex_path = bytes "query_doc_cost" /\ single_underscore [] = [].
Proof. split; vm_compute; reflexivity. Qed.
Theorem C70_underscore_refuted : single_underscore [fld "a_b"] = single_underscore [fld "a"; fld "b"].
Proof. vm_compute. reflexivity. Qed.
Print Assumptions C70_underscore_refuted.
