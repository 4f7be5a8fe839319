(** C74: slot listeners pass every value to everyone who hears it, in order. *)
From Coq Require Import ZArith Permutation.
From Verif Require Import Base Strings_Model Strings_Proofs Loader_Model Loader_Spec Loader_Proofs Loader_Comb Loader_Keys Listener_Model Listener_Spec Listener_Proofs.
Local Open Scope nat_scope.
Local Open Scope list_scope.

(** ** A listener from accessors is made exactly if their names differ. *)
Theorem C74_accessors : forall V ord (some : some_order ord) O (accs : list (ear V O)),
  match accessors_listener V O accs with
  | Some l => NoDup (map (e_name V O) accs) /\ listens ord l (map of_ear accs)
  | None => ~ NoDup (map (e_name V O) accs)
  end.
Proof.
  intros V ord some O accs. destruct (accessors_listener V O accs) as [l|] eqn:E.
  - split; [|apply (accessors_listens V ord some), E]. unfold accessors_listener in E. destruct (validate_duplicated (ear_types V O accs)) eqn:D; [|discriminate]. apply duplicated_ok in D. rewrite ear_names in D. exact D.
  - unfold accessors_listener in E. destruct (validate_duplicated (ear_types V O accs)) eqn:D; [discriminate|]. intros ND. rewrite (proj2 (duplicated_ok _)) in D; [discriminate|]. rewrite ear_names. exact ND.
Qed.
Print Assumptions C74_accessors.

(** ** Wrapping, chaining, delegating *)
Theorem C74_wrapped : forall V ord (some : some_order ord) O (l : listener V O) hs, listens ord l hs -> listens ord (owning_listener V ord O l) hs.
Proof. intros V ord some O. apply (owning_listens V ord some). Qed.
Print Assumptions C74_wrapped.
(** In a chain all listeners hear, one after the other. *)
Theorem C74_chain : forall V ord (some : some_order ord) O (ls : list (listener V O)) hss, Forall2 (listens ord) ls hss -> listens ord (chain_listener V ord O ls) (List.concat hss).
Proof. intros V ord some O. apply (chain_listens V ord some). Qed.
Print Assumptions C74_chain.
Theorem C74_delegating : forall V ord (some : some_order ord) O D (l : listener V D) hs (part : O -> D) put prefix, is_part part put -> listens ord l hs ->
  listens ord (delegating_listener V ord O D l part put prefix) (map (for_part part put prefix) hs).
Proof. intros V ord some O D. apply (delegating_listens V ord some). Qed.
Print Assumptions C74_delegating.

(** ** PartialBind: nothing if nobody hears, an error if someone hears with another type. *)
Theorem C74_partial : forall V ord (some : some_order ord) O (l : listener V O) hs s, listens ord l hs -> NoDup (map fst s) ->
  let hears h sl := In h hs /\ In (h_name h, sl) s /\ h_type h (Some (sty sl)) <> None in
  match partial_listener V ord O l s with
  | Some (Some b) => (exists h sl, hears h sl) /\ (forall h sl, hears h sl -> h_type h (Some (sty sl)) = Some (sty sl)) /\ forall f o, heard s f hs o (fst (b f o)) (snd (b f o))
  | Some None => forall h sl, ~ hears h sl
  | None => exists h sl, hears h sl /\ h_type h (Some (sty sl)) <> Some (sty sl)
  end.
Proof.
  intros V ord some O l hs s L ND hears. pose proof (partial_listens V ord some l hs s L ND) as P. destruct (supported_ok ord some (l_type V O l) s ND) as (_ & Ip). destruct L as (T & _).
  destruct (partial_listener V ord O l s) as [[b|]|] eqn:E.
  - destruct P as (P1 & P2). split; [|split; [|intros f o; apply (P2 f o)]].
    + unfold partial_listener in E. destruct (find_supported ord (l_type V O l) s) as [|(n, sl) p]; [discriminate|]. destruct (proj1 (Ip n sl) (or_introl eq_refl)) as (Hs & Ht). specialize (T n (Some (sty sl))).
      destruct (l_type V O l n (Some (sty sl))) as [t|]; [|congruence]. apply told_Some in T. destruct T as (h & Hh & <- & Th). exists h, sl. split; [exact Hh|]. split; [exact Hs|congruence].
    + intros h sl (Hh & Hs & Ht). destruct (P1 h sl Hh Hs); congruence.
  - intros h sl (Hh & Hs & Ht). unfold partial_listener in E. destruct (find_supported ord (l_type V O l) s) as [|e p] eqn:Ep; [|destruct (bind_listener V ord O l (e :: p)); discriminate].
    apply (proj2 (Ip (h_name h) sl)). split; [exact Hs|]. intros K. specialize (T (h_name h) (Some (sty sl))). rewrite K in T. apply Ht, (proj1 (told_None _ _ _) T h Hh eq_refl).
  - destruct P as (h & sl & P1 & P2 & P3 & P4). exists h, sl. split; [split; [exact P1|split; [exact P2|exact P3]]|exact P4].
Qed.
Print Assumptions C74_partial.

(** ** What is heard leaves no choice: one output and one outcome. *)
Theorem C74_determined : forall V O s f (hs : list (hearer V O)) o o1 ok1 o2 ok2, NoDup (map fst s) -> heard s f hs o o1 ok1 -> heard s f hs o o2 ok2 -> o1 = o2 /\ ok1 = ok2.
Proof. intros V O s f hs o o1 ok1 o2 ok2. apply heard_fun. Qed.
Print Assumptions C74_determined.

(** ** The suggested names *)
Theorem C74_suggestions : forall V ord,
  (forall O (accs : list (ear V O)) l, accessors_listener V O accs = Some l -> l_suggest V O l = map (e_name V O) accs) /\
  (forall O (l : listener V O), l_suggest V O (owning_listener V ord O l) = l_suggest V O l) /\
  (forall O (ls : list (listener V O)) n, In n (l_suggest V O (chain_listener V ord O ls)) <-> exists l, In l ls /\ In n (l_suggest V O l)) /\
  (forall O D (l : listener V D) (part : O -> D) put prefix n, In n (l_suggest V O (delegating_listener V ord O D l part put prefix)) <-> exists d, n = prefix ++ d /\ In d (l_suggest V D l)).
Proof.
  intros V ord. split; [|split; [|split]].
  - intros O accs l E. unfold accessors_listener in E. destruct (validate_duplicated _); [|discriminate]. injection E as <-. apply ear_names.
  - reflexivity.
  - intros O ls n. cbn [l_suggest chain_listener]. rewrite in_concat. split.
    + intros (x & Hx & Hn). apply in_map_iff in Hx. destruct Hx as (l & <- & Hl). eauto.
    + intros (l & Hl & Hn). exists (l_suggest V O l). split; [apply in_map, Hl|exact Hn].
  - intros O D l part put prefix n. cbn [l_suggest delegating_listener]. rewrite in_map_iff. split; intros (d & A & B); exists d; auto.
Qed.
Print Assumptions C74_suggestions.

(** ** A case: the output is a pair of lists; "a" is heard twice, "x/a" by a delegate. *)
Definition id_ord (A : Type) (m : hmap A) := m.
Lemma id_some : some_order id_ord.
Proof. intros A m. apply Permutation_refl. Qed.
Definition na : name := [97%Z]. Definition px : name := [120%Z; 47%Z].
Definition log1 : list (ear nat (list nat * list nat)) := [mkEar _ _ na 7 (fun v o => (fst o ++ [v], snd o))].
Definition log2 : list (ear nat (list nat)) := [mkEar _ _ na 7 (fun v o => o ++ [v + 100])].
Definition everyone : option (listener nat (list nat * list nat)) :=
  let? l1 := accessors_listener nat (list nat * list nat) log1 in
  let? l2 := accessors_listener nat (list nat) log2 in
  Some (chain_listener nat id_ord _ [l1; l1; delegating_listener nat id_ord _ _ l2 (@snd (list nat) (list nat)) (fun o d => (fst o, d)) px]).
Example case_run : match everyone with
  | Some l => match bind_listener nat id_ord _ l [(px ++ na, mkSlot 1 7); (na, mkSlot 0 7)] with Some b => b (fun k => k + 5) ([], [1]) = (([5; 5], [1; 106]), true) | None => False end
  | None => False end.
Proof. vm_compute. reflexivity. Qed.
Example case_part : is_part (@snd (list nat) (list nat)) (fun o d => (fst o, d)).
Proof. split; [reflexivity|]. split; [intros (a, b); reflexivity|reflexivity]. Qed.
Example case_partial : match accessors_listener nat _ log1 with
  | Some l => partial_listener nat id_ord _ l [(px, mkSlot 1 7)] = Some None /\ partial_listener nat id_ord _ l [(na, mkSlot 1 8)] = None | None => False end.
Proof. vm_compute. auto. Qed.
Example case_twice : accessors_listener nat _ (log1 ++ log1) = None.
Proof. reflexivity. Qed.

(** ** The type a chain reports for a name need not be one it can be bound with: a later listener may
    hear the same name with another type. *)
Theorem C74_reported_type_refuted : exists l1 l2 : listener nat (list nat), listens id_ord l1 [of_ear (mkEar _ _ na 7 (fun v o => v :: o))] /\ listens id_ord l2 [of_ear (mkEar _ _ na 8 (fun v o => v :: o))] /\
  let l := chain_listener nat id_ord _ [l1; l2] in
  l_type _ _ l na (Some 7) = Some 7 /\ bind_listener nat id_ord _ l [(na, mkSlot 0 7)] = None.
Proof.
  destruct (accessors_listener nat (list nat) [mkEar _ _ na 7 (fun v o => v :: o)]) as [l1|] eqn:E1; [|discriminate].
  destruct (accessors_listener nat (list nat) [mkEar _ _ na 8 (fun v o => v :: o)]) as [l2|] eqn:E2; [|discriminate].
  exists l1, l2. split; [apply (accessors_listens nat id_ord id_some _ _ E1)|]. split; [apply (accessors_listens nat id_ord id_some _ _ E2)|].
  unfold accessors_listener in E1, E2. cbn in E1, E2. injection E1 as <-. injection E2 as <-. split; vm_compute; reflexivity.
Qed.
Print Assumptions C74_reported_type_refuted.
