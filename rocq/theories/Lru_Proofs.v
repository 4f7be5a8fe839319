From Verif Require Import Base Lru_Model Lru_Spec.
From Coq Require Import Sorted.

Section P.
Context {K V : Type}.
Variable eqb : K -> K -> bool.
Hypothesis Eq : equivalence_b eqb.
Notation entry := (@entry K V).

Lemma eqb_refl x : eqb x x = true. Proof. apply Eq. Qed.
Lemma eqb_sym x y : eqb x y = eqb y x. Proof. apply Eq. Qed.
Lemma eqb_trans x y z : eqb x y = true -> eqb y z = true -> eqb x z = true. Proof. apply Eq. Qed.
Lemma eqb_cong x y z : eqb x y = true -> eqb x z = eqb y z.
Proof.
  intros H. destruct (eqb y z) eqn:E; [apply (eqb_trans x y z H E)|].
  destruct (eqb x z) eqn:F; [|reflexivity]. rewrite eqb_sym in H. rewrite <- E. symmetry. apply (eqb_trans y x z H F).
Qed.

Definition ndk (l : list entry) : Prop := ForallOrdPairs (fun a b => eqb (key a) (key b) = false) l.

Lemma ndk_filter p l : ndk l -> ndk (filter p l).
Proof.
  induction 1 as [|a l Ha Hl IH]; [constructor|]. cbn [filter]. destruct (p a); [|exact IH]. constructor; [|exact IH].
  rewrite Forall_forall in *. intros x Hx. apply filter_In in Hx. apply Ha, Hx.
Qed.
Lemma ndk_firstn n l : ndk l -> ndk (firstn n l).
Proof.
  intros H. revert n. induction H as [|a l Ha Hl IH]; intros [|n]; try constructor; [|apply IH].
  rewrite Forall_forall in *. intros x Hx. apply Ha. rewrite <- (firstn_skipn n l). apply in_or_app. auto.
Qed.
Lemma ndk_cons e k (l : list entry) : eqb (key e) k = true -> ndk l -> ndk (e :: others eqb k l).
Proof.
  intros He Hl. constructor; [|apply ndk_filter, Hl]. apply Forall_forall. intros x Hx.
  apply filter_In in Hx as [_ Hx]. unfold is_key in Hx. rewrite (eqb_cong _ _ _ He), eqb_sym.
  destruct (eqb (key x) k); [discriminate|reflexivity].
Qed.
Lemma others_none k (l : list entry) : find (is_key eqb k) l = None -> others eqb k l = l.
Proof.
  induction l as [|a l IH]; [reflexivity|]. cbn [find others filter]. destruct (is_key eqb k a); [discriminate|].
  intros H. cbn [negb]. f_equal. exact (IH H).
Qed.
Lemma others_len k (l : list entry) e : ndk l -> find (is_key eqb k) l = Some e -> S (length (others eqb k l)) = length l.
Proof.
  induction 1 as [|a l Ha Hl IH]; [discriminate|]. cbn [find others filter]. destruct (is_key eqb k a) eqn:Ea; intros H.
  - cbn [negb length]. f_equal. fold (others eqb k l). rewrite others_none; [reflexivity|].
    destruct (find (is_key eqb k) l) as [b|] eqn:F; [|reflexivity]. exfalso. apply find_some in F as [Hb Kb].
    rewrite Forall_forall in Ha. specialize (Ha b Hb). unfold is_key in *. rewrite (eqb_cong _ _ _ Ea), eqb_sym in Ha. congruence.
  - cbn [negb length]. f_equal. apply IH. exact H.
Qed.
Lemma others_app k (l r : list entry) : others eqb k (l ++ r) = others eqb k l ++ others eqb k r.
Proof. apply filter_app. Qed.

Lemma firstn_hit n k (l : list entry) e : n <= length l -> ndk l -> find (is_key eqb k) (firstn n l) = Some e ->
  1 <= n /\ firstn (n - 1) (others eqb k l) = others eqb k (firstn n l).
Proof.
  intros Hn Hl F. pose proof (others_len k (firstn n l) e (ndk_firstn n l Hl) F) as L. rewrite firstn_length_le in L by exact Hn.
  split; [lia|]. rewrite <- (firstn_skipn n l) at 1. rewrite others_app, firstn_app.
  replace (n - 1 - length (others eqb k (firstn n l))) with 0 by lia. cbn [firstn]. rewrite app_nil_r. apply firstn_all2. lia.
Qed.
Lemma firstn_miss n k (l : list entry) : n <= length l -> find (is_key eqb k) (firstn n l) = None ->
  firstn n (others eqb k l) = firstn n l /\ n <= length (others eqb k l).
Proof.
  intros Hn F. pose proof (others_none k (firstn n l) F) as E. split.
  - rewrite <- (firstn_skipn n l) at 1. rewrite others_app, firstn_app, E. rewrite firstn_length_le by exact Hn.
    replace (n - n) with 0 by lia. cbn [firstn]. rewrite app_nil_r. rewrite firstn_firstn, Nat.min_id. reflexivity.
  - rewrite <- (firstn_skipn n l), others_app, app_length, E, firstn_length_le by exact Hn. lia.
Qed.

(** ** Nodes *)
Definition strip (n : node K V) : entry := (nd_key n, nd_val n, nd_weight n).
Definition contents (l : list (node K V)) : list entry := map strip l.

Lemma node_of_in (l : list (node K V)) nd : NoDup (map nd_id l) -> In nd l -> node_of l (nd_id nd) = Some nd.
Proof.
  intros Hn Hi. unfold node_of. induction l as [|a l IH]; [destruct Hi|]. cbn [find]. cbn [map] in Hn. inversion Hn as [|? ? Na Nl]; subst.
  destruct Hi as [->|Hi]; [rewrite Nat.eqb_refl; reflexivity|].
  destruct (Nat.eqb_spec (nd_id a) (nd_id nd)) as [E|E]; [|apply IH; assumption].
  exfalso. apply Na. rewrite E. apply in_map, Hi.
Qed.

Lemma index_find_ok (l : list (node K V)) idx k : NoDup (map nd_id l) -> (forall i, In i idx -> In i (map nd_id l)) ->
  exists r, index_find eqb l idx k = Some r /\
    match r with
    | None => forall nd, In nd l -> In (nd_id nd) idx -> eqb (nd_key nd) k = false
    | Some i => exists nd, In nd l /\ In i idx /\ nd_id nd = i /\ eqb (nd_key nd) k = true
    end.
Proof.
  intros Hn. induction idx as [|i t IH]; intros Hi.
  - exists None. split; [reflexivity|]. intros nd _ [].
  - cbn [index_find]. destruct (proj1 (in_map_iff _ _ _) (Hi i (or_introl eq_refl))) as (nd & <- & Hnd).
    rewrite (node_of_in l nd Hn Hnd). cbn [bind]. destruct (eqb (nd_key nd) k) eqn:E.
    + exists (Some (nd_id nd)). split; [reflexivity|]. exists nd. repeat split; auto. left. reflexivity.
    + destruct IH as (r & Er & S); [intros; apply Hi; right; assumption|]. exists r. split; [exact Er|]. destruct r as [i|].
      * destruct S as (m & H1 & H2 & H3 & H4). exists m. repeat split; auto. right. exact H2.
      * intros m Hm [Em|Hin]; [|apply S; assumption].
        assert (nd = m).
        { pose proof (node_of_in l nd Hn Hnd) as A. pose proof (node_of_in l m Hn Hm) as B. rewrite <- Em in B. congruence. }
        subst. exact E.
Qed.

Lemma ndk_in (l : list entry) a b : ndk l -> In a l -> In b l -> eqb (key a) (key b) = true -> a = b.
Proof.
  induction 1 as [|x l Hx Hl IH]; [intros []|]. intros [->|Ha] [->|Hb] E; auto; rewrite Forall_forall in Hx; exfalso.
  - rewrite (Hx b Hb) in E. discriminate.
  - rewrite eqb_sym, (Hx a Ha) in E. discriminate.
Qed.
Lemma contents_split (l : list (node K V)) nd : NoDup (map nd_id l) -> ndk (contents l) -> In nd l ->
  forall k, eqb (nd_key nd) k = true -> contents (filter (fun m => negb (nd_id m =? nd_id nd)) l) = others eqb k (contents l).
Proof.
  intros Hn Hk Hi k E. unfold contents, others. induction l as [|a l IH]; [destruct Hi|].
  cbn [map] in *. inversion Hn as [|? ? Na Nl]; subst. inversion Hk as [|? ? Ha Hl]; subst. rewrite Forall_forall in Ha.
  cbn [filter]. destruct (Nat.eqb_spec (nd_id a) (nd_id nd)) as [Ei|Ei].
  - assert (a = nd) as ->.
    { destruct Hi as [->|Hi]; [reflexivity|]. exfalso. apply Na. rewrite Ei. apply in_map, Hi. }
    unfold is_key at 1, key, strip at 2. cbn [fst snd negb]. rewrite E. cbn [negb].
    assert (G : forall t, (forall m, In m t -> In m l) -> map strip (filter (fun m => negb (nd_id m =? nd_id nd)) t) = filter (fun e => negb (is_key eqb k e)) (map strip t)).
    { induction t as [|b t IHt]; intros Ht; [reflexivity|]. cbn [filter map].
      assert (Hb : In b l) by (apply Ht; left; reflexivity).
      destruct (Nat.eqb_spec (nd_id b) (nd_id nd)) as [Eb|Eb]; [exfalso; apply Na; rewrite <- Eb; apply in_map, Hb|].
      specialize (Ha (strip b) (in_map _ _ _ Hb)). unfold is_key at 1, key, strip at 2. unfold key, strip in Ha. cbn [fst snd negb] in *.
      rewrite (eqb_cong _ _ _ E), eqb_sym in Ha. rewrite Ha. cbn [negb map]. f_equal. apply IHt. intros m Hm. apply Ht. right. exact Hm. }
    apply G. auto.
  - destruct Hi as [->|Hi]; [congruence|]. specialize (Ha (strip nd) (in_map _ _ _ Hi)).
    unfold is_key at 1, key, strip at 2. unfold key, strip in Ha. cbn [fst snd negb] in *.
    rewrite eqb_sym, (eqb_cong _ _ _ E), eqb_sym in Ha. rewrite Ha. cbn [negb map]. f_equal. apply IH; assumption.
Qed.

Lemma find_contents (l : list (node K V)) nd k : ndk (contents l) -> In nd l -> eqb (nd_key nd) k = true ->
  find (is_key eqb k) (contents l) = Some (strip nd).
Proof.
  intros Hk Hi E. destruct (find (is_key eqb k) (contents l)) as [e|] eqn:F.
  - apply find_some in F as [He Ke]. f_equal. apply (ndk_in (contents l)); [exact Hk|exact He|apply in_map, Hi|].
    unfold is_key in Ke. rewrite (eqb_cong _ _ _ Ke), eqb_sym. exact E.
  - exfalso. pose proof (find_none _ _ F (strip nd) (in_map _ _ _ Hi)) as N. unfold is_key, key, strip in N. cbn in N. congruence.
Qed.
Lemma find_contents_none (l : list (node K V)) k : (forall nd, In nd l -> eqb (nd_key nd) k = false) -> find (is_key eqb k) (contents l) = None.
Proof.
  intros H. destruct (find (is_key eqb k) (contents l)) as [e|] eqn:F; [|reflexivity]. exfalso.
  apply find_some in F as [He Ke]. apply in_map_iff in He as (nd & <- & Hi). specialize (H nd Hi). unfold is_key, key, strip in Ke. cbn in Ke. congruence.
Qed.

Record inv (c : cache K V) : Prop := {
  i_ids : NoDup (map nd_id (c_entries c));
  i_mem : forall i, In i (c_index c) <-> In i (map nd_id (c_entries c));
  i_keys : ndk (contents (c_entries c));
  i_next : forall i, In i (map nd_id (c_entries c)) -> i < c_next c;
  i_used : c_used c = total (contents (c_entries c));
  i_lt : (total (contents (c_entries c)) < 2 ^ 64)%N }.

Lemma total_cons (a : entry) l : total (a :: l) = (weight a + total l)%N.
Proof. reflexivity. Qed.
Lemma total_app (a b : list entry) : total (a ++ b) = (total a + total b)%N.
Proof. induction a as [|x a IH]; [reflexivity|]. cbn [app]. rewrite !total_cons, IH. lia. Qed.
Lemma total_others k (l : list entry) e : ndk l -> find (is_key eqb k) l = Some e -> (total (others eqb k l) + weight e)%N = total l.
Proof.
  induction 1 as [|a l Ha Hl IH]; [discriminate|]. cbn [find others filter]. destruct (is_key eqb k a) eqn:Ea; intros H.
  - injection H as <-. cbn [negb]. rewrite total_cons. fold (others eqb k l). rewrite others_none; [lia|].
    destruct (find (is_key eqb k) l) as [b|] eqn:F; [|reflexivity]. exfalso. apply find_some in F as [Hb Kb].
    rewrite Forall_forall in Ha. specialize (Ha b Hb). unfold is_key in *. rewrite (eqb_cong _ _ _ Ea), eqb_sym in Ha. congruence.
  - cbn [negb]. rewrite !total_cons. fold (others eqb k l). specialize (IH H). lia.
Qed.
Lemma sub64_ok x y : (y <= x -> x < 2 ^ 64 -> sub64 x y = x - y)%N.
Proof.
  intros H1 H2. unfold sub64, wrap64. assert (Z : (2 ^ 64)%N <> 0%N) by discriminate. set (M := (2 ^ 64)%N) in *.
  replace (x + M - y)%N with (x - y + 1 * M)%N by lia.
  rewrite N.mod_add by exact Z. apply N.mod_small. lia.
Qed.
Lemma add64_ok x y : (x + y < 2 ^ 64 -> add64 x y = x + y)%N.
Proof. intros H. apply N.mod_small. exact H. Qed.

Lemma removelast_firstn_app {T} (l : list T) x : removelast (l ++ [x]) = l.
Proof. rewrite removelast_app by discriminate. cbn. apply app_nil_r. Qed.

Lemma snoc_last {T} (l : list T) : l <> [] -> exists i x, l = i ++ [x].
Proof. intros H. destruct (exists_last H) as (i & x & ->). eauto. Qed.

Lemma evict_ok : forall fuel c L, inv c -> contents (c_entries c) = firstn (length (c_entries c)) L -> length (c_entries c) <= length L ->
  length (c_entries c) <= fuel ->
  exists c' m, evict eqb fuel c = Some c' /\ inv c' /\ c_cap c' = c_cap c /\ length (c_entries c') = m /\
    contents (c_entries c') = firstn m L /\ fits (c_cap c) L (length (c_entries c)) m.
Proof.
  induction fuel as [|fuel IH]; intros c L I C HL Hf.
  - exists c, 0. cbn [evict]. assert (length (c_entries c) = 0) by lia. rewrite H.
    replace ((c_cap c <? c_used c)%N && (1 <? 0)) with false by (cbn; rewrite andb_false_r; reflexivity).
    split; [reflexivity|]. split; [exact I|]. split; [reflexivity|]. split; [reflexivity|]. rewrite C, H. split; [reflexivity|].
    split; [lia|]. split; [left; lia|]. split; [left; lia|]. intros; lia.
  - cbn [evict]. destruct ((c_cap c <? c_used c)%N && (1 <? length (c_entries c))) eqn:B.
    + apply andb_prop in B as [B1 B2]. apply N.ltb_lt in B1. apply Nat.ltb_lt in B2.
      destruct (snoc_last (c_entries c)) as (ini & back & Ee); [intros Z; rewrite Z in B2; cbn in B2; lia|].
      rewrite Ee in *. rewrite app_length in *. cbn [length] in *.
      replace (length ini + 1 - 1) with (length ini) by lia.
      replace (rd (ini ++ [back]) (length ini)) with (Some back).
      2:{ unfold rd. rewrite nth_error_app2 by lia. rewrite Nat.sub_diag. reflexivity. }
      cbn [bind]. rewrite removelast_firstn_app.
      pose proof (i_ids c I) as Iids. pose proof (i_mem c I) as Imem. pose proof (i_keys c I) as Ikeys.
      pose proof (i_next c I) as Inext. pose proof (i_used c I) as Iused. pose proof (i_lt c I) as Ilt. rewrite Ee in *.
      assert (Cini : contents ini = firstn (length ini) L).
      { unfold contents in C. rewrite map_app in C. cbn [map] in C.
        assert (E2 : firstn (length ini) (map strip ini ++ [strip back]) = firstn (length ini) (firstn (length ini + 1) L)) by (rewrite C; reflexivity).
        rewrite firstn_app, map_length, Nat.sub_diag, firstn_firstn, Nat.min_l in E2 by lia. cbn [firstn] in E2.
        rewrite app_nil_r, firstn_all2 in E2 by (rewrite map_length; lia). exact E2. }
      destruct (index_find_ok (ini ++ [back]) (c_index c) (nd_key back) Iids) as (r & Er & Sr); [intros i Hi; apply Imem, Hi|].
      rewrite Er. cbn [bind].
      assert (Hb : In back (ini ++ [back])) by (apply in_or_app; right; left; reflexivity).
      destruct r as [i|].
      2:{ exfalso. pose proof (Sr back Hb) as F. rewrite eqb_refl in F. discriminate F. apply Imem, in_map, Hb. }
      destruct Sr as (nd & Hnd & Hin & Eid & Ek).
      assert (nd = back).
      { assert (strip nd = strip back) by (apply (ndk_in _ _ _ Ikeys); [apply in_map, Hnd|apply in_map, Hb|exact Ek]).
        apply in_app_or in Hnd as [Hnd|[Hnd|[]]]; [|congruence]. exfalso. unfold contents in Ikeys. rewrite map_app in Ikeys.
        clear - Ikeys Hnd H Eq Ek. induction ini as [|a t IHt]; [destruct Hnd|]. cbn [map app] in Ikeys. inversion Ikeys as [|? ? Ha Hl]; subst.
        destruct Hnd as [->|Hnd]; [|apply IHt; assumption]. rewrite Forall_forall in Ha.
        specialize (Ha (strip back)). unfold key, strip in Ha. cbn [fst snd] in Ha. rewrite Ha in Ek; [discriminate|apply in_or_app; right; left; reflexivity]. }
      subst nd i.
      assert (T : total (contents (ini ++ [back])) = (total (contents ini) + nd_weight back)%N).
      { unfold contents. rewrite map_app, total_app. cbn. lia. }
      set (c1 := mkCache (c_cap c) (sub64 (c_used c) (nd_weight back)) ini (filter (fun j => negb (j =? nd_id back)) (c_index c)) (c_next c)).
      assert (I1 : inv c1).
      { rewrite map_app in Iids. cbn [map] in Iids.
        assert (Nb : ~ In (nd_id back) (map nd_id ini)).
        { apply NoDup_remove_2 in Iids. rewrite app_nil_r in Iids. exact Iids. }
        constructor; cbn [c_entries c_index c_next c_used c1].
        - apply NoDup_remove_1 in Iids. rewrite app_nil_r in Iids. exact Iids.
        - intros i. rewrite filter_In, Imem, map_app, in_app_iff. cbn [map In]. destruct (Nat.eqb_spec i (nd_id back)) as [->|N]; cbn [negb].
          + split; [intros [_ F]; discriminate|contradiction].
          + split; [intros [[H|[H|[]]] _]; [exact H|congruence]|auto].
        - rewrite Cini. unfold contents in Ikeys. rewrite map_app in Ikeys. apply (ndk_firstn (length ini)) in Ikeys.
          rewrite firstn_app, map_length, Nat.sub_diag in Ikeys. cbn [firstn] in Ikeys. rewrite app_nil_r, firstn_all2 in Ikeys by (rewrite map_length; lia).
          fold (contents ini) in Ikeys. rewrite Cini in Ikeys. exact Ikeys.
        - intros i Hi. apply Inext. rewrite map_app. apply in_or_app. auto.
        - rewrite sub64_ok; rewrite Iused, T; [lia|lia|rewrite <- T; exact Ilt].
        - lia. }
      destruct (IH c1 L I1) as (c' & m & E & I' & Cap & Lm & C' & F); [exact Cini|cbn; lia|cbn; lia|].
      exists c', m. split; [exact E|]. split; [exact I'|]. split; [exact Cap|]. split; [exact Lm|]. split; [exact C'|].
      cbn [c_entries c1 c_cap] in F. destruct F as (F1 & F2 & F3 & F4). split; [lia|]. split; [right; destruct F2 as [F2|F2]; lia|]. split; [exact F3|].
      intros j Hj Hj2. destruct (Nat.eq_dec j (length ini + 1)) as [->|N]; [|apply F4; lia]. rewrite <- C. rewrite <- Iused. exact B1.
    + exists c, (length (c_entries c)). split; [reflexivity|]. split; [exact I|]. split; [reflexivity|]. split; [reflexivity|]. split; [exact C|].
      split; [lia|]. split; [destruct (length (c_entries c)); lia|]. split; [|intros; lia].
      apply andb_false_iff in B as [B|B]; [right|left; apply Nat.ltb_ge in B; lia].
      apply N.ltb_ge in B. rewrite <- C, <- (i_used c I). exact B.
Qed.

(** ** Refinement *)
Definition rel (c : cache K V) (s : list entry * nat) : Prop :=
  inv c /\ ndk (fst s) /\ snd s = length (c_entries c) /\ snd s <= length (fst s) /\
  contents (c_entries c) = firstn (snd s) (fst s) /\
  (length (c_entries c) <= 1 \/ (total (contents (c_entries c)) <= c_cap c)%N) /\
  Forall (fun e : entry => (weight e < 2 ^ 63)%N) (fst s).

Lemma total_le_one (l : list entry) : length l <= 1 -> Forall (fun e : entry => (weight e < 2 ^ 63)%N) l -> (total l < 2 ^ 63)%N.
Proof.
  intros H F. destruct l as [|a [|b l]]; [reflexivity| |cbn in H; lia]. inversion F; subst. cbn. rewrite N.add_0_r. assumption.
Qed.
Lemma rel_total c s : rel c s -> (c_cap c < 2 ^ 63)%N -> (total (contents (c_entries c)) < 2 ^ 63)%N.
Proof.
  intros (I & Nk & Sn & Sl & C & T & F) Hc. destruct T as [T|T]; [|lia]. apply total_le_one.
  - unfold contents. rewrite map_length. exact T.
  - rewrite C. apply Forall_forall. intros x Hx. rewrite Forall_forall in F. apply F. rewrite <- (firstn_skipn (snd s) (fst s)). apply in_or_app. auto.
Qed.

Lemma lookup_ok c s k : rel c s -> exists c' s' r, lookup eqb c k = Some (c', r) /\ rel c' s' /\ c_cap c' = c_cap c /\ rel_step eqb (c_cap c) s (Lookup k) s' r.
Proof.
  intros R. destruct s as [l n]. destruct R as (I & Nk & Sn & Sl & C & T & F). cbn [fst snd] in *.
  unfold lookup. destruct (index_find_ok (c_entries c) (c_index c) k (i_ids c I)) as (r & Er & Sr); [intros i; apply (i_mem c I)|].
  rewrite Er. cbn [bind]. destruct r as [i|].
  - destruct Sr as (nd & Hnd & Hin & <- & Ek). unfold to_front. rewrite (node_of_in _ nd (i_ids c I) Hnd). cbn [bind].
    unfold node_of. cbn [find]. rewrite Nat.eqb_refl. cbn [bind].
    pose proof (contents_split _ nd (i_ids c I) (i_keys c I) Hnd k Ek) as Cs.
    pose proof (find_contents _ nd k (i_keys c I) Hnd Ek) as Fd.
    assert (Fd' := Fd). rewrite C in Fd'.
    destruct (firstn_hit n k l _ Sl Nk Fd') as (H1 & H2).
    pose proof (others_len k _ _ (ndk_firstn n l Nk) Fd') as Ol. rewrite firstn_length_le in Ol by exact Sl.
    set (nf := nd :: filter (fun m : node K V => negb (nd_id m =? nd_id nd)) (c_entries c)).
    assert (Cn : contents nf = strip nd :: others eqb k (contents (c_entries c))).
    { unfold nf, contents at 1. cbn [map]. f_equal. exact Cs. }
    assert (Ln : length nf = length (c_entries c)).
    { rewrite <- (map_length strip nf). fold (contents nf). rewrite Cn. cbn [length]. rewrite C. lia. }
    assert (Tn : total (contents nf) = total (contents (c_entries c))).
    { rewrite Cn. rewrite total_cons.
      pose proof (total_others k _ _ (i_keys c I) Fd). lia. }
    assert (Idn : forall i, In i (map nd_id nf) <-> In i (map nd_id (c_entries c))).
    { intros i. unfold nf. cbn [map In]. rewrite !in_map_iff. split.
      - intros [<-|(m & <- & Hm)]; [exists nd; auto|]. apply filter_In in Hm as [Hm _]. exists m; auto.
      - intros (m & <- & Hm). destruct (Nat.eq_dec (nd_id nd) (nd_id m)) as [E|E]; [left; exact E|]. right. exists m. split; [reflexivity|].
        apply filter_In. split; [exact Hm|]. destruct (Nat.eqb_spec (nd_id m) (nd_id nd)); [congruence|reflexivity]. }
    eexists _, (strip nd :: others eqb k l, n), (Some (value (strip nd))). split; [reflexivity|]. split; [|split; [reflexivity|]].
    + split; [constructor; cbn [c_entries c_index c_next c_used]; fold nf|].
      * unfold nf. cbn [map]. constructor.
        -- intros H. apply in_map_iff in H as (m & E & Hm). apply filter_In in Hm as [_ Hm]. rewrite E, Nat.eqb_refl in Hm. discriminate.
        -- pose proof (i_ids c I) as N. clear - N. induction (c_entries c) as [|a t IH]; [constructor|]. cbn [map filter] in *. inversion N; subst.
           destruct (negb (nd_id a =? nd_id nd)); [|apply IH; assumption]. cbn [map]. constructor; [|apply IH; assumption].
           intros H. apply H1. apply in_map_iff in H as (m & E & Hm). apply filter_In in Hm as [Hm _]. rewrite <- E. apply in_map, Hm.
      * intros i. rewrite Idn. apply (i_mem c I).
      * rewrite Cn. apply ndk_cons; [exact Ek|apply (i_keys c I)].
      * intros i Hi. apply (i_next c I), Idn, Hi.
      * rewrite Tn. apply (i_used c I).
      * rewrite Tn. apply (i_lt c I).
      * cbn [c_entries c_cap fst snd]. fold nf. split; [apply ndk_cons; [exact Ek|exact Nk]|]. split; [lia|]. split.
        { cbn [length]. pose proof (firstn_length (n - 1) (others eqb k l)) as H. rewrite H2 in H. lia. }
        split; [|split].
        { destruct n as [|n']; [lia|]. cbn [firstn]. replace (S n' - 1) with n' in H2 by lia. rewrite H2, Cn, C. reflexivity. }
        { rewrite Ln, Tn. exact T. }
        { constructor.
          - rewrite Forall_forall in F. apply F. rewrite <- (firstn_skipn n l). apply in_or_app. left. rewrite <- C. apply in_map, Hnd.
          - apply Forall_forall. intros x Hx. apply filter_In in Hx as [Hx _]. rewrite Forall_forall in F. apply F, Hx. }
    + apply r_hit with (e := strip nd). exact Fd'.
  - exists c, (l, n), None. split; [reflexivity|]. split; [|split; [reflexivity|]].
    + repeat split; cbn [fst snd]; auto; apply I.
    + apply r_miss. rewrite <- C. apply find_contents_none. intros nd Hnd. apply (Sr nd Hnd). apply (i_mem c I), in_map, Hnd.
Qed.

(** The state before the evictions. *)
Lemma put_mid c s k v w : rel c s -> (c_cap c < 2 ^ 63)%N -> (w < 2 ^ 63)%N ->
  let l := mkNode (c_next c) k v w :: c_entries c in
  let used := add64 (c_used c) w in
  exists c1 e n1,
    (let? r := index_find eqb l (c_index c) k in
     match r with
     | None => Some (mkCache (c_cap c) used l (c_next c :: c_index c) (S (c_next c)))
     | Some i =>
         let? n := node_of l i in
         let used := sub64 used (nd_weight n) in
         let? l2 := to_front (tl (map (set_node i v w) l)) i in
         Some (mkCache (c_cap c) used l2 (c_index c) (S (c_next c)))
     end) = Some c1 /\ inv c1 /\ c_cap c1 = c_cap c /\ length (c_entries c1) = n1 /\ n1 <= length (e :: others eqb k (fst s)) /\
    contents (c_entries c1) = firstn n1 (e :: others eqb k (fst s)) /\ eqb (key e) k = true /\ value e = v /\ weight e = w /\
    match find (is_key eqb k) (firstn (snd s) (fst s)) with
    | None => n1 = S (snd s) /\ key e = k
    | Some e0 => n1 = snd s /\ key e = key e0
    end.
Proof.
  intros R Hc Hw l used. pose proof (rel_total c s R Hc) as Tt. destruct s as [L n]. destruct R as (I & Nk & Sn & Sl & C & T & F). cbn [fst snd] in *.
  assert (Fresh : ~ In (c_next c) (map nd_id (c_entries c))) by (intros H; apply (i_next c I) in H; lia).
  assert (Nl : NoDup (map nd_id l)) by (unfold l; cbn [map]; constructor; [exact Fresh|apply I]).
  destruct (index_find_ok l (c_index c) k Nl) as (r & Er & Sr).
  { intros i Hi. unfold l. cbn [map]. right. apply (i_mem c I), Hi. }
  rewrite Er. cbn [bind].
  assert (U : used = (total (contents (c_entries c)) + w)%N).
  { unfold used. rewrite add64_ok; rewrite (i_used c I); [reflexivity|]. change (2 ^ 64)%N with (2 ^ 63 + 2 ^ 63)%N. set (M := (2 ^ 63)%N) in *. lia. }
  destruct r as [i|].
  - destruct Sr as (nd & Hnd & Hin & <- & Ek).
    assert (Hne : nd_id nd <> c_next c) by (intros E; apply Fresh; rewrite <- E; apply (i_mem c I), Hin).
    assert (Hnd' : In nd (c_entries c)).
    { destruct Hnd as [E|H]; [|exact H]. exfalso. apply Hne. rewrite <- E. reflexivity. }
    rewrite (node_of_in l nd Nl Hnd). cbn [bind]. unfold l. cbn [map tl].
    set (es := map (set_node (nd_id nd) v w) (c_entries c)).
    set (nd' := mkNode (nd_id nd) (nd_key nd) v w).
    assert (Ies : map nd_id es = map nd_id (c_entries c)).
    { unfold es. rewrite map_map. apply map_ext. intros m. unfold set_node. destruct (Nat.eqb_spec (nd_id m) (nd_id nd)); cbn; congruence. }
    assert (Hnd2 : In nd' es).
    { unfold es, nd'. apply in_map_iff. exists nd. split; [|exact Hnd']. unfold set_node. rewrite Nat.eqb_refl. reflexivity. }
    assert (Nes : NoDup (map nd_id es)) by (rewrite Ies; apply I).
    unfold to_front. change (nd_id nd) with (nd_id nd'). rewrite (node_of_in es nd' Nes Hnd2). cbn [bind].
    set (nf := nd' :: filter (fun m : node K V => negb (nd_id m =? nd_id nd')) es).
    assert (Ff : filter (fun m : node K V => negb (nd_id m =? nd_id nd')) es = filter (fun m : node K V => negb (nd_id m =? nd_id nd)) (c_entries c)).
    { unfold es, nd'. cbn [nd_id]. clear. induction (c_entries c) as [|a t IH]; [reflexivity|]. cbn [map filter].
      assert (X : set_node (nd_id nd) v w a = if nd_id a =? nd_id nd then mkNode (nd_id nd) (nd_key a) v w else a) by reflexivity.
      destruct (Nat.eqb_spec (nd_id a) (nd_id nd)) as [E|E]; rewrite X; cbn [nd_id]; [rewrite Nat.eqb_refl; cbn [negb]; apply IH|].
      destruct (Nat.eqb_spec (nd_id a) (nd_id nd)); [congruence|]. cbn [negb]. f_equal. apply IH. }
    pose proof (contents_split _ nd (i_ids c I) (i_keys c I) Hnd' k Ek) as Cs.
    pose proof (find_contents _ nd k (i_keys c I) Hnd' Ek) as Fd. assert (Fd' := Fd). rewrite C in Fd'.
    destruct (firstn_hit n k L _ Sl Nk Fd') as (H1 & H2).
    pose proof (others_len k _ _ (ndk_firstn n L Nk) Fd') as Ol. rewrite firstn_length_le in Ol by exact Sl.
    assert (Cn : contents nf = (nd_key nd, v, w) :: others eqb k (contents (c_entries c))).
    { unfold nf, contents at 1. cbn [map]. f_equal. fold (contents (filter (fun m : node K V => negb (nd_id m =? nd_id nd')) es)). rewrite Ff. exact Cs. }
    assert (Ln : length nf = n).
    { rewrite <- (map_length strip nf). fold (contents nf). rewrite Cn. cbn [length]. rewrite C. lia. }
    pose proof (total_others k _ _ (i_keys c I) Fd) as To. change (weight (strip nd)) with (nd_weight nd) in To.
    assert (Tn : total (contents nf) = (w + total (others eqb k (contents (c_entries c))))%N) by (rewrite Cn; reflexivity).
    assert (Idn : forall i, In i (map nd_id nf) <-> In i (map nd_id (c_entries c))).
    { intros i. unfold nf. rewrite Ff. cbn [map In nd_id nd']. rewrite !in_map_iff. split.
      - intros [<-|(m & <- & Hm)]; [exists nd; auto|]. apply filter_In in Hm as [Hm _]. exists m; auto.
      - intros (m & <- & Hm). destruct (Nat.eq_dec (nd_id nd) (nd_id m)) as [E|E]; [left; exact E|]. right. exists m. split; [reflexivity|].
        apply filter_In. split; [exact Hm|]. destruct (Nat.eqb_spec (nd_id m) (nd_id nd)); [congruence|reflexivity]. }
    eexists _, (nd_key nd, v, w), n. split; [reflexivity|]. split; [|].
    { constructor; cbn [c_entries c_index c_next c_used]; fold nf.
      - unfold nf. cbn [map]. constructor.
        + intros H. apply in_map_iff in H as (m & E & Hm). apply filter_In in Hm as [_ Hm]. rewrite E, Nat.eqb_refl in Hm. discriminate.
        + clear - Nes. induction es as [|a t IH]; [constructor|]. cbn [map filter] in *. inversion Nes; subst.
          destruct (negb (nd_id a =? nd_id nd')); [|apply IH; assumption]. cbn [map]. constructor; [|apply IH; assumption].
          intros H. apply H1. apply in_map_iff in H as (m & E & Hm). apply filter_In in Hm as [Hm _]. rewrite <- E. apply in_map, Hm.
      - intros i. rewrite Idn. apply (i_mem c I).
      - rewrite Cn. apply ndk_cons; [exact Ek|apply (i_keys c I)].
      - intros i Hi. apply Idn, (i_next c I) in Hi. lia.
      - rewrite U, sub64_ok; [lia|lia|]. change (2 ^ 64)%N with (2 ^ 63 + 2 ^ 63)%N. set (M := (2 ^ 63)%N) in *. lia.
      - rewrite Tn. change (2 ^ 64)%N with (2 ^ 63 + 2 ^ 63)%N. set (M := (2 ^ 63)%N) in *. lia. }
    cbn [c_cap c_entries fst snd]. fold nf. split; [reflexivity|]. split; [exact Ln|]. split.
    { cbn [length]. pose proof (firstn_length (n - 1) (others eqb k L)) as H. rewrite H2 in H. lia. }
    split; [|split; [exact Ek|split; [reflexivity|split; [reflexivity|]]]].
    + destruct n as [|n']; [lia|]. cbn [firstn]. replace (S n' - 1) with n' in H2 by lia. rewrite H2, Cn, C. reflexivity.
    + rewrite Fd'. split; reflexivity.
  - assert (Fn : find (is_key eqb k) (contents (c_entries c)) = None).
    { apply find_contents_none. intros nd Hnd. apply Sr; [right; exact Hnd|]. apply (i_mem c I), in_map, Hnd. }
    assert (Fn' := Fn). rewrite C in Fn'. destruct (firstn_miss n k L Sl Fn') as (H1 & H2).
    assert (Cl : contents l = (k, v, w) :: others eqb k (contents (c_entries c))).
    { unfold l, contents at 1. cbn [map]. f_equal. symmetry. apply others_none, Fn. }
    eexists _, (k, v, w), (S n). split; [reflexivity|]. split; [|].
    { constructor; cbn [c_entries c_index c_next c_used].
      - exact Nl.
      - intros i. unfold l. cbn [map In]. rewrite (i_mem c I). reflexivity.
      - rewrite Cl. apply ndk_cons; [apply eqb_refl|apply I].
      - intros i. unfold l. cbn [map In nd_id]. intros [<-|Hi]; [lia|]. apply (i_next c I) in Hi. lia.
      - rewrite Cl, others_none by exact Fn. rewrite total_cons, U. cbn [weight snd]. lia.
      - rewrite Cl, others_none by exact Fn. rewrite total_cons. cbn [weight snd]. change (2 ^ 64)%N with (2 ^ 63 + 2 ^ 63)%N. set (M := (2 ^ 63)%N) in *. lia. }
    cbn [c_cap c_entries fst snd]. split; [reflexivity|]. split; [unfold l; cbn [length]; lia|]. split; [cbn [length]; lia|].
    split; [|split; [apply eqb_refl|split; [reflexivity|split; [reflexivity|]]]].
    + cbn [firstn]. rewrite H1, <- C. unfold l, contents at 1. reflexivity.
    + rewrite Fn'. split; reflexivity.
Qed.

Lemma put_ok c s k v w : rel c s -> (c_cap c < 2 ^ 63)%N -> (w < 2 ^ 63)%N ->
  exists c' s' r, put eqb c k v w = Some (c', r) /\ rel c' s' /\ c_cap c' = c_cap c /\ rel_step eqb (c_cap c) s (Put k v w) s' r.
Proof.
  intros R Hc Hw. pose proof (put_mid c s k v w R Hc Hw) as M. cbv zeta in M. destruct M as (c1 & e & n1 & E & I1 & Cap & L1 & Le & C1 & Ke & Ve & We & Fd).
  unfold put. cbv zeta.
  assert (Ep : forall (X : option (cache K V)) (f : cache K V -> option (cache K V * option V)), X = Some c1 -> bind X f = f c1) by (intros X f ->; reflexivity).
  destruct (index_find eqb (mkNode (c_next c) k v w :: c_entries c) (c_index c) k) as [r|] eqn:Er; [|discriminate E].
  cbn [bind] in *. rewrite (Ep _ _ E).
  destruct (evict_ok (length (c_entries c1)) c1 (e :: others eqb k (fst s)) I1) as (c' & m & Ev & I' & Cap' & Lm & C' & Ft); [rewrite L1; exact C1|lia|lia|].
  rewrite Ev. cbn [bind]. destruct s as [L n]. cbn [fst snd] in *.
  assert (H1 : 1 <= n1).
  { destruct (find (is_key eqb k) (firstn n L)) as [e0|] eqn:F; [|lia]. destruct Fd as [-> _]. destruct n; [discriminate F|lia]. }
  rewrite L1 in Ft. assert (H2 : 1 <= m) by (destruct Ft as (_ & [F|F] & _); lia).
  destruct (c_entries c') as [|f t] eqn:Ec; [cbn in Lm; lia|].
  assert (Sf : strip f = e).
  { destruct m; [lia|]. cbn [contents map firstn] in C'. congruence. }
  cbn [rd nth_error bind]. exists c', (e :: others eqb k L, m), (Some (nd_val f)). split; [reflexivity|].
  assert (Vf : nd_val f = v) by (rewrite <- Ve, <- Sf; reflexivity).
  split; [|split; [congruence|]].
  - split; [exact I'|]. cbn [fst snd]. rewrite Ec. split; [apply ndk_cons; [exact Ke|apply R]|]. split; [lia|]. split.
    { destruct Ft as (F1 & _). lia. }
    split; [exact C'|]. split.
    + rewrite Lm, C'. destruct Ft as (_ & _ & [F|F] & _); [left; exact F|right]. rewrite Cap', Cap. rewrite Cap in F. exact F.
    + constructor; [rewrite We; exact Hw|]. apply Forall_forall. intros x Hx. apply filter_In in Hx as [Hx _]. destruct R as (_ & _ & _ & _ & _ & _ & F). rewrite Forall_forall in F. apply F, Hx.
  - rewrite Vf. rewrite Cap in Ft. destruct e as [[ek ev] ew]. unfold key, value, weight in *. cbn [fst snd] in *. subst ev ew.
    destruct (find (is_key eqb k) (firstn n L)) as [e0|] eqn:F; destruct Fd as [-> ->].
    + apply r_put_old; assumption.
    + apply r_put_new; assumption.
Qed.

Lemma step_ok c s o : rel c s -> (c_cap c < 2 ^ 63)%N -> (op_weight o < 2 ^ 63)%N ->
  exists c' s' r, step eqb c o = Some (c', r) /\ rel c' s' /\ c_cap c' = c_cap c /\ rel_step eqb (c_cap c) s o s' r.
Proof.
  intros R Hc Hw. destruct o as [k v w|k|]; cbn [step].
  - apply put_ok; assumption.
  - apply lookup_ok; assumption.
  - destruct s as [l n]. exists (clear c), ([], 0), None. split; [reflexivity|]. split; [|split; [reflexivity|constructor]].
    split; [constructor; cbn [clear c_entries c_index c_next c_used map]|].
    + constructor.
    + intros i. reflexivity.
    + constructor.
    + intros i [].
    + reflexivity.
    + reflexivity.
    + cbn [clear c_entries length fst snd]. split; [constructor|]. split; [reflexivity|]. split; [lia|]. split; [reflexivity|]. split; [left; lia|constructor].
Qed.
Lemma init_rel cap : rel (lru_init cap) ([], 0).
Proof.
  split; [constructor; cbn [lru_init c_entries c_index c_next c_used map]|].
  - constructor.
  - intros i. reflexivity.
  - constructor.
  - intros i [].
  - reflexivity.
  - reflexivity.
  - cbn [lru_init c_entries length fst snd]. split; [constructor|]. split; [reflexivity|]. split; [lia|]. split; [reflexivity|]. split; [left; lia|constructor].
Qed.
Lemma run_ok : forall h c s, rel c s -> (c_cap c < 2 ^ 63)%N -> Forall (fun o => (op_weight o < 2 ^ 63)%N) h ->
  exists c' s' xs, run eqb c h = Some (c', xs) /\ rel c' s' /\ c_cap c' = c_cap c /\ rel_run eqb (c_cap c) s h s' xs.
Proof.
  induction h as [|o h IH]; intros c s R Hc F.
  - exists c, s, []. split; [reflexivity|]. split; [exact R|]. split; [reflexivity|constructor].
  - inversion F as [|? ? F1 F2]; subst. destruct (step_ok c s o R Hc F1) as (c1 & s1 & x & E & R1 & Cap & S1).
    destruct (IH c1 s1 R1) as (c2 & s2 & xs & E2 & R2 & Cap2 & S2); [rewrite Cap; exact Hc|exact F2|].
    exists c2, s2, (x :: xs). cbn [run]. rewrite E. cbn [bind]. rewrite E2. split; [reflexivity|]. split; [exact R2|]. split; [congruence|].
    rewrite Cap in S2. econstructor; eassumption.
Qed.

(** ** Consequences of the specification *)
Definition fresh_ok (h : list (op K V)) (l : list entry) : Prop :=
  ndk l /\ forall k e, find (is_key eqb k) l = Some e -> last_put eqb h k = Some (value e, weight e).

Lemma find_others k k' (l : list entry) : eqb k k' = false -> find (is_key eqb k') (others eqb k l) = find (is_key eqb k') l.
Proof.
  intros N. induction l as [|a l IH]; [reflexivity|]. cbn [others filter find]. fold (others eqb k l). destruct (is_key eqb k a) eqn:Ea; cbn [negb].
  - replace (is_key eqb k' a) with false; [exact IH|]. unfold is_key in *. rewrite (eqb_cong _ _ _ Ea). symmetry. exact N.
  - cbn [find]. rewrite IH. reflexivity.
Qed.
Lemma find_firstn n k (l : list entry) e : find (is_key eqb k) (firstn n l) = Some e -> find (is_key eqb k) l = Some e.
Proof.
  revert n. induction l as [|a l IH]; intros [|n]; cbn [firstn find]; try discriminate. destruct (is_key eqb k a); [auto|apply IH].
Qed.
Lemma rel_step_fresh cap s o s' x h : rel_step eqb cap s o s' x -> fresh_ok h (fst s) -> fresh_ok (o :: h) (fst s').
Proof.
  intros R [N F]. inversion R; subst; cbn [fst] in *.
  - pose proof (find_firstn _ _ _ _ H) as H'. pose proof (find_some _ _ H') as [He Ke]. split; [apply ndk_cons; assumption|].
    intros k' e'. cbn [find last_put]. unfold is_key at 1. destruct (eqb (key e) k') eqn:E.
    + intros X. injection X as <-. apply F. unfold is_key in Ke.
      rewrite <- H'. clear -Ke E Eq. induction l as [|a l IH]; [reflexivity|]. cbn [find].
      replace (is_key eqb k' a) with (is_key eqb k a); [rewrite IH; reflexivity|]. unfold is_key.
      rewrite (eqb_sym (key a) k), (eqb_sym (key a) k'). apply eqb_cong. rewrite eqb_sym in Ke. apply (eqb_trans _ (key e)); assumption.
    + intros X. rewrite find_others in X; [apply F, X|]. unfold is_key in Ke. rewrite <- E. symmetry. apply eqb_cong, Ke.
  - split; assumption.
  - split; [apply ndk_cons; [apply eqb_refl|exact N]|]. intros k' e'. cbn [find last_put]. unfold is_key at 1. unfold key at 1. cbn [fst snd].
    destruct (eqb k k') eqn:E; intros X; [injection X as <-; reflexivity|]. rewrite find_others in X by exact E. apply F, X.
  - pose proof (find_firstn _ _ _ _ H) as H'. pose proof (find_some _ _ H') as [He Ke]. unfold is_key in Ke.
    split; [apply ndk_cons; [exact Ke|exact N]|]. intros k' e'. cbn [find last_put]. unfold is_key at 1. unfold key at 1. cbn [fst snd].
    rewrite (eqb_cong _ _ k' Ke).
    destruct (eqb k k') eqn:E; intros X; [injection X as <-; reflexivity|]. rewrite find_others in X by exact E. apply F, X.
  - split; [constructor|]. intros k e. discriminate.
Qed.
Lemma rel_run_fresh cap : forall h s s' xs h0, rel_run eqb cap s h s' xs -> fresh_ok h0 (fst s) -> fresh_ok (rev h ++ h0) (fst s').
Proof.
  induction h as [|o h IH]; intros s s' xs h0 R F; inversion R; subst; [exact F|].
  cbn [rev]. rewrite <- app_assoc. cbn [app]. eapply IH; [eassumption|]. eapply rel_step_fresh; eassumption.
Qed.
End P.
