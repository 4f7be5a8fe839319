(** Several threads: registrations and snapshots. *)
From Verif Require Import Base Strings_Model Strings_Spec Strings_Proofs Strings_Props OpReg_Model OpReg_Conc OpReg_Spec OpReg_Proofs OpReg_Seq OpReg_Decay OpReg_Thr OpReg_Snap.

Section Fresh.
Variable ns : name.
Variable g : nat.
Variable ops0 : list (name * op).
Variable h0 : list name.
Notation inv := (inv ops0 h0).
Notation local := (local ops0).
Lemma inv_init r slot thr : represents r ops0 h0 -> (forall t x, rd thr t = Some x -> t_pc x = Idle) -> inv (mkWorld r slot thr) [].
Proof.
  intros (W & Li & Nd & V & Kn) Th. unfold OpReg_Thr.inv. cbn [w_reg w_thr map]. rewrite !app_nil_r. split; [exact W|]. split; [exact Li|]. split; [exact Nd|]. split; [intros t x H; rewrite (Th t x H); exact I|]. split; [intros t1 t2 x1 x2 n H1 _ A1; rewrite (Th t1 x1 H1) in A1; discriminate|]. split; [|split; [|split]].
  - intros n o H. assert (Hn : In n (map fst ops0)) by (destruct (in_dec name_dec n (map fst ops0)) as [J|J]; [exact J|apply find_op_None in J; congruence]). destruct (Kn n (or_introl Hn)) as (i & x & R & N). exists i, x. split; [exact R|]. split; [exact N|]. rewrite (proj1 (V i x R)), N. exact H.
  - intros i x o R H. left. rewrite <- (proj1 (V i x R)). exact H.
  - intros i x R. rewrite (proj2 (V i x R)), total_0; [lia|]. intros t y H. unfold pend. rewrite (Th t y H). reflexivity.
  - intros n H. apply Kn. right. exact H.
Qed.
(** A thread that has not returned can go on. *)
Lemma run_total w new t x : inv w new -> rd (w_thr w) t = Some x -> idle (t_pc x) = false -> step ns g w (Run t) <> None.
Proof.
  intros (W & _ & _ & L0 & _) Rx Id. pose proof (L0 t x Rx) as Lx. cbn [step]. rewrite Rx. cbn [bind]. assert (G : exists r' s' p', run ns g (w_reg w) (w_slot w) (t_pc x) = Some (r', s', p')).
  { destruct (t_pc x) as [|n o|n o i|n o i|n o i cur|n o i|n o res| |s| |v|v todo acc|v todo acc k vis n|v acc|s]; try discriminate Id; cbn [run]; try (eexists _, _, _; reflexivity).
    - destruct (lookup_create_ok (w_reg w) n W) as [(_ & Nq & _)|(l & i & y & E & _)]; [apply C27_qualified in Lx; congruence|]. rewrite E. cbn. eexists _, _, _; reflexivity.
    - destruct Lx as (_ & (y & Ry & _) & _). destruct (store_ok (w_reg w) i (Some o) y W Ry) as (l & -> & _). cbn. eexists _, _, _; reflexivity.
    - destruct Lx as (_ & _ & _ & _ & c & (y & Ry & _) & _). unfold parent_of. rewrite Ry. cbn [bind]. destruct (bump_ok (w_reg w) cur y W Ry) as (l & -> & _). cbn. eexists _, _, _; reflexivity.
    - destruct todo; eexists _, _, _; reflexivity. }
  destruct G as (r' & s' & p' & ->). cbn [bind]. destruct (upd_lt (w_thr w) t (mkThread p' (t_seen x)) (rd_Some_lt _ _ _ Rx)) as (l & ->). discriminate.
Qed.
Lemma inv_implementation w new n o : inv w new -> find_op (ops0 ++ new) n = Some o -> implementation (w_reg w) n = Some o.
Proof.
  intros (W & _ & _ & _ & _ & F & _) H. destruct (F n o H) as (i & x & R & N & Ix). unfold implementation. rewrite <- N, (find_rec_at _ i x (proj1 (proj2 W)) R). cbn. rewrite R. exact Ix.
Qed.
(** When nobody registers. *)
Lemma inv_quiet w new : inv w new -> (forall t x, rd (w_thr w) t = Some x -> active (t_pc x) = None) ->
  (forall n, implementation (w_reg w) n = find_op (ops0 ++ new) n) /\ (forall i x, rd (recs (w_reg w)) i = Some x -> r_rev x = count_in (r_name x) (h0 ++ map fst new)).
Proof.
  intros I Q. pose proof I as (W & _ & _ & _ & _ & F & Im & Rv & _). split.
  - intros n. destruct (find_op (ops0 ++ new) n) as [o|] eqn:E; [eapply inv_implementation; eauto|]. unfold implementation. destruct (find_rec (recs (w_reg w)) n) as [i|] eqn:Ei; [|reflexivity]. destruct (find_rec_Some _ _ _ Ei) as (x & R & N). cbn. rewrite R. destruct (r_impl x) as [o|] eqn:Ix; [|reflexivity]. destruct (Im i x o R Ix) as [H|(t & y & Hy & H)]; [congruence|]. specialize (Q t y Hy). destruct (t_pc y); try contradiction; discriminate.
  - intros i x R. rewrite (Rv i x R), total_0; [lia|]. intros t y H. unfold pend. specialize (Q t y H). destruct (t_pc y); try reflexivity; discriminate.
Qed.
(** What is loaded once stays. *)
Lemma run_impl r slot p r' slot' p' new : wf (recs r) -> local r new p -> run ns g r slot p = Some (r', slot', p') -> forall n o, implementation r n = Some o -> implementation r' n = Some o.
Proof.
  intros W L Ru m o' Im.
  assert (Gen : forall l q, (forall j z, rd (recs r) j = Some z -> exists z', rd l j = Some z' /\ r_name z' = r_name z /\ (r_impl z <> None -> r_impl z' = r_impl z)) -> distinct l -> implementation (mkRegistry l q) m = Some o').
  { intros l q H D. unfold implementation in *. destruct (find_rec (recs r) m) as [i|] eqn:E; [|discriminate]. destruct (find_rec_Some _ _ _ E) as (x & R & N). cbn [impl_at] in Im. rewrite R in Im. destruct (H i x R) as (x' & R' & N' & Ix). cbn [recs]. rewrite <- N, <- N', (find_rec_at l i x' D R'). cbn. rewrite R'. rewrite Ix by congruence. exact Im. }
  destruct p as [|n o|n o i|n o i|n o i cur|n o i|n o res| |s| |v|v todo acc|v todo acc k vis n|v acc|s]; cbn [run] in Ru; try discriminate Ru; try (injection Ru as <- <- <-; exact Im).
  - destruct (lookup_create_ok r n W) as [(_ & Nq & _)|(l & i & y & E & Wl & G & Ry & Ny)]; [cbn in L; apply C27_qualified in L; congruence|]. rewrite E in Ru. cbn in Ru. injection Ru as <- <- <-. apply Gen; [|apply Wl]. intros j z Hz. specialize (G j). rewrite Hz in G. destruct G as (z' & A & B & _ & C). exists z'. auto.
  - destruct L as (_ & (y & Ry & Ny) & Ni). destruct (store_ok r i (Some o) y W Ry) as (l & E & C). rewrite E in Ru. cbn in Ru. injection Ru as <- <- <-. apply Gen; [|apply (wf_changed _ _ _ W C)]. intros j z Hz. specialize (C j). rewrite Hz in C. eexists. split; [exact C|]. cbn. split; [reflexivity|]. intros Nz. destruct (name_dec (r_name z) (r_name y)) as [En|_]; [|reflexivity]. exfalso. apply Nz. assert (j = i) as -> by (eapply (proj1 (proj2 W)); eauto). rewrite (impl_at_named r i y Ry) in Ni. congruence.
  - destruct L as (_ & _ & _ & _ & c & (y & Ry & _) & _). unfold parent_of in Ru. rewrite Ry in Ru. cbn [bind] in Ru. destruct (bump_ok r cur y W Ry) as (l & E & C). rewrite E in Ru. cbn in Ru. injection Ru as <- <- <-. apply Gen; [|apply (wf_changed _ _ _ W C)]. intros j z Hz. specialize (C j). rewrite Hz in C. eexists. split; [exact C|]. cbn. auto.
  - destruct todo; injection Ru as <- <- <-; exact Im.
Qed.
Lemma star_mono (load load' : name -> option op) a b : (forall n o, load n = Some o -> load' n = Some o) -> star load a b -> star load' a b.
Proof. intros H S. induction S; [constructor|econstructor; eauto]. Qed.
Lemma star_leads (load : name -> option op) a b x : star load a b -> leads load b x -> leads load a x.
Proof. induction 1; intros L; [exact L|econstructor; eauto]. Qed.
Lemma leads_mono (load load' : name -> option op) a b : (forall n o, load n = Some o -> load' n = Some o) -> leads load a b -> leads load' a b.
Proof. intros H L. induction L; [constructor; assumption|econstructor; eauto]. Qed.

(** ** Snapshots *)
Definition base (v : nat) (newp : list (name * op)) : Prop := v = count_in ns (h0 ++ map fst newp).
Definition full (newp : list (name * op)) (acc : list nat) (rest : name -> nat -> Prop) : Prop :=
  forall n k, find_op (ops0 ++ newp) n = Some (Overload k) -> in_namespace ns n = true -> In k acc \/ rest n k.
Definition head (r : registry) (n : name) : Prop := In n (listed r) /\ in_namespace ns n = true.
Definition sound (r : registry) (acc : list nat) : Prop := forall k, In k acc -> exists n, head r n /\ leads (implementation r) (Registered n) (Overload k).
Definition snap_ok (r : registry) (new : list (name * op)) (s : snapshot) : Prop :=
  sound r (s_overloads s) /\ exists newp rest, new = newp ++ rest /\ base (s_rev s) newp /\ full newp (s_overloads s) (fun _ _ => False).
Definition seen_in (seen : list name) (l : list (name * op)) : Prop := incl seen (map fst l).
Definition slocal (r : registry) (new : list (name * op)) (x : thread) : Prop :=
  seen_in (t_seen x) (ops0 ++ new) /\
  match t_pc x with
  | SCompare s => snap_ok r new s
  | SList v => exists newp rest, new = newp ++ rest /\ base v newp /\ seen_in (t_seen x) (ops0 ++ newp)
  | SVisit v todo acc => sound r acc /\ incl todo (listed r) /\ exists newp rest, new = newp ++ rest /\ base v newp /\ seen_in (t_seen x) (ops0 ++ newp) /\ full newp acc (fun n _ => In n todo)
  | SHop v todo acc j vis m => sound r acc /\ incl todo (listed r) /\ (exists n, head r n /\ star (implementation r) (Registered n) (Registered m)) /\
      exists newp rest, new = newp ++ rest /\ base v newp /\ seen_in (t_seen x) (ops0 ++ newp) /\ full newp acc (fun n _ => In n todo \/ j = 0 /\ n = m)
  | SSave v acc => sound r acc /\ exists newp rest, new = newp ++ rest /\ base v newp /\ seen_in (t_seen x) (ops0 ++ newp) /\ full newp acc (fun _ _ => False)
  | SDone s => sound r (s_overloads s) /\ forall n k, In n (t_seen x) -> find_op (ops0 ++ new) n = Some (Overload k) -> in_namespace ns n = true -> In k (s_overloads s)
  | _ => True
  end.
Definition sinv (w : world) (new : list (name * op)) : Prop :=
  named (w_reg w) g ns /\ (forall t x, rd (w_thr w) t = Some x -> slocal (w_reg w) new x) /\ forall s, w_slot w = Some s -> snap_ok (w_reg w) new s.
Definition later (r r' : registry) : Prop := (forall n o, implementation r n = Some o -> implementation r' n = Some o) /\ incl (listed r) (listed r').
Lemma sound_mono r r' acc : later r r' -> sound r acc -> sound r' acc.
Proof. intros [Hi Hl] S k Hk. destruct (S k Hk) as (n & [A B] & L). exists n. split; [split; [apply Hl, A|exact B]|eapply leads_mono; eauto]. Qed.
Lemma seen_mono seen a new t : seen_in seen (a ++ new) -> seen_in seen (a ++ new ++ t).
Proof. intros H n I. apply H in I. rewrite app_assoc, map_app, in_app_iff. left. exact I. Qed.
Lemma snap_mono r r' new t s : later r r' -> snap_ok r new s -> snap_ok r' (new ++ t) s.
Proof. intros L (S & newp & rest & -> & B & F). split; [eapply sound_mono; eauto|]. exists newp, (rest ++ t). rewrite app_assoc. auto. Qed.
Lemma find_op_in l n : In n (map fst l) -> find_op l n <> None.
Proof. intros H E. apply find_op_None in E. contradiction. Qed.
Lemma slocal_mono r r' new t x : later r r' -> slocal r new x -> slocal r' (new ++ t) x.
Proof.
  intros L [Se H]. split; [apply seen_mono, Se|]. pose proof L as [Li Ll].
  assert (Ex : forall Q : list (name * op) -> Prop, (exists newp rest, new = newp ++ rest /\ Q newp) -> exists newp rest, new ++ t = newp ++ rest /\ Q newp) by (intros Q (newp & rest & -> & HQ); exists newp, (rest ++ t); rewrite app_assoc; auto).
  destruct (t_pc x) as [| | | | | | | |s| |v|v todo acc|v todo acc k vis n|v acc|s]; try exact Logic.I.
  - eapply snap_mono; eauto.
  - apply (Ex (fun newp => base v newp /\ seen_in (t_seen x) (ops0 ++ newp))). exact H.
  - destruct H as (S & T & E). split; [eapply sound_mono; eauto|]. split; [eapply incl_tran; eauto|]. apply (Ex (fun newp => base v newp /\ seen_in (t_seen x) (ops0 ++ newp) /\ full newp acc (fun n0 _ => In n0 todo))). exact E.
  - destruct H as (S & T & (m & [Hm Nm] & St) & E). split; [eapply sound_mono; eauto|]. split; [eapply incl_tran; eauto|]. split; [exists m; split; [split; [apply Ll, Hm|exact Nm]|eapply star_mono; eauto]|]. apply (Ex (fun newp => base v newp /\ seen_in (t_seen x) (ops0 ++ newp) /\ full newp acc (fun n0 _ => In n0 todo \/ k = 0 /\ n0 = n))). exact E.
  - destruct H as (S & E). split; [eapply sound_mono; eauto|]. apply (Ex (fun newp => base v newp /\ seen_in (t_seen x) (ops0 ++ newp) /\ full newp acc (fun _ _ => False))). exact E.
  - destruct H as (S & E). split; [eapply sound_mono; eauto|]. intros n k I F. apply (E n k I). rewrite app_assoc, find_op_app_l in F. pose proof (find_op_in _ _ (Se n I)) as Nn. destruct (find_op (ops0 ++ new) n); [exact F|congruence].
Qed.
Lemma count_in_app2 m a b : count_in m (a ++ b) = count_in m a + count_in m b.
Proof. unfold count_in. rewrite filter_app, app_length. reflexivity. Qed.
(** A kept snapshot of the present revision has everything that is listed. *)
Lemma compare_ok w new s n k : inv w new -> named (w_reg w) g ns -> snap_ok (w_reg w) new s -> s_rev s = rev_at (w_reg w) (Some g) -> find_op (ops0 ++ new) n = Some (Overload k) -> in_namespace ns n = true -> In k (s_overloads s).
Proof.
  intros I (y & Ry & Ny) (_ & newp & rest & -> & B & F) E Fn N. pose proof I as (_ & _ & _ & _ & _ & _ & _ & Rv & _). cbn in E. rewrite Ry, (Rv g y Ry), Ny, B, map_app, app_assoc, (count_in_app2 ns (h0 ++ map fst newp)) in E. assert (C : count_in ns (map fst rest) = 0) by lia.
  assert (Fr : find_op rest n = None). { apply find_op_None. intros J. unfold count_in in C. apply length_zero_iff_nil in C. assert (J2 : In n (filter (enclosesb ns) (map fst rest))) by (apply filter_In; split; [exact J|apply enclosesb_ok, in_namespace_encloses, N]). rewrite C in J2. destruct J2. }
  rewrite app_assoc, find_op_app_l, Fr in Fn. destruct (find_op (ops0 ++ newp) n) as [q|] eqn:E2; [|discriminate]. injection Fn as ->. destruct (F n k E2 N) as [H|[]]. exact H.
Qed.
Lemma sstep_ok w e w' new : inv w new -> sinv w new -> orderly ns w e -> step ns g w e = Some w' -> exists new', inv w' new' /\ sinv w' new'.
Proof.
  intros I (Ng & Sl & Ss) [Po Or] St. destruct (step_ok ns g ops0 h0 w e w' new I Po St) as (new' & I' & Hn). exists new'. split; [exact I'|]. assert (exists tl, new' = new ++ tl) as (tl & ->) by (destruct Hn as [->|(n & o & ->)]; [exists []; rewrite app_nil_r; reflexivity|eexists; reflexivity]). clear Hn.
  pose proof I as (W & Li & Nd & L0 & _). pose proof I' as (W' & Li' & _). destruct e as [t q|t]; cbn [step] in St.
  - destruct (rd (w_thr w) t) as [x|] eqn:Rx; [|discriminate]. cbn [bind] in St. destruct (idle (t_pc x)); [|discriminate]. destruct (upd (w_thr w) t _) as [thr'|] eqn:U; [|discriminate]. cbn [bind] in St. injection St as <-. destruct (upd_spec _ _ _ _ U) as (_ & _ & R'). cbn [w_reg w_slot w_thr] in *.
    assert (La : later (w_reg w) (w_reg w)) by (split; [auto|apply incl_refl]). split; [exact Ng|]. split; [|intros s Hs; eapply snap_mono; [exact La|apply Ss, Hs]]. cbn [w_thr w_reg]. intros t' y Hy. rewrite R' in Hy. destruct (t' =? t); [|eapply slocal_mono; [exact La|eapply Sl, Hy]]. injection Hy as <-. split.
    + cbn. apply seen_mono. rewrite Li. intros n H. exact H.
    + cbn. destruct q as [n o|]; cbn; [destruct (is_qualified n)|]; exact Logic.I.
  - destruct (rd (w_thr w) t) as [x|] eqn:Rx; [|discriminate]. cbn [bind] in St. destruct (run ns g (w_reg w) (w_slot w) (t_pc x)) as [[[r' slot'] p']|] eqn:Ru; [|discriminate]. cbn [bind] in St. destruct (upd (w_thr w) t (mkThread p' (t_seen x))) as [thr'|] eqn:U; [|discriminate]. cbn [bind] in St. injection St as <-. destruct (upd_spec _ _ _ _ U) as (_ & _ & R'). cbn [w_reg w_slot w_thr] in *.
    assert (La : later (w_reg w) r') by (split; [eapply run_impl; [exact W|eapply L0, Rx|exact Ru]|rewrite Li, Li', app_assoc, (map_app _ (ops0 ++ new)); intros n H; apply in_or_app; left; exact H]).
    assert (Kp : named r' g ns).
    { destruct Ng as (y & Ry & Ny). clear -Ru Ry Ny W L0 Rx. pose proof (L0 t x Rx) as L. destruct (t_pc x) as [|n o|n o i|n o i|n o i cur|n o i|n o res| |s| |v|v todo acc|v todo acc k vis n|v acc|s]; cbn [run] in Ru; try discriminate Ru; try (injection Ru as <- <- <-; exists y; auto; fail).
      - destruct (lookup_create_ok (w_reg w) n W) as [(_ & Nq & _)|(l & i & y' & E & Wl & G & _)]; [cbn in L; apply C27_qualified in L; congruence|]. rewrite E in Ru. cbn in Ru. injection Ru as <- <- <-. apply (kept_grown _ l (listed (w_reg w)) G). exists y. auto.
      - destruct L as (_ & (y' & Ry' & _) & _). destruct (store_ok (w_reg w) i (Some o) y' W Ry') as (l & E & C). rewrite E in Ru. cbn in Ru. injection Ru as <- <- <-. apply (kept_changed _ l (listed (w_reg w)) _ C). exists y. auto.
      - destruct L as (_ & _ & _ & _ & c & (y' & Ry' & _) & _). unfold parent_of in Ru. rewrite Ry' in Ru. cbn [bind] in Ru. destruct (bump_ok (w_reg w) cur y' W Ry') as (l & E & C). rewrite E in Ru. cbn in Ru. injection Ru as <- <- <-. apply (kept_changed _ l (listed (w_reg w)) _ C). exists y. auto.
      - destruct todo; injection Ru as <- <- <-; exists y; auto. }
    destruct (Sl t x Rx) as [Se Lx].
    (* the thread that has moved, and what is kept *)
    assert (Core : slocal r' (new ++ tl) (mkThread p' (t_seen x)) /\ forall s, slot' = Some s -> snap_ok r' (new ++ tl) s).
    { assert (Slot : slot' = w_slot w -> forall s, slot' = Some s -> snap_ok r' (new ++ tl) s) by (intros -> s Hs; eapply snap_mono; [exact La|apply Ss, Hs]).
      assert (Mono : r' = w_reg w -> slocal (w_reg w) new (mkThread p' (t_seen x)) -> slocal r' (new ++ tl) (mkThread p' (t_seen x))) by (intros -> H; eapply slocal_mono; [exact La|exact H]).
      assert (Triv : match p' with RCheck _ _ _ | RStore _ _ _ | RBump _ _ _ _ | RList _ _ _ | RDone _ _ _ | SRev => True | _ => False end -> slocal r' (new ++ tl) (mkThread p' (t_seen x))) by (intros H; split; [apply seen_mono, Se|]; cbn; destruct p'; try contradiction; exact Logic.I).
      destruct (t_pc x) as [|n o|n o i|n o i|n o i cur|n o i|n o res| |s| |v|v todo acc|v todo acc k vis n|v acc|s] eqn:Ep; cbn [run] in Ru; try discriminate Ru.
      - destruct (lookup_create (w_reg w) n) as [[r1 [i|]]|]; try discriminate Ru. cbn in Ru. injection Ru as <- <- <-. split; [apply Triv; exact Logic.I|apply Slot; reflexivity].
      - injection Ru as <- <- <-. split; [apply Triv; destruct (rd (recs (w_reg w)) i) as [z|]; [destruct (r_impl z)|]; exact Logic.I|apply Slot; reflexivity].
      - destruct (store (w_reg w) i (Some o)); [|discriminate]. cbn in Ru. injection Ru as <- <- <-. split; [apply Triv; exact Logic.I|apply Slot; reflexivity].
      - destruct (parent_of (w_reg w) cur) as [pa|]; [|discriminate]. cbn in Ru. destruct (bump (w_reg w) cur); [|discriminate]. cbn in Ru. injection Ru as <- <- <-. split; [apply Triv; destruct pa; exact Logic.I|apply Slot; reflexivity].
      - injection Ru as <- <- <-. split; [apply Triv; exact Logic.I|apply Slot; reflexivity].
      - injection Ru as <- <- <-. split; [|apply Slot; reflexivity]. apply Mono; [reflexivity|]. split; [exact Se|]. cbn. destruct (w_slot w) as [s|] eqn:Es; [apply Ss; reflexivity|exact Logic.I].
      - injection Ru as <- <- <-. split; [|apply Slot; reflexivity]. apply Mono; [reflexivity|]. split; [exact Se|]. cbn [t_pc t_seen]. match goal with |- context [if ?b then _ else _] => destruct b eqn:Eb end; [|exact Logic.I]. apply Nat.eqb_eq in Eb. split; [apply Lx|]. intros n k J Fn N. apply (compare_ok w new s n k I Ng Lx); [exact Eb|exact Fn|exact N].
      - injection Ru as <- <- <-. split; [|apply Slot; reflexivity]. apply Mono; [reflexivity|]. split; [exact Se|]. cbn [t_pc t_seen]. exists new, []. rewrite app_nil_r. split; [reflexivity|]. split; [|exact Se]. unfold base. destruct Ng as (y & Ry & Ny). pose proof I as (_ & _ & _ & _ & _ & _ & _ & Rv & _). cbn. rewrite Ry, (Rv g y Ry), Ny, total_0; [lia|]. intros t' z Hz. unfold pend. rewrite (Or x eq_refl Ep t' z Hz). reflexivity.
      - injection Ru as <- <- <-. split; [|apply Slot; reflexivity]. apply Mono; [reflexivity|]. split; [exact Se|]. cbn [t_pc t_seen]. split; [intros k []|]. split; [apply incl_refl|]. destruct Lx as (newp & rest & -> & B & S). exists newp, rest. split; [reflexivity|]. split; [exact B|]. split; [exact S|]. intros n k Fn N. right. rewrite Li, app_assoc, (map_app _ (ops0 ++ newp)). apply in_or_app. left. destruct (in_dec name_dec n (map fst (ops0 ++ newp))) as [J|J]; [exact J|apply find_op_None in J; congruence].
      - destruct Lx as (So & In_ & newp & rest & Enew & B & S & F). destruct todo as [|m todo]; injection Ru as <- <- <-; (split; [|apply Slot; reflexivity]); apply Mono; try reflexivity; (split; [exact Se|]); cbn [t_pc t_seen].
        + split; [exact So|]. exists newp, rest. split; [exact Enew|]. split; [exact B|]. split; [exact S|]. intros n k Fn N. destruct (F n k Fn N) as [H|[]]. auto.
        + assert (It : incl todo (listed (w_reg w))) by (intros n H; apply In_; right; exact H). destruct (in_namespace ns m) eqn:Nm.
          * destruct (lookup (w_reg w) m) as [j|] eqn:El.
            -- split; [exact So|]. split; [exact It|]. split; [exists m; split; [split; [apply In_; left; reflexivity|exact Nm]|constructor]|]. exists newp, rest. split; [exact Enew|]. split; [exact B|]. split; [exact S|]. intros n k Fn N. destruct (F n k Fn N) as [H|[<-|H]]; auto.
            -- split; [exact So|]. split; [exact It|]. exists newp, rest. split; [exact Enew|]. split; [exact B|]. split; [exact S|]. intros n k Fn N. destruct (F n k Fn N) as [H|[<-|H]]; auto. exfalso. assert (Fm : find_op (ops0 ++ new) m = Some (Overload k)) by (rewrite Enew, app_assoc, find_op_app_l, Fn; reflexivity). pose proof (inv_implementation w new m _ I Fm) as Im. unfold implementation in Im. unfold lookup in El. destruct (find_rec (recs (w_reg w)) m); [|discriminate]. rewrite Im in El. discriminate.
          * split; [exact So|]. split; [exact It|]. exists newp, rest. split; [exact Enew|]. split; [exact B|]. split; [exact S|]. intros n k Fn N. destruct (F n k Fn N) as [H|[<-|H]]; auto. congruence.
      - destruct Lx as (So & It & (n0 & H0 & S0) & newp & rest & Enew & B & S & F). injection Ru as <- <- <-. split; [|apply Slot; reflexivity]. apply Mono; [reflexivity|]. split; [exact Se|]. cbn [t_pc t_seen]. unfold after_load.
        assert (Skip : (forall kk, k = 0 -> implementation (w_reg w) n <> Some (Overload kk)) -> sound (w_reg w) acc /\ incl todo (listed (w_reg w)) /\ exists newp0 rest0, new = newp0 ++ rest0 /\ base v newp0 /\ seen_in (t_seen x) (ops0 ++ newp0) /\ full newp0 acc (fun n1 _ => In n1 todo)).
        { intros Hk. split; [exact So|]. split; [exact It|]. exists newp, rest. split; [exact Enew|]. split; [exact B|]. split; [exact S|]. intros m kk Fn N. destruct (F m kk Fn N) as [H|[H|[Ek ->]]]; auto. exfalso. apply (Hk kk Ek). eapply inv_implementation; [exact I|]. rewrite Enew, app_assoc, find_op_app_l, Fn. reflexivity. }
        destruct (implementation (w_reg w) n) as [q|] eqn:Iq; [|apply Skip; discriminate].
        assert (Ds : forall kk, k = 0 -> q = Overload kk -> decay_step (Datatypes.S k) vis q = inl (Is (Overload kk))) by (intros kk -> ->; reflexivity).
        assert (Sq : star (implementation (w_reg w)) (Registered n0) q) by (eapply star_trans; [exact S0|]; econstructor; [exact Iq|constructor]).
        destruct (decay_step (Datatypes.S k) vis q) as [d|[m vis']] eqn:Ed.
        + assert (Other : (forall kk, d <> Is (Overload kk)) -> forall kk, k = 0 -> Some q <> Some (Overload kk)) by (intros Hd kk Ek Eq; injection Eq as ->; specialize (Ds kk Ek eq_refl); apply (Hd kk); congruence).
          destruct d as [[j|j|m]|m|c]; try (apply Skip, Other; discriminate). assert (q = Overload j) as ->. { unfold decay_step in Ed. destruct (Datatypes.S k <? ignore_depth); [|destruct (existsb (op_eqb q) vis); [discriminate|]]; destruct q; try discriminate; congruence. }
          split; [intros kk Hk; apply in_app_or in Hk as [Hk|[<-|[]]]; [apply So, Hk|exists n0; split; [exact H0|eapply star_leads; [exact Sq|constructor; discriminate]]]|]. split; [exact It|]. exists newp, rest. split; [exact Enew|]. split; [exact B|]. split; [exact S|]. intros m kk Fn N. destruct (F m kk Fn N) as [H|[H|[Ek ->]]]; [left; apply in_or_app; auto|auto|]. left. apply in_or_app. right. left. assert (Fm : find_op (ops0 ++ new) n = Some (Overload kk)) by (rewrite Enew, app_assoc, find_op_app_l, Fn; reflexivity). pose proof (inv_implementation w new n _ I Fm) as Im2. congruence.
        + assert (q = Registered m) as ->. { unfold decay_step in Ed. destruct (Datatypes.S k <? ignore_depth); [|destruct (existsb (op_eqb q) vis); [discriminate|]]; destruct q; try discriminate; congruence. }
          split; [exact So|]. split; [exact It|]. split; [exists n0; split; [exact H0|exact Sq]|]. exists newp, rest. split; [exact Enew|]. split; [exact B|]. split; [exact S|]. intros m' kk Fn N. destruct (F m' kk Fn N) as [H|[H|[Ek ->]]]; auto. exfalso. assert (Fm : find_op (ops0 ++ new) n = Some (Overload kk)) by (rewrite Enew, app_assoc, find_op_app_l, Fn; reflexivity). pose proof (inv_implementation w new n _ I Fm) as Im2. congruence.
      - destruct Lx as (So & newp & rest & Enew & B & S & F). injection Ru as <- <- <-. split.
        + apply Mono; [reflexivity|]. split; [exact Se|]. cbn [t_pc t_seen s_overloads]. split; [exact So|]. intros n k J Fn N. apply S in J. apply find_op_in in J. rewrite Enew, app_assoc, find_op_app_l in Fn. destruct (find_op (ops0 ++ newp) n) as [q|] eqn:Eq; [|congruence]. injection Fn as ->. destruct (F n k Eq N) as [H|[]]. exact H.
        + intros s Hs. injection Hs as <-. eapply snap_mono; [exact La|]. split; [exact So|]. exists newp, rest. auto. }
    destruct Core as [C1 C2]. split; [exact Kp|]. split; [|exact C2]. cbn [w_thr w_reg]. intros t' y Hy. rewrite R' in Hy. destruct (t' =? t); [injection Hy as <-; exact C1|]. eapply slocal_mono; [exact La|eapply Sl, Hy].
Qed.
(** ** Reachable states *)
Lemma reach_inv w0 w : inv w0 [] -> reaches ns g polite w0 w -> exists new, inv w new.
Proof. intros I R. induction R as [|w w' e R IH Po St]; [eauto|]. destruct IH as (new & I1). destruct (step_ok ns g ops0 h0 w e w' new I1 Po St) as (new' & I2 & _). eauto. Qed.
Lemma reach_sinv w0 w : inv w0 [] -> sinv w0 [] -> reaches ns g (orderly ns) w0 w -> exists new, inv w new /\ sinv w new.
Proof. intros I S R. induction R as [|w w' e R IH Po St]; [eauto|]. destruct IH as (new & I1 & S1). eapply sstep_ok; eauto. Qed.
End Fresh.
