(** Several threads: what holds in every reachable state. *)
From Verif Require Import Base Strings_Model Strings_Spec Strings_Proofs Strings_Props OpReg_Model OpReg_Conc OpReg_Spec OpReg_Proofs OpReg_Seq.

Section Sums.
Context {A : Type}.
Variable f : A -> nat.
Fixpoint total (l : list A) : nat := match l with [] => 0 | x :: t => f x + total t end.
Lemma total_upd l : forall t x y l', rd l t = Some x -> upd l t y = Some l' -> total l' + f x = total l + f y.
Proof.
  induction l as [|a l IH]; intros t x y l' R U; [destruct t; discriminate|]. destruct t as [|t]; cbn in R, U.
  - injection R as ->. injection U as <-. cbn. lia.
  - destruct (upd l t y) as [l1|] eqn:E; [|discriminate]. injection U as <-. cbn. specialize (IH t x y l1 R E). lia.
Qed.
Lemma total_0 l : (forall t x, rd l t = Some x -> f x = 0) -> total l = 0.
Proof. induction l as [|a l IH]; intros H; [reflexivity|]. cbn. rewrite (H 0 a eq_refl), IH; [reflexivity|]. intros t x E. apply (H (S t) x), E. Qed.
End Sums.
Lemma total_ext {A} (f g : A -> nat) l : (forall t x, rd l t = Some x -> f x = g x) -> total f l = total g l.
Proof. induction l as [|a l IH]; intros H; [reflexivity|]. cbn. rewrite (H 0 a eq_refl), IH; [reflexivity|]. intros t x E. apply (H (S t) x), E. Qed.

Section Threads.
Variable ns : name.
Variable g : nat.
Variable ops0 : list (name * op).
Variable h0 : list name.
Definition pend (r : registry) (m : name) (x : thread) : nat := one (announced r m (t_pc x)).
Definition named (r : registry) (i : nat) (n : name) : Prop := exists x, rd (recs r) i = Some x /\ r_name x = n.
Definition local (r : registry) (new : list (name * op)) (p : pc) : Prop :=
  match p with
  | RLookup n o => qualified n
  | RCheck n o i => qualified n /\ named r i n
  | RStore n o i => qualified n /\ named r i n /\ impl_at r (Some i) = None
  | RBump n o i cur => qualified n /\ named r i n /\ impl_at r (Some i) = Some o /\ find_op (ops0 ++ new) n = None /\ exists m, named r cur m /\ encloses m n
  | RList n o i => qualified n /\ named r i n /\ impl_at r (Some i) = Some o /\ find_op (ops0 ++ new) n = None
  | RDone n o (inr i) => named r i n /\ find_op new n = Some o /\ find_op ops0 n = None
  | RDone n o (inl AlreadyExists) => In n (map fst (ops0 ++ new))
  | RDone n o (inl InvalidName) => ~ qualified n
  | _ => True
  end.
Definition flying (p : pc) (n : name) (o : op) : Prop := match p with RBump n' o' _ _ | RList n' o' _ => n' = n /\ o' = o | _ => False end.
Definition inv (w : world) (new : list (name * op)) : Prop :=
  wf (recs (w_reg w)) /\ listed (w_reg w) = map fst (ops0 ++ new) /\ NoDup (map fst (ops0 ++ new)) /\
  (forall t x, rd (w_thr w) t = Some x -> local (w_reg w) new (t_pc x)) /\
  (forall t1 t2 x1 x2 n, rd (w_thr w) t1 = Some x1 -> rd (w_thr w) t2 = Some x2 -> active (t_pc x1) = Some n -> active (t_pc x2) = Some n -> t1 = t2) /\
  (forall n o, find_op (ops0 ++ new) n = Some o -> exists i x, rd (recs (w_reg w)) i = Some x /\ r_name x = n /\ r_impl x = Some o) /\
  (forall i x o, rd (recs (w_reg w)) i = Some x -> r_impl x = Some o -> find_op (ops0 ++ new) (r_name x) = Some o \/ exists t y, rd (w_thr w) t = Some y /\ flying (t_pc y) (r_name x) o) /\
  (forall i x, rd (recs (w_reg w)) i = Some x -> r_rev x = count_in (r_name x) (h0 ++ map fst new) + total (pend (w_reg w) (r_name x)) (w_thr w)) /\
  (forall n, In n (h0 ++ map fst new) -> known (recs (w_reg w)) n).
(** ** The records stay where they are *)
Definition kept (r r' : registry) : Prop := forall i n, named r i n -> named r' i n.
Lemma kept_grown r l q : grown (recs r) l -> kept r (mkRegistry l q).
Proof. intros G i n (x & R & N). specialize (G i). rewrite R in G. destruct G as (x' & R' & N' & _). exists x'. split; [exact R'|congruence]. Qed.
Lemma kept_changed r l q f : changed (recs r) l f -> kept r (mkRegistry l q).
Proof. intros C i n (x & R & N). specialize (C i). rewrite R in C. eexists. split; [exact C|exact N]. Qed.
Lemma named_at r i n : named r i n -> name_at r i = n.
Proof. intros (x & R & N). unfold name_at. rewrite R. exact N. Qed.
Lemma pend_kept r r' new m x : kept r r' -> local r new (t_pc x) -> pend r' m x = pend r m x.
Proof.
  intros K L. unfold pend. destruct (t_pc x) as [| | | |n o i cur| | | | | | | | | |]; try reflexivity. cbn in *. destruct L as (_ & _ & _ & _ & c & Nc & _). rewrite (named_at _ _ _ Nc), (named_at _ _ _ (K _ _ Nc)). reflexivity.
Qed.
(** [local] and registries that differ only in what does not matter to a thread. *)
Lemma local_kept r r' new new' p : kept r r' -> (forall i n, named r i n -> active p = Some n -> impl_at r' (Some i) = impl_at r (Some i)) ->
  (forall n o, find_op (ops0 ++ new) n = Some o -> find_op (ops0 ++ new') n = Some o) -> (forall n o, find_op new n = Some o -> find_op new' n = Some o) -> (forall n, active p = Some n -> find_op (ops0 ++ new) n = None -> find_op (ops0 ++ new') n = None) -> local r new p -> local r' new' p.
Proof.
  intros K I F F' N L. destruct p as [|n o|n o i|n o i|n o i cur|n o i|n o res| | | | | | | |]; cbn in *; auto.
  - destruct L as (Q & M). auto.
  - destruct L as (Q & M & Im). split; [exact Q|]. split; [auto|]. rewrite (I i n M eq_refl). exact Im.
  - destruct L as (Q & M & Im & Fn & c & Mc & Ec). split; [exact Q|]. split; [auto|]. split; [rewrite (I i n M eq_refl); exact Im|]. split; [auto|]. exists c. auto.
  - destruct L as (Q & M & Im & Fn). split; [exact Q|]. split; [auto|]. split; [rewrite (I i n M eq_refl); exact Im|auto].
  - destruct res as [[]|i]; auto.
    + destruct (find_op (ops0 ++ new) n) as [q|] eqn:E; [|apply find_op_None in E; contradiction]. apply F in E. destruct (in_dec name_dec n (map fst (ops0 ++ new'))) as [H|H]; [exact H|]. apply find_op_None in H. congruence.
    + destruct L as (M & Fn & F0). auto.
Qed.
Lemma inv_step r r' slot slot' thr thr' new new' t x p' s' : inv (mkWorld r slot thr) new -> rd thr t = Some x -> upd thr t (mkThread p' s') = Some thr' ->
  wf (recs r') -> listed r' = map fst (ops0 ++ new') -> NoDup (map fst (ops0 ++ new')) -> kept r r' ->
  (forall t' y, t' <> t -> rd thr t' = Some y -> local r' new' (t_pc y)) -> local r' new' p' ->
  (forall n, active p' = Some n -> active (t_pc x) = Some n \/ forall t' y, t' <> t -> rd thr t' = Some y -> active (t_pc y) <> Some n) ->
  (forall n o, find_op (ops0 ++ new') n = Some o -> exists i y, rd (recs r') i = Some y /\ r_name y = n /\ r_impl y = Some o) ->
  (forall i y o, rd (recs r') i = Some y -> r_impl y = Some o -> find_op (ops0 ++ new') (r_name y) = Some o \/ flying p' (r_name y) o \/ exists t' z, t' <> t /\ rd thr t' = Some z /\ flying (t_pc z) (r_name y) o) ->
  (forall i y, rd (recs r') i = Some y -> r_rev y + pend r (r_name y) x = count_in (r_name y) (h0 ++ map fst new') + total (pend r (r_name y)) thr + one (announced r' (r_name y) p')) ->
  (forall n, In n (h0 ++ map fst new') -> known (recs r') n) -> inv (mkWorld r' slot' thr') new'.
Proof.
  intros I Rx U W Li Nd K Lo Lt Ac F Im Rv Kn. destruct I as (_ & _ & _ & L0 & D0 & _ & _ & _ & _). cbn [w_reg w_thr] in *. destruct (upd_spec _ _ _ _ U) as (_ & _ & R'). split; [exact W|]. split; [exact Li|]. split; [exact Nd|]. cbn [w_reg w_thr].
  split; [|split; [|split; [exact F|split; [|split; [|exact Kn]]]]].
  - intros t' y Hy. rewrite R' in Hy. destruct (Nat.eqb_spec t' t) as [->|N]; [injection Hy as <-; exact Lt|eapply Lo; eauto].
  - intros t1 t2 x1 x2 n H1 H2 A1 A2. rewrite R' in H1, H2. destruct (Nat.eqb_spec t1 t) as [->|N1]; destruct (Nat.eqb_spec t2 t) as [->|N2]; [reflexivity| | |eapply D0; eauto].
    + injection H1 as <-. cbn in A1. destruct (Ac n A1) as [Ax|Fr]; [eapply D0; eauto|destruct (Fr t2 x2 N2 H2 A2)].
    + injection H2 as <-. cbn in A2. destruct (Ac n A2) as [Ax|Fr]; [eapply D0; eauto|destruct (Fr t1 x1 N1 H1 A1)].
  - intros i y o Hy Ho. destruct (Im i y o Hy Ho) as [H|[H|(t' & z & N & Hz & H)]]; [left; exact H| |].
    + right. exists t, (mkThread p' s'). rewrite R', Nat.eqb_refl. auto.
    + right. exists t', z. rewrite R', (proj2 (Nat.eqb_neq t' t) N). auto.
  - intros i y Hy. specialize (Rv i y Hy). pose proof (total_upd (pend r' (r_name y)) thr t x _ thr' Rx U) as T. assert (E : total (pend r' (r_name y)) thr = total (pend r (r_name y)) thr) by (apply total_ext; intros t' z Hz; eapply pend_kept; [exact K|eapply L0, Hz]). rewrite E, (pend_kept r r' new (r_name y) x K (L0 t x Rx)) in T. change (pend r' (r_name y) (mkThread p' s')) with (one (announced r' (r_name y) p')) in T. lia.
Qed.
(** When the registry stays the same. *)
Lemma inv_same r slot slot' thr thr' new t x p' s' : inv (mkWorld r slot thr) new -> rd thr t = Some x -> upd thr t (mkThread p' s') = Some thr' -> local r new p' ->
  (forall n, active p' = Some n -> active (t_pc x) = Some n \/ forall t' y, t' <> t -> rd thr t' = Some y -> active (t_pc y) <> Some n) ->
  (forall n o, ~ flying (t_pc x) n o) -> (forall m, announced r m (t_pc x) = false) -> (forall m, announced r m p' = false) -> inv (mkWorld r slot' thr') new.
Proof.
  intros I Rx U Lt Ac Nf P1 P2. pose proof I as (W & Li & Nd & L0 & D0 & F & Im & Rv & Kn). cbn [w_reg w_thr] in *. eapply inv_step; try eassumption.
  - intros i n H. exact H.
  - intros t' y _ Hy. eapply L0, Hy.
  - intros i y o Hy Ho. destruct (Im i y o Hy Ho) as [H|(t' & z & Hz & H)]; [auto|]. right. right. exists t', z. split; [intros ->; assert (z = x) as -> by congruence; eapply Nf, H|auto].
  - intros i y Hy. rewrite (Rv i y Hy). unfold pend at 2. rewrite P1, P2. cbn. lia.
Qed.
Lemma impl_at_named r i x : rd (recs r) i = Some x -> impl_at r (Some i) = r_impl x.
Proof. intros H. cbn. rewrite H. reflexivity. Qed.
Lemma find_op_sub new n o : NoDup (map fst (ops0 ++ new)) -> find_op (ops0 ++ new) n = Some o -> find_op ops0 n = None -> find_op new n = Some o.
Proof. intros _. induction ops0 as [|[m q] t IH]; cbn; [auto|]. destruct (name_dec m n); [discriminate|exact IH]. Qed.
Lemma find_op_app_l (a b : list (name * op)) n : find_op (a ++ b) n = match find_op a n with Some o => Some o | None => find_op b n end.
Proof. induction a as [|[m q] t IH]; cbn; [reflexivity|]. destruct (name_dec m n); [reflexivity|exact IH]. Qed.
Lemma step_ok w e w' new : inv w new -> polite w e -> step ns g w e = Some w' -> exists new', inv w' new' /\ (new' = new \/ exists n o, new' = new ++ [(n, o)]).
Proof.
  intros I Po St. destruct w as [r slot thr]. pose proof I as (W & Li & Nd & L0 & D0 & F & Im & Rv & Kn). cbn [w_reg w_thr] in *. destruct e as [t q|t]; cbn [step w_reg w_slot w_thr] in St.
  - destruct (rd thr t) as [x|] eqn:Rx; [|discriminate]. cbn [bind] in St. destruct (idle (t_pc x)) eqn:Id; [|discriminate]. destruct (upd thr t _) as [thr'|] eqn:U; [|discriminate]. cbn [bind] in St. injection St as <-. exists new. split; [|left; reflexivity].
    apply (inv_same r slot slot thr thr' new t x (start r q) (listed r) I Rx U).
    + destruct q as [n o|]; cbn; [|exact Logic.I]. destruct (is_qualified n) eqn:Q; cbn; [apply C27_qualified, Q|]. intros H. apply C27_qualified in H. congruence.
    + intros n A. right. intros t' y _ Hy. destruct q as [n' o|]; cbn in A; [|discriminate]. destruct (is_qualified n'); [|discriminate]. cbn in A. injection A as <-. cbn in Po. eapply Po, Hy.
    + intros n o. destruct (t_pc x); try discriminate Id; exact (fun H => H).
    + intros m. destruct (t_pc x); try discriminate Id; reflexivity.
    + intros m. destruct q as [n' o|]; cbn; [|reflexivity]. destruct (is_qualified n'); reflexivity.
  - destruct (rd thr t) as [x|] eqn:Rx; [|discriminate]. cbn [bind] in St. destruct (run ns g r slot (t_pc x)) as [[[r' slot'] p']|] eqn:Ru; [|discriminate]. cbn [bind] in St. destruct (upd thr t (mkThread p' (t_seen x))) as [thr'|] eqn:U; [|discriminate]. cbn [bind] in St. injection St as <-. pose proof (L0 t x Rx) as Lx.
    assert (Quiet : r' = r -> active (t_pc x) = None -> active p' = None -> (forall m, announced r m p' = false) -> local r new p' -> exists new', inv (mkWorld r' slot' thr') new' /\ (new' = new \/ exists n o, new' = new ++ [(n, o)])).
    { intros -> A1 A2 P2 Lp. exists new. split; [|left; reflexivity]. eapply inv_same; [exact I|exact Rx|exact U|exact Lp|intros n A; congruence| | |exact P2].
      - intros n o Fl. destruct (t_pc x); cbn in *; try contradiction; discriminate.
      - intros m. destruct (t_pc x); cbn in *; try reflexivity; discriminate. }
    destruct (t_pc x) as [|n o|n o i|n o i|n o i cur|n o i|n o res| |s| |v|v todo acc|v todo acc k vis n|v acc|s] eqn:Ep; cbn [run] in Ru; try discriminate Ru.
    + (* RLookup *)
      destruct (lookup_create_ok r n W) as [(_ & Nq & _)|(l & i & y & E & Wl & G & Ry & Ny)]; [apply C27_qualified in Lx; congruence|]. rewrite E in Ru. cbn [bind] in Ru. injection Ru as <- <- <-. pose proof (kept_grown r l (listed r) G) as K. exists new. split; [|left; reflexivity].
      assert (Old : forall j z, rd l j = Some z -> (exists z0, rd (recs r) j = Some z0 /\ r_name z = r_name z0 /\ r_rev z = r_rev z0 /\ r_impl z = r_impl z0) \/ (r_rev z = 0 /\ r_impl z = None /\ ~ known (recs r) (r_name z))).
      { intros j z Hz. specialize (G j). destruct (rd (recs r) j) as [z0|]; [left; exists z0; destruct G as (z1 & H1 & A & B & C); assert (z1 = z) as -> by congruence; auto|]. right. destruct (G z Hz) as (A & B & C). split; [exact A|]. split; [exact B|]. intros (j' & y' & Hj & Nj). eapply C; eauto. }
      eapply inv_step; [exact I|exact Rx|exact U|exact Wl|exact Li|exact Nd|exact K| | | | | | |]; cbn [recs].
      * intros t' z _ Hz. eapply (local_kept r _ new new); [exact K| |auto|auto|auto|eapply L0, Hz]. intros j m (z0 & H0 & N0) _. cbn. specialize (G j). rewrite H0 in G |- *. destruct G as (z1 & -> & _ & _ & ->). reflexivity.
      * cbn. split; [exact Lx|]. exists y. auto.
      * intros m A. left. rewrite Ep. exact A.
      * intros m q Hq. destruct (F m q Hq) as (j & z & Hz & Nz & Iz). specialize (G j). rewrite Hz in G. destruct G as (z1 & H1 & A & B & C). exists j, z1. split; [exact H1|]. split; congruence.
      * intros j z q Hz Hq. destruct (Old j z Hz) as [(z0 & H0 & A & B & C)|(_ & C & _)]; [|congruence]. rewrite C in Hq. rewrite A. destruct (Im j z0 q H0 Hq) as [H|(t' & u & Hu & H)]; [auto|]. right. right. exists t', u. split; [intros ->; assert (u = x) as -> by congruence; rewrite Ep in H; destruct H|auto].
      * intros j z Hz. unfold pend at 1. rewrite Ep. cbn [announced one]. destruct (Old j z Hz) as [(z0 & H0 & A & B & C)|(A & _ & Nk)].
        -- rewrite B, A, (Rv j z0 H0). lia.
        -- rewrite A. rewrite count_in_0, total_0; [reflexivity| |].
           ++ intros t' u Hu. pose proof (L0 t' u Hu) as Lu. unfold pend. destruct (announced r (r_name z) (t_pc u)) eqn:An; [|reflexivity]. exfalso. apply Nk. destruct (t_pc u) as [| | | |n' o' i' cur'|n' o' i'| | | | | | | | |]; try discriminate An; cbn in An.
              ** apply andb_true_iff in An as [An _]. apply enclosesb_ok in An. destruct Lu as (_ & (y' & H' & N') & _). eapply known_up; [exact W|exists i', y'; split; [exact H'|exact N']|exact An].
              ** apply enclosesb_ok in An. destruct Lu as (_ & (y' & H' & N') & _). eapply known_up; [exact W|exists i', y'; split; [exact H'|exact N']|exact An].
           ++ intros m Hm En. apply Nk. eapply known_up; [exact W|apply Kn, Hm|exact En].
      * intros m Hm. eapply known_grown; [exact G|apply Kn, Hm].
    + (* RCheck *)
      destruct Lx as (Q & Na). destruct Na as (y & Ry & Ny). rewrite (impl_at_named r i y Ry) in Ru. injection Ru as <- <- <-. exists new. split; [|left; reflexivity]. destruct (r_impl y) as [q|] eqn:Iy.
      * eapply inv_same; [exact I|exact Rx|exact U| | | | |].
        -- cbn. destruct (Im i y q Ry Iy) as [H|(t' & u & Hu & Fl)]; [rewrite Ny in H; destruct (in_dec name_dec n (map fst (ops0 ++ new))) as [Hi|Hi]; [exact Hi|apply find_op_None in Hi; congruence]|]. exfalso. assert (t' = t).
           { eapply (D0 t' t u x n Hu Rx); [|rewrite Ep; reflexivity]. rewrite Ny in Fl. destruct (t_pc u); cbn in Fl |- *; try contradiction; destruct Fl as [-> _]; reflexivity. }
           subst t'. assert (u = x) as -> by congruence. rewrite Ep in Fl. exact Fl.
        -- discriminate.
        -- rewrite Ep. intros m o' H. exact H.
        -- rewrite Ep. reflexivity.
        -- reflexivity.
      * eapply inv_same; [exact I|exact Rx|exact U| | | | |].
        -- cbn. split; [exact Q|]. split; [exists y; auto|]. rewrite Ry. exact Iy.
        -- intros m A. left. rewrite Ep. exact A.
        -- rewrite Ep. intros m o' H. exact H.
        -- rewrite Ep. reflexivity.
        -- reflexivity.
    + (* RStore *)
      destruct Lx as (Q & (y & Ry & Ny) & Ni). rewrite (impl_at_named r i y Ry) in Ni. destruct (store_ok r i (Some o) y W Ry) as (l & E & C). rewrite E in Ru. cbn [bind] in Ru. injection Ru as <- <- <-. pose proof (kept_changed r l (listed r) _ C) as K. exists new. split; [|left; reflexivity]. rewrite Ny in C.
      assert (Fn : find_op (ops0 ++ new) n = None). { destruct (find_op (ops0 ++ new) n) as [q|] eqn:Ef; [|reflexivity]. destruct (F n q Ef) as (j & z & Hz & Nz & Iz). assert (j = i) as -> by (eapply (proj1 (proj2 W)); eauto; congruence). congruence. }
      eapply inv_step; [exact I|exact Rx|exact U|eapply wf_changed; [exact W|exact C]|exact Li|exact Nd|exact K| | | | | | |]; cbn [recs].
      * intros t' z Nt Hz. eapply (local_kept r _ new new); [exact K| |auto|auto|auto|eapply L0, Hz]. intros j m (z0 & H0 & N0) Am. cbn. pose proof (C j) as Cj. rewrite H0 in Cj |- *. rewrite Cj. cbn. destruct (name_dec (r_name z0) n) as [En|_]; [|reflexivity]. exfalso. apply Nt. eapply (D0 t' t z x n Hz Rx); [congruence|rewrite Ep; reflexivity].
      * cbn. split; [exact Q|]. pose proof (C i) as Ci. rewrite Ry in Ci. assert (Nm : named (mkRegistry l (listed r)) i n) by (eexists; split; [exact Ci|exact Ny]). split; [exact Nm|]. split; [rewrite Ci; cbn; destruct (name_dec (r_name y) n); [reflexivity|congruence]|]. split; [exact Fn|]. exists n. split; [exact Nm|apply encloses_refl].
      * intros m A. left. rewrite Ep. exact A.
      * intros m q Hq. destruct (F m q Hq) as (j & z & Hz & Nz & Iz). pose proof (C j) as Cj. rewrite Hz in Cj. eexists j, _. split; [exact Cj|]. cbn. split; [exact Nz|]. destruct (name_dec (r_name z) n); [|exact Iz]. congruence.
      * intros j z q Hz Hq. pose proof (C j) as Cj. destruct (rd (recs r) j) as [z0|] eqn:E0; [|congruence]. rewrite Cj in Hz. injection Hz as <-. cbn in *. destruct (name_dec (r_name z0) n) as [En|Nn]; [right; left; split; [auto|congruence]|]. destruct (Im j z0 q E0 Hq) as [H|(t' & u & Hu & H)]; [auto|]. right. right. exists t', u. split; [intros ->; assert (u = x) as -> by congruence; rewrite Ep in H; destruct H|auto].
      * intros j z Hz. pose proof (C j) as Cj. destruct (rd (recs r) j) as [z0|] eqn:E0; [|congruence]. rewrite Cj in Hz. injection Hz as <-. cbn [r_rev r_name fst]. rewrite (Rv j z0 E0). unfold pend at 2. rewrite Ep. cbn [announced one]. unfold name_at. cbn [recs]. pose proof (C i) as Ci. rewrite Ry in Ci. rewrite Ci. cbn [r_name]. rewrite Ny, andb_negb_r. cbn. lia.
      * intros m Hm. eapply known_changed; [exact C|apply Kn, Hm].
    + (* RBump *)
      destruct Lx as (Q & Na & Ii & Fn & c & (y & Ry & Ny) & Ec). unfold parent_of in Ru. rewrite Ry in Ru. cbn [bind] in Ru. destruct (bump_ok r cur y W Ry) as (l & E & C). rewrite E in Ru. cbn [bind] in Ru. injection Ru as <- <- <-. pose proof (kept_changed r l (listed r) _ C) as K. exists new. split; [|left; reflexivity]. rewrite Ny in C.
      assert (Imp : forall j, impl_at (mkRegistry l (listed r)) (Some j) = impl_at r (Some j)) by (intros j; cbn; pose proof (C j) as Cj; destruct (rd (recs r) j); rewrite Cj; reflexivity).
      assert (Lnk : match r_parent y with Some j => named r j (parent_name c) /\ c <> [] | None => c = [] end). { destruct W as (_ & _ & L). destruct (L cur y Ry) as [[A ->]|[A (j & z & -> & Rz & Nz)]]; [congruence|]. rewrite Ny in *. split; [exists z; auto|exact A]. }
      eapply inv_step; [exact I|exact Rx|exact U|eapply wf_changed; [exact W|exact C]|exact Li|exact Nd|exact K| | | | | | |]; cbn [recs].
      * intros t' z Nt Hz. eapply (local_kept r _ new new); [exact K|intros j m _ _; apply Imp|auto|auto|auto|eapply L0, Hz].
      * destruct (r_parent y) as [j|].
        -- destruct Lnk as [Nj Nc]. cbn [local]. split; [exact Q|]. split; [apply K, Na|]. split; [rewrite Imp; exact Ii|]. split; [exact Fn|]. exists (parent_name c). split; [apply K, Nj|]. clear -Nc Ec. destruct n as [|b n]; [apply encloses_length in Ec; destruct c; [congruence|cbn in Ec; lia]|]. destruct (parent_cases c) as [[-> _]|(b' & Eb & _)]; [left; reflexivity|]. right. right. destruct Ec as [->|[->|(rr & ->)]]; [congruence|exists b'; exact Eb|]. exists (b' ++ 46%Z :: rr). rewrite Eb at 1. rewrite <- app_assoc. reflexivity.
        -- cbn [local]. split; [exact Q|]. split; [apply K, Na|]. split; [rewrite Imp; exact Ii|exact Fn].
      * intros m A. left. rewrite Ep. destruct (r_parent y); exact A.
      * intros m q Hq. destruct (F m q Hq) as (j & z & Hz & Nz & Iz). pose proof (C j) as Cj. rewrite Hz in Cj. eexists j, _. split; [exact Cj|]. cbn. auto.
      * intros j z q Hz Hq. pose proof (C j) as Cj. destruct (rd (recs r) j) as [z0|] eqn:E0; [|congruence]. rewrite Cj in Hz. injection Hz as <-. cbn in *. destruct (Im j z0 q E0 Hq) as [H|(t' & u & Hu & H)]; [auto|]. right. destruct (Nat.eq_dec t' t) as [->|Nt]; [|right; exists t', u; auto]. left. assert (u = x) as -> by congruence. rewrite Ep in H. destruct (r_parent y); exact H.
      * intros j z Hz. pose proof (C j) as Cj. destruct (rd (recs r) j) as [z0|] eqn:E0; [|congruence]. rewrite Cj in Hz. injection Hz as <-. cbn [r_rev r_name fst]. rewrite (Rv j z0 E0). unfold pend at 2. rewrite Ep. cbn [announced]. assert (Nc0 : name_at r cur = c) by (unfold name_at; rewrite Ry; exact Ny). rewrite Nc0.
        assert (Goal' : one (enclosesb (r_name z0) n && negb (enclosesb (r_name z0) c)) + (if name_dec (r_name z0) c then 1 else 0) = one (announced (mkRegistry l (listed r)) (r_name z0) (match r_parent y with Some j0 => RBump n o i j0 | None => RList n o i end))).
        { destruct (r_parent y) as [j0|]; cbn [announced].
          - destruct Lnk as [Nj Nc]. rewrite (named_at _ _ _ (K _ _ Nj)). pose proof (enclosesb_up (r_name z0) c Nc) as Up. destruct (name_dec (r_name z0) c) as [Ez|Nz].
            + rewrite Ez in *. assert (En : enclosesb c n = true) by (apply enclosesb_ok; exact Ec). rewrite En. destruct (enclosesb c c), (enclosesb c (parent_name c)); cbn in Up |- *; lia.
            + destruct (enclosesb (r_name z0) n), (enclosesb (r_name z0) c), (enclosesb (r_name z0) (parent_name c)); cbn in Up |- *; lia.
          - subst c. rewrite Lnk. pose proof (enclosesb_root (r_name z0)) as Up. destruct (name_dec (r_name z0) []) as [Ez|Nz].
            + rewrite Ez. reflexivity.
            + destruct (enclosesb (r_name z0) n), (enclosesb (r_name z0) []); cbn in Up |- *; lia. }
        lia.
      * intros m Hm. eapply known_changed; [exact C|apply Kn, Hm].
    + (* RList *)
      destruct Lx as (Q & Na & Ii & Fn). injection Ru as <- <- <-. exists (new ++ [(n, o)]). split; [|right; exists n, o; reflexivity]. pose proof Na as (y & Ry & Ny).
      assert (Fnew : forall m, find_op (ops0 ++ new ++ [(n, o)]) m = match find_op (ops0 ++ new) m with Some q => Some q | None => if name_dec n m then Some o else None end) by (intros m; rewrite app_assoc; apply find_op_app).
      eapply (inv_step r (append r n)); [exact I|exact Rx|exact U|exact W| | |intros j m H; exact H| | | | | | |]; cbn [recs append].
      * cbn. rewrite Li, app_assoc, (map_app _ (ops0 ++ new)). reflexivity.
      * apply find_op_None in Fn. rewrite app_assoc, map_app. cbn. clear -Nd Fn. induction (map fst (ops0 ++ new)) as [|a q IH]; cbn; [repeat constructor; tauto|]. inversion Nd; subst. constructor; [rewrite in_app_iff; cbn; intros [J|[->|[]]]; [tauto|apply Fn; left; reflexivity]|]. apply IH; [assumption|]. intros J. apply Fn. right. exact J.
      * intros t' z Nt Hz. eapply (local_kept r (append r n) new); [intros j m H; exact H|reflexivity| | | |eapply L0, Hz].
        -- intros m q Hq. rewrite Fnew, Hq. reflexivity.
        -- intros m q Hq. rewrite find_op_app, Hq. reflexivity.
        -- intros m Am Hn. rewrite Fnew, Hn. destruct (name_dec n m) as [<-|]; [|reflexivity]. exfalso. apply Nt. eapply (D0 t' t z x n Hz Rx Am). rewrite Ep. reflexivity.
      * cbn [local]. rewrite find_op_app_l in Fn. destruct (find_op ops0 n) eqn:F0; [discriminate|]. split; [exists y; auto|]. split; [|reflexivity]. rewrite find_op_app, Fn. destruct (name_dec n n); congruence.
      * discriminate.
      * intros m q. rewrite Fnew. destruct (find_op (ops0 ++ new) m) as [q'|] eqn:Em; [intros H; injection H as <-; apply F, Em|]. destruct (name_dec n m) as [<-|]; [|discriminate]. intros H. injection H as <-. exists i, y. split; [exact Ry|]. split; [exact Ny|]. rewrite <- (impl_at_named r i y Ry). exact Ii.
      * intros j z q Hz Hq. rewrite Fnew. destruct (Im j z q Hz Hq) as [H|(t' & u & Hu & H)]; [rewrite H; auto|]. destruct (Nat.eq_dec t' t) as [->|Nt]; [|right; right; exists t', u; auto]. left. assert (u = x) as -> by congruence. rewrite Ep in H. destruct H as [<- <-]. rewrite Fn. destruct (name_dec n n); congruence.
      * intros j z Hz. rewrite (Rv j z Hz). unfold pend at 2. rewrite Ep. cbn [announced]. rewrite map_app, app_assoc. cbn [map fst]. rewrite count_in_app. cbn [one]. lia.
      * intros m. rewrite map_app, app_assoc, in_app_iff. intros [H|[<-|[]]]; [apply Kn, H|]. exists i, y. auto.
    + injection Ru as <- <- <-. destruct slot; apply Quiet; try reflexivity; exact Logic.I.
    + injection Ru as <- <- <-. destruct (s_rev s =? _); apply Quiet; try reflexivity; exact Logic.I.
    + injection Ru as <- <- <-. apply Quiet; try reflexivity; exact Logic.I.
    + injection Ru as <- <- <-. apply Quiet; try reflexivity; exact Logic.I.
    + destruct todo as [|m todo]; injection Ru as <- <- <-; [apply Quiet; try reflexivity; exact Logic.I|]. destruct (in_namespace ns m); [destruct (lookup r m)|]; apply Quiet; try reflexivity; exact Logic.I.
    + injection Ru as <- <- <-. unfold after_load in *. destruct (implementation r n) as [q|]; [|apply Quiet; try reflexivity; exact Logic.I]. destruct (decay_step (S k) vis q) as [[[]| |]|[]]; apply Quiet; try reflexivity; exact Logic.I.
    + injection Ru as <- <- <-. apply Quiet; try reflexivity; exact Logic.I.
Qed.
End Threads.
