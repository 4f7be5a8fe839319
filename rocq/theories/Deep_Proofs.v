(** Proofs about [DeepTransform]. *)
From Verif Require Import Base Visit_Model Visit_Spec Visit_Proofs.

Section Deep.
Context {E : Type}.
Variable infer : nat -> list attr -> E + attr.
Variable f : node -> E + node.
Variable bad : E.
Notation rebuilt := (rebuilt infer).
Notation norm := (norm infer f).
Notation norms := (norms infer f).
Notation needs := (needs infer f).
Notation needs_plus := (needs_plus infer f).
Notation needs_star := (needs_star infer f).
Notation needed := (needed infer f).

(** ** Normal forms *)
Scheme norm_mut := Minimality for Visit_Spec.norm Sort Prop with norms_mut := Minimality for Visit_Spec.norms Sort Prop.
Combined Scheme norm_both from norm_mut, norms_mut.

Lemma rebuilt_deps n ds n' : rebuilt n ds n' -> deps n' = ds.
Proof. destruct 1; reflexivity. Qed.
Lemma rebuilt_same n n' : rebuilt n (deps n) n' -> n' = n.
Proof. inversion 1; subst; [reflexivity|cbn [deps] in *; contradiction|cbn [deps] in *; contradiction]. Qed.
Lemma rebuilt_fun n ds a b : rebuilt n ds a -> rebuilt n ds b -> a = b.
Proof.
  intros Ha. destruct Ha as [n|o at_ old ds N A|o at_ old ds a' N A I]; intros Hb.
  - symmetry. apply rebuilt_same, Hb.
  - inversion Hb; subst; cbn [deps] in *; [contradiction|reflexivity|contradiction].
  - inversion Hb; subst; cbn [deps] in *; [contradiction|contradiction|congruence].
Qed.
Lemma with_new_ok n ds : length ds = length (deps n) -> forall n', with_new infer bad n ds = inr n' <-> rebuilt n ds n'.
Proof.
  intros L n'. unfold with_new. destruct (leqb node_eqb (deps n) ds) eqn:Q.
  - apply nodes_eq in Q. subst ds. split; [intros H; injection H as <-; constructor|]. intros H. rewrite (rebuilt_same n n' H). reflexivity.
  - assert (N : ds <> deps n) by (intros ->; rewrite (proj2 (nodes_eq (deps n) (deps n)) eq_refl) in Q; discriminate).
    destruct n as [x|x|x|o a old]; cbn [deps length] in *; try (destruct ds; [contradiction|discriminate]).
    destruct (leqb attr_eqb (map attr_of old) (map attr_of ds)) eqn:A.
    + apply attrs_eq in A. split; [intros H; injection H as <-; apply reb_keep; auto|]. inversion 1; subst; cbn [deps] in *; [contradiction|reflexivity|congruence].
    + assert (A' : map attr_of ds <> map attr_of old) by (intros C; rewrite C, (proj2 (attrs_eq _ _) eq_refl) in A; discriminate).
      unfold make_op. split.
      * destruct (infer o (map attr_of ds)) as [e|a'] eqn:I; [discriminate|]. intros H. injection H as <-. apply reb_infer; assumption.
      * inversion 1; subst; cbn [deps] in *; [contradiction|contradiction|]. match goal with H : infer _ _ = inr _ |- _ => rewrite H end. reflexivity.
Qed.
Lemma norm_fun : (forall n r, norm n r -> forall r', norm n r' -> r = r') /\ (forall l m, norms l m -> forall m', norms l m' -> m = m').
Proof.
  apply (norm_both E infer f (fun n r => forall r', norm n r' -> r = r') (fun l m => forall m', norms l m' -> m = m')).
  - intros n ds n' _ IH R Ef r' H. destruct H as [n ds1 n1 D1 R1 E1|n ds1 n1 t1 r1 D1 R1 E1 N1 H1]; specialize (IH _ D1); subst ds1; pose proof (rebuilt_fun _ _ _ _ R R1); subst n1; [reflexivity|congruence].
  - intros n ds n' t r _ IH R Ef N _ IHt r' H. destruct H as [n ds1 n1 D1 R1 E1|n ds1 n1 t1 r1 D1 R1 E1 N1 H1]; specialize (IH _ D1); subst ds1; pose proof (rebuilt_fun _ _ _ _ R R1); subst n1; [congruence|].
    assert (t1 = t) by congruence. subst t1. apply IHt, H1.
  - intros m' H. inversion H. reflexivity.
  - intros d r ds rs _ IHd _ IHs m' H. inversion H as [|d' r' ds' rs' Hd Hs]; subst. f_equal; [apply IHd, Hd|apply IHs, Hs].
Qed.
Lemma norms_len l m : norms l m -> length m = length l.
Proof. induction 1; cbn; congruence. Qed.
Lemma norm_result : (forall n r, norm n r -> norms (deps r) (deps r) /\ f r = inr r) /\ (forall l m, norms l m -> norms m m).
Proof.
  apply (norm_both E infer f (fun n r => norms (deps r) (deps r) /\ f r = inr r) (fun l m => norms m m)).
  - intros n ds n' _ IH R Ef. rewrite (rebuilt_deps _ _ _ R). auto.
  - intros n ds n' t r _ _ _ _ _ _ IH. exact IH.
  - constructor.
  - intros d r ds rs _ [H1 H2] _ IH. constructor; [|exact IH]. apply (norm_fix infer f r (deps r) r H1 (reb_same infer r) H2).
Qed.
Lemma norm_refl n r : norm n r -> norm r r.
Proof. intros H. destruct (proj1 norm_result n r H) as [H1 H2]. apply (norm_fix infer f r (deps r) r H1 (reb_same infer r) H2). Qed.
Lemma norms_in l m d : norms l m -> In d l -> exists r, norm d r.
Proof. induction 1 as [|x r l m H _ IH]; [contradiction|]. intros [<-|I]; [exists r; exact H|auto]. Qed.
Lemma norms_refl_in l d : norms l l -> In d l -> norm d d.
Proof.
  induction l as [|x l IH]; [contradiction|]. intros H. inversion H as [|? ? ? ? H1 H2]; subst. intros [<-|I]; [exact H1|apply IH; assumption].
Qed.
Lemma normal_fixed r : norm r r -> norms (deps r) (deps r) /\ f r = inr r.
Proof. apply norm_result. Qed.
Lemma normal_sub x r : norm r r -> sub x r -> norm x x.
Proof. intros H S. induction S as [|n d I _ IH]; [exact H|]. apply IH. apply (norms_refl_in (deps n) d); [apply normal_fixed, H|exact I]. Qed.
(** If the dependencies are normal, there is nothing to rebuild. *)
Lemma norms_normal n ds : norms (deps n) (deps n) -> norms (deps n) ds -> ds = deps n.
Proof. intros H H'. symmetry. apply (proj2 norm_fun _ _ H _ H'). Qed.
Lemma norm_through n ds n' r : norms (deps n) ds -> rebuilt n ds n' -> norm n' r -> norm n r.
Proof.
  intros D R H. pose proof (rebuilt_deps _ _ _ R) as Ed. assert (Dn : norms (deps n') (deps n')) by (rewrite Ed; apply (proj2 norm_result _ _ D)).
  destruct H as [n' ds1 n1 D1 R1 E1|n' ds1 n1 t1 r1 D1 R1 E1 N1 H1].
  - rewrite (norms_normal n' ds1 Dn D1) in R1. rewrite (rebuilt_same _ _ R1) in *. apply (norm_fix infer f n ds n' D R E1).
  - rewrite (norms_normal n' ds1 Dn D1) in R1. rewrite (rebuilt_same _ _ R1) in *. apply (norm_step infer f n ds n' t1 r1 D R E1 N1 H1).
Qed.
Lemma norm_rebuilt n ds n' r : norms (deps n) ds -> rebuilt n ds n' -> norm n r -> norm n' r.
Proof.
  intros D R H. pose proof (rebuilt_deps _ _ _ R) as Ed. assert (Dn : norms (deps n') (deps n')) by (rewrite Ed; apply (proj2 norm_result _ _ D)).
  destruct H as [n ds1 n1 D1 R1 E1|n ds1 n1 t1 r1 D1 R1 E1 N1 H1]; pose proof (proj2 norm_fun _ _ D _ D1); subst ds1; pose proof (rebuilt_fun _ _ _ _ R R1); subst n1.
  - apply (norm_fix infer f n' (deps n') n' Dn (reb_same infer n') E1).
  - apply (norm_step infer f n' (deps n') n' t1 r1 Dn (reb_same infer n') E1 N1 H1).
Qed.

(** ** What is needed *)
Definition normalizes (n : node) : Prop := exists r, norm n r.
Lemma needs_norm n m : normalizes n -> needs n m -> normalizes m.
Proof.
  intros (r & H) [I|(ds & n' & D & R & Ef & N)].
  - destruct H as [n ds1 n1 D1 _ _|n ds1 n1 t1 r1 D1 _ _ _ _]; apply (norms_in _ _ m D1 I).
  - destruct H as [n ds1 n1 D1 R1 E1|n ds1 n1 t1 r1 D1 R1 E1 N1 H1]; pose proof (proj2 norm_fun _ _ D _ D1); subst ds1; pose proof (rebuilt_fun _ _ _ _ R R1); subst n1; [congruence|].
    assert (t1 = m) by congruence. subst t1. exists r1. exact H1.
Qed.
Lemma plus_norm n m : needs_plus n m -> normalizes n -> normalizes m.
Proof. induction 1 as [n m H|n m k H _ IH]; intros G; [apply (needs_norm n m G H)|apply IH, (needs_norm n m G H)]. Qed.
Lemma star_norm n m : needs_star n m -> normalizes n -> normalizes m.
Proof. intros [->|H] G; [exact G|apply (plus_norm n m H G)]. Qed.
Lemma norm_acc : (forall n r, norm n r -> Acc (fun m k => needs k m) n) /\ (forall l m, norms l m -> forall d, In d l -> Acc (fun m k => needs k m) d).
Proof.
  apply (norm_both E infer f (fun n r => Acc (fun m k => needs k m) n) (fun l m => forall d, In d l -> Acc (fun m k => needs k m) d)).
  - intros n ds n' D IH R Ef. constructor. intros m [I|(ds1 & n1 & D1 & R1 & E1 & N1)]; [apply IH, I|].
    pose proof (proj2 norm_fun _ _ D _ D1); subst ds1; pose proof (rebuilt_fun _ _ _ _ R R1); subst n1. congruence.
  - intros n ds n' t r D IH R Ef N _ IHt. constructor. intros m [I|(ds1 & n1 & D1 & R1 & E1 & N1)]; [apply IH, I|].
    pose proof (proj2 norm_fun _ _ D _ D1); subst ds1; pose proof (rebuilt_fun _ _ _ _ R R1); subst n1. assert (m = t) by congruence. subst m. exact IHt.
  - contradiction.
  - intros d r ds rs _ IHd _ IHs x [<-|I]; [exact IHd|apply IHs, I].
Qed.
Lemma plus_trans a b c : needs_plus a b -> needs_plus b c -> needs_plus a c.
Proof. induction 1 as [n m H|n m k H _ IH]; intros G; [apply (np_more infer f n m c H G)|apply (np_more infer f n m c H), IH, G]. Qed.
Lemma plus_star a b c : needs_plus a b -> needs_star b c -> needs_plus a c.
Proof. intros H [<-|G]; [exact H|apply (plus_trans a b c H G)]. Qed.
Lemma star_plus a b c : needs_star a b -> needs b c -> needs_plus a c.
Proof. intros [->|G] H; [apply np_one, H|apply (plus_trans a b c G), np_one, H]. Qed.
Lemma star_trans a b c : needs_star a b -> needs_star b c -> needs_star a c.
Proof. intros [->|G] H; [exact H|right; apply (plus_star a b c G H)]. Qed.
Lemma plus_first a b : needs_plus a b -> exists m, needs a m /\ needs_star m b.
Proof. intros [n m N|n m k N C]; [exists m; split; [exact N|left; reflexivity]|exists m; split; [exact N|right; exact C]]. Qed.
Lemma no_cycle n : normalizes n -> ~ needs_plus n n.
Proof.
  intros (r & H). apply norm_acc in H. clear r. induction H as [n A IH]. intros C. destruct (plus_first n n C) as (m & N & S).
  apply (IH m N). apply (star_plus m n m S N).
Qed.
Lemma normal_needs x m : norm x x -> needs x m -> In m (deps x).
Proof.
  intros H [I|(ds & n' & D & R & Ef & N)]; [exact I|]. destruct (normal_fixed x H) as [D' F]. rewrite (norms_normal x ds D' D) in R. apply rebuilt_same in R. subst n'. congruence.
Qed.
Lemma normal_star x m : needs_star x m -> norm x x -> norm m m.
Proof.
  intros [->|H]; [auto|]. induction H as [n m H|n m k H _ IH]; intros G.
  - apply (normal_sub m n G). apply (sub_dep m n m (normal_needs n m G H)). constructor.
  - apply IH. apply (normal_sub m n G). apply (sub_dep m n m (normal_needs n m G H)). constructor.
Qed.

(** ** The cache *)
Lemma look_add c n k : look (add_key c n) k = if node_eqb n k then Some None else look c k.
Proof. reflexivity. Qed.
Lemma look_set c n v k : look (set_key c n v) k = if node_eqb n k then Some (Some v) else look c k.
Proof.
  induction c as [|[k' w] c IH]; cbn [set_key look]; [reflexivity|]. destruct (node_spec k' n) as [->|N]; cbn [look].
  - destruct (node_eqb n k); reflexivity.
  - destruct (node_spec k' k) as [->|N']; [|exact IH]. destruct (node_spec n k) as [->|]; [contradiction|reflexivity].
Qed.
Lemma look_none c k : look c k = None <-> ~ In k (map fst c).
Proof.
  induction c as [|[k' w] c IH]; cbn [look map fst In]; [tauto|]. destruct (node_spec k' k) as [->|N]; [split; [discriminate|tauto]|]. rewrite IH. tauto.
Qed.
Lemma keys_set c n v : look c n <> None -> map fst (set_key c n v) = map fst c.
Proof.
  induction c as [|[k' w] c IH]; cbn [look set_key map fst]; [contradiction|]. destruct (node_spec k' n) as [->|N]; [reflexivity|]. intros H. cbn [map fst]. rewrite IH by exact H. reflexivity.
Qed.
Lemma first_new_ok c ds : forall fuel i, length ds - i <= fuel -> i <= length ds -> let r := first_new c ds i fuel in
  i <= fst r /\ (forall j d, i <= j < fst r -> nth_error ds j = Some d -> look c d <> None) /\
  ((fst r = length ds /\ snd r = c) \/ exists d, nth_error ds (fst r) = Some d /\ look c d = None /\ snd r = add_key c d).
Proof.
  induction fuel as [|fuel IH]; intros i Hf Hi; cbn [first_new].
  - cbn. split; [lia|]. split; [intros; lia|]. left. split; [lia|reflexivity].
  - destruct (nth_error ds i) as [d|] eqn:Ed.
    + assert (i < length ds) by (apply nth_error_Some; congruence). destruct (look c d) as [v|] eqn:Ec.
      * destruct (IH (S i) ltac:(lia) ltac:(lia)) as (H1 & H2 & H3). split; [lia|]. split; [|exact H3].
        intros j x Hj Ex. destruct (Nat.eq_dec j i) as [->|]; [congruence|]. apply (H2 j x); [lia|exact Ex].
      * cbn. split; [lia|]. split; [intros; lia|]. right. exists d. auto.
    + apply nth_error_None in Ed. cbn. split; [lia|]. split; [intros; lia|]. left. split; [lia|reflexivity].
Qed.
Lemma new_deps_ok c ds : (forall d, In d ds -> look c d <> None) ->
  (new_deps c ds = Some None /\ exists d, In d ds /\ look c d = Some None) \/
  (exists rs, new_deps c ds = Some (Some rs) /\ Forall2 (fun d r => look c d = Some (Some r)) ds rs).
Proof.
  induction ds as [|d ds IH]; intros H; [right; exists []; auto|]. cbn [new_deps].
  destruct (look c d) as [[r|]|] eqn:Ed; cbn [bind].
  - destruct IH as [(E1 & x & Ix & Ex)|(rs & E1 & F)]; [intros; apply H; right; assumption| |].
    + left. rewrite E1. split; [reflexivity|]. exists x. split; [right; exact Ix|exact Ex].
    + right. exists (r :: rs). rewrite E1. split; [reflexivity|]. constructor; assumption.
  - left. split; [reflexivity|]. exists d. split; [left; reflexivity|exact Ed].
  - exfalso. apply (H d (or_introl eq_refl) Ed).
Qed.

(** ** The invariant *)
Definition stage2 (n n' t : node) : Prop := exists ds, norms (deps n) ds /\ rebuilt n ds n' /\ f n' = inr t /\ t <> n'.
Definition frame_ok (c : cache) (fr : dframe) : Prop :=
  match d_idx fr with
  | Some i => i <= length (deps (d_node fr)) /\ forall j d, j < i -> nth_error (deps (d_node fr)) j = Some d -> look c d <> None
  | None => stage2 (d_node fr) (d_new fr) (d_trans fr)
  end.
Definition link (fr : dframe) (x : node) : Prop :=
  match d_idx fr with Some i => In x (deps (d_node fr)) | None => x = d_trans fr end.
Fixpoint linked (root : node) (s : list dframe) : Prop :=
  match s with
  | [] => True
  | fr :: t => match t with [] => d_node fr = root | lo :: _ => link lo (d_node fr) end /\ linked root t
  end.
Definition pend (fr : dframe) : list node :=
  match d_idx fr with
  | Some _ => [d_node fr]
  | None => if node_eqb (d_new fr) (d_node fr) then [d_node fr] else [d_node fr; d_new fr]
  end.
Definition pending (s : list dframe) : list node := flat_map pend s.
Record inv0 (root : node) (c : cache) (s : list dframe) (calls : list node) : Prop := {
  i_cache : forall k r, look c k = Some (Some r) -> norm k r;
  i_pend : forall k, look c k = Some None <-> In k (pending s);
  i_nodup : NoDup (pending s);
  i_keys : NoDup (map fst c);
  i_frames : forall fr, In fr s -> frame_ok c fr;
  i_link : linked root s;
  i_root : look c root <> None;
  i_calls : NoDup calls;
  i_called : forall k, In k calls -> look c k <> None;
  i_fresh : forall fr, In fr s -> d_idx fr <> None -> ~ In (d_node fr) calls;
  i_need : forall k, look c k <> None -> needed root k
}.
Definition top_ok (c : cache) (s : list dframe) : Prop :=
  match s with fr :: _ => d_idx fr = None -> exists r, look c (d_trans fr) = Some (Some r) | [] => True end.
Definition inv root c s calls : Prop := inv0 root c s calls /\ top_ok c s.
Lemma link_needs c fr x : frame_ok c fr -> link fr x -> needs (d_node fr) x.
Proof.
  unfold frame_ok, link. destruct (d_idx fr) as [i|]; intros H L; [left; exact L|]. subst x. right. destruct H as (ds & D & R & Ef & N). exists ds, (d_new fr). auto.
Qed.
Lemma chain c root : forall s fr, linked root (fr :: s) -> (forall x, In x (fr :: s) -> frame_ok c x) ->
  needs_star root (d_node fr) /\ forall lo, In lo s -> exists x, link lo x /\ needs_star x (d_node fr).
Proof.
  induction s as [|lo s IH]; intros fr [L1 L2] F.
  - split; [left; symmetry; exact L1|contradiction].
  - destruct (IH lo L2 (fun x H => F x (or_intror H))) as [H1 H2]. pose proof (link_needs c lo (d_node fr) (F lo (or_intror (or_introl eq_refl))) L1) as N. split.
    + right. apply (star_plus root (d_node lo) (d_node fr) H1 N).
    + intros lo' [<-|I]; [exists (d_node fr); split; [exact L1|left; reflexivity]|]. destruct (H2 lo' I) as (x & Lx & Sx). exists x. split; [exact Lx|]. right. apply (star_plus x (d_node lo) (d_node fr) Sx N).
Qed.
(** Pending nodes under a frame *)
Lemma pending_in fr s k : In k (pending (fr :: s)) -> d_idx fr <> None -> k = d_node fr \/ exists lo, In lo s /\ (k = d_node lo \/ (d_idx lo = None /\ k = d_new lo)).
Proof.
  cbn [pending flat_map]. fold (pending s). intros H I. apply in_app_iff in H as [H|H].
  - left. unfold pend in H. destruct (d_idx fr); [destruct H as [<-|[]]; reflexivity|contradiction].
  - right. apply in_flat_map in H as (lo & Il & H). exists lo. split; [exact Il|]. unfold pend in H. destruct (d_idx lo); [destruct H as [<-|[]]; auto|].
    destruct (node_eqb (d_new lo) (d_node lo)); [destruct H as [<-|[]]; auto|destruct H as [<-|[<-|[]]]; auto].
Qed.
(** Such a node needs the node on top, if it is the node of a frame, or has been transformed. *)
Lemma pending_needs c root fr s k : linked root (fr :: s) -> (forall x, In x (fr :: s) -> frame_ok c x) -> d_idx fr <> None -> In k (pending (fr :: s)) ->
  needs_star k (d_node fr) \/ exists t, f k = inr t /\ t <> k /\ norms (deps k) (deps k) /\ needs_star t (d_node fr).
Proof.
  intros L F I H. destruct (pending_in fr s k H I) as [->|(lo & Il & H')]; [left; left; reflexivity|].
  destruct (chain c root s fr L F) as [_ K]. destruct (K lo Il) as (x & Lx & Sx). specialize (F lo (or_intror Il)). destruct H' as [->|[Z ->]].
  - left. right. pose proof (link_needs c lo x F Lx) as N. apply (plus_star _ x); [apply np_one, N|exact Sx].
  - right. unfold frame_ok in F. unfold link in Lx. rewrite Z in F, Lx. subst x. destruct F as (ds & D & R & Ef & N). exists (d_trans lo). rewrite (rebuilt_deps _ _ _ R).
    repeat split; [exact Ef|exact N|apply (proj2 norm_result _ _ D)|exact Sx].
Qed.

(** ** One round *)
Lemma frame_mono c c' fr : (forall k, look c k <> None -> look c' k <> None) -> frame_ok c fr -> frame_ok c' fr.
Proof. intros M. unfold frame_ok. destruct (d_idx fr); [|auto]. intros [H1 H2]. split; [exact H1|]. intros j d Hj Ed. apply M, (H2 j d Hj Ed). Qed.
Definition below (root : node) (st : list dframe) (n : node) : Prop := match st with [] => n = root | lo :: _ => link lo n end.
Record pre (root : node) (c : cache) (pnd : list node) (n : node) (st : list dframe) (calls : list node) : Prop := {
  p_cache : forall k r, look c k = Some (Some r) -> norm k r;
  p_pend : forall k, look c k = Some None <-> In k (pnd ++ pending st);
  p_nodup : NoDup (pnd ++ pending st);
  p_keys : NoDup (map fst c);
  p_frames : forall fr, In fr st -> frame_ok c fr;
  p_below : below root st n;
  p_link : linked root st;
  p_in : In n pnd;
  p_root : look c root <> None;
  p_calls : NoDup calls;
  p_called : forall k, In k calls -> look c k <> None;
  p_fresh : forall fr, In fr st -> d_idx fr <> None -> ~ In (d_node fr) calls;
  p_need : forall k, look c k <> None -> needed root k
}.
Lemma node_pend fr : In (d_node fr) (pend fr).
Proof. unfold pend. destruct (d_idx fr); [left; reflexivity|]. destruct (node_eqb _ _); left; reflexivity. Qed.
Lemma inv_pre root c fr st calls : inv0 root c (fr :: st) calls -> pre root c (pend fr) (d_node fr) st calls.
Proof.
  intros []. constructor; try assumption.
  - intros x H. apply i_frames0. right. exact H.
  - apply i_link0.
  - apply i_link0.
  - apply node_pend.
  - intros x H. apply i_fresh0. right. exact H.
Qed.
Lemma pre_inv root c fr st calls : pre root c (pend fr) (d_node fr) st calls -> frame_ok c fr -> (d_idx fr <> None -> ~ In (d_node fr) calls) -> inv0 root c (fr :: st) calls.
Proof.
  intros [] F N. constructor; try assumption.
  - intros x [<-|H]; [exact F|apply p_frames0, H].
  - split; assumption.
  - intros x [<-|H]; [exact N|apply p_fresh0, H].
Qed.
Lemma top_needed root c fr st calls : inv0 root c (fr :: st) calls -> needs_star root (d_node fr).
Proof. intros []. apply (chain c root st fr i_link0 i_frames0). Qed.
Lemma pre_needed root c pnd n st calls : pre root c pnd n st calls -> needs_star root n.
Proof.
  intros P. pose proof (p_below _ _ _ _ _ _ P) as B. destruct st as [|lo st]; [left; symmetry; exact B|].
  pose proof (p_link _ _ _ _ _ _ P) as L. pose proof (p_frames _ _ _ _ _ _ P) as F. destruct (chain c root st lo L F) as [S _]. right. apply (star_plus root (d_node lo) n S).
  apply (link_needs c lo n); [apply F; left; reflexivity|exact B].
Qed.
Lemma push_ok root c fr st calls x : pre root c (pend fr) (d_node fr) st calls -> frame_ok (add_key c x) fr -> (d_idx fr <> None -> ~ In (d_node fr) calls) ->
  look c x = None -> link fr x -> inv root (add_key c x) (mkDF x (Some 0) x x :: fr :: st) calls.
Proof.
  intros P Fo Fr X L. pose proof (pre_needed _ _ _ _ _ _ P) as T. destruct P as [H1 H2 H3 H4 H5 H6 H7 H8 H9 H10 H11 H12 H13].
  assert (M : forall k, look c k <> None -> look (add_key c x) k <> None) by (intros k H; rewrite look_add; destruct (node_eqb x k); [discriminate|exact H]).
  assert (Ep : pending (mkDF x (Some 0) x x :: fr :: st) = x :: pend fr ++ pending st) by reflexivity.
  split; [|intros D; discriminate]. constructor.
  - intros k r. rewrite look_add. destruct (node_eqb x k); [discriminate|apply H1].
  - intros k. rewrite look_add, Ep. cbn [In]. destruct (node_spec x k) as [->|N]; [split; auto|]. rewrite H2. tauto.
  - rewrite Ep. constructor; [|exact H3]. intros C. apply H2 in C. congruence.
  - cbn [add_key map fst]. constructor; [apply look_none, X|exact H4].
  - intros fr' [<-|[<-|I']]; [split; [cbn; lia|]; intros j d Hj; cbn in Hj; lia|exact Fo|]. apply (frame_mono c _ fr' M), H5, I'.
  - split; [exact L|]. split; [exact H6|exact H7].
  - apply M, H9.
  - exact H10.
  - intros k Hk. apply M, H11, Hk.
  - intros fr' [<-|[<-|I']]; [intros _ C; cbn in C; apply (H11 x C X)|exact Fr|apply H12, I'].
  - intros k. rewrite look_add. destruct (node_spec x k) as [<-|N]; [|apply H13]. intros _. left. right. apply (star_plus root (d_node fr) x T).
    apply (link_needs _ fr x Fo L).
Qed.
Lemma pre_resolve root c pnd n st calls c' r : pre root c pnd n st calls -> (forall k, look c' k = if mem k pnd then Some (Some r) else look c k) ->
  map fst c' = map fst c -> (forall k, In k pnd -> norm k r) -> inv root c' st calls.
Proof.
  intros [H1 H2 H3 H4 H5 H6 H7 H8 H9 H10 H11 H12 H13] L K R.
  assert (M : forall k, look c k <> None -> look c' k <> None) by (intros k H; rewrite L; destruct (mem k pnd); [discriminate|exact H]).
  assert (M' : forall k, look c' k <> None -> look c k <> None).
  { intros k H C. apply H. apply look_none. rewrite K. apply look_none, C. }
  split.
  - constructor; auto.
    + intros k v. rewrite L. destruct (mem_spec k pnd) as [Z|Z]; [intros Q; injection Q as <-; apply R, Z|apply H1].
    + intros k. rewrite L. destruct (mem_spec k pnd) as [Z|Z].
      * split; [discriminate|]. intros C. exfalso. clear - H3 Z C. induction pnd as [|y l IH]; [contradiction|]. inversion H3 as [|? ? N1 N2]; subst. destruct Z as [->|Z]; [apply N1, in_app_iff; auto|apply IH; assumption].
      * rewrite H2, in_app_iff. tauto.
    + clear - H3. induction pnd as [|y l IH]; [exact H3|]. inversion H3; subst. auto.
    + rewrite K. exact H4.
    + intros fr I. apply (frame_mono c c' fr M), H5, I.
  - unfold top_ok. destruct st as [|lo st]; [exact I|]. intros D. unfold below, link in H6. rewrite D in H6. subst n. exists r. rewrite L. apply mem_in in H8. rewrite H8. reflexivity.
Qed.
Definition pend2 (n n' : node) : list node := if node_eqb n' n then [n] else [n; n'].
Definition with_key (c : cache) (n n' : node) : cache := if negb (node_eqb n' n) then add_key c n' else c.
Lemma NoDup_snoc {A} (l : list A) x : NoDup l -> ~ In x l -> NoDup (l ++ [x]).
Proof.
  induction 1 as [|y l N _ IH]; intros H; [repeat constructor; auto|]. cbn [app]. constructor; [|apply IH; intros C; apply H; right; exact C].
  intros C. apply in_app_iff in C as [C|[->|[]]]; [contradiction|]. apply H. left. reflexivity.
Qed.
Lemma pre_call root c n n' st calls : pre root c [n] n st calls -> n' = n \/ look c n' = None -> ~ In n calls -> needed root n' ->
  pre root (with_key c n n') (pend2 n n') n st (calls ++ [n']).
Proof.
  intros [H1 H2 H3 H4 H5 H6 H7 H8 H9 H10 H11 H12 H13] W Nc Ne.
  assert (Kn : look c n <> None) by (rewrite (proj2 (H2 n) (or_introl eq_refl)); discriminate).
  assert (M : forall k, look c k <> None -> look (with_key c n n') k <> None).
  { intros k H. unfold with_key. destruct (negb (node_eqb n' n)); [|exact H]. rewrite look_add. destruct (node_eqb n' k); [discriminate|exact H]. }
  assert (Kn' : look (with_key c n n') n' <> None).
  { unfold with_key. destruct (node_spec n' n) as [->|N]; [exact Kn|]. cbn [negb]. rewrite look_add, node_refl. discriminate. }
  assert (Nc' : ~ In n' calls) by (destruct W as [->|W]; [exact Nc|intros C; apply (H11 n' C W)]).
  constructor; try assumption.
  - intros k r. unfold with_key. destruct (negb _); [|apply H1]. rewrite look_add. destruct (node_eqb n' k); [discriminate|apply H1].
  - intros k. unfold with_key, pend2. destruct (node_spec n' n) as [->|N]; cbn [negb]; [apply H2|]. rewrite look_add. cbn [app In]. destruct (node_spec n' k) as [->|N']; [split; auto|]. rewrite H2. cbn [app In]. tauto.
  - unfold pend2. destruct (node_spec n' n) as [->|N]; [exact H3|]. destruct W as [->|W]; [contradiction|]. cbn [app] in *. inversion H3 as [|? ? N1 N2]; subst. constructor.
    + intros [C|C]; [congruence|contradiction].
    + constructor; [|exact N2]. intros C. assert (look c n' = Some None) by (apply H2; right; exact C). congruence.
  - unfold with_key. destruct (node_spec n' n) as [->|N]; [exact H4|]. destruct W as [->|W]; [contradiction|]. cbn [negb add_key map fst]. constructor; [apply look_none, W|exact H4].
  - intros fr I. apply (frame_mono c _ fr M), H5, I.
  - unfold pend2. destruct (node_eqb n' n); left; reflexivity.
  - apply M, H9.
  - apply NoDup_snoc; assumption.
  - intros k Hk. apply in_app_iff in Hk as [Hk|[<-|[]]]; [apply M, H11, Hk|exact Kn'].
  - intros fr I D C. apply in_app_iff in C as [C|[C|[]]]; [apply (H12 fr I D C)|].
    assert (P : In (d_node fr) (pending st)) by (apply in_flat_map; exists fr; split; [exact I|apply node_pend]).
    assert (Q : look c (d_node fr) = Some None) by (apply H2; right; exact P). destruct W as [->|W]; [|congruence].
    cbn [app] in H3. inversion H3 as [|? ? N1 N2]; subst. contradiction.
  - intros k. unfold with_key. destruct (negb _); [|apply H13]. rewrite look_add. destruct (node_spec n' k) as [<-|N]; [intros _; exact Ne|apply H13].
Qed.
Lemma set_both_look c n n' r k : look (set_both c n n' r) k = if mem k (pend2 n n') then Some (Some r) else look c k.
Proof.
  unfold set_both, pend2, mem. destruct (node_spec n' n) as [->|N]; cbn [negb existsb].
  - rewrite look_set, orb_false_r. destruct (node_spec n k) as [->|Z]; [rewrite node_refl; reflexivity|]. destruct (node_spec k n); [congruence|reflexivity].
  - rewrite !look_set, orb_false_r. destruct (node_spec n' k) as [->|Z]; [rewrite node_refl, orb_true_r; reflexivity|]. destruct (node_spec k n') as [|_]; [congruence|]. rewrite orb_false_r.
    destruct (node_spec n k) as [->|Z']; [rewrite node_refl; reflexivity|]. destruct (node_spec k n); [congruence|reflexivity].
Qed.
Lemma set_both_keys c n n' r : look c n <> None -> look c n' <> None -> map fst (set_both c n n' r) = map fst c.
Proof.
  intros H H'. unfold set_both. destruct (negb _); rewrite ?keys_set; try assumption; try reflexivity. rewrite look_set. destruct (node_eqb n n'); [discriminate|exact H'].
Qed.
Lemma pend2_none root c n n' st calls : pre root c (pend2 n n') n st calls -> look c n <> None /\ look c n' <> None.
Proof.
  intros P. assert (H : forall k, In k (pend2 n n') -> look c k <> None) by (intros k Hk; rewrite (proj2 (p_pend _ _ _ _ _ _ P k)); [discriminate|apply in_app_iff; auto]).
  split; apply H; unfold pend2; destruct (node_spec n' n) as [->|]; cbn; auto.
Qed.
Lemma keys_len (c c' : cache) : map fst c' = map fst c -> length c' = length c.
Proof. intros H. rewrite <- (map_length fst c'), <- (map_length fst c), H. reflexivity. Qed.
Lemma forall2_norms (c : cache) ds rs : (forall k r, look c k = Some (Some r) -> norm k r) -> Forall2 (fun d r => look c d = Some (Some r)) ds rs -> norms ds rs.
Proof. intros H. induction 1; constructor; auto. Qed.
Definition meas (limit : nat) (c : cache) (s : list dframe) : nat := 2 * (limit + 1 - length c) + length s.

Lemma step_ok limit root s fr st : inv root (ds_cache s) (fr :: st) (ds_calls s) -> length (ds_cache s) <= limit ->
  match deep_step infer f bad limit s fr st with
  | None => False
  | Some (DFail e) => e <> DTooMany /\ ~ normalizes root
  | Some (DMore s') => inv root (ds_cache s') (ds_stack s') (ds_calls s') /\ meas limit (ds_cache s') (ds_stack s') < meas limit (ds_cache s) (fr :: st)
  end.
Proof.
  destruct s as [c stk calls]. cbn [ds_cache ds_calls]. intros [I T] Hl. unfold deep_step. cbn [ds_cache ds_calls]. replace (limit <? length c) with false by lia.
  pose proof (top_needed _ _ _ _ _ I) as Tn. destruct (d_idx fr) as [i|] eqn:Di.
  - pose proof (i_frames _ _ _ _ I fr (or_introl eq_refl)) as Ff. unfold frame_ok in Ff. rewrite Di in Ff. destruct Ff as [Fi Fd].
    set (n := d_node fr) in *. pose proof (first_new_ok c (deps n) (length (deps n)) i ltac:(lia) Fi) as FN. cbv zeta in FN.
    destruct (first_new c (deps n) i (length (deps n))) as [j c1]. cbn [fst snd] in FN. destruct FN as (Hij & Hnew & [[-> ->]|(d & Ed & Hd & ->)]).
    2: { assert (j < length (deps n)) by (apply nth_error_Some; congruence). replace (j <? length (deps n)) with true by lia. unfold rd. rewrite Ed. cbn [bind ds_cache ds_stack ds_calls]. split.
      - apply push_ok; [|unfold frame_ok; cbn [d_idx d_node]; split; [lia|]|cbn; intros _; apply (i_fresh _ _ _ _ I fr (or_introl eq_refl)); congruence|exact Hd|unfold link; cbn; apply nth_error_In in Ed; exact Ed].
        + pose proof (inv_pre _ _ _ _ _ I) as P. unfold pend in *. rewrite Di in P. cbn [d_idx d_node]. exact P.
        + intros k x Hk Ex. rewrite look_add. destruct (node_spec d x) as [->|Nx]; [discriminate|]. destruct (Nat.lt_ge_cases k i) as [Lk|Lk]; [apply (Fd k x Lk Ex)|].
          destruct (Nat.eq_dec k j) as [->|]; [congruence|apply (Hnew k x); [lia|exact Ex]].
      - unfold meas. cbn [add_key length]. lia. }
    rewrite Nat.ltb_irrefl.
    assert (All : forall d, In d (deps n) -> look c d <> None).
    { intros d Hd. apply In_nth_error in Hd as (k & Ek). assert (k < length (deps n)) by (apply nth_error_Some; congruence).
      destruct (Nat.lt_ge_cases k i) as [Lk|Lk]; [apply (Fd k d Lk Ek)|apply (Hnew k d); [lia|exact Ek]]. }
    assert (Dn : d_idx fr <> None) by congruence.
    pose proof (pending_needs c root fr st) as PN. specialize (fun k => PN k (i_link _ _ _ _ I) (i_frames _ _ _ _ I) Dn). fold n in PN.
    assert (NR : normalizes root -> normalizes n) by apply (star_norm root n Tn).
    destruct (new_deps_ok c (deps n) All) as [(-> & d & Hd & Ed)|(nd & -> & Fnd)]; cbn [bind].
    { split; [discriminate|]. intros G. apply NR in G. apply (i_pend _ _ _ _ I) in Ed. assert (Nd : needs n d) by (left; exact Hd).
      destruct (PN d Ed) as [S|(t & Ef & Nt & D & S)]; [apply (no_cycle n G); apply (plus_star n d n); [apply np_one, Nd|exact S]|].
      apply (no_cycle n G). apply (np_more infer f n d n Nd). apply (plus_star d t n); [|exact S]. apply np_one. right. exists (deps d), d. repeat split; [exact D|constructor|exact Ef|exact Nt]. }
    pose proof (forall2_norms c (deps n) nd (i_cache _ _ _ _ I) Fnd) as D. pose proof (norms_len _ _ D) as Ln.
    pose proof (with_new_ok n nd Ln) as W. destruct (with_new infer bad n nd) as [e|n'].
    { split; [discriminate|]. intros G. destruct (NR G) as (r & H). assert (exists n', rebuilt n nd n') as (n' & R).
      { destruct H as [m ds1 n1 D1 R1 E1|m ds1 n1 t1 r1 D1 R1 E1 N1 H1]; pose proof (proj2 norm_fun _ _ D _ D1); subst ds1; exists n1; exact R1. }
      apply W in R. discriminate. }
    assert (R : rebuilt n nd n') by (apply W; reflexivity). clear W. pose proof (rebuilt_deps _ _ _ R) as Ed'.
    assert (Dn' : norms (deps n') (deps n')) by (rewrite Ed'; apply (proj2 norm_result _ _ D)).
    pose proof (inv_pre _ _ _ _ _ I) as P. unfold pend in P. rewrite Di in P. fold n in P.
    assert (Call : n' = n \/ look c n' = None -> forall e, f n' = inl e -> ~ normalizes root).
    { intros _ e Ef G. destruct (NR G) as (r & H). apply (norm_rebuilt n nd n' r D R) in H.
      destruct H as [m ds1 n1 D1 R1 E1|m ds1 n1 t1 r1 D1 R1 E1 N1 H1]; rewrite (norms_normal _ ds1 Dn' D1) in R1; apply rebuilt_same in R1; subst n1; congruence. }
    assert (Main : n' = n \/ look c n' = None ->
      match (match f n' with
             | inl e => Some (DFail (DErr e))
             | inr t => if node_eqb t n' then Some (DMore (mkDS (set_both (with_key c n n') n n' t) st (calls ++ [n'])))
                 else match look (with_key c n n') t with
                      | Some None => Some (DFail (DLoop n))
                      | Some (Some r) => Some (DMore (mkDS (set_both (with_key c n n') n n' r) st (calls ++ [n'])))
                      | None => Some (DMore (mkDS (add_key (with_key c n n') t) (mkDF t (Some 0) t t :: mkDF n None n' t :: st) (calls ++ [n'])))
                      end
             end) with
      | None => False
      | Some (DFail e) => e <> DTooMany /\ ~ normalizes root
      | Some (DMore s') => inv root (ds_cache s') (ds_stack s') (ds_calls s') /\ meas limit (ds_cache s') (ds_stack s') < meas limit c (fr :: st)
      end).
    { intros Wn. destruct (f n') as [e|t] eqn:Ef; [split; [discriminate|apply (Call Wn e eq_refl)]|].
      assert (P2 : pre root (with_key c n n') (pend2 n n') n st (calls ++ [n'])).
      { apply pre_call; [exact P|exact Wn|apply (i_fresh _ _ _ _ I fr (or_introl eq_refl) Dn)|]. right. exists n, nd. auto. }
      destruct (pend2_none _ _ _ _ _ _ P2) as [K1 K2].
      assert (Lw : length c <= length (with_key c n n')) by (unfold with_key; destruct (negb _); cbn [add_key length]; lia).
      assert (Res : forall r, (norm n' r) -> inv root (set_both (with_key c n n') n n' r) st (calls ++ [n']) /\ meas limit (set_both (with_key c n n') n n' r) st < meas limit c (fr :: st)).
      { intros r Hr. split.
        - apply (pre_resolve root (with_key c n n') (pend2 n n') n st _ _ r P2); [apply set_both_look|apply set_both_keys; assumption|].
          assert (norm n r) by apply (norm_through n nd n' r D R Hr). intros k. unfold pend2. destruct (node_eqb n' n); cbn; intros Hk; intuition congruence.
        - unfold meas. rewrite (keys_len _ _ (set_both_keys _ n n' r K1 K2)). cbn [length]. lia. }
      destruct (node_spec t n') as [->|Nt].
      - cbn [ds_cache ds_stack ds_calls]. apply Res. apply (norm_fix infer f n' (deps n') n' Dn' (reb_same infer n') Ef).
      - assert (Nn : needs n t) by (right; exists nd, n'; auto).
        destruct (look (with_key c n n') t) as [[r|]|] eqn:Et; cbn [ds_cache ds_stack ds_calls].
        + apply Res. apply (norm_step infer f n' (deps n') n' t r Dn' (reb_same infer n') Ef Nt). apply (p_cache _ _ _ _ _ _ P2 t r Et).
        + split; [discriminate|]. intros G. apply NR in G.
          assert (Et' : look c t = Some None).
          { unfold with_key in Et. destruct (negb _); [|exact Et]. rewrite look_add in Et. destruct (node_spec n' t); [congruence|exact Et]. }
          apply (i_pend _ _ _ _ I) in Et'. destruct (PN t Et') as [S|(t' & Ef' & Nt' & D' & S)]; [apply (no_cycle n G), (plus_star n t n); [apply np_one, Nn|exact S]|].
          apply (no_cycle n G). apply (np_more infer f n t n Nn). apply (plus_star t t' n); [|exact S]. apply np_one. right. exists (deps t), t. repeat split; [exact D'|constructor|exact Ef'|exact Nt'].
        + split.
          * apply push_ok; [exact P2| | |exact Et|reflexivity].
            -- unfold frame_ok. cbn. exists nd. auto.
            -- cbn. congruence.
          * unfold meas. cbn [add_key length]. lia. }
    destruct (node_spec n' n) as [Enn|Nn'].
    + specialize (Main (or_introl Enn)). cbn [negb]. unfold with_key in Main. destruct (node_spec n' n) as [_|]; [|contradiction]. cbn [negb] in Main. exact Main.
    + cbn [negb]. destruct (look c n') as [[r|]|] eqn:En'.
      * cbn [ds_cache ds_stack ds_calls]. assert (Kn : look c n <> None) by (rewrite (proj2 (p_pend _ _ _ _ _ _ P n) (or_introl eq_refl)); discriminate). split.
        -- apply (pre_resolve root c [n] n st calls _ r P); [|apply keys_set, Kn|].
           ++ intros k. rewrite look_set. cbn. rewrite orb_false_r. destruct (node_spec n k) as [->|Z]; [rewrite node_refl; reflexivity|]. destruct (node_spec k n); [congruence|reflexivity].
           ++ intros k [<-|[]]. apply (norm_through n nd n' r D R), (i_cache _ _ _ _ I), En'.
        -- unfold meas. rewrite (keys_len _ _ (keys_set c n r Kn)). cbn [length]. lia.
      * split; [discriminate|]. intros G. apply NR in G. apply (i_pend _ _ _ _ I) in En'. destruct (PN n' En') as [[S|S]|(t & Ef & Nt & _ & S)]; [contradiction| |].
        -- destruct (plus_first n' n S) as (x & [Ix|(ds & n'' & D' & R' & Ef & Nx)] & Sx).
           ++ apply Nn'. assert (Xn : norm x x) by (apply (norms_refl_in (deps n') x Dn' Ix)).
              pose proof (normal_star x n Sx Xn) as Z. apply normal_fixed in Z as [Z _]. rewrite (norms_normal n nd Z D) in R. apply rebuilt_same, R.
           ++ rewrite (norms_normal n' ds Dn' D') in R'. apply rebuilt_same in R'. subst n''. apply (no_cycle n G). apply (plus_star n x n); [|exact Sx]. apply np_one. right. exists nd, n'. auto.
        -- apply (no_cycle n G). apply (plus_star n t n); [|exact S]. apply np_one. right. exists nd, n'. auto.
      * specialize (Main (or_intror eq_refl)). unfold with_key in Main. destruct (node_spec n' n) as [|_]; [contradiction|]. cbn [negb] in Main. exact Main.
  - destruct (T Di) as (r & Hr). rewrite Hr. cbn [bind ds_cache ds_stack ds_calls]. pose proof (inv_pre _ _ _ _ _ I) as P.
    pose proof (i_frames _ _ _ _ I fr (or_introl eq_refl)) as Ff. unfold frame_ok in Ff. rewrite Di in Ff. destruct Ff as (nd & D & R & Ef & Nt).
    assert (Ep : pend fr = pend2 (d_node fr) (d_new fr)) by (unfold pend; rewrite Di; reflexivity). rewrite Ep in P. destruct (pend2_none _ _ _ _ _ _ P) as [K1 K2].
    pose proof (rebuilt_deps _ _ _ R) as Ed'. assert (Dn' : norms (deps (d_new fr)) (deps (d_new fr))) by (rewrite Ed'; apply (proj2 norm_result _ _ D)).
    assert (Hn' : norm (d_new fr) r) by (apply (norm_step infer f _ (deps (d_new fr)) _ _ r Dn' (reb_same infer _) Ef Nt); apply (i_cache _ _ _ _ I _ _ Hr)).
    split.
    + apply (pre_resolve root c _ _ st calls _ r P); [apply set_both_look|apply set_both_keys; assumption|].
      assert (norm (d_node fr) r) by apply (norm_through _ nd _ r D R Hn'). intros k. unfold pend2. destruct (node_eqb _ _); cbn; intros Hk; intuition congruence.
    + unfold meas. rewrite (keys_len _ _ (set_both_keys c _ _ r K1 K2)). cbn [length]. lia.
Qed.

(** ** The run *)
Lemma init_inv root : inv root [(root, None)] [mkDF root (Some 0) root root] [].
Proof.
  split; [|discriminate]. constructor; cbn [pending flat_map pend d_idx d_node app look map fst].
  - intros k r. destruct (node_eqb root k); discriminate.
  - intros k. cbn. destruct (node_spec root k); split; auto; try discriminate. intros [|[]]; congruence.
  - repeat constructor. intros [].
  - repeat constructor. intros [].
  - intros fr [<-|[]]. split; [cbn; lia|]. cbn. lia.
  - split; [reflexivity|exact I].
  - rewrite node_refl. discriminate.
  - constructor.
  - contradiction.
  - intros _ _ _ [].
  - intros k. destruct (node_spec root k) as [->|]; [intros _; left; left; reflexivity|contradiction].
Qed.
Lemma deep_loop_ok limit root : forall fuel s, inv root (ds_cache s) (ds_stack s) (ds_calls s) -> meas limit (ds_cache s) (ds_stack s) <= fuel ->
  match deep_loop infer f bad fuel limit s with
  | None => False
  | Some (inl DTooMany) => exists ks, NoDup ks /\ limit < length ks /\ forall k, In k ks -> needed root k
  | Some (inl _) => ~ normalizes root
  | Some (inr s') => inv root (ds_cache s') [] (ds_calls s')
  end.
Proof.
  induction fuel as [|fuel IH]; intros s I M.
  - cbn [deep_loop]. destruct (ds_stack s) as [|fr st] eqn:Es; [exact I|]. unfold meas in M. cbn [length] in M. lia.
  - cbn [deep_loop]. destruct (ds_stack s) as [|fr st] eqn:Es; [exact I|]. destruct (Nat.le_gt_cases (length (ds_cache s)) limit) as [L|L].
    + pose proof (step_ok limit root s fr st I L) as Q. destruct (deep_step infer f bad limit s fr st) as [[s'|e]|]; [|destruct Q as [Q1 Q2]; cbn [bind]; destruct e; [contradiction|exact Q2|exact Q2]|contradiction].
      cbn [bind]. apply IH; [apply Q|]. destruct Q as [_ Q]. lia.
    + unfold deep_step. replace (limit <? length (ds_cache s)) with true by lia. cbn [bind]. exists (map fst (ds_cache s)). destruct I as [I _]. split; [apply (i_keys _ _ _ _ I)|]. split; [rewrite map_length; exact L|].
      intros k Hk. apply (i_need _ _ _ _ I). intros C. apply look_none in C. contradiction.
Qed.
Lemma deep_run_ok limit root :
  match deep_run infer f bad limit root with
  | None => False
  | Some (inl DTooMany) => exists ks, NoDup ks /\ limit < length ks /\ forall k, In k ks -> needed root k
  | Some (inl _) => ~ normalizes root
  | Some (inr (r, calls)) => norm root r /\ NoDup calls
  end.
Proof.
  unfold deep_run. pose proof (deep_loop_ok limit root (2 * limit + 3) (deep_init root) (init_inv root)) as Q.
  destruct (deep_loop infer f bad (2 * limit + 3) limit (deep_init root)) as [[e|s]|]; cbn [bind].
  - apply Q. unfold meas. cbn. lia.
  - assert (I : inv root (ds_cache s) [] (ds_calls s)) by (apply Q; unfold meas; cbn; lia). destruct I as [I _].
    destruct (look (ds_cache s) root) as [[r|]|] eqn:El; cbn [bind].
    + split; [apply (i_cache _ _ _ _ I _ _ El)|apply (i_calls _ _ _ _ I)].
    + apply (i_pend _ _ _ _ I) in El. destruct El.
    + apply (i_root _ _ _ _ I El).
  - apply Q. unfold meas. cbn. lia.
Qed.

(** ** A bound *)
Definition closed (l : list node) : Prop := (forall m, In m l -> normalizes m) /\ forall m k, In m l -> needs m k -> In k l.
Lemma closed_app a b : closed a -> closed b -> closed (a ++ b).
Proof.
  intros [A1 A2] [B1 B2]. split.
  - intros m H. apply in_app_iff in H as [H|H]; auto.
  - intros m k H N. apply in_app_iff in H as [H|H]; apply in_app_iff; [left; apply (A2 m k H N)|right; apply (B2 m k H N)].
Qed.
Lemma norm_closed : (forall n r, norm n r -> exists l, In n l /\ closed l) /\ (forall ds rs, norms ds rs -> exists l, (forall d, In d ds -> In d l) /\ closed l).
Proof.
  apply (norm_both E infer f (fun n r => exists l, In n l /\ closed l) (fun ds rs => exists l, (forall d, In d ds -> In d l) /\ closed l)).
  - intros n ds n' D (l & Hl & C) R Ef. exists (n :: l). split; [left; reflexivity|]. split.
    + intros m [<-|H]; [exists n'; apply (norm_fix infer f n ds n' D R Ef)|apply C, H].
    + intros m k [<-|H] N; [|right; apply (proj2 C m k H N)]. destruct N as [I|(ds1 & n1 & D1 & R1 & E1 & N1)]; [right; apply Hl, I|].
      pose proof (proj2 norm_fun _ _ D _ D1); subst ds1; pose proof (rebuilt_fun _ _ _ _ R R1); subst n1. congruence.
  - intros n ds n' t r D (l & Hl & C) R Ef N Ht (l' & Hl' & C'). exists (n :: l ++ l'). pose proof (closed_app l l' C C') as CC. split; [left; reflexivity|]. split.
    + intros m [<-|H]; [exists r; apply (norm_step infer f n ds n' t r D R Ef N Ht)|apply CC, H].
    + intros m k [<-|H] Nk; [|right; apply (proj2 CC m k H Nk)]. right. apply in_app_iff. destruct Nk as [I|(ds1 & n1 & D1 & R1 & E1 & N1)]; [left; apply Hl, I|right].
      pose proof (proj2 norm_fun _ _ D _ D1); subst ds1; pose proof (rebuilt_fun _ _ _ _ R R1); subst n1. assert (k = t) by congruence. subst k. exact Hl'.
  - exists []. split; [contradiction|]. split; intros; contradiction.
  - intros d r ds rs _ (l & Hl & C) _ (l' & Hl' & C'). exists (l ++ l'). split; [|apply closed_app; assumption]. intros x [<-|H]; apply in_app_iff; [left; exact Hl|right; apply Hl', H].
Qed.
Lemma closed_star l n m : closed l -> In n l -> needs_star n m -> In m l.
Proof.
  intros C H [<-|P]; [exact H|]. induction P as [n m N|n m k N _ IH]; [apply (proj2 C n m H N)|apply IH, (proj2 C n m H N)].
Qed.
Lemma needed_finite root : normalizes root -> exists ks, forall k, needed root k -> In k ks.
Proof.
  intros (r & H). destruct (proj1 norm_closed root r H) as (l & Hl & C).
  assert (K : exists ks, forall m ds n', In m l -> norms (deps m) ds -> rebuilt m ds n' -> In n' ks).
  { destruct C as [C _]. clear Hl. induction l as [|x l IH]; [exists []; intros; contradiction|].
    destruct IH as (ks & IH); [intros; apply C; right; assumption|]. destruct (C x (or_introl eq_refl)) as (rx & Hx).
    assert (exists n', forall ds n1, norms (deps x) ds -> rebuilt x ds n1 -> n1 = n') as (n' & Hn).
    { destruct Hx as [n ds n' D R Ef|n ds n' t rx D R Ef N Hx]; exists n'; intros ds1 n1 D1 R1; pose proof (proj2 norm_fun _ _ D _ D1); subst ds1; symmetry; apply (rebuilt_fun _ _ _ _ R R1). }
    exists (n' :: ks). intros m ds n1 [<-|I] D R; [left; symmetry; apply (Hn ds n1 D R)|right; apply (IH m ds n1 I D R)]. }
  destruct K as (ks & K). exists (l ++ ks). intros k [S|(m & ds & S & D & R)]; apply in_app_iff; [left; apply (closed_star l root k C Hl S)|right].
  apply (K m ds k); [apply (closed_star l root m C Hl S)|exact D|exact R].
Qed.
Lemma deep_enough root r ks limit : norm root r -> (forall k, needed root k -> In k ks) -> length ks <= limit -> exists calls, deep_run infer f bad limit root = Some (inr (r, calls)).
Proof.
  intros H K L. pose proof (deep_run_ok limit root) as Q.
  destruct (deep_run infer f bad limit root) as [[[|x|e]|[r' calls]]|].
  - destruct Q as (ks' & N & L' & H'). assert (length ks' <= length ks) by (apply NoDup_incl_length; [exact N|intros k Hk; apply K, H', Hk]). lia.
  - exfalso. apply Q. exists r. exact H.
  - exfalso. apply Q. exists r. exact H.
  - destruct Q as [Q _]. rewrite (proj1 norm_fun _ _ Q _ H). exists calls. reflexivity.
  - destruct Q.
Qed.

(** ** Consequences *)
Lemma norm_fixed_subs n r x : norm n r -> sub x r -> f x = inr x.
Proof. intros H S. apply normal_fixed. apply (normal_sub x r); [apply (norm_refl n), H|exact S]. Qed.
Lemma identity_norm n : (forall x, sub x n -> f x = inr x) -> norm n n.
Proof.
  induction n as [n IH] using node_rect'. intros H. apply (norm_fix infer f n (deps n) n); [|constructor|apply H; constructor].
  rewrite Forall_forall in IH. assert (K : forall d, In d (deps n) -> norm d d) by (intros d Hd; apply (IH d Hd); intros x S; apply H, (sub_dep x n d Hd S)).
  clear - K. induction (deps n) as [|d ds IHd]; constructor; [apply K; left; reflexivity|apply IHd; intros; apply K; right; assumption].
Qed.
Lemma normal_needed n k : norm n n -> needed n k -> sub k n.
Proof.
  intros H. assert (K : forall m, needs_star n m -> sub m n /\ norm m m).
  { intros m [<-|P]; [split; [constructor|exact H]|]. revert H. induction P as [n m N|n m k' N _ IH]; intros H.
    - assert (S : sub m n) by (apply (sub_dep m n m (normal_needs n m H N)); constructor). split; [exact S|apply (normal_sub m n H S)].
    - assert (S : sub m n) by (apply (sub_dep m n m (normal_needs n m H N)); constructor). destruct (IH (normal_sub m n H S)) as [S' G]. split; [apply (sub_trans k' m n S' S)|exact G]. }
  intros [S|(m & ds & S & D & R)]; [apply (K k S)|]. destruct (K m S) as [S' G]. apply normal_fixed in G as [G _]. rewrite (norms_normal m ds G D) in R. apply rebuilt_same in R. subst k. exact S'.
Qed.
Lemma norm_preserves (R : node -> node -> Prop) : (forall a, R a a) -> (forall a b c, R a b -> R b c -> R a c) -> (forall a b, f a = inr b -> R a b) ->
  (forall n ds n', Forall2 R (deps n) ds -> rebuilt n ds n' -> R n n') -> forall n r, norm n r -> R n r.
Proof.
  intros R0 R1 R2 R3. apply (norm_mut E infer f (fun n r => R n r) (fun ds rs => Forall2 R ds rs)).
  - intros n ds n' _ F Rb _. apply (R3 n ds n' F Rb).
  - intros n ds n' t r _ F Rb Ef _ _ IH. apply (R1 n n' r (R3 n ds n' F Rb)). apply (R1 n' t r (R2 n' t Ef) IH).
  - constructor.
  - intros d r ds rs _ H _ F. constructor; assumption.
Qed.
End Deep.
