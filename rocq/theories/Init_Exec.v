(** The invariant of the execution of the graph. *)
From Coq Require Import Permutation Relations.
From Verif Require Import Base Visit_Model Init_Model Init_Spec Init_Graph Init_Build.

Lemma sins_perm {A} (key : A -> name) x l : Permutation (sins key x l) (x :: l).
Proof.
  induction l as [|y t IH]; [apply Permutation_refl|]. cbn [sins]. destruct (str_ltb (key y) (key x)); [|apply Permutation_refl].
  apply (perm_trans (l' := y :: x :: t)); [constructor; exact IH|apply perm_swap].
Qed.
Lemma ssort_perm {A} (key : A -> name) l : Permutation (ssort key l) l.
Proof. induction l as [|x t IH]; [constructor|]. apply (perm_trans (sins_perm key x (ssort key t))). constructor. exact IH. Qed.
Lemma ssort_in {A} (key : A -> name) l x : In x (ssort key l) <-> In x l.
Proof. split; apply Permutation_in; [|symmetry]; apply ssort_perm. Qed.

(** The initializers of a list of nodes. *)
Definition inits (g : digraph) (l : list nat) : list initializer := flat_map (fun n => match ginit g n with Some i => [i] | None => [] end) l.
Lemma inits_app g a b : inits g (a ++ b) = inits g a ++ inits g b.
Proof. apply flat_map_app. Qed.
(** Dependencies are executed first. *)
Definition closed_order (g : digraph) (ord : list nat) : Prop := forall a n b, ord = a ++ n :: b -> forall m, In m (gdeps g n) -> In m a.
Fixpoint gpath (g : digraph) (l : list nat) : Prop :=
  match l with [] => True | a :: t => match t with [] => True | b :: _ => In a (gdeps g b) end /\ gpath g t end.

Lemma NoDup_appl {A} (a b : list A) : NoDup (a ++ b) -> NoDup a.
Proof. induction a as [|x a IH]; intros H; [constructor|]. cbn in H. inversion H as [|? ? N K]; subst. constructor; [intros C; apply N, in_or_app; auto|apply IH, K]. Qed.
Section X.
Variable ok : list initializer -> nat -> bool.
Variable g : digraph.
Hypothesis range : forall n m, In m (gdeps g n) -> m < size g.
Variable tr0 : list initializer.

Record xinv (x : xst) (ord : list nat) : Prop := {
  v_len : length (x_st x) = size g;
  v_exec : forall n, rd (x_st x) n = Some Executing <-> In n (x_stack x);
  v_done : forall n, rd (x_st x) n = Some Done <-> In n ord;
  v_nodup : NoDup (ord ++ x_stack x);
  v_trace : x_trace x = tr0 ++ inits g ord;
  v_order : closed_order g ord;
  v_phony : forall n, In n ord -> ginit g n = None -> phony (gname g n);
  v_path : gpath g (x_stack x);
  v_oks : all_succeeded ok tr0 (inits g ord)
}.
(** The outcome of a failed execution: the nodes done, and the cause. *)
Definition failed (x : xst) (e : err) : Prop :=
  exists ord, NoDup ord /\ closed_order g ord /\ (forall n, In n ord -> n < size g) /\ x_trace x = tr0 ++ inits g ord /\
  match e with
  | ECycle ns => exists a t, ns = map (gname g) (a :: t) /\ t <> [] /\ last t 0 = a /\ gpath g (a :: t) /\ all_succeeded ok tr0 (inits g ord)
  | EMissing who what => exists p m, gname g p = who /\ gname g m = what /\ In m (gdeps g p) /\ ginit g m = None /\ ~ phony what /\ all_succeeded ok tr0 (inits g ord)
  | EInit nm => exists a n i f, ord = a ++ [n] /\ gname g n = nm /\ ginit g n = Some i /\ i_fn i = StatusFn f /\ ok (tr0 ++ inits g a) f = false /\ all_succeeded ok tr0 (inits g a)
  | _ => False
  end.

Lemma xinv_room x ord n : xinv x ord -> n < size g -> ~ In n (ord ++ x_stack x) -> length ord + length (x_stack x) < size g.
Proof.
  intros V L N. assert (H : NoDup (n :: ord ++ x_stack x)) by (constructor; [exact N|apply (v_nodup _ _ V)]).
  pose proof (NoDup_incl_length (l' := seq 0 (size g)) H) as K. cbn [length] in K. rewrite app_length, seq_length in K.
  assert (S (length ord + length (x_stack x)) <= size g); [|lia]. apply K.
  intros m [<-|Hm]; apply in_seq; [lia|]. pose proof (v_len _ _ V) as Q. apply in_app_or in Hm as [Hm|Hm]; [apply (v_done _ _ V) in Hm|apply (v_exec _ _ V) in Hm]; apply rd_Some_lt in Hm; lia.
Qed.

Lemma cycle_path n : forall st, In n st -> gpath g st -> exists l, cycle_names g n st = Some (map (gname g) l) /\ l <> [] /\ last l 0 = n /\ gpath g l /\ hd 0 l = hd 0 st.
Proof.
  induction st as [|m t IH]; intros H Hp; [contradiction|]. cbn [cycle_names]. destruct (m =? n) eqn:E.
  - apply Nat.eqb_eq in E as ->. exists [n]. cbn. repeat split; auto; congruence.
  - apply Nat.eqb_neq in E. destruct H as [H|H]; [congruence|]. cbn [gpath] in Hp. destruct Hp as [H1 H2].
    destruct (IH H H2) as (l & E1 & N & L & G & Hd). rewrite E1. cbn [bind]. exists (m :: l). split; [reflexivity|]. split; [congruence|].
    destruct l as [|k l]; [congruence|]. split; [exact L|]. split; [|reflexivity]. cbn [gpath] in *. split; [|exact G].
    destruct t as [|z t]; [contradiction|]. cbn in Hd. subst z. exact H1.
Qed.

Lemma all_succeeded_snoc a i : all_succeeded ok tr0 a -> (forall f, i_fn i = StatusFn f -> ok (tr0 ++ a) f = true) -> all_succeeded ok tr0 (a ++ [i]).
Proof.
  intros H K p j q f E F. destruct q as [|z q] using rev_ind.
  - apply app_inj_tail in E as [<- <-]. apply K, F.
  - clear IHq. change (p ++ j :: q ++ [z]) with (p ++ (j :: q) ++ [z]) in E. rewrite app_assoc in E. apply app_inj_tail in E as [-> _]. apply (H p j q f eq_refl F).
Qed.
Lemma closed_snoc ord n : closed_order g ord -> (forall m, In m (gdeps g n) -> In m ord) -> closed_order g (ord ++ [n]).
Proof.
  intros H K a k b E m Hm. destruct b as [|z b] using rev_ind.
  - apply app_inj_tail in E as [<- <-]. apply K, Hm.
  - clear IHb. change (a ++ k :: b ++ [z]) with (a ++ (k :: b) ++ [z]) in E. rewrite app_assoc in E. apply app_inj_tail in E as [-> _]. apply (H a k b eq_refl m Hm).
Qed.

Definition exec_post (x : xst) (ord : list nat) (n : nat) (r : xst * option err) : Prop :=
  match snd r with
  | Some e => failed (fst r) e
  | None => exists o, xinv (fst r) (ord ++ o) /\ x_stack (fst r) = x_stack x /\ In n (ord ++ o)
  end.

Lemma exec_all_ok (rec : xst -> nat -> option (xst * option err)) (k : nat) : 
  (forall x ord n, xinv x ord -> n < size g -> (match x_stack x with [] => ginit g n <> None | p :: _ => In n (gdeps g p) end) ->
     size g < k + length ord + length (x_stack x) -> exists r, rec x n = Some r /\ exec_post x ord n r) ->
  forall ds x ord p st, xinv x ord -> x_stack x = p :: st -> incl ds (gdeps g p) -> size g < k + length ord + length (x_stack x) ->
  exists r, exec_all rec x ds = Some r /\
  match snd r with
  | Some e => failed (fst r) e
  | None => exists o, xinv (fst r) (ord ++ o) /\ x_stack (fst r) = x_stack x /\ incl ds (ord ++ o)
  end.
Proof.
  intros HR. induction ds as [|d t IH]; intros x ord p st V Hs Hi F; cbn [exec_all].
  - eexists. split; [reflexivity|]. exists []. rewrite app_nil_r. split; [exact V|]. split; [reflexivity|intros z []].
  - destruct (HR x ord d V) as ([x1 e1] & E1 & Q1); [apply (range p), Hi; left; reflexivity|rewrite Hs; apply Hi; left; reflexivity|exact F|].
    rewrite E1. cbn [bind fst snd]. unfold exec_post in Q1. cbn [fst snd] in Q1. destruct e1 as [e|]; [eexists; split; [reflexivity|exact Q1]|].
    destruct Q1 as (o1 & V1 & S1 & I1).
    destruct (IH x1 (ord ++ o1) p st V1) as ([x2 e2] & E2 & Q2); [congruence|intros z Hz; apply Hi; right; exact Hz|rewrite S1, app_length; lia|].
    exists (x2, e2). split; [exact E2|]. cbn [fst snd] in *. destruct e2 as [e|]; [exact Q2|]. destruct Q2 as (o2 & V2 & S2 & I2).
    exists (o1 ++ o2). rewrite app_assoc. split; [exact V2|]. split; [congruence|]. intros z [<-|Hz]; [apply in_or_app; left; exact I1|apply I2, Hz].
Qed.

Lemma exec_ok : forall k x ord n, xinv x ord -> n < size g -> (match x_stack x with [] => ginit g n <> None | p :: _ => In n (gdeps g p) end) ->
  size g < k + length ord + length (x_stack x) -> exists r, exec ok k g x n = Some r /\ exec_post x ord n r.
Proof.
  induction k as [|k IH]; intros x ord n V L Hc F.
  { exfalso. pose proof (v_nodup _ _ V) as N. pose proof (NoDup_incl_length (l' := seq 0 (size g)) N) as K. rewrite app_length, seq_length in K.
    assert (length ord + length (x_stack x) <= size g); [|lia]. apply K. intros m Hm. apply in_seq. pose proof (v_len _ _ V) as Q.
    apply in_app_or in Hm as [Hm|Hm]; [apply (v_done _ _ V) in Hm|apply (v_exec _ _ V) in Hm]; apply rd_Some_lt in Hm; lia. }
  cbn [exec]. destruct (rd_lt (g_nodes g) n L) as [nd Hnd]. rewrite Hnd. cbn [bind].
  assert (Gn : gname g n = n_name nd) by (unfold gname; rewrite Hnd; reflexivity).
  assert (Gi : ginit g n = n_init nd) by (unfold ginit; rewrite Hnd; reflexivity).
  assert (Gd : gdeps g n = n_deps nd) by (unfold gdeps; rewrite Hnd; reflexivity).
  destruct (rd_lt (x_st x) n) as [s Hs]; [rewrite (v_len _ _ V); exact L|]. rewrite Hs. cbn [bind]. destruct s.
  - (* pending *)
    assert (NI : ~ In n (ord ++ x_stack x)).
    { intros H. apply in_app_or in H as [H|H]; [apply (v_done _ _ V) in H|apply (v_exec _ _ V) in H]; congruence. }
    pose proof (xinv_room _ _ _ V L NI) as Room.
    destruct (upd_lt (x_st x) n Executing) as [st1 U1]; [rewrite (v_len _ _ V); exact L|]. rewrite U1. cbn [bind]. apply upd_spec in U1 as (_ & UL & UR).
    set (x1 := mkX st1 (n :: x_stack x) (x_trace x)).
    assert (V1 : xinv x1 ord).
    { split; cbn [x_st x_stack x_trace x1].
      - rewrite UL. apply (v_len _ _ V).
      - intros m. rewrite UR. destruct (m =? n) eqn:E; [apply Nat.eqb_eq in E as ->; split; intros; [left|]; reflexivity|]. apply Nat.eqb_neq in E.
        rewrite (v_exec _ _ V). cbn [In]. split; [auto|intros [H|H]; [congruence|exact H]].
      - intros m. rewrite UR. destruct (m =? n) eqn:E; [apply Nat.eqb_eq in E as ->; split; [discriminate|]; intros H; exfalso; apply NI, in_or_app; left; exact H|apply (v_done _ _ V)].
      - apply (Permutation_NoDup (Permutation_middle ord (x_stack x) n)). constructor; [exact NI|apply (v_nodup _ _ V)].
      - apply (v_trace _ _ V).
      - apply (v_order _ _ V).
      - apply (v_phony _ _ V).
      - cbn [gpath]. split; [|apply (v_path _ _ V)]. destruct (x_stack x); [exact I|exact Hc].
      - apply (v_oks _ _ V). }
    destruct (exec_all_ok (exec ok k g) k IH (ssort (gname g) (n_deps nd)) x1 ord n (x_stack x) V1 eq_refl) as ([x2 e2] & E2 & Q2).
    { intros m Hm. rewrite Gd. apply (ssort_in (gname g) _ m), Hm. }
    { cbn [x1 x_stack length]. lia. }
    rewrite E2. cbn [bind fst snd] in *. destruct e2 as [e|]; [eexists; split; [reflexivity|exact Q2]|]. destruct Q2 as (o & V2 & S2 & I2).
    rewrite S2. cbn [x1 x_stack]. assert (S2' : x_stack x2 = n :: x_stack x) by exact S2.
    destruct (upd_lt (x_st x2) n Done) as [st2 U2]; [rewrite (v_len _ _ V2); exact L|]. rewrite U2. cbn [bind]. apply upd_spec in U2 as (_ & UL2 & UR2).
    assert (NI2 : ~ In n (ord ++ o) /\ ~ In n (x_stack x) /\ NoDup ((ord ++ o) ++ x_stack x)).
    { pose proof (v_nodup _ _ V2) as N. rewrite S2' in N. apply NoDup_remove in N as [N1 N2]. split; [intros H; apply N2, in_or_app; auto|]. split; [intros H; apply N2, in_or_app; auto|exact N1]. }
    destruct NI2 as (NO & NS & ND).
    assert (V3 : forall tr3, tr3 = tr0 ++ inits g ((ord ++ o) ++ [n]) -> (ginit g n = None -> phony (gname g n)) -> all_succeeded ok tr0 (inits g ((ord ++ o) ++ [n])) ->
      xinv (mkX st2 (x_stack x) tr3) ((ord ++ o) ++ [n])).
    { intros tr3 Et Hp Ho. split; cbn [x_st x_stack x_trace].
      - rewrite UL2. apply (v_len _ _ V2).
      - intros m. rewrite UR2. destruct (m =? n) eqn:E; [apply Nat.eqb_eq in E as ->; split; [discriminate|intros H; contradiction]|]. apply Nat.eqb_neq in E.
        rewrite (v_exec _ _ V2), S2'. cbn [In]. split; [intros [H|H]; [congruence|exact H]|auto].
      - intros m. rewrite UR2, (in_app_iff (ord ++ o) [n]). destruct (m =? n) eqn:E; [apply Nat.eqb_eq in E as ->; split; intros; [right; left|]; reflexivity|]. apply Nat.eqb_neq in E.
        rewrite (v_done _ _ V2). cbn [In]. split; [auto|intros [H|[H|[]]]; [exact H|congruence]].
      - rewrite <- app_assoc. apply (Permutation_NoDup (Permutation_middle (ord ++ o) (x_stack x) n)). constructor; [|exact ND].
        intros H. apply in_app_or in H as [H|H]; contradiction.
      - exact Et.
      - apply closed_snoc; [apply (v_order _ _ V2)|]. intros m Hm. apply I2, ssort_in. rewrite <- Gd. exact Hm.
      - intros m Hm Hn. apply in_app_or in Hm as [Hm|[<-|[]]]; [apply (v_phony _ _ V2); assumption|apply Hp, Hn].
      - apply (v_path _ _ V).
      - exact Ho. }
    assert (Closed : closed_order g ((ord ++ o) ++ [n])).
    { apply closed_snoc; [apply (v_order _ _ V2)|]. intros m Hm. apply I2, ssort_in. rewrite <- Gd. exact Hm. }
    assert (Rng : forall m, In m ((ord ++ o) ++ [n]) -> m < size g).
    { intros m Hm. apply in_app_or in Hm as [Hm|[<-|[]]]; [|exact L]. apply (v_done _ _ V2) in Hm. apply rd_Some_lt in Hm. rewrite (v_len _ _ V2) in Hm. exact Hm. }
    assert (NDn : NoDup ((ord ++ o) ++ [n])).
    { apply NoDup_snoc; [apply (NoDup_appl _ _ ND)|exact NO]. }
    destruct (n_init nd) as [i|] eqn:Ni.
    + assert (Es : inits g ((ord ++ o) ++ [n]) = inits g (ord ++ o) ++ [i]).
      { rewrite inits_app. unfold inits at 2. cbn [flat_map]. rewrite Gi. reflexivity. }
      assert (Tr : x_trace x2 ++ [i] = tr0 ++ inits g ((ord ++ o) ++ [n])) by (rewrite Es, app_assoc, (v_trace _ _ V2); reflexivity).
      assert (Good : (forall f, i_fn i = StatusFn f -> ok (x_trace x2) f = true) -> exec_post x ord n (mkX st2 (x_stack x) (x_trace x2 ++ [i]), None)).
      { intros Hf. unfold exec_post. cbn [fst snd]. exists (o ++ [n]). rewrite app_assoc. split; [|split; [reflexivity|apply in_or_app; right; left; reflexivity]].
        apply V3; [exact Tr|rewrite Gi; discriminate|]. rewrite Es. apply all_succeeded_snoc; [apply (v_oks _ _ V2)|]. intros f Ef. rewrite <- (v_trace _ _ V2). apply Hf, Ef. }
      destruct (i_fn i) as [|f|f] eqn:Fi; [eexists; split; [reflexivity|]; apply Good; intros; discriminate|eexists; split; [reflexivity|]; apply Good; intros; discriminate|].
      destruct (ok (x_trace x2) f) eqn:Of; eexists; (split; [reflexivity|]).
      * apply Good. intros f' [= <-]. exact Of.
      * unfold exec_post. cbn [fst snd]. exists ((ord ++ o) ++ [n]). split; [exact NDn|]. split; [exact Closed|]. split; [exact Rng|]. split; [exact Tr|].
        exists (ord ++ o), n, i, f. split; [reflexivity|]. split; [exact Gn|]. split; [exact Gi|]. split; [exact Fi|]. rewrite <- (v_trace _ _ V2). split; [exact Of|apply (v_oks _ _ V2)].
    + assert (Es : inits g ((ord ++ o) ++ [n]) = inits g (ord ++ o)).
      { rewrite inits_app. unfold inits at 2. cbn [flat_map]. rewrite Gi. apply app_nil_r. }
      destruct (starts_with (n_name nd) phony_prefix) eqn:Ph.
      * eexists. split; [reflexivity|]. unfold exec_post. cbn [fst snd]. exists (o ++ [n]). rewrite app_assoc.
        split; [|split; [reflexivity|apply in_or_app; right; left; reflexivity]].
        apply V3; [rewrite Es; apply (v_trace _ _ V2)|intros _; rewrite Gn; apply phony_iff, Ph|rewrite Es; apply (v_oks _ _ V2)].
      * apply phony_false in Ph. destruct (x_stack x) as [|p st] eqn:Es'; [congruence|]. eexists. split; [reflexivity|]. unfold exec_post. cbn [fst snd].
        exists ((ord ++ o) ++ [n]). split; [exact NDn|]. split; [exact Closed|]. split; [exact Rng|]. split; [cbn [x_trace]; rewrite Es; apply (v_trace _ _ V2)|].
        exists p, n. split; [reflexivity|]. split; [exact Gn|]. split; [exact Hc|]. split; [exact Gi|]. split; [exact Ph|]. rewrite Es. apply (v_oks _ _ V2).
  - (* executing *)
    apply (v_exec _ _ V) in Hs. destruct (cycle_path n (x_stack x) Hs (v_path _ _ V)) as (l & E & Nl & La & Gp & Hd). rewrite E. cbn [bind].
    eexists. split; [reflexivity|]. unfold exec_post. cbn [fst snd]. exists ord.
    assert (ND : NoDup ord) by apply (NoDup_appl _ _ (v_nodup _ _ V)).
    split; [exact ND|]. split; [apply (v_order _ _ V)|]. split; [intros m Hm; apply (v_done _ _ V) in Hm; apply rd_Some_lt in Hm; rewrite (v_len _ _ V) in Hm; exact Hm|].
    split; [apply (v_trace _ _ V)|]. exists n, l. cbn [map]. rewrite Gn. split; [reflexivity|]. split; [exact Nl|]. split; [exact La|]. split; [|apply (v_oks _ _ V)].
    cbn [gpath]. split; [|exact Gp]. destruct l as [|b l]; [exact I|]. destruct (x_stack x) as [|p st]; [contradiction|]. cbn in Hd. subst b. exact Hc.
  - (* done *)
    eexists. split; [reflexivity|]. unfold exec_post. cbn [fst snd]. exists []. rewrite app_nil_r. split; [exact V|]. split; [reflexivity|]. apply (v_done _ _ V), Hs.
Qed.

Lemma run_nodes_ok k P : forall ns x ord, xinv x ord -> x_stack x = [] -> (forall n, In n ns -> ginit g n <> None) -> size g < k + length ord ->
  exists P' x' e, run_nodes ok k g P x ns = Some (P', x', e) /\
  match e with
  | Some e => failed x' e
  | None => exists o, xinv x' (ord ++ o) /\ x_stack x' = [] /\ incl ns (ord ++ o) /\
      forall z, In z P' <-> In z P \/ (z <> [] /\ ~ phony z /\ exists n, In n ns /\ gname g n = z)
  end.
Proof.
  intros ns. revert P. induction ns as [|n t IH]; intros P x ord V S0 Hn F; cbn [run_nodes].
  - do 3 eexists. split; [reflexivity|]. exists []. rewrite app_nil_r. split; [exact V|]. split; [exact S0|]. split; [intros z []|]. intros z. split; [auto|]. intros [H|(_ & _ & m & [] & _)]. exact H.
  - assert (Gn : ginit g n <> None) by (apply Hn; left; reflexivity).
    assert (L : n < size g) by (destruct (ginit g n) eqn:E; [apply (ginit_lt _ _ _ E)|congruence]).
    destruct (exec_ok k x ord n V L) as ([x1 e1] & E1 & Q1); [rewrite S0; exact Gn|rewrite S0; cbn; lia|]. rewrite E1. cbn [bind fst snd]. unfold exec_post in Q1. cbn [fst snd] in Q1.
    destruct e1 as [e|]; [do 3 eexists; split; [reflexivity|exact Q1]|]. destruct Q1 as (o & V1 & S1 & I1).
    set (P1 := if negb (empty (gname g n)) && negb (starts_with (gname g n) phony_prefix) then gname g n :: P else P).
    destruct (IH P1 x1 (ord ++ o) V1) as (P' & x' & e & E & Q); [congruence|intros m Hm; apply Hn; right; exact Hm|rewrite app_length; lia|].
    exists P', x', e. split; [exact E|]. destruct e as [e|]; [exact Q|]. destruct Q as (o2 & V2 & S2 & I2 & HP). exists (o ++ o2). rewrite app_assoc.
    split; [exact V2|]. split; [exact S2|]. split; [intros m [<-|Hm]; [apply in_or_app; left; exact I1|apply I2, Hm]|].
    intros z. rewrite HP. assert (H1 : In z P1 <-> In z P \/ (z <> [] /\ ~ phony z /\ gname g n = z)).
    { unfold P1. destruct (empty (gname g n)) eqn:Ee; cbn [negb andb].
      - apply empty_nil in Ee. split; [auto|]. intros [H|(A & B & C)]; [exact H|congruence].
      - destruct (starts_with (gname g n) phony_prefix) eqn:Ep; cbn [negb In].
        + apply phony_iff in Ep. split; [auto|]. intros [H|(A & B & C)]; [exact H|congruence].
        + apply phony_false in Ep. assert (gname g n <> []) by (intros Z; rewrite Z in Ee; discriminate). split; [intros [<-|H']; auto|intros [H'|(A & B & C)]; auto]. }
    rewrite H1. split.
    + intros [[H|(A & B & C)]|(A & B & m & C & D)]; [left; exact H|right|right]; (split; [assumption|split; [assumption|]]); [exists n|exists m]; cbn [In]; auto.
    + intros [H|(A & B & m & [<-|C] & D)]; [auto|left; right; auto|right; eauto].
Qed.
End X.
