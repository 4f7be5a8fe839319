(** * C20: the arena buffer factory *)
From Verif Require Import Base Arena_Model Arena_Spec Arena_Proofs.
Local Open Scope Z_scope.

(** After any history every buffer is aligned to 8 bytes and consists of memory held
    by the arena, and no two buffers share a byte. *)
Theorem C20_disjoint ps m w : reach ps m w ->
  (forall j d s, rd (live w) j = Some (d, s) -> d mod 8 = 0 /\ 0 <= s /\ forall x, inside x (d, s) -> owned (ar w) x) /\
  (forall i j b c x, rd (live w) i = Some b -> rd (live w) j = Some c -> inside x b -> inside x c -> i = j).
Proof.
  intros R. destruct (reach_inv ps m w R) as [(IA & IB & IF & ID) _]. split.
  - intros j d s H. destruct (IB j d s H) as (K1 & K2 & K3 & K4 & K5). split; [exact K2|]. split; [lia|]. intros x Hx. apply K5. exact Hx.
  - intros i j [b z] [c y] x Hi Hj Hb Hc. apply (ID i j x); [exists b, z|exists c, y]; auto.
Qed.
Print Assumptions C20_disjoint.

(** Every request has defined behaviour and does to the contents of the buffers what
    it should: reallocation keeps the common prefix, and nothing else changes. *)
Theorem C20_contents ps m w o : reach ps m w -> op_ok w o ->
  exists w', step w o = Some w' /\ spec_step (contents w) o (contents w').
Proof.
  intros R Ho. destruct (step_ok w o (proj1 (reach_inv ps m w R)) Ho) as (w' & E & _ & _ & S). eauto.
Qed.
Print Assumptions C20_contents.

(** Pages are never given back; [Reset] gives back all the other memory, after which
    the next request of at most a page needs no new memory. *)
Theorem C20_reset ps m w o w' : reach ps m w -> op_ok w o -> step w o = Some w' ->
  (exists more, pages (ar w') = pages (ar w) ++ more) /\
  (o = Reset -> pages (ar w') = pages (ar w) /\ bigs (ar w') = [] /\
     forall n f, 0 <= n <= ps -> pages (ar w) <> [] -> asks w' (Create n f) = None).
Proof.
  intros R Ho E. destruct (reach_inv ps m w R) as [I Hps]. destruct w as [a mm L]. unfold w_inv in I. cbn [ar live] in *.
  assert (Slow : forall a0 n f a1 d ask, slow_alloc a0 n f = Some (a1, d, ask) -> exists more, pages a1 = pages a0 ++ more).
  { intros a0 n f a1 d ask H. unfold slow_alloc, next_page in H. destruct (_ || _); [inversion H; exists []; cbn; rewrite app_nil_r; reflexivity|].
    destruct (_ =? _); cbn [bind] in H; [inversion H; cbn; eauto|]. destruct (rd _ _); [|discriminate]. cbn [bind] in H. inversion H. exists []. cbn. rewrite app_nil_r. reflexivity. }
  split.
  - destruct o as [n f|k n f|k i v|]; cbn [step ar live mem] in E.
    + destruct (create a n f) as [[[a' d] ask]|] eqn:Ec; [|discriminate]. cbn [bind] in E. inversion E; subst. cbn [ar].
      unfold create in Ec. destruct (_ <? _); [eapply Slow, Ec|]. inversion Ec. exists []. cbn. rewrite app_nil_r. reflexivity.
    + destruct (rd L k) as [[d s]|]; [|discriminate]. cbn [bind] in E. destruct (realloc a d s n f) as [[[[a' d'] ask] copy]|] eqn:Er; [|discriminate]. cbn [bind] in E.
      destruct (upd L k (d', n)) as [L'|]; [|discriminate]. cbn [bind] in E.
      assert (Ew : ar w' = a') by (destruct copy; [destruct (overlap _ _ _); [discriminate|]|]; inversion E; reflexivity). rewrite Ew.
      unfold realloc in Er. destruct (negb _ || _); [|inversion Er; exists []; cbn; rewrite app_nil_r; reflexivity].
      destruct (n <=? s); [inversion Er; exists []; rewrite app_nil_r; reflexivity|].
      destruct (slow_alloc _ n f) as [[[a2 d2] ask2]|] eqn:Es; [|discriminate]. cbn [bind] in Er. inversion Er; subst. apply Slow in Es as [more Em]. exists more. rewrite Em.
      destruct (_ =? _); reflexivity.
    + destruct (rd L k) as [[d s]|]; [|discriminate]. cbn [bind] in E. destruct (_ && _); [|discriminate]. inversion E. exists []. cbn. rewrite app_nil_r. reflexivity.
    + destruct (reset_ok a L I) as (a' & Ea & _ & K & _). rewrite Ea in E. cbn [bind] in E. inversion E. cbn [ar]. exists []. rewrite K, app_nil_r. reflexivity.
  - intros ->. cbn [step ar] in E. destruct (reset_ok a L I) as (a' & Ea & _ & K & K'). rewrite Ea in E. cbn [bind] in E. inversion E; subst w'. cbn [ar].
    split; [exact K|]. split; [exact K'|]. intros n f Hn Hne. cbn [asks ar].
    destruct I as ((I1 & I2 & I3 & I4 & I4' & I9 & I5 & _) & _). unfold reset in Ea.
    destruct (Z.leb_spec 0 (page_id a)) as [H|H]; [|exfalso; apply Hne, I4'; lia].
    destruct (rd (pages a) 0) as [p|] eqn:Hp; [|discriminate]. cbn [bind] in Ea. inversion Ea; subst a'. clear Ea K K'.
    destruct (I5 _ _ Hp) as (P1 & P2 & P3 & P4). unfold create. cbn [current end_ page_size].
    assert (Hr : p64 (p + 7) / 8 * 8 = p).
    { rewrite p64_id by lia. pose proof (Z.div_mod p 8). replace (p + 7) with (7 + p / 8 * 8) by lia. rewrite Z.div_add by lia. change (7 / 8) with 0. lia. }
    rewrite Hr, (p64_id (p + n)), (p64_id (p + page_size a)) by lia. replace (p + page_size a <? p + n) with false by lia. reflexivity.
Qed.
Print Assumptions C20_reset.

(** If the base factory never returns memory that touches another region, every
    buffer lies in one region. *)
Theorem C20_one_region ps m w j d s : reach_apart ps m w -> rd (live w) j = Some (d, s) -> 0 < s ->
  exists r, In r (regions (ar w)) /\ fst r <= d /\ d + s <= fst r + snd r.
Proof. intros R H Hs. destruct (reach_apart_inv ps m w R) as [_ (_ & _ & O)]. apply (O j d s H Hs). Qed.
Print Assumptions C20_one_region.

(** Otherwise it need not: a big buffer that ends where an unused page starts is
    grown into the page. *)
Fixpoint run (w : world) (os : list op) : option world :=
  match os with [] => Some w | o :: t => let? w' := step w o in run w' t end.
Fixpoint asked (w : world) (os : list op) : list (option Z) :=
  match os with [] => [] | o :: t => asks w o :: match step w o with Some w' => asked w' t | None => [] end end.
Definition straddle : list op := [Create 8 256; Reset; Create 128 128; Realloc 0 144 0].
Example C20_straddle_run : match run (w_init 64 (fun x => x)) straddle with Some w => (live w, regions (ar w), current (ar w)) | None => ([], [], 0) end =
  ([(128, 144)], [(256, 64); (128, 128)], 272) /\ asked (w_init 64 (fun x => x)) straddle = [Some 64; None; Some 128; None].
Proof. vm_compute. split; reflexivity. Qed.
Lemma reach_run ps m : forall os w w', reach ps m w ->
  (fix ok (w : world) (os : list op) : Prop := match os with [] => True | o :: t => op_ok w o /\ forall w1, step w o = Some w1 -> ok w1 t end) w os ->
  run w os = Some w' -> reach ps m w'.
Proof.
  induction os as [|o os IH]; intros w w' R Hok E; cbn [run] in E; [inversion E; subst; exact R|].
  destruct (step w o) as [w1|] eqn:Es; [|discriminate]. cbn [bind] in E. destruct Hok as [H1 H2]. eapply IH; [|exact (H2 w1 eq_refl)|exact E].
  econstructor; eassumption.
Qed.
Theorem C20_one_region_refuted : exists w d s, reach 64 (fun x => x) w /\ rd (live w) 0 = Some (d, s) /\ 0 < s /\
  ~ exists r, In r (regions (ar w)) /\ fst r <= d /\ d + s <= fst r + snd r.
Proof.
  destruct (run (w_init 64 (fun x => x)) straddle) as [w|] eqn:E; [|discriminate]. exists w, 128, 144.
  assert (R : reach 64 (fun x => x) w).
  { eapply (reach_run 64 (fun x => x) straddle (w_init 64 (fun x => x)) w); [constructor| |exact E].
    split.
    { cbn [op_ok]. split; [lia|]. intros sz H. vm_compute in H. injection H as <-. split; [lia|]. split; [reflexivity|]. split; [lia|]. split; [lia|].
      intros x _ (r & [] & _). }
    intros w1 E1. vm_compute in E1. injection E1 as <-. split; [exact I|].
    intros w2 E2. vm_compute in E2. injection E2 as <-. split.
    { cbn [op_ok]. split; [lia|]. intros sz H. vm_compute in H. injection H as <-. split; [lia|]. split; [reflexivity|]. split; [lia|]. split; [lia|].
      intros x Hx (r & [<-|[]] & Hr). unfold inside in Hr. cbn in Hr. lia. }
    intros w3 E3. vm_compute in E3. injection E3 as <-. split.
    { cbn [op_ok]. split; [lia|]. split; [cbn; lia|]. intros sz H. vm_compute in H. discriminate. }
    intros w4 _. exact I. }
  split; [exact R|]. vm_compute in E. injection E as <-. split; [reflexivity|]. split; [lia|].
  intros (r & [<-|[<-|[]]] & H1 & H2); cbn in *; lia.
Qed.
Print Assumptions C20_one_region_refuted.

(** The bound on the size of requests is needed: the end of a huge buffer wraps
    around and the request is granted from the current page. *)
Theorem C20_huge_request_refuted : exists w w' n, reach 64 (fun x => x) w /\ n < 2 ^ 64 /\ asks w (Create n 0) = None /\
  step w (Create n 0) = Some w' /\ exists d x, rd (live w') 1 = Some (d, n) /\ inside x (d, n) /\ ~ owned (ar w') x.
Proof.
  destruct (step (w_init 64 (fun x => x)) (Create 8 256)) as [w|] eqn:E; [|discriminate].
  assert (R : reach 64 (fun x => x) w).
  { eapply reach_step; [constructor| |exact E]. cbn [op_ok]. split; [lia|]. intros sz H. vm_compute in H. injection H as <-.
    split; [lia|]. split; [reflexivity|]. split; [lia|]. split; [lia|]. intros x _ (r & [] & _). }
  vm_compute in E. injection E as <-. eexists _, _, (2 ^ 64 - 264). split; [exact R|]. split; [lia|]. split; [reflexivity|]. split; [reflexivity|].
  exists 264, 400. split; [reflexivity|]. split; [unfold inside; cbn; lia|]. intros (r & [<-|[]] & Hr). unfold inside in Hr. cbn in Hr. lia.
Qed.
Print Assumptions C20_huge_request_refuted.

(** Pages of 64 bytes: small buffers share a page; the last one grows in place, an
    older one is moved to a new page, a big one to memory of its own. *)
Definition ex_ops : list op :=
  [Create 5 256; Create 8 0; Write 1 2 77; Write 0 4 55; Realloc 1 40 0; Realloc 0 24 512; Create 100 1024; Realloc 1 4 0].
Example C20_ex : match run (w_init 64 (fun x => 0)) ex_ops with
  | Some w => (live w, regions (ar w), bytes (mem w) (256 + 8, 4), map (mem w) [516; 517])
  | None => ([], [], [], [])
  end = ([(512, 24); (264, 4); (1024, 100)], [(256, 64); (512, 64); (1024, 100)], [0; 0; 77; 0], [55; 0]).
Proof. vm_compute. reflexivity. Qed.
