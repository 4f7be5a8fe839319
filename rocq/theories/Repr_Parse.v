(** How the parser of Repr_Spec reads texts put together from smaller ones. *)
From Coq Require Import Ascii String.
From Verif Require Import Base Strings_Model Repr_Model Repr_Spec.
Local Open Scope list_scope.

(** How strongly the first token pulls on the expression before it. *)
Definition lvl (ts : list tok) : nat :=
  match ts with
  | TSym s :: _ => match level s with Some l => l | None => 11 end
  | (TDot | TPin | TLPar | TLBr) :: _ => 10
  | _ => 0
  end.
(** [ts] is read as [a] wherever an expression of strength at most [L] may start, provided
    that the next token pulls with at most [R]. *)
Definition reads_as (ts : list tok) (L R : nat) (a : ast) : Prop :=
  exists k b, forall f m rest, b <= f -> m <= L -> lvl rest <= R -> parse (k + f) m (ts ++ rest) = climb f m a rest.

Lemma ra_weaken ts L R a L' R' : reads_as ts L R a -> L' <= L -> R' <= R -> reads_as ts L' R' a.
Proof. intros (k & b & H) HL HR. exists k, b. intros f m rest Hf Hm Hr. apply H; lia. Qed.

Lemma climb_stop f m a ts : lvl ts = 0 \/ lvl ts < m -> m <= 10 -> climb (S f) m a ts = Some (a, ts).
Proof.
  intros H Hm. destruct ts as [|[| | | |s| | | | | | | |] r]; cbn [lvl] in H; try (exfalso; lia); try reflexivity.
  cbn [climb]. destruct (level s) as [l|] eqn:E; [|exfalso; lia].
  assert (Hl : l <> 0) by (destruct s; cbn in E; congruence).
  destruct (Nat.leb_spec m l); [lia|]. reflexivity.
Qed.

Lemma ra_use ts L R a : reads_as ts L R a -> forall m rest, m <= L -> lvl rest <= R ->
  lvl rest = 0 \/ lvl rest < m -> m <= 10 -> exists b, forall f, b <= f -> parse f m (ts ++ rest) = Some (a, rest).
Proof.
  intros (k & b & H) m rest Hm Hr Hs Hm'. exists (k + S b). intros f Hf.
  replace f with (k + S (f - k - 1)) by lia. rewrite H by lia. apply climb_stop; assumption.
Qed.
Lemma ra_use0 ts L R a : reads_as ts L R a -> forall rest, lvl rest = 0 -> exists b, forall f, b <= f -> parse f 0 (ts ++ rest) = Some (a, rest).
Proof. intros H rest E. apply (ra_use _ _ _ _ H); lia. Qed.
Lemma ra_parses ts L R a : reads_as ts L R a -> parses ts a.
Proof. intros H. destruct (ra_use0 _ _ _ _ H [] eq_refl) as (b & E). exists b. intros f Hf. rewrite <- (E f Hf), app_nil_r. reflexivity. Qed.

(** A text that can be read does not start with a closing token. *)
Lemma ra_head ts L R a : reads_as ts L R a -> exists t r, ts = t :: r /\
  match t with TDot | TComma | TColon | TRPar | TRBr | TLBr | TPin => False | _ => True end.
Proof.
  intros H. destruct (ra_use0 _ _ _ _ H [] eq_refl) as (b & E). specialize (E (S b) ltac:(lia)). rewrite app_nil_r in E.
  destruct ts as [|t r]; [discriminate|]. exists t, r. split; [reflexivity|]. destruct t; try exact I; discriminate.
Qed.

Lemma ra_name s : reads_as [TName s] 10 10 (AName s).
Proof. exists 1, 0. reflexivity. Qed.
Lemma ra_str s : reads_as [TStr s] 10 10 (AStr s).
Proof. exists 1, 0. reflexivity. Qed.
Lemma ra_lit s : reads_as [TLit s] 10 10 (ALit s).
Proof. exists 1, 0. reflexivity. Qed.
Lemma ra_num s : reads_as [TNum s] 10 9 (ANum s).
Proof.
  exists 1, 0. intros f m rest _ _ H. cbn [app plus parse].
  destruct rest as [|[] r]; try reflexivity. cbn in H. lia.
Qed.

Lemma ra_use0_unif ts L R a : reads_as ts L R a -> exists b, forall f rest, b <= f -> lvl rest = 0 -> parse f 0 (ts ++ rest) = Some (a, rest).
Proof.
  intros (k & b & H). exists (k + S b). intros f rest Hf Hr. replace f with (k + S (f - k - 1)) by lia.
  rewrite H by lia. apply climb_stop; lia.
Qed.
Lemma ra_use_unif ts L R a : reads_as ts L R a -> forall m, m <= L -> m <= 10 -> exists b, forall f rest, b <= f ->
  lvl rest <= R -> lvl rest = 0 \/ lvl rest < m -> parse f m (ts ++ rest) = Some (a, rest).
Proof.
  intros (k & b & H) m Hm Hm'. exists (k + S b). intros f rest Hf Hr Hs. replace f with (k + S (f - k - 1)) by lia.
  rewrite H by lia. apply climb_stop; assumption.
Qed.
Lemma ra_paren ts L R a : reads_as ts L R a -> reads_as (paren ts) 10 10 a.
Proof.
  intros H. destruct (ra_use0_unif _ _ _ _ H) as (b & E). exists 1, b. intros f m rest Hf _ _.
  unfold paren. cbn [app plus]. rewrite <- app_assoc. cbn [app parse]. rewrite E by (assumption || reflexivity). reflexivity.
Qed.
Lemma ra_unary s ts L R a : is_prefix s = true -> reads_as ts L R a -> 8 <= L -> reads_as (TSym s :: ts) 10 (Nat.min R 7) (AUn s a).
Proof.
  intros Hs H HL. destruct (ra_use_unif _ _ _ _ H 8 ltac:(lia) ltac:(lia)) as (b & E). exists 1, b.
  intros f m rest Hf _ Hr. cbn [app plus parse]. rewrite Hs. rewrite E by lia. reflexivity.
Qed.
Lemma ra_binary s l x y Lx Rx Ly Ry a b R : level s = Some l -> reads_as x Lx Rx a -> reads_as y Ly Ry b ->
  l <= Rx -> right_min s l <= Ly -> R <= Ry -> R < right_min s l -> (l = 1 -> R = 0) ->
  reads_as (x ++ TSym s :: y) (Nat.min Lx l) R (ABin s a b).
Proof.
  intros Hs (k & bx & Hx) Hy H1 H2 H3 H4 H5.
  assert (H6 : right_min s l <= 10) by (destruct s; cbn in Hs; try discriminate; injection Hs as <-; cbn; lia).
  destruct (ra_use_unif _ _ _ _ Hy (right_min s l) H2 H6) as (by' & E).
  exists (k + 1), (Nat.max bx by'). intros f m rest Hf Hm Hr. rewrite <- app_assoc.
  rewrite <- Nat.add_assoc, Hx; [|lia|lia|cbn; rewrite Hs; lia].
  cbn [app plus climb]. rewrite Hs. destruct (Nat.leb_spec m l); [|lia].
  rewrite E by lia. cbn [bind].
  assert (C : (l =? 1) && comparison rest = false).
  { destruct (Nat.eqb_spec l 1) as [->|]; [|reflexivity]. cbn [andb]. specialize (H5 eq_refl). subst R.
    destruct rest as [|[| | | |q| | | | | | | |] r]; try reflexivity. cbn in Hr |- *. destruct (level q) as [[|[|]]|]; try reflexivity; lia. }
  rewrite C. reflexivity.
Qed.
Lemma ra_attr x L a k : reads_as x L 10 a -> reads_as (x ++ [TDot; TName k]) L 10 (AAttr a k).
Proof.
  intros (n & b & H). exists (n + 1), b. intros f m rest Hf Hm _. rewrite <- app_assoc, <- Nat.add_assoc, H; [|lia|lia|reflexivity]. reflexivity.
Qed.
Lemma ra_pin x L a : reads_as x L 10 a -> reads_as (x ++ [TPin]) L 10 (APin a).
Proof.
  intros (n & b & H). exists (n + 1), b. intros f m rest Hf Hm _. rewrite <- app_assoc, <- Nat.add_assoc, H; [|lia|lia|reflexivity]. reflexivity.
Qed.
Lemma ra_index x L a i Li Ri c : reads_as x L 10 a -> reads_as i Li Ri c -> reads_as (x ++ TLBr :: i ++ [TRBr]) L 10 (AIndex a c).
Proof.
  intros (n & b & H) Hi. destruct (ra_use0_unif _ _ _ _ Hi) as (bi & E). destruct (ra_head _ _ _ _ Hi) as (t & r & -> & Ht).
  exists (n + 1), (Nat.max b bi). intros f m rest Hf Hm _.
  rewrite <- app_assoc, <- Nat.add_assoc, H; [|lia|lia|reflexivity].
  cbn [app plus climb]. specialize (E f ([TRBr] ++ rest) ltac:(lia) eq_refl). rewrite <- app_assoc. cbn [app] in E |- *.
  destruct t; try contradiction; rewrite E; reflexivity.
Qed.

(** A bound of a slice: absent, or read as the given tree. *)
Inductive bound : list tok -> option ast -> Prop :=
| b_none : bound [] None
| b_some ts L R a : reads_as ts L R a -> bound ts (Some a).
Lemma bound_spec ts o : bound ts o -> exists b, forall f r, b <= f ->
  (match r with TColon :: _ | TRBr :: _ => True | _ => False end) ->
  match ts ++ r with
  | TColon :: _ | TRBr :: _ => Some (None, ts ++ r)
  | _ => let? (x, r) := parse f 0 (ts ++ r) in Some (Some x, r)
  end = Some (o, r).
Proof.
  intros [|ts' L R a H].
  - exists 0. intros f r _ Hr. destruct r as [|[] r']; try contradiction; reflexivity.
  - destruct (ra_use0_unif _ _ _ _ H) as (b & E). destruct (ra_head _ _ _ _ H) as (t & r0 & -> & Ht).
    exists b. intros f r Hf Hr. rewrite E; [|assumption|destruct r as [|[] r']; try contradiction; reflexivity].
    cbn [app]. destruct t; try contradiction; reflexivity.
Qed.
Lemma bound_spec1 ts o : bound ts o -> exists b, forall f r, b <= f ->
  (match r with TColon :: _ => True | _ => False end) ->
  match ts ++ r with
  | TColon :: _ => Some (None, ts ++ r)
  | _ => let? (x, r) := parse f 0 (ts ++ r) in Some (Some x, r)
  end = Some (o, r).
Proof.
  intros [|ts' L R a H].
  - exists 0. intros f r _ Hr. destruct r as [|[] r']; try contradiction; reflexivity.
  - destruct (ra_use0_unif _ _ _ _ H) as (b & E). destruct (ra_head _ _ _ _ H) as (t & r0 & -> & Ht).
    exists b. intros f r Hf Hr. rewrite E; [|assumption|destruct r as [|[] r']; try contradiction; reflexivity].
    cbn [app]. destruct t; try contradiction; reflexivity.
Qed.
Lemma ra_slice x L a t1 t2 t3 o1 o2 o3 : reads_as x L 10 a -> bound t1 o1 -> bound t2 o2 -> bound t3 o3 ->
  reads_as (x ++ TLBr :: (t1 ++ [TColon] ++ t2 ++ match o3 with None => [] | Some _ => TColon :: t3 end) ++ [TRBr]) L 10 (ASlice a o1 o2 o3).
Proof.
  intros (n & b & H) H1 H2 H3. destruct (bound_spec1 _ _ H1) as (b1 & E1). destruct (bound_spec _ _ H2) as (b2 & E2).
  destruct o3 as [c|].
  - inversion H3 as [|ts L3 R3 a3 H3' Et Eo]; subst. destruct (ra_use0_unif _ _ _ _ H3') as (b3 & E3).
    destruct (ra_head _ _ _ _ H3') as (h & r3 & -> & Hh).
    exists (n + 1), (Nat.max b (Nat.max b1 (Nat.max b2 b3))). intros f m rest Hf Hm _.
    rewrite <- app_assoc, <- Nat.add_assoc, H; [|lia|lia|reflexivity].
    cbn [app plus climb]. repeat first [rewrite <- !app_assoc | progress cbn [app]].
    specialize (E3 f (TRBr :: rest) ltac:(lia) eq_refl). cbn [app] in E3.
    rewrite E1; [|lia|exact I]. cbn [bind]. rewrite E2; [|lia|exact I]. cbn [bind].
    destruct h; try contradiction; rewrite E3; reflexivity.
  - exists (n + 1), (Nat.max b (Nat.max b1 b2)). intros f m rest Hf Hm _.
    rewrite <- app_assoc, <- Nat.add_assoc, H; [|lia|lia|reflexivity].
    cbn [app plus climb]. repeat first [rewrite <- !app_assoc | progress cbn [app]].
    rewrite E1; [|lia|exact I]. cbn [bind]. rewrite E2; [|lia|exact I]. reflexivity.
Qed.

Lemma args_spec ts l : Forall2 (fun t a => exists L R, reads_as t L R a) ts l -> ts <> [] ->
  exists b, forall f rest, b <= f -> parse_args f (comma_sep ts ++ TRPar :: rest) = Some (l, rest).
Proof.
  induction 1 as [|t a ts l (L & R & Ht) Hl IH]; intros Hn; [congruence|].
  destruct (ra_use0_unif _ _ _ _ Ht) as (bt & E). destruct ts as [|t' ts].
  - inversion Hl; subst. exists (S bt). intros f rest Hf. destruct f as [|f]; [lia|]. cbn [comma_sep parse_args].
    rewrite E by (lia || reflexivity). reflexivity.
  - destruct IH as (b & IH); [discriminate|]. exists (S (Nat.max bt b)). intros f rest Hf. destruct f as [|f]; [lia|].
    change (comma_sep (t :: t' :: ts)) with (t ++ TComma :: comma_sep (t' :: ts)). rewrite <- app_assoc. cbn [app parse_args].
    rewrite E by (lia || reflexivity). rewrite IH by lia. reflexivity.
Qed.
Lemma ra_call x L a ts l : reads_as x L 10 a -> Forall2 (fun t a => exists L R, reads_as t L R a) ts l ->
  reads_as (x ++ TLPar :: comma_sep ts ++ [TRPar]) L 10 (ACall a l).
Proof.
  intros (n & b & H) Hl. destruct ts as [|t ts].
  - inversion Hl; subst. exists (n + 1), b. intros f m rest Hf Hm _. rewrite <- app_assoc, <- Nat.add_assoc, H; [|lia|lia|reflexivity]. reflexivity.
  - destruct (args_spec _ _ Hl ltac:(discriminate)) as (bl & E).
    assert (Hh : exists h r, comma_sep (t :: ts) = h :: r /\ h <> TRPar).
    { inversion Hl as [|? ? ? ? (L1 & R1 & Ht)]; subst. destruct (ra_head _ _ _ _ Ht) as (h & r & -> & Hh).
      destruct ts; eexists h, _; (split; [reflexivity|]); intros ->; exact Hh. }
    destruct Hh as (h & r & Eh & Hh).
    exists (n + 1), (Nat.max b bl). intros f m rest Hf Hm _.
    rewrite <- app_assoc, <- Nat.add_assoc, H; [|lia|lia|reflexivity]. cbn [app plus].
    rewrite <- app_assoc. cbn [app]. specialize (E f rest ltac:(lia)). rewrite Eh in E |- *. cbn [app climb] in E |- *.
    destruct h; try congruence; rewrite E; reflexivity.
Qed.

(** ** Names *)
Lemma segments_ne s : exists h r, segments s = h :: r.
Proof. induction s as [|c t (h & r & IH)]; [eexists _, _; reflexivity|]. cbn [segments]. destruct (c =? ch_dot)%Z; [eexists _, _; reflexivity|]. rewrite IH. eexists _, _; reflexivity. Qed.
Lemma segments_join s : forall h r, segments s = h :: r -> s = h ++ List.concat (map (fun x => ch_dot :: x) r) /\ Forall (fun x => ~ In ch_dot x) (h :: r).
Proof.
  induction s as [|c t IH]; intros h r E; cbn [segments] in E.
  - injection E as <- <-. split; [reflexivity|]. repeat constructor. intros [].
  - destruct (segments_ne t) as (h' & r' & Et). specialize (IH _ _ Et). destruct IH as (Es & F).
    destruct (Z.eqb_spec c ch_dot) as [->|N].
    + injection E as <- <-. rewrite Et. cbn. split; [f_equal; exact Es|]. constructor; [intros []|exact F].
    + rewrite Et in E. injection E as <- <-. split; [cbn; f_equal; exact Es|]. inversion F; subst. constructor; [|assumption].
      intros [K|K]; [congruence|contradiction].
Qed.
Lemma dotted_ext r : forall a p x, dotted a p -> reads_as x 10 10 a -> Forall (fun x => ~ In ch_dot x) r ->
  exists a', dotted a' (p ++ List.concat (map (fun x => ch_dot :: x) r)) /\ reads_as (x ++ seg_toks r) 10 10 a'.
Proof.
  induction r as [|s r IH]; intros a p x Ha Hx F.
  - exists a. cbn. rewrite !app_nil_r. split; assumption.
  - inversion F; subst. destruct (IH (AAttr a s) (p ++ ch_dot :: s) (x ++ [TDot; TName s])) as (a' & D & Ra).
    + constructor; assumption.
    + apply ra_attr, Hx.
    + assumption.
    + exists a'. unfold seg_toks in *. cbn [map List.concat] in *. rewrite <- app_assoc in D, Ra. split; assumption.
Qed.
Lemma ra_dotted s : exists a, dotted a s /\ reads_as (name_toks s) 10 10 a.
Proof.
  destruct (segments_ne s) as (h & r & E). destruct (segments_join s h r E) as (Es & F).
  pose proof (Forall_inv F) as F1. pose proof (Forall_inv_tail F) as F2.
  destruct (dotted_ext r (AName h) h [TName h]) as (a & D & Ra); [constructor; assumption|apply ra_name|assumption|].
  exists a. split; [rewrite Es; exact D|]. unfold name_toks. rewrite E. exact Ra.
Qed.
Lemma name_toks_M name : TName (bytes "M") :: TDot :: name_toks name = name_toks (bytes "M." ++ name).
Proof. unfold name_toks. change (segments (bytes "M." ++ name)) with (bytes "M" :: segments name). destruct (segments_ne name) as (h & r & ->). reflexivity. Qed.
