(** Running the flat program is evaluating the nested one. *)
From Verif Require Import Base Jump_Model Jump_Spec Jump_Proofs.

Section R.
Context {F err node : Type}.
Notation code := (code F err node). Notation bop := (bop F err).
Variable cancel : nat -> option err.
Notation exec := (@exec F err cancel).
Definition ok (f : F) (t : nat) : st F err := St clean f t.
Definition bad (e : err) (f : F) (t : nat) : st F err := St (Ctx true 0 (Some e)) f t.

Lemma x_ok n ops k ip (o : bop) f t f1 t1 : nth_error ops ip = Some (Some o) -> o n (ok f t) = Done (ok f1 t1) ->
  exec n ops (S k) ip (ok f t) = match cancel t1 with
    | Some e => Done (bad e f1 (S t1), Z.of_nat ip) | None => exec n ops k (S ip) (ok f1 (S t1)) end.
Proof. intros H E. cbn [Jump_Model.exec]. rewrite H, E. reflexivity. Qed.
Lemma x_bad n ops k ip (o : bop) f t f1 t1 e : nth_error ops ip = Some (Some o) -> o n (ok f t) = Done (bad e f1 t1) ->
  exec n ops (S k) ip (ok f t) = Done (bad e f1 t1, Z.of_nat ip).
Proof. intros H E. cbn [Jump_Model.exec]. rewrite H, E. reflexivity. Qed.
Lemma x_jump n ops k ip j f t : nth_error ops ip = Some (Some (jump_op (Z.of_nat (S j)))) -> ip + S j < length ops ->
  exec n ops (S k) ip (ok f t) = match cancel t with
    | Some e => Done (bad e f (S t), Z.of_nat (ip + S j)) | None => exec n ops k (S (ip + S j)) (ok f (S t)) end.
Proof.
  intros H L. cbn [Jump_Model.exec]. rewrite H. cbn [jump_op rbind set_jump s_ctx ok c_sig c_st c_jump clean s_fr s_t].
  rewrite (proj2 (Z.eqb_neq _ _)) by lia. rewrite (proj2 (Z.leb_le _ _)), (proj2 (Z.ltb_lt _ _)) by lia. cbn [andb].
  replace (Z.to_nat (Z.of_nat ip + Z.of_nat (S j))) with (ip + S j) by lia. reflexivity.
Qed.
Lemma x_cond_true n ops k ip c j f t : nth_error ops ip = Some (Some (jump_if_not_op c j)) -> c f = true ->
  exec n ops (S k) ip (ok f t) = match cancel t with
    | Some e => Done (bad e f (S t), Z.of_nat ip) | None => exec n ops k (S ip) (ok f (S t)) end.
Proof. intros H C. cbn [Jump_Model.exec]. rewrite H. unfold jump_if_not_op. cbn [rbind s_fr ok]. rewrite C. reflexivity. Qed.
Lemma x_cond_false n ops k ip c j f t : nth_error ops ip = Some (Some (jump_if_not_op c (Z.of_nat (S j)))) -> c f = false -> ip + S j < length ops ->
  exec n ops (S k) ip (ok f t) = match cancel t with
    | Some e => Done (bad e f (S t), Z.of_nat (ip + S j)) | None => exec n ops k (S (ip + S j)) (ok f (S t)) end.
Proof.
  intros H C L. cbn [Jump_Model.exec]. rewrite H. unfold jump_if_not_op. cbn [rbind s_fr ok]. rewrite C.
  cbn [set_jump s_ctx ok c_sig c_st c_jump clean s_fr s_t].
  rewrite (proj2 (Z.eqb_neq _ _)) by lia. rewrite (proj2 (Z.leb_le _ _)), (proj2 (Z.ltb_lt _ _)) by lia. cbn [andb].
  replace (Z.to_nat (Z.of_nat ip + Z.of_nat (S j))) with (ip + S j) by lia. reflexivity.
Qed.
Lemma nth_here (ops pre post : list (option bop)) x ip : ops = pre ++ Some x :: post -> ip = length pre -> nth_error ops ip = Some (Some x).
Proof. intros -> ->. rewrite nth_error_app2, Nat.sub_diag by lia. reflexivity. Qed.
Lemma exec_0 n ops (o : bop) ip s : nth_error ops ip = Some (Some o) -> exec n ops 0 ip s = More.
Proof. intros H. cbn [Jump_Model.exec]. now rewrite H. Qed.

(** ** The parts of a conditional in the program *)
Record at_cond (ops pre post : list (option bop)) (ip : nat) c nd (t e p : list code) : Prop := {
  ac_if : nth_error ops ip = Some (Some (jump_if_not_op c (Z.of_nat (S (length (flat t))))));
  ac_true : exists pre' post', ops = pre' ++ map Some (flat t) ++ post' /\ S ip = length pre';
  ac_jump : nth_error ops (S ip + length (flat t)) = Some (Some (jump_op (Z.of_nat (length (flat e)))));
  ac_false : exists pre' post', ops = pre' ++ map Some (flat e) ++ post' /\ S (S ip + length (flat t)) = length pre';
  ac_rest : exists pre' post', ops = pre' ++ map Some (flat p) ++ post' /\ ip + length (flat1 (Cond c nd t e)) = length pre';
  ac_len : ip + length (flat1 (Cond c nd t e)) <= length ops;
  ac_size : length (flat1 (Cond c nd t e)) = S (length (flat t) + S (length (flat e))) }.
Lemma cond_at ops pre post ip c nd t e (p : list code) : ops = pre ++ map Some (flat (Cond c nd t e :: p)) ++ post -> ip = length pre -> at_cond ops pre post ip c nd t e p.
Proof.
  intros E I.
  assert (Z1 : length (flat1 (Cond c nd t e)) = S (length (flat t) + S (length (flat e)))).
  { rewrite flat1_cond. cbn [length]. rewrite app_length. reflexivity. }
  assert (L : ip + length (flat1 (Cond c nd t e)) <= length ops).
  { rewrite E, I. cbn [flat]. rewrite !app_length, map_length, app_length. lia. }
  cbn [flat] in E. rewrite flat1_cond, map_app in E. cbn [map] in E. rewrite map_app in E. cbn [map] in E.
  rewrite <- app_assoc in E. cbn [app] in E. rewrite <- !app_assoc in E. cbn [app] in E.
  set (J := Some (jump_if_not_op c (Z.of_nat (S (length (flat t)))))) in *.
  set (K := Some (jump_op (Z.of_nat (length (flat e))))) in *.
  split.
  - exact (nth_here _ _ _ _ _ E I).
  - exists (pre ++ [J]), (K :: map Some (flat e) ++ map Some (flat p) ++ post). split; [rewrite E, <- app_assoc; reflexivity|].
    rewrite app_length. cbn [length]. lia.
  - apply (nth_here _ (pre ++ J :: map Some (flat t)) (map Some (flat e) ++ map Some (flat p) ++ post)).
    + rewrite E, <- app_assoc. reflexivity.
    + rewrite app_length. cbn [length]. rewrite map_length. lia.
  - exists (pre ++ J :: map Some (flat t) ++ [K]), (map Some (flat p) ++ post). split.
    + rewrite E, <- app_assoc. cbn [app]. rewrite <- app_assoc. reflexivity.
    + rewrite app_length. cbn [length]. rewrite app_length, map_length. cbn [length]. lia.
  - exists (pre ++ J :: map Some (flat t) ++ K :: map Some (flat e)), post. split.
    + rewrite E, <- app_assoc. cbn [app]. rewrite <- app_assoc. reflexivity.
    + rewrite app_length. cbn [length]. rewrite app_length, map_length. cbn [length]. rewrite map_length. lia.
  - exact L.
  - exact Z1.
Qed.
Lemma last_nth {A} (l : list A) d : l <> [] -> nth_error l (length l - 1) = Some (last l d).
Proof.
  induction l as [|x l IH]; intros H; [congruence|]. destruct l as [|y l]; [reflexivity|].
  change (last (x :: y :: l) d) with (last (y :: l) d). rewrite <- IH by discriminate.
  cbn [length]. replace (S (S (length l)) - 1) with (S (S (length l) - 1)) by lia. reflexivity.
Qed.
Lemma labels_in_true c nd t e p i w : nth_error (labels t) i = Some w -> nth_error (labels (Cond c nd t e :: p : list code)) (S i) = Some w.
Proof.
  intros H. assert (L : i < length (labels t)) by (apply nth_error_Some; congruence).
  cbn [labels]. rewrite labels1_cond. cbn [app nth_error]. rewrite <- app_assoc, nth_error_app1 by exact L. exact H.
Qed.
Lemma labels_in_false c nd t e p i w : nth_error (labels e) i = Some w ->
  nth_error (labels (Cond c nd t e :: p : list code)) (S (length (flat t) + S i)) = Some w.
Proof.
  intros H. assert (L : i < length (labels e)) by (apply nth_error_Some; congruence).
  cbn [labels]. rewrite labels1_cond. cbn [app nth_error]. rewrite <- app_assoc. cbn [app].
  rewrite nth_error_app2 by (rewrite labels_length; lia). rewrite labels_length.
  replace (length (flat t) + S i - length (flat t)) with (S i) by lia. cbn [nth_error].
  rewrite nth_error_app1 by exact L. exact H.
Qed.
Lemma labels_in_jump c nd t e (p : list code) : nth_error (labels (Cond c nd t e :: p)) (S (length (flat t))) = Some (Some nd).
Proof.
  cbn [labels]. rewrite labels1_cond. cbn [app nth_error]. rewrite <- app_assoc. cbn [app].
  rewrite nth_error_app2 by (rewrite labels_length; lia). rewrite labels_length, Nat.sub_diag. reflexivity.
Qed.
Lemma labels_in_rest x (p : list code) i w : nth_error (labels p) i = Some w -> nth_error (labels (x :: p)) (length (flat1 x) + i) = Some w.
Proof.
  intros H. cbn [labels]. pose proof (labels_length [x]) as L. cbn [labels flat] in L. rewrite !app_nil_r in L.
  rewrite nth_error_app2 by lia. rewrite L. replace (length (flat1 x) + i - length (flat1 x)) with i by lia. exact H.
Qed.

(** ** Every run is an evaluation *)
Lemma back (p : list code) : all_tame p -> proper p -> forall n ops pre post ip k f t x, x <> More ->
  ops = pre ++ map Some (flat p) ++ post -> ip = length pre -> exec n ops k ip (ok f t) = x ->
  (exists f1 t1 k1, k1 <= k /\ Ev cancel p f t (OK f1 t1) /\ exec n ops k1 (ip + length (flat p)) (ok f1 t1) = x) \/
  (exists f1 t1 e w i, Ev cancel p f t (KO f1 t1 e w) /\ x = Done (bad e f1 t1, Z.of_nat (ip + i)) /\ nth_error (labels p) i = Some w).
Proof.
  intros T. induction T as [|o nd p To Tp IH|c nd a b p Ta IHa Tb IHb Tp IHp]; intros P n ops pre post ip k f t x Hx E I X.
  - left. exists f, t, k. split; [lia|]. split; [constructor|]. cbn [flat length]. rewrite Nat.add_0_r. exact X.
  - inversion P as [|? ? ? Pp|]; subst o0 nd0 p0. cbn [flat flat1 app map] in E.
    pose proof (nth_here _ _ _ _ _ E I) as N.
    destruct k as [|k]; [rewrite (exec_0 _ _ _ _ _ N) in X; congruence|].
    destruct (o n (ok f t)) as [s1| |] eqn:O.
    + destruct s1 as [c1 f1 t1]. destruct (tame_done o To _ _ _ _ O) as [C|(e & C)]; cbn [s_ctx] in C; subst c1.
      * rewrite (x_ok _ _ _ _ _ _ _ _ _ N O) in X.
        assert (D : does o f t f1 t1 None) by (exists n; exact O).
        destruct (cancel t1) as [e|] eqn:Ca.
        -- right. exists f1, (S t1), e, nd, 0. split; [eapply E_atom_cancel; eassumption|]. rewrite Nat.add_0_r. split; [congruence|reflexivity].
        -- assert (E' : ops = (pre ++ [Some o]) ++ map Some (flat p) ++ post) by (rewrite E, <- app_assoc; reflexivity).
           destruct (IH Pp n ops _ post (S ip) k f1 (S t1) x Hx E') as [(f2 & t2 & k2 & A & B & G)|(f2 & t2 & e & w & i & A & B & G)];
             [rewrite app_length; cbn [length]; lia|exact X| |].
           ++ left. exists f2, t2, k2. split; [lia|]. split; [eapply E_atom; eassumption|].
              rewrite <- G. cbn [flat flat1 app length]. f_equal. lia.
           ++ right. exists f2, t2, e, w, (S i). split; [eapply E_atom; eassumption|]. split; [rewrite B; do 2 f_equal; lia|exact G].
      * rewrite (x_bad _ _ _ _ _ _ _ _ _ _ N O) in X. right. exists f1, t1, e, nd, 0.
        split; [apply E_atom_err; exists n; exact O|]. rewrite Nat.add_0_r. split; [congruence|reflexivity].
    + exfalso. cbn [Jump_Model.exec] in X. rewrite N, O in X. cbn [rbind] in X. congruence.
    + exfalso. exact (tame_stuck o To _ _ _ O).
  - inversion P as [| |? ? ? ? ? Pa Pb Pe Pp]; subst c0 nd0 t0 e p0.
    destruct (cond_at _ _ _ _ _ _ _ _ _ E I) as [N1 (pa & qa & Ea & Ia) N2 (pb & qb & Eb & Ib) (pp & qp & Ep & Ip) L Z1].
    pose proof (flat_pos b Pe) as Lb.
    assert (Rest : forall f1 t1 k1, k1 <= k -> exec n ops k1 (ip + length (flat1 (Cond c nd a b))) (ok f1 t1) = x ->
      (forall r, Ev cancel p f1 t1 r -> Ev cancel (Cond c nd a b :: p) f t r) ->
      (exists f1 t1 k1, k1 <= k /\ Ev cancel (Cond c nd a b :: p) f t (OK f1 t1) /\ exec n ops k1 (ip + length (flat (Cond c nd a b :: p))) (ok f1 t1) = x) \/
      (exists f1 t1 e w i, Ev cancel (Cond c nd a b :: p) f t (KO f1 t1 e w) /\ x = Done (bad e f1 t1, Z.of_nat (ip + i)) /\ nth_error (labels (Cond c nd a b :: p)) i = Some w)).
    { intros f1 t1 k1 K1 X1 R.
      destruct (IHp Pp n ops _ _ _ k1 f1 t1 x Hx Ep Ip X1) as [(f2 & t2 & k2 & A & B & G)|(f2 & t2 & e & w & i & A & B & G)].
      - left. exists f2, t2, k2. split; [lia|]. split; [apply R, B|]. rewrite <- G. cbn [flat]. rewrite app_length. f_equal. lia.
      - right. exists f2, t2, e, w, (length (flat1 (Cond c nd a b)) + i). split; [apply R, A|]. split; [rewrite B; do 2 f_equal; lia|].
        apply labels_in_rest, G. }
    destruct k as [|k]; [rewrite (exec_0 _ _ _ _ _ N1) in X; congruence|].
    destruct (c f) eqn:C.
    + rewrite (x_cond_true _ _ _ _ _ _ _ _ N1 C) in X. destruct (cancel t) as [e|] eqn:Ca.
      { right. exists f, (S t), e, (Some nd), 0. split; [apply E_cond_cancel, Ca|]. rewrite Nat.add_0_r. split; [congruence|reflexivity]. }
      destruct (IHa Pa n ops _ _ _ k f (S t) x Hx Ea Ia X) as [(f1 & t1 & k1 & A & B & G)|(f1 & t1 & e & w & i & A & B & G)].
      * destruct k1 as [|k1]; [rewrite (exec_0 _ _ _ _ _ N2) in G; congruence|].
        destruct (length (flat b)) as [|lb] eqn:LB; [lia|].
        rewrite (x_jump _ _ _ _ _ _ _ N2) in G by lia. destruct (cancel t1) as [e|] eqn:Cb.
        -- right. exists f1, (S t1), e, (last_of None b), (S (length (flat a) + S lb)).
           split; [eapply E_true_cancel; eassumption|]. split; [rewrite <- G; do 2 f_equal; lia|].
           apply labels_in_false. rewrite last_of_eq. replace lb with (length (labels b) - 1) by (rewrite labels_length; lia).
           apply last_nth. intros Q. apply (f_equal (@length _)) in Q. rewrite labels_length in Q. cbn [length] in Q. lia.
        -- apply (Rest f1 (S t1) k1); [lia| |].
           ++ rewrite <- G. f_equal. rewrite Z1. lia.
           ++ intros r R. eapply E_true; eassumption.
      * right. exists f1, t1, e, w, (S i). split; [eapply E_true_err; eassumption|]. split; [rewrite B; do 2 f_equal; lia|].
        apply labels_in_true, G.
    + rewrite (x_cond_false _ _ _ _ _ _ _ _ N1 C) in X by lia. destruct (cancel t) as [e|] eqn:Ca.
      { right. exists f, (S t), e, (Some nd), (S (length (flat a))). split; [apply E_cond_cancel, Ca|]. split; [congruence|].
        apply labels_in_jump. }
      destruct (IHb Pb n ops _ _ _ k f (S t) x Hx Eb Ib) as [(f1 & t1 & k1 & A & B & G)|(f1 & t1 & e & w & i & A & B & G)].
      * rewrite <- X. f_equal. lia.
      * apply (Rest f1 t1 k1); [lia| |].
        -- rewrite <- G. f_equal. rewrite Z1. lia.
        -- intros r R. eapply E_false; eassumption.
      * right. exists f1, t1, e, w, (S (length (flat a) + S i)). split; [eapply E_false_err; eassumption|]. split; [rewrite B; do 2 f_equal; lia|].
        apply labels_in_false, G.
Qed.

(** ** Every evaluation is a run *)
Lemma does_mono (o : bop) f t f1 t1 e : tame o -> does o f t f1 t1 e -> exists N, forall n, N <= n ->
  o n (ok f t) = Done (match e with Some x => bad x f1 t1 | None => ok f1 t1 end).
Proof.
  intros T (N & H). exists N. intros n L. unfold ok, bad. rewrite (tame_fuel o T N n f t _ L H). destruct e; reflexivity.
Qed.
Definition goes (p : list code) (f : F) (t : nat) (r : out) : Prop := exists N K, forall n, N <= n -> forall ops pre post ip k,
  ops = pre ++ map Some (flat p) ++ post -> ip = length pre ->
  match r with
  | OK f1 t1 => exec n ops (K + k) ip (ok f t) = exec n ops k (ip + length (flat p)) (ok f1 t1)
  | KO f1 t1 e w => exists i, exec n ops (K + k) ip (ok f t) = Done (bad e f1 t1, Z.of_nat (ip + i)) /\ nth_error (labels p) i = Some w
  end.
Lemma forth (p : list code) f t r : Ev cancel p f t r -> all_tame p -> proper p -> goes p f t r.
Proof.
  intros H. induction H as [f t|o nd p f t f1 t1 r D Ca _ IH|o nd p f t f1 t1 e D|o nd p f t f1 t1 e D Ca|c nd a b p f t e Ca
    |c nd a b p f t f1 t1 r C Ca _ IHa Cb _ IHp|c nd a b p f t f1 t1 e w C Ca _ IHa|c nd a b p f t f1 t1 e C Ca _ IHa Cb
    |c nd a b p f t f1 t1 r C Ca _ IHb _ IHp|c nd a b p f t f1 t1 e w C Ca _ IHb]; intros T P.
  - exists 0, 0. intros n _ ops pre post ip k E I. cbn [flat length Nat.add]. now rewrite Nat.add_0_r.
  - inversion T as [|? ? ? To Tp|]; subst o0 nd0 p0. inversion P as [|? ? ? Pp|]; subst o0 nd0 p0.
    destruct (does_mono _ _ _ _ _ _ To D) as (N1 & D1). destruct (IH Tp Pp) as (N2 & K & G).
    exists (max N1 N2), (S K). intros n L ops pre post ip k E I. cbn [flat flat1 app map] in E.
    pose proof (nth_here _ _ _ _ _ E I) as Nt. specialize (D1 n ltac:(lia)). cbn [Nat.add].
    assert (E' : ops = (pre ++ [Some o]) ++ map Some (flat p) ++ post) by (rewrite E, <- app_assoc; reflexivity).
    specialize (G n ltac:(lia) ops _ post (S ip) k E' ltac:(rewrite app_length; cbn [length]; lia)).
    pose proof (x_ok n ops (K + k) ip o f t f1 t1 Nt D1) as X. rewrite Ca in X.
    destruct r as [f2 t2|f2 t2 e w].
    + rewrite X, G. cbn [flat flat1 app length]. f_equal. lia.
    + destruct G as (i & G1 & G2). exists (S i). split; [|exact G2]. rewrite X, G1. do 2 f_equal. lia.
  - inversion T as [|? ? ? To Tp|]; subst o0 nd0 p0. destruct (does_mono _ _ _ _ _ _ To D) as (N1 & D1).
    exists N1, 1. intros n L ops pre post ip k E I. cbn [flat flat1 app map] in E.
    pose proof (nth_here _ _ _ _ _ E I) as Nt. exists 0. split; [|reflexivity]. cbn [Nat.add].
    rewrite (x_bad n ops k ip o f t f1 t1 e Nt (D1 n L)), Nat.add_0_r. reflexivity.
  - inversion T as [|? ? ? To Tp|]; subst o0 nd0 p0. destruct (does_mono _ _ _ _ _ _ To D) as (N1 & D1).
    exists N1, 1. intros n L ops pre post ip k E I. cbn [flat flat1 app map] in E.
    pose proof (nth_here _ _ _ _ _ E I) as Nt. exists 0. split; [|reflexivity]. cbn [Nat.add].
    rewrite (x_ok n ops k ip o f t f1 t1 Nt (D1 n L)), Ca, Nat.add_0_r. reflexivity.
  - inversion P as [| |? ? ? ? ? Pa Pb Pe Pp]; subst c0 nd0 t0 e0 p0.
    exists 0, 1. intros n _ ops pre post ip k E I. cbn [Nat.add].
    destruct (cond_at _ _ _ _ _ _ _ _ _ E I) as [N1 _ N2 _ _ L Z1].
    destruct (c f) eqn:C.
    + exists 0. split; [|reflexivity]. rewrite (x_cond_true _ _ _ _ _ _ _ _ N1 C), Ca, Nat.add_0_r. reflexivity.
    + exists (S (length (flat a))). split; [|apply labels_in_jump]. rewrite (x_cond_false _ _ _ _ _ _ _ _ N1 C), Ca by lia. reflexivity.
  - inversion T as [| |? ? ? ? ? Ta Tb Tp]; subst c0 nd0 t0 e p0. inversion P as [| |? ? ? ? ? Pa Pb Pe Pp]; subst c0 nd0 t0 e p0.
    destruct (IHa Ta Pa) as (Na & Ka & Ga). destruct (IHp Tp Pp) as (Np & Kp & Gp).
    exists (max Na Np), (S (Ka + S Kp)). intros n L ops pre post ip k E I.
    destruct (cond_at _ _ _ _ _ _ _ _ _ E I) as [N1 (pa & qa & Ea & Ia) N2 (pb & qb & Eb & Ib) (pp & qp & Ep & Ip) Le Z1].
    pose proof (flat_pos b Pe) as Lb.
    assert (X : exec n ops (S (Ka + S Kp) + k) ip (ok f t) = exec n ops (Kp + k) (ip + length (flat1 (Cond c nd a b))) (ok f1 (S t1))).
    { cbn [Nat.add]. rewrite (x_cond_true _ _ _ _ _ _ _ _ N1 C), Ca.
      replace (Ka + S Kp + k) with (Ka + (S (Kp + k))) by lia.
      rewrite (Ga n ltac:(lia) ops _ _ _ (S (Kp + k)) Ea Ia).
      destruct (length (flat b)) as [|lb] eqn:LB; [lia|].
      rewrite (x_jump _ _ _ _ _ _ _ N2), Cb by lia. f_equal. lia. }
    specialize (Gp n ltac:(lia) ops _ _ _ k Ep Ip). destruct r as [f2 t2|f2 t2 e w].
    + rewrite X, Gp. cbn [flat]. rewrite app_length. f_equal. lia.
    + destruct Gp as (i & G1 & G2). exists (length (flat1 (Cond c nd a b)) + i). split; [rewrite X, G1; do 2 f_equal; lia|].
      apply labels_in_rest, G2.
  - inversion T as [| |? ? ? ? ? Ta Tb Tp]; subst c0 nd0 t0 e0 p0. inversion P as [| |? ? ? ? ? Pa Pb Pe Pp]; subst c0 nd0 t0 e0 p0.
    destruct (IHa Ta Pa) as (Na & Ka & Ga). exists Na, (S Ka). intros n L ops pre post ip k E I.
    destruct (cond_at _ _ _ _ _ _ _ _ _ E I) as [N1 (pa & qa & Ea & Ia) N2 (pb & qb & Eb & Ib) (pp & qp & Ep & Ip) Le Z1].
    destruct (Ga n L ops _ _ _ k Ea Ia) as (i & G1 & G2). exists (S i). split; [|apply labels_in_true, G2].
    cbn [Nat.add]. rewrite (x_cond_true _ _ _ _ _ _ _ _ N1 C), Ca, G1. do 2 f_equal. lia.
  - inversion T as [| |? ? ? ? ? Ta Tb Tp]; subst c0 nd0 t0 e0 p0. inversion P as [| |? ? ? ? ? Pa Pb Pe Pp]; subst c0 nd0 t0 e0 p0.
    destruct (IHa Ta Pa) as (Na & Ka & Ga). exists Na, (S (Ka + 1)). intros n L ops pre post ip k E I.
    destruct (cond_at _ _ _ _ _ _ _ _ _ E I) as [N1 (pa & qa & Ea & Ia) N2 (pb & qb & Eb & Ib) (pp & qp & Ep & Ip) Le Z1].
    pose proof (flat_pos b Pe) as Lb. destruct (length (flat b)) as [|lb] eqn:LB; [lia|].
    exists (S (length (flat a) + S lb)). split.
    + cbn [Nat.add]. rewrite (x_cond_true _ _ _ _ _ _ _ _ N1 C), Ca.
      replace (Ka + 1 + k) with (Ka + S k) by lia. rewrite (Ga n L ops _ _ _ (S k) Ea Ia).
      rewrite (x_jump _ _ _ _ _ _ _ N2), Cb by lia. do 2 f_equal. lia.
    + apply labels_in_false. rewrite last_of_eq. replace lb with (length (labels b) - 1) by (rewrite labels_length; lia).
      apply last_nth. intros Q. apply (f_equal (@length _)) in Q. rewrite labels_length in Q. cbn [length] in Q. lia.
  - inversion T as [| |? ? ? ? ? Ta Tb Tp]; subst c0 nd0 t0 e p0. inversion P as [| |? ? ? ? ? Pa Pb Pe Pp]; subst c0 nd0 t0 e p0.
    destruct (IHb Tb Pb) as (Nb & Kb & Gb). destruct (IHp Tp Pp) as (Np & Kp & Gp).
    exists (max Nb Np), (S (Kb + Kp)). intros n L ops pre post ip k E I.
    destruct (cond_at _ _ _ _ _ _ _ _ _ E I) as [N1 (pa & qa & Ea & Ia) N2 (pb & qb & Eb & Ib) (pp & qp & Ep & Ip) Le Z1].
    assert (X : exec n ops (S (Kb + Kp) + k) ip (ok f t) = exec n ops (Kp + k) (ip + length (flat1 (Cond c nd a b))) (ok f1 t1)).
    { cbn [Nat.add]. rewrite (x_cond_false _ _ _ _ _ _ _ _ N1 C), Ca by lia.
      replace (Kb + Kp + k) with (Kb + (Kp + k)) by lia. replace (S (ip + S (length (flat a)))) with (S (S ip + length (flat a))) by lia.
      rewrite (Gb n ltac:(lia) ops _ _ _ (Kp + k) Eb Ib). f_equal. lia. }
    specialize (Gp n ltac:(lia) ops _ _ _ k Ep Ip). destruct r as [f2 t2|f2 t2 e w].
    + rewrite X, Gp. cbn [flat]. rewrite app_length. f_equal. lia.
    + destruct Gp as (i & G1 & G2). exists (length (flat1 (Cond c nd a b)) + i). split; [rewrite X, G1; do 2 f_equal; lia|].
      apply labels_in_rest, G2.
  - inversion T as [| |? ? ? ? ? Ta Tb Tp]; subst c0 nd0 t0 e0 p0. inversion P as [| |? ? ? ? ? Pa Pb Pe Pp]; subst c0 nd0 t0 e0 p0.
    destruct (IHb Tb Pb) as (Nb & Kb & Gb). exists Nb, (S Kb). intros n L ops pre post ip k E I.
    destruct (cond_at _ _ _ _ _ _ _ _ _ E I) as [N1 (pa & qa & Ea & Ia) N2 (pb & qb & Eb & Ib) (pp & qp & Ep & Ip) Le Z1].
    destruct (Gb n L ops _ _ _ k Eb Ib) as (i & G1 & G2). exists (S (length (flat a) + S i)). split; [|apply labels_in_false, G2].
    cbn [Nat.add]. rewrite (x_cond_false _ _ _ _ _ _ _ _ N1 C), Ca by lia. replace (S (ip + S (length (flat a)))) with (S (S ip + length (flat a))) by lia.
    rewrite G1. do 2 f_equal. lia.
Qed.
End R.
