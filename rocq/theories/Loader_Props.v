(** C73: input loaders put exactly the asked values into the slots. *)
From Coq Require Import ZArith Permutation.
From Verif Require Import Base Strings_Model Strings_Proofs Naming_Model Loader_Model Loader_Spec Loader_Proofs Loader_Comb Loader_Keys.
Local Open Scope nat_scope.
Local Open Scope list_scope.

(** ** A loader from accessors is made exactly if their names differ. *)
Theorem C73_accessors : forall V ord (some : some_order ord) I (accs : list (accessor V I)) m, of_accessors accs m ->
  (NoDup (map (a_name V I) accs) -> exists l, accessors_loader V I accs = Some l /\ implements ord l m) /\
  (~ NoDup (map (a_name V I) accs) -> accessors_loader V I accs = None).
Proof.
  intros V ord some I accs m M. split.
  - intros ND. destruct (accessors_ok V ord some accs m M ND) as (l & E & L & _). eauto.
  - intros N. unfold accessors_loader. destruct (validate_duplicated (accessor_types V I accs)) eqn:D; [|reflexivity]. apply duplicated_ok in D. rewrite accessors_types_names in D. contradiction.
Qed.
Print Assumptions C73_accessors.

(** ** A wildcard loader reads every name that has a key. *)
Theorem C73_wildcard : forall V ord (some : some_order ord) I K sort (sorts : forall l, Permutation (sort l) l) name2key out access suggestions,
  implements ord (wildcard V ord I K sort out access name2key suggestions) (of_keys name2key (fun k => Some (out, fun i => access i k))).
Proof. intros V ord some I K sort sorts. apply (wildcard_ok V ord some K sort sorts). Qed.
Print Assumptions C73_wildcard.
(** With a callback, a value of another type than the one promised is an error. *)
Theorem C73_wildcard_callback : forall V ord (some : some_order ord) I K sort (sorts : forall l, Permutation (sort l) l) name2key access key2type suggestions,
  implements ord (wildcard_callback V ord I K sort access name2key key2type suggestions)
    (of_keys name2key (fun k => match key2type k with Some t => Some (t, fun i => of_type t (access i k)) | None => None end)).
Proof. intros V ord some I K sort sorts. apply (wildcard_callback_ok V ord some K sort sorts). Qed.
Print Assumptions C73_wildcard_callback.
(** The key in a name is the text at the place of the name in the format. *)
Theorem C73_key : forall prefix suffix n k, name_to_key prefix suffix n = Some k <-> n = prefix ++ k ++ suffix.
Proof. exact name_to_key_ok. Qed.
Print Assumptions C73_key.

(** ** Wrapping, filtering, chaining, delegating *)
Theorem C73_wrapped : forall V ord (some : some_order ord) I (l : loader V I) m, implements ord l m -> implements ord (owning V ord I l) m.
Proof. intros V ord some I. apply (owning_ok V ord some). Qed.
Print Assumptions C73_wrapped.
Theorem C73_filter : forall V ord (some : some_order ord) I (l : loader V I) m keep, implements ord l m -> implements ord (filtering V ord I l keep) (only m keep).
Proof. intros V ord some I. apply (filtering_ok V ord some). Qed.
Print Assumptions C73_filter.
Theorem C73_filter_names : forall V ord (some : some_order ord) I (l : loader V I) m allowed m', implements ord l m ->
  (forall n, In n allowed -> m' n = m n) -> (forall n, ~ In n allowed -> m' n = None) -> implements ord (filtering_names V ord I l allowed) m'.
Proof.
  intros V ord some I l m allowed m' H Y N.
  assert (forall n, only m (fun n => existsb (str_eqb n) allowed) n = m' n) as E.
  { intros n. unfold only. destruct (existsb (str_eqb n) allowed) eqn:B.
    - apply existsb_exists in B. destruct B as (x & Hx & B). apply str_eqb_ok in B. subst. symmetry. apply Y, Hx.
    - symmetry. apply N. intros K. enough (existsb (str_eqb n) allowed = true) by congruence. apply existsb_exists. exists n. split; [exact K|]. apply str_eqb_ok. reflexivity. }
  destruct (filtering_ok V ord some l m (fun n => existsb (str_eqb n) allowed) H) as (G & B). split; [intros n; rewrite <- E; apply G|]. intros s P. destruct (B s P) as (B1 & B2). split.
  - intros F. destruct B1 as (b & Eb & L); [intros n sl Hs; rewrite E; apply F, Hs|]. exists b. split; [exact Eb|]. eapply loads_ext; [|exact L]. intros n sl _. apply E.
  - intros F. apply B2. intros F'. apply F. intros n sl Hs. rewrite <- E. apply F', Hs.
Qed.
Print Assumptions C73_filter_names.
Theorem C73_chain : forall V ord (some : some_order ord) I (ls : list (loader V I)) ms, Forall2 (implements ord) ls ms -> implements ord (chain V ord I ls) (first ms).
Proof. intros V ord some I. apply (chain_ok V ord some). Qed.
Print Assumptions C73_chain.
Theorem C73_delegating : forall V ord (some : some_order ord) I J (l : loader V J) m (access : I -> J) prefix m',
  implements ord l m -> under m access prefix m' -> implements ord (delegating V ord I J l access prefix) m'.
Proof. intros V ord some I J. apply (delegating_ok V ord some). Qed.
Print Assumptions C73_delegating.
Theorem C73_by_key : forall V ord (some : some_order ord) I name2key (delegate : name -> option (loader V I)) ms suggestions,
  (forall k, match delegate k, ms k with Some l, Some m => implements ord l m | None, None => True | _, _ => False end) ->
  implements ord (dynamic V ord I delegate name2key suggestions) (by_key name2key ms).
Proof. intros V ord some I name2key delegate ms suggestions. apply (dynamic_ok V ord some). Qed.
Print Assumptions C73_by_key.
(** The loader of a key, once made, is given ever after, whatever the factory would make and
    whichever other keys are asked for. *)
Theorem C73_kept : forall V I (asked : list ((name -> option (loader V I)) * name)) factory kept k l kept',
  get_delegate V I factory kept k = (Some l, kept') ->
  let kept'' := fold_left (fun m a => snd (get_delegate V I (fst a) m (snd a))) asked kept' in
  forall factory', get_delegate V I factory' kept'' k = (Some l, kept'').
Proof.
  intros V I asked factory kept k l kept' H kept'' factory'.
  assert (lookup kept' k = Some l) as L.
  { unfold get_delegate in H. destruct (lookup kept k) as [x|] eqn:E; [injection H as <- <-; exact E|]. destruct (factory k) as [x|]; [|discriminate]. injection H as <- <-. unfold lookup. cbn [find fst]. rewrite (proj2 (str_eqb_ok k k) eq_refl). reflexivity. }
  assert (lookup kept'' k = Some l) as L''; [|unfold get_delegate; rewrite L''; reflexivity].
  unfold kept''. clear H kept''. revert kept' L. induction asked as [|(fac, k') asked IH]; intros kept' L; cbn [fold_left fst snd]; [exact L|]. apply IH. unfold get_delegate.
  destruct (lookup kept' k') eqn:E; [exact L|]. destruct (fac k') as [x|]; [|exact L]. cbn [snd]. unfold lookup. cbn [find fst].
  destruct (str_eqb k' k) eqn:B; [apply str_eqb_ok in B; subst; congruence|]. exact L.
Qed.
Print Assumptions C73_kept.

(** ** PartialBind binds the known names and leaves the others. *)
Theorem C73_partial_bind : forall V ord (some : some_order ord) I (l : loader V I) m s b rest, implements ord l m -> proper s -> partial_bind V ord I l s = (b, rest) ->
  exists part, Permutation (part ++ rest) s /\ (forall n sl, In (n, sl) part -> m n <> None) /\ (forall n sl, In (n, sl) rest -> m n = None) /\
    (fits m part -> exists b', b = Some b' /\ loads m part b') /\ (~ fits m part -> b = None).
Proof.
  intros V ord some I l m s b rest H P E. rewrite (partial_ok V ord some l m s H P) in E. injection E as <- <-.
  set (known := fun e : name * slot => match m (fst e) with Some _ => true | None => false end). exists (filter known (ord _ s)).
  assert (Permutation (filter known (ord _ s)) (filter known s)) as Pp.
  { pose proof (some _ s) as Po. revert Po. generalize (ord slot s). intros l0 Po. clear -Po. induction Po; cbn [filter]; [constructor|destruct (known x); [constructor|]; assumption|destruct (known x), (known y); try reflexivity; apply perm_swap|etransitivity; eassumption]. }
  split; [|split; [|split]].
  - etransitivity; [apply Permutation_app_tail, Pp|]. etransitivity; [|apply (filter_part known)]. apply Permutation_app_head. erewrite filter_ext; [reflexivity|]. intros (n, sl). unfold known. cbn. destruct (m n); reflexivity.
  - intros n sl K. apply filter_In in K. destruct K as (_ & K). unfold known in K. cbn in K. destruct (m n); discriminate.
  - intros n sl K. apply filter_In in K. destruct K as (_ & K). cbn in K. destruct (m n); [discriminate|reflexivity].
  - pose proof (proj2 H _ (proper_perm _ _ (Permutation_sym Pp) (proper_filter known s P))) as (B1 & B2). split; [|exact B2]. intros F. destruct (B1 F) as (b & Eb & L). exists b. split; [exact Eb|exact L].
Qed.
Print Assumptions C73_partial_bind.

(** ** The suggested names are the known ones, and stay so. *)
Definition exact_names {V I} (l : loader V I) (m : meaning V I) : Prop := forall n, In n (suggest V I l) <-> m n <> None.
Theorem C73_suggestions : forall V ord,
  (forall I (accs : list (accessor V I)) m l, of_accessors accs m -> accessors_loader V I accs = Some l -> exact_names l m) /\
  (forall I (l : loader V I) m, exact_names l m -> exact_names (owning V ord I l) m) /\
  (forall I (l : loader V I) m keep, exact_names l m -> exact_names (filtering V ord I l keep) (only m keep)) /\
  (forall I (ls : list (loader V I)) ms, Forall2 exact_names ls ms -> exact_names (chain V ord I ls) (first ms)) /\
  (forall I J (l : loader V J) m (access : I -> J) prefix m', exact_names l m -> under m access prefix m' -> exact_names (delegating V ord I J l access prefix) m').
Proof.
  intros V ord. split; [|split; [|split; [|split]]].
  - intros I accs m l (M1 & M2) E n. unfold accessors_loader in E. destruct (validate_duplicated _); [|discriminate]. injection E as <-. cbn [suggest]. rewrite accessors_types_names. split.
    + intros H. apply in_map_iff in H. destruct H as (a & <- & Ha). rewrite (M1 a Ha). discriminate.
    + intros H. destruct (in_dec (list_eq_dec Z.eq_dec) n (map (a_name V I) accs)) as [|N]; [assumption|]. exfalso. apply H, M2. intros a Ha <-. apply N, in_map, Ha.
  - intros I l m H. exact H.
  - intros I l m keep H n. cbn [suggest filtering]. etransitivity; [apply filter_In|]. pose proof (H n) as Hn. unfold only. destruct (keep n); [tauto|]. split; [intros (_ & K); discriminate|intros K; destruct (K eq_refl)].
  - intros I ls ms H n. cbn [suggest chain]. induction H as [|l m ls ms Hl H IH]; cbn [map List.concat first]; [split; [intros []|intros K; destruct (K eq_refl)]|].
    etransitivity; [apply in_app_iff|]. pose proof (Hl n) as Hn. destruct (m n) as [x|]; [split; [discriminate|intros _; left; apply Hn; discriminate]|]. tauto.
  - intros I J l m access prefix m' H (U1 & U2) n. cbn [suggest delegating]. rewrite in_map_iff. split.
    + intros (d & <- & Hd). apply H in Hd. rewrite U1. destruct (m d) as [(t, r)|]; [discriminate|congruence].
    + intros K. pose proof (consume_prefix_ok n prefix) as C. destruct (consume_prefix n prefix) as [d|]; [|destruct (K (U2 n C))]. subst. exists d. split; [reflexivity|]. apply H. rewrite U1 in K. destruct (m d) as [(t, r)|]; congruence.
Qed.
Print Assumptions C73_suggestions.

(** ** A case: two accessors, one hidden by a filter, and a delegate under the prefix "x/", chained.
    Types: 7 for all. *)
Definition id_ord (A : Type) (m : hmap A) := m.
Lemma id_some : some_order id_ord.
Proof. intros A m. apply Permutation_refl. Qed.
Definition na : name := [97%Z]. Definition nb : name := [98%Z]. Definition px : name := [120%Z; 47%Z].
Definition accs1 : list (accessor nat (nat * nat)) := [mkAcc _ _ na 7 fst; mkAcc _ _ nb 7 snd].
Definition accs2 : list (accessor nat nat) := [mkAcc _ _ na 7 (fun i => i + 100)].
Definition both : option (loader nat (nat * nat)) :=
  let? l1 := accessors_loader nat (nat * nat) accs1 in
  let? l2 := accessors_loader nat nat accs2 in
  Some (chain nat id_ord _ [filtering_names nat id_ord _ l1 [na]; delegating nat id_ord (nat * nat) nat l2 snd px; l1]).
Definition three : slots := [(na, mkSlot 0 7); (px ++ na, mkSlot 2 7); (nb, mkSlot 1 7)].
Example case_run : match both with
  | Some l => match bind_loader nat id_ord _ l three with Some b => let '(f, ok) := b (5, 6) (fun _ => 0) in (f 0, f 1, f 2, f 3, ok) = (5, 6, 106, 0, true) | None => False end
  | None => False end.
Proof. vm_compute. reflexivity. Qed.
Example case_proper : proper three.
Proof. split; cbn; repeat constructor; cbn; intuition discriminate. Qed.
Example case_wrong_type : match both with Some l => bind_loader nat id_ord _ l [(na, mkSlot 0 8)] = None /\ bind_loader nat id_ord _ l [(px, mkSlot 0 7)] = None | None => False end.
Proof. vm_compute. auto. Qed.
Example case_twice : accessors_loader nat (nat * nat) (accs1 ++ accs1) = None.
Proof. reflexivity. Qed.
Definition m1 : meaning nat (nat * nat) := fun n => if str_eqb n na then Some (7, fun i => Some (fst i)) else if str_eqb n nb then Some (7, fun i => Some (snd i)) else None.
Example case_accessors : of_accessors accs1 m1.
Proof.
  split; [intros a [<-|[<-|[]]]; reflexivity|]. intros n H. unfold m1. destruct (str_eqb n na) eqn:A.
  - apply str_eqb_ok in A. subst. destruct (H _ (or_introl eq_refl) eq_refl).
  - destruct (str_eqb n nb) eqn:B; [|reflexivity]. apply str_eqb_ok in B. subst. destruct (H _ (or_intror (or_introl eq_refl)) eq_refl).
Qed.
(** Keys: names "x/K"; the value is not there for key "b". *)
Definition wild : loader nat nat := wildcard nat id_ord nat name (fun l => rev l) 7 (fun i k => if str_eqb k nb then None else Some (i + List.length k)) (name_to_key px []) [].
Example case_wild : match bind_loader nat id_ord _ wild [(px ++ na, mkSlot 0 7); (px, mkSlot 1 7)] with
  | Some b => let '(f, ok) := b 5 (fun _ => 0) in (f 0, f 1, ok) = (6, 5, true) | None => False end.
Proof. vm_compute. reflexivity. Qed.
Example case_wild_fails : match bind_loader nat id_ord _ wild [(px ++ nb, mkSlot 0 7)] with Some b => snd (b 5 (fun _ => 0)) = false | None => False end.
Proof. vm_compute. reflexivity. Qed.
Definition wild2 : loader nat nat := wildcard_callback nat id_ord nat name (fun l => l) (fun i k => Some (List.length k, i)) (fun n => Some n) (fun k => if str_eqb k nb then None else Some 1) [].
Example case_callback : match bind_loader nat id_ord _ wild2 [(na, mkSlot 0 1); (px, mkSlot 1 1)] with Some b => snd (b 5 (fun _ => 0)) = false | None => False end.
Proof. vm_compute. reflexivity. Qed.
Definition dyn : loader nat nat := dynamic nat id_ord nat (fun k => if str_eqb k na then Some wild else accessors_loader nat nat accs2) (fun n => if str_eqb n na then Some nb else Some na) [].
Example case_dynamic : match bind_loader nat id_ord _ dyn [(px ++ na, mkSlot 0 7); (na, mkSlot 1 7); (px, mkSlot 2 7)] with
  | Some b => let '(f, ok) := b 5 (fun _ => 0) in (f 0, f 1, f 2, ok) = (6, 105, 5, true) | None => False end.
Proof. vm_compute. reflexivity. Qed.
Example case_partial : match accessors_loader nat (nat * nat) accs1 with Some l => snd (partial_bind nat id_ord _ l three) = [(px ++ na, mkSlot 2 7)] | None => False end.
Proof. vm_compute. reflexivity. Qed.
Example case_kept : fst (get_delegate nat nat (fun _ => None) (snd (get_delegate nat nat (fun _ => Some wild) [] na)) na) = Some wild.
Proof. reflexivity. Qed.
Example case_key : name_to_key px na (px ++ nb ++ na) = Some nb /\ name_to_key px na (px ++ nb) = None.
Proof. vm_compute. auto. Qed.
