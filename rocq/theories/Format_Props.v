(** C80: filling values into a format by name. *)
From Coq Require Import ZArith ListDec.
From Verif Require Import Base Strings_Model Strings_Spec Strings_Proofs Format_Model Format_Spec Format_Proofs Format_Main.
Local Open Scope Z_scope.

(** The result is the format with every argument replaced by the text of the value of that name; in
    all other cases there is an error. *)
Theorem C80_format val kind_of bytes_of repr strcat untyped spec arg_names vals out :
  format val kind_of bytes_of repr strcat untyped spec arg_names vals = inr out <->
  formatted val kind_of bytes_of repr strcat untyped spec arg_names vals out.
Proof. apply format_ok. Qed.
Print Assumptions C80_format.

(** A format can be read in one way only. *)
Theorem C80_unambiguous spec r q : writes spec r -> writes spec q -> r = q.
Proof. apply writes_unique. Qed.
Print Assumptions C80_unambiguous.

(** A text with its braces doubled stands for itself. *)
Theorem C80_escape val kind_of bytes_of repr strcat untyped arg_names names vals t :
  named arg_names names -> NoDup names -> length names = length vals ->
  format val kind_of bytes_of repr strcat untyped (escape t) arg_names vals = inr t.
Proof.
  intros N D L. apply format_ok. exists names, (map inl t). repeat split; auto.
  - pose proof (writes_escape t [] [] w_nil) as W. rewrite !app_nil_r in W. exact W.
  - rewrite <- (app_nil_r t) at 2. rewrite <- (app_nil_r (map inl t)). apply renders_text. constructor.
Qed.
Print Assumptions C80_escape.

(** A value is copied as it is: braces in it are not read again. *)
Theorem C80_insert val kind_of bytes_of repr strcat untyped arg_names names vals a b i n v :
  named arg_names names -> NoDup names -> length names = length vals -> identifier n ->
  nth_error names i = Some n -> nth_error vals i = Some v -> kind_of v = KBytes ->
  format val kind_of bytes_of repr strcat untyped (escape a ++ [123] ++ n ++ [125] ++ escape b) arg_names vals
    = inr (a ++ bytes_of v ++ b).
Proof.
  intros N D L I Hn Hv K. apply format_ok. exists names, (map inl a ++ inr (n, []) :: map inl b).
  repeat split; auto.
  - apply writes_escape. cbn [app]. apply w_arg; [exact I|].
    pose proof (writes_escape b [] [] w_nil) as W. rewrite !app_nil_r in W. exact W.
  - apply renders_text. apply (r_arg _ _ _ _ _ _ _ _ i n [] v); auto.
    + apply sh_plain, p_bytes, K.
    + rewrite <- (app_nil_r b) at 2. rewrite <- (app_nil_r (map inl b)). apply renders_text. constructor.
Qed.
Print Assumptions C80_insert.

(** Formats can be put one after the other. *)
Theorem C80_concat val kind_of bytes_of repr strcat untyped arg_names vals a b out out' :
  format val kind_of bytes_of repr strcat untyped a arg_names vals = inr out ->
  format val kind_of bytes_of repr strcat untyped b arg_names vals = inr out' ->
  format val kind_of bytes_of repr strcat untyped (a ++ b) arg_names vals = inr (out ++ out').
Proof.
  intros A B. apply format_ok in A, B. apply format_ok.
  destruct A as (names & r & N & D & L & W & R), B as (names' & r' & N' & _ & _ & W' & R').
  apply named_ok in N, N'. subst names names'. exists (names_of arg_names), (r ++ r').
  split; [apply named_ok; reflexivity|]. repeat split; auto; [apply writes_app; assumption|apply renders_app; assumption].
Qed.
Print Assumptions C80_concat.

(** Repeated names, and a wrong number of names, are told apart, whatever the format is. *)
Theorem C80_names val kind_of bytes_of repr strcat untyped spec arg_names names vals :
  named arg_names names ->
  (~ NoDup names -> format val kind_of bytes_of repr strcat untyped spec arg_names vals = inl EDup) /\
  (NoDup names -> length names <> length vals ->
   format val kind_of bytes_of repr strcat untyped spec arg_names vals = inl ECount).
Proof.
  intros N. apply named_ok in N. subst names. unfold format. fold (names_of arg_names).
  rewrite (index_loop_ok (names_of arg_names) [] [] 0%nat (NoDup_nil _) eq_refl eq_refl). cbn [app].
  destruct (NoDup_dec (list_eq_dec Z.eq_dec) (names_of arg_names)) as [D|D]; split; try tauto.
  intros _ L. apply Nat.eqb_neq in L. rewrite L. reflexivity.
Qed.
Print Assumptions C80_names.

(** A format that is not written by the rules is an error of the format or of an argument in it. *)
Theorem C80_malformed val kind_of bytes_of repr strcat untyped spec arg_names names vals :
  named arg_names names -> NoDup names -> length names = length vals ->
  ((exists r, writes spec r) <->
   format val kind_of bytes_of repr strcat untyped spec arg_names vals <> inl ESpec /\
   format val kind_of bytes_of repr strcat untyped spec arg_names vals <> inl EArg).
Proof.
  intros N D L. apply named_ok in N. subst names. unfold format. fold (names_of arg_names).
  rewrite (index_loop_ok (names_of arg_names) [] [] 0%nat (NoDup_nil _) eq_refl eq_refl). cbn [app].
  destruct (NoDup_dec (list_eq_dec Z.eq_dec) (names_of arg_names)) as [_|C]; [|contradiction].
  rewrite (proj2 (Nat.eqb_eq _ _) L).
  destruct (parse spec) as [e|p] eqn:P.
  - split.
    + intros (r & W). apply parse_writes in W. congruence.
    + intros (A & B). exfalso. apply parse_errors in P. destruct P; subst e; auto.
  - destruct (parse_sound _ _ P) as (r & W & _). split; [intros _|intros _; exists r; exact W].
    apply process_errors.
Qed.
Print Assumptions C80_malformed.

(** With optional inputs: missing if any of them is missing, and then never an error; otherwise as
    for the values themselves. *)
Theorem C80_operator val kind_of bytes_of repr strcat untyped spec arg_names vals :
  let missing := fst spec = Some false \/ Exists (fun x : input val => fst x = Some false) vals in
  (missing -> run_op val kind_of bytes_of repr strcat untyped spec arg_names vals = inr None) /\
  (~ missing -> forall out,
   (run_op val kind_of bytes_of repr strcat untyped spec arg_names vals = inr (Some out) <->
    formatted val kind_of bytes_of repr strcat untyped (snd spec) arg_names (map snd vals) out) /\
   run_op val kind_of bytes_of repr strcat untyped spec arg_names vals <> inr None).
Proof.
  intros missing. unfold run_op.
  assert (C : forallb (fun b => b) (presence spec ++ flat_map presence vals) = true <-> ~ missing).
  { unfold missing. rewrite forallb_forall. split.
    - intros H [E|E].
      + specialize (H false). unfold presence at 1 in H. rewrite E in H. discriminate H. apply in_app_iff. left; left; reflexivity.
      + apply Exists_exists in E. destruct E as (x & I & E). specialize (H false).
        discriminate H. apply in_app_iff. right. apply in_flat_map. exists x. split; [exact I|].
        unfold presence. rewrite E. left; reflexivity.
    - intros H [|] I; [reflexivity|]. exfalso. apply H. apply in_app_iff in I. destruct I as [I|I].
      + left. unfold presence in I. destruct (fst spec) as [b|]; [destruct I as [->|[]]; reflexivity|destruct I].
      + right. apply in_flat_map in I. destruct I as (x & I & J). apply Exists_exists. exists x. split; [exact I|].
        unfold presence in J. destruct (fst x) as [b|]; [destruct J as [->|[]]; reflexivity|destruct J]. }
  destruct (forallb _ _) eqn:F.
  - split; [intros M; exfalso; apply (proj1 C eq_refl M)|]. intros _ out. rewrite <- format_ok.
    destruct (format _ _ _ _ _ _ _ _ _) as [e|o]; (split; [|discriminate]); split; try discriminate; intros [= ->]; reflexivity.
  - split; [reflexivity|]. intros M. apply C in M. discriminate.
Qed.
Print Assumptions C80_operator.

(** There is such an operator for a format in bytes, names in a text and values of the seven
    supported types; its result is optional exactly if one of the inputs is. *)
Theorem C80_types types out :
  get_operator types = Some out <->
  exists o rest, types = (o, BKind KBytes) :: (false, BText) :: rest /\
    Forall (fun t : qtype => exists k, snd t = BKind k) rest /\
    snd out = BKind KBytes /\ (fst out = true <-> o = true \/ Exists (fun t : qtype => fst t = true) rest).
Proof.
  split.
  - unfold get_operator. destruct types as [|(o, b) [|(o1, b1) rest]]; try discriminate.
    change (snd (o, b)) with b. change (fst (o, b)) with o. destruct b as [[]| |]; try discriminate. destruct o1; [discriminate|]. destruct b1; try discriminate. cbv beta iota.
    destruct (forallb (fun t : bool * base => wrappable (snd t)) rest) eqn:F; [|intros X; discriminate X]. intros [= <-]. exists o, rest.
    split; [reflexivity|]. split; [|split; [reflexivity|]].
    + rewrite forallb_forall in F. apply Forall_forall. intros (q, b) I. specialize (F _ I). cbn in F |- *.
      destruct b as [k| |]; try discriminate. exists k; reflexivity.
    + cbn [fst]. rewrite orb_true_iff, existsb_exists, Exists_exists. reflexivity.
  - intros (o & rest & -> & F & S & B). unfold get_operator.
    change (snd (o, BKind KBytes)) with (BKind KBytes). change (fst (o, BKind KBytes)) with o. cbv iota.
    replace (forallb (fun t : bool * base => wrappable (snd t)) rest) with true.
    2: { symmetry. apply forallb_forall. intros t I. rewrite Forall_forall in F. destruct (F _ I) as (k & ->). reflexivity. }
    destruct out as (p, q). cbn [fst snd] in *. subst q.
    replace (o || existsb fst rest) with p; [reflexivity|]. apply eq_true_iff_eq. rewrite B, orb_true_iff, existsb_exists, Exists_exists. reflexivity.
Qed.
Print Assumptions C80_types.

(** "{a}{{{b:.2}}}{a:v}" with a = "{x}" and b = 5 (a float shown by the format as "5.00") *)
Definition demo_val : Type := (kind * str)%type.
Definition demo_untyped (f : str) (v : demo_val) : option str :=
  if str_eqb f [37; 46; 50; 102] then Some (snd v ++ [46; 48; 48]) else None.
Definition demo_spec : str :=
  [123;97;125; 123;123; 123;98;58;46;50;125; 125;125; 123;97;58;118;125].
Definition demo_vals : list demo_val := [(KBytes, [123;120;125]); (KFloat, [53])].
Definition demo := format demo_val fst snd snd snd demo_untyped.
Example ex_format : demo demo_spec [97;44;98] demo_vals =
  inr [123;120;125; 123; 53;46;48;48; 125; 123;120;125].
Proof. reflexivity. Qed.
Example ex_dup : demo demo_spec [97;44;97] demo_vals = inl EDup. Proof. reflexivity. Qed.
Example ex_count : demo demo_spec [97] demo_vals = inl ECount. Proof. reflexivity. Qed.
Example ex_spec : demo [123;97;125;125] [97;44;98] demo_vals = inl ESpec. Proof. reflexivity. Qed.
Example ex_arg : demo [123;125] [97;44;98] demo_vals = inl EArg. Proof. reflexivity. Qed.
Example ex_named : named [97;44;98] [[97]; [98]] /\ NoDup [[97]; [98]] /\ identifier [97].
Proof.
  split; [right; repeat split; try discriminate; repeat constructor; cbn; lia|].
  split; [repeat constructor; cbn; intuition discriminate|]. exists 97, []. split; [reflexivity|]. split; [right; right; lia|constructor].
Qed.
Example ex_missing : run_op demo_val fst snd snd snd demo_untyped (None, [123]) [97] [(Some false, (KBytes, []))] = inr None.
Proof. reflexivity. Qed.
Example ex_types : get_operator [(false, BKind KBytes); (false, BText); (true, BKind KInt64)] = Some (true, BKind KBytes).
Proof. reflexivity. Qed.
