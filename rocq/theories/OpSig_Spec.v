(** What signatures of operators promise. *)
From Verif Require Import Base Strings_Model Strings_Spec OpSig_Model.
Local Open Scope Z_scope.

Section Sig.
Context {V D : Type}.
Variable literal : V -> D.
Notation param := (param V).
Notation signature := (signature V).

(** The named parameters, and perhaps a last one for further arguments. *)
Definition shape_ok (ps : list param) (named : list param) (variadic : option str) : Prop :=
  ps = named ++ (match variadic with Some n => [mkP n None Variadic] | None => [] end) /\
  (forall p, In p named -> p_kind p = PosKw).
(** Parameters with a default value come after those without. *)
Definition defaults_last (named : list param) : Prop :=
  forall i j p q d, (i < j)%nat -> rd named i = Some p -> rd named j = Some q -> p_default p = Some d -> p_default q <> None.
Definition well_formed (s : signature) : Prop :=
  (forall p, In p (params s) -> identifier (p_name p)) /\ NoDup (map (@p_name V) (params s)) /\
  (exists named variadic, shape_ok (params s) named variadic /\ defaults_last named) /\ ~ In ch_colon (aux_name s).

(** ** Calls, for a signature with the named parameters [named], and further
    positional arguments accepted or not *)
Definition given (kw : list (str * D)) (n : str) (v : D) : Prop := In (n, v) kw.
(** The value of the parameter number [i]: positional, by keyword, or by default. *)
Definition takes (args : list D) (kw : list (str * D)) (i : nat) (p : param) (v : D) : Prop :=
  match rd args i with
  | Some a => v = a
  | None => given kw (p_name p) v \/ (~ In (p_name p) (map fst kw) /\ exists d, p_default p = Some d /\ v = literal d)
  end.
Definition call (named : list param) (variadic : bool) (args : list D) (kw : list (str * D)) (deps : list D) : Prop :=
  (length named < length args -> variadic = true)%nat /\
  (forall n, In n (map fst kw) -> exists i p, rd named i = Some p /\ p_name p = n /\ (length args <= i)%nat) /\
  exists vals, deps = vals ++ skipn (length named) args /\ length vals = length named /\
    forall i p v, rd named i = Some p -> rd vals i = Some v -> takes args kw i p v.

(** ** Texts *)
Definition spaces (s : str) : Prop := forall c, In c s -> 9 <= c <= 13 \/ c = 32.
(** No white space at either end. *)
Definition trimmed (s : str) : Prop := forall w m w', s = w ++ m ++ w' -> spaces w -> spaces w' -> w = [] /\ w' = [].
Definition param_text (p : param) (t : str) : Prop :=
  exists w1 w2 w3 w4, spaces w1 /\ spaces w2 /\ spaces w3 /\ spaces w4 /\
    t = w1 ++ (match p_kind p with Variadic => ch_star :: w2 | _ => [] end) ++ p_name p ++ (match p_default p with Some _ => w3 ++ [ch_eq] | None => [] end) ++ w4.
Inductive params_text : list param -> str -> Prop :=
  | pt_one p t : param_text p t -> params_text [p] t
  | pt_more p t ps ts : param_text p t -> params_text ps ts -> params_text (p :: ps) (t ++ ch_comma :: ts).
Definition aux_text (nm opts : str) (t : str) : Prop :=
  exists w1 w2 w3 w4, spaces w1 /\ spaces w2 /\ spaces w3 /\ spaces w4 /\
    ((opts = [] /\ t = w1 ++ nm ++ w2) \/ t = w1 ++ nm ++ w2 ++ ch_colon :: w3 ++ opts ++ w4).
(** [t] describes the signature: parameters separated by commas, then perhaps a
    bar and the auxiliary policy; white space is allowed around all of them. *)
Definition text (s : signature) (t : str) : Prop :=
  exists tp, (params s = [] /\ spaces tp \/ params_text (params s) tp) /\
    ((aux_name s = [] /\ aux_opts s = [] /\ t = tp) \/ (exists ta, aux_text (aux_name s) (aux_opts s) ta /\ t = tp ++ ch_bar :: ta)).
End Sig.
