(** What a slot listener should do: it is a list of ears, each with a name, the type it takes (given
    the type one would like) and what it does to the output when it hears a value. *)
From Coq Require Import ZArith.
From Verif Require Import Base Loader_Model Listener_Model.
Local Open Scope list_scope.

Section Spec.
  Variable V : Type.
  Record hearer (O : Type) := mkHearer { h_name : name; h_type : option typ -> option typ; h_act : V -> O -> O * bool }.
  Arguments mkHearer {O}. Arguments h_name {O}. Arguments h_type {O}. Arguments h_act {O}.

  (** The type is that of the first who knows the name. *)
  Fixpoint told {O} (hs : list (hearer O)) (n : name) (desired : option typ) (t : option typ) : Prop :=
    match hs with
    | [] => t = None
    | h :: r => (h_name h = n /\ h_type h desired <> None /\ t = h_type h desired) \/
                ((h_name h <> n \/ h_type h desired = None) /\ told r n desired t)
    end.
  (** Every slot is heard by someone, and whoever hears it takes its type. *)
  Definition accepted {O} (hs : list (hearer O)) (s : slots) : Prop :=
    (forall n sl, In (n, sl) s -> exists h, In h hs /\ h_name h = n /\ h_type h (Some (sty sl)) <> None) /\
    (forall h sl, In h hs -> In (h_name h, sl) s -> h_type h (Some (sty sl)) = None \/ h_type h (Some (sty sl)) = Some (sty sl)).
  (** Everyone in turn hears the value of the slot of their name, until someone fails. *)
  Inductive heard {O} (s : slots) (f : nat -> V) : list (hearer O) -> O -> O -> bool -> Prop :=
  | heard_nil o : heard s f [] o o true
  | heard_skip h hs o o' ok : (forall sl, In (h_name h, sl) s -> h_type h (Some (sty sl)) = None) -> heard s f hs o o' ok -> heard s f (h :: hs) o o' ok
  | heard_ok h hs sl o o1 o' ok : In (h_name h, sl) s -> h_type h (Some (sty sl)) <> None -> h_act h (f (sid sl)) o = (o1, true) ->
      heard s f hs o1 o' ok -> heard s f (h :: hs) o o' ok
  | heard_fail h hs sl o o1 : In (h_name h, sl) s -> h_type h (Some (sty sl)) <> None -> h_act h (f (sid sl)) o = (o1, false) -> heard s f (h :: hs) o o1 false.
  Definition listens ord {O} (l : listener V O) (hs : list (hearer O)) : Prop :=
    (forall n d, told hs n d (l_type V O l n d)) /\
    forall s, NoDup (map fst s) ->
      match bind_listener V ord O l s with
      | Some b => accepted hs s /\ forall f o, heard s f hs o (fst (b f o)) (snd (b f o))
      | None => ~ accepted hs s
      end.
  (** Accessors never fail and take one type. *)
  Definition of_ear {O} (a : ear V O) : hearer O := mkHearer (e_name V O a) (fun _ => Some (e_type V O a)) (fun v o => (e_fn V O a v o, true)).
  (** Hearing for a part of the output. *)
  Definition for_part {O D} (part : O -> D) (put : O -> D -> O) (prefix : name) (h : hearer D) : hearer O :=
    mkHearer (prefix ++ h_name h) (h_type h) (fun v o => (put o (fst (h_act h v (part o))), snd (h_act h v (part o)))).
  (** [put] replaces exactly what [part] reads. *)
  Definition is_part {O D} (part : O -> D) (put : O -> D -> O) : Prop :=
    (forall o d, part (put o d) = d) /\ (forall o, put o (part o) = o) /\ (forall o d d', put (put o d) d' = put o d').
End Spec.
Arguments mkHearer {V O}. Arguments h_name {V O}. Arguments h_type {V O}. Arguments h_act {V O}.
Arguments told {V O}. Arguments accepted {V O}. Arguments heard {V O}. Arguments listens {V} ord {O}. Arguments of_ear {V O}. Arguments for_part {V O D}.
