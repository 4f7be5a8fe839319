(** Model of arolla/io/slot_listener.h, slot_listener.cc, accessors_slot_listener.h,
    chain_slot_listener.h and delegating_slot_listener.h.  Maps, slots and the shared checks are
    those of [Loader_Model]; values of all types are in one type [V].  [None] is an error status. *)
From Coq Require Import ZArith.
From Verif Require Import Base Strings_Model Loader_Model.
Local Open Scope nat_scope.
Local Open Scope list_scope.

Section Listener.
  Variable V : Type.
  Variable ord : forall A, hmap A -> hmap A. (* the order in which a map is visited *)

  (** slot_listener.h:42-44 [BoundSlotListener]: reads the frame and changes the output *)
  Definition bound_listener (O : Type) := (nat -> V) -> O -> O * bool.
  (** slot_listener.h:47-122: GetQTypeOf takes the type one would like *)
  Record listener (O : Type) := mkListener { l_type : name -> option typ -> option typ; l_suggest : list name; l_bind_impl : slots -> option (bound_listener O) }.
  Arguments mkListener {O}. Arguments l_type {O}. Arguments l_suggest {O}. Arguments l_bind_impl {O}.

  (** slot_listener.cc:36-42 the loop, 31-52 [ValidateSlotTypes] *)
  Definition types_step (get : name -> option typ -> option typ) (st : hmap typ * list name) (e : name * slot) : hmap typ * list name :=
    match get (fst e) (Some (sty (snd e))) with
    | Some t => (emplace (fst st) (fst e) t, snd st)
    | None => (fst st, snd st ++ [fst e])
    end.
  Definition validate_types (get : name -> option typ -> option typ) (s : slots) : option unit :=
    let '(types, unknown) := fold_left (types_step get) (ord _ s) ([], []) in
    match unknown with [] => guard (verify_slot_types ord types s true false) | _ => None end.
  (** slot_listener.cc:54-64 [FindSupportedSlots] *)
  Definition supported_step (get : name -> option typ -> option typ) (p : slots) (e : name * slot) : slots :=
    match get (fst e) (Some (sty (snd e))) with Some _ => emplace p (fst e) (snd e) | None => p end.
  Definition find_supported (get : name -> option typ -> option typ) (s : slots) : slots := fold_left (supported_step get) (ord _ s) [].

  Section Output.
    Variable O : Type.
    (** slot_listener.h:90-100 [Bind] *)
    Definition bind_listener (l : listener O) (s : slots) : option (bound_listener O) :=
      let? _ := validate_types (l_type l) s in
      match s with [] => Some (fun _ o => (o, true)) | _ => l_bind_impl l s end.
    (** slot_listener.h:104-112 [PartialBind] *)
    Definition partial_listener (l : listener O) (s : slots) : option (option (bound_listener O)) :=
      match find_supported (l_type l) s with
      | [] => Some None
      | p => let? b := bind_listener l p in Some (Some b)
      end.
    (** slot_listener.h:184-208, 225-249 [NotOwningSlotListener], [SharedOwningSlotListener] *)
    Definition owning_listener (l : listener O) : listener O := mkListener (l_type l) (l_suggest l) (bind_listener l).

    (** accessors_slot_listener.h:53-79 [Getter] *)
    Record ear := mkEar { e_name : name; e_type : typ; e_fn : V -> O -> O }.
    Definition build_getter (sl : option slot) (a : ear) : option ((nat -> V) -> O -> O) :=
      match sl with
      | Some sl => if sty sl =? e_type a then Some (fun f o => e_fn a (f (sid sl)) o) else None
      | None => Some (fun _ o => o)
      end.
    Fixpoint build_getters (sls : list (option slot)) (accs : list ear) : option (list ((nat -> V) -> O -> O)) :=
      match sls, accs with
      | sl :: sls, a :: accs => let? x := build_getter sl a in let? r := build_getters sls accs in Some (x :: r)
      | _, _ => Some []
      end.
    (** accessors_slot_listener.h:84-164 [AccessorsSlotListener] over [StaticSlotListener],
        slot_listener.h:127-180 *)
    Definition ear_types (accs : list ear) : hmap typ := map (fun a => (e_name a, e_type a)) accs.
    Definition accessors_listener (accs : list ear) : option (listener O) :=
      let types := ear_types accs in
      if validate_duplicated types then
        Some (mkListener (fun n _ => lookup types n) (map fst types) (fun s =>
          let? sls := maybe_find_slots types s in
          let? getters := build_getters sls accs in
          Some (fun f o => (fold_left (fun o (g : (nat -> V) -> O -> O) => g f o) getters o, true))))
      else None.

    (** chain_slot_listener.h:88-95, 104-110 the loops *)
    Fixpoint bind_all (ls : list (listener O)) (s : slots) : option (list (bound_listener O)) :=
      match ls with
      | [] => Some []
      | l :: t => let? b := partial_listener l s in let? bs := bind_all t s in Some (match b with Some b => b :: bs | None => bs end)
      end.
    Fixpoint listen_all (bs : list (bound_listener O)) (f : nat -> V) (o : O) : O * bool :=
      match bs with
      | [] => (o, true)
      | b :: t => let '(o, ok) := b f o in if ok then listen_all t f o else (o, false)
      end.
    (** chain_slot_listener.h:57-67 GetQTypeOf *)
    Fixpoint first_listener_type (ls : list (listener O)) (n : name) (desired : option typ) : option typ :=
      match ls with [] => None | l :: t => match l_type l n desired with Some q => Some q | None => first_listener_type t n desired end end.
    (** chain_slot_listener.h:38-114 [ChainSlotListener] *)
    Definition chain_listener (ls : list (listener O)) : listener O :=
      mkListener (first_listener_type ls) (List.concat (map l_suggest ls))
        (fun s => let? bs := bind_all ls s in
                  Some (match bs with [] => fun _ o => (o, true) | [b] => b | _ => listen_all bs end)).
  End Output.

  (** delegating_slot_listener.h:46-120 [DelegatingSlotListener].  The accessor gives a pointer to a
      part of the output: [part] reads it, [put] replaces it. *)
  Definition delegate_step (prefix : name) (acc : slots) (e : name * slot) : slots :=
    match consume_prefix (fst e) prefix with Some d => emplace acc d (snd e) | None => acc end.
  Definition delegating_listener (O D : Type) (l : listener D) (part : O -> D) (put : O -> D -> O) (prefix : name) : listener O :=
    mkListener (fun n desired => let? d := consume_prefix n prefix in l_type l d desired) (map (fun n => prefix ++ n) (l_suggest l))
      (fun s => let? b := bind_listener D l (fold_left (delegate_step prefix) (ord _ s) []) in
                Some (fun f o => let '(d, ok) := b f (part o) in (put o d, ok))).
End Listener.
