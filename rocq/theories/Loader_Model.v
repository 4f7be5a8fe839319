(** Model of arolla/io/input_loader.h, input_loader.cc, accessors_input_loader.h,
    wildcard_input_loader.h, wildcard_input_loader.cc, delegating_input_loader.h and the checks
    of qtype/typed_slot.cc.  Names are lists of chars, types numbers.  A hash map is a list of
    pairs with distinct keys, visited in an arbitrary order [ord].  [None] is an error status.
    The buffer factory is left out; values of all types are in one type [V]. *)
From Coq Require Import ZArith.
From Verif Require Import Base Strings_Model Naming_Model.
Local Open Scope nat_scope.
Local Open Scope list_scope.

Definition name := list Z.
Definition typ := nat.
(** TypedSlot: where in the frame, and its type *)
Record slot := mkSlot { sid : nat; sty : typ }.
Definition hmap (A : Type) := list (name * A).
Definition slots := hmap slot.

(** flat_hash_map: find, emplace, operator[] =, erase *)
Definition lookup {A} (m : hmap A) (n : name) : option A := let? e := find (fun e => str_eqb (fst e) n) m in Some (snd e).
Definition emplace {A} (m : hmap A) (n : name) (x : A) : hmap A := match lookup m n with Some _ => m | None => m ++ [(n, x)] end.
Definition erase {A} (m : hmap A) (n : name) : hmap A := filter (fun e => negb (str_eqb (fst e) n)) m.
(** absl::ConsumePrefix *)
Definition consume_prefix (s prefix : list Z) : option (list Z) := if starts_with s prefix then Some (skipn (List.length prefix) s) else None.

Section Loader.
  Variable V : Type.
  Variable ord : forall A, hmap A -> hmap A. (* the order in which a map is visited *)
  Definition frame := nat -> V.
  Definition set (f : frame) (k : nat) (v : V) : frame := fun j => if j =? k then v else f j.

  (** input_loader.cc:63-69 the loop, 58-93 [GetInputLoaderQTypes] *)
  Definition qtypes_step (get : name -> option typ) (st : hmap typ * list name) (n : name) : hmap typ * list name :=
    match get n with
    | Some t => (emplace (fst st) n t, snd st)
    | None => (fst st, snd st ++ [n])
    end.
  Definition get_qtypes (get : name -> option typ) (names : list name) : option (hmap typ) :=
    let '(types, unknown) := fold_left (qtypes_step get) names ([], []) in
    match unknown with [] => Some types | _ => None end.
  (** typed_slot.cc:206-235 [VerifySlotTypes]; true: no error *)
  Definition verify_slot_types (types : hmap typ) (s : slots) (unwanted missed : bool) : bool :=
    let loop := fold_left (fun ok e => match lookup s (fst e) with
                                       | None => ok && negb missed
                                       | Some sl => ok && (sty sl =? snd e)
                                       end) (ord _ types) true in
    if unwanted then fold_left (fun ok e => ok && match lookup types (fst e) with Some _ => true | None => false end) (ord _ s) loop else loop.
  (** input_loader.cc:95-106 [ValidateSlotTypes] *)
  Definition validate_slot_types (get : name -> option typ) (s : slots) : option unit :=
    let? types := get_qtypes get (map fst (ord _ s)) in
    guard (verify_slot_types types s true false).
  (** input_loader.cc:108-122 [ExtractSupportedSlots]: the supported slots, and what is left *)
  Definition extract_supported (get : name -> option typ) (s : slots) : slots * slots :=
    let part := fold_left (fun p e => match get (fst e) with None => p | Some _ => emplace p (fst e) (snd e) end) (ord _ s) [] in
    (part, fold_left (fun s e => erase s (fst e)) (ord _ part) s).

  (** input_loader.h:47-76 [BoundInputLoader]: writes to the frame, and says whether all is well *)
  Definition bound (I : Type) := I -> frame -> frame * bool.
  (** input_loader.h:79-145 [InputLoader] *)
  Record loader (I : Type) := mkLoader { get_type : name -> option typ; suggest : list name; bind_impl : slots -> option (bound I) }.
  Arguments mkLoader {I}. Arguments get_type {I}. Arguments suggest {I}. Arguments bind_impl {I}.

  Section Input.
    Variable I : Type.
    (** input_loader.h:117-128 [Bind] *)
    Definition bind_loader (l : loader I) (s : slots) : option (bound I) :=
      let? _ := validate_slot_types (get_type l) s in
      match s with [] => Some (fun _ f => (f, true)) | _ => bind_impl l s end.
    (** input_loader.h:132-135 [PartialBind] *)
    Definition partial_bind (l : loader I) (s : slots) : option (bound I) * slots :=
      let '(part, rest) := extract_supported (get_type l) s in (bind_loader l part, rest).

    (** input_loader.h:219-240, 256-278 [NotOwningInputLoader], [SharedOwningInputLoader] *)
    Definition owning (l : loader I) : loader I := mkLoader (get_type l) (suggest l) (bind_loader l).
    (** input_loader.h:295-329 [FilteringInputLoader] *)
    Definition filtering (l : loader I) (keep : name -> bool) : loader I :=
      mkLoader (fun n => if keep n then get_type l n else None) (filter keep (suggest l)) (bind_loader l).
    (** input_loader.h:346-355, by a set of names *)
    Definition filtering_names (l : loader I) (allowed : list name) : loader I := filtering l (fun n => existsb (str_eqb n) allowed).

    (** input_loader.h:373-381 the loop, 366-386 [BindInputLoaderList] *)
    Fixpoint bind_loop (ls : list (loader I)) (s : slots) (acc : list (bound I)) : option (list (bound I) * slots) :=
      match ls with
      | [] => Some (acc, s)
      | l :: t =>
          let '(b, rest) := partial_bind l s in
          let? b := b in
          bind_loop t rest (if negb (List.length s =? List.length rest) then acc ++ [b] else acc)
      end.
    Definition bind_list (ls : list (loader I)) (s : slots) : option (list (bound I)) :=
      let? (bs, rest) := bind_loop ls s [] in
      match rest with [] => Some bs | _ => None end.
    (** input_loader.h:416-423 [InvokeBoundLoaders] *)
    Fixpoint invoke_all (bs : list (bound I)) (i : I) (f : frame) : frame * bool :=
      match bs with
      | [] => (f, true)
      | b :: t => let '(f, ok) := b i f in if ok then invoke_all t i f else (f, false)
      end.
    (** input_loader.h:472-490 and delegating_input_loader.h:195-209 *)
    Definition bound_list (bs : list (bound I)) : option (bound I) :=
      match bs with [] => None | [b] => Some b | _ => Some (invoke_all bs) end.
    (** input_loader.h:391-495 [ChainInputLoader], with the default [InvokeBoundLoaders] *)
    Fixpoint first_type (ls : list (loader I)) (n : name) : option typ :=
      match ls with [] => None | l :: t => match get_type l n with Some q => Some q | None => first_type t n end end.
    Definition chain (ls : list (loader I)) : loader I :=
      mkLoader (first_type ls) (List.concat (map suggest ls)) (fun s => let? bs := bind_list ls s in bound_list bs).

    (** typed_slot.cc:157-179 [MaybeFindSlotsAndVerifyTypes] *)
    Definition maybe_find_slots (types : hmap typ) (s : slots) : option (list (option slot)) :=
      if forallb (fun e => match lookup s (fst e) with None => true | Some sl => sty sl =? snd e end) types
      then Some (map (fun e => lookup s (fst e)) types) else None.
    (** input_loader.cc:39-56 [ValidateDuplicatedNames]; true: no error *)
    Definition validate_duplicated (types : hmap typ) : bool :=
      match snd (fold_left (fun st e =>
                    let count := match lookup (fst st) (fst e) with Some c => c | None => 0 end in
                    ((fst e, S count) :: erase (fst st) (fst e), if count =? 1 then snd st ++ [fst e] else snd st)) types (@nil (name * nat), @nil name)) with
      | [] => true | _ => false end.
    (** An accessor: name, type of the result, the function *)
    Record accessor := mkAcc { a_name : name; a_type : typ; a_fn : I -> V }.
    (** accessors_input_loader.h:127-156 [Setter] *)
    Definition build_setter (sl : option slot) (a : accessor) : option (I -> frame -> frame) :=
      match sl with
      | Some sl => if sty sl =? a_type a then Some (fun i f => set f (sid sl) (a_fn a i)) else None
      | None => Some (fun _ f => f)
      end.
    Fixpoint build_setters (sls : list (option slot)) (accs : list accessor) : option (list (I -> frame -> frame)) :=
      match sls, accs with
      | sl :: sls, a :: accs => let? x := build_setter sl a in let? r := build_setters sls accs in Some (x :: r)
      | _, _ => Some []
      end.
    (** accessors_input_loader.h:158-242 [AccessorsInputLoader]; the types are a [StaticInputLoader],
        input_loader.h:165-213 *)
    Definition accessor_types (accs : list accessor) : hmap typ := map (fun a => (a_name a, a_type a)) accs.
    Definition accessors_loader (accs : list accessor) : option (loader I) :=
      let types := accessor_types accs in
      if validate_duplicated types then
        Some (mkLoader (lookup types) (map fst types) (fun s =>
          let? sls := maybe_find_slots types s in
          let? setters := build_setters sls accs in
          Some (fun i f => (fold_left (fun f (g : I -> frame -> frame) => g i f) setters f, true))))
      else None.

    (** wildcard_input_loader.h:402-460 [CreateBindFn], [CreateBindFnFromCallbackAccessorFn]: the
        loop over the slots *)
    Variable K : Type.
    Variable sort : list (K * slot) -> list (K * slot). (* std::sort by the key *)
    Definition keyed (to_slot : slot -> bool) (name2key : name -> option K) (s : slots) : option (list (K * slot)) :=
      fold_left (fun acc e => let? acc := acc in
                              match name2key (fst e) with
                              | None => Some acc
                              | Some k => if to_slot (snd e) then Some (acc ++ [(k, snd e)]) else None
                              end) (ord _ s) (Some []).
    Fixpoint run_keyed (put : I -> K -> slot -> frame -> frame * bool) (l : list (K * slot)) (i : I) (f : frame) : frame * bool :=
      match l with
      | [] => (f, true)
      | (k, sl) :: t => let '(f, ok) := put i k sl f in if ok then run_keyed put t i f else (f, false)
      end.
    (** wildcard_input_loader.h:55-88, 359-376: an accessor of one type, which may fail *)
    Definition put_value (access : I -> K -> option V) (i : I) (k : K) (sl : slot) (f : frame) : frame * bool :=
      match access i k with Some v => (set f (sid sl) v, true) | None => (f, false) end.
    Definition wildcard (out : typ) (access : I -> K -> option V) (name2key : name -> option K) (suggestions : list name) : loader I :=
      mkLoader (fun n => match name2key n with Some _ => Some out | None => None end) suggestions
        (fun s => let? l := keyed (fun sl => sty sl =? out) name2key s in Some (run_keyed (put_value access) (sort l))).
    (** wildcard_input_loader.h:151-174, 378-394: an accessor that calls back once with a value of
        some type, or fails *)
    Definition put_typed (access : I -> K -> option (typ * V)) (i : I) (k : K) (sl : slot) (f : frame) : frame * bool :=
      match access i k with
      | Some (t, v) => if sty sl =? t then (set f (sid sl) v, true) else (f, false)
      | None => (f, false)
      end.
    Definition wildcard_callback (access : I -> K -> option (typ * V)) (name2key : name -> option K) (key2type : K -> option typ) (suggestions : list name) : loader I :=
      mkLoader (fun n => let? k := name2key n in key2type k) suggestions
        (fun s => let? l := keyed (fun _ => true) name2key s in Some (run_keyed (put_typed access) (sort l))).

    (** delegating_input_loader.h:131-233 [DynamicDelegatingInputLoader]; [delegate] is the loader
        kept for a key (see [get_delegate]) *)
    Definition group_step (name2key : name -> option name) (acc : option (hmap slots)) (e : name * slot) : option (hmap slots) :=
      let? g := acc in
      let? k := name2key (fst e) in
      let s := match lookup g k with Some s => s | None => [] end in
      Some ((k, emplace s (fst e) (snd e)) :: erase g k).
    Fixpoint bind_groups (delegate : name -> option (loader I)) (g : hmap slots) : option (list (bound I)) :=
      match g with
      | [] => Some []
      | (k, s) :: t => let? l := delegate k in let? b := bind_loader l s in let? bs := bind_groups delegate t in Some (b :: bs)
      end.
    Definition dynamic (delegate : name -> option (loader I)) (name2key : name -> option name) (suggestions : list name) : loader I :=
      mkLoader (fun n => let? k := name2key n in let? l := delegate k in get_type l n) suggestions
        (fun s => let? g := fold_left (group_step name2key) (ord _ s) (Some []) in
                  let? bs := bind_groups delegate (ord _ g) in bound_list bs).
    (** delegating_input_loader.h:212-223 [GetDelegateLoader]: the loader, and the kept ones *)
    Definition get_delegate (factory : name -> option (loader I)) (kept : hmap (loader I)) (k : name) : option (loader I) * hmap (loader I) :=
      match lookup kept k with
      | Some l => (Some l, kept)
      | None => match factory k with None => (None, kept) | Some l => (Some l, (k, l) :: kept) end
      end.
  End Input.

  (** delegating_input_loader.h:50-120 [DelegatingInputLoader] *)
  Definition delegating (I J : Type) (l : loader J) (access : I -> J) (prefix : name) : loader I :=
    mkLoader (fun n => let? d := consume_prefix n prefix in get_type l d) (map (fun n => prefix ++ n) (suggest l))
      (fun s => let? d := fold_left (fun acc e => let? acc := acc in let? d := consume_prefix (fst e) prefix in Some (emplace acc d (snd e))) (ord _ s) (Some []) in
                let? b := bind_loader J l d in Some (fun i f => b (access i) f)).
End Loader.

(** wildcard_input_loader.cc:30-54 [MakeNameToKeyFn]: given the text before and after the place of
    the name in the format *)
Definition name_to_key (prefix suffix : list Z) (n : name) : option name :=
  match consume_prefix n prefix with
  | None => None
  | Some r => match consume_suffix r suffix with (k, true) => Some k | (_, false) => None end
  end.
