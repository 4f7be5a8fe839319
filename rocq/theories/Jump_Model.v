(** Model of arolla/qexpr/bound_operators.{h,cc}, the signals of qexpr/eval_context.h,
    expr/eval/executable_builder.cc (operators and Execute), CompileWhereOperator of
    expr/eval/compile_where_operator.cc, WhileLoopBoundOperator of
    expr/eval/compile_while_operator.cc and LightweightBoundExprStackTrace of
    expr/eval/expr_stack_trace.cc.  Frames are of any type; slots are functions that read or
    change them.  Descriptions of operators are left out.  A program may not end: functions
    take fuel.  [Stuck]: a null operator is run, or a DCHECK of RunBoundOperators fails. *)
From Verif Require Import Base.
Local Open Scope nat_scope.

Inductive res (A : Type) := Done (a : A) | More | Stuck.
Arguments Done {A}. Arguments More {A}. Arguments Stuck {A}.
Definition rbind {A B} (x : res A) (k : A -> res B) : res B :=
  match x with Done a => k a | More => More | Stuck => Stuck end.
Notation "'let!' x ':=' e 'in' f" := (rbind e (fun x => f))
  (at level 200, x pattern, e at level 100, f at level 200, right associativity).

Section Jump.
(** [F]: frames; [err]: statuses that are not ok; [node]: nodes of the expression, for error
    messages. *)
Context {F err node : Type}.
(** EvaluationContext, eval_context.h:60-133; [None]: the status is ok *)
Record ctx := Ctx { c_sig : bool; c_jump : Z; c_st : option err }.
Definition clean : ctx := Ctx false 0%Z None.
(** EvaluationContext::set_status, eval_context.h:75-86 *)
Definition set_status (e : option err) (c : ctx) : ctx :=
  Ctx (c_sig c || match e with Some _ => true | None => false end) (c_jump c) e.
(** EvaluationContext::set_requested_jump, eval_context.h:105-108 *)
Definition set_jump (j : Z) (c : ctx) : ctx := Ctx true j (c_st c).
(** What operators change: the context, the frame, and how often the cancellation context
    was asked. *)
Record st := St { s_ctx : ctx; s_fr : F; s_t : nat }.

(** BoundOperator: Run, given fuel *)
Definition bop : Type := nat -> st -> res st.
(** FunctorBoundOperator::Run, bound_operators.h:47-60 *)
Definition functor_op (f : F -> F * option err) : bop := fun _ s =>
  let (fr, e) := f (s_fr s) in
  Done (St (match e with Some _ => set_status e (s_ctx s) | None => s_ctx s end) fr (s_t s)).
(** JumpBoundOperator, bound_operators.cc:76-80 *)
Definition jump_op (j : Z) : bop := fun _ s => Done (St (set_jump j (s_ctx s)) (s_fr s) (s_t s)).
(** JumpIfNotBoundOperator, bound_operators.cc:82-89 *)
Definition jump_if_not_op (c : F -> bool) (j : Z) : bop := fun _ s =>
  Done (if c (s_fr s) then s else St (set_jump j (s_ctx s)) (s_fr s) (s_t s)).

(** What the cancellation context says when asked for the k-th time: [None], not cancelled;
    always so if there is none.  Another thread may cancel at any moment. *)
Variable cancel : nat -> option err.

(** RunBoundOperatorsImpl, the loop, bound_operators.cc:39-63; [k]: fuel for its rounds *)
Fixpoint exec (fuel : nat) (ops : list (option bop)) (k ip : nat) (s : st) {struct k} : res (st * Z) :=
  match nth_error ops ip with
  | None => Done (s, Z.of_nat (length ops) - 1)%Z
  | Some None => Stuck
  | Some (Some op) =>
      match k with
      | O => More
      | S k' =>
          let! s1 := op fuel s in
          (* :58-62, then :40 *)
          let next ip1 c :=
            let s2 := St c (s_fr s1) (S (s_t s1)) in
            match cancel (s_t s1) with
            | Some e => Done (St (set_status (Some e) c) (s_fr s1) (S (s_t s1)), Z.of_nat ip1)
            | None => exec fuel ops k' (S ip1) s2
            end in
          let c := s_ctx s1 in
          if c_sig c then
            match c_st c with
            | Some _ => Done (s1, Z.of_nat ip)
            | None =>
                if (c_jump c =? 0)%Z then next ip clean else
                let ip1 := (Z.of_nat ip + c_jump c)%Z in
                if (0 <=? ip1)%Z && (ip1 <? Z.of_nat (length ops))%Z then next (Z.to_nat ip1) clean else Stuck
            end
          else next ip c
      end
  end.
(** RunBoundOperators, bound_operators.cc:64-74, with the checks of :36-38 *)
Definition run_bound (fuel : nat) (ops : list (option bop)) (s : st) : res (st * Z) :=
  match c_st (s_ctx s) with
  | Some _ => Stuck
  | None => if (c_jump (s_ctx s) =? 0)%Z && negb (c_sig (s_ctx s)) then exec fuel ops fuel 0 s else Stuck
  end.

(** DynamicBoundExprImpl, executable_builder.cc:52-103 *)
Record bexpr := { be_ops : list (option bop); be_note : option (err -> Z -> err) }.
(** Execute, executable_builder.cc:78-87 *)
Definition execute (fuel : nat) (be : bexpr) (s : st) : res st :=
  let! (s1, ip) := run_bound fuel (be_ops be) s in
  match c_st (s_ctx s1), be_note be with
  | Some e, Some g => Done (St (set_status (Some (g e ip)) (s_ctx s1)) (s_fr s1) (s_t s1))
  | _, _ => Done s1
  end.

(** WhileLoopBoundOperator::Run, compile_while_operator.cc:76-98.  [co], [bo]: condition and
    body on the output slot; [ct], [bt]: on the temporary one; [cond]: reads the condition
    slot; [init], [fin]: copy the initial state and the temporary one to the output slot. *)
Definition failed (s : st) : bool := match c_st (s_ctx s) with Some _ => true | None => false end.
Definition copy (g : F -> F) (s : st) : st := St (s_ctx s) (g (s_fr s)) (s_t s).
Fixpoint while_loop (co bo ct bt : bexpr) (cond : F -> bool) (fin : F -> F) (fuel k : nat) (s : st) : res st :=
  match k with
  | O => More
  | S k' =>
      let! s1 := execute fuel co s in
      if failed s1 || negb (cond (s_fr s1)) then Done s1 else
      let! s2 := execute fuel bo s1 in
      if failed s2 then Done s2 else
      let! s3 := execute fuel ct s2 in
      if failed s3 || negb (cond (s_fr s3)) then Done (copy fin s3) else
      let! s4 := execute fuel bt s3 in
      if failed s4 then Done s4 else while_loop co bo ct bt cond fin fuel k' s4
  end.
Definition while_op (co bo ct bt : bexpr) (cond : F -> bool) (init fin : F -> F) : bop := fun fuel s =>
  while_loop co bo ct bt cond fin fuel fuel (copy init s).

(** ExecutableBuilder: eval_ops_, a null pointer being [None]; bound_stack_trace_, if there is
    one: registered instructions *)
Record builder := Bld { b_ops : list (option bop); b_trace : option (list (nat * node)) }.
(** LightweightBoundExprStackTrace::RegisterIp, expr_stack_trace.cc:86-93, if there is a stack
    trace and a node, executable_builder.cc:191-193, 217-219; emplace keeps what is there, so
    the first of the list counts *)
Definition register (ip : nat) (nd : option node) (tr : option (list (nat * node))) : option (list (nat * node)) :=
  match tr, nd with Some l, Some n => Some (l ++ [(ip, n)]) | _, _ => tr end.
(** ExecutableBuilder::AddEvalOp, executable_builder.cc:183-195 *)
Definition add_op (o : option bop) (nd : option node) (b : builder) : nat * builder :=
  (length (b_ops b), Bld (b_ops b ++ [o]) (register (length (b_ops b)) nd (b_trace b))).
(** ExecutableBuilder::SkipEvalOp, executable_builder.cc:197-199 *)
Definition skip_op (b : builder) : nat * builder := add_op None None b.
(** ExecutableBuilder::SetEvalOp, executable_builder.cc:201-223; [None]: an error *)
Definition set_op (ip : nat) (o : bop) (nd : option node) (b : builder) : option builder :=
  match nth_error (b_ops b) ip with
  | None => None
  | Some (Some _) => None
  | Some None => let? ops := upd (b_ops b) ip (Some o) in Some (Bld ops (register ip nd (b_trace b)))
  end.

(** CompileWhereOperator, compile_where_operator.cc:395-451, given what binding the compiled
    branches does (DynamicCompiledOperator::BindTo).  The numbers and types of slots are right
    by typing here.  [None]: an error. *)
Definition compile_where (cond : F -> bool) (nd : node) (bt bf : builder -> option builder) (b : builder) : option builder :=
  let (before_true, b) := skip_op b in
  let? b := bt b in
  let (before_false, b) := skip_op b in
  let? b := bf b in
  let jump_to_false := (Z.of_nat before_false - Z.of_nat before_true)%Z in
  if (jump_to_false =? 0)%Z then None else
  let? b := set_op before_true (jump_if_not_op cond jump_to_false) (Some nd) b in
  let jump_after_false := (Z.of_nat (length (b_ops b)) - Z.of_nat before_false - 1)%Z in
  if (jump_after_false =? 0)%Z then None else
  set_op before_false (jump_op jump_after_false) (Some nd) b.

(** What an expression is bound to, in order: operators, and conditionals with what their
    branches are bound to.  EvalVisitor, dynamic_compiled_expr.cc:85-330, adds one operator
    per node or calls CompileWhereOperator; a loop is one operator. *)
Inductive code := Atom (o : bop) (nd : option node) | Cond (c : F -> bool) (nd : node) (t e : list code).
Fixpoint emit1 (x : code) : builder -> option builder :=
  match x with
  | Atom o nd => fun b => Some (snd (add_op (Some o) nd b))
  | Cond c nd t e => compile_where c nd
      ((fix go (p : list code) (b : builder) : option builder := match p with [] => Some b | y :: q => let? b1 := emit1 y b in go q b1 end) t)
      ((fix go (p : list code) (b : builder) : option builder := match p with [] => Some b | y :: q => let? b1 := emit1 y b in go q b1 end) e)
  end.
Fixpoint emit (p : list code) (b : builder) : option builder :=
  match p with [] => Some b | y :: q => let? b1 := emit1 y b in emit q b1 end.

(** Finalize of the stack trace, expr_stack_trace.cc:95-117: the error gets the node registered
    for the instruction, or the empty name.  [note]: WithPayloadAndCause *)
Variable note : err -> option node -> err.
Definition named (l : list (nat * node)) (ip : Z) : option node :=
  match find (fun x => (Z.of_nat (fst x) =? ip)%Z) l with Some (_, n) => Some n | None => None end.
(** ExecutableBuilder::Build, executable_builder.cc:233-266, without literals *)
Definition build (b : builder) : bexpr :=
  {| be_ops := b_ops b; be_note := match b_trace b with Some l => Some (fun e ip => note e (named l ip)) | None => None end |}.
(** VerifyNoNulls, executable_builder.cc:106-115 *)
Definition no_nulls (ops : list (option bop)) : bool := forallb (fun o => match o with Some _ => true | None => false end) ops.
(** DynamicCompiledExpr::Bind: a new builder, with or without a stack trace *)
Definition compile (tr : bool) (p : list code) : option bexpr :=
  let? b := emit p (Bld [] (if tr then Some [] else None)) in Some (build b).
End Jump.
Arguments ctx : clear implicits. Arguments st : clear implicits. Arguments bop : clear implicits.
Arguments bexpr : clear implicits. Arguments builder : clear implicits. Arguments code : clear implicits.
