(** Vocabulary for C51 and C66. *)
From Coq Require Import String.
From Verif Require Import Base Seq Incr.
Local Open Scope nat_scope.

(** every index into [l] is an index into [l'], with the same contents *)
Definition keeps {A} (l l' : list A) : Prop := forall i x, nth_error l i = Some x -> nth_error l' i = Some x.
(** names of fields keep their index, and are not forgotten to be declared; the offsets of the fields of all types known
    are the same *)
Definition keeps_fields (f f' : fields) : Prop :=
  types f <= types f' /\
  (forall n r, get String.eqb n (names f) = Some r -> exists r', get String.eqb n (names f') = Some r' /\ field_index r' = field_index r /\ (undeclared r' = true -> undeclared r = true)) /\
  (forall t i, t < types f -> get_offset f' t i = get_offset f t i).
Definition keeps_all {Op Loc Pat Locals} (p p' : params Op Loc Pat Locals) : Prop :=
  keeps (code p) (code p') /\ keeps (constants p) (constants p') /\ keeps (patterns p) (patterns p') /\ keeps (globals p) (globals p') /\
  keeps (locations p) (locations p') /\ keeps_fields (pfields p) (pfields p') /\ keeps (modules p) (modules p') /\ keeps (methods p) (methods p').

(** A session: lines of the REPL, and evals *)
Inductive event {Op Loc Pat Body Locals : Type} :=
| Line (scan : list bool) (x : parse Pat Body Locals)
| Eval (scan : list bool) (x : parse Pat Body Locals).
Arguments event : clear implicits.
Section session.
Context {Op Loc Pat Body Locals : Type} (emit_ops : Body -> list Op) (emit_locs : Body -> list Loc) (empty : Body) (no_locals : Locals).
Definition step (p : params Op Loc Pat Locals) (e : event Op Loc Pat Body Locals) : params Op Loc Pat Locals * result :=
  match e with
  | Line scan x => incremental_compile emit_ops emit_locs empty scan x p
  | Eval scan x => eval_compile emit_ops emit_locs empty no_locals scan x p
  end.
Definition run (p : params Op Loc Pat Locals) (l : list (event Op Loc Pat Body Locals)) : params Op Loc Pat Locals := fold_left (fun p e => fst (step p e)) l p.
End session.
(** what a session starts from *)
Definition initial {Op Loc Pat Locals} (l : Locals) : params Op Loc Pat Locals := Params [] [] [] [] [] (Fields [] [] 0) [] [] l.
(** a parse that declares the field [n] *)
Definition declares {Pat Body Locals} (n : string) (x : parse Pat Body Locals) : Prop := exists t o, In (AField t n o) (actions x).
(** a parse that never replaces the code of a function declared before: what is declared is the final code *)
Definition final_bodies {Pat Body Locals} (x : parse Pat Body Locals) : Prop := late x = [] /\ forall i b, ~ In (AEdit i b) (actions x).
(** the constant [id] is a function whose code is [ops] *)
Definition function_at {Op Loc Pat Locals} (p : params Op Loc Pat Locals) (id : nat) (ops : list Op) : Prop :=
  exists head tail, nth_error (constants p) id = Some (KFun head tail) /\ firstn (length ops) (skipn head (code p)) = ops /\ (ops <> [] -> tail + 1 = head + length ops).
(** the value of a declaration of a struct or module, as [end_module] leaves it *)
Definition declared {Op Loc Pat Locals} (i : option nat) (c : nat) (p : params Op Loc Pat Locals) : option const :=
  let '(p', id) := declare_const (KType i c) p in nth_error (constants p') id.
(** the parser after some actions of a parse, in a session *)
Definition after {Op Loc Pat Body Locals} (empty : Body) (p : params Op Loc Pat Locals) (l : list (action Pat Body Locals)) : parser Op Loc Pat Body Locals :=
  fold_left (fun q a => act a q) l (Parser p [] [] empty [] []).
