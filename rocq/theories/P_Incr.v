(** C51: incremental compilation.  C66: declarations of structs and modules. *)
From Coq Require Import String.
From Verif Require Import Base Seq SeqProofs Incr IncrSpec IncrProofs IncrProofs2.
Local Open Scope nat_scope.

(** A line of the REPL that does not compile (or is incomplete) changes nothing at all: code, constants, patterns,
    globals, locations, fields, library and local variables are what they were. *)
Theorem C51_failed_line : forall (Op Loc Pat Body Locals : Type) emit_ops emit_locs (empty : Body) scan (x : parse Pat Body Locals) (p p' : params Op Loc Pat Locals) r,
  incremental_compile emit_ops emit_locs empty scan x p = (p', r) -> r <> Success -> p' = p.
Proof. exact @failed_line. Qed.
Print Assumptions C51_failed_line.
(** In every session, whatever fails or succeeds, all indices given out keep their contents. *)
Theorem C51_indices : forall (Op Loc Pat Body Locals : Type) emit_ops emit_locs (empty : Body) no_locals (l : list (event Op Loc Pat Body Locals)) (p : params Op Loc Pat Locals),
  keeps_all p (run emit_ops emit_locs empty no_locals p l).
Proof. intros. apply grows_keeps, run_grows. Qed.
Print Assumptions C51_indices.
(** An eval, failed or not, does not change the local variables of the session. *)
Theorem C51_eval_locals : forall (Op Loc Pat Body Locals : Type) emit_ops emit_locs (empty : Body) no_locals scan (x : parse Pat Body Locals) (p : params Op Loc Pat Locals),
  locals (fst (eval_compile emit_ops emit_locs empty no_locals scan x p)) = locals p.
Proof. exact @eval_locals. Qed.
Print Assumptions C51_eval_locals.
(** In every session the index of a field belongs to one name only. *)
Theorem C51_field_names : forall (Op Loc Pat Body Locals : Type) emit_ops emit_locs (empty : Body) no_locals (l : list (event Op Loc Pat Body Locals)) l0 n m r s,
  let f := pfields (run emit_ops emit_locs empty no_locals (initial l0 : params Op Loc Pat Locals) l) in
  get String.eqb n (names f) = Some r -> get String.eqb m (names f) = Some s -> field_index r = field_index s -> n = m.
Proof. intros Op Loc Pat Body Locals eo el em nl l l0 n m r s f. apply wf_inj. apply run_wf. split; [constructor|reflexivity]. Qed.
Print Assumptions C51_field_names.
(** A line that compiles defines every function it declares: there is a constant which is a function with its code. *)
Theorem C51_functions : forall (Op Loc Pat Body Locals : Type) emit_ops emit_locs (empty : Body) (x : parse Pat Body Locals) (p p' : params Op Loc Pat Locals) b,
  incremental_compile emit_ops emit_locs empty [] x p = (p', Success) -> final_bodies x -> In (AFunction b) (actions x) ->
  exists id, length (constants p) <= id /\ function_at p' id (emit_ops b).
Proof. exact @functions_defined. Qed.
Print Assumptions C51_functions.
(** The verdict: a line is a success if and only if neither the scanner nor the parser reports an error, and it is
    continued on the next line only if the first error is an unexpected end of the input. *)
Theorem C51_verdict : forall (Op Loc Pat Body Locals : Type) emit_ops emit_locs (empty : Body) scan (x : parse Pat Body Locals) (p : params Op Loc Pat Locals),
  let r := snd (incremental_compile emit_ops emit_locs empty scan x p) in
  let errs := scan ++ match scan with [] => snd (parse_incremental emit_ops emit_locs empty x p) | _ => [] end in
  (r = Success <-> errs = []) /\ (r = Aborted <-> exists l, errs = true :: l).
Proof.
  intros. unfold r, errs, incremental_compile, try_incremental_compile. destruct scan as [|e scan]; cbn [app].
  - destruct (parse_incremental emit_ops emit_locs empty x p) as [q errs']. cbn [snd]. destruct errs' as [|[] t]; cbn; (split; split); try congruence; try (intros (? & [=])); eauto.
  - rewrite app_nil_r. destruct e; cbn; (split; split); try congruence; try (intros (? & [=])); eauto.
Qed.
Print Assumptions C51_verdict.

(** The verdict of an eval: a success under the same condition, and an error otherwise: an eval is never continued. *)
Theorem C51_eval_verdict : forall (Op Loc Pat Body Locals : Type) emit_ops emit_locs (empty : Body) no_locals scan (x : parse Pat Body Locals) (p : params Op Loc Pat Locals),
  let r := snd (eval_compile emit_ops emit_locs empty no_locals scan x p) in
  let errs := scan ++ match scan with [] => snd (parse_incremental emit_ops emit_locs empty x (set_locals no_locals p)) | _ => [] end in
  r = if match errs with [] => true | _ => false end then Success else Errors.
Proof.
  intros. unfold r, errs, eval_compile, try_incremental_compile. destruct scan as [|e scan]; cbn [app].
  - destruct (parse_incremental _ _ _ _ _) as [q errs']. cbn [snd]. destruct errs' as [|[] t]; reflexivity.
  - destruct e; reflexivity.
Qed.
Print Assumptions C51_eval_verdict.
(** The index of a literal given to the code is that of a constant with its value, also when the constant was there before;
    and then there is no new one. *)
Theorem C51_literals : forall (Op Loc Pat Locals : Type) t (p p' : params Op Loc Pat Locals) i,
  declare_const (KLit t) p = (p', i) ->
  nth_error (constants p') i = Some (KLit t) /\ (In (KLit t) (constants p) -> p' = p) /\ (~ In (KLit t) (constants p) -> constants p' = constants p ++ [KLit t]).
Proof.
  intros Op Loc Pat Locals t p p' i E. unfold declare_const in E.
  assert (P : match position (KLit t) (constants p) with Some j => nth_error (constants p) j = Some (KLit t) | None => ~ In (KLit t) (constants p) end).
  { clear. induction (constants p) as [|c l IH]; [intros []|]. cbn. destruct (const_eqb c (KLit t)) eqn:Q.
    - destruct c as [|x|h t'|[j|] c]; try discriminate. cbn in Q. apply Z.eqb_eq in Q as ->. reflexivity.
    - destruct (position (KLit t) l); [exact IH|]. intros [->|I]; [cbn in Q; now rewrite Z.eqb_refl in Q|auto]. }
  destruct (position (KLit t) (constants p)) as [j|]; injection E as <- <-.
  - split; [exact P|]. split; [reflexivity|]. intro N. exfalso. apply N. eapply nth_error_In, P.
  - cbn. split; [rewrite nth_error_app2, Nat.sub_diag by lia; reflexivity|]. split; [contradiction|reflexivity].
Qed.
Print Assumptions C51_literals.

(** Example: `let f = fn() -> 1 + 'a'; let x = 2`, then a line that fails after many changes, then an eval that succeeds.
    Opcodes, locations and bodies are lists of numbers. *)
Definition ex1 : parse nat (list nat) nat := Parse [AGlobal "f"; AFunction [11; 12]; AConst 1; ALocals 1; AGlobal "x"; AConst 2; ALocals 2; AType; AField 0 "foo" 0; APattern 7; AOutput [1; 2; 3]] [] [] false.
Definition ex2 : parse nat (list nat) nat := Parse [AFunction [13]; AGlobal "y"; AConst 9; AResolve "bar" true; ALocals 3; AField 0 "baz" 1; ANative "m" "g"; AOutput [4]; AError false] [] [] true.
Definition ex3 : parse nat (list nat) nat := Parse [AFunction [14; 15]; AResolve "foo" true; AOutput [5]] [] [] false.
Definition sess := run (fun b => b) (fun b => b) [] 0 (initial 0 : params nat nat nat nat).
Example C51_ex : sess [Line [] ex1; Line [] ex2] = sess [Line [] ex1] /\
  sess [Line [] ex1] = Params [1; 2; 3; 11; 12] [KFun 3 4; KLit 1; KLit 2] [7] ["f"; "x"]%string [1; 2; 3; 11; 12] (Fields [("foo"%string, FieldRef 0 false)] [((0, 0), 0)] 1) [] [] 2 /\
  snd (step (fun b => b) (fun b => b) [] 0 (sess [Line [] ex1]) (Line [] ex2)) = Errors /\ final_bodies ex1 /\
  code (sess [Line [] ex1; Eval [] ex3]) = [1; 2; 3; 11; 12; 5; 14; 15].
Proof. split; [vm_compute; reflexivity|]. split; [vm_compute; reflexivity|]. split; [vm_compute; reflexivity|]. split; [|vm_compute; reflexivity]. split; [vm_compute; reflexivity|]. intros i b I. cbn in I. intuition discriminate. Qed.

(** An eval that fails is not undone: after `eval('x -> foo')`, with no field foo, no line of the REPL compiles, until one declares a field of that name. *)
Theorem C51_eval_refuted : exists (x : parse nat nat nat) (p p' : params nat nat nat nat),
  eval_compile (fun b => [b]) (fun b => [b]) 0 0 [] x p = (p', Errors) /\ pfields p' <> pfields p /\
  (forall y : parse nat nat nat, actions y = [] -> late_errors y = [] -> trailing y = false -> snd (incremental_compile (fun b => [b]) (fun b => [b]) 0 [] y p) = Success) /\
  forall y : parse nat nat nat, ~ declares "foo" y -> snd (incremental_compile (fun b => [b]) (fun b => [b]) 0 [] y p') <> Success.
Proof.
  exists (Parse [AResolve "foo" true; AOutput 1] [] [] false), (initial 0). eexists. split; [reflexivity|]. split; [discriminate|]. split.
  - intros [a l e t]. cbn. intros -> -> ->. unfold incremental_compile, try_incremental_compile, parse_incremental. cbn. reflexivity.
  - intros y ND. unfold incremental_compile, try_incremental_compile. cbn [set_locals locals].
    match goal with |- context [parse_incremental ?a ?b ?c y ?q] => pose proof (bad_errors a b c "foo" y q ND) as B end.
    destruct (parse_incremental _ _ _ _ _) as [q errs]. cbn [snd] in B. destruct errs as [|e errs]; [exfalso; apply B; [|reflexivity]; eexists; split; reflexivity|].
    cbn. destruct e; discriminate.
Qed.
Print Assumptions C51_eval_refuted.

(** C66: in every session, the value of a declaration of a struct or module is the type that was declared for it. *)
Theorem C66_types : forall (Op Loc Pat Body Locals : Type) emit_ops emit_locs (empty : Body) no_locals (l : list (event Op Loc Pat Body Locals)) l0 (a : list (action Pat Body Locals)) i c ti tc,
  let q := after empty (run emit_ops emit_locs empty no_locals (initial l0) l) a in
  (forall c', ~ In (AModule (Some i) c') a) -> nth_error (my_types q) i = Some ti -> nth_error (my_types q) c = Some tc ->
  declared (Some ti) tc (shared q) = Some (KType (Some ti) tc).
Proof. exact @types_declared. Qed.
Print Assumptions C66_types.
(** Not so for native modules: all native modules of a session are the first one.  Here `native module A` and
    `native module B` both have a function f: the value of B is A, and B->f is A's f. *)
Definition two_natives : list (action nat nat nat) :=
  [AType; AFunction 1; AField 0 "f" 0; ANative "A" "f"; AModule None 0; AType; AFunction 2; AField 1 "f" 0; ANative "B" "f"].
Theorem C66_native_refuted : exists (q : parser nat nat nat nat nat) a, q = after 0 (initial 0) a /\ nth_error (my_types q) 0 = Some 0 /\ nth_error (my_types q) 1 = Some 1 /\ (forall c, ~ In (AModule None c) (skipn 5 a)) /\
  declared None 1 (shared q) = Some (KType None 0).
Proof. exists (after 0 (initial 0) two_natives), two_natives. split; [reflexivity|]. split; [reflexivity|]. split; [reflexivity|]. split; [|reflexivity]. intros c I. cbn in I. intuition discriminate. Qed.
Print Assumptions C66_native_refuted.
Example C66_ex : let q := after 0 (initial 0 : params nat nat nat nat) [AType; AType; AModule (Some 0) 1; AType; AType] in
  declared (Some 2) 3 (shared q) = Some (KType (Some 2) 3) /\ nth_error (my_types q) 2 = Some 2 /\ nth_error (my_types q) 3 = Some 3.
Proof. repeat split. Qed.
