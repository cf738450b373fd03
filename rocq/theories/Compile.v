(** The code generator: compiler/parser/codegen.rs (expressions) and the emission done by the
    statement rules of compiler/parser/mod.rs, on the resolved tree of Lang.v, building the
    control flow graph of Graph.v.

    Simplified: constants are carried in the instruction; source locations are dropped; the
    expression optimiser is not run here (see C43); parameters are plain names. *)
From Verif Require Import Base Native Err Vm Graph Peep Lang.
Local Open Scope nat_scope.

(** push several opcodes *)
Definition g_pushes (os : list op) (g : graph) : graph := fold_left (fun g o => g_push o g) os g.

(** core/mod.rs:216-233 push_load_lvalue, 252-257 push_store_lvalue *)
Definition load_op (x : var) : op :=
  match x with VLocal i => OPushLocal i | VGlobal i => OPushGlobal i | VUp i => OPushUp i end.
Definition store_op (x : var) : op :=
  match x with VLocal i => OStoreLocal i false | VGlobal i => OStoreGlobal i false | VUp i => OStoreUp i end.
(** semantic.rs:97-101 closed_locals *)
Definition close_op (c : capref) : op :=
  match c with CapLocal i | CapStale i => OCloseLocal i | CapUp i => OCloseUp i end.
(** codegen.rs:300-307 emit_closure_and_closed_locals, after the function constant *)
Definition closure_ops (f : nat) (cs : list capref) : list op :=
  OConst (HFun f) :: match cs with [] => [] | _ => OClosure :: map close_op cs end.
(** end of the list of forward branches of a comparison chain, codegen.rs:157-159 *)
Definition join_all (g : graph) (bs : list (nat * brtype)) : graph :=
  fold_left (fun g b => g_join_forward g (fst b) (snd b)) bs g.

(** codegen.rs:70-284 emit_expr *)
Fixpoint cexpr (e : expr) (g : graph) : graph :=
  match e with
  | EConst v => g_push (OConst v) g                                                     (* 72-89, 228 of core/mod.rs *)
  | EQuit => g_push OExit g                                                             (* 73 *)
  | EVar x => g_push (load_op x) g                                                      (* 121 *)
  | EMethod f e => g_push (OGetMethod f) (cexpr e g)                                    (* core/mod.rs:229-232 *)
  | EClosure f c cs => g_pushes (closure_ops f (c :: cs)) g                             (* 92-95 *)
  | ECall f a => let '(g, un) := cargs a false (cexpr f g) in g_push (OCall (n_args a) un) g   (* 97-113 *)
  | ECompose a f => g_push (OCall 1 false) (g_push OSwap (cexpr f (cexpr a g)))         (* 114-119 *)
  | EPrim p a => g_push (OPrim p) (cplain a g)                                          (* 123-130, 188-197, 216-232, 243-250, 267-272 *)
  | EBinSwap o lhs rhs => g_push (OPrim (PBinary o)) (g_push OSwap (cexpr lhs (cexpr rhs g)))  (* 127-130, 286-296 *)
  | ECompare lhs c e rest =>                                                            (* 131-160 *)
      let g := cexpr lhs g in
      let g := cexpr e g in
      let '(g, b) := g_branch_forward g in
      ccmps rest [(b, BrCompare c)] g
  | ELit t a => g_push OLitEnd (clit a 0 (g_push (OLitBegin t (n_args a)) g))           (* 161-187 *)
  | EAnd a b =>                                                                         (* 202-208 *)
      let '(g, br) := g_branch_forward (cexpr a g) in
      g_join_forward (cexpr b (g_push OPop g)) br BrFalse
  | EOr a b =>                                                                          (* 209-215 *)
      let '(g, br) := g_branch_forward (cexpr a g) in
      g_join_forward (cexpr b (g_push OPop g)) br BrTrue
  | EIf c t f =>                                                                        (* 233-241 *)
      let '(g, b1) := g_branch_forward (cexpr c g) in
      let '(g, b2) := g_branch_forward (cexpr t g) in
      let g := g_join_forward g b1 BrFalsePop in
      g_join_forward (cexpr f g) b2 BrJump
  | ESwapField a i b o =>                                                               (* 251-257 *)
      g_push (OPrim (PSetField i)) (g_push (OPrim (PBinary o)) (cexpr b (g_push (OPeek (PGetField i)) (cexpr a g))))
  | EArrayOp a i o b =>                                                                 (* 273-286 *)
      let g := cexpr b (g_push (OPeek PIndex) (cexpr i (cexpr a g))) in
      let g := match o with
               | None => g_push (OCall 1 false) (g_push OSwap g)
               | Some o => g_push (OPrim (PBinary o)) g
               end in
      g_push (OPrim PStoreArray) g
  | EAssign x e => g_push (store_op x) (cexpr e g)                                      (* 258-262 *)
  end
(** call arguments, codegen.rs:102-111; [un]: a spread was seen *)
with cargs (a : args) (un : bool) (g : graph) : graph * bool :=
  match a with
  | ANil => (g, un)
  | ACons true e r => cargs r true (g_push (OUnroll (negb un)) (cexpr e g))
  | ACons false e r => cargs r un (cexpr e g)
  end
with cplain (a : args) (g : graph) : graph :=
  match a with ANil => g | ACons _ e r => cplain r (cexpr e g) end
(** codegen.rs:142-159; [bs]: the branches so far *)
with ccmps (r : cmps) (bs : list (nat * brtype)) (g : graph) : graph :=
  match r with
  | CLast c e => join_all (g_push (OPrim (PBinary (cmp_binop c))) (cexpr e g)) bs
  | CCons c e r =>
      let '(g, b) := g_branch_forward (cexpr e g) in
      ccmps r (bs ++ [(b, BrCompare c)]) g
  end
(** codegen.rs:164-184; [acc]: elements on the stack not yet added *)
with clit (a : args) (acc : nat) (g : graph) : graph :=
  match a with
  | ANil => if 0 <? acc then g_push (OLitAcc acc) g else g
  | ACons true e r =>
      let g := if 0 <? acc then g_push (OLitAcc acc) g else g in
      clit r 0 (g_push OLitUnroll (cexpr e g))
  | ACons false e r => clit r (S acc) (cexpr e g)
  end.

(** Parser state while statements are compiled: the graph, the flag
    delay_pop_from_expression_statement, the local variables of the function (scope depth and
    `captured` flag, semantic.rs:196-210), the break branches of the innermost loop. *)
Record cs := CS { cg : graph; delay : bool; lv : list (nat * bool); brk : list nat }.
Definition on_g (f : graph -> graph) (c : cs) : cs := CS (f (cg c)) (delay c) (lv c) (brk c).
Definition with_delay (d : bool) (c : cs) : cs := CS (cg c) d (lv c) (brk c).
Definition with_lv (l : list (nat * bool)) (c : cs) : cs := CS (cg c) (delay c) l (brk c).
Definition with_brk (b : list nat) (c : cs) : cs := CS (cg c) (delay c) (lv c) b.
Definition cpush (o : op) (c : cs) : cs := on_g (g_push o) c.

(** core/mod.rs:195-201 push_delayed_pop *)
Definition dpop (c : cs) : cs := if delay c then with_delay false (cpush OPop c) else c.
(** resolve_reference sets `captured`, semantic.rs:1231 *)
Fixpoint mark_from (i : nat) (caps : list nat) (l : list (nat * bool)) : list (nat * bool) :=
  match l with
  | [] => []
  | (d, f) :: r => (d, f || existsb (Nat.eqb i) caps) :: mark_from (S i) caps r
  end.
Definition mark (caps : list nat) (c : cs) : cs := with_lv (mark_from 0 caps (lv c)) c.
(** an expression: emit, and the captures made while parsing it *)
Definition cex (e : expr) (c : cs) : cs := mark (capsE e) (on_g (cexpr e) c).
(** semantic.rs:964-1020 declare_local, 1392-1398 init_local *)
Definition declare_local (sd : nat) (c : cs) : cs := with_lv (lv c ++ [(sd, false)]) c.
Definition init_local (top : bool) (sd : nat) (c : cs) : cs := if top && (sd =? 0) then cpush OInitGlobal c else c.
(** semantic.rs:1131-1166 pop_locals: the variables at depth >= [sc] are the last ones *)
Fixpoint lifts_from (i : nat) (sc : nat) (l : list (nat * bool)) : list op :=
  match l with
  | [] => []
  | (d, f) :: r => lifts_from (S i) sc r ++ (if (sc <=? d) && f then [OLift i] else [])
  end.
Definition in_scope (sc : nat) (l : list (nat * bool)) : nat := length (filter (fun p => sc <=? fst p) l).
Definition pop_locals (sc : nat) (modify emit_pop emit_lifts : bool) (c : cs) : cs :=
  let k := in_scope sc (lv c) in
  let c := on_g (g_pushes ((if emit_lifts then lifts_from 0 sc (lv c) else []) ++ (if emit_pop then repeat OPop k else []))) c in
  if modify then with_lv (below (lv c) k) c else c.

(** semantic.rs:27-46 struct Loop: start, enclosing scope, inner scope *)
Definition loopctx := option (nat * nat * nat).
(** semantic.rs:857-866, 869-874 begin_loop, begin_for_loop *)
Definition begin_loop (c : cs) : cs * nat :=
  let '(g, b) := g_branch_reverse (cg c) in (CS g (delay c) (lv c) [], b).
(** semantic.rs:877-881 end_loop; [outer]: the breaks of the loop around *)
Definition end_loop (outer : list nat) (c : cs) : cs :=
  CS (join_all (cg c) (map (fun b => (b, BrJump)) (brk c))) (delay c) (lv c) outer.

Definition cmsg (msg : option expr) (c : cs) : cs :=
  match msg with Some e => cex e c | None => cpush (OConst HNil) c end.

(** mod.rs:312-321 parse_block_statement; [body] compiles the statements *)
Definition in_block (sd : nat) (body : cs -> cs) (c : cs) : cs := pop_locals (S sd) true true true (body (dpop c)).

(** The statement rules.  [top]: not inside a function; [sd]: scope depth. *)
Fixpoint cstmt (top : bool) (sd : nat) (lc : loopctx) (s : stmt) (c : cs) : cs :=
  match s with
  | SExpr e => with_delay true (cex e (dpop c))                              (* mod.rs:1063-1068 *)
  | SSemi => dpop c                                                          (* mod.rs:299-302 *)
  | SLet e => init_local top sd (cex e (declare_local sd (dpop c)))          (* mod.rs:1010-1034 *)
  | SLetNil => cpush (OConst HNil) (init_local top sd (declare_local sd (dpop c)))   (* mod.rs:1035-1045 *)
  | SFn f caps =>                                                            (* mod.rs:479-508, 600-603 *)
      mark (cap_locals caps) (on_g (g_pushes (closure_ops f caps)) (init_local top sd (declare_local sd (dpop c))))
  | SStruct v => cpush (OConst v) (init_local top sd (declare_local sd (dpop c)))    (* semantic.rs:894-930 *)
  | SReturn e =>                                                             (* mod.rs:693-715 *)
      let c := dpop c in
      let c := match e with Some e => cex e c | None => cpush (OConst HNil) c end in
      cpush OReturn (pop_locals 0 false false true c)
  | SIf e b el =>                                                            (* mod.rs:720-785 *)
      let c := cex e (dpop c) in
      let '(g, j) := g_branch_forward (cg c) in
      let c := dpop (in_block sd (cstmts top (S sd) lc b) (on_g (fun _ => g) c)) in
      celse top sd lc j el c
  | SWhile e b el =>                                                         (* mod.rs:787-821 *)
      let c := dpop c in
      let outer := brk c in
      let '(c, start) := begin_loop c in
      let c := cex e c in
      let '(g, j) := g_branch_forward (cg c) in
      let lc := Some (start, S sd, S sd) in
      let c := dpop (in_block sd (cstmts top (S sd) lc b) (on_g (fun _ => g) c)) in
      let c := on_g (fun g => g_join_forward (g_join_reverse g start BrJump) j BrFalsePop) c in
      end_loop outer (copt top sd lc el c)
  | SDo b e el =>                                                            (* mod.rs:823-844 *)
      let outer := brk c in
      let '(c, start) := begin_loop c in
      let lc := Some (start, S sd, S sd) in
      let c := dpop (in_block sd (cstmts top (S sd) lc b) c) in
      let c := match e with
               | Some e => on_g (fun g => g_join_reverse g start BrTruePop) (cex e c)
               | None => c
               end in
      end_loop outer (copt top sd lc el c)
  | SLoop b =>                                                               (* mod.rs:846-867 *)
      let c := dpop c in
      let outer := brk c in
      let '(c, start) := begin_loop c in
      let lc := Some (start, S sd, S sd) in
      let c := dpop (in_block sd (cstmts top (S sd) lc b) c) in
      end_loop outer (on_g (fun g => g_join_reverse g start BrJump) c)
  | SFor named e b el =>                                                     (* mod.rs:869-924 *)
      let c := dpop c in
      let x := length (lv c) in
      let c := if named then cpush (OConst HNil) (declare_local (S sd) c) else c in
      let c := cex e c in
      let c := cpush (OPrim PInitIter) (declare_local (S sd) c) in
      let outer := brk c in
      let '(c, start) := begin_loop c in
      let lc := Some (start, S sd, S (S sd)) in
      let '(g, test) := g_branch_forward (cg c) in
      let c := on_g (fun _ => if named then g_push OPop (g_push (OStoreLocal x false) g) else g_push OPop g) c in
      let c := dpop (in_block (S sd) (cstmts top (S (S sd)) lc b) c) in
      let c := pop_locals (S sd) false false true c in
      let c := on_g (fun g => g_join_forward (g_join_reverse g start BrJump) test BrTestIter) c in
      let c := pop_locals (S sd) true true false c in
      end_loop outer (copt top sd lc el c)
  | SBreak =>                                                                (* mod.rs:926-940 *)
      let c := dpop c in
      match lc with
      | Some (_, enc, _) =>
          let c := pop_locals enc false true true c in
          let '(g, j) := g_branch_forward (cg c) in
          CS g (delay c) (lv c) (brk c ++ [j])
      | None => c
      end
  | SContinue =>                                                             (* mod.rs:942-956 *)
      let c := dpop c in
      match lc with
      | Some (start, _, inner) => on_g (fun g => g_join_reverse g start BrJump) (pop_locals inner false true true c)
      | None => c
      end
  | SAssert e msg =>                                                         (* mod.rs:958-1001 *)
      let c := cex e (dpop c) in
      let '(g, j) := g_branch_forward (cg c) in
      on_g (fun g => g_join_forward (g_push OAssertFailed g) j BrAssertTest) (cmsg msg (on_g (fun _ => g) c))
  | SAssertCmp o swap a b msg =>
      let c := dpop c in
      let c := if swap then cpush OSwap (cex a (cex b c)) else cex b (cex a c) in
      let '(g, j) := g_branch_forward (cg c) in
      on_g (fun g => g_join_forward (g_push OAssertFailed g) j (BrAssertCompare o)) (cmsg msg (on_g (fun _ => g) c))
  end
(** mod.rs:279-310 parse_statements *)
with cstmts (top : bool) (sd : nat) (lc : loopctx) (b : stmts) (c : cs) : cs :=
  match b with BNil => c | BCons s r => cstmts top sd lc r (cstmt top sd lc s c) end
(** mod.rs:760-785; [j]: the branch to the else part *)
with celse (top : bool) (sd : nat) (lc : loopctx) (j : nat) (el : else_) (c : cs) : cs :=
  match el with
  | ElNone => on_g (fun g => g_join_forward g j BrFalsePop) c
  | ElBlock b =>
      let '(g, j2) := g_branch_forward (cg c) in
      let c := on_g (fun _ => g_join_forward g j BrFalsePop) c in
      on_g (fun g => g_join_forward g j2 BrJump) (dpop (in_block sd (cstmts top (S sd) lc b) c))
  | ElIf e b el =>
      let '(g, j2) := g_branch_forward (cg c) in
      let c := on_g (fun _ => g_join_forward g j BrFalsePop) c in
      let c := cex e (dpop c) in
      let '(g, j) := g_branch_forward (cg c) in
      let c := dpop (in_block sd (cstmts top (S sd) lc b) (on_g (fun _ => g) c)) in
      on_g (fun g => g_join_forward g j2 BrJump) (celse top sd lc j el c)
  end
(** the else part of a loop *)
with copt (top : bool) (sd : nat) (lc : loopctx) (el : option_stmts) (c : cs) : cs :=
  match el with NoElse => c | Else b => dpop (in_block sd (cstmts top (S sd) lc b) c) end.

(** mod.rs:605-690 parse_function_body: default values, parameters, body, lifts, Return *)
Fixpoint cdefs (ds : list expr) (g : graph) : graph * list nat :=
  match ds with
  | [] => (g, [])
  | d :: r =>
      let '(g, b) := g_branch_reverse (cexpr d g) in
      let '(g, bs) := cdefs r g in (g, b :: bs)
  end.
Definition cfun (f : sfun) : pfun :=
  let '(g, bs) := cdefs (sf_defs f) g_new in
  let c := CS g false (repeat (1, false) (sf_args f)) [] in
  let c := match sf_body f with
           | BodyBlock b => let c := cstmts false 2 None b c in if delay c then c else cpush (OConst HNil) c
           | BodyExpr e => cex e c
           end in
  let c := pop_locals 1 true false true (pop_locals 2 true false true c) in
  PFun (g_push OReturn (cg c)) bs (sf_args f) (sf_variadic f).
(** mod.rs:199-206 parse *)
Definition cmain (main : stmts) : graph :=
  let c := dpop (cstmts true 0 None main (CS g_new false [] [])) in
  g_push OExit (cg (pop_locals 0 true true true c)).
(** the linked program: Peep.v [link] *)
Definition compile (optimise : bool) (p : program) : list op * list func :=
  link optimise (cmain (pr_main p)) (map cfun (pr_funs p)).
