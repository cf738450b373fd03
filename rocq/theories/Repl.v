(** The interactive session: repl.rs 62-122, compiler/parser/mod.rs 210-253 (parse_incremental_repl, teardown), vm/mod.rs 70-87 (ExitType), 223-234 (run_until_completion, run_recovery).

    A line is given as the parser resolves it: its main statements and the functions in it.
    Expressions are compiled with no optimisation (vm/mod.rs 209-211).  The printing of an
    error is a parameter. *)
From Verif Require Import Base Native Err Vm Graph Peep Lang Compile ReplRun.
Local Open Scope nat_scope.

(** what a line declares and does *)
Record line := Line { l_funs : list sfun; l_main : stmts }.

(** parse_incremental_repl: [lv] are the variables of the session; they stay *)
Definition cline_end (c : cs) : cs :=
  if delay c then cpush OPop (cpush (OCall 1 false) (cpush OSwap (cpush (OConst (HNative NF_Print)) c))) else c.
Definition cline (lv : list (nat * bool)) (b : stmts) : cs := cpush OYield (cline_end (cstmts true 0 None b (CS g_new false lv []))).

Section repl.
Context (P : prims) (report : verr (E P) -> W P -> W P).

(** repl.rs 22-26: the code and functions so far, the variables known to the compiler, the machine *)
Record session := Session { r_code : list op; r_funs : list func; r_lv : list (nat * bool); r_vm : vm P }.
(** repl.rs 62-72, compiler/parser/mod.rs `default` *)
Definition session_init (w : W P) : session := Session [] [] [] (vm_init P w).

(** run_recovery; [frames] is in the order of calls from the last *)
Definition recover (locals len : nat) (m : vm P) : vm P :=
  Vm P len (firstn locals (stack P m)) (skipn (length (frames P m) - 1) (frames P m)) [] (unrolls P m) (gcount P m) (opens P m) (cells P m) (envs P m) (world P m).

(** incremental_compile: the new code goes to the end of the old one *)
Definition add_line (l : line) (r : session) : session :=
  let c := cline (r_lv r) (l_main l) in
  let '(code, fs) := link_funs (fun g => g) (map cfun (l_funs l)) (fst (emit (cg c) (r_code r))) in
  Session code (r_funs r ++ fs) (lv c) (r_vm r).

(** repl.rs 86-122: a line that was compiled.  [Done]: the session goes on *)
Inductive entered := Done (r : session) | Ended (w : W P) | Crashed.
Definition enter (n : nat) (l : line) (r : session) : option entered :=
  let r := add_line l r in
  let next m := Done (Session (r_code r) (r_funs r) (r_lv r) (recover (length (r_lv r)) (length (r_code r)) m)) in
  match run_line P (r_code r) (fun i => nth_error (r_funs r) i) (step P) n 0 (r_vm r) with
  | None => None
  | Some (LYield _ m) => Some (next m)
  | Some (LReturn _ m) => Some (Ended (world P m))
  | Some (LError _ XExit m) => Some (Ended (world P m))
  | Some (LError _ e m) => Some (next (set_world P (report e (world P m)) m))
  | Some (LStuck _) => Some Crashed
  end.
End repl.
