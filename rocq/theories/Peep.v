(** The bytecode optimiser (compiler/parser/core/optimizer.rs) and the final assembly of a
    program (parser/mod.rs:227-253 teardown). *)
From Verif Require Import Base Native Err Vm Graph.
Local Open Scope nat_scope.

(** optimizer.rs:37-47 merge_store_pop_load: after a merge the cursor moves on to the next opcode *)
Fixpoint merge_store_pop_load (c : list op) : list op :=
  match c with
  | [] => []
  | o :: r =>
      match o, r with
      | OStoreGlobal s false, OPop :: OPushGlobal t :: r' => if s =? t then o :: merge_store_pop_load r' else o :: merge_store_pop_load r
      | OStoreLocal s false, OPop :: OPushLocal t :: r' => if s =? t then o :: merge_store_pop_load r' else o :: merge_store_pop_load r
      | OStoreUp s, OPop :: OPushUp t :: r' => if s =? t then o :: merge_store_pop_load r' else o :: merge_store_pop_load r
      | _, _ => o :: merge_store_pop_load r
      end
  end.
(** optimizer.rs:50-65 merge_store_global_pop *)
Fixpoint merge_store_global_pop (c : list op) : list op :=
  match c with
  | [] => []
  | o :: r =>
      match o, r with
      | OStoreGlobal s false, OPop :: r' => OStoreGlobal s true :: merge_store_global_pop r'
      | OStoreLocal s false, OPop :: r' => OStoreLocal s true :: merge_store_global_pop r'
      | _, _ => o :: merge_store_global_pop r
      end
  end.
(** optimizer.rs:68-82 merge_pops; [pending] Pops have been read and not yet written *)
Definition flush (pending : nat) : list op :=
  match pending with 0 => [] | 1 => [OPop] | n => [OPopN n] end.
Fixpoint merge_pops_from (pending : nat) (c : list op) : list op :=
  match c with
  | [] => flush pending
  | OPop :: r => merge_pops_from (S pending) r
  | o :: r => flush pending ++ o :: merge_pops_from 0 r
  end.
Definition merge_pops (c : list op) : list op := merge_pops_from 0 c.

(** optimizer.rs:13-33 Code::optimize *)
Definition opt_block (b : block) : block :=
  Block (merge_pops (merge_store_global_pop (merge_store_pop_load (bcode b)))) (bend b).
Definition optimize (g : graph) : graph := map opt_block g.

(** semantic.rs:680-703 ParserFunctionImpl, the parts used here *)
Record pfun := PFun { pf_code : graph; pf_defaults : list nat; pf_args : nat; pf_variadic : bool }.
(** mod.rs:238-253: emit each function after the code so far *)
Fixpoint link_funs (opt : graph -> graph) (fs : list pfun) (code : list op) : list op * list func :=
  match fs with
  | [] => (code, [])
  | f :: r =>
      let '(c, starts) := emit (opt (pf_code f)) code in
      let fn := Func (length code) (pf_args f) (map (fun b => nth b starts 0 - length code) (pf_defaults f)) (pf_variadic f) in
      let '(c', t) := link_funs opt r c in (c', fn :: t)
  end.
(** mod.rs:227-253: `if self.enable_optimization { optimize }`, emit main, emit functions *)
Definition link (enable_optimization : bool) (main : graph) (fs : list pfun) : list op * list func :=
  let opt := if enable_optimization then optimize else (fun g => g) in
  link_funs opt fs (fst (emit (opt main) [])).
