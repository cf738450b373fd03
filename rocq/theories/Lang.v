(** The resolved syntax tree the code generator works on: expressions as in
    compiler/parser/expr/mod.rs:17-150 (`ExprType`) after names have been resolved
    (semantic.rs:1213-1380) and after `process_expr` (codegen.rs:16-43), and the statements
    of compiler/parser/mod.rs:279-310, 720-1075.

    Not in the tree: pattern (destructuring) assignments and parameters (see Pattern.v),
    annotations `@e fn ..`, native modules, and `if a then b else c` after `elif`. *)
From Verif Require Import Base Native Err Vm.
Local Open Scope nat_scope.

(** A resolved variable: semantic.rs:300-345 LValueReference Local, Global, UpValue *)
Inductive var := VLocal (i : nat) | VGlobal (i : nat) | VUp (i : nat).
(** What a closure captures, in order (semantic.rs:97-101 closed_locals): a local variable of
    the enclosing function, an upvalue of it, or a slot that is no longer a variable (the
    list of upvalues of a function may keep entries of scopes already left,
    semantic.rs:1150-1156; the closure's code never refers to those). *)
Inductive capref := CapLocal (i : nat) | CapUp (i : nat) | CapStale (i : nat).

(** [args]: argument lists, where [true] marks a spread `...e`.
    [cmps]: the rest of a comparison chain, not empty. *)
Inductive expr :=
| EConst (v : hval)                 (* Nil, Bool, Int, Complex, Str, NativeFunction, Field, Method; Function without captures *)
| EQuit                             (* the keyword `exit` *)
| EVar (x : var)
| EMethod (f : nat) (e : expr)      (* ThisMethod: `self` bound to method [f] *)
| EClosure (f : nat) (c : capref) (caps : list capref)  (* Function with captures *)
| ECall (f : expr) (args : args)
| ECompose (arg f : expr)
| EPrim (p : prim) (args : args)    (* Unary, Binary, Index, Slice, SliceWithStep, SliceLiteral, GetField, SetField, ArrayAssignment *)
| EBinSwap (o : binop) (lhs rhs : expr)           (* Binary with swap = true *)
| ECompare (lhs : expr) (c : cmpop) (e : expr) (rest : cmps)
| ELit (t : littype) (args : args)
| EAnd (a b : expr) | EOr (a b : expr)
| EIf (c t f : expr)
| ESwapField (lhs : expr) (i : nat) (rhs : expr) (o : binop)
| EArrayOp (arr idx : expr) (o : option binop) (rhs : expr)   (* None: `a[i] .= f` *)
| EAssign (x : var) (rhs : expr)
with args := ANil | ACons (spread : bool) (e : expr) (r : args)
with cmps := CLast (c : cmpop) (e : expr) | CCons (c : cmpop) (e : expr) (r : cmps).

Inductive stmt :=
| SExpr (e : expr)
| SSemi                                         (* an explicit `;` *)
| SLet (e : expr) | SLetNil                     (* let x = e, let x *)
| SFn (f : nat) (caps : list capref)            (* fn name() *)
| SStruct (v : hval)                            (* struct / module: declares a constant *)
| SReturn (e : option expr)
| SIf (c : expr) (b : stmts) (els : else_)
| SWhile (c : expr) (b : stmts) (els : option_stmts)
| SDo (b : stmts) (c : option expr) (els : option_stmts)
| SLoop (b : stmts)
| SFor (named : bool) (e : expr) (b : stmts) (els : option_stmts)   (* for x in e / for _ in e *)
| SBreak | SContinue
| SAssert (e : expr) (msg : option expr)
| SAssertCmp (c : cmpop) (swap : bool) (lhs rhs : expr) (msg : option expr)
with stmts := BNil | BCons (s : stmt) (r : stmts)
with else_ := ElNone | ElBlock (b : stmts) | ElIf (c : expr) (b : stmts) (els : else_)
with option_stmts := NoElse | Else (b : stmts).

(** A function: parameters (plain names), default values of the last ones, variadic flag, body. *)
Inductive fbody := BodyBlock (b : stmts) | BodyExpr (e : expr).
Record sfun := SFun { sf_args : nat; sf_defs : list expr; sf_variadic : bool; sf_body : fbody }.
(** A program: the functions (in the order of their numbers) and the main statements. *)
Record program := Program { pr_funs : list sfun; pr_main : stmts }.

Fixpoint n_args (a : args) : nat := match a with ANil => 0 | ACons _ _ r => S (n_args r) end.

(** Local variables (by position) of the function at hand that the closures created directly
    in an expression or statement capture. *)
Definition cap_locals (cs : list capref) : list nat :=
  flat_map (fun c => match c with CapLocal i => [i] | _ => [] end) cs.
Fixpoint capsE (e : expr) : list nat :=
  match e with
  | EConst _ | EQuit | EVar _ => []
  | EMethod _ e | EAssign _ e => capsE e
  | EClosure _ c cs => cap_locals (c :: cs)
  | ECall f a => capsE f ++ capsA a
  | ECompose a b | EBinSwap _ b a | EAnd a b | EOr a b | ESwapField a _ b _ => capsE a ++ capsE b
  | EPrim _ a | ELit _ a => capsA a
  | ECompare l _ e r => capsE l ++ capsE e ++ capsC r
  | EIf a b c => capsE a ++ capsE b ++ capsE c
  | EArrayOp a b _ c => capsE a ++ capsE b ++ capsE c
  end
with capsA (a : args) : list nat := match a with ANil => [] | ACons _ e r => capsE e ++ capsA r end
with capsC (a : cmps) : list nat := match a with CLast _ e => capsE e | CCons _ e r => capsE e ++ capsC r end.
Definition capsO (e : option expr) : list nat := match e with Some e => capsE e | None => [] end.
Fixpoint capsS (s : stmt) : list nat :=
  match s with
  | SExpr e | SLet e => capsE e
  | SSemi | SLetNil | SStruct _ | SBreak | SContinue => []
  | SFn _ cs => cap_locals cs
  | SReturn e => capsO e
  | SIf c b el => capsE c ++ capsB b ++ capsEl el
  | SWhile c b el => capsE c ++ capsB b ++ capsOS el
  | SDo b c el => capsB b ++ capsO c ++ capsOS el
  | SLoop b => capsB b
  | SFor _ e b el => capsE e ++ capsB b ++ capsOS el
  | SAssert e m => capsE e ++ capsO m
  | SAssertCmp _ _ a b m => capsE a ++ capsE b ++ capsO m
  end
with capsB (b : stmts) : list nat := match b with BNil => [] | BCons s r => capsS s ++ capsB r end
with capsEl (e : else_) : list nat :=
  match e with ElNone => [] | ElBlock b => capsB b | ElIf c b el => capsE c ++ capsB b ++ capsEl el end
with capsOS (e : option_stmts) : list nat := match e with NoElse => [] | Else b => capsB b end.
