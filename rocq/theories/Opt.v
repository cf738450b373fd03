(** The expression optimiser: compiler/parser/expr/optimizer.rs and the traversal of
    compiler/parser/expr/mod.rs:174-238, on the expressions of Lang.v.

    Simplifications: locations are dropped; `LValue(Method)` (purity Weak) is the constant
    [HFun] here and counts as Strong; `LValue(ThisField)` (purity Weak) is a field access
    here and counts as None; the constant expressions Int, Complex and Str are the constants
    [HConst i], whose meaning is given by [dec]; [enc v] is the constant `Expr::value(v)`. *)
From Verif Require Import Base Native Err Value Ops Vm Lang.
Local Open Scope nat_scope.

(** expr/optimizer.rs:234-237, ordered None < Weak < Strong *)
Inductive purity_class := PureNone | PureWeak | PureStrong.
Definition pmin (a b : purity_class) : purity_class :=
  match a, b with
  | PureNone, _ | _, PureNone => PureNone
  | PureWeak, _ | _, PureWeak => PureWeak
  | _, _ => PureStrong
  end.
Definition is_none (p : purity_class) : bool := match p with PureNone => true | _ => false end.
Definition is_strong (p : purity_class) : bool := match p with PureStrong => true | _ => false end.

(** `any_unroll`, optimizer.rs:218-220 *)
Fixpoint any_spread (a : args) : bool := match a with ANil => false | ACons s _ r => s || any_spread r end.
(** Vec::append *)
Fixpoint args_append (a b : args) : args := match a with ANil => b | ACons s e r => ACons s e (args_append r b) end.
(** `is_partial`, optimizer.rs:209-214 *)
Definition is_partial (f : expr) (nargs : nat) : bool :=
  match f with EConst (HNative n) => nargs <? native_min_nargs n | _ => false end.
(** core/mod.rs:194 `is_operator` *)
Definition is_operator (n : native) : bool := negb (native_eqb (native_swap n) n).

(** [ExprType::Error]: emitting it is a compile error (codegen.rs:91); as an expression it has
    no value.  Here: an index without operands. *)
Definition EError : expr := EPrim PIndex ANil.

Section opt.
Context (dec : nat -> option value) (enc : value -> hval) (to_str : value -> list Z) (fmt : list Z -> value -> result value).

(** the value of a constant expression, `into_const`, optimizer.rs:155-164 *)
Definition decode (h : hval) : option value :=
  match h with HNil => Some VNil | HBool b => Some (VBool b) | HConst i => dec i | _ => None end.
Definition into_const (e : expr) : option value := match e with EConst h => decode h | _ => None end.
(** Expr::result, expr/mod.rs:389-394 *)
Definition result_expr (r : result value) : expr := match r with Ok v => EConst (enc v) | _ => EError end.

(** `purity`, optimizer.rs:174-207; a spread has the purity of its operand. *)
Definition purity_const (h : hval) : purity_class :=
  match h with
  | HNil | HBool _ | HNative _ | HFun _ => PureStrong
  | HConst i => match dec i with Some (VInt _) | Some (VStr _) => PureStrong | _ => PureNone end
  | _ => PureNone
  end.
Fixpoint purity (e : expr) : purity_class :=
  match e with
  | EConst h => purity_const h
  | EQuit | EClosure _ _ _ => PureStrong
  | EVar _ | EMethod _ (EVar _) => PureWeak
  | EPrim (PUnary _) a | EPrim (PBinary _) a => purity_args a
  | EBinSwap _ l r => pmin (purity l) (purity r)
  | EAnd a b | EOr a b => pmin (purity a) (purity b)
  | ELit _ a => purity_args a
  | EIf c a b => pmin (pmin (purity c) (purity a)) (purity b)
  | ECall f a =>
      if any_spread a then PureNone
      else if is_partial f (n_args a) then pmin (purity f) (purity_args a) else PureNone
  | ECompose a f => if is_partial f 1 then pmin (purity f) (purity a) else PureNone
  | _ => PureNone
  end
with purity_args (a : args) : purity_class :=
  match a with ANil => PureStrong | ACons _ e r => pmin (purity e) (purity_args r) end.
(** `can_reorder`, optimizer.rs:166-172 *)
Definition can_reorder (a b : expr) : bool :=
  match purity a with
  | PureStrong => true
  | PureWeak => negb (is_none (purity b))
  | PureNone => is_strong (purity b)
  end.

Section with_reorder.
(** which expressions may be evaluated in the other order; the optimiser uses [can_reorder] *)
Context (reorder : expr -> expr -> bool).

(** optimizer.rs:28-31 *)
Definition visit_unary (o : unop) (a : expr) : expr :=
  match into_const a with Some x => result_expr (unary_op o x) | None => EPrim (PUnary o) (ACons false a ANil) end.
(** optimizer.rs:33-39 *)
Definition visit_binary (o : binop) (l r : expr) (swap : bool) : expr :=
  match into_const l, into_const r with
  | Some x, Some y => result_expr (if swap then binary_op to_str fmt o y x else binary_op to_str fmt o x y)
  | _, _ => if swap then EBinSwap o l r else EPrim (PBinary o) (ACons false l (ACons false r ANil))
  end.
(** Calls of a native function, optimizer.rs:45-73 *)
Definition visit_native (n : native) (a : args) : expr :=
  let plain := ECall (EConst (HNative n)) a in
  match a with
  | ACons false x (ACons false y ANil) =>
      match native_binop n with
      | Some o => visit_binary o x y false
      | None =>
          match native_binop (native_swap n) with
          | Some o => visit_binary o y x (negb (reorder y x))
          | None => plain
          end
      end
  | ACons false (EConst (HNative NF_Int)) ANil =>
      match n with
      | NF_Min => EConst (enc (VInt MIN_INT))
      | NF_Max => EConst (enc (VInt MAX_INT))
      | _ => plain
      end
  | _ => plain
  end.
(** Calls, optimizer.rs:41-87.  When calls are merged, `visit` is called again on a call of a
    native function. *)
Definition visit_call (f : expr) (a : args) : expr :=
  match f with
  | EConst (HNative n) => visit_native n a
  | ECall (EConst (HNative n)) inner =>
      if negb (any_spread inner) && is_partial (EConst (HNative n)) (n_args inner) then visit_native n (args_append inner a) else ECall f a
  | _ => ECall f a
  end.
(** Composition, optimizer.rs:92-137 *)
Definition visit_compose_other (a f : expr) : expr :=
  if reorder f a then visit_call f (ACons false a ANil)
  else
    match f with
    | ECall (EConst (HNative n)) (ACons false r ANil) =>
        if is_operator n then
          match native_binop n with
          | Some o => EBinSwap o r a
          | None =>
              match native_binop (native_swap n) with
              | Some o => EPrim (PBinary o) (ACons false a (ACons false r ANil))
              | None => EError (* unreachable: `unwrap` of None *)
              end
          end
        else ECompose a f
    | _ => ECompose a f
    end.
Definition visit_compose (a f : expr) : expr :=
  match f with
  | ELit LitList items =>
      if any_spread items then visit_compose_other a f
      else match items with ACons _ i ANil => EPrim PIndex (ACons false a (ACons false i ANil)) | _ => EError end
  | EPrim PMkSlice items => EPrim PSlice (ACons false a items)
  | EPrim PMkSliceStep items => EPrim PSliceStep (ACons false a items)
  | _ => visit_compose_other a f
  end.
(** optimizer.rs:140-143 *)
Definition visit_if (c t f : expr) : expr :=
  match into_const c with Some x => if to_bool x then t else f | None => EIf c t f end.

(** expr/mod.rs:177-238: subexpressions first, then `visit` *)
Fixpoint walk (e : expr) : expr :=
  match e with
  | EConst _ | EQuit | EVar _ | EMethod _ _ | EClosure _ _ _ => e
  | ECall f a => visit_call (walk f) (walk_args a)
  | ECompose a f => visit_compose (walk a) (walk f)
  | EPrim (PUnary o) (ACons false a ANil) => visit_unary o (walk a)
  | EPrim (PBinary o) (ACons false l (ACons false r ANil)) => visit_binary o (walk l) (walk r) false
  | EPrim p a => EPrim p (walk_args a)
  | EBinSwap o l r => visit_binary o (walk l) (walk r) true
  | ECompare l c e r => ECompare (walk l) c (walk e) (walk_cmps r)
  | ELit t a => ELit t (walk_args a)
  | EAnd a b => EAnd (walk a) (walk b)
  | EOr a b => EOr (walk a) (walk b)
  | EIf c a b => visit_if (walk c) (walk a) (walk b)
  | ESwapField a i b o => ESwapField (walk a) i (walk b) o
  | EArrayOp a i o b => EArrayOp (walk a) (walk i) o (walk b)
  | EAssign x e => EAssign x (walk e)
  end
with walk_args (a : args) : args := match a with ANil => ANil | ACons s e r => ACons s (walk e) (walk_args r) end
with walk_cmps (c : cmps) : cmps := match c with CLast o e => CLast o (walk e) | CCons o e r => CCons o (walk e) (walk_cmps r) end.
End with_reorder.

(** optimizer.rs:9-13 *)
Definition optimize : expr -> expr := walk can_reorder.

(** Statements and functions: every expression is optimised where it is emitted
    (`emit_optimized_expr`, codegen.rs:50-56). *)
Section stmts.
Context (g : expr -> expr).
Definition map_opt (e : option expr) : option expr := match e with Some e => Some (g e) | None => None end.
Fixpoint map_stmt (s : stmt) : stmt :=
  match s with
  | SExpr e => SExpr (g e)
  | SSemi => SSemi
  | SLet e => SLet (g e)
  | SLetNil => SLetNil
  | SFn f c => SFn f c
  | SStruct v => SStruct v
  | SReturn e => SReturn (map_opt e)
  | SIf c b el => SIf (g c) (map_stmts b) (map_else el)
  | SWhile c b el => SWhile (g c) (map_stmts b) (map_os el)
  | SDo b c el => SDo (map_stmts b) (map_opt c) (map_os el)
  | SLoop b => SLoop (map_stmts b)
  | SFor n e b el => SFor n (g e) (map_stmts b) (map_os el)
  | SBreak => SBreak
  | SContinue => SContinue
  | SAssert e m => SAssert (g e) (map_opt m)
  | SAssertCmp c sw a b m => SAssertCmp c sw a b (map_opt m)  (* parser/mod.rs:970-973: emitted as they are *)
  end
with map_stmts (b : stmts) : stmts := match b with BNil => BNil | BCons s r => BCons (map_stmt s) (map_stmts r) end
with map_else (e : else_) : else_ :=
  match e with ElNone => ElNone | ElBlock b => ElBlock (map_stmts b) | ElIf c b el => ElIf (g c) (map_stmts b) (map_else el) end
with map_os (e : option_stmts) : option_stmts := match e with NoElse => NoElse | Else b => Else (map_stmts b) end.
Definition map_body (b : fbody) : fbody := match b with BodyBlock b => BodyBlock (map_stmts b) | BodyExpr e => BodyExpr (g e) end.
Definition map_fun (f : sfun) : sfun := SFun (sf_args f) (map g (sf_defs f)) (sf_variadic f) (map_body (sf_body f)).
Definition map_program (p : program) : program := Program (map map_fun (pr_funs p)) (map_stmts (pr_main p)).
End stmts.
(** With `enable_optimization`. *)
Definition optimize_program : program -> program := map_program optimize.
End opt.
