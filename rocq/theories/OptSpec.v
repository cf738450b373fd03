(** Vocabulary for C43 (the optimiser). *)
From Verif Require Import Base Native Err Value Ops Vm Lang LangSpec CompileSpec Opt.
Local Open Scope nat_scope.

(** [e], in frame [fr] and state [s], gives the value [v] and leaves state [s']. *)
Definition gives (P : prims) (funs : nat -> option sfun) (fr : frame) (e : expr) (s : st P) (v : hval) (s' : st P) : Prop :=
  evals P funs fr e s (LangSpec.Ok P _ v s').
Definition fails_with {A B} (t : tree A B) : Prop := exists w e, t = TErr w e.
(** finishes without calling back *)
Definition immediate {A B} (t : tree A B) : Prop := fails_with t \/ exists w v, t = TRet w v.
Definition user_function (h : hval) : Prop :=
  match h with HFun _ | HClosure _ _ | HPartial (HFun _) _ | HPartial (HClosure _ _) _ => True | _ => False end.

(** What the optimiser relies on.  [dec], [enc]: constants; [binary_op], [unary_op]: the
    operators on constants, as computed at compile time (Ops.v). *)
Record lawful (P : prims) (dec : nat -> option value) (enc : value -> hval) (to_str : value -> list Z) (fmt : list Z -> value -> result value) : Prop := {
  (* operators compute at run time what they compute at compile time *)
  lw_unary : forall o h x w, decode dec h = Some x ->
    match unary_op o x with Err.Ok v => p_op P (PUnary o) [h] w = TRet w (enc v) | _ => fails_with (p_op P (PUnary o) [h] w) end;
  lw_binary : forall o h x k y w, decode dec h = Some x -> decode dec k = Some y ->
    match binary_op to_str fmt o x y with Err.Ok v => p_op P (PBinary o) [h; k] w = TRet w (enc v) | _ => fails_with (p_op P (PBinary o) [h; k] w) end;
  lw_bool : forall h x w, decode dec h = Some x -> p_bool P w h = to_bool x;
  lw_dec : forall i x, dec i = Some x -> match x with VInt _ | VComplex _ _ | VStr _ => True | _ => False end;
  lw_enc : forall v x, decode dec (enc v) = Some x -> x = v;
  lw_fmt : forall s v r, fmt s v = Err.Ok r -> exists t, r = VStr t;
  (* operators do not call back *)
  lw_op1 : forall o a w, immediate (p_op P (PUnary o) [a] w);
  lw_op2 : forall o a b w, immediate (p_op P (PBinary o) [a; b] w);
  (* operator functions *)
  lw_native : forall n o a b w, native_binop n = Some o -> p_call P (HNative n) [a; b] w = p_op P (PBinary o) [a; b] w;
  lw_swapped : forall n o a b w, native_binop n = None -> native_binop (native_swap n) = Some o ->
    p_call P (HNative n) [a; b] w = p_op P (PBinary o) [b; a] w;
  (* partial application of native functions (C32) *)
  lw_partial : forall n l w, length l < native_min_nargs n ->
    p_call P (HNative n) l w = TRet w (match l with [] => HNative n | _ => HPartial (HNative n) l end);
  lw_partial_call : forall n l r w, l <> [] -> length l < native_min_nargs n ->
    p_call P (HPartial (HNative n) l) r w = p_call P (HNative n) (l ++ r) w;
  lw_min : forall w, p_call P (HNative NF_Min) [HNative NF_Int] w = TRet w (enc (VInt MIN_INT));
  lw_max : forall w, p_call P (HNative NF_Max) [HNative NF_Int] w = TRet w (enc (VInt MAX_INT));
  (* calling a list or a slice that was only made for this call (and leaves no trace) *)
  lw_list1 : forall i a w w' h, l_end P (l_acc P (l_new P LitList 1) [i] w) w = (w', h) ->
    ~ user_function h /\ p_call P h [a] w' = p_op P PIndex [a; i] w;
  lw_list0 : forall a w w' h, l_end P (l_new P LitList 0) w = (w', h) -> ~ user_function h /\ fails_with (p_call P h [a] w');
  lw_list2 : forall vs a w w' h, 2 <= length vs -> l_end P (l_acc P (l_new P LitList (length vs)) vs w) w = (w', h) ->
    ~ user_function h /\ fails_with (p_call P h [a] w');
  lw_slice : forall a x y w,
    (fails_with (p_op P PMkSlice [x; y] w) /\ fails_with (p_op P PSlice [a; x; y] w)) \/
    exists w' h, p_op P PMkSlice [x; y] w = TRet w' h /\ ~ user_function h /\ p_call P h [a] w' = p_op P PSlice [a; x; y] w;
  lw_slice_step : forall a x y z w,
    (fails_with (p_op P PMkSliceStep [x; y; z] w) /\ fails_with (p_op P PSliceStep [a; x; y; z] w)) \/
    exists w' h, p_op P PMkSliceStep [x; y; z] w = TRet w' h /\ ~ user_function h /\ p_call P h [a] w' = p_op P PSliceStep [a; x; y; z] w }.

Section syntax.
Context (dec : nat -> option value).
(** As written by a programmer, without complex constants: every constant of [e] satisfies
    [ok], and no operator is marked as swapped. *)
Definition not_complex (h : hval) : bool := match decode dec h with Some (VComplex _ _) => false | _ => true end.
Fixpoint real (e : expr) : bool :=
  match e with
  | EConst h => not_complex h
  | EQuit | EVar _ | EClosure _ _ _ => true
  | EMethod _ e | EAssign _ e => real e
  | ECall f a => real f && real_args a
  | ECompose a b | EBinSwap _ a b | EAnd a b | EOr a b | ESwapField a _ b _ => real a && real b
  | EPrim _ a | ELit _ a => real_args a
  | ECompare a _ b r => real a && real b && real_cmps r
  | EIf a b c | EArrayOp a b _ c => real a && real b && real c
  end
with real_args (a : args) : bool := match a with ANil => true | ACons _ e r => real e && real_args r end
with real_cmps (c : cmps) : bool := match c with CLast _ e => real e | CCons _ e r => real e && real_cmps r end.
(** no operator is marked as swapped: only the optimiser does that *)
Fixpoint unswapped (e : expr) : bool :=
  match e with
  | EBinSwap _ _ _ => false
  | EConst _ | EQuit | EVar _ | EClosure _ _ _ => true
  | EMethod _ e | EAssign _ e => unswapped e
  | ECall f a => unswapped f && unswapped_args a
  | ECompose a b | EAnd a b | EOr a b | ESwapField a _ b _ => unswapped a && unswapped b
  | EPrim _ a | ELit _ a => unswapped_args a
  | ECompare a _ b r => unswapped a && unswapped b && unswapped_cmps r
  | EIf a b c | EArrayOp a b _ c => unswapped a && unswapped b && unswapped c
  end
with unswapped_args (a : args) : bool := match a with ANil => true | ACons _ e r => unswapped e && unswapped_args r end
with unswapped_cmps (c : cmps) : bool := match c with CLast _ e => unswapped e | CCons _ e r => unswapped e && unswapped_cmps r end.

(** Of an expression without side effects: may its evaluation read or allocate in the heap
    (operators, tests and literals may), may it create a closure? *)
Fixpoint heap_free (e : expr) : bool :=
  match e with
  | EConst _ | EQuit | EVar _ | EMethod _ _ | EClosure _ _ _ => true
  | ECall f a => heap_free f && heap_free_args a
  | ECompose a f => heap_free a && heap_free f
  | _ => false
  end
with heap_free_args (a : args) : bool := match a with ANil => true | ACons _ e r => heap_free e && heap_free_args r end.
Fixpoint closure_free (e : expr) : bool :=
  match e with
  | EClosure _ _ _ => false
  | EConst _ | EQuit | EVar _ => true
  | EMethod _ e | EAssign _ e => closure_free e
  | ECall f a => closure_free f && closure_free_args a
  | ECompose a b | EBinSwap _ a b | EAnd a b | EOr a b | ESwapField a _ b _ => closure_free a && closure_free b
  | EPrim _ a | ELit _ a => closure_free_args a
  | ECompare a _ b _ => false
  | EIf a b c | EArrayOp a b _ c => closure_free a && closure_free b && closure_free c
  end
with closure_free_args (a : args) : bool := match a with ANil => true | ACons _ e r => closure_free e && closure_free_args r end.

(** [light]: a constant other than a complex number, a variable, or a builtin applied to fewer
    such arguments than it needs. *)
Definition awaits (f : expr) (n : nat) : bool := match f with EConst (HNative b) => n <? native_min_nargs b | _ => false end.
Fixpoint light (e : expr) : bool :=
  match e with
  | EConst (HConst i) => match dec i with Some (VInt _) | Some (VStr _) => true | _ => false end
  | EConst HNil | EConst (HBool _) | EConst (HNative _) | EConst (HFun _) => true
  | EQuit | EVar _ | EMethod _ (EVar _) => true
  | ECall f a => awaits f (n_args a) && light_args a
  | ECompose a f => awaits f 1 && light a
  | _ => false
  end
with light_args (a : args) : bool := match a with ANil => true | ACons spread e r => negb spread && light e && light_args r end.
(** the number of arguments that are not [light] to which the function of a call is applied,
    also when it is applied in several steps: `f(a, b)(c)` *)
Fixpoint others (a : args) : nat := match a with ANil => 0 | ACons _ e r => (if light e then 0 else 1) + others r end.
Fixpoint heavy (e : expr) : nat :=
  match e with
  | ECall f a => heavy f + others a
  | ECompose a f => heavy f + (if light a then 0 else 1)
  | EIf _ a b => Nat.max (heavy a) (heavy b)
  | _ => 0
  end.
(** In every application at most one argument is not [light]; in every composition `a . f`, `a` or
    `f` is. *)
Fixpoint gentle (e : expr) : bool :=
  match e with
  | EConst _ | EQuit | EVar _ | EClosure _ _ _ => true
  | EMethod _ e | EAssign _ e => gentle e
  | ECall f a => (heavy e <=? 1) && gentle f && gentle_args a
  | ECompose a f => (heavy e <=? 1) && (light a || light f) && gentle a && gentle f
  | EBinSwap _ a b | EAnd a b | EOr a b | ESwapField a _ b _ => gentle a && gentle b
  | EPrim _ a | ELit _ a => gentle_args a
  | ECompare a _ b r => gentle a && gentle b && gentle_cmps r
  | EIf a b c | EArrayOp a b _ c => gentle a && gentle b && gentle c
  end
with gentle_args (a : args) : bool := match a with ANil => true | ACons _ e r => gentle e && gentle_args r end
with gentle_cmps (c : cmps) : bool := match c with CLast _ e => gentle e | CCons _ e r => gentle e && gentle_cmps r end.

(** Reorderings that leave the state exactly as it was: the two expressions are free of side
    effects and do not allocate in the same place, or one of them is a constant, a function
    without captures, or a partially applied builtin of such. *)
Definition careful (a b : expr) : bool :=
  if is_none (purity dec a) then is_strong (purity dec b) && heap_free b && closure_free b
  else if is_none (purity dec b) then is_strong (purity dec a) && heap_free a && closure_free a
  else (heap_free a || heap_free b) && (closure_free a || closure_free b).
End syntax.

(** somewhere in [e] there is an [EError], which is a compile error *)
Fixpoint has_error (e : expr) : bool :=
  match e with
  | EConst _ | EQuit | EVar _ | EClosure _ _ _ => false
  | EMethod _ e | EAssign _ e => has_error e
  | ECall f a => has_error f || has_error_args a
  | ECompose a b | EBinSwap _ a b | EAnd a b | EOr a b | ESwapField a _ b _ => has_error a || has_error b
  | EPrim PIndex ANil => true
  | EPrim _ a | ELit _ a => has_error_args a
  | ECompare a _ b r => has_error a || has_error b || has_error_cmps r
  | EIf a b c | EArrayOp a b _ c => has_error a || has_error b || has_error c
  end
with has_error_args (a : args) : bool := match a with ANil => false | ACons _ e r => has_error e || has_error_args r end
with has_error_cmps (c : cmps) : bool := match c with CLast _ e => has_error e | CCons _ e r => has_error e || has_error_cmps r end.

(** every expression of a program satisfies [Q] *)
Section exprs.
Context (Q : expr -> Prop).
Definition all_o (e : option expr) : Prop := match e with Some e => Q e | None => True end.
Fixpoint all_stmt (s : stmt) : Prop :=
  match s with
  | SExpr e | SLet e => Q e
  | SSemi | SLetNil | SFn _ _ | SStruct _ | SBreak | SContinue => True
  | SReturn e => all_o e
  | SIf c b el => Q c /\ all_stmts b /\ all_else el
  | SWhile c b el => Q c /\ all_stmts b /\ all_os el
  | SDo b c el => all_stmts b /\ all_o c /\ all_os el
  | SLoop b => all_stmts b
  | SFor _ e b el => Q e /\ all_stmts b /\ all_os el
  | SAssert e m => Q e /\ all_o m
  | SAssertCmp _ _ a b m => Q a /\ Q b /\ all_o m
  end
with all_stmts (b : stmts) : Prop := match b with BNil => True | BCons s r => all_stmt s /\ all_stmts r end
with all_else (e : else_) : Prop :=
  match e with ElNone => True | ElBlock b => all_stmts b | ElIf c b el => Q c /\ all_stmts b /\ all_else el end
with all_os (e : option_stmts) : Prop := match e with NoElse => True | Else b => all_stmts b end.
Definition all_fun (f : sfun) : Prop :=
  Forall Q (sf_defs f) /\ match sf_body f with BodyBlock b => all_stmts b | BodyExpr e => Q e end.
Definition all_program (p : program) : Prop := Forall all_fun (pr_funs p) /\ all_stmts (pr_main p).
End exprs.

(** The program runs to its end, without error and without `exit`, leaving the world [w']. *)
Definition completes (P : prims) (p : program) (w w' : W P) : Prop :=
  exists ls last s', runs P (fun i => nth_error (pr_funs p) i) (Frame [] []) (pr_main p) (start P w) (LangSpec.Ok P _ (ONorm ls last) s') /\ sworld P s' = w'.

(** The compiler accepts the program: no expression is an error. *)
Definition accepted (p : program) : Prop := all_program (fun e => has_error e = false) p.
