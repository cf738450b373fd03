(** The virtual machine: vm/mod.rs (the interpreter loop `run`, 233-670; stores 673-716;
    `invoke`, `invoke_and_spin`, `call_function` 727-880; `splice`/`insert` 1031-1047) and
    the calling convention of vm/value/func.rs:27-95, 119-160.

    What is concrete: instruction pointer, value stack, call frames, globals count,
    literal stack, unroll stack, user functions, closures with open and closed upvalues,
    partial application of user functions, jumps.
    What is abstract (record [prims]): all other values ([HObj], [HNative], [HConst]) and
    the operations on them, acting on a world [W] (heap of collections, output, ...).
    A builtin or operator is an interaction tree: it may call back into the machine.
    Not modelled: ExecPattern (see Pattern.v), CallNative (FFI), u32 truncation of counts,
    stack overflow of the host. *)
From Verif Require Import Base Native Err.
Local Open Scope nat_scope.

Inductive cmpop := CLt | CGt | CLe | CGe | CEq | CNe.          (* vm/operator.rs:28-32 *)
(** vm/operator.rs `From<CompareOp> for BinaryOp` *)
Definition cmp_binop (c : cmpop) : binop :=
  match c with
  | CLt => BLessThan | CGt => BGreaterThan | CLe => BLessThanEqual
  | CGe => BGreaterThanEqual | CEq => BEqual | CNe => BNotEqual
  end.
Inductive littype := LitList | LitVector | LitSet | LitDict.   (* vm/value/mod.rs:1051 *)

(** Values as the machine sees them.  [HClosure f c]: function [f] with environment number [c]. *)
Inductive hval :=
| HNil
| HBool (b : bool)
| HFun (f : nat)
| HClosure (f : nat) (c : nat)
| HPartial (f : hval) (args : list hval)
| HNative (n : native)
| HField (i : nat)
| HConst (i : nat)           (* an int, complex, string or struct type constant *)
| HObj (o : nat).            (* anything else *)

(** Operations on values: one result, popping a fixed number of operands. *)
Inductive prim :=
| PUnary (o : unop) | PBinary (o : binop)
| PIndex | PSlice | PSliceStep | PMkSlice | PMkSliceStep
| PGetField (i : nat) | PSetField (i : nat) | PStoreArray | PInitIter.

Inductive verr (E : Type) :=
| XExit | XYield
| XUndeclared (i : nat)               (* ValueErrorVariableNotDeclaredYet *)
| XArgs (f : nat) (n : nat)           (* IncorrectArgumentsUserFunction *)
| XAssert (v msg : hval)              (* RuntimeAssertFailed *)
| XPrim (e : E).
Arguments XExit {E}. Arguments XYield {E}. Arguments XUndeclared {E} i.
Arguments XArgs {E} f n. Arguments XAssert {E} v msg. Arguments XPrim {E} e.

(** A builtin in progress: finished, failed, or calling [f(args)] and continuing. *)
Inductive tree (W E : Type) :=
| TRet (w : W) (v : hval)
| TErr (w : W) (e : E)
| TCall (w : W) (f : hval) (args : list hval) (k : W -> hval -> tree W E).
Arguments TRet {W E}. Arguments TErr {W E}. Arguments TCall {W E}.

Record prims := Prims {
  W : Type;                                              (* world *)
  L : Type;                                              (* literal under construction *)
  E : Type;                                              (* errors *)
  p_bool : W -> hval -> bool;                            (* to_bool, mod.rs:309-324 *)
  p_compare : W -> cmpop -> hval -> hval -> bool;        (* CompareOp::apply *)
  p_compare_msg : W -> cmpop -> hval -> hval -> W * hval;(* message of AssertCompare, vm/mod.rs:652 *)
  p_op : prim -> list hval -> W -> tree W E;
  p_call : hval -> list hval -> W -> tree W E;           (* calling anything but a user function *)
  p_vector : list hval -> W -> W * hval;                 (* to_vector *)
  p_unroll : hval -> W -> W * (E + list hval);           (* to_iter and collect *)
  p_next : hval -> W -> W * option hval;                 (* Iterable::next *)
  l_new : littype -> nat -> L;
  l_acc : L -> list hval -> W -> L;
  l_unroll : L -> hval -> W -> W * (E + L);
  l_end : L -> W -> W * hval
}.

(** vm/opcode.rs:12-145 *)
Inductive op :=
| OJumpIfFalse (z : Z) | OJumpIfFalsePop (z : Z) | OJumpIfTrue (z : Z) | OJumpIfTruePop (z : Z) | OJump (z : Z)
| OReturn
| OPop | OPopN (n : nat) | OSwap
| OPushLocal (i : nat) | OStoreLocal (i : nat) (pop : bool)
| OPushGlobal (i : nat) | OStoreGlobal (i : nat) (pop : bool)
| OPushUp (i : nat) | OStoreUp (i : nat)
| OInitGlobal
| OClosure | OCloseLocal (i : nat) | OCloseUp (i : nat) | OLift (i : nat)
| OTestIter (z : Z)
| OConst (v : hval)                       (* Nil, True, False, Constant, NativeFunction, GetFieldFunction *)
| OLitBegin (t : littype) (n : nat) | OLitAcc (n : nat) | OLitUnroll | OLitEnd
| OCall (n : nat) (unroll : bool)
| OUnroll (first : bool)
| OPrim (p : prim)                        (* Unary, Binary, OpIndex, OpSlice.., Slice.., GetField, SetField, StoreArray, InitIterable *)
| OPeek (p : prim)                        (* OpIndexPeek, GetFieldPeek: operands are left on the stack *)
| OGetMethod (f : nat)
| OCompare (c : cmpop) (z : Z)
| OExit | OYield
| OAssertTest (z : Z) | OAssertCompare (c : cmpop) (z : Z) | OAssertFailed.

(** operands popped by each primitive (the arms of vm/mod.rs:380-640) *)
Definition prim_arity (p : prim) : nat :=
  match p with
  | PUnary _ | PGetField _ | PInitIter => 1
  | PBinary _ | PIndex | PMkSlice | PSetField _ => 2
  | PSlice | PMkSliceStep | PStoreArray => 3
  | PSliceStep => 4
  end.

(** vm/value/func.rs:27-48, the fields that matter for calling *)
Record func := Func { fn_head : nat; fn_args : nat; fn_defaults : list nat; fn_variadic : bool }.
(** func.rs:55-70 *)
Definition min_args (f : func) : nat := fn_args f - length (fn_defaults f).
Definition max_args (f : func) : nat := fn_args f.
Definition in_range (f : func) (n : nat) : bool := (min_args f <=? n) && (fn_variadic f || (n <=? max_args f)).
(** func.rs:73-79 *)
Definition num_var_args (f : func) (n : nat) : option nat :=
  if fn_variadic f && (max_args f <=? n) then Some (n + 1 - max_args f) else None.
(** func.rs:84-92; [None]: out of bounds panic *)
Definition jump_offset (f : func) (n : nat) : option nat :=
  if n =? min_args f then Some (fn_head f)
  else if fn_variadic f && (max_args f <=? n) then
    match fn_defaults f with [] => None | _ => Some (fn_head f + last (fn_defaults f) 0) end
  else match nth_error (fn_defaults f) (n - min_args f - 1) with Some d => Some (fn_head f + d) | None => None end.

(** replace position i (out of range: unchanged) *)
Fixpoint upd {A} (l : list A) (i : nat) (x : A) : list A :=
  match l, i with
  | [], _ => []
  | _ :: r, O => x :: r
  | y :: r, S i' => y :: upd r i' x
  end.
(** `Vec::splice(len-n..)`: the last [n] elements, in order *)
Definition below {A} (l : list A) (n : nat) : list A := firstn (length l - n) l.
Definition top {A} (l : list A) (n : nat) : list A := skipn (length l - n) l.

(** func.rs `enum UpValue` *)
Inductive cell := Open (slot : nat) | Closed (v : hval).

Fixpoint assoc (k : nat) (l : list (nat * nat)) : option nat :=
  match l with [] => None | (a, b) :: r => if a =? k then Some b else assoc k r end.
Definition unassoc (k : nat) (l : list (nat * nat)) : list (nat * nat) := filter (fun p => negb (fst p =? k)) l.

Section vm.
Context (P : prims).

(** vm/mod.rs:38-90 struct VirtualMachine *)
Record vm := Vm {
  ip : nat;
  stack : list hval;                 (* bottom first *)
  frames : list (nat * nat);         (* top first: return_ip, frame_pointer *)
  lits : list (L P);                 (* top first *)
  unrolls : list Z;                  (* top first *)
  gcount : nat;
  opens : list (nat * nat);          (* open_upvalues: stack slot -> cell *)
  cells : list cell;                 (* all Rc<Cell<UpValue>> ever made *)
  envs : list (list nat);            (* environments of all closures ever made, as cells *)
  world : W P
}.
Definition set_ip x m := Vm x (stack m) (frames m) (lits m) (unrolls m) (gcount m) (opens m) (cells m) (envs m) (world m).
Definition set_stack x m := Vm (ip m) x (frames m) (lits m) (unrolls m) (gcount m) (opens m) (cells m) (envs m) (world m).
Definition set_frames x m := Vm (ip m) (stack m) x (lits m) (unrolls m) (gcount m) (opens m) (cells m) (envs m) (world m).
Definition set_lits x m := Vm (ip m) (stack m) (frames m) x (unrolls m) (gcount m) (opens m) (cells m) (envs m) (world m).
Definition set_unrolls x m := Vm (ip m) (stack m) (frames m) (lits m) x (gcount m) (opens m) (cells m) (envs m) (world m).
Definition set_gcount x m := Vm (ip m) (stack m) (frames m) (lits m) (unrolls m) x (opens m) (cells m) (envs m) (world m).
Definition set_opens x m := Vm (ip m) (stack m) (frames m) (lits m) (unrolls m) (gcount m) x (cells m) (envs m) (world m).
Definition set_cells x m := Vm (ip m) (stack m) (frames m) (lits m) (unrolls m) (gcount m) (opens m) x (envs m) (world m).
Definition set_envs x m := Vm (ip m) (stack m) (frames m) (lits m) (unrolls m) (gcount m) (opens m) (cells m) x (world m).
Definition set_world x m := Vm (ip m) (stack m) (frames m) (lits m) (unrolls m) (gcount m) (opens m) (cells m) (envs m) x.

Definition push (v : hval) (m : vm) : vm := set_stack (stack m ++ [v]) m.
Definition fp (m : vm) : nat := match frames m with (_, p) :: _ => p | [] => 0 end.
(** vm/mod.rs `OffsetAdd`: util.rs add_offset *)
Definition jump (z : Z) (m : vm) : vm := set_ip (Z.to_nat (Z.of_nat (ip m) + z)) m.

(** What one instruction does.  [Stuck]: the Rust code would panic (index out of
    bounds, unwrap on None) or is undefined. *)
Inductive effect :=
| Go (m : vm)
| Fail (e : verr (E P)) (w : W P)
| Ret (m : vm)                               (* a frame was dropped *)
| Run (t : tree (W P) (E P)) (m : vm)        (* run [t], push its result *)
| Invoke (n : nat) (m : vm)
| Stuck.

Definition with_top (m : vm) (k : hval -> effect) : effect :=
  match rev (stack m) with v :: _ => k v | [] => Stuck end.
(** pop one value *)
Definition pop1 (m : vm) (k : hval -> vm -> effect) : effect :=
  match rev (stack m) with v :: r => k v (set_stack (rev r) m) | [] => Stuck end.

(** vm/mod.rs:673-703 store_local, store_global, store_upvalue *)
Definition store_local (i : nat) (v : hval) (m : vm) : effect :=
  let s := fp m + i in
  if s <? length (stack m) then Go (set_stack (upd (stack m) s v) m) else Stuck.
Definition store_global (i : nat) (v : hval) (m : vm) : effect :=
  if i <? gcount m then
    (if i <? length (stack m) then Go (set_stack (upd (stack m) i v) m) else Stuck)
  else Fail (XUndeclared i) (world m).
(** the cell of upvalue [i] of the running closure: stack[fp - 1].as_closure().get(i) *)
Definition up_cell (i : nat) (m : vm) : option nat :=
  match fp m with
  | O => None
  | S b =>
      match nth_error (stack m) b with
      | Some (HClosure _ c) => match nth_error (envs m) c with Some e => nth_error e i | None => None end
      | _ => None
      end
  end.
Definition store_up (i : nat) (v : hval) (m : vm) : effect :=
  match up_cell i m with
  | None => Stuck
  | Some k =>
      match nth_error (cells m) k with
      | Some (Open s) => if s <? length (stack m) then Go (set_stack (upd (stack m) s v) m) else Stuck
      | Some (Closed _) => Go (set_cells (upd (cells m) k (Closed v)) m)
      | None => Stuck
      end
  end.

(** One instruction of `run`, vm/mod.rs:256-660; [m] already has ip + 1. *)
Definition step (o : op) (m : vm) : effect :=
  match o with
  | OJumpIfFalse z => with_top m (fun v => Go (if p_bool P (world m) v then m else jump z m))
  | OJumpIfTrue z => with_top m (fun v => Go (if p_bool P (world m) v then jump z m else m))
  | OJumpIfFalsePop z => pop1 m (fun v m => Go (if p_bool P (world m) v then m else jump z m))
  | OJumpIfTruePop z => pop1 m (fun v m => Go (if p_bool P (world m) v then jump z m else m))
  | OJump z => Go (jump z m)
  | OReturn =>
      match frames m with
      | [] => Stuck
      | (ret, p) :: fr =>
          (* stack.swap_remove(fp - 1); stack.truncate(fp) *)
          match p, rev (stack m) with
          | S b, v :: _ =>
              if b <? length (stack m) - 1
              then Ret (set_ip ret (set_frames fr (set_stack (firstn b (stack m) ++ [v]) m)))
              else Stuck
          | _, _ => Stuck
          end
      end
  | OPop => pop1 m (fun _ m => Go m)
  | OPopN n => if n <=? length (stack m) then Go (set_stack (below (stack m) n) m) else Stuck
  | OSwap => pop1 m (fun a m => pop1 m (fun b m => Go (push b (push a m))))
  | OPushLocal i => match nth_error (stack m) (fp m + i) with Some v => Go (push v m) | None => Stuck end
  | OStoreLocal i pop => if pop then pop1 m (fun v m => store_local i v m) else with_top m (fun v => store_local i v m)
  | OPushGlobal i =>
      if i <? gcount m
      then match nth_error (stack m) i with Some v => Go (push v m) | None => Stuck end
      else Fail (XUndeclared i) (world m)
  | OStoreGlobal i pop => if pop then pop1 m (fun v m => store_global i v m) else with_top m (fun v => store_global i v m)
  | OPushUp i =>
      match up_cell i m with
      | None => Stuck
      | Some k =>
          match nth_error (cells m) k with
          | Some (Open s) => match nth_error (stack m) s with Some v => Go (push v m) | None => Stuck end
          | Some (Closed v) => Go (push v m)
          | None => Stuck
          end
      end
  | OStoreUp i => with_top m (fun v => store_up i v m)
  | OInitGlobal => Go (set_gcount (S (gcount m)) m)
  | OClosure =>
      pop1 m (fun v m => match v with
        | HFun f => Go (push (HClosure f (length (envs m))) (set_envs (envs m ++ [[]]) m))
        | _ => Stuck end)
  | OCloseLocal i =>
      let s := fp m + i in
      with_top m (fun v => match v with
        | HClosure _ c =>
            match nth_error (envs m) c with
            | None => Stuck
            | Some e =>
                match assoc s (opens m) with
                | Some k => Go (set_envs (upd (envs m) c (e ++ [k])) m)
                | None =>
                    let k := length (cells m) in
                    Go (set_envs (upd (envs m) c (e ++ [k]))
                        (set_cells (cells m ++ [Open s]) (set_opens ((s, k) :: opens m) m)))
                end
            end
        | _ => Stuck end)
  | OCloseUp i =>
      with_top m (fun v => match v, up_cell i m with
        | HClosure _ c, Some k =>
            match nth_error (envs m) c with
            | None => Stuck
            | Some e => Go (set_envs (upd (envs m) c (e ++ [k])) m)
            end
        | _, _ => Stuck end)
  | OLift i =>
      let s := fp m + i in
      match assoc s (opens m) with
      | None => Go m
      | Some k =>
          match nth_error (stack m) s, nth_error (cells m) k with
          | Some v, Some (Open _) => Go (set_cells (upd (cells m) k (Closed v)) (set_opens (unassoc s (opens m)) m))
          | _, _ => Stuck
          end
      end
  | OTestIter z =>
      with_top m (fun it =>
        let '(w, o) := p_next P it (world m) in
        match o with
        | Some v => Go (push v (set_world w m))
        | None => Go (jump z (set_world w m))
        end)
  | OConst v => Go (push v m)
  | OLitBegin t n => Go (set_lits (l_new P t n :: lits m) m)
  | OLitAcc n =>
      match lits m with
      | l :: r => if n <=? length (stack m)
                  then Go (set_lits (l_acc P l (top (stack m) n) (world m) :: r) (set_stack (below (stack m) n) m))
                  else Stuck
      | [] => Stuck
      end
  | OLitUnroll =>
      pop1 m (fun v m =>
        match lits m with
        | l :: r =>
            let '(w, x) := l_unroll P l v (world m) in
            match x with
            | inl e => Fail (XPrim e) w
            | inr l' => Go (set_lits (l' :: r) (set_world w m))
            end
        | [] => Stuck
        end)
  | OLitEnd =>
      match lits m with
      | l :: r => let '(w, v) := l_end P l (world m) in Go (push v (set_lits r (set_world w m)))
      | [] => Stuck
      end
  | OUnroll first =>
      let m := if first then set_unrolls (0%Z :: unrolls m) m else m in
      pop1 m (fun v m =>
        let '(w, x) := p_unroll P v (world m) in
        match x with
        | inl e => Fail (XPrim e) w
        | inr l =>
            match unrolls m with
            | u :: r => Go (set_unrolls ((u + (Z.of_nat (length l) - 1))%Z :: r)
                           (set_stack (stack m ++ l) (set_world w m)))
            | [] => Stuck
            end
        end)
  | OCall n un =>
      if un then
        match unrolls m with
        | u :: r => Invoke (Z.to_nat (Z.of_nat n + u)) (set_unrolls r m)
        | [] => Stuck
        end
      else Invoke n m
  | OPrim p =>
      let n := prim_arity p in
      if n <=? length (stack m)
      then Run (p_op P p (top (stack m) n) (world m)) (set_stack (below (stack m) n) m)
      else Stuck
  | OPeek p =>
      let n := prim_arity p in
      if n <=? length (stack m) then Run (p_op P p (top (stack m) n) (world m)) m else Stuck
  | OGetMethod f => pop1 m (fun v m => Go (push (HPartial (HFun f) [v]) m))
  | OCompare c z =>
      pop1 m (fun rhs m => pop1 m (fun lhs m =>
        if p_compare P (world m) c lhs rhs then Go (push rhs m) else Go (jump z (push (HBool false) m))))
  | OExit => Fail XExit (world m)
  | OYield => Fail XYield (world m)
  | OAssertTest z => pop1 m (fun v m => if p_bool P (world m) v then Go (jump z m) else Go (push HNil m))
  | OAssertCompare c z =>
      pop1 m (fun rhs m => pop1 m (fun lhs m =>
        if p_compare P (world m) c lhs rhs then Go (jump z m)
        else let '(w, msg) := p_compare_msg P (world m) c lhs rhs in Go (push msg (set_world w m))))
  | OAssertFailed => pop1 m (fun ret m => pop1 m (fun msg m => Fail (XAssert ret msg) (world m)))
  end.

(** A compiled program: the code, the function table.  [stp] is [step] for the real machine;
    it is a parameter so that proofs can use a machine with extra checks. *)
Context (code : list op) (funs : nat -> option func) (stp : op -> vm -> effect).

(** vm/mod.rs:867-880 *)
Definition call_function (head nargs : nat) (va : option nat) (m : vm) : vm :=
  let m1 := set_ip head (set_frames ((ip m, length (stack m) - nargs) :: frames m) m) in
  match va with
  | None => m1
  | Some k =>
      let '(w, v) := p_vector P (top (stack m1) k) (world m1) in
      push v (set_world w (set_stack (below (stack m1) k) m1))
  end.

(** vm/value/func.rs as_function_or_closure *)
Definition fun_of (v : hval) : option (nat * func) :=
  match v with
  | HFun f | HClosure f _ => match funs f with Some x => Some (f, x) | None => None end
  | _ => None
  end.

Inductive vres :=
| VDone (m : vm)                              (* the frame `run` was started for has returned *)
| VErr (e : verr (E P)) (w : W P)
| VStuck.
(** outcome of invoke (FunctionType::Native: finished, result on the stack; ::User: frame pushed) *)
Inductive ires := INative (m : vm) | IUser (m : vm) | IErr (e : verr (E P)) (w : W P) | IStuck.
Inductive tres := TVal (m : vm) (v : hval) | TFail (e : verr (E P)) (w : W P) | TStuck.

(** vm/mod.rs:727-864 `invoke`; the stack is [.., f, arg1, .., argk].  Either done at once, or a
    builtin is run.  Builtins run with [f] (or the placeholder nil) still below them
    (core/mod.rs:525-600, vm/mod.rs:775-797). *)
Inductive called := CallDone (r : ires) | CallBuiltin (t : tree (W P) (E P)) (m : vm).
Definition call_of (k : nat) (m : vm) : called :=
  if k <? length (stack m) then
    let i := length (stack m) - 1 - k in
    let args := top (stack m) k in
    match nth_error (stack m) i with
    | None => CallDone IStuck
    | Some (HFun _ as fv) | Some (HClosure _ _ as fv) =>
        match fun_of fv with
        | None => CallDone IStuck
        | Some (f, fn) =>
            if in_range fn k then
              match jump_offset fn k with
              | Some h => CallDone (IUser (call_function h k (num_var_args fn k) m))
              | None => CallDone IStuck
              end
            else if k <? min_args fn then
              match k with
              | O => CallDone (INative m)
              | _ => CallDone (INative (set_stack (below (stack m) (S k) ++ [HPartial fv args]) m))
              end
            else CallDone (IErr (XArgs f k) (world m))
        end
    | Some (HPartial ((HFun _ | HClosure _ _) as fv) pargs) =>
        match fun_of fv with
        | None => CallDone IStuck
        | Some (f, fn) =>
            let total := length pargs + k in
            if total <? min_args fn then
              CallDone (INative (set_stack (below (stack m) (S k) ++ [HPartial fv (pargs ++ args)]) m))
            else if in_range fn total then
              match jump_offset fn total with
              | Some h =>
                  (* N.B. num_var_args is given nargs, not the total: vm/mod.rs:768 *)
                  CallDone (IUser (call_function h total (num_var_args fn k)
                    (set_stack (below (stack m) (S k) ++ [fv] ++ pargs ++ args) m)))
              | None => CallDone IStuck
              end
            else CallDone (IErr (XArgs f total) (world m))
        end
    | Some fv => CallBuiltin (p_call P fv args (world m)) (set_stack (below (stack m) k) m)
    end
  else CallDone IStuck.

(** `run`, `invoke` and the builtins calling back, with [n] bounding the recursion.
    [drop] is call_stack.len() - 1 at the start of `run` (vm/mod.rs:235). *)
Fixpoint run (n : nat) (drop : nat) (m : vm) {struct n} : option vres :=
  match n with
  | O => None
  | S n =>
      match nth_error code (ip m) with
      | None => Some VStuck
      | Some o =>
          match stp o (set_ip (S (ip m)) m) with
          | Go m' => run n drop m'
          | Fail e w => Some (VErr e w)
          | Ret m' => if length (frames m') =? drop then Some (VDone m') else run n drop m'
          | Run t m' =>
              match run_tree n t m' with
              | None => None
              | Some (TVal m'' v) => run n drop (push v m'')
              | Some (TFail e w) => Some (VErr e w)
              | Some TStuck => Some VStuck
              end
          | Invoke k m' =>
              match invoke n k m' with
              | None => None
              | Some (INative m'') | Some (IUser m'') => run n drop m''
              | Some (IErr e w) => Some (VErr e w)
              | Some IStuck => Some VStuck
              end
          | Stuck => Some VStuck
          end
      end
  end
with invoke (n : nat) (k : nat) (m : vm) {struct n} : option ires :=
  match n with
  | O => None
  | S n =>
      match call_of k m with
      | CallDone r => Some r
      | CallBuiltin t m1 =>
          match run_tree n t m1 with
          | None => None
          | Some (TVal m' v) => Some (INative (set_stack (below (stack m') 1 ++ [v]) m'))
          | Some (TFail e w) => Some (IErr e w)
          | Some TStuck => Some IStuck
          end
      end
  end
(** invoke_func / invoke_and_spin: vm/mod.rs:714-721, 905-929 *)
with run_tree (n : nat) (t : tree (W P) (E P)) (m : vm) {struct n} : option tres :=
  match n with
  | O => None
  | S n =>
      match t with
      | TRet w v => Some (TVal (set_world w m) v)
      | TErr w e => Some (TFail (XPrim e) w)
      | TCall w f args k =>
          let m1 := set_stack (stack m ++ f :: args) (set_world w m) in
          match invoke n (length args) m1 with
          | None => None
          | Some (IErr e w) => Some (TFail e w)
          | Some IStuck => Some TStuck
          | Some (INative m2) =>
              match rev (stack m2) with
              | v :: r => run_tree n (k (world m2) v) (set_stack (rev r) m2)
              | [] => Some TStuck
              end
          | Some (IUser m2) =>
              match run n (length (frames m2) - 1) m2 with
              | None => None
              | Some (VDone m3) =>
                  match rev (stack m3) with
                  | v :: r => run_tree n (k (world m3) v) (set_stack (rev r) m3)
                  | [] => Some TStuck
                  end
              | Some (VErr e w) => Some (TFail e w)
              | Some VStuck => Some TStuck
              end
          end
      end
  end.

(** vm/mod.rs:173-190 `VirtualMachine::new` *)
Definition vm_init (w : W P) : vm := Vm 0 [] [(0, 0)] [] [] 0 [] [] [] w.

End vm.
