(** Dispatch of builtin functions: core/mod.rs:480-826, and the operator arms of
    `invoke_arg2` (core/mod.rs:951-989).

    [V] is the type of Cordy values.  An [action] is what a dispatcher decides to do;
    what the implementations then do is outside this file (the operators: Ops.v).
    Popping arguments from the stack is modelled by receiving them as a list; the
    stack effect of native calls is in Vm.v. *)
From Verif Require Import Base Native Value Err Ops.
Local Open Scope nat_scope.

(** core/mod.rs:486-490 PartialArgument *)
Inductive partial_arg (V : Type) := Arg2Par1 (a : V) | Arg3Par1 (a : V) | Arg3Par2 (a b : V).
Arguments Arg2Par1 {V}. Arguments Arg3Par1 {V}. Arguments Arg3Par2 {V}.

(** the values that can be called, by `f.ty()` *)
Inductive callee (V : Type) :=
| CNative (f : native) | CPartialNative (f : native) (p : partial_arg V)
| CFunction (v : V) | CClosure (v : V) | CPartialFunction (v : V) | CStructType (v : V) | CMemoized (v : V)
| CList (v : V) | CSlice (v : V) | CGetField (v : V)
| COther (v : V).
Arguments CNative {V}. Arguments CPartialNative {V}. Arguments CFunction {V}. Arguments CClosure {V}.
Arguments CPartialFunction {V}. Arguments CStructType {V}. Arguments CMemoized {V}. Arguments CList {V}.
Arguments CSlice {V}. Arguments CGetField {V}. Arguments COther {V}.

Inductive action (V : Type) :=
| Run (f : native) (args : list V)      (* the implementation of [f] on these arguments *)
| RunIter (f : native) (a : V)          (* the implementation of [f] on the elements of [a], or an error if [a] is not iterable *)
| ConstMinInt | ConstMaxInt             (* `min(int)`, `max(int)` *)
| Return (c : callee V)                 (* return this function value *)
| BadArgs (f : native) (n : nat)        (* IncorrectArgumentsNativeFunction *)
| BadArgsGetField (v : V) (n : nat)     (* IncorrectArgumentsGetField *)
| NotEvaluable (c : callee V)           (* ValueIsNotFunctionEvaluable *)
| UserCall (c : callee V) (args : list V)  (* the `vm.invoke` arms for user functions etc., vm/mod.rs:726-778, 799-862 *)
| Crash.                                (* panic! *)
Arguments Run {V}. Arguments RunIter {V}. Arguments ConstMinInt {V}. Arguments ConstMaxInt {V}. Arguments Return {V}.
Arguments BadArgs {V}. Arguments BadArgsGetField {V}. Arguments NotEvaluable {V}. Arguments UserCall {V}. Arguments Crash {V}.

Section Dispatch.
  Variable V : Type.
  Variable is_int_type : V -> bool.     (* the value is the builtin `int` *)

  (** core/mod.rs:827-846 *)
  Definition invoke_arg0 (f : native) : action V := if invoke_arg0_supported f then Run f [] else Crash.
  (** core/mod.rs:848-937; `min` and `max` treat the builtin `int` specially and
      otherwise run over the elements (lines 908-915) *)
  Definition invoke_arg1 (f : native) (a : V) : action V :=
    if invoke_arg1_supported f then
      match f with
      | NF_Min => if is_int_type a then ConstMinInt else RunIter f a
      | NF_Max => if is_int_type a then ConstMaxInt else RunIter f a
      | _ => Run f [a]
      end
    else Crash.
  (** core/mod.rs:939-1019 *)
  Definition invoke_arg2 (f : native) (a b : V) : action V := if invoke_arg2_supported f then Run f [a; b] else Crash.
  (** core/mod.rs:1021-1029 *)
  Definition invoke_arg3 (f : native) (a b c : V) : action V := if invoke_arg3_supported f then Run f [a; b; c] else Crash.
  (** core/mod.rs:1031-1061 on an argument vector, and on the elements of one value *)
  Definition invoke_var (f : native) (args : list V) : action V := if invoke_var_supported f then Run f args else Crash.
  Definition invoke_var_iter (f : native) (a : V) : action V := if invoke_var_supported f then RunIter f a else Crash.
  (** core/mod.rs:501-504 PartialArgument::to_value *)
  Definition to_partial (f : native) (p : partial_arg V) : action V := Return (CPartialNative f p).

  (** core/mod.rs:653-786 *)
  Definition invoke_stack (f : native) (args : list V) : action V :=
    let bad := BadArgs f (length args) in
    match native_arg f with
    | Arg0 => match args with [] => invoke_arg0 f | _ => bad end
    | Arg0To1 => match args with [] => invoke_arg0 f | [a] => invoke_arg1 f a | _ => bad end
    | Arg1 => match args with [] => Return (CNative f) | [a] => invoke_arg1 f a | _ => bad end
    | Arg1To2 => match args with [] => Return (CNative f) | [a] => invoke_arg1 f a | [a; b] => invoke_arg2 f a b | _ => bad end
    | Arg1To3 => match args with [] => Return (CNative f) | [a] => invoke_arg1 f a | [a; b] => invoke_arg2 f a b
                 | [a; b; c] => invoke_arg3 f a b c | _ => bad end
    | Arg2 => match args with [] => Return (CNative f) | [a] => to_partial f (Arg2Par1 a) | [a; b] => invoke_arg2 f a b | _ => bad end
    | Arg3 => match args with [] => Return (CNative f) | [a] => to_partial f (Arg3Par1 a) | [a; b] => to_partial f (Arg3Par2 a b)
              | [a; b; c] => invoke_arg3 f a b c | _ => bad end
    | Unique => match args with [] => invoke_arg0 f | [a] => invoke_arg1 f a | _ => invoke_var f args end
    | UniqueNonEmpty => match args with [] => bad | [a] => invoke_arg1 f a | _ => invoke_var f args end
    | Iter => match args with [] => invoke_arg0 f | [a] => invoke_var_iter f a | _ => invoke_var f args end
    | IterNonEmpty => match args with [] => bad | [a] => invoke_var_iter f a | _ => invoke_var f args end
    | Invalid => NotEvaluable (CNative f)
    end.

  (** core/mod.rs:790-825 *)
  Definition invoke_partial (f : native) (p : partial_arg V) (args : list V) : action V :=
    match p with
    | Arg2Par1 a1 => match args with
        | [] => to_partial f p | [a2] => invoke_arg2 f a1 a2 | _ => BadArgs f (1 + length args) end
    | Arg3Par1 a1 => match args with
        | [] => to_partial f p | [a2] => to_partial f (Arg3Par2 a1 a2) | [a2; a3] => invoke_arg3 f a1 a2 a3
        | _ => BadArgs f (1 + length args) end
    | Arg3Par2 a1 a2 => match args with
        | [] => to_partial f p | [a3] => invoke_arg3 f a1 a2 a3 | _ => BadArgs f (2 + length args) end
    end.

  (** vm/mod.rs:722-864 `invoke`, as a dispatcher *)
  Definition direct (c : callee V) (args : list V) : action V :=
    match c with
    | CNative f => invoke_stack f args
    | CPartialNative f p => invoke_partial f p args
    | CList _ | CSlice _ => if length args =? 1 then UserCall c args else NotEvaluable c
    | CGetField v => if length args =? 1 then UserCall c args else BadArgsGetField v (length args)
    | COther _ => NotEvaluable c
    | _ => UserCall c args
    end.

  (** core/mod.rs:556-584: InvokeArg0::from, then `invoke` *)
  Definition fast0 (c : callee V) : action V :=
    match c with
    | CFunction _ | CClosure _ | CPartialFunction _ | CStructType _ | CMemoized _ => direct c []
    | CNative f =>
        match native_arg f with
        | Arg0 | Arg0To1 | Unique | Iter => invoke_arg0 f
        | Arg1 | Arg1To2 | Arg1To3 | Arg2 | Arg3 => Return c
        | UniqueNonEmpty | IterNonEmpty => BadArgs f 0
        | Invalid => NotEvaluable c
        end
    | CPartialNative f p => Return c
    | _ => NotEvaluable c
    end.
  (** core/mod.rs:586-618: InvokeArg1 *)
  Definition fast1 (c : callee V) (a : V) : action V :=
    match c with
    | CFunction _ | CClosure _ | CPartialFunction _ | CList _ | CSlice _ | CStructType _ | CGetField _ | CMemoized _ => direct c [a]
    | CNative f =>
        match native_arg f with
        | Arg0To1 | Arg1 | Arg1To2 | Arg1To3 | Unique => invoke_arg1 f a
        | Iter | UniqueNonEmpty | IterNonEmpty => invoke_var_iter f a
        | Arg2 => to_partial f (Arg2Par1 a)
        | Arg3 => to_partial f (Arg3Par1 a)
        | Arg0 => BadArgs f 1
        | Invalid => NotEvaluable c
        end
    | CPartialNative f (Arg2Par1 x) => invoke_arg2 f x a
    | CPartialNative f (Arg3Par1 x) => to_partial f (Arg3Par2 x a)
    | CPartialNative f (Arg3Par2 x y) => invoke_arg3 f x y a
    | COther _ => NotEvaluable c
    end.
  (** core/mod.rs:620-648: InvokeArg2 *)
  Definition fast2 (c : callee V) (a b : V) : action V :=
    match c with
    | CFunction _ | CClosure _ | CPartialFunction _ | CList _ | CSlice _ | CStructType _ | CGetField _ | CMemoized _ => direct c [a; b]
    | CNative f =>
        match native_arg f with
        | Arg1To2 | Arg1To3 | Arg2 | Unique => invoke_arg2 f a b
        | Iter | UniqueNonEmpty | IterNonEmpty => invoke_var f [a; b]
        | Arg3 => to_partial f (Arg3Par2 a b)
        | Arg0 | Arg0To1 | Arg1 => BadArgs f 2
        | Invalid => NotEvaluable c
        end
    | CPartialNative f (Arg2Par1 _) => BadArgs f 3
    | CPartialNative f (Arg3Par2 _ _) => BadArgs f 3
    | CPartialNative f (Arg3Par1 x) => invoke_arg3 f x a b
    | COther _ => NotEvaluable c
    end.
End Dispatch.
Arguments invoke_arg0 {V}. Arguments invoke_arg1 {V}. Arguments invoke_arg2 {V}. Arguments invoke_arg3 {V}.
Arguments invoke_var {V}. Arguments invoke_var_iter {V}. Arguments to_partial {V}. Arguments invoke_stack {V}.
Arguments invoke_partial {V}. Arguments direct {V}. Arguments fast0 {V}. Arguments fast1 {V}. Arguments fast2 {V}.

(** core/mod.rs:951-989: the operator arms of `invoke_arg2` *)
Definition operator2 (to_str : value -> list Z) (fmt : list Z -> value -> result value) (f : native) (a1 a2 : value) : option (result value) :=
  let op := binary_op to_str fmt in
  match f with
  | NF_OperatorSub => Some (op BSub a1 a2)
  | NF_OperatorMul => Some (op BMul a1 a2)
  | NF_OperatorDiv => Some (op BDiv a1 a2)
  | NF_OperatorDivSwap => Some (op BDiv a2 a1)
  | NF_OperatorPow => Some (op BPow a1 a2)
  | NF_OperatorPowSwap => Some (op BPow a2 a1)
  | NF_OperatorMod => Some (op BMod a1 a2)
  | NF_OperatorModSwap => Some (op BMod a2 a1)
  | NF_OperatorIs => Some (op BIs a1 a2)
  | NF_OperatorIsSwap => Some (op BIs a2 a1)
  | NF_OperatorIsNot => Some (op BIsNot a1 a2)
  | NF_OperatorIsNotSwap => Some (op BIsNot a2 a1)
  | NF_OperatorIn => Some (op BIn a1 a2)
  | NF_OperatorInSwap => Some (op BIn a2 a1)
  | NF_OperatorNotIn => Some (op BNotIn a1 a2)
  | NF_OperatorNotInSwap => Some (op BNotIn a2 a1)
  | NF_OperatorAdd => Some (op BAdd a1 a2)
  | NF_OperatorAddSwap => Some (op BAdd a2 a1)
  | NF_OperatorLeftShift => Some (op BLeftShift a1 a2)
  | NF_OperatorLeftShiftSwap => Some (op BLeftShift a2 a1)
  | NF_OperatorRightShift => Some (op BRightShift a1 a2)
  | NF_OperatorRightShiftSwap => Some (op BRightShift a2 a1)
  | NF_OperatorBitwiseAnd => Some (op BAnd a1 a2)
  | NF_OperatorBitwiseOr => Some (op BOr a1 a2)
  | NF_OperatorBitwiseXor => Some (op BXor a1 a2)
  | NF_OperatorLessThan => Some (op BLessThan a1 a2)
  | NF_OperatorLessThanSwap => Some (op BLessThan a2 a1)
  | NF_OperatorLessThanEqual => Some (op BLessThanEqual a1 a2)
  | NF_OperatorLessThanEqualSwap => Some (op BLessThanEqual a2 a1)
  | NF_OperatorGreaterThan => Some (op BGreaterThan a1 a2)
  | NF_OperatorGreaterThanSwap => Some (op BGreaterThan a2 a1)
  | NF_OperatorGreaterThanEqual => Some (op BGreaterThanEqual a1 a2)
  | NF_OperatorGreaterThanEqualSwap => Some (op BGreaterThanEqual a2 a1)
  | NF_OperatorEqual => Some (op BEqual a1 a2)
  | NF_OperatorNotEqual => Some (op BNotEqual a1 a2)
  | _ => None
  end.
(** the operator arms of `invoke_arg1`: core/mod.rs:885-887 *)
Definition operator1 (f : native) (a : value) : option (result value) :=
  match f with
  | NF_OperatorSub => Some (unary_op UNeg a)
  | NF_OperatorUnaryNot => Some (unary_op UNot a)
  | NF_OperatorUnaryLogicalNot => Some (unary_op ULogicalNot a)
  | _ => None
  end.

(** The operator symbols of the source language and the builtin each names:
    parser/mod.rs:1383-1418 parse_binary_operator_left (a section `(op x)`) and
    parser/mod.rs:1420-1456 parse_binary_operator_right (a section `(x op)`); the two
    tables are the same. `-` is in neither. *)
Definition operator_native (o : binop) : option native :=
  match o with
  | BMul => Some NF_OperatorMul | BDiv => Some NF_OperatorDiv | BPow => Some NF_OperatorPow | BMod => Some NF_OperatorMod
  | BIn => Some NF_OperatorIn | BNotIn => Some NF_OperatorNotIn | BIs => Some NF_OperatorIs | BIsNot => Some NF_OperatorIsNot
  | BAdd => Some NF_OperatorAdd | BLeftShift => Some NF_OperatorLeftShift | BRightShift => Some NF_OperatorRightShift
  | BAnd => Some NF_OperatorBitwiseAnd | BOr => Some NF_OperatorBitwiseOr | BXor => Some NF_OperatorBitwiseXor
  | BLessThan => Some NF_OperatorLessThan | BLessThanEqual => Some NF_OperatorLessThanEqual
  | BGreaterThan => Some NF_OperatorGreaterThan | BGreaterThanEqual => Some NF_OperatorGreaterThanEqual
  | BEqual => Some NF_OperatorEqual | BNotEqual => Some NF_OperatorNotEqual
  | _ => None
  end.
(** parser/mod.rs:1338-1350: `(op x)` is a call of the swapped builtin on [x] *)
Definition section_right (f : native) (x : value) (int_type : value -> bool) : action value :=
  direct int_type (CNative (native_swap f)) [x].
(** parser/mod.rs:1356-1365: `(x op)` is a call of the builtin on [x] *)
Definition section_left (f : native) (x : value) (int_type : value -> bool) : action value :=
  direct int_type (CNative f) [x].
