(** Specification vocabulary for C33, C34. *)
From Verif Require Import Base Native Value Err Ops Disp.
Local Open Scope nat_scope.

(** what the documentation of the builtins promises (core/mod.rs:437-450, docs): for a
    builtin and a number of arguments *)
Inductive arity := NeedsMore | Accepts | AcceptsElements | TooManyOrFew | Never.
Definition arity_of (a : argument) (n : nat) : arity :=
  let between lo hi := if n <? lo then NeedsMore else if n <=? hi then Accepts else TooManyOrFew in
  match a with
  | Arg0 => between 0 0 | Arg0To1 => between 0 1 | Arg1 => between 1 1 | Arg1To2 => between 1 2 | Arg1To3 => between 1 3
  | Arg2 => between 2 2 | Arg3 => between 3 3
  | Unique => Accepts
  | UniqueNonEmpty => if n =? 0 then TooManyOrFew else if n =? 1 then AcceptsElements else Accepts
  | Iter => if n =? 1 then AcceptsElements else Accepts
  | IterNonEmpty => if n =? 0 then TooManyOrFew else if n =? 1 then AcceptsElements else Accepts
  | Invalid => Never
  end.

(** the arguments a partial builtin holds, and which partial builtins exist *)
Definition held {V} (p : partial_arg V) : list V :=
  match p with Arg2Par1 a => [a] | Arg3Par1 a => [a] | Arg3Par2 a b => [a; b] end.
Definition holds_for {V} (f : native) (p : partial_arg V) : Prop :=
  match p with Arg2Par1 _ => native_arg f = Arg2 | Arg3Par1 _ | Arg3Par2 _ _ => native_arg f = Arg3 end.
Definition callable_value {V} (c : callee V) : Prop :=
  match c with CPartialNative f p => holds_for f p | _ => True end.

(** a function value standing for [f] with [args] already given *)
Definition waiting {V} (f : native) (args : list V) (c : callee V) : Prop :=
  (args = [] /\ c = CNative f) \/ (args <> [] /\ exists p, c = CPartialNative f p /\ held p = args /\ holds_for f p).

(** two results are the same answer: equal values, or an error on both sides *)
Definition same_answer (x y : result value) : Prop :=
  match x, y with
  | Ok a, Ok b => value_eq a b = true
  | Err _, Err _ => True
  | _, _ => False
  end.
