(** Results: vm/error.rs:9-89.  [Panic] is a Rust panic (a crash of the interpreter,
    not a Cordy error).  Error payloads are kept where a property mentions them. *)
From Verif Require Import Base Native Value.
Local Open Scope Z_scope.

Inductive unop := UNeg | UNot | ULogicalNot.   (* vm/operator.rs:16-18 *)

Inductive error :=
| RuntimeExit | RuntimeYield | RuntimeAssertFailed (a b : value)
| ValueIsNotFunctionEvaluable (v : value)
| IncorrectArgumentsUserFunction (f : Z) (n : Z)
| IncorrectArgumentsNativeFunction (f : native) (n : Z)
| IncorrectArgumentsGetField (n : Z)
| IncorrectArgumentsStruct (t : Z) (n : Z)
| ValueErrorIndexOutOfBounds (i : Z) (len : Z)
| ValueErrorStepCannotBeZero
| ValueErrorValueWouldBeTooLarge
| ValueErrorVariableNotDeclaredYet (i : Z)
| ValueErrorValueMustBeNonNegative (v : value)
| ValueErrorArgMustBeNonNegativeInt (f : native)
| ValueErrorBinaryOpMustNotBeNegative (v : value) (o : binop) (i : Z)
| ValueErrorPowerByNegative (i : Z)
| ValueErrorValueMustBePositive (i : Z)
| ValueErrorDivideByZero | ValueErrorModuloByZero
| ValueErrorArgMustBeNonEmpty (f : native)
| ValueErrorCannotConvertStringToIntBadParse (v : value)
| ValueErrorCannotConvertRationalToIntTooLarge (v : value)
| ValueErrorCannotConvertRationalToIntNotAnInteger (v : value)
| ValueErrorCannotUnpackLengthMustBeGreaterThan (expected : Z) (actual : Z) (v : value)
| ValueErrorCannotUnpackLengthMustBeEqual (expected : Z) (actual : Z) (v : value)
| ValueErrorCannotCollectIntoDict (v : value)
| ValueErrorKeyNotPresent (v : value)
| ValueErrorInvalidCharacterOrdinal (i : Z)
| ValueErrorInvalidFormatCharacter (c : option Z)
| ValueErrorNotAllArgumentsUsedInStringFormatting (v : value)
| ValueErrorMissingRequiredArgumentInStringFormatting
| ValueErrorRecursiveHash
| TypeErrorUnaryOp (o : unop) (v : value)
| TypeErrorBinaryOp (o : binop) (a b : value)
| TypeErrorBinaryIs (a b : value)
| TypeErrorCannotConvertToInt (v : value)
| TypeErrorCannotConvertToRational (v : value)
| TypeErrorFieldNotPresentOnValue (v : value) (field : Z) (access : bool)
| TypeErrorArgMustBeInt (v : value)
| TypeErrorArgMustBeIntOrStr (v : value)
| TypeErrorArgMustBeComplex (v : value)
| TypeErrorArgMustBeRational (v : value)
| TypeErrorArgMustBeStr (v : value)
| TypeErrorArgMustBeChar (v : value)
| TypeErrorArgMustBeIterable (v : value)
| TypeErrorArgMustBeIndexable (v : value)
| TypeErrorArgMustBeSliceable (v : value)
| TypeErrorArgMustBeList (v : value)
| TypeErrorArgMustBeSet (v : value)
| TypeErrorArgMustBeDict (v : value)
| TypeErrorArgMustBeFunction (v : value)
| TypeErrorArgMustBeCmpOrKeyFunction (v : value).

Inductive result (A : Type) :=
| Ok (a : A)
| Err (e : error)
| Panic.
Arguments Ok {A} a. Arguments Err {A} e. Arguments Panic {A}.

(** Rust's `?` *)
Definition bind {A B} (r : result A) (f : A -> result B) : result B :=
  match r with Ok a => f a | Err e => Err e | Panic => Panic end.
Notation "'let?' x := r 'in' k" := (bind r (fun x => k)) (at level 200, x name, r at level 100, k at level 200).

(** `collect::<Result<Vec<_>, _>>()` over a mapped iterator: first failure wins *)
Fixpoint map_result {A B} (f : A -> result B) (l : list A) : result (list B) :=
  match l with
  | [] => Ok []
  | x :: r => let? y := f x in let? ys := map_result f r in Ok (y :: ys)
  end.

(** vm/value/mod.rs `as_int_checked` *)
Definition as_int_checked (v : value) : result Z :=
  match as_int_opt v with Some i => Ok i | None => Err (TypeErrorArgMustBeInt v) end.
