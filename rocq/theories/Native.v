(** The table of builtin functions: core/mod.rs:28-165 (enum NativeFunction),
    core/mod.rs:286-425 (the static table; its order is that of the enum, so
    `info()` at line 261 picks the entry of the function itself).

    Generated once from the source text by tools/gen_native.py and then reviewed;
    names are prefixed with NF_. *)
From Coq Require Import List Bool ZArith.
Import ListNotations.

Inductive native :=
| NF_Read
| NF_ReadLine
| NF_Print
| NF_ReadText
| NF_WriteText
| NF_Env
| NF_Argv
| NF_Bool
| NF_Int
| NF_Complex
| NF_Rational
| NF_Str
| NF_List
| NF_Set
| NF_Dict
| NF_Heap
| NF_Vector
| NF_Function
| NF_Iterable
| NF_Repr
| NF_Eval
| NF_TypeOf
| NF_Monitor
| NF_OperatorSub
| NF_OperatorUnaryNot
| NF_OperatorUnaryLogicalNot
| NF_OperatorMul
| NF_OperatorDiv
| NF_OperatorDivSwap
| NF_OperatorPow
| NF_OperatorPowSwap
| NF_OperatorMod
| NF_OperatorModSwap
| NF_OperatorIs
| NF_OperatorIsSwap
| NF_OperatorIsNot
| NF_OperatorIsNotSwap
| NF_OperatorIn
| NF_OperatorInSwap
| NF_OperatorNotIn
| NF_OperatorNotInSwap
| NF_OperatorAdd
| NF_OperatorAddSwap
| NF_OperatorLeftShift
| NF_OperatorLeftShiftSwap
| NF_OperatorRightShift
| NF_OperatorRightShiftSwap
| NF_OperatorBitwiseAnd
| NF_OperatorBitwiseOr
| NF_OperatorBitwiseXor
| NF_OperatorLessThan
| NF_OperatorLessThanSwap
| NF_OperatorLessThanEqual
| NF_OperatorLessThanEqualSwap
| NF_OperatorGreaterThan
| NF_OperatorGreaterThanSwap
| NF_OperatorGreaterThanEqual
| NF_OperatorGreaterThanEqualSwap
| NF_OperatorEqual
| NF_OperatorNotEqual
| NF_ToLower
| NF_ToUpper
| NF_Replace
| NF_Search
| NF_Trim
| NF_Split
| NF_Join
| NF_Char
| NF_Ord
| NF_Hex
| NF_Bin
| NF_Len
| NF_Range
| NF_Enumerate
| NF_Sum
| NF_Min
| NF_Max
| NF_MinBy
| NF_MaxBy
| NF_Map
| NF_Filter
| NF_FlatMap
| NF_Concat
| NF_Zip
| NF_Reduce
| NF_Sort
| NF_SortBy
| NF_GroupBy
| NF_Reverse
| NF_Permutations
| NF_Combinations
| NF_Any
| NF_All
| NF_Memoize
| NF_Union
| NF_Intersect
| NF_Difference
| NF_Counter
| NF_Copy
| NF_Peek
| NF_Pop
| NF_PopFront
| NF_Push
| NF_PushFront
| NF_Insert
| NF_Remove
| NF_Clear
| NF_Find
| NF_RightFind
| NF_IndexOf
| NF_RightIndexOf
| NF_Default
| NF_Keys
| NF_Values
| NF_Abs
| NF_Sqrt
| NF_Gcd
| NF_Lcm
| NF_CountOnes
| NF_CountZeros
| NF_Real
| NF_Imag
| NF_Numer
| NF_Denom.

(** all of them, in declaration order; [native_index] is the enum discriminant (repr u8) *)
Definition all_natives : list native :=
  [NF_Read; NF_ReadLine; NF_Print; NF_ReadText; NF_WriteText; NF_Env; NF_Argv; NF_Bool; NF_Int; NF_Complex; NF_Rational; NF_Str; NF_List; NF_Set; NF_Dict; NF_Heap; NF_Vector; NF_Function; NF_Iterable; NF_Repr; NF_Eval; NF_TypeOf; NF_Monitor; NF_OperatorSub; NF_OperatorUnaryNot; NF_OperatorUnaryLogicalNot; NF_OperatorMul; NF_OperatorDiv; NF_OperatorDivSwap; NF_OperatorPow; NF_OperatorPowSwap; NF_OperatorMod; NF_OperatorModSwap; NF_OperatorIs; NF_OperatorIsSwap; NF_OperatorIsNot; NF_OperatorIsNotSwap; NF_OperatorIn; NF_OperatorInSwap; NF_OperatorNotIn; NF_OperatorNotInSwap; NF_OperatorAdd; NF_OperatorAddSwap; NF_OperatorLeftShift; NF_OperatorLeftShiftSwap; NF_OperatorRightShift; NF_OperatorRightShiftSwap; NF_OperatorBitwiseAnd; NF_OperatorBitwiseOr; NF_OperatorBitwiseXor; NF_OperatorLessThan; NF_OperatorLessThanSwap; NF_OperatorLessThanEqual; NF_OperatorLessThanEqualSwap; NF_OperatorGreaterThan; NF_OperatorGreaterThanSwap; NF_OperatorGreaterThanEqual; NF_OperatorGreaterThanEqualSwap; NF_OperatorEqual; NF_OperatorNotEqual; NF_ToLower; NF_ToUpper; NF_Replace; NF_Search; NF_Trim; NF_Split; NF_Join; NF_Char; NF_Ord; NF_Hex; NF_Bin; NF_Len; NF_Range; NF_Enumerate; NF_Sum; NF_Min; NF_Max; NF_MinBy; NF_MaxBy; NF_Map; NF_Filter; NF_FlatMap; NF_Concat; NF_Zip; NF_Reduce; NF_Sort; NF_SortBy; NF_GroupBy; NF_Reverse; NF_Permutations; NF_Combinations; NF_Any; NF_All; NF_Memoize; NF_Union; NF_Intersect; NF_Difference; NF_Counter; NF_Copy; NF_Peek; NF_Pop; NF_PopFront; NF_Push; NF_PushFront; NF_Insert; NF_Remove; NF_Clear; NF_Find; NF_RightFind; NF_IndexOf; NF_RightIndexOf; NF_Default; NF_Keys; NF_Values; NF_Abs; NF_Sqrt; NF_Gcd; NF_Lcm; NF_CountOnes; NF_CountZeros; NF_Real; NF_Imag; NF_Numer; NF_Denom].
Definition native_index (f : native) : Z :=
  match f with
  | NF_Read => 0
  | NF_ReadLine => 1
  | NF_Print => 2
  | NF_ReadText => 3
  | NF_WriteText => 4
  | NF_Env => 5
  | NF_Argv => 6
  | NF_Bool => 7
  | NF_Int => 8
  | NF_Complex => 9
  | NF_Rational => 10
  | NF_Str => 11
  | NF_List => 12
  | NF_Set => 13
  | NF_Dict => 14
  | NF_Heap => 15
  | NF_Vector => 16
  | NF_Function => 17
  | NF_Iterable => 18
  | NF_Repr => 19
  | NF_Eval => 20
  | NF_TypeOf => 21
  | NF_Monitor => 22
  | NF_OperatorSub => 23
  | NF_OperatorUnaryNot => 24
  | NF_OperatorUnaryLogicalNot => 25
  | NF_OperatorMul => 26
  | NF_OperatorDiv => 27
  | NF_OperatorDivSwap => 28
  | NF_OperatorPow => 29
  | NF_OperatorPowSwap => 30
  | NF_OperatorMod => 31
  | NF_OperatorModSwap => 32
  | NF_OperatorIs => 33
  | NF_OperatorIsSwap => 34
  | NF_OperatorIsNot => 35
  | NF_OperatorIsNotSwap => 36
  | NF_OperatorIn => 37
  | NF_OperatorInSwap => 38
  | NF_OperatorNotIn => 39
  | NF_OperatorNotInSwap => 40
  | NF_OperatorAdd => 41
  | NF_OperatorAddSwap => 42
  | NF_OperatorLeftShift => 43
  | NF_OperatorLeftShiftSwap => 44
  | NF_OperatorRightShift => 45
  | NF_OperatorRightShiftSwap => 46
  | NF_OperatorBitwiseAnd => 47
  | NF_OperatorBitwiseOr => 48
  | NF_OperatorBitwiseXor => 49
  | NF_OperatorLessThan => 50
  | NF_OperatorLessThanSwap => 51
  | NF_OperatorLessThanEqual => 52
  | NF_OperatorLessThanEqualSwap => 53
  | NF_OperatorGreaterThan => 54
  | NF_OperatorGreaterThanSwap => 55
  | NF_OperatorGreaterThanEqual => 56
  | NF_OperatorGreaterThanEqualSwap => 57
  | NF_OperatorEqual => 58
  | NF_OperatorNotEqual => 59
  | NF_ToLower => 60
  | NF_ToUpper => 61
  | NF_Replace => 62
  | NF_Search => 63
  | NF_Trim => 64
  | NF_Split => 65
  | NF_Join => 66
  | NF_Char => 67
  | NF_Ord => 68
  | NF_Hex => 69
  | NF_Bin => 70
  | NF_Len => 71
  | NF_Range => 72
  | NF_Enumerate => 73
  | NF_Sum => 74
  | NF_Min => 75
  | NF_Max => 76
  | NF_MinBy => 77
  | NF_MaxBy => 78
  | NF_Map => 79
  | NF_Filter => 80
  | NF_FlatMap => 81
  | NF_Concat => 82
  | NF_Zip => 83
  | NF_Reduce => 84
  | NF_Sort => 85
  | NF_SortBy => 86
  | NF_GroupBy => 87
  | NF_Reverse => 88
  | NF_Permutations => 89
  | NF_Combinations => 90
  | NF_Any => 91
  | NF_All => 92
  | NF_Memoize => 93
  | NF_Union => 94
  | NF_Intersect => 95
  | NF_Difference => 96
  | NF_Counter => 97
  | NF_Copy => 98
  | NF_Peek => 99
  | NF_Pop => 100
  | NF_PopFront => 101
  | NF_Push => 102
  | NF_PushFront => 103
  | NF_Insert => 104
  | NF_Remove => 105
  | NF_Clear => 106
  | NF_Find => 107
  | NF_RightFind => 108
  | NF_IndexOf => 109
  | NF_RightIndexOf => 110
  | NF_Default => 111
  | NF_Keys => 112
  | NF_Values => 113
  | NF_Abs => 114
  | NF_Sqrt => 115
  | NF_Gcd => 116
  | NF_Lcm => 117
  | NF_CountOnes => 118
  | NF_CountZeros => 119
  | NF_Real => 120
  | NF_Imag => 121
  | NF_Numer => 122
  | NF_Denom => 123
  end%Z.
Definition native_eqb (a b : native) : bool := Z.eqb (native_index a) (native_index b).

(** core/mod.rs:452-465 *)
Inductive argument :=
| Arg0 | Arg0To1 | Arg1 | Arg1To2 | Arg1To3 | Arg2 | Arg3 | Unique | UniqueNonEmpty | Iter | IterNonEmpty | Invalid.

(** the `arg` column of the table *)
Definition native_arg (f : native) : argument :=
  match f with
  | NF_Read => Arg0
  | NF_ReadLine => Arg0
  | NF_Print => Unique
  | NF_ReadText => Arg1
  | NF_WriteText => Arg2
  | NF_Env => Arg0To1
  | NF_Argv => Arg0
  | NF_Bool => Arg1
  | NF_Int => Arg1To2
  | NF_Complex => Invalid
  | NF_Rational => Arg1To2
  | NF_Str => Arg1
  | NF_List => Iter
  | NF_Set => Iter
  | NF_Dict => Iter
  | NF_Heap => Iter
  | NF_Vector => Unique
  | NF_Function => Invalid
  | NF_Iterable => Invalid
  | NF_Repr => Arg1
  | NF_Eval => Arg1
  | NF_TypeOf => Arg1
  | NF_Monitor => Arg1
  | NF_OperatorSub => Arg1To2
  | NF_OperatorUnaryNot => Arg1
  | NF_OperatorUnaryLogicalNot => Arg1
  | NF_OperatorMul => Arg2
  | NF_OperatorDiv => Arg2
  | NF_OperatorDivSwap => Arg2
  | NF_OperatorPow => Arg2
  | NF_OperatorPowSwap => Arg2
  | NF_OperatorMod => Arg2
  | NF_OperatorModSwap => Arg2
  | NF_OperatorIs => Arg2
  | NF_OperatorIsSwap => Arg2
  | NF_OperatorIsNot => Arg2
  | NF_OperatorIsNotSwap => Arg2
  | NF_OperatorIn => Arg2
  | NF_OperatorInSwap => Arg2
  | NF_OperatorNotIn => Arg2
  | NF_OperatorNotInSwap => Arg2
  | NF_OperatorAdd => Arg2
  | NF_OperatorAddSwap => Arg2
  | NF_OperatorLeftShift => Arg2
  | NF_OperatorLeftShiftSwap => Arg2
  | NF_OperatorRightShift => Arg2
  | NF_OperatorRightShiftSwap => Arg2
  | NF_OperatorBitwiseAnd => Arg2
  | NF_OperatorBitwiseOr => Arg2
  | NF_OperatorBitwiseXor => Arg2
  | NF_OperatorLessThan => Arg2
  | NF_OperatorLessThanSwap => Arg2
  | NF_OperatorLessThanEqual => Arg2
  | NF_OperatorLessThanEqualSwap => Arg2
  | NF_OperatorGreaterThan => Arg2
  | NF_OperatorGreaterThanSwap => Arg2
  | NF_OperatorGreaterThanEqual => Arg2
  | NF_OperatorGreaterThanEqualSwap => Arg2
  | NF_OperatorEqual => Arg2
  | NF_OperatorNotEqual => Arg2
  | NF_ToLower => Arg1
  | NF_ToUpper => Arg1
  | NF_Replace => Arg3
  | NF_Search => Arg2
  | NF_Trim => Arg1
  | NF_Split => Arg2
  | NF_Join => Arg2
  | NF_Char => Arg1
  | NF_Ord => Arg1
  | NF_Hex => Arg1
  | NF_Bin => Arg1
  | NF_Len => Arg1
  | NF_Range => Arg1To3
  | NF_Enumerate => Arg1
  | NF_Sum => IterNonEmpty
  | NF_Min => UniqueNonEmpty
  | NF_Max => UniqueNonEmpty
  | NF_MinBy => Arg2
  | NF_MaxBy => Arg2
  | NF_Map => Arg2
  | NF_Filter => Arg2
  | NF_FlatMap => Arg2
  | NF_Concat => Arg1
  | NF_Zip => IterNonEmpty
  | NF_Reduce => Arg2
  | NF_Sort => IterNonEmpty
  | NF_SortBy => Arg2
  | NF_GroupBy => Arg2
  | NF_Reverse => IterNonEmpty
  | NF_Permutations => Arg2
  | NF_Combinations => Arg2
  | NF_Any => Arg2
  | NF_All => Arg2
  | NF_Memoize => Arg1
  | NF_Union => Arg2
  | NF_Intersect => Arg2
  | NF_Difference => Arg2
  | NF_Counter => Arg1
  | NF_Copy => Arg1
  | NF_Peek => Arg1
  | NF_Pop => Arg1
  | NF_PopFront => Arg1
  | NF_Push => Arg2
  | NF_PushFront => Arg2
  | NF_Insert => Arg3
  | NF_Remove => Arg2
  | NF_Clear => Arg1
  | NF_Find => Arg2
  | NF_RightFind => Arg2
  | NF_IndexOf => Arg2
  | NF_RightIndexOf => Arg2
  | NF_Default => Arg2
  | NF_Keys => Arg1
  | NF_Values => Arg1
  | NF_Abs => Arg1
  | NF_Sqrt => Arg1
  | NF_Gcd => IterNonEmpty
  | NF_Lcm => IterNonEmpty
  | NF_CountOnes => Arg1
  | NF_CountZeros => Arg1
  | NF_Real => Arg1
  | NF_Imag => Arg1
  | NF_Numer => Arg1
  | NF_Denom => Arg1
  end.

(** the `hidden` column: operators are not nameable (core/mod.rs:288-290) *)
Definition native_hidden (f : native) : bool :=
  match f with
  | NF_OperatorSub => true
  | NF_OperatorUnaryNot => true
  | NF_OperatorUnaryLogicalNot => true
  | NF_OperatorMul => true
  | NF_OperatorDiv => true
  | NF_OperatorDivSwap => true
  | NF_OperatorPow => true
  | NF_OperatorPowSwap => true
  | NF_OperatorMod => true
  | NF_OperatorModSwap => true
  | NF_OperatorIs => true
  | NF_OperatorIsSwap => true
  | NF_OperatorIsNot => true
  | NF_OperatorIsNotSwap => true
  | NF_OperatorIn => true
  | NF_OperatorInSwap => true
  | NF_OperatorNotIn => true
  | NF_OperatorNotInSwap => true
  | NF_OperatorAdd => true
  | NF_OperatorAddSwap => true
  | NF_OperatorLeftShift => true
  | NF_OperatorLeftShiftSwap => true
  | NF_OperatorRightShift => true
  | NF_OperatorRightShiftSwap => true
  | NF_OperatorBitwiseAnd => true
  | NF_OperatorBitwiseOr => true
  | NF_OperatorBitwiseXor => true
  | NF_OperatorLessThan => true
  | NF_OperatorLessThanSwap => true
  | NF_OperatorLessThanEqual => true
  | NF_OperatorLessThanEqualSwap => true
  | NF_OperatorGreaterThan => true
  | NF_OperatorGreaterThanSwap => true
  | NF_OperatorGreaterThanEqual => true
  | NF_OperatorGreaterThanEqualSwap => true
  | NF_OperatorEqual => true
  | NF_OperatorNotEqual => true
  | _ => false
  end.

(** core/mod.rs:469 `Argument::min_nargs` *)
Definition argument_min_nargs (a : argument) : nat :=
  match a with
  | Arg1 | Arg1To2 | Arg1To3 => 1
  | Arg2 => 2
  | Arg3 => 3
  | _ => 0
  end.
Definition native_min_nargs (f : native) : nat := argument_min_nargs (native_arg f).

(** core/mod.rs:227 `swap` *)
Definition native_swap (f : native) : native :=
  match f with
  | NF_OperatorDiv => NF_OperatorDivSwap
  | NF_OperatorDivSwap => NF_OperatorDiv
  | NF_OperatorPow => NF_OperatorPowSwap
  | NF_OperatorPowSwap => NF_OperatorPow
  | NF_OperatorMod => NF_OperatorModSwap
  | NF_OperatorModSwap => NF_OperatorMod
  | NF_OperatorIs => NF_OperatorIsSwap
  | NF_OperatorIsSwap => NF_OperatorIs
  | NF_OperatorIsNot => NF_OperatorIsNotSwap
  | NF_OperatorIsNotSwap => NF_OperatorIsNot
  | NF_OperatorIn => NF_OperatorInSwap
  | NF_OperatorInSwap => NF_OperatorIn
  | NF_OperatorNotIn => NF_OperatorNotInSwap
  | NF_OperatorNotInSwap => NF_OperatorNotIn
  | NF_OperatorAdd => NF_OperatorAddSwap
  | NF_OperatorAddSwap => NF_OperatorAdd
  | NF_OperatorLeftShift => NF_OperatorLeftShiftSwap
  | NF_OperatorLeftShiftSwap => NF_OperatorLeftShift
  | NF_OperatorRightShift => NF_OperatorRightShiftSwap
  | NF_OperatorRightShiftSwap => NF_OperatorRightShift
  | NF_OperatorLessThan => NF_OperatorLessThanSwap
  | NF_OperatorLessThanSwap => NF_OperatorLessThan
  | NF_OperatorLessThanEqual => NF_OperatorLessThanEqualSwap
  | NF_OperatorLessThanEqualSwap => NF_OperatorLessThanEqual
  | NF_OperatorGreaterThan => NF_OperatorGreaterThanSwap
  | NF_OperatorGreaterThanSwap => NF_OperatorGreaterThan
  | NF_OperatorGreaterThanEqual => NF_OperatorGreaterThanEqualSwap
  | NF_OperatorGreaterThanEqualSwap => NF_OperatorGreaterThanEqual
  | op => op
  end.

(** vm/operator.rs:22-26 *)
Inductive binop :=
| BMul | BDiv | BPow | BMod | BIs | BIsNot | BAdd | BSub | BLeftShift | BRightShift | BAnd | BOr | BXor | BIn | BNotIn
| BLessThan | BGreaterThan | BLessThanEqual | BGreaterThanEqual | BEqual | BNotEqual | BMax | BMin.

(** core/mod.rs:201 `as_binary_operator` *)
Definition native_binop (f : native) : option binop :=
  match f with
  | NF_OperatorMul => Some BMul
  | NF_OperatorDiv => Some BDiv
  | NF_OperatorPow => Some BPow
  | NF_OperatorMod => Some BMod
  | NF_OperatorIs => Some BIs
  | NF_OperatorIsNot => Some BIsNot
  | NF_OperatorIn => Some BIn
  | NF_OperatorNotIn => Some BNotIn
  | NF_OperatorAdd => Some BAdd
  | NF_OperatorLeftShift => Some BLeftShift
  | NF_OperatorRightShift => Some BRightShift
  | NF_OperatorBitwiseAnd => Some BAnd
  | NF_OperatorBitwiseOr => Some BOr
  | NF_OperatorBitwiseXor => Some BXor
  | NF_OperatorLessThan => Some BLessThan
  | NF_OperatorLessThanEqual => Some BLessThanEqual
  | NF_OperatorGreaterThan => Some BGreaterThan
  | NF_OperatorGreaterThanEqual => Some BGreaterThanEqual
  | NF_OperatorEqual => Some BEqual
  | NF_OperatorNotEqual => Some BNotEqual
  | _ => None
  end.

(** core/mod.rs:827.. the functions `invoke_arg0` has an arm for; all others panic *)
Definition invoke_arg0_supported (f : native) : bool :=
  match f with
  | NF_Read => true
  | NF_ReadLine => true
  | NF_Print => true
  | NF_Env => true
  | NF_Argv => true
  | NF_List => true
  | NF_Set => true
  | NF_Dict => true
  | NF_Heap => true
  | NF_Vector => true
  | _ => false
  end.

(** core/mod.rs:848.. the functions `invoke_arg1` has an arm for; all others panic *)
Definition invoke_arg1_supported (f : native) : bool :=
  match f with
  | NF_Print => true
  | NF_ReadText => true
  | NF_Env => true
  | NF_Bool => true
  | NF_Int => true
  | NF_Str => true
  | NF_Rational => true
  | NF_Vector => true
  | NF_Repr => true
  | NF_Eval => true
  | NF_TypeOf => true
  | NF_Monitor => true
  | NF_OperatorSub => true
  | NF_OperatorUnaryNot => true
  | NF_OperatorUnaryLogicalNot => true
  | NF_ToLower => true
  | NF_ToUpper => true
  | NF_Trim => true
  | NF_Char => true
  | NF_Ord => true
  | NF_Hex => true
  | NF_Bin => true
  | NF_Len => true
  | NF_Range => true
  | NF_Enumerate => true
  | NF_Min => true
  | NF_Max => true
  | NF_Concat => true
  | NF_Memoize => true
  | NF_Counter => true
  | NF_Copy => true
  | NF_Peek => true
  | NF_Pop => true
  | NF_PopFront => true
  | NF_Clear => true
  | NF_Keys => true
  | NF_Values => true
  | NF_Abs => true
  | NF_Sqrt => true
  | NF_CountOnes => true
  | NF_CountZeros => true
  | NF_Real => true
  | NF_Imag => true
  | NF_Numer => true
  | NF_Denom => true
  | _ => false
  end.

(** core/mod.rs:939.. the functions `invoke_arg2` has an arm for; all others panic *)
Definition invoke_arg2_supported (f : native) : bool :=
  match f with
  | NF_WriteText => true
  | NF_Int => true
  | NF_Rational => true
  | NF_OperatorSub => true
  | NF_OperatorMul => true
  | NF_OperatorDiv => true
  | NF_OperatorDivSwap => true
  | NF_OperatorPow => true
  | NF_OperatorPowSwap => true
  | NF_OperatorMod => true
  | NF_OperatorModSwap => true
  | NF_OperatorIs => true
  | NF_OperatorIsSwap => true
  | NF_OperatorIsNot => true
  | NF_OperatorIsNotSwap => true
  | NF_OperatorIn => true
  | NF_OperatorInSwap => true
  | NF_OperatorNotIn => true
  | NF_OperatorNotInSwap => true
  | NF_OperatorAdd => true
  | NF_OperatorAddSwap => true
  | NF_OperatorLeftShift => true
  | NF_OperatorLeftShiftSwap => true
  | NF_OperatorRightShift => true
  | NF_OperatorRightShiftSwap => true
  | NF_OperatorBitwiseAnd => true
  | NF_OperatorBitwiseOr => true
  | NF_OperatorBitwiseXor => true
  | NF_OperatorLessThan => true
  | NF_OperatorLessThanSwap => true
  | NF_OperatorLessThanEqual => true
  | NF_OperatorLessThanEqualSwap => true
  | NF_OperatorGreaterThan => true
  | NF_OperatorGreaterThanSwap => true
  | NF_OperatorGreaterThanEqual => true
  | NF_OperatorGreaterThanEqualSwap => true
  | NF_OperatorEqual => true
  | NF_OperatorNotEqual => true
  | NF_Search => true
  | NF_Split => true
  | NF_Join => true
  | NF_Range => true
  | NF_MinBy => true
  | NF_MaxBy => true
  | NF_Map => true
  | NF_Filter => true
  | NF_FlatMap => true
  | NF_Reduce => true
  | NF_SortBy => true
  | NF_GroupBy => true
  | NF_Permutations => true
  | NF_Combinations => true
  | NF_Any => true
  | NF_All => true
  | NF_Union => true
  | NF_Intersect => true
  | NF_Difference => true
  | NF_Push => true
  | NF_PushFront => true
  | NF_Remove => true
  | NF_Find => true
  | NF_RightFind => true
  | NF_IndexOf => true
  | NF_RightIndexOf => true
  | NF_Default => true
  | _ => false
  end.

(** core/mod.rs:1021.. the functions `invoke_arg3` has an arm for; all others panic *)
Definition invoke_arg3_supported (f : native) : bool :=
  match f with
  | NF_Replace => true
  | NF_Range => true
  | NF_Insert => true
  | _ => false
  end.

(** core/mod.rs:1031.. the functions `invoke_var` has an arm for; all others panic *)
Definition invoke_var_supported (f : native) : bool :=
  match f with
  | NF_Print => true
  | NF_List => true
  | NF_Set => true
  | NF_Dict => true
  | NF_Heap => true
  | NF_Vector => true
  | NF_Sum => true
  | NF_Min => true
  | NF_Max => true
  | NF_Zip => true
  | NF_Sort => true
  | NF_Reverse => true
  | NF_Gcd => true
  | NF_Lcm => true
  | _ => false
  end.
