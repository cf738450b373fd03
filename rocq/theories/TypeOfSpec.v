(** Vocabulary for C70: the types of values, from docs/library.md (Type Of). *)
From Verif Require Import Base Native Value.

Inductive type := TNil | TBool | TInt | TComplex | TRational | TStr | TList | TSet | TDict | THeap | TVector | TRange | TEnumerate | TFunction | TStruct (t : Z)
  | TIterable | TAny.
(** the type of a value *)
Inductive has_type : value -> type -> Prop :=
| ht_nil : has_type VNil TNil
| ht_bool b : has_type (VBool b) TBool
| ht_int n : has_type (VInt n) TInt
| ht_complex a b : has_type (VComplex a b) TComplex
| ht_rational n d : has_type (VRational n d) TRational
| ht_str s : has_type (VStr s) TStr
| ht_list l : has_type (VList l) TList
| ht_set l : has_type (VSet l) TSet
| ht_dict l : has_type (VDict l) TDict
| ht_heap l : has_type (VHeap l) THeap
| ht_vector l : has_type (VVector l) TVector
| ht_range a b s : has_type (VRange a b s) TRange
| ht_enumerate v : has_type (VEnumerate v) TEnumerate
| ht_struct t l : has_type (VStruct t l) (TStruct t)
| ht_constructor t : has_type (VStructType t) TFunction
| ht_slice a b c : has_type (VSlice a b c) TFunction
| ht_native f : has_type (VNative f) TFunction
| ht_partial_native f l : has_type (VPartialNative f l) TFunction
| ht_field i : has_type (VField i) TFunction
| ht_function f : has_type (VFunction f) TFunction
| ht_closure f e : has_type (VClosure f e) TFunction
| ht_partial f l : has_type (VPartial f l) TFunction.
(** how a type is written in a program *)
Definition written (t : type) : value :=
  match t with
  | TNil => VNil | TBool => VNative NF_Bool | TInt => VNative NF_Int | TComplex => VNative NF_Complex | TRational => VNative NF_Rational | TStr => VNative NF_Str
  | TList => VNative NF_List | TSet => VNative NF_Set | TDict => VNative NF_Dict | THeap => VNative NF_Heap | TVector => VNative NF_Vector | TRange => VNative NF_Range
  | TEnumerate => VNative NF_Enumerate | TFunction => VNative NF_Function | TStruct t => VStructType t | TIterable => VNative NF_Iterable | TAny => VNative NF_Any
  end.
(** bool is a subtype of int, int of complex (and of rational); collections and str are iterable; everything is any *)
Inductive subtype : type -> type -> Prop :=
| sub_refl t : subtype t t
| sub_trans a b c : subtype a b -> subtype b c -> subtype a c
| sub_bool : subtype TBool TInt
| sub_int : subtype TInt TComplex
| sub_rational : subtype TInt TRational
| sub_iterable t : In t [TStr; TList; TSet; TDict; THeap; TVector; TRange; TEnumerate] -> subtype t TIterable
| sub_any t : subtype t TAny.
