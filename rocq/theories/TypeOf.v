(** `typeof` (core/mod.rs:1092-1126). *)
From Verif Require Import Base Native Value Err Ops.

(** core/mod.rs:1092-1126.  Iterators, errors and the synthetic types are not values here, nor are memoized functions. *)
Definition type_of (v : value) : value :=
  match v with
  | VNil => VNil
  | VBool _ => VNative NF_Bool
  | VInt _ => VNative NF_Int
  | VComplex _ _ => VNative NF_Complex
  | VRational _ _ => VNative NF_Rational
  | VStr _ => VNative NF_Str
  | VList _ => VNative NF_List
  | VSet _ => VNative NF_Set
  | VDict _ => VNative NF_Dict
  | VHeap _ => VNative NF_Heap
  | VVector _ => VNative NF_Vector
  | VStruct t _ => VStructType t
  | VStructType _ => VNative NF_Function
  | VRange _ _ _ => VNative NF_Range
  | VEnumerate _ => VNative NF_Enumerate
  | VSlice _ _ _ | VFunction _ | VPartial _ _ | VNative _ | VPartialNative _ _ | VClosure _ _ | VField _ => VNative NF_Function
  end.
