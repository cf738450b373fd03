(** Specification vocabulary about values: which values the interpreter can hold
    ([wf]), lookups, and the kinds of values whose order is meant to be total. *)
From Verif Require Import Base Ptr Native Value.
Local Open Scope Z_scope.

(** a Rust `char`: a Unicode scalar value *)
Definition is_char (c : Z) : Prop := 0 <= c < 55296 \/ 57344 <= c < 1114112.

(** ** well-formed values: what every constructor of the interpreter produces *)
Fixpoint distinct (R : value -> value -> bool) (l : list value) : Prop :=
  match l with
  | [] => True
  | x :: r => (forall y, In y r -> R x y = false) /\ distinct R r
  end.

Inductive wf : value -> Prop :=
| wf_nil : wf VNil
| wf_bool b : wf (VBool b)
| wf_int n : is_int63 n -> wf (VInt n)
| wf_complex re im : is_i64 re -> is_i64 im -> im <> 0 -> wf (VComplex re im)
| wf_rational n d : Z.gcd n (Zpos d) = 1 -> wf (VRational n d)
| wf_str s : (forall c, In c s -> is_char c) -> wf (VStr s)
| wf_list l : (forall x, In x l -> wf x) -> wf (VList l)
| wf_vector l : (forall x, In x l -> wf x) -> wf (VVector l)
| wf_set l : (forall x, In x l -> wf x) -> distinct key_match l -> wf (VSet l)
| wf_dict l : (forall k x, In (k, x) l -> wf k /\ wf x) -> distinct key_match (map fst l) -> wf (VDict l)
| wf_heap l : (forall x, In x l -> wf x) -> wf (VHeap l)
| wf_struct t l : (forall x, In x l -> wf x) -> wf (VStruct t l)
| wf_structtype t : wf (VStructType t)
| wf_range a b s : wf (VRange a b s)
| wf_enumerate v : wf v -> wf (VEnumerate v)
| wf_slice a b c : wf a -> wf b -> wf c -> wf (VSlice a b c)
| wf_native f : wf (VNative f)
| wf_pnative f a : wf (VPartialNative f a)
| wf_field i : wf (VField i)
| wf_function i : wf (VFunction i)
| wf_closure i e : wf (VClosure i e)
| wf_partial f a : wf f -> wf (VPartial f a).


(** the value found under a key *)
Definition dict_get (l : list (value * value)) (k : value) : option value :=
  match find (fun p => key_match k (fst p)) l with Some p => Some (snd p) | None => None end.


(** Kinds of values on which the language promises a total order:
    nil/bool/int/complex, int/complex/rational, strings, ranges, and lists, vectors,
    enumerations of values of one such kind. *)
Inductive okind := KReal | KNum | KStr | KRange | KList (k : okind) | KVector (k : okind) | KEnumerate (k : okind).
Inductive of_kind : okind -> value -> Prop :=
| ok_nil : of_kind KReal VNil
| ok_bool b : of_kind KReal (VBool b)
| ok_int n : of_kind KReal (VInt n)
| ok_complex re im : of_kind KReal (VComplex re im)
| ok_nint n : of_kind KNum (VInt n)
| ok_ncomplex re im : of_kind KNum (VComplex re im)
| ok_rational n d : of_kind KNum (VRational n d)
| ok_str s : of_kind KStr (VStr s)
| ok_range a b s : of_kind KRange (VRange a b s)
| ok_list k l : (forall x, In x l -> of_kind k x) -> of_kind (KList k) (VList l)
| ok_vector k l : (forall x, In x l -> of_kind k x) -> of_kind (KVector k) (VVector l)
| ok_enumerate k x : of_kind k x -> of_kind (KEnumerate k) (VEnumerate x).

(** Values whose hash is determined by equality: every set and dict inside has at
    most one entry and no rational inside is an integer. *)
Fixpoint hash_stable (v : value) : Prop :=
  match v with
  | VRational _ d => d <> 1%positive
  | VList l | VVector l | VHeap l | VStruct _ l => fold_right (fun x P => hash_stable x /\ P) True l
  | VSet l => (length l <= 1)%nat /\ fold_right (fun x P => hash_stable x /\ P) True l
  | VDict l => (length l <= 1)%nat /\ fold_right (fun p P => hash_stable (fst p) /\ hash_stable (snd p) /\ P) True l
  | VEnumerate x | VPartial x _ => hash_stable x
  | VSlice a b c => hash_stable a /\ hash_stable b /\ hash_stable c
  | _ => True
  end.
