(** Vocabulary for C69: reading what `repr` has written. *)
From Verif Require Import Base Native Value ValueSpec Err Repr.
From Verif Require Scan Parse.
Local Open Scope Z_scope.

(** The text [t] is an expression that evaluates to [v], in the way of `eval`. *)
Definition evaluates (N : names) (fmt : list Z -> value -> result value) (t : list Z) (v : value) : Prop :=
  exists e n, (forall m, (n <= m)%nat -> read m t = Parse.Got e []) /\ denote N fmt e = Some v.

(** Characters that are not shown with an escape that the scanner does not know, or as a single quote. *)
Definition plain (N : names) (c : Z) : Prop :=
  c = 9 \/ c = 10 \/ c = 13 \/ (32 <= c < 127 /\ c <> 39) \/ (128 <= c /\ printable N c = true).
(** a bound of a slice *)
Definition bound (v : value) : Prop := v = VNil \/ exists n, v = VInt n.
(** The (well-formed) values that can be read back.  Left out: strings with a single quote or with control characters, complex numbers with parts
    outside of the range of literals, empty and one element vectors, empty dicts and ranges, rationals, heaps, structs and functions. *)
Inductive readable (N : names) : value -> Prop :=
| rd_nil : readable N VNil
| rd_bool b : readable N (VBool b)
| rd_int n : readable N (VInt n)
| rd_complex re im : is_int63 re -> - 2 ^ 63 < im -> readable N (VComplex re im)
| rd_str s : (forall c, In c s -> plain N c) -> readable N (VStr s)
| rd_list l : (forall x, In x l -> readable N x) -> readable N (VList l)
| rd_vector l : (forall x, In x l -> readable N x) -> (2 <= length l)%nat -> readable N (VVector l)
| rd_set l : (forall x, In x l -> readable N x) -> readable N (VSet l)
| rd_dict l : (forall k, In k (map fst l) -> readable N k) -> (forall x, In x (map snd l) -> readable N x) -> l <> [] -> readable N (VDict l)
| rd_range a b s : is_int63 a -> is_int63 b -> is_int63 s -> (0 < s /\ a < b) \/ (s < 0 /\ b < a) -> readable N (VRange a b s)
| rd_enumerate v : readable N v -> readable N (VEnumerate v)
| rd_slice a b c : bound a -> bound b -> bound c -> readable N (VSlice a b c).
