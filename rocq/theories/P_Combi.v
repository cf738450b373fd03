(** C27 (permutations, combinations). *)
From Verif Require Import Base Native Value Err Seq Combi CombiSpec CombiProofs.
From Coq Require Import Sorting.Sorted.
Local Open Scope nat_scope.

(** C27.  For every n > 0, `combinations(n, l)` is the list of vectors of the elements at each
    n-element subset of the positions of [l], each subset once, in lexicographic order. *)
Theorem C27_combinations : forall n l, (0 < n)%Z ->
  exists choices res, enumerates (subset (Z.to_nat n) (length l)) choices /\ Forall2 (elements_at l) res choices /\
    computes (fun fuel => builtin_combinations fuel (VInt n) l) (Ok (VList (map VVector res))).
Proof. exact combinations_spec. Qed.
Print Assumptions C27_combinations.

(** `permutations(n, l)`: each way to put n different positions in a row, once, in lexicographic order. *)
Theorem C27_permutations : forall n l, (0 < n)%Z ->
  exists choices res, enumerates (arrangement (Z.to_nat n) (length l)) choices /\ Forall2 (elements_at l) res choices /\
    computes (fun fuel => builtin_permutations fuel (VInt n) l) (Ok (VList (map VVector res))).
Proof. exact permutations_spec. Qed.
Print Assumptions C27_permutations.

(** more elements than there are: no choice at all *)
Theorem C27_too_many : forall n l, (Z.of_nat (length l) < n)%Z ->
  computes (fun fuel => builtin_combinations fuel (VInt n) l) (Ok (VList [])) /\
  computes (fun fuel => builtin_permutations fuel (VInt n) l) (Ok (VList [])).
Proof. exact too_many. Qed.
Print Assumptions C27_too_many.

(** a negative n is an error *)
Theorem C27_negative : forall n l, (n < 0)%Z ->
  computes (fun fuel => builtin_combinations fuel (VInt n) l) (Err (ValueErrorArgMustBeNonNegativeInt NF_Combinations)) /\
  computes (fun fuel => builtin_permutations fuel (VInt n) l) (Err (ValueErrorArgMustBeNonNegativeInt NF_Permutations)).
Proof. exact negative. Qed.
Print Assumptions C27_negative.

(** n = 0: there is one choice of no positions, but both builtins fail, with a message that asks
    for a non-negative integer *)
Theorem C27_zero_refuted : exists l, enumerates (subset 0 (length l)) [[]] /\ enumerates (arrangement 0 (length l)) [[]] /\
  computes (fun fuel => builtin_combinations fuel (VInt 0) l) (Err (ValueErrorArgMustBeNonNegativeInt NF_Combinations)) /\
  computes (fun fuel => builtin_permutations fuel (VInt 0) l) (Err (ValueErrorArgMustBeNonNegativeInt NF_Permutations)).
Proof. exact zero_refuted. Qed.
Print Assumptions C27_zero_refuted.

Example combinations_case : builtin_combinations 10 (VInt 2) [VInt 7; VInt 8; VInt 8; VInt 9] =
  Some (Ok (VList (map VVector [[VInt 7; VInt 8]; [VInt 7; VInt 8]; [VInt 7; VInt 9]; [VInt 8; VInt 8]; [VInt 8; VInt 9]; [VInt 8; VInt 9]]))).
Proof. reflexivity. Qed.
Example permutations_case : builtin_permutations 10 (VInt 2) [VInt 7; VInt 8; VInt 9] =
  Some (Ok (VList (map VVector [[VInt 7; VInt 8]; [VInt 7; VInt 9]; [VInt 8; VInt 7]; [VInt 8; VInt 9]; [VInt 9; VInt 7]; [VInt 9; VInt 8]]))).
Proof. reflexivity. Qed.
Example permutations_full : builtin_permutations 10 (VInt 3) [VInt 1; VInt 2; VInt 3] =
  Some (Ok (VList (map VVector [[VInt 1; VInt 2; VInt 3]; [VInt 1; VInt 3; VInt 2]; [VInt 2; VInt 1; VInt 3]; [VInt 2; VInt 3; VInt 1]; [VInt 3; VInt 1; VInt 2]; [VInt 3; VInt 2; VInt 1]]))).
Proof. reflexivity. Qed.
