(** C27: positions, in lexicographic order. *)
From Verif Require Import Base Value Err.
From Coq Require Import Sorting.Sorted.
Local Open Scope nat_scope.

(** lexicographic order of position lists of one length *)
Fixpoint before (a b : list nat) : Prop :=
  match a, b with x :: a, y :: b => x < y \/ (x = y /\ before a b) | _, _ => False end.
(** every list that satisfies [ok] is there exactly once, in lexicographic order *)
Definition enumerates (ok : list nat -> Prop) (L : list (list nat)) : Prop :=
  (forall p, In p L <-> ok p) /\ NoDup L /\ StronglySorted before L.
(** [k] of the [n] positions, in increasing order *)
Definition subset (k n : nat) (p : list nat) : Prop := length p = k /\ StronglySorted lt p /\ Forall (fun i => i < n) p.
(** [k] different positions of [n], in any order *)
Definition arrangement (k n : nat) (p : list nat) : Prop := length p = k /\ NoDup p /\ Forall (fun i => i < n) p.
(** [xs] are the elements of [l] at positions [p] *)
Definition elements_at {V} (l : list V) (xs : list V) (p : list nat) : Prop := map Some xs = map (nth_error l) p.
(** what a builtin computes: with a large enough bound on the number of results it always finishes,
    and the outcome does not depend on the bound *)
Definition computes (f : nat -> option (result value)) (r : result value) : Prop :=
  (exists n, forall m, n < m -> f m = Some r) /\ (forall m r', f m = Some r' -> r' = r).
