(** Specification vocabulary for P_Iter.v. *)
From Verif Require Import Base Value Iter.
Local Open Scope Z_scope.

(** [yields next it l]: calling [next] repeatedly from [it] returns exactly the
    elements of [l] in order, then "no more" forever. *)
Fixpoint stopped (next : iterable -> option value * iterable) (n : nat) (it : iterable) : Prop :=
  match n with
  | O => True
  | S n' => fst (next it) = None /\ stopped next n' (snd (next it))
  end.
Inductive yields (next : iterable -> option value * iterable) : iterable -> list value -> Prop :=
| y_nil it : (forall n, stopped next n it) -> yields next it []
| y_cons it it' x l : next it = (Some x, it') -> yields next it' l -> yields next it (x :: l).

(** [l] is the progression a, a+s, a+2s, ... of the terms strictly before b *)
Definition before (s x b : Z) : Prop := if s >? 0 then x < b else x > b.
Definition progression (a b s : Z) (l : list Z) : Prop :=
  forall k x, nth_error l k = Some x <-> (x = a + Z.of_nat k * s /\ before s x b).
