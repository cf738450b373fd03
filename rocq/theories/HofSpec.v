(** Specification vocabulary for P_Hof.v: what it means to call a function on the elements
    of a collection, one after the other, when each call may change anything. *)
From Verif Require Import Base Native Value ValueSpec Err Ops OpsSpec.
Local Open Scope nat_scope.

Section Spec.
  Variable W : Type.                                  (* states of the program *)
  Variable elems : W -> list value.                   (* the collection's elements, now *)
  Variable f : value -> W -> result value * W.        (* the function *)

  (** starting in state [w] at position [i], the function was called on [xs] in turn, each
      the element at the next position at that moment, and gave [ys], ending in [w'] *)
  Inductive visits : nat -> W -> list value -> list value -> W -> Prop :=
  | v_done i w : visits i w [] [] w
  | v_next i w x y w1 xs ys w2 : nth_error (elems w) i = Some x -> f x w = (Ok y, w1) -> visits (S i) w1 xs ys w2 -> visits i w (x :: xs) (y :: ys) w2.

  (** every element was visited: none is left at the end *)
  Definition visits_all (w : W) (xs ys : list value) (w' : W) : Prop :=
    visits 0 w xs ys w' /\ nth_error (elems w') (length xs) = None.
  (** after visiting [xs], the call on the next element [x] gave [a], and no more calls were made *)
  Definition visits_until (w : W) (xs ys : list value) (x : value) (a : result value) (w' : W) : Prop :=
    exists w1, visits 0 w xs ys w1 /\ nth_error (elems w1) (length xs) = Some x /\ f x w1 = (a, w').
  (** ... and that call failed with the same failure [r] *)
  Definition fails_at (w : W) (r : result value) (w' : W) : Prop :=
    exists xs ys x, visits_until w xs ys x r w' /\ forall y, r <> Ok y.
End Spec.
Arguments visits {W}. Arguments visits_all {W}. Arguments visits_until {W}. Arguments fails_at {W}.

Section SpecReduce.
  Variable W : Type.
  Variable elems : W -> list value.
  Variable f : value -> value -> W -> result value * W.
  (** f(f(f(acc, x0), x1), x2) ... *)
  Inductive folds : nat -> W -> value -> list value -> value -> W -> Prop :=
  | fo_done i w a : folds i w a [] a w
  | fo_next i w a x b w1 xs c w2 : nth_error (elems w) i = Some x -> f a x w = (Ok b, w1) -> folds (S i) w1 b xs c w2 -> folds i w a (x :: xs) c w2.
End SpecReduce.
Arguments folds {W}.

(** the elements whose answer is true *)
Fixpoint selected (xs ys : list value) : list value :=
  match xs, ys with
  | x :: xs, y :: ys => if to_bool y then x :: selected xs ys else selected xs ys
  | _, _ => []
  end.
(** the elements whose answer is the key [q] *)
Fixpoint with_key (q : value) (xs ks : list value) : list value :=
  match xs, ks with
  | x :: xs, k :: ks => if key_match q k then x :: with_key q xs ks else with_key q xs ks
  | _, _ => []
  end.

(** the function never changes the collection *)
Definition leaves_alone {W} (elems : W -> list value) (f : value -> W -> result value * W) : Prop :=
  forall x w, elems (snd (f x w)) = elems w.

(** every list is of length n, but for the last, which is of length 1..n *)
Fixpoint chunked (n : nat) (ls : list (list value)) : Prop :=
  match ls with
  | [] => True
  | [l] => 1 <= length l <= n
  | l :: r => length l = n /\ chunked n r
  end.
