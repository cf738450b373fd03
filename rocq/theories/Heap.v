(** Heaps: vm/value/collections.rs:215-265 wraps std's `BinaryHeap<Reverse<ValuePtr>>`.
    The algorithms below are those of alloc::collections::binary_heap (push, pop,
    rebuild, sift_up, sift_down_range, sift_down_to_bottom), written over the list of
    the heap's backing array.  std moves a "hole" and writes the element once at the
    end; here the element is swapped along, which leaves the same array.
    [le a b] is `a <= b` on Cordy values; under `Reverse` std's `x <= y` is `le y x`.
    [fuel] bounds the number of iterations (the array length always suffices). *)
From Verif Require Import Base Value Seq.
Local Open Scope nat_scope.

Section Heap.
  Variable A : Type.
  Variable d : A.                 (* never read: a default for out-of-range positions *)
  Variable le : A -> A -> bool.
  Definition get (l : list A) (i : nat) : A := nth i l d.
  Definition swap (l : list A) (i j : nat) : list A := update (update l i (get l j)) j (get l i).

  (** sift_up(0, pos) *)
  Fixpoint sift_up (fuel : nat) (l : list A) (pos : nat) : list A :=
    match fuel with
    | O => l
    | S n =>
        if pos =? 0 then l else
        let parent := (pos - 1) / 2 in
        if le (get l parent) (get l pos) then l          (* hole.element() <= hole.get(parent) *)
        else sift_up n (swap l pos parent) parent
    end.
  (** the descent of sift_down_to_bottom(pos): returns the array and the final position *)
  Fixpoint sink (fuel : nat) (l : list A) (pos : nat) : list A * nat :=
    match fuel with
    | O => (l, pos)
    | S n =>
        let child := 2 * pos + 1 in
        if child <=? length l - 2 then                                  (* child <= end.saturating_sub(2) *)
          let child := if le (get l (child + 1)) (get l child) then child + 1 else child in
          sink n (swap l pos child) child
        else if child =? length l - 1 then (swap l pos child, child)
        else (l, pos)
    end.
  Definition sift_down_to_bottom (l : list A) : list A :=
    let '(l', pos) := sink (length l) l 0 in sift_up (length l) l' pos.
  (** sift_down(pos) *)
  Fixpoint sift_down (fuel : nat) (l : list A) (pos : nat) : list A :=
    match fuel with
    | O => l
    | S n =>
        let child := 2 * pos + 1 in
        if child <=? length l - 2 then
          let child := if le (get l (child + 1)) (get l child) then child + 1 else child in
          if le (get l pos) (get l child) then l                        (* hole.element() >= hole.get(child) *)
          else sift_down n (swap l pos child) child
        else if (child =? length l - 1) && negb (le (get l pos) (get l child)) then swap l pos child
        else l
    end.
  (** BinaryHeap::push *)
  Definition heap_push (x : A) (l : list A) : list A := sift_up (S (length l)) (l ++ [x]) (length l).
  (** BinaryHeap::pop: take the last element; if others remain, swap it with the root and sift *)
  Definition heap_pop (l : list A) : option (A * list A) :=
    match rev l with
    | [] => None
    | item :: r => match rev r with
                   | [] => Some (item, [])
                   | x :: l' => Some (x, sift_down_to_bottom (item :: l'))
                   end
    end.
  (** BinaryHeap::peek *)
  Definition heap_peek (l : list A) : option A := match l with [] => None | x :: _ => Some x end.
  (** BinaryHeap::rebuild, used by collect() *)
  Fixpoint rebuild_from (n : nat) (l : list A) : list A :=
    match n with O => l | S n' => rebuild_from n' (sift_down (length l) l n') end.
  Definition heap_of_list (l : list A) : list A := rebuild_from (length l / 2) l.
End Heap.
Arguments get {A}. Arguments swap {A}. Arguments sift_up {A}. Arguments sink {A}. Arguments sift_down_to_bottom {A}. Arguments sift_down {A}.
Arguments heap_push {A}. Arguments heap_pop {A}. Arguments heap_peek {A}. Arguments rebuild_from {A}. Arguments heap_of_list {A}.

(** core/collections.rs:444-490 push/pop/peek on a heap, core/mod.rs:1046 `heap(...)` *)
Definition vheap_push (x : value) (h : list value) : list value := heap_push VNil vle x h.
Definition vheap_pop (h : list value) : option (value * list value) := heap_pop VNil vle h.
Definition vheap_of_list (l : list value) : list value := heap_of_list VNil vle l.
