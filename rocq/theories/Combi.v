(** core/collections.rs:309-331 permutations and combinations, with the adaptors of itertools
    0.10.5 they use: src/lazy_buffer.rs, src/combinations.rs, src/permutations.rs of that crate
    (which is not part of /repo; modelled from its documentation and sources).

    An argument is the list of elements its iterator yields.  Requests for more memory than there
    is (a huge `n`) are not modelled. *)
From Verif Require Import Base Native Value Err Seq.
Local Open Scope nat_scope.

Section itertools.
Context {V : Type}.

(** lazy_buffer.rs: elements fetched so far, elements still in the iterator *)
Record buffer := Buffer { fetched : list V; rest : list V }.
(** get_next: whether there was one *)
Definition get_next (b : buffer) : bool * buffer :=
  match rest b with [] => (false, b) | x :: r => (true, Buffer (fetched b ++ [x]) r) end.
(** prefill: fetch until [k] elements are there *)
Fixpoint prefill (n k : nat) (b : buffer) : buffer :=
  match n with
  | O => b
  | S n => if length (fetched b) <? k then let '(more, b) := get_next b in if more then prefill n k b else b else b
  end.
Definition at_ (b : buffer) (i : nat) : option V := nth_error (fetched b) i.
(** the elements at given indices; [None]: an index is out of bounds (panic) *)
Fixpoint pick (b : buffer) (is_ : list nat) : option (list V) :=
  match is_ with [] => Some [] | i :: r => match at_ b i, pick b r with Some x, Some l => Some (x :: l) | _, _ => None end end.

(** combinations.rs: struct Combinations *)
Record combinations := Combinations { c_indices : list nat; c_pool : buffer; c_first : bool }.
Definition combinations_new (l : list V) (k : nat) : combinations :=
  Combinations (seq 0 k) (prefill k k (Buffer [] l)) true.
(** the scan from the end for an index to increment; [i]: one above the index looked at *)
Fixpoint scan (len k : nat) (ind : list nat) (i : nat) : option nat :=
  match i with
  | O => None
  | S i => if nth i ind 0 =? i + len - k then scan len k ind i else Some i
  end.
(** increment index [i] and reset those to its right *)
Definition bump (ind : list nat) (i : nat) : list nat := firstn i ind ++ seq (S (nth i ind 0)) (length ind - i).
(** Combinations::next: None at the end, otherwise the indices chosen; the values are picked by the caller *)
Definition combinations_next (c : combinations) : option (list nat) * combinations :=
  let ind := c_indices c in
  let k := length ind in
  if c_first c then
    if length (fetched (c_pool c)) <? k then (None, c) else (Some ind, Combinations ind (c_pool c) false)
  else match k with
  | O => (None, c)
  | S i =>
      let pool := if nth i ind 0 =? length (fetched (c_pool c)) - 1 then snd (get_next (c_pool c)) else c_pool c in
      match scan (length (fetched pool)) k ind k with
      | None => (None, Combinations ind pool false)
      | Some i => let ind := bump ind i in (Some ind, Combinations ind pool false)
      end
  end.
(** collecting the iterator: [None] if not finished after [n] elements, or a panic *)
Fixpoint combinations_collect (n : nat) (c : combinations) : option (list (list V)) :=
  match n with
  | O => None
  | S n =>
      match combinations_next c with
      | (None, _) => Some []
      | (Some ind, c) => match pick (c_pool c) ind, combinations_collect n c with Some x, Some l => Some (x :: l) | _, _ => None end
      end
  end.

(** permutations.rs: CompleteState; here the length of [cycles] is k *)
Inductive complete := Start (n k : nat) | Ongoing (indices cycles : list nat).
Definition remove_at {A} (i : nat) (l : list A) : list A := firstn i l ++ skipn (S i) l.
Definition swap_at (i j : nat) (l : list nat) : list nat := update (update l i (nth j l 0)) j (nth i l 0).
(** CompleteState::advance, the loop over i in (0..k).rev(); [i]: one above *)
Fixpoint advance_from (i : nat) (indices cycles : list nat) : complete :=
  let n := length indices in
  match i with
  | O => Start n (length cycles)
  | S i =>
      if nth i cycles 0 =? 0
      then advance_from i (remove_at i indices ++ [nth i indices 0]) (update cycles i (n - i - 1))
      else Ongoing (swap_at i (n - nth i cycles 0) indices) (update cycles i (nth i cycles 0 - 1))
  end.
Definition complete_advance (c : complete) : complete :=
  match c with
  | Start n k => Ongoing (seq 0 n) (rev (seq (n - k) k))
  | Ongoing indices cycles => advance_from (length cycles) indices cycles
  end.
Fixpoint complete_advances (m : nat) (c : complete) : complete := match m with O => c | S m => complete_advances m (complete_advance c) end.

Inductive pstate := StartUnknownLen (k : nat) | OngoingUnknownLen (k min_n : nat) | Complete (c : complete) | Empty.
Record permutations := Permutations { p_vals : buffer; p_state : pstate }.
Definition permutations_new (l : list V) (k : nat) : permutations :=
  match k with
  | O => Permutations (Buffer [] l) (Complete (Start 0 0))
  | _ => let b := prefill k k (Buffer [] l) in
         Permutations b (if length (fetched b) <? k then Empty else StartUnknownLen k)
  end.
Definition permutations_advance (p : permutations) : permutations :=
  match p_state p with
  | StartUnknownLen k => Permutations (p_vals p) (OngoingUnknownLen k k)
  | OngoingUnknownLen k min_n =>
      let '(more, vals) := get_next (p_vals p) in
      if more then Permutations vals (OngoingUnknownLen k (min_n + 1))
      else Permutations vals (Complete (complete_advances (min_n - k + 1 + 1) (Start min_n k)))
  | Complete c => Permutations (p_vals p) (Complete (complete_advance c))
  | Empty => p
  end.
(** Permutations::next *)
Definition permutations_next (p : permutations) : option (list nat) * permutations :=
  let p := permutations_advance p in
  (match p_state p with
   | StartUnknownLen _ | Empty => None
   | OngoingUnknownLen k min_n => Some (seq 0 (k - 1) ++ [min_n - 1])
   | Complete (Start _ _) => None
   | Complete (Ongoing indices cycles) => Some (firstn (length cycles) indices)
   end, p).
Fixpoint permutations_collect (n : nat) (p : permutations) : option (list (list V)) :=
  match n with
  | O => None
  | S n =>
      match permutations_next p with
      | (None, _) => Some []
      | (Some ind, p) => match pick (p_vals p) ind, permutations_collect n p with Some x, Some l => Some (x :: l) | _, _ => None end
      end
  end.
End itertools.

(** collections.rs:309-319; [fuel]: a bound for the number of results, None: not enough *)
Definition builtin_permutations (fuel : nat) (n : value) (l : list value) : option (result value) :=
  match as_int_checked n with
  | Err e => Some (Err e)
  | Panic => Some Panic
  | Ok n => if (n <=? 0)%Z then Some (Err (ValueErrorArgMustBeNonNegativeInt NF_Permutations))
            else match permutations_collect fuel (permutations_new l (Z.to_nat n)) with
                 | Some r => Some (Ok (VList (map VVector r)))
                 | None => None
                 end
  end.
(** collections.rs:321-331 *)
Definition builtin_combinations (fuel : nat) (n : value) (l : list value) : option (result value) :=
  match as_int_checked n with
  | Err e => Some (Err e)
  | Panic => Some Panic
  | Ok n => if (n <=? 0)%Z then Some (Err (ValueErrorArgMustBeNonNegativeInt NF_Combinations))
            else match combinations_collect fuel (combinations_new l (Z.to_nat n)) with
                 | Some r => Some (Ok (VList (map VVector r)))
                 | None => None
                 end
  end.
