(** Ranges and iterators: vm/value/range.rs, vm/value/mod.rs:329-347, 400-413, 858-980.

    An iterator over a collection holds a snapshot of its elements (the real one
    re-borrows the live collection at each step; mutation during iteration is not
    modelled here). *)
From Verif Require Import Base Ptr Native Value.
Local Open Scope Z_scope.

Record range := Range { r_start : Z; r_stop : Z; r_step : Z }.

(** range.rs:36-46; [None] is ValueErrorStepCannotBeZero *)
Definition range_from (start stop step : Z) : option range :=
  if step =? 0 then None
  else if ((stop >? start) && (step >? 0)) || ((stop <? start) && (step <? 0)) then Some (Range start stop step)
  else Some (Range 0 0 0).

(** Rust's `%` on i64: truncated remainder *)
Definition rem64 (x y : Z) : Z := i64 (Z.rem x y).

(** range.rs:53-59 *)
Definition range_contains (r : range) (v : Z) : bool :=
  match r_step r ?= 0 with
  | Eq => false
  | Gt => (v >=? r_start r) && (v <? r_stop r) && (rem64 (i64 (v - r_start r)) (r_step r) =? 0)
  | Lt => (v <=? r_start r) && (v >? r_stop r) && (rem64 (i64 (r_start r - v)) (r_step r) =? 0)
  end.

(** range.rs:108-114 (`abs_diff`, `unsigned_abs`, u64 division) *)
Definition range_len (r : range) : Z :=
  if r_step r =? 0 then 0 else Z.abs (r_start r - r_stop r) / Z.abs (r_step r).

(** range.rs:62-76 *)
Definition range_reverse (r : range) : range :=
  match r_step r ?= 0 with
  | Eq => r
  | Gt => Range (i64 (r_start r + i64 (i64 (range_len r) * r_step r))) (i64 (r_start r + 1)) (i64 (- r_step r))
  | Lt => Range (i64 (r_start r + i64 (i64 (range_len r) * r_step r))) (i64 (r_start r - 1)) (i64 (- r_step r))
  end.

(** range.rs:80-97: the returned value and the advanced `current`; the integer is
    stored in a value, hence wrapped to 63 bits *)
Definition range_next (r : range) (cur : Z) : option value * Z :=
  if (cur =? r_stop r) || (r_step r =? 0) then (None, cur)
  else if r_step r >? 0 then
    let c := i64 (cur + r_step r) in (Some (VInt (wrap63 cur)), if c >? r_stop r then r_stop r else c)
  else
    let c := i64 (cur + r_step r) in (Some (VInt (wrap63 cur)), if c <? r_stop r then r_stop r else c).

(** mod.rs:858-866 enum Iterable.  [ItStr] holds the characters not yet consumed and
    the original length; `RawVector` (heaps) and `Collection` step alike. *)
Inductive iterable :=
| ItStr (rest : list Z) (len : nat)
| ItUnit (v : option value)
| ItColl (index : nat) (items : list value)
| ItRange (cur : Z) (r : range)
| ItEnum (index : nat) (it : iterable).

(** mod.rs:641: a pair is a two element vector *)
Definition pair_value (a b : value) : value := VVector [a; b].
(** mod.rs:631 *)
Definition usize_value (n : nat) : value := VInt (wrap63 (i64 (Z.of_nat n))).

(** mod.rs:921-946 `next` *)
Fixpoint iter_next (it : iterable) : option value * iterable :=
  match it with
  | ItStr [] n => (None, it)
  | ItStr (c :: r) n => (Some (VStr [c]), ItStr r n)
  | ItUnit v => (v, ItUnit None)
  | ItColl i l => (nth_error l i, ItColl (S i) l)
  | ItRange c r => let '(o, c') := range_next r c in (o, ItRange c' r)
  | ItEnum i it' =>
      let '(o, it'') := iter_next it' in
      (match o with Some u => Some (pair_value (usize_value i) u) | None => None end, ItEnum (S i) it'')
  end.

(** mod.rs:871-880 `len`: the length of the underlying iterable *)
Fixpoint iter_len (it : iterable) : Z :=
  match it with
  | ItStr _ n => Z.of_nat n
  | ItUnit v => match v with Some _ => 1 | None => 0 end
  | ItColl _ l => Z.of_nat (length l)
  | ItRange _ r => range_len r
  | ItEnum _ it' => iter_len it'
  end.

(** mod.rs:882-891 `reverse` *)
Fixpoint iter_reverse (it : iterable) : iterable :=
  match it with
  | ItRange _ r => let r' := range_reverse r in ItRange (r_start r') r'
  | ItColl _ l => ItColl (length l) l
  | ItEnum _ it' => ItEnum (Z.to_nat (iter_len it)) (iter_reverse it')
  | ItStr _ _ | ItUnit _ => it
  end.

(** mod.rs:948-977 `IterableRev::next`.  N.B. the Enumerate arm calls the *forward*
    `next` of its inner boxed Iterable and swaps the pair. *)
Definition iter_rev_next (it : iterable) : option value * iterable :=
  match it with
  | ItStr l n => match rev l with
                 | [] => (None, it)
                 | c :: r => (Some (VStr [c]), ItStr (rev r) n)
                 end
  | ItUnit v => (v, ItUnit None)
  | ItColl O l => (None, it)
  | ItColl (S i) l => (nth_error l i, ItColl i l)
  | ItRange c r => let '(o, c') := range_next r c in (o, ItRange c' r)
  | ItEnum i it' =>
      let '(o, it'') := iter_next it' in
      (match o with Some u => Some (pair_value u (usize_value i)) | None => None end, ItEnum (S i) it'')
  end.

(** mod.rs:331-347 `to_iter`; [None] is TypeErrorArgMustBeIterable *)
Fixpoint to_iter (v : value) : option iterable :=
  match v with
  | VStr s => Some (ItStr s (length s))
  | VList l | VSet l | VVector l | VHeap l => Some (ItColl 0 l)
  | VDict l => Some (ItColl 0 (map (fun p => pair_value (fst p) (snd p)) l))
  | VRange a b s => Some (ItRange a (Range a b s))
  | VEnumerate x => match to_iter x with Some it => Some (ItEnum 0 it) | None => None end
  | _ => None
  end.

(** mod.rs:400-413 `len` *)
Fixpoint value_len (v : value) : option Z :=
  match v with
  | VStr s => Some (Z.of_nat (length s))
  | VList l | VSet l | VVector l | VHeap l => Some (Z.of_nat (length l))
  | VDict l => Some (Z.of_nat (length l))
  | VRange a b s => Some (range_len (Range a b s))
  | VEnumerate x => value_len x
  | _ => None
  end.

(** core/collections.rs:590-636 find / index_of / rfind / rindex_of with a plain
    value, as functions of the sequence [l] the (reversed) iterator yields: std's
    `position` and `find`. *)
Fixpoint position (x : value) (l : list value) : option nat :=
  match l with
  | [] => None
  | y :: r => if value_eq y x then Some O else match position x r with Some i => Some (S i) | None => None end
  end.
Definition left_index (x : value) (l : list value) : Z :=
  match position x l with Some i => Z.of_nat i | None => -1 end.
Definition right_index (x : value) (l : list value) (len : Z) : Z :=
  match position x l with Some i => i64 (len - 1 - Z.of_nat i) | None => -1 end.

(** core/collections.rs:612-636 right_find with a plain value: `to_iter().reverse()`,
    the length is that of the *reversed* iterator.  [l] is what that iterator yields. *)
Definition right_find_index (x : value) (it : iterable) (l : list value) : Z :=
  right_index x l (iter_len (iter_reverse it)).

(** core/collections.rs `reverse` (builtin): collects the iterator and reverses the
    vector.  [l] is what the iterator yields. *)
Definition builtin_reverse (l : list value) : value := VList (rev l).
