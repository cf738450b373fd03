(** Indexing and slicing: vm/value/mod.rs:366-374, 1000-1053; vm/value/slice.rs;
    core/collections.rs:16-25, 64-145. *)
From Verif Require Import Base Ptr Native Value Err.
Local Open Scope Z_scope.

(** core/collections.rs:125-131 *)
Definition to_index (len i : Z) : Z := if i >=? 0 then i else i64 (len + i).

(** length in bytes of a string, `str::len` *)
Definition byte_len (s : list Z) : Z := Z.of_nat (length (utf8 s)).

(** mod.rs:1008-1014 Indexable::len and slice.rs:99-105 Sliceable::len.
    N.B. for strings this is the length in bytes, not in characters. *)
Definition index_len (v : value) : option Z :=
  match v with
  | VStr s => Some (byte_len s)
  | VList l | VVector l => Some (Z.of_nat (length l))
  | _ => None
  end.

(** mod.rs:1017-1026 check_index: `to_index(..) as usize` compared to the length *)
Definition check_index (len : Z) (index : value) : result nat :=
  let? i := as_int_checked index in
  let raw := u64 (to_index len i) in
  if raw <? len then Ok (Z.to_nat raw) else Err (ValueErrorIndexOutOfBounds i len).

(** core/collections.rs:16-25 get_index, non-dict part, with mod.rs:1028-1034 *)
Definition get_index (v index : value) : result value :=
  match index_len v with
  | None => Err (TypeErrorArgMustBeIndexable v)
  | Some n =>
      let? i := check_index n index in
      match v with
      | VStr s => match nth_error s i with Some c => Ok (VStr [c]) | None => Panic end
      | VList l | VVector l => match nth_error l i with Some x => Ok x | None => Panic end
      | _ => Panic
      end
  end.

(** replace position i *)
Fixpoint update {A} (l : list A) (i : nat) (x : A) : list A :=
  match l, i with
  | [], _ => []
  | _ :: r, O => x :: r
  | y :: r, S i' => y :: update r i' x
  end.

(** core/collections.rs:64-75 set_index, non-dict part, with mod.rs:1037-1050; the
    result is the new contents of the collection *)
Definition set_index (v index x : value) : result value :=
  match index_len v with
  | None => Err (TypeErrorArgMustBeIndexable v)
  | Some n =>
      let? i := check_index n index in
      match v with
      | VStr s => Err (TypeErrorArgMustBeIndexable v)
      | VList l => if (i <? length l)%nat then Ok (VList (update l i x)) else Panic
      | VVector l => if (i <? length l)%nat then Ok (VVector (update l i x)) else Panic
      | _ => Panic
      end
  end.

(** core/collections.rs:84-92 unwrap_or *)
Definition slice_arg (v : value) (default : Z) : result Z :=
  match as_int_opt v with
  | Some i => Ok i
  | None => match v with VNil => Ok default | _ => Err (TypeErrorArgMustBeInt v) end
  end.

(** std `(start..stop).step_by(step)` on i64 (overflow-free by construction), step >= 1;
    [fuel] is an upper bound on the number of steps *)
Fixpoint step_range (fuel : nat) (start stop step : Z) : list Z :=
  match fuel with
  | O => []
  | S f => if start <? stop then start :: step_range f (start + step) stop step else []
  end.
(** core/collections.rs:134-145 rev_range *)
Fixpoint rev_range (fuel : nat) (start stop step : Z) : list Z :=
  match fuel with
  | O => []
  | S f => if start <=? stop then []
           else let s := i64 (start - step) in i64 (s + step) :: rev_range f s stop step
  end.

(** slice.rs:108-117 accept, over all indices in order *)
Fixpoint accept_all {A} (len : Z) (l : list A) (idx : list Z) : result (list A) :=
  match idx with
  | [] => Ok []
  | i :: r =>
      if (i >=? 0) && (i <? len) then
        match nth_error l (Z.to_nat i) with
        | Some x => let? xs := accept_all len l r in Ok (x :: xs)
        | None => Panic
        end
      else accept_all len l r
  end.

(** core/collections.rs:81-121 get_slice *)
Definition get_slice (target low high step : value) : result value :=
  match index_len target with
  | None => Err (TypeErrorArgMustBeSliceable target)
  | Some length =>
      let? step := slice_arg step 1 in
      if step =? 0 then Err ValueErrorStepCannotBeZero else
      let? low := slice_arg low (if step >? 0 then 0 else -1) in
      let? high := slice_arg high (if step >? 0 then length else i64 (- length - 1)) in
      let abs_start := to_index length low in
      let abs_stop := to_index length high in
      let abs_step := Z.abs step in
      let idx := if step >? 0
                 then step_range (Z.to_nat (abs_stop - abs_start)) abs_start abs_stop abs_step
                 else rev_range (Z.to_nat (abs_start - abs_stop)) abs_start abs_stop abs_step in
      match target with
      | VStr s => let? r := accept_all length s idx in Ok (VStr r)
      | VList l => let? r := accept_all length l idx in Ok (VList r)
      | VVector l => let? r := accept_all length l idx in Ok (VVector r)
      | _ => Panic
      end
  end.

(** slice.rs:26-37: building a slice value `[a:b:c]` checks its parts; applying it is get_slice *)
Definition make_slice (a b c : value) : result value :=
  let check (v : value) : result value :=
    match as_int_opt v, v with
    | Some _, _ => Ok v
    | None, VNil => Ok v
    | None, _ => Err (TypeErrorArgMustBeInt v)
    end in
  let? a := check a in let? b := check b in let? c := check c in Ok (VSlice a b c).
Definition apply_slice (s target : value) : result value :=
  match s with VSlice a b c => get_slice target a b c | _ => Err (ValueIsNotFunctionEvaluable s) end.
