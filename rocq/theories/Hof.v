(** Builtins that call back into user code: core/collections.rs:163-213, 260-301, 333-433,
    587-634.

    [W] is the state of the whole interpreter; a callback is any function that reads and
    changes it.  Iterators over lists, vectors, sets and dicts re-read the live collection
    at each step (vm/value/mod.rs:908-931), so [elems w] are the elements the iterated
    value has in state [w]; strings, ranges and heaps have constant elements.  A loop
    whose collection grows forever does not end: [fuel] bounds the number of steps, and
    [None] means it was not enough. *)
From Verif Require Import Base Native Value Err Iter Seq Ops Coll.
Local Open Scope nat_scope.

Section Hof.
  Variable W : Type.
  Variable elems : W -> list value.

  (** `for r in args.to_iter()? { body }`: the body continues with a new accumulator
      ([inl]) or returns from the builtin ([inr]) *)
  Fixpoint live {A} (fuel i : nat) (body : nat -> value -> A -> W -> result (A + value) * W) (acc : A) (w : W) : option (result (A + value) * W) :=
    match fuel with
    | O => None
    | S n =>
        match nth_error (elems w) i with
        | None => Some (Ok (inl acc), w)
        | Some x =>
            match body i x acc w with
            | (Ok (inl a), w') => live n (S i) body a w'
            | r => Some r
            end
        end
    end.
  Definition finish {A} (k : A -> value) (r : option (result (A + value) * W)) : option (result value * W) :=
    match r with
    | None => None
    | Some (Ok (inl a), w) => Some (Ok (k a), w)
    | Some (Ok (inr v), w) => Some (Ok v, w)
    | Some (Err e, w) => Some (Err e, w)
    | Some (Panic, w) => Some (Panic, w)
    end.
  (** `f.invoke(r, vm)?` then the rest of the body *)
  Definition then_ {A} (r : result value * W) (k : value -> result (A + value)) : result (A + value) * W :=
    match r with
    | (Ok y, w) => (k y, w)
    | (Err e, w) => (Err e, w)
    | (Panic, w) => (Panic, w)
    end.
  (** the two checks `InvokeArg::from(f)?` and `args.to_iter()?`, in the order given *)
  Definition checked {A} (c1 c2 : result unit) (w : W) (k : option (result A * W)) : option (result A * W) :=
    match c1, c2 with
    | Ok _, Ok _ => k
    | Err e, _ => Some (Err e, w)
    | Panic, _ => Some (Panic, w)
    | Ok _, Err e => Some (Err e, w)
    | Ok _, Panic => Some (Panic, w)
    end.

  Variable from : result unit.   (* outcome of InvokeArg::from on the function argument *)
  Variable iter : result unit.   (* outcome of to_iter on the iterable argument *)
  Variable f : value -> W -> result value * W.

  (** 355-363 map *)
  Definition hof_map (fuel : nat) (w : W) : option (result value * W) :=
    checked from iter w (finish (@VList) (live fuel 0 (fun _ x acc w => then_ (f x w) (fun y => Ok (inl (acc ++ [y])))) [] w)).
  (** 365-376 filter *)
  Definition hof_filter (fuel : nat) (w : W) : option (result value * W) :=
    checked from iter w (finish (@VList) (live fuel 0 (fun _ x acc w => then_ (f x w) (fun y => Ok (inl (if to_bool y then acc ++ [x] else acc)))) [] w)).
  (** 344-352 predicate (`any`, `all`) *)
  Definition hof_predicate (is_any : bool) (fuel : nat) (w : W) : option (result value * W) :=
    checked from iter w (finish (fun _ : unit => VBool (negb is_any))
      (live fuel 0 (fun _ x acc w => then_ (f x w) (fun y => Ok (if Bool.eqb (to_bool y) is_any then inr (VBool is_any) else inl tt))) tt w)).
  (** 378-395 flat_map with a function; [items y] is what iterating the result yields, or
      the error of `to_iter` *)
  Definition hof_flat_map (items : value -> result (list value)) (fuel : nat) (w : W) : option (result value * W) :=
    checked from iter w (finish (@VList)
      (live fuel 0 (fun _ x acc w => then_ (f x w) (fun y => let? l := items y in Ok (inl (acc ++ l)))) [] w)).
  (** 587-610 left_find with a function: `find` and `index_of` *)
  Definition hof_find (return_index : bool) (fuel : nat) (w : W) : option (result value * W) :=
    checked iter from w (finish (fun _ : unit => if return_index then VInt (-1) else VNil)
      (live fuel 0 (fun i x acc w => then_ (f x w) (fun y => Ok (if to_bool y then inr (if return_index then usize_value i else x) else inl tt))) tt w)).
  (** 612-634 right_find with a function (`rfind`, `rindex_of`): positions count down from
      the length at the start (mod.rs:955-961); [i] calls have been made *)
  Fixpoint live_rev (n : nat) (i : nat) (len : nat) (return_index : bool) (w : W) : result value * W :=
    let none := if return_index then VInt (-1) else VNil in
    match n with
    | O => (Ok none, w)
    | S n' =>
        match nth_error (elems w) n' with
        | None => (Ok none, w)
        | Some x =>
            match f x w with
            | (Ok y, w') => if to_bool y then (Ok (if return_index then usize_value (len - 1 - i) else x), w') else live_rev n' (S i) len return_index w'
            | (Err e, w') => (Err e, w')
            | (Panic, w') => (Panic, w')
            end
        end
    end.
  Definition hof_rfind (return_index : bool) (w : W) : option (result value * W) :=
    checked iter from w (Some (live_rev (length (elems w)) 0 (length (elems w)) return_index w)).
  (** 421-433 reduce: the first element is taken before the function is checked *)
  Definition hof_reduce (f2 : value -> value -> W -> result value * W) (fuel : nat) (w : W) : option (result value * W) :=
    match iter with
    | Err e => Some (Err e, w)
    | Panic => Some (Panic, w)
    | Ok _ =>
        match nth_error (elems w) 0 with
        | None => Some (Err (ValueErrorArgMustBeNonEmpty NF_Reduce), w)
        | Some x0 =>
            match from with
            | Err e => Some (Err e, w)
            | Panic => Some (Panic, w)
            | Ok _ => finish (fun v => v) (live fuel 1 (fun _ x acc w => then_ (f2 acc x w) (fun y => Ok (inl y))) x0 w)
            end
        end
    end.
  (** 281-301 group_by with a function: entry(key).or_insert_with(vector).push(value) *)
  Fixpoint group_push (k x : value) (m : list (value * list value)) : list (value * list value) :=
    match m with
    | [] => [(k, [x])]
    | (k', g) :: r => if key_match k k' then (k', g ++ [x]) :: r else (k', g) :: group_push k x r
    end.
  Definition groups_value (m : list (value * list value)) : value := VDict (map (fun p => (fst p, VVector (snd p))) m).
  Definition hof_group_by (fuel : nat) (w : W) : option (result value * W) :=
    checked iter from w (finish groups_value (live fuel 0 (fun _ x acc w => then_ (f x w) (fun y => Ok (inl (group_push y x acc)))) [] w)).

  (** 176-182 min_by and 204-210 max_by with a key function: std `min_by_key` computes the
      key of each element once, in order; `util::catch` (util.rs:25-34) replaces a failed
      key by nil, remembers the (latest) error and goes on *)
  Definition catch_key (r : result value * W) (err : option error) : option (value * option error) * W :=
    match r with
    | (Ok y, w) => (Some (y, err), w)
    | (Err e, w) => (Some (VNil, Some e), w)
    | (Panic, w) => (None, w)
    end.
  Definition by_state : Type := option (value * value) * option error.      (* best (key, element); error *)
  Definition min_by_body (is_min : bool) (_ : nat) (x : value) (st : by_state) (w : W) : result (by_state + value) * W :=
    match catch_key (f x w) (snd st) with
    | (None, w') => (Panic, w')
    | (Some (k, err), w') =>
        let best := match fst st with
                    | None => (k, x)
                    | Some (bk, bx) =>
                        match value_cmp bk k with
                        | Gt => if is_min then (k, x) else (bk, bx)
                        | _ => if is_min then (bk, bx) else (k, x)
                        end
                    end in
        (Ok (inl (Some best, err)), w')
    end.
  Definition hof_min_by (is_min : bool) (fuel : nat) (w : W) : option (result value * W) :=
    checked iter from w
      match live fuel 0 (min_by_body is_min) (None, None) w with
      | None => None
      | Some (Ok (inl (None, _)), w') => Some (Err (ValueErrorArgMustBeNonEmpty (if is_min then NF_MinBy else NF_MaxBy)), w')
      | Some (Ok (inl (Some (_, x), None)), w') => Some (Ok x, w')
      | Some (Ok (inl (Some _, Some e)), w') => Some (Err e, w')
      | Some (Ok (inr v), w') => Some (Ok v, w')
      | Some (Err e, w') => Some (Err e, w')
      | Some (Panic, w') => Some (Panic, w')
      end.
End Hof.
Arguments live {W} elems {A}. Arguments finish {W A}. Arguments then_ {W A}. Arguments checked {W A}.
Arguments hof_map {W}. Arguments hof_filter {W}. Arguments hof_predicate {W}. Arguments hof_flat_map {W}. Arguments hof_find {W}.
Arguments live_rev {W}. Arguments hof_rfind {W}. Arguments hof_reduce {W}. Arguments hof_group_by {W}. Arguments hof_min_by {W}. Arguments min_by_body {W}. Arguments catch_key {W}.

(** 260-280 group_by with an int, over what the iterator yields *)
Fixpoint chunk_loop (size : nat) (l group : list value) : list value :=
  match l with
  | [] => match group with [] => [] | _ => [VVector group] end
  | x :: r => let g := group ++ [x] in
              if length g =? size then VVector g :: chunk_loop size r [] else chunk_loop size r g
  end.
Definition group_by_int (by_ : value) (l : list value) : option (result value) :=
  match as_int_opt by_ with
  | None => None                                   (* not an int: the function case *)
  | Some i => Some (if (i <=? 0)%Z then Err (ValueErrorValueMustBePositive i) else Ok (VList (chunk_loop (Z.to_nat i) l [])))
  end.
