(** The mutating collection builtins: core/collections.rs:27-75, 151-258, 397-419, 435-585, 642-699 and
    vm/value/collections.rs.

    A collection is its current contents; a builtin that mutates its target returns
    its answer together with the new contents of the target.  Aliasing between the
    arguments, and mutation of a key while it sits in a set or dict, are not modelled
    here.  VecDeque, IndexSet and IndexMap (indexmap 2.0.0) are modelled by lists of
    their elements in iteration order; a hash lookup matches by [key_match]. *)
From Verif Require Import Base Native Value Err Iter Seq Ops Heap.
Local Open Scope Z_scope.

Definition entries := list (value * value).

(** IndexMap::get *)
Fixpoint map_get (k : value) (l : entries) : option value :=
  match l with
  | [] => None
  | (k', x) :: r => if key_match k k' then Some x else map_get k r
  end.
(** IndexMap::insert: an existing entry keeps its key and position, a new one goes last *)
Fixpoint map_insert (k x : value) (l : entries) : entries :=
  match l with
  | [] => [(k, x)]
  | (k', y) :: r => if key_match k k' then (k', x) :: r else (k', y) :: map_insert k x r
  end.
(** IndexMap::shift_remove: whether there was one, and what is left *)
Fixpoint map_shift_remove (k : value) (l : entries) : bool * entries :=
  match l with
  | [] => (false, [])
  | (k', y) :: r => if key_match k k' then (true, r) else let '(b, r') := map_shift_remove k r in (b, (k', y) :: r')
  end.
(** IndexMap::entry(k).or_insert(x): the value now under the key *)
Definition map_or_insert (k x : value) (l : entries) : value * entries :=
  match map_get k l with Some y => (y, l) | None => (x, l ++ [(k, x)]) end.
(** IndexSet::shift_remove *)
Fixpoint set_shift_remove (x : value) (l : list value) : bool * list value :=
  match l with
  | [] => (false, [])
  | y :: r => if key_match x y then (true, r) else let '(b, r') := set_shift_remove x r in (b, y :: r')
  end.
(** IndexSet::remove is swap_remove: the last element takes the place of the removed one *)
Fixpoint index_of_key (x : value) (l : list value) : option nat :=
  match l with
  | [] => None
  | y :: r => if key_match x y then Some O else match index_of_key x r with Some i => Some (S i) | None => None end
  end.
Definition set_swap_remove (x : value) (l : list value) : list value :=
  match index_of_key x l with
  | None => l
  | Some i => firstn (length l - 1) (update l i (last l VNil))
  end.
(** VecDeque/IndexSet/IndexMap::pop (pop_back) *)
Definition pop_back {A} (l : list A) : option (A * list A) :=
  match rev l with [] => None | x :: r => Some (x, rev r) end.

(** core/collections.rs:469-480 push *)
Definition push (x t : value) : result value * value :=
  match t with
  | VList l => let t' := VList (l ++ [x]) in (Ok t', t')
  | VSet l => let t' := VSet (set_insert x l) in (Ok t', t')
  | VHeap l => let t' := VHeap (vheap_push x l) in (Ok t', t')
  | _ => (Err (TypeErrorArgMustBeIterable t), t)
  end.
(** 482-485 push_front *)
Definition push_front (x t : value) : result value * value :=
  match t with
  | VList l => let t' := VList (x :: l) in (Ok t', t')
  | _ => (Err (TypeErrorArgMustBeList t), t)
  end.
(** 449-460 pop *)
Definition pop (t : value) : result value * value :=
  let none := (Err (ValueErrorArgMustBeNonEmpty NF_Pop), t) in
  match t with
  | VList l => match pop_back l with Some (x, l') => (Ok x, VList l') | None => none end
  | VSet l => match pop_back l with Some (x, l') => (Ok x, VSet l') | None => none end
  | VDict l => match pop_back l with Some ((k, x), l') => (Ok (pair_value k x), VDict l') | None => none end
  | VHeap l => match vheap_pop l with Some (x, l') => (Ok x, VHeap l') | None => none end
  | _ => (Err (TypeErrorArgMustBeIterable t), t)
  end.
(** 462-467 pop_front *)
Definition pop_front (t : value) : result value * value :=
  match t with
  | VList [] => (Err (ValueErrorArgMustBeNonEmpty NF_PopFront), t)
  | VList (x :: l) => (Ok x, VList l)
  | _ => (Err (TypeErrorArgMustBeList t), t)
  end.
(** 435-447 peek *)
Definition peek (t : value) : result value :=
  match (match t with
         | VList l | VSet l | VVector l => Some (hd_error l)
         | VDict l => Some (match l with [] => None | (k, x) :: _ => Some (pair_value k x) end)
         | VHeap l => Some (heap_peek l)
         | _ => None
         end) with
  | None => Err (TypeErrorArgMustBeIterable t)
  | Some None => Err (ValueErrorArgMustBeNonEmpty NF_Peek)
  | Some (Some x) => Ok x
  end.
(** 487-513 insert *)
Definition insert (index x t : value) : result value * value :=
  match t with
  | VList l =>
      match as_int_checked index with
      | Ok i =>
          let len := Z.of_nat (length l) in
          if (0 <=? i) && (i <? len) then
            let t' := VList (firstn (Z.to_nat i) l ++ x :: skipn (Z.to_nat i) l) in (Ok t', t')
          else if i =? len then let t' := VList (l ++ [x]) in (Ok t', t')
          else (Err (ValueErrorIndexOutOfBounds i len), t)
      | Err e => (Err e, t)
      | Panic => (Panic, t)
      end
  | VDict l => let t' := VDict (map_insert index x l) in (Ok t', t')
  | _ => (Err (TypeErrorArgMustBeIndexable t), t)
  end.
(** 515-537 remove *)
Definition remove (needle t : value) : result value * value :=
  match t with
  | VList l =>
      match as_int_checked needle with
      | Ok i =>
          let len := Z.of_nat (length l) in
          if (0 <=? i) && (i <? len) then
            match nth_error l (Z.to_nat i) with
            | Some x => (Ok x, VList (firstn (Z.to_nat i) l ++ skipn (S (Z.to_nat i)) l))
            | None => (Panic, t)
            end
          else (Err (ValueErrorIndexOutOfBounds i len), t)
      | Err e => (Err e, t)
      | Panic => (Panic, t)
      end
  | VSet l => let '(b, l') := set_shift_remove needle l in (Ok (VBool b), VSet l')
  | VDict l => let '(b, l') := map_shift_remove needle l in (Ok (VBool b), VDict l')
  | _ => (Err (TypeErrorArgMustBeIterable t), t)
  end.
(** 539-548 clear *)
Definition clear (t : value) : result value * value :=
  match t with
  | VList _ => (Ok (VList []), VList [])
  | VSet _ => (Ok (VSet []), VSet [])
  | VDict _ => (Ok (VDict []), VDict [])
  | VHeap _ => (Ok (VHeap []), VHeap [])
  | _ => (Err (TypeErrorArgMustBeIterable t), t)
  end.
(** 64-75 set_index with the dict case (`t[i] = x` evaluates to [x], opcode StoreArray) *)
Definition store_index (index x t : value) : result value * value :=
  match t with
  | VDict l => (Ok x, VDict (map_insert index x l))
  | _ => match set_index t index x with
         | Ok t' => (Ok x, t')
         | Err e => (Err e, t)
         | Panic => (Panic, t)
         end
  end.

(** 27-62 get_dict_index.  [default] is the dict's default factory: given the dict's
    contents it returns its answer and the contents it leaves behind (it is arbitrary
    code and may modify the dict). *)
Definition get_dict_index (default : option (entries -> result value * entries)) (l : entries) (key : value) : result value * entries :=
  match default with
  | None => match map_get key l with
            | Some x => (Ok x, l)
            | None => (Err (ValueErrorKeyNotPresent key), l)
            end
  | Some f =>
      match map_get key l with
      | Some x => (Ok x, l)
      | None =>
          match f l with
          | (Ok v, l') => let '(x, l'') := map_or_insert key v l' in (Ok x, l'')
          | (Err e, l') => (Err e, l')
          | (Panic, l') => (Panic, l')
          end
      end
  end.

(** the mutating calls a program can make on one collection, and a history of them *)
Inductive call :=
| CPush (x : value) | CPushFront (x : value) | CPop | CPopFront | CPeek
| CInsert (i x : value) | CStore (i x : value) | CRemove (x : value) | CClear.
Definition do_call (c : call) (t : value) : result value * value :=
  match c with
  | CPush x => push x t | CPushFront x => push_front x t | CPop => pop t | CPopFront => pop_front t
  | CPeek => (peek t, t)
  | CInsert i x => insert i x t | CStore i x => store_index i x t | CRemove x => remove x t | CClear => clear t
  end.
(** the answers, most recent first, each with its call; and the final contents *)
Fixpoint do_calls (cs : list call) (t : value) (log : list (call * result value)) : list (call * result value) * value :=
  match cs with
  | [] => (log, t)
  | c :: r => let '(a, t') := do_call c t in do_calls r t' ((c, a) :: log)
  end.

(** 642-685: the set builtins mutate [this]; [other] is what its iterator yields *)
Definition builtin_union (other this : list value) : list value := fold_left (fun s x => set_insert x s) other this.
Definition builtin_intersect (other this : list value) : list value := filter (fun x => set_mem x (to_set other)) this.
Definition builtin_difference (other this : list value) : list value := fold_left (fun s x => set_swap_remove x s) other this.

(** 687-699 counter; `as_precise_int() + 1` *)
Fixpoint count_up (x : value) (l : list (value * Z)) : list (value * Z) :=
  match l with
  | [] => [(x, 1)]
  | (y, n) :: r => if key_match x y then (y, wrap63 (i64 (n + 1))) :: r else (y, n) :: count_up x r
  end.
Definition counter (l : list value) : value :=
  VDict (map (fun p => (fst p, VInt (snd p))) (fold_left (fun m x => count_up x m) l [])).

(** 551-557 collect_into_dict; vm/value/mod.rs:375-384 to_pair.  Conversion of every element is
    tried before anything is built. *)
Definition to_pair (v : value) : result (value * value) :=
  match v with
  | VList [a; b] | VVector [a; b] => Ok (a, b)
  | _ => Err (ValueErrorCannotCollectIntoDict v)
  end.
Definition collect_into_dict (l : list value) : result value :=
  let? ps := map_result to_pair l in Ok (VDict (fold_left (fun m p => map_insert (fst p) (snd p) m) ps [])).
(** 569-585 keys, values *)
Definition dict_keys (l : entries) : value := VSet (to_set (map fst l)).
Definition dict_values (l : entries) : value := VList (map snd l).

(** 151-161, 187-189 sum, min, max over what the iterator yields (std `Iterator::min`
    keeps the earlier of two equals, `max` the later) *)
Definition builtin_sum (l : list value) : result value :=
  let? s := (fix go (l : list value) (acc : Z) : result Z :=
     match l with
     | [] => Ok acc
     | v :: r => let? i := as_int_checked v in go r (i64 (acc + i))
     end) l 0 in
  Ok (of_int s).
Definition non_empty (o : option value) (f : native) : result value :=
  match o with Some v => Ok v | None => Err (ValueErrorArgMustBeNonEmpty f) end.
Definition fold_first (f : value -> value -> value) (l : list value) : option value :=
  match l with [] => None | x :: r => Some (fold_left f r x) end.
Definition builtin_min (l : list value) : result value :=
  non_empty (fold_first (fun a b => match value_cmp a b with Gt => b | _ => a end) l) NF_Min.
Definition builtin_max (l : list value) : result value :=
  non_empty (fold_first (fun a b => match value_cmp a b with Gt => a | _ => b end) l) NF_Max.

(** 216-220 sort: std `sort_unstable`.  The model sorts by insertion (what std does for
    short slices); on a total order any other correct sort differs from this one
    only in the order of elements that compare equal. *)
Fixpoint insert_sorted (x : value) (l : list value) : list value :=
  match l with
  | [] => [x]
  | y :: r => if vlt x y then x :: l else y :: insert_sorted x r
  end.
Definition builtin_sort (l : list value) : list value := fold_left (fun s x => insert_sorted x s) l [].

(** 397-419 zip over what the iterators yield: a row is taken from the front of each *)
Fixpoint zip_row (ls : list (list value)) : option (list value * list (list value)) :=
  match ls with
  | [] => Some ([], [])
  | [] :: _ => None
  | (x :: l) :: r => match zip_row r with Some (row, r') => Some (x :: row, l :: r') | None => None end
  end.
Fixpoint zip_loop (fuel : nat) (ls : list (list value)) : list value :=
  match fuel with
  | O => []
  | S n => match zip_row ls with None => [] | Some (row, ls') => VVector row :: zip_loop n ls' end
  end.
Definition builtin_zip (ls : list (list value)) : result value :=
  match ls with
  | [] => Err (ValueErrorArgMustBeNonEmpty NF_Zip)
  | l :: _ => Ok (VList (zip_loop (S (length l)) ls))
  end.
