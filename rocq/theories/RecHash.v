(** Hashing and inserting into sets and dicts that may contain themselves:
    vm/value/collections.rs:63-202, vm/value/ptr.rs:330-388, 556-599, 766-786.

    Objects with identity live in a heap, a list of nodes; the address is the position.  Values
    without mutable parts are [Leaf]: equal leaves have equal tags and are hashed as one word.  While an
    insertion runs, the collection is mutably borrowed ([busy]).  An entry of a set or dict carries the hash that was
    computed when it was inserted.  A lookup compares the key with the entries that have the same
    hash (fxhash and the probing by indexmap: equal hashes of different hash inputs are not modelled).
    The thread-local FLAG_RECURSIVE_HASH is a part of the state.
    [Fuel] bounds the depth of recursion: no result is a stack overflow of the interpreter. *)
From Verif Require Import Base Seq.
Local Open Scope nat_scope.

Inductive ref := Leaf (tag : Z) | Obj (a : nat).
(** What is written to the hasher: words, and length prefixes (of VecDeque and Vec). *)
Inductive tok := TWord (z : Z) | TLen (n : nat).
Definition tok_eqb (a b : tok) : bool :=
  match a, b with TWord x, TWord y => (x =? y)%Z | TLen x, TLen y => x =? y | _, _ => false end.
Fixpoint toks_eqb (a b : list tok) : bool :=
  match a, b with [], [] => true | x :: a, y :: b => tok_eqb x y && toks_eqb a b | _, _ => false end.
(** An enumeration is a [KWrap] around its operand (vm/value/range.rs:125-133: derived Hash, no length). *)
Inductive node :=
| NList (l : list ref) | NVector (l : list ref) | NHeap (l : list ref) | NWrap (r : ref) | NStruct (owner : Z) (l : list ref)
| NSet (l : list (list tok * ref)) | NDict (l : list (list tok * (ref * ref))).
Definition heap := list node.

(** Hashing: the words written, and whether FLAG_RECURSIVE_HASH was set. *)
Section hash.
Context (H : heap) (busy : nat).
(** one after the other *)
Fixpoint hash_seq (f : ref -> option (list tok * bool)) (l : list ref) : option (list tok * bool) :=
  match l with
  | [] => Some ([], false)
  | x :: r =>
      match f x, hash_seq f r with
      | Some (t, b), Some (t', b') => Some (t ++ t', b || b')
      | _, _ => None
      end
  end.
Definition with_prefix (p : list tok) (x : option (list tok * bool)) : option (list tok * bool) :=
  match x with Some (t, b) => Some (p ++ t, b) | None => None end.
(** ptr.rs:556-599; collections.rs:33-34, 51-52 (derived), 115-125 (sets), 178-188 (dicts), 239-245 (heaps);
    value/mod.rs:686 (structs: owner, then fields) *)
Fixpoint hash (fuel : nat) (r : ref) : option (list tok * bool) :=
  match fuel with
  | O => None
  | S n =>
      match r with
      | Leaf t => Some ([TWord t], false)
      | Obj a =>
          match nth_error H a with
          | None => None
          | Some (NList l) | Some (NVector l) => with_prefix [TLen (length l)] (hash_seq (hash n) l)
          | Some (NHeap l) => hash_seq (hash n) l
          | Some (NWrap r) => hash n r
          | Some (NStruct o l) => with_prefix [TWord o; TLen (length l)] (hash_seq (hash n) l)
          | Some (NSet l) => if a =? busy then Some ([], true) else hash_seq (hash n) (map snd l)
          | Some (NDict l) => if a =? busy then Some ([], true) else hash_seq (hash n) (flat_map (fun e => [fst (snd e); snd (snd e)]) l)
          end
      end
  end.

(** Equality: a boolean and whether the flag was set; or the panic of ptr.rs:706 "already borrowed";
    or no result *)
Inductive answer (A : Type) := Ans (x : A) (flag : bool) | Panics | Overflows.
Arguments Ans {A}. Arguments Panics {A}. Arguments Overflows {A}.
(** elementwise, stopping at the first difference *)
Fixpoint all2 {A} (eq : A -> A -> answer bool) (l r : list A) : answer bool :=
  match l, r with
  | x :: l, y :: r =>
      match eq x y with
      | Ans true b => match all2 eq l r with Ans c b' => Ans c (b || b') | o => o end
      | o => o
      end
  | _, _ => Ans true false
  end.
(** the first entry with the hash [h] whose key equals [x]: indexmap get_index_of *)
Fixpoint find_entry {A} (eq : ref -> ref -> answer bool) (key : A -> ref) (h : list tok) (x : ref) (l : list (list tok * A)) : answer (option A) :=
  match l with
  | [] => Ans None false
  | (h', e) :: r =>
      if toks_eqb h h' then
        match eq x (key e) with
        | Ans true b => Ans (Some e) b
        | Ans false b => match find_entry eq key h x r with Ans o b' => Ans o (b || b') | o => o end
        | Panics => Panics
        | Overflows => Overflows
        end
      else find_entry eq key h x r
  end.
(** ptr.rs:330-388, 766-771; IndexSet: same length and every element of the left is found in the right;
    IndexMap: same length, and the value found is equal; Heap: collections.rs:222-226 *)
Fixpoint equal (fuel : nat) (x y : ref) : answer bool :=
  match fuel with
  | O => Overflows
  | S n =>
      match x, y with
      | Leaf t, Leaf u => Ans (t =? u)%Z false
      | Obj a, Obj b =>
          let seqs l r := if length l =? length r then all2 (equal n) l r else Ans false false in
          match nth_error H a, nth_error H b with
          | Some (NList l), Some (NList r) | Some (NVector l), Some (NVector r) | Some (NHeap l), Some (NHeap r) => seqs l r
          | Some (NWrap l), Some (NWrap r) => equal n l r
          | Some (NStruct o l), Some (NStruct p r) => if (o =? p)%Z then seqs l r else Ans false false
          | Some (NSet l), Some (NSet r) =>
              if (a =? busy) || (b =? busy) then Panics
              else if length l =? length r then
                (fix go (l : list (list tok * ref)) : answer bool :=
                   match l with
                   | [] => Ans true false
                   | (_, e) :: l =>
                       match hash n e with
                       | None => Overflows
                       | Some (h, f0) =>
                           match find_entry (equal n) (fun e => e) h e r with
                           | Ans (Some _) f1 => match go l with Ans c f2 => Ans c (f0 || f1 || f2) | o => o end
                           | Ans None f1 => Ans false (f0 || f1)
                           | Panics => Panics
                           | Overflows => Overflows
                           end
                       end
                   end) l
              else Ans false false
          | Some (NDict l), Some (NDict r) =>
              if (a =? busy) || (b =? busy) then Panics
              else if length l =? length r then
                (fix go (l : list (list tok * (ref * ref))) : answer bool :=
                   match l with
                   | [] => Ans true false
                   | (_, (k, v)) :: l =>
                       match hash n k with
                       | None => Overflows
                       | Some (h, f0) =>
                           match find_entry (equal n) fst h k r with
                           | Ans (Some (_, v')) f1 =>
                               match equal n v v' with
                               | Ans true f2 => match go l with Ans c f3 => Ans c (f0 || f1 || f2 || f3) | o => o end
                               | Ans false f2 => Ans false (f0 || f1 || f2)
                               | o => o
                               end
                           | Ans None f1 => Ans false (f0 || f1)
                           | Panics => Panics
                           | Overflows => Overflows
                           end
                       end
                   end) l
              else Ans false false
          | None, _ | _, None => Overflows
          | _, _ => Ans false false
          end
      | _, _ => Ans false false
      end
  end.
End hash.
Arguments Ans {A}. Arguments Panics {A}. Arguments Overflows {A}.

(** The state: the heap and FLAG_RECURSIVE_HASH *)
Record state := State { objects : heap; flag : bool }.
(** The outcome of a builtin: it returns, or it is ValueErrorRecursiveHash, or the interpreter crashes. *)
Inductive outcome := Returned (s : state) | RecursiveHash (s : state) | Crashed.

(** the IndexSet::insert and IndexMap::insert of a collection that is borrowed *)
Definition insert_set (fuel : nat) (H : heap) (a : nat) (x : ref) : option (heap * bool) :=
  match nth_error H a with
  | Some (NSet l) =>
      match hash H a fuel x with
      | None => None
      | Some (h, f0) =>
          match find_entry (equal H a fuel) (fun e => e) h x l with
          | Ans (Some _) f1 => Some (H, f0 || f1)
          | Ans None f1 => Some (update H a (NSet (l ++ [(h, x)])), f0 || f1)
          | _ => None
          end
      end
  | _ => None
  end.
(** replacing the value of the first entry found *)
Fixpoint replace_value (eq : ref -> ref -> answer bool) (h : list tok) (k v : ref) (l : list (list tok * (ref * ref))) : list (list tok * (ref * ref)) :=
  match l with
  | [] => []
  | (h', (k', v')) :: r =>
      if toks_eqb h h' && match eq k k' with Ans true _ => true | _ => false end then (h', (k', v)) :: r else (h', (k', v')) :: replace_value eq h k v r
  end.
Definition insert_dict (fuel : nat) (H : heap) (a : nat) (k v : ref) : option (heap * bool) :=
  match nth_error H a with
  | Some (NDict l) =>
      match hash H a fuel k with
      | None => None
      | Some (h, f0) =>
          match find_entry (equal H a fuel) fst h k l with
          | Ans (Some _) f1 => Some (update H a (NDict (replace_value (equal H a fuel) h k v l)), f0 || f1)
          | Ans None f1 => Some (update H a (NDict (l ++ [(h, (k, v))])), f0 || f1)
          | _ => None
          end
      end
  | _ => None
  end.
(** collections.rs:196-202 guard_recursive_hash: whether a recursive hash was seen *)
Definition guard (insert : heap -> option (heap * bool)) (s : state) : outcome :=
  let s := State (objects s) false in
  match insert (objects s) with
  | None => Crashed
  | Some (H, set_) =>
      let s := State H (flag s || set_) in
      if flag s then RecursiveHash s else Returned s
  end.
(** core/collections.rs:469-479 push (sets); 481-507 insert and 63-69 set_index (dicts) *)
Definition push (fuel : nat) (s : state) (a : nat) (x : ref) : outcome := guard (fun H => insert_set fuel H a x) s.
Definition insert (fuel : nat) (s : state) (a : nat) (k v : ref) : outcome := guard (fun H => insert_dict fuel H a k v) s.
(** core/collections.rs:57-61: the value of a dict's default is inserted with `entry(key).or_insert(v)`, without
    guard: the flag may stay set. *)
Definition insert_default (fuel : nat) (s : state) (a : nat) (k v : ref) : outcome :=
  match nth_error (objects s) a with
  | Some (NDict l) =>
      match hash (objects s) a fuel k with
      | None => Crashed
      | Some (h, f0) =>
          match find_entry (equal (objects s) a fuel) fst h k l with
          | Ans (Some _) f1 => Returned (State (objects s) (flag s || f0 || f1))
          | Ans None f1 => Returned (State (update (objects s) a (NDict (l ++ [(h, (k, v))]))) (flag s || f0 || f1))
          | _ => Crashed
          end
      end
  | _ => Crashed
  end.
(** indexmap shift_remove: without the first entry found *)
Fixpoint without {A} (eq : ref -> ref -> answer bool) (key : A -> ref) (h : list tok) (x : ref) (l : list (list tok * A)) : list (list tok * A) :=
  match l with
  | [] => []
  | (h', e) :: r => if toks_eqb h h' && match eq x (key e) with Ans true _ => true | _ => false end then r else (h', e) :: without eq key h x r
  end.
(** core/collections.rs:529-534: `remove` also hashes without guard *)
Definition remove (fuel : nat) (s : state) (a : nat) (x : ref) : outcome :=
  match hash (objects s) a fuel x with
  | None => Crashed
  | Some (h, f0) =>
      let eq := equal (objects s) a fuel in
      match nth_error (objects s) a with
      | Some (NSet l) =>
          match find_entry eq (fun e => e) h x l with
          | Ans _ f1 => Returned (State (update (objects s) a (NSet (without eq (fun e => e) h x l))) (flag s || f0 || f1))
          | _ => Crashed
          end
      | Some (NDict l) =>
          match find_entry eq fst h x l with
          | Ans _ f1 => Returned (State (update (objects s) a (NDict (without eq fst h x l))) (flag s || f0 || f1))
          | _ => Crashed
          end
      | _ => Crashed
      end
  end.
