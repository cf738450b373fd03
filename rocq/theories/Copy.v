(** `copy`: core/collections.rs:706-829.

    Objects with identity live in a heap, a list of nodes; the address is the position.
    Immutable values (those that core/collections.rs:753 clones) are [RLeaf] with some tag
    that identifies the pointer; an Enumerate is immutable around its inner value.

    Simplification: whether a hash lookup finds an element ([found]), and where
    BinaryHeap::push puts a new element ([place]), depend on comparing graphs that may be
    cyclic and partly built; they are parameters. *)
From Verif Require Import Base Seq.
Local Open Scope nat_scope.

Inductive ref := RLeaf (tag : Z) | RObj (a : nat) | REnumerate (inner : ref).
(** the mutable types; a dict may have a default (vm/value/collections.rs) *)
Inductive kind := KList | KVector | KSet | KHeap | KDict (default : option Z) | KStruct (owner : Z).
(** the entries: for a dict, key and value; for the others one reference each *)
Record node := Node { kind_of : kind; items : list (list ref) }.
Definition heap := list node.

Section Copy.
  Variable found : heap -> list (list ref) -> list ref -> option nat.
  Variable place : heap -> list (list ref) -> list ref -> list (list ref).

  (** `copy.$insert(e)`: VecDeque::push_back, Vec::push, IndexSet::insert, BinaryHeap::push,
      IndexMap::insert *)
  Definition insert_item (k : kind) (H : heap) (acc : list (list ref)) (e : list ref) : list (list ref) :=
    match k with
    | KList | KVector | KStruct _ => acc ++ [e]
    | KSet => match found H acc e with Some _ => acc | None => acc ++ [e] end
    | KDict _ => match found H acc e with Some i => update acc i (firstn 1 (nth i acc []) ++ skipn 1 e) | None => acc ++ [e] end
    | KHeap => place H acc e
    end.
  (** the empty collection that is made first: a dict has no default *)
  Definition dummy (k : kind) : node := Node (match k with KDict _ => KDict None | _ => k end) [].
  Definition lookup (M : list (nat * nat)) (a : nat) : option nat :=
    match find (fun p => fst p =? a) M with Some p => Some (snd p) | None => None end.

  Definition state := (heap * list (nat * nat))%type.
  (** map over the children, threading the state *)
  Fixpoint each {A B} (f : A -> state -> option (B * state)) (l : list A) (s : state) : option (list B * state) :=
    match l with
    | [] => Some ([], s)
    | x :: r =>
        match f x s with
        | None => None
        | Some (y, s') => match each f r s' with None => None | Some (ys, s'') => Some (y :: ys, s'') end
        end
    end.
  (** 710-824 copy_recursive; [None]: not enough fuel or a dangling reference *)
  Fixpoint copy_recursive (fuel : nat) (r : ref) (s : state) : option (ref * state) :=
    match fuel with
    | O => None
    | S n =>
        match r with
        | RLeaf t => Some (RLeaf t, s)
        | REnumerate i => match copy_recursive n i s with Some (j, s') => Some (REnumerate j, s') | None => None end
        | RObj a =>
            let '(H, M) := s in
            match lookup M a with
            | Some b => Some (RObj b, s)
            | None =>
                match nth_error H a with
                | None => None
                | Some nd =>
                    let b := length H in
                    match each (each (copy_recursive n)) (items nd) (H ++ [dummy (kind_of nd)], (a, b) :: M) with
                    | None => None
                    | Some (elements, (H', M')) =>
                        let copied := fold_left (fun acc e => insert_item (kind_of nd) H' acc e) elements [] in
                        Some (RObj b, (update H' b (Node (kind_of (dummy (kind_of nd))) copied), M'))
                    end
                end
            end
        end
    end.
  (** 706-708 copy *)
  Definition copy (fuel : nat) (r : ref) (H : heap) : option (ref * heap) :=
    match copy_recursive fuel r (H, []) with Some (r', (H', _)) => Some (r', H') | None => None end.
End Copy.
