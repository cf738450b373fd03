(** Collection literals under construction: vm/value/mod.rs:1050-1110 (Literal), vm/mod.rs:478-493.

    VecDeque and Vec are lists of their elements; IndexSet and IndexMap are lists in iteration
    order, where a hash lookup matches by [same] (compare Coll.v).  Elements are of any type [V];
    [to_pair] is vm/value/mod.rs:375-384.  Size hints are dropped. *)
From Verif Require Import Base Vm.
Local Open Scope nat_scope.

Section lit.
Context {V : Type} (same : V -> V -> bool) (to_pair : V -> option (V * V)).

(** mod.rs:1056-1061 enum Literal *)
Inductive literal := LList (l : list V) | LVector (l : list V) | LSet (l : list V) | LDict (l : list (V * V)).

(** mod.rs:1064-1071 Literal::new *)
Definition lit_new (t : littype) : literal :=
  match t with LitList => LList [] | LitVector => LVector [] | LitSet => LSet [] | LitDict => LDict [] end.

(** IndexSet::insert *)
Definition iset_insert (x : V) (l : list V) : list V := if existsb (same x) l then l else l ++ [x].
(** IndexMap::insert *)
Fixpoint imap_insert (k x : V) (l : list (V * V)) : list (V * V) :=
  match l with
  | [] => [(k, x)]
  | (k', y) :: r => if same k k' then (k', x) :: r else (k', y) :: imap_insert k x r
  end.

(** mod.rs:1079-1082: keys and values alternate; [None]: the unwrap panics *)
Fixpoint dict_acc (vs : list V) (l : list (V * V)) : option (list (V * V)) :=
  match vs with
  | [] => Some l
  | k :: r => match r with [] => None | x :: r' => dict_acc r' (imap_insert k x l) end
  end.
(** mod.rs:1073-1084 accumulate; [None]: panic *)
Definition lit_acc (t : literal) (vs : list V) : option literal :=
  match t with
  | LList l => Some (LList (fold_left (fun l v => l ++ [v]) vs l))
  | LVector l => Some (LVector (fold_left (fun l v => l ++ [v]) vs l))
  | LSet l => Some (LSet (fold_left (fun l v => iset_insert v l) vs l))
  | LDict l => match dict_acc vs l with Some l => Some (LDict l) | None => None end
  end.
(** mod.rs:1088-1091: [None]: an element is not a pair *)
Fixpoint dict_unroll (vs : list V) (l : list (V * V)) : option (list (V * V)) :=
  match vs with
  | [] => Some l
  | v :: r => match to_pair v with Some (k, x) => dict_unroll r (imap_insert k x l) | None => None end
  end.
(** mod.rs:1086-1095 unroll: [None] is the error of to_pair; accumulate does not panic here *)
Definition lit_unroll (t : literal) (vs : list V) : option literal :=
  match t with
  | LDict l => match dict_unroll vs l with Some l => Some (LDict l) | None => None end
  | _ => lit_acc t vs
  end.
End lit.
