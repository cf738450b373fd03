(** Specification vocabulary for P_Coll.v. *)
From Verif Require Import Base Native Value ValueSpec Err Iter Ops OpsSpec Coll.
From Coq Require Import Permutation Sorted.
Local Open Scope Z_scope.

(** ** histories of a set or dict: what the calls so far mean, newest first *)
Inductive event := Wrote (k x : value) | Erased (k : value) | Wiped | Looked.

(** a dict: `insert(k, x)`, `d[k] = x` write; `remove(k)` and `pop()` (which tells the
    entry it took) erase; `clear()` wipes; everything else leaves it alone *)
Definition dict_event (e : call * result value) : event :=
  match e with
  | (CInsert k x, _) | (CStore k x, _) => Wrote k x
  | (CRemove k, _) => Erased k
  | (CPop, Ok (VVector [k; _])) => Erased k
  | (CClear, _) => Wiped
  | _ => Looked
  end.
(** a set: `push(x)` writes (the value is irrelevant) *)
Definition set_event (e : call * result value) : event :=
  match e with
  | (CPush x, _) => Wrote x VNil
  | (CRemove x, _) => Erased x
  | (CPop, Ok x) => Erased x
  | (CClear, _) => Wiped
  | _ => Looked
  end.

(** the last value written under [k] that has not been erased since *)
Fixpoint last_written (h : list event) (k : value) : option value :=
  match h with
  | [] => None
  | Wrote k' x :: r => if key_match k k' then Some x else last_written r k
  | Erased k' :: r => if key_match k k' then None else last_written r k
  | Wiped :: _ => None
  | Looked :: r => last_written r k
  end.
(** the time at which [k] was first written since it was last absent *)
Fixpoint born (h : list event) (k : value) : option nat :=
  match h with
  | [] => None
  | Wrote k' _ :: r => if key_match k k' then match born r k with Some t => Some t | None => Some (length r) end else born r k
  | Erased k' :: r => if key_match k k' then None else born r k
  | Wiped :: _ => None
  | Looked :: r => born r k
  end.
(** the keys come in the order of their births *)
Definition by_birth (h : list event) (ks : list value) : Prop :=
  forall i j k k', (i < j)%nat -> nth_error ks i = Some k -> nth_error ks j = Some k' ->
    exists t t', born h k = Some t /\ born h k' = Some t' /\ (t < t')%nat.

Definition wf_call (c : call) : Prop :=
  match c with
  | CPush x | CPushFront x | CRemove x => wf x
  | CInsert i x | CStore i x => wf i /\ wf x
  | _ => True
  end.

(** ** bags: the contents of a heap up to order *)
(** [answers] are possible answers of a priority queue holding the bag [b] to the calls *)
Inductive queue : list value -> list call -> list (result value) -> list value -> Prop :=
| q_done b b' : Permutation b b' -> queue b [] [] b'
| q_push b x cs a as_ b' : queue (x :: b) cs as_ b' -> (exists h, a = Ok (VHeap h) /\ Permutation (x :: b) h) -> queue b (CPush x :: cs) (a :: as_) b'
| q_pop b x b1 cs as_ b' : Permutation b (x :: b1) -> (forall y, In y b -> vle x y = true) -> queue b1 cs as_ b' -> queue b (CPop :: cs) (Ok x :: as_) b'
| q_peek b x cs as_ b' : In x b -> (forall y, In y b -> vle x y = true) -> queue b cs as_ b' -> queue b (CPeek :: cs) (Ok x :: as_) b'
| q_pop_empty cs as_ b' e : queue [] cs as_ b' -> queue [] (CPop :: cs) (Err e :: as_) b'
| q_peek_empty cs as_ b' e : queue [] cs as_ b' -> queue [] (CPeek :: cs) (Err e :: as_) b'
| q_clear b cs as_ b' : queue [] cs as_ b' -> queue b (CClear :: cs) (Ok (VHeap []) :: as_) b'.

(** calls on a heap whose pushes stay within one ordered kind *)
Definition heap_call (k : okind) (c : call) : Prop :=
  match c with CPush x => wf x /\ of_kind k x | CPop | CPeek | CClear => True | _ => False end.

(** no element is greater than a later one *)
Definition ascending (l : list value) : Prop := StronglySorted (fun a b => vle a b = true) l.
Definition all_kind (k : okind) (l : list value) : Prop := forall x, In x l -> wf x /\ of_kind k x.

(** total of the ints in a list *)
Definition total (zs : list Z) : Z := fold_right Z.add 0 zs.
(** how often a key occurs *)
Definition occurrences (x : value) (l : list value) : nat := length (filter (key_match x) l).
