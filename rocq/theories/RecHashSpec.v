(** Vocabulary for C52. *)
From Verif Require Import Base Seq RecHash.
Local Open Scope nat_scope.

(** the references stored in an object *)
Definition contents (n : node) : list ref :=
  match n with
  | NList l | NVector l | NHeap l | NStruct _ l => l
  | NWrap r => [r]
  | NSet l => map snd l
  | NDict l => flat_map (fun e => [fst (snd e); snd (snd e)]) l
  end.
Definition part (H : heap) (a : nat) (c : ref) : Prop := exists n, nth_error H a = Some n /\ In c (contents n).
(** [r] is the object [b], or contains it directly or indirectly *)
Inductive contains (H : heap) (b : nat) : ref -> Prop :=
| contains_self : contains H b (Obj b)
| contains_part a c : part H a c -> contains H b c -> contains H b (Obj a).
(** no dangling references *)
Definition closed (H : heap) : Prop := forall a c b, part H a c -> c = Obj b -> b < length H.
Definition valid (H : heap) (r : ref) : Prop := match r with Leaf _ => True | Obj a => a < length H end.
(** every chain of parts starting from [r] ends, or comes to the object [b] *)
Inductive ends (H : heap) (b : nat) : ref -> Prop :=
| ends_leaf t : ends H b (Leaf t)
| ends_obj a : (a <> b -> forall c, part H a c -> ends H b c) -> ends H b (Obj a).
Definition is_set (H : heap) (b : nat) (l : list ref) : Prop := exists e, nth_error H b = Some (NSet e) /\ map snd e = l.
Definition is_dict (H : heap) (b : nat) (l : list (ref * ref)) : Prop := exists e, nth_error H b = Some (NDict e) /\ map snd e = l.
(** [x == y] is true, in the language, while [b] is borrowed *)
Definition same_value (H : heap) (b : nat) (x y : ref) : Prop := exists n, forall fuel, n <= fuel -> equal H b fuel x y = Ans true false.
(** an element of [b] that is equal to [x], and was recorded with the hash that [x] has now *)
Definition found (H : heap) (b : nat) (x : ref) (h : list tok) (y : ref) : Prop :=
  same_value H b x y /\ exists n, forall fuel, n <= fuel -> hash H b fuel x = Some (h, false).
(** all objects except [b] are the same in [H] and [H'] *)
Definition same_but (b : nat) (H H' : heap) : Prop := length H' = length H /\ forall a, a <> b -> nth_error H' a = nth_error H a.

(** Histories of operations on sets and dicts *)
Inductive op := OpPush (a : nat) (x : ref) | OpInsert (a : nat) (k v : ref) | OpDefault (a : nat) (k v : ref) | OpRemove (a : nat) (x : ref).
Definition perform (fuel : nat) (s : state) (o : op) : outcome :=
  match o with
  | OpPush a x => push fuel s a x
  | OpInsert a k v => insert fuel s a k v
  | OpDefault a k v => insert_default fuel s a k v
  | OpRemove a x => remove fuel s a x
  end.
(** what a program can see of an operation: the heap and whether it was an error; [None]: a crash *)
Definition seen (o : outcome) : option (heap * bool) :=
  match o with Returned s => Some (objects s, false) | RecursiveHash s => Some (objects s, true) | Crashed => None end.
(** the session goes on after an error, as in the REPL; nothing comes after a crash *)
Fixpoint session (fuel : nat) (s : state) (l : list op) : list (option (heap * bool)) :=
  match l with
  | [] => []
  | o :: r =>
      seen (perform fuel s o) ::
      match perform fuel s o with Returned s' | RecursiveHash s' => session fuel s' r | Crashed => [] end
  end.
