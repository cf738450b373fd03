(** What a reference to a name that is declared later means: the code it would have if the name
    were known already, at its place. *)
From Verif Require Import Base Vm LateBind.
Local Open Scope nat_scope.

(** the first declaration of the name that follows *)
Definition declared_as (ds : list (nat * late_bound)) (n : nat) : option late_bound :=
  match find (fun d => fst d =? n) ds with Some d => Some (snd d) | None => None end.
Definition or_global (fallback : option nat) (d : option late_bound) : option late_bound :=
  match d with Some _ => d | None => match fallback with Some i => Some (BLocal i) | None => None end end.

Definition load (t : this_ref) (d : late_bound) : option (list op) :=
  match d, t with
  | BLocal i, _ => Some [OPushGlobal i]
  | BMethod f false, _ => Some [OConst (HFun f)]
  | BMethod f true, ThisLocal i => Some [OPushLocal i; OGetMethod f]
  | BMethod f true, ThisUp i => Some [OPushUp i; OGetMethod f]
  | BMethod f true, NoThis => None
  end.
Definition store (d : late_bound) : option (list op) := match d with BLocal i => Some [OStoreGlobal i false] | BMethod _ _ => None end.
Definition meant (ds : list (nat * late_bound)) (x : item) : option (list op) :=
  match x with
  | IOp o => Some [o]
  | ILoad n t f => match or_global f (declared_as ds n) with Some d => load t d | None => None end
  | IStore n _ f => match or_global f (declared_as ds n) with Some d => store d | None => None end
  end.
(** the code of the items, each at its place; [None]: an error *)
Fixpoint in_place (ds : list (nat * late_bound)) (l : list item) : option (list op) :=
  match l with
  | [] => Some []
  | x :: r => match meant ds x, in_place ds r with Some a, Some b => Some (a ++ b) | _, _ => None end
  end.

Definition late (x : item) : bool := match x with IOp _ => false | _ => true end.
(** no reference is next to another one, and the block does not end with one *)
Fixpoint apart (l : list item) : bool :=
  match l with
  | [] => true
  | x :: r => (if late x then match r with y :: _ => negb (late y) | [] => false end else true) && apart r
  end.
(** no method with `self` is declared later *)
Definition no_self (ds : list (nat * late_bound)) : bool := forallb (fun d => match snd d with BMethod _ true => false | _ => true end) ds.
(** the code before the last reference has no other one *)
Definition only_last (l : list item) : bool := match rev l with x :: r => late x && forallb (fun y => negb (late y)) r | [] => false end.
