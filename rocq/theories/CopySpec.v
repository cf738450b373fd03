(** Object graphs: reachability, and what it is for one graph to be a copy of another. *)
From Verif Require Import Base Copy.
From Coq Require Import Permutation.

(** no dangling references *)
Fixpoint ref_in (n : nat) (r : ref) : Prop := match r with RLeaf _ => True | RObj a => a < n | REnumerate i => ref_in n i end.
Definition closed (H : heap) : Prop := forall a nd e r, nth_error H a = Some nd -> In e (items nd) -> In r e -> ref_in (length H) r.
(** the objects a reference leads to *)
Fixpoint target (r : ref) : option nat := match r with RLeaf _ => None | RObj a => Some a | REnumerate i => target i end.
Inductive reaches (H : heap) : ref -> nat -> Prop :=
| reach_here r a : target r = Some a -> reaches H r a
| reach_item r a nd e x b : target r = Some a -> nth_error H a = Some nd -> In e (items nd) -> In x e -> reaches H x b -> reaches H r b.
(** [M] pairs objects with their copies; references are related if they are the same up to it *)
Inductive related (M : list (nat * nat)) : ref -> ref -> Prop :=
| rel_leaf t : related M (RLeaf t) (RLeaf t)
| rel_obj a b : In (a, b) M -> related M (RObj a) (RObj b)
| rel_enumerate i j : related M i j -> related M (REnumerate i) (REnumerate j).
(** the same kind of object, but for the default of a dict *)
Definition same_kind (k k' : kind) : Prop := k' = match k with KDict _ => KDict None | _ => k end.
(** the contents of an object and its copy: in the same order, but for heaps *)
Definition same_items (M : list (nat * nat)) (k : kind) (l l' : list (list ref)) : Prop :=
  match k with
  | KHeap => exists m, Permutation m l' /\ Forall2 (Forall2 (related M)) l m
  | _ => Forall2 (Forall2 (related M)) l l'
  end.
(** a set or dict whose copy has fewer entries *)
Definition merged (k : kind) (l l' : list (list ref)) : Prop :=
  match k with KSet | KDict _ => length l' <> length l | _ => False end.
(** everything in the copy stands for something in the original *)
Definition from_items (M : list (nat * nat)) (l l' : list (list ref)) : Prop :=
  forall e' x', In e' l' -> In x' e' -> exists e x, In e l /\ In x e /\ related M x x'.
Definition one_to_one (M : list (nat * nat)) : Prop :=
  forall a b a' b', In (a, b) M -> In (a', b') M -> (a = a' <-> b = b').
(** a finite value read off a graph *)
Inductive tree := TLeaf (t : Z) | TEnumerate (t : tree) | TNode (k : kind) (l : list (list tree)).
Inductive reads_as (H : heap) : ref -> tree -> Prop :=
| ra_leaf t : reads_as H (RLeaf t) (TLeaf t)
| ra_enumerate r t : reads_as H r t -> reads_as H (REnumerate r) (TEnumerate t)
| ra_obj a nd l : nth_error H a = Some nd -> Forall2 (Forall2 (reads_as H)) (items nd) l -> reads_as H (RObj a) (TNode (kind_of nd) l).
