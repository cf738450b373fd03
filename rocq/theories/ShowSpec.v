(** Vocabulary for C71: how a graph of objects is written. *)
From Coq Require Import String.
From Verif Require Import Base Native Value Str Repr Show.
From Verif Require Scan.
Local Open Scope Z_scope.

(** all references lead to objects *)
Fixpoint valid (H : heap) (r : ref) : Prop := match r with Leaf _ => True | Obj a => (a < length H)%nat | REnumerate r | RMemo r => valid H r end.
Definition parts (d : node) : list ref :=
  match d with NList l | NSet l | NHeap l | NVector l | NStruct _ l => l | NDict l => flat_map (fun p => [fst p; snd p]) l end.
Definition closed (H : heap) : Prop := forall d r, In d H -> In r (parts d) -> valid H r.

Section Spec.
  Context (N : names) (H : heap).
  (** an object with its parts written as [ts], or as dots *)
  Definition whole (d : node) (ts : list (list Z)) : list Z :=
    match d with
    | NList _ | NHeap _ => map_join 91 93 ts
    | NSet _ => map_join 123 125 ts
    | NVector _ => map_join 40 41 ts
    | NDict _ => map_join 123 125 ts
    | NStruct t _ => struct_name N t ++ map_join 40 41 ts
    end.
  Definition dots (d : node) : list Z :=
    match d with
    | NList _ | NHeap _ => Scan.text "[...]" | NSet _ | NDict _ => Scan.text "{...}" | NVector _ => Scan.text "(...)"
    | NStruct t _ => struct_name N t ++ Scan.text "(...)"
    end.
  (** [shows inside r t]: inside of the objects [inside], [r] is written as [t]: an object is written as dots exactly if it is being written already,
      that is, where it is a part of itself; otherwise with its parts, in order. *)
  Inductive shows : list nat -> ref -> list Z -> Prop :=
  | sh_leaf p v : shows p (Leaf v) (repr N v)
  | sh_enumerate p r t : shows p r t -> shows p (REnumerate r) (Scan.text "enumerate(" ++ t ++ Scan.text ")")
  | sh_memo p r t : shows p r t -> shows p (RMemo r) (Scan.text "@memoize " ++ t)
  | sh_again p a d : nth_error H a = Some d -> In a p -> shows p (Obj a) (dots d)
  | sh_object p a d ts : nth_error H a = Some d -> ~ In a p -> shows_parts (a :: p) d ts -> shows p (Obj a) (whole d ts)
  with shows_parts : list nat -> node -> list (list Z) -> Prop :=
  | sp_list p l ts : shows_all p l ts -> shows_parts p (NList l) ts
  | sp_set p l ts : shows_all p l ts -> shows_parts p (NSet l) ts
  | sp_heap p l ts : shows_all p l ts -> shows_parts p (NHeap l) ts
  | sp_vector p l ts : shows_all p l ts -> shows_parts p (NVector l) ts
  | sp_dict p l ks xs : shows_all p (map fst l) ks -> shows_all p (map snd l) xs ->
      shows_parts p (NDict l) (map (fun kx => fst kx ++ Scan.text ": " ++ snd kx) (combine ks xs))
  | sp_struct p t l ts : shows_all p (firstn (length (struct_fields N t)) l) ts ->
      shows_parts p (NStruct t l) (map (fun fx => fst fx ++ Scan.text "=" ++ snd fx) (combine (struct_fields N t) ts))
  with shows_all : list nat -> list ref -> list (list Z) -> Prop :=
  | sa_nil p : shows_all p [] []
  | sa_cons p r l t ts : shows p r t -> shows_all p l ts -> shows_all p (r :: l) (t :: ts).

  (** The tree that an object stands for, if it does not contain itself (and is not deeper than [n]). *)
  Fixpoint tree (n : nat) (r : ref) : option value :=
    match n with
    | O => None
    | S n =>
        let all l := all_some (map (tree n) l) in
        match r with
        | Leaf v => Some v
        | REnumerate r => bind1 (tree n r) (fun v => Some (VEnumerate v))
        | RMemo _ => None
        | Obj a =>
            match nth_error H a with
            | None => None
            | Some (NList l) => bind1 (all l) (fun l => Some (VList l))
            | Some (NSet l) => bind1 (all l) (fun l => Some (VSet l))
            | Some (NHeap l) => bind1 (all l) (fun l => Some (VHeap l))
            | Some (NVector l) => bind1 (all l) (fun l => Some (VVector l))
            | Some (NStruct t l) => bind1 (all l) (fun l => Some (VStruct t l))
            | Some (NDict l) => bind1 (all (map fst l)) (fun ks => bind1 (all (map snd l)) (fun xs => Some (VDict (combine ks xs))))
            end
        end
    end.
End Spec.
