(** `repr` of objects that may contain themselves (vm/value/mod.rs:174-289, 526-546): the recursion guard.

    Mutable objects live in a heap (a list of nodes, the address is the position); everything else is a [Leaf], printed as in
    Repr.v, or an enumerate or memoized function around another value. *)
From Coq Require Import String.
From Verif Require Import Base Native Value Str Repr.
From Verif Require Scan.
Local Open Scope Z_scope.

Inductive ref := Leaf (v : value) | Obj (a : nat) | REnumerate (r : ref) | RMemo (r : ref).
Inductive node := NList (l : list ref) | NSet (l : list ref) | NDict (l : list (ref * ref)) | NHeap (l : list ref) | NVector (l : list ref) | NStruct (t : Z) (l : list ref).
Definition heap := list node.

(** a result with the guard after it; the panic of `leave` on an empty guard; or no result (yet) *)
Inductive out (A : Type) := Done (x : A) (rc : list nat) | Panics | More.
Arguments Done {A}. Arguments Panics {A}. Arguments More {A}.
Definition obind {A B} (o : out A) (f : A -> list nat -> out B) : out B := match o with Done x rc => f x rc | Panics => Panics | More => More end.

(** mod.rs:534-540 enter: pushes in any case *)
Definition enter (rc : list nat) (a : nat) : bool * list nat := (existsb (Nat.eqb a) rc, rc ++ [a]).
(** mod.rs:542-545 leave *)
Definition leave {A} (x : A) (rc : list nat) : out A := match rc with [] => Panics | _ => Done x (removelast rc) end.
(** mod.rs:196-202 recursive_guard! *)
Definition guarded (rc : list nat) (a : nat) (default : list Z) (recursive : list nat -> out (list Z)) : out (list Z) :=
  let (seen, rc) := enter rc a in obind (if seen then Done default rc else recursive rc) leave.

Section Show.
  Context (N : names) (H : heap).
  (** one after the other, with the same guard *)
  Fixpoint each {A B} (f : list nat -> A -> out B) (l : list A) (rc : list nat) : out (list B) :=
    match l with
    | [] => Done [] rc
    | x :: r => obind (f rc x) (fun t rc => obind (each f r rc) (fun ts rc => Done (t :: ts) rc))
    end.
  (** mod.rs:195-289 *)
  Fixpoint show (fuel : nat) (rc : list nat) (r : ref) : out (list Z) :=
    match fuel with
    | O => More
    | S n =>
        let joined_list p s l rc := obind (each (show n) l rc) (fun ts rc => Done (map_join p s ts) rc) in
        match r with
        | Leaf v => Done (repr N v) rc
        | REnumerate r => obind (show n rc r) (fun t rc => Done (Scan.text "enumerate(" ++ t ++ Scan.text ")") rc)
        | RMemo r => obind (show n rc r) (fun t rc => Done (Scan.text "@memoize " ++ t) rc)
        | Obj a =>
            match nth_error H a with
            | None => More
            | Some (NList l) | Some (NHeap l) => guarded rc a (Scan.text "[...]") (joined_list 91 93 l)
            | Some (NSet l) => guarded rc a (Scan.text "{...}") (joined_list 123 125 l)
            | Some (NVector l) => guarded rc a (Scan.text "(...)") (joined_list 40 41 l)
            | Some (NDict l) => guarded rc a (Scan.text "{...}") (fun rc =>
                obind (each (fun rc p => obind (show n rc (fst p)) (fun k rc => obind (show n rc (snd p)) (fun x rc => Done (k ++ Scan.text ": " ++ x) rc))) l rc)
                  (fun ts rc => Done (map_join 123 125 ts) rc))
            | Some (NStruct t l) => guarded rc a (struct_name N t ++ Scan.text "(...)") (fun rc =>
                obind (each (fun rc p => obind (show n rc (fst p)) (fun x rc => Done (snd p ++ Scan.text "=" ++ x) rc)) (combine l (struct_fields N t)) rc)
                  (fun ts rc => Done (struct_name N t ++ map_join 40 41 ts) rc))
            end
        end
    end.
  (** mod.rs:191-193, 174-188: a new guard; strings, functions and the like are leaves *)
  Definition to_repr_str (fuel : nat) (r : ref) : out (list Z) := show fuel [] r.
  Definition to_str (fuel : nat) (r : ref) : out (list Z) := match r with Leaf v => Done (str N v) [] | _ => show fuel [] r end.
End Show.
