(** Borrow locks and reference counts of heap values: vm/value/ptr.rs:484-543 (Clone,
    Drop) and 640-858 (Prefix, Ref, RefMut).  Release profile: u16 / u32 arithmetic
    wraps. *)
From Verif Require Import Base.
Local Open Scope Z_scope.

Definition u16 (x : Z) : Z := uwrap 16 x.

(** ptr.rs:690-691 *)
Definition BORROW_MUT : Z := 0.
Definition BORROW_NONE : Z := 1.

(** What client code can do with one value: attempt a borrow or drop a guard. *)
Inductive lock_op := TryBorrow | TryBorrowMut | DropRef | DropRefMut.

(** New lock word, and whether a guard was handed out ([None]: not an attempt).
    try_borrow ptr.rs:719-729; try_borrow_mut 735-744; drop of Ref 806-812; drop of
    RefMut 835-840. *)
Definition lock_step (lock : Z) (op : lock_op) : Z * option bool :=
  match op with
  | TryBorrow => if lock =? BORROW_MUT then (lock, Some false) else (u16 (lock + 1), Some true)
  | TryBorrowMut => if lock =? BORROW_NONE then (BORROW_MUT, Some true) else (lock, Some false)
  | DropRef => (u16 (lock - 1), None)
  | DropRefMut => (BORROW_NONE, None)
  end.

(** ** Reference counting.

    [obj] is one heap allocation: is it still allocated, its `refs` cell, the handles
    (ValuePtrs) stored inside it, and a ghost counter of how often its memory was
    released.  [roots] are the handles held elsewhere (stack, locals, temporaries).
    Handles are affine in Rust: moving one needs no operation, `clone` and `drop` are
    the only operations touching `refs`.  Only shared (heap) handles are modelled;
    inline values have no drop behaviour (ptr.rs:504). *)
Record obj := Obj { alive : bool; refs : Z; kids : list nat; frees : nat }.
Record mem := Mem { heap : list obj; roots : list nat }.

Inductive res (A : Type) := Ok (a : A) | Untypable | UseAfterFree.
Arguments Ok {A} _. Arguments Untypable {A}. Arguments UseAfterFree {A}.

Fixpoint remove1 (a : nat) (l : list nat) : option (list nat) :=
  match l with
  | [] => None
  | x :: r => if Nat.eqb x a then Some r else match remove1 a r with Some r' => Some (x :: r') | None => None end
  end.
Fixpoint remove_all (l : list nat) (from : list nat) : option (list nat) :=
  match l with
  | [] => Some from
  | a :: r => match remove1 a from with Some from' => remove_all r from' | None => None end
  end.
Fixpoint set_nth {A} (l : list A) (i : nat) (x : A) : list A :=
  match l, i with
  | [], _ => []
  | _ :: r, O => x :: r
  | y :: r, S i' => y :: set_nth r i' x
  end.

(** ptr.rs:503-543 Drop: decrement, and at zero release the box, which drops the
    handles stored inside, depth first.  [w] is the stack of handles still to be
    dropped.  Touching a released object is [UseAfterFree]. *)
Fixpoint drop_all (fuel : nat) (h : list obj) (w : list nat) : res (list obj) :=
  match w with
  | [] => Ok h
  | a :: w' =>
      match fuel with
      | O => UseAfterFree
      | S f =>
          match nth_error h a with
          | Some o =>
              if alive o then
                let r := u32 (refs o - 1) in
                if r =? 0 then drop_all f (set_nth h a (Obj false 0 [] (S (frees o)))) (kids o ++ w')
                else drop_all f (set_nth h a (Obj true r (kids o) (frees o))) w'
              else UseAfterFree
          | None => UseAfterFree
          end
      end
  end.
(** enough fuel: each iteration consumes one handle of the heap or of the stack *)
Definition kids_of (h : list obj) : list nat := flat_map kids h.
Definition drop_fuel (h : list obj) (w : list nat) : nat := length w + length (kids_of h).

Inductive mem_op :=
| New (ks : list nat)          (* Box::new(Prefix::new(..)) holding the handles ks: ptr.rs:695-702, 162-164 *)
| Clone (a : nat)              (* ptr.rs:484-497 *)
| Drop (a : nat)               (* ptr.rs:503-543 *)
| Put (a b : nat)              (* move a handle of b into object a *)
| Take (a b : nat).            (* move a handle of b out of object a *)

(** [Untypable]: the operation uses a handle the program does not own. *)
Definition mem_step (m : mem) (op : mem_op) : res mem :=
  match op with
  | New ks =>
      match remove_all ks (roots m) with
      | Some rs => Ok (Mem (heap m ++ [Obj true 1 ks 0]) (length (heap m) :: rs))
      | None => Untypable
      end
  | Clone a =>
      match remove1 a (roots m) with
      | None => Untypable
      | Some _ =>
          match nth_error (heap m) a with
          | Some o => if alive o then Ok (Mem (set_nth (heap m) a (Obj true (u32 (refs o + 1)) (kids o) (frees o))) (a :: roots m))
                      else UseAfterFree
          | None => UseAfterFree
          end
      end
  | Drop a =>
      match remove1 a (roots m) with
      | None => Untypable
      | Some rs =>
          match drop_all (drop_fuel (heap m) [a]) (heap m) [a] with
          | Ok h => Ok (Mem h rs)
          | Untypable => Untypable
          | UseAfterFree => UseAfterFree
          end
      end
  | Put a b =>
      match remove1 b (roots m), remove1 a (roots m) with
      | Some rs, Some _ =>
          match nth_error (heap m) a with
          | Some o => if alive o then Ok (Mem (set_nth (heap m) a (Obj true (refs o) (b :: kids o) (frees o))) rs) else UseAfterFree
          | None => UseAfterFree
          end
      | _, _ => Untypable
      end
  | Take a b =>
      match remove1 a (roots m) with
      | Some _ =>
          match nth_error (heap m) a with
          | Some o => if alive o then
                match remove1 b (kids o) with
                | Some ks => Ok (Mem (set_nth (heap m) a (Obj true (refs o) ks (frees o))) (b :: roots m))
                | None => Untypable
                end
              else UseAfterFree
          | None => UseAfterFree
          end
      | None => Untypable
      end
  end.
