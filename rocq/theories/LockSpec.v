(** Specification vocabulary for P_Lock.v. *)
From Verif Require Import Base Lock.
Local Open Scope Z_scope.

(** Outstanding guards on a value. *)
Record guards := G { shared : nat; exclusive : bool }.
(** What a client may do: drop only a guard it holds; the attempt succeeds iff the
    outstanding guards allow it. *)
Definition guard_step (g : guards) (op : lock_op) : option (guards * option bool) :=
  match op with
  | TryBorrow => if exclusive g then Some (g, Some false) else Some (G (S (shared g)) false, Some true)
  | TryBorrowMut => if exclusive g || (0 <? shared g)%nat then Some (g, Some false) else Some (G 0 true, Some true)
  | DropRef => match shared g with O => None | S n => Some (G n (exclusive g), None) end
  | DropRefMut => if exclusive g then Some (G (shared g) false, None) else None
  end.

(** The guards actually outstanding after an operation of the implementation, i.e.
    as determined by the guards it handed out. *)
Definition handed_out (g : guards) (op : lock_op) (out : option bool) : option guards :=
  match op, out with
  | TryBorrow, Some true => Some (G (S (shared g)) (exclusive g))
  | TryBorrowMut, Some true => Some (G (shared g) true)
  | DropRef, _ => match shared g with O => None | S n => Some (G n (exclusive g)) end
  | DropRefMut, _ => if exclusive g then Some (G (shared g) false) else None
  | _, _ => Some g
  end.
(** all histories in which only held guards are dropped *)
Inductive lock_reach : Z -> guards -> Prop :=
| lr_init : lock_reach BORROW_NONE (G 0 false)
| lr_step l g op g' : lock_reach l g -> handed_out g op (snd (lock_step l op)) = Some g' -> lock_reach (fst (lock_step l op)) g'.

(** number of handles to object [a] held by the program or by allocated objects *)
Definition handles_to (m : mem) (a : nat) : nat :=
  count_occ Nat.eq_dec (roots m) a + count_occ Nat.eq_dec (flat_map (fun o => if alive o then kids o else []) (heap m)) a.
Definition total_handles (m : mem) : nat :=
  length (roots m) + length (flat_map (fun o => if alive o then kids o else []) (heap m)).
Inductive mem_reach : mem -> Prop :=
| mr_init : mem_reach (Mem [] [])
| mr_step m op m' : mem_reach m -> mem_step m op = Ok m' -> Z.of_nat (total_handles m') < 2 ^ 32 -> mem_reach m'.

(** running a list of operations, no bound on the number of handles *)
Fixpoint mem_run (m : mem) (ops : list mem_op) : res mem :=
  match ops with
  | [] => Ok m
  | op :: r => match mem_step m op with Ok m' => mem_run m' r | e => e end
  end.
