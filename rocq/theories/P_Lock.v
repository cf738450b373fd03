(** C03, C04: borrow guards and reference counts. *)
From Verif Require Import Base Lock LockSpec LockProofs.
Local Open Scope Z_scope.

(** C03: in every history of attempts and guard drops, however long and with however
    many guards, a mutable guard is never outstanding together with a shared one (and
    a second mutable guard is never handed out). *)
Theorem C03_exclusion : forall (l : Z) (g : guards), lock_reach l g ->
  (exclusive g = true -> shared g = 0%nat) /\
  (exclusive g = true -> snd (lock_step l TryBorrow) = Some false /\ snd (lock_step l TryBorrowMut) = Some false).
Proof. exact lock_exclusion2. Qed.
Print Assumptions C03_exclusion.

(** C03: below 65535 simultaneous shared guards an attempt succeeds exactly when the
    outstanding guards allow it ([guard_step] is the specification), and a failed
    attempt changes nothing. *)
Theorem C03_exact : forall (l : Z) (g : guards), lock_reach l g -> Z.of_nat (shared g) < 65535 ->
  forall op g' out, guard_step g op = Some (g', out) ->
  snd (lock_step l op) = out /\ handed_out g op out = Some g' /\ (out = Some false -> fst (lock_step l op) = l).
Proof. exact lock_exact. Qed.
Print Assumptions C03_exact.

(** C03: once all guards are dropped the value is fully borrowable again. *)
Theorem C03_released : forall l : Z, lock_reach l (G 0 false) -> l = BORROW_NONE.
Proof. exact lock_released. Qed.
Print Assumptions C03_released.

(** The bound is needed: with 65535 shared guards the next shared borrow is refused. *)
Theorem C03_unbounded_refuted : exists l g, lock_reach l g /\ exclusive g = false /\ snd (lock_step l TryBorrow) = Some false.
Proof. exact lock_limit. Qed.
Print Assumptions C03_unbounded_refuted.

Example C03_hypotheses : exists l, lock_reach l (G 2 false).
Proof. exists 3. exact (lr_step 2 _ TryBorrow _ (lr_step 1 _ TryBorrow _ lr_init eq_refl) eq_refl). Qed.

(** C04: over every history of allocations, clones, drops and moves of handles (below
    2^32 simultaneous handles): no operation touches released memory, an object is
    allocated exactly as long as some handle to it exists (in the program or inside
    an allocated object), its counter is the number of these handles, and its memory
    was released exactly once if it is dead and never if it is alive. *)
Theorem C04_refcount : forall m : mem, mem_reach m ->
  (forall op, mem_step m op <> UseAfterFree) /\
  (forall a o, nth_error (heap m) a = Some o ->
     (alive o = true <-> (0 < handles_to m a)%nat) /\
     (alive o = true -> refs o = Z.of_nat (handles_to m a)) /\
     frees o = (if alive o then 0%nat else 1%nat)) /\
  (forall a, (0 < handles_to m a)%nat -> exists o, nth_error (heap m) a = Some o).
Proof. exact refcount_spec. Qed.
Print Assumptions C04_refcount.

(** Without the bound it is false: 2^32 clones wrap the counter and the next drop
    frees the object although handles are left. *)
Theorem C04_unbounded_refuted : exists ops m o, mem_run (Mem [] []) ops = Ok m /\ nth_error (heap m) 0 = Some o /\
  alive o = false /\ In 0%nat (roots m).
Proof. exact refcount_overflow. Qed.
Print Assumptions C04_unbounded_refuted.

(** a nested structure is released from the outside in, shared parts last *)
Example C04_nested : mem_run (Mem [] []) [New []; Clone 0; New [0%nat]; New [1%nat]; Drop 2]
  = Ok (Mem [Obj true 1 [] 0; Obj false 0 [] 1; Obj false 0 [] 1] [0%nat]).
Proof. reflexivity. Qed.
(** cycles are leaked: both objects hold each other and stay allocated (documented in
    ptr.rs:660-662) *)
Example C04_cycle_leaks : mem_run (Mem [] []) [New []; Clone 0; New [0%nat]; Clone 1; Put 0 1; Drop 0; Drop 1]
  = Ok (Mem [Obj true 1 [1%nat] 0; Obj true 1 [0%nat] 0] []).
Proof. reflexivity. Qed.
