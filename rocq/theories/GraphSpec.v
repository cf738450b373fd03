(** What a control flow graph and flat code mean, as sets of traces: the instructions
    executed, and for each conditional branch whether it was taken.  Whether a branch
    is taken depends on the machine state; a trace fixes these decisions, so equality
    of trace sets means equality of behaviour for all machine states. *)
From Verif Require Import Base Native Err Vm Graph.
Local Open Scope nat_scope.

Inductive event := EvOp (o : op) | EvBranch (ty : brtype) (taken : bool).

(** conditional branch opcodes *)
Definition as_branch (o : op) : option (brtype * Z) :=
  match o with
  | OJumpIfTrue z => Some (BrTrue, z)
  | OJumpIfFalse z => Some (BrFalse, z)
  | OJumpIfTruePop z => Some (BrTruePop, z)
  | OJumpIfFalsePop z => Some (BrFalsePop, z)
  | OCompare c z => Some (BrCompare c, z)
  | OTestIter z => Some (BrTestIter, z)
  | OAssertTest z => Some (BrAssertTest, z)
  | OAssertCompare c z => Some (BrAssertCompare c, z)
  | _ => None
  end.
Definition is_jump (o : op) : bool :=
  match o with OJump _ => true | _ => match as_branch o with Some _ => true | None => false end end.
(** opcodes after which control does not go on to the next one *)
Definition is_final (o : op) : bool :=
  match o with OReturn | OExit | OYield | OAssertFailed => true | _ => false end.

(** the graph: a position is a block and an index into its code *)
Inductive gstep (G : graph) : nat * nat -> list event -> nat * nat -> Prop :=
| g_op b blk i o : nth_error G b = Some blk -> nth_error (bcode blk) i = Some o -> is_final o = false ->
    gstep G (b, i) [EvOp o] (b, S i)
| g_next b blk n : nth_error G b = Some blk -> bend blk = ENext n ->
    gstep G (b, length (bcode blk)) [] (n, 0)
| g_taken b blk ty d t : nth_error G b = Some blk -> bend blk = EBranch ty d t ->
    gstep G (b, length (bcode blk)) [EvBranch ty true] (t, 0)
| g_not_taken b blk ty d t : nth_error G b = Some blk -> bend blk = EBranch ty d t ->
    gstep G (b, length (bcode blk)) [EvBranch ty false] (d, 0).
(** flat code: relative jumps count from the following instruction *)
Inductive fstep (C : list op) : nat -> list event -> nat -> Prop :=
| f_op p o : nth_error C p = Some o -> is_jump o = false -> is_final o = false -> fstep C p [EvOp o] (S p)
| f_jump p z q : nth_error C p = Some (OJump z) -> Z.of_nat q = (Z.of_nat p + 1 + z)%Z -> fstep C p [] q
| f_taken p o ty z q : nth_error C p = Some o -> as_branch o = Some (ty, z) -> Z.of_nat q = (Z.of_nat p + 1 + z)%Z ->
    fstep C p [EvBranch ty true] q
| f_not_taken p o ty z : nth_error C p = Some o -> as_branch o = Some (ty, z) -> fstep C p [EvBranch ty false] (S p).

Inductive star {A} (R : A -> list event -> A -> Prop) : A -> list event -> A -> Prop :=
| star_nil x : star R x [] x
| star_cons x e y f z : R x e y -> star R y f z -> star R x (e ++ f) z.

(** block [b] of the graph can perform [evs] / performs [evs] and then the final opcode [o] *)
Definition graph_can (G : graph) (b : nat) (evs : list event) : Prop := exists p, star (gstep G) (b, 0) evs p.
Definition graph_ends (G : graph) (b : nat) (evs : list event) (o : op) : Prop :=
  exists c i blk, star (gstep G) (b, 0) evs (c, i) /\ nth_error G c = Some blk /\ nth_error (bcode blk) i = Some o /\ is_final o = true.
Definition flat_can (C : list op) (p : nat) (evs : list event) : Prop := exists q, star (fstep C) p evs q.
Definition flat_ends (C : list op) (p : nat) (evs : list event) (o : op) : Prop :=
  exists q, star (fstep C) p evs q /\ nth_error C q = Some o /\ is_final o = true.

(** graphs as the parser leaves them: no jumps inside blocks, branch targets exist,
    a block with no successor ends in a final opcode *)
Definition wf_block (n : nat) (b : block) : Prop :=
  (forall o, In o (bcode b) -> is_jump o = false) /\
  match bend b with
  | EExit => exists c o, bcode b = c ++ [o] /\ is_final o = true
  | ENext t => t < n
  | EBranch ty d t => d < n /\ t < n /\ ty <> BrJump
  end.
Definition wf_graph (G : graph) : Prop := forall b, In b G -> wf_block (length G) b.
