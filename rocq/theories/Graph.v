(** The compiler's control flow graph and its linearisation:
    compiler/parser/core/graph.rs. *)
From Verif Require Import Base Native Err Vm.
Local Open Scope nat_scope.

(** graph.rs:60-62 enum BranchType *)
Inductive brtype :=
| BrJump | BrTrue | BrFalse | BrTruePop | BrFalsePop
| BrCompare (c : cmpop) | BrTestIter | BrAssertTest | BrAssertCompare (c : cmpop).
(** graph.rs:38-57 enum BlockEnd *)
Inductive blockend := EExit | ENext (n : nat) | EBranch (ty : brtype) (default branch : nat).
(** graph.rs:28-36 struct Block; opcode ids and source locations are dropped *)
Record block := Block { bcode : list op; bend : blockend }.
(** graph.rs:14-17 struct Code: the blocks *)
Definition graph := list block.

(** graph.rs:294-300 BlockEnd::branch *)
Definition mk_branch (ty : brtype) (default branch : nat) : blockend :=
  match ty with BrJump => ENext branch | _ => EBranch ty default branch end.

(** graph.rs:129-134 Code::new *)
Definition g_new : graph := [Block [] EExit].
(** replace the last block *)
Definition upd_last (g : graph) (f : block -> block) : graph :=
  match rev g with [] => [] | b :: r => rev (f b :: r) end.
(** graph.rs:203-211 Code::push *)
Definition g_push (o : op) (g : graph) : graph := upd_last g (fun b => Block (bcode b ++ [o]) (bend b)).
Definition g_end (g : graph) (i : nat) (e : blockend) : graph :=
  match nth_error g i with Some b => upd g i (Block (bcode b) e) | None => g end.
(** graph.rs:219-223 *)
Definition g_branch_forward (g : graph) : graph * nat := (g ++ [Block [] EExit], length g - 1).
(** graph.rs:226-233 *)
Definition g_join_forward (g : graph) (b : nat) (ty : brtype) : graph :=
  g_end (g_end g (length g - 1) (ENext (length g))) b (mk_branch ty (S b) (length g)) ++ [Block [] EExit].
(** graph.rs:241-246 *)
Definition g_branch_reverse (g : graph) : graph * nat :=
  (g_end g (length g - 1) (ENext (length g)) ++ [Block [] EExit], length g).
(** graph.rs:249-255 *)
Definition g_join_reverse (g : graph) (b : nat) (ty : brtype) : graph :=
  g_end g (length g - 1) (mk_branch ty (length g) b) ++ [Block [] EExit].

(** the branching opcode of each branch type: graph.rs:185-196 *)
Definition brop (ty : brtype) (z : Z) : op :=
  match ty with
  | BrJump => OJump z
  | BrTrue => OJumpIfTrue z
  | BrFalse => OJumpIfFalse z
  | BrTruePop => OJumpIfTruePop z
  | BrFalsePop => OJumpIfFalsePop z
  | BrCompare c => OCompare c z
  | BrTestIter => OTestIter z
  | BrAssertTest => OAssertTest z
  | BrAssertCompare c => OAssertCompare c z
  end.

(** `as i32` and i32 subtraction *)
Definition i32 (z : Z) : Z := ((z + 2^31) mod 2^32 - 2^31)%Z.
(** graph.rs:182-183; opcode.rs:159 placeholder *)
Definition offset (start index : nat) : Z := i32 (i32 (Z.of_nat start) - i32 (Z.of_nat index) - 1).
Definition placeholder : op := OExit.

(** graph.rs:141-179: the first loop of Code::emit; [brs]: (index, target block, type) *)
Fixpoint emit_blocks (bid : nat) (bs : graph) (code : list op) (starts : list nat) (brs : list (nat * nat * brtype))
  : list op * list nat * list (nat * nat * brtype) :=
  match bs with
  | [] => (code, starts, brs)
  | b :: r =>
      let starts := starts ++ [length code] in
      let code := code ++ bcode b in
      match bend b with
      | EExit => emit_blocks (S bid) r code starts brs
      | ENext n =>
          if S bid =? n then emit_blocks (S bid) r code starts brs
          else emit_blocks (S bid) r (code ++ [placeholder]) starts (brs ++ [(length code, n, BrJump)])
      | EBranch ty d t =>
          let brs := brs ++ [(length code, t, ty)] in
          let code := code ++ [placeholder] in
          if S bid =? d then emit_blocks (S bid) r code starts brs
          else emit_blocks (S bid) r (code ++ [placeholder]) starts (brs ++ [(length code, d, BrJump)])
      end
  end.
(** graph.rs:181-197: the second loop *)
Definition patch (starts : list nat) (brs : list (nat * nat * brtype)) (code : list op) : list op :=
  fold_left (fun c b => match b with (i, t, ty) => upd c i (brop ty (offset (nth t starts 0) i)) end) brs code.
(** Code::emit, appending to [code] *)
Definition emit (g : graph) (code : list op) : list op * list nat :=
  let '(c, starts, brs) := emit_blocks 0 g code [] [] in (patch starts brs c, starts).
