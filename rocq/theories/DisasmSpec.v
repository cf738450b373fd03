(** What the disassembly is to show. *)
From Coq Require Import String.
From Verif Require Import Base Native Str Vm.
From Verif Require Scan Disasm.
Local Open Scope nat_scope.

(** opcodes that read or write a variable by its slot *)
Definition is_var (o : op) : bool := match o with OPushGlobal _ | OStoreGlobal _ _ | OPushLocal _ | OStoreLocal _ _ => true | _ => false end.
(** opcodes which the parser pushes come with the name of their variable *)
Definition well_named (p : op * option (list Z)) : Prop := is_var (fst p) = match snd p with Some _ => true | None => false end.

(** the edits, on opcodes that carry their names *)
Definition tracked (bs : list (list (op * option (list Z)))) (e : Disasm.edit) : list (list (op * option (list Z))) :=
  match e with
  | Disasm.ERemove k i => Disasm.at_nth (Disasm.remove_nth i) k bs
  | Disasm.ESet k i o => Disasm.at_nth (Disasm.at_nth (fun p => (o, snd p)) i) k bs
  | Disasm.EInsert _ _ _ => bs
  end.
(** what the optimizer does: it removes opcodes, and replaces one by another that has a variable if the old one has *)
Definition proper (bs : list (list (op * option (list Z)))) (e : Disasm.edit) : Prop :=
  match e with
  | Disasm.ERemove _ _ => True
  | Disasm.ESet k i o => match nth_error bs k with
                         | Some b => match nth_error b i with Some p => is_var (fst p) = is_var o | None => True end
                         | None => True
                         end
  | Disasm.EInsert _ _ _ => False
  end.
Fixpoint all_proper (bs : list (list (op * option (list Z)))) (es : list Disasm.edit) : Prop :=
  match es with [] => True | e :: r => proper bs e /\ all_proper (tracked bs e) r end.
(** all opcodes, in order, with their names; branches have none *)
Fixpoint flat (ends : nat -> list op) (k : nat) (bs : list (list (op * option (list Z)))) : list (op * option (list Z)) :=
  match bs with [] => [] | b :: r => b ++ map (fun o => (o, None)) (ends k) ++ flat ends (S k) r end.

(** an opcode with the name of its variable, or with the number of the opcode it goes to *)
Definition variable (word : string) (slot : nat) (name : option (list Z)) : list Z :=
  (Scan.text word ++ Scan.text "(" ++ show_dec (Z.of_nat slot) ++ Scan.text ")") ++ match name with Some n => Scan.text " -> " ++ n | None => [] end.
Definition target (word : string) (here : nat) (z : Z) : list Z := Scan.text word ++ Scan.text "(" ++ show_dec (Z.of_nat here + 1 + z) ++ Scan.text ")".
Definition shown (other : op -> list Z) (here : nat) (o : op) (name : option (list Z)) : list Z :=
  match o with
  | OPushLocal i => variable "PushLocal" i name
  | OPushGlobal i => variable "PushGlobal" i name
  | OStoreLocal i pop => variable (if pop then "StoreLocalPop" else "StoreLocal") i name
  | OStoreGlobal i pop => variable (if pop then "StoreGlobalPop" else "StoreGlobal") i name
  | OJump z => target "Jump" here z
  | OJumpIfTrue z => target "JumpIfTrue" here z
  | OJumpIfTruePop z => target "JumpIfTruePop" here z
  | OJumpIfFalse z => target "JumpIfFalse" here z
  | OJumpIfFalsePop z => target "JumpIfFalsePop" here z
  | OTestIter z => target "TestIterable" here z
  | OCompare CLt z => target "LessThanCompare" here z
  | OCompare CLe z => target "LessThanEqualCompare" here z
  | OCompare CGt z => target "GreaterThanCompare" here z
  | OCompare CGe z => target "GreaterThanEqualCompare" here z
  | OCompare CEq z => target "EqualCompare" here z
  | OCompare CNe z => target "NotEqualCompare" here z
  | OAssertTest z => Scan.text "AssertTest(" ++ show_dec z ++ Scan.text ")"
  | o => other o
  end.
(** the line of the last opcode that has one *)
Definition line_of (ls : list (option nat)) : option nat := fold_left (fun a l => match l with Some n => Some n | None => a end) ls None.
(** the label of opcode [i]: the line, if it is not that of the opcode before *)
Definition label (n_lines : nat) (ls : list (option nat)) (i : nat) : list Z :=
  match line_of (firstn (S i) ls), line_of (firstn i ls) with
  | Some n, Some m => if n =? m then repeat 32%Z (Disasm.width n_lines + 3) else Scan.text "L" ++ Disasm.zeros (Disasm.width n_lines) (n + 1) ++ Scan.text ": "
  | Some n, None => Scan.text "L" ++ Disasm.zeros (Disasm.width n_lines) (n + 1) ++ Scan.text ": "
  | None, _ => repeat 32%Z (Disasm.width n_lines + 3)
  end.
