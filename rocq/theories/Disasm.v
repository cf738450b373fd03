(** The disassembly: compiler/mod.rs 225-250, vm/opcode.rs 161-215; names of variables: compiler/parser/core/graph.rs 17-35, 145-164, 208-216, 268-301, core/mod.rs 288-303.

    How an opcode without a variable and without a jump target is written is a parameter, and so is the
    line of an opcode (SourceView::lineno is in Report.v); the number of lines of the text is [n_lines]. *)
From Coq Require Import String.
From Verif Require Import Base Native Str Vm.
From Verif Require Scan LateBind.
Local Open Scope nat_scope.

(** compiler/mod.rs 228-233 *)
Fixpoint width_loop (fuel n : nat) : nat := match fuel with O => 0 | S f => match n with O => 0 | S _ => S (width_loop f (n / 10)) end end.
Definition width (n_lines : nat) : nat := width_loop n_lines n_lines.
(** `{:0>w$}` *)
Definition zeros (w n : nat) : list Z := let d := show_dec (Z.of_nat n) in repeat 48%Z (w - length d) ++ d.
(** opcode.rs 177-193 *)
Definition named (word : string) (id : nat) (names : list (list Z)) : list Z * list (list Z) :=
  let s := Scan.text word ++ Scan.text "(" ++ show_dec (Z.of_nat id) ++ Scan.text ")" in
  match names with n :: r => (s ++ Scan.text " -> " ++ n, r) | [] => (s, []) end.
(** opcode.rs 196-204, 207; util.rs 56-60 *)
Definition goes (word : string) (ip : nat) (z : Z) : list Z := Scan.text word ++ Scan.text "(" ++ show_dec (Z.of_nat ip + (z + 1)) ++ Scan.text ")".
Definition cmp_word (c : cmpop) : string :=
  match c with
  | CLt => "LessThanCompare" | CGt => "GreaterThanCompare" | CLe => "LessThanEqualCompare" | CGe => "GreaterThanEqualCompare"
  | CEq => "EqualCompare" | CNe => "NotEqualCompare"
  end.
(** opcode.rs 161-215 *)
Definition asm (other : op -> list Z) (ip : nat) (o : op) (names : list (list Z)) : list Z * list (list Z) :=
  match o with
  | OStoreGlobal i true => named "StoreGlobalPop" i names
  | OStoreGlobal i false => named "StoreGlobal" i names
  | OStoreLocal i true => named "StoreLocalPop" i names
  | OStoreLocal i false => named "StoreLocal" i names
  | OPushGlobal i => named "PushGlobal" i names
  | OPushLocal i => named "PushLocal" i names
  | OJumpIfFalse z => (goes "JumpIfFalse" ip z, names)
  | OJumpIfFalsePop z => (goes "JumpIfFalsePop" ip z, names)
  | OJumpIfTrue z => (goes "JumpIfTrue" ip z, names)
  | OJumpIfTruePop z => (goes "JumpIfTruePop" ip z, names)
  | OJump z => (goes "Jump" ip z, names)
  | OTestIter z => (goes "TestIterable" ip z, names)
  | OCompare c z => (goes (cmp_word c) ip z, names)
  (* `{:?}` of opcode.rs 213, which shows the offset *)
  | OAssertTest z => (Scan.text "AssertTest(" ++ show_dec z ++ Scan.text ")", names)
  | _ => (other o, names)
  end.
Definition same (a b : option nat) : bool := match a, b with Some x, Some y => x =? y | None, None => true | _, _ => false end.
(** compiler/mod.rs 235-247; [last]: `last_line_no`, None is usize::MAX *)
Fixpoint listing_from (other : op -> list Z) (w : nat) (numbers : bool) (ip : nat) (last : option nat) (names : list (list Z)) (code : list (op * option nat)) : list (list Z) :=
  match code with
  | [] => []
  | (o, l) :: r =>
      let line := match l with Some n => Some n | None => last end in
      let label := if same line last then repeat 32%Z (w + 3)
                   else match line with Some n => Scan.text "L" ++ zeros w (n + 1) ++ Scan.text ": " | None => [] end in
      let '(a, names') := asm other ip o names in
      (label ++ (if numbers then zeros 4 (Z.to_nat (Z.of_nat ip mod 10000)) else []) ++ Scan.text " " ++ a) :: listing_from other w numbers (S ip) line names' r
  end.
Definition listing (other : op -> list Z) (n_lines : nat) (numbers : bool) (names : list (list Z)) (code : list (op * option nat)) : list (list Z) :=
  listing_from other (width n_lines) numbers 0 None names code.

(** ** The names *)
(** graph.rs 17-20: [names_of]: the names, by block and opcode id *)
Record code := Code { blocks : list LateBind.block; names_of : list ((nat * nat) * list Z) }.
(** graph.rs 208-216.  All pushes go to the last block, so those of one block come together. *)
Definition push_all (k : nat) (pushes : list (op * option (list Z))) : LateBind.block * list ((nat * nat) * list Z) :=
  fold_left (fun s p => let '(b, m) := s in
    (LateBind.push (fst p) b, match snd p with Some t => ((k, length b), t) :: m | None => m end)) pushes ([], []).
Fixpoint build_from (k : nat) (l : list (list (op * option (list Z)))) : code :=
  match l with
  | [] => Code [] []
  | p :: r => let '(b, m) := push_all k p in let c := build_from (S k) r in Code (b :: blocks c) (m ++ names_of c)
  end.
Definition build := build_from 0.
(** graph.rs 268-281 (what the optimizer may do), 289-301 (late bindings): opcode [i] of block [k] is removed or
    replaced; an opcode is inserted before the one with an id *)
Inductive edit := ERemove (k i : nat) | ESet (k i : nat) (o : op) | EInsert (k id : nat) (o : op).
Definition remove_nth {A} (i : nat) (l : list A) : list A := firstn i l ++ skipn (S i) l.
Fixpoint at_nth {A} (f : A -> A) (i : nat) (l : list A) : list A :=
  match l, i with [], _ => [] | x :: r, O => f x :: r | x :: r, S i => x :: at_nth f i r end.
Definition edit_code (c : code) (e : edit) : code :=
  Code (match e with
        | ERemove k i => at_nth (remove_nth i) k (blocks c)
        | ESet k i o => at_nth (at_nth (fun p => (fst p, o)) i) k (blocks c)
        | EInsert k id o => at_nth (LateBind.insert id o) k (blocks c)
        end) (names_of c).
(** HashMap::remove *)
Definition is_key (k : nat * nat) (p : (nat * nat) * list Z) : bool := (fst (fst p) =? fst k) && (snd (fst p) =? snd k).
Definition take (k : nat * nat) (m : list ((nat * nat) * list Z)) : option (list Z) * list ((nat * nat) * list Z) :=
  (match find (is_key k) m with Some p => Some (snd p) | None => None end, filter (fun p => negb (is_key k p)) m).
(** graph.rs 149-163: the opcodes and the names, without the branches at the end of a block *)
Fixpoint emit_block (k : nat) (b : LateBind.block) (m : list ((nat * nat) * list Z)) : list op * list (list Z) * list ((nat * nat) * list Z) :=
  match b with
  | [] => ([], [], m)
  | (id, o) :: r =>
      let '(t, m') := take (k, id) m in
      let '(os, ns, m'') := emit_block k r m' in
      (o :: os, match t with Some n => n :: ns | None => ns end, m'')
  end.
(** graph.rs 149-184: [ends k] are the branches at the end of block k *)
Fixpoint emit_from (ends : nat -> list op) (k : nat) (bs : list LateBind.block) (m : list ((nat * nat) * list Z)) : list op * list (list Z) :=
  match bs with
  | [] => ([], [])
  | b :: r =>
      let '(os, ns, m') := emit_block k b m in
      let '(os', ns') := emit_from ends (S k) r m' in
      (os ++ ends k ++ os', ns ++ ns')
  end.
Definition emit (ends : nat -> list op) (c : code) : list op * list (list Z) := emit_from ends 0 (blocks c) (names_of c).
