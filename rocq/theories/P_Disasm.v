(** C79: the disassembly. *)
From Coq Require Import String Bool List PeanoNat ZArith.
From Verif Require Import Base Native Str Vm Disasm DisasmSpec DisasmProofs.
From Verif Require Scan.
Import ListNotations.
Local Open Scope nat_scope.

(** The listing of a program has a line for each instruction, in order: the source line, if it is
    not that of the instruction before (instructions without a place do not count), the number
    of the instruction (its last four digits), and the instruction; one that reads or writes a variable is shown
    with the name it was pushed with, whatever instructions the optimizer has removed or replaced
    - if nothing was inserted (C78). *)
Theorem C79_listing_partial (other : op -> list Z) (n_lines : nat) (numbers : bool)
  (bs : list (list (op * option (list Z)))) (es : list edit) (ends : nat -> list op) (lines : list (option nat)) :
  Forall (Forall well_named) bs -> all_proper bs es -> (forall k, forallb (fun o => negb (is_var o)) (ends k) = true) ->
  let c := fold_left edit_code es (build bs) in
  let own := flat ends 0 (fold_left tracked es bs) in
  fst (emit ends c) = map fst own /\
  (length lines = length own ->
   let out := listing other n_lines numbers (snd (emit ends c)) (combine (fst (emit ends c)) lines) in
   length out = length own /\
   forall i o n, nth_error own i = Some (o, n) ->
     nth_error out i = Some (label n_lines lines i ++ (if numbers then zeros 4 (Z.to_nat (Z.of_nat i mod 10000)) else []) ++ Scan.text " " ++ shown other i o n)).
Proof. exact (listing_lines other n_lines numbers bs es ends lines). Qed.
Print Assumptions C79_listing_partial.

(** All labels are of the same length, so the instructions are aligned. *)
Theorem C79_aligned (n_lines : nat) (lines : list (option nat)) (i : nat) :
  (forall n, In (Some n) lines -> n < n_lines) -> length (label n_lines lines i) = width n_lines + 3.
Proof. exact (label_width n_lines lines i). Qed.
Print Assumptions C79_aligned.

(** A jump is shown with the number of the instruction the machine goes to (it has read the jump, and is at the one after). *)
Theorem C79_jump (P : prims) (other : op -> list Z) (z : Z) (m : vm P) (here : nat) :
  ip P m = S here -> (0 <= Z.of_nat here + 1 + z)%Z ->
  shown other here (OJump z) None = Scan.text "Jump(" ++ show_dec (Z.of_nat (ip P (jump P z m))) ++ Scan.text ")".
Proof.
  intros E N. assert (X : Z.of_nat (ip P (jump P z m)) = (Z.of_nat here + (z + 1))%Z) by (unfold jump, set_ip; cbn [ip]; rewrite E; rewrite Z2Nat.id; [|rewrite Nat2Z.inj_succ; apply (Z.le_trans _ _ _ N); apply Z.eq_le_incl; ring]; rewrite Nat2Z.inj_succ; ring).
  rewrite X. cbn [shown]. unfold target. now replace (Z.of_nat here + 1 + z)%Z with (Z.of_nat here + (z + 1))%Z by ring.
Qed.
Print Assumptions C79_jump.

(** `let x = 1` / `x = x + 1; -> print`, in two blocks; the store and the pop are merged *)
Example listing_two :
  let t := Scan.text in
  let bs := [[(OConst (HConst 0), None); (OStoreGlobal 0 false, Some (t "x"%string)); (OPop, None); (OPushLocal 1, Some (t "long"%string))]; [(OPushGlobal 0, Some (t "x"%string))]] in
  let es := [ESet 0 1 (OStoreGlobal 0 true); ERemove 0 2] in
  let ends := fun k => if k =? 0 then [OJumpIfFalse 1] else [] in
  Forall (Forall well_named) bs /\ all_proper bs es /\
  let c := fold_left edit_code es (build bs) in
  listing (fun _ => t "Int(1)"%string) 12 true (snd (emit ends c)) (combine (fst (emit ends c)) [Some 0; Some 0; Some 9; None; Some 10])
  = map t ["L01: 0000 Int(1)"; "     0001 StoreGlobalPop(0) -> x"; "L10: 0002 PushLocal(1) -> long"; "     0003 JumpIfFalse(5)"; "L11: 0004 PushGlobal(0) -> x"]%string.
Proof. cbv zeta. split; [repeat constructor|split; [repeat constructor|]]. vm_compute. reflexivity. Qed.

(** the opcode of a name declared later carries no name, and takes that of the next variable: `fn f(a) { g; a }; let g = 1` *)
Theorem C79_names_refuted :
  let t := Scan.text in
  exists bs e, Forall (Forall well_named) bs /\
    let c := edit_code (build bs) e in
    listing (fun _ => t "Pop"%string) 1 false (snd (emit (fun _ => []) c)) (combine (fst (emit (fun _ => []) c)) [Some 0; Some 0; Some 0])
    = map t ["L1:  PushGlobal(3) -> a"; "     Pop"; "     PushLocal(0)"]%string.
Proof.
  exists [[(OPop, None); (OPushLocal 0, Some (Scan.text "a"%string))]], (EInsert 0 0 (OPushGlobal 3)).
  split; [repeat constructor|]. vm_compute. reflexivity.
Qed.
Print Assumptions C79_names_refuted.

(** the instructions 0 and 10000 have the same number, and jumps to them do not *)
Theorem C79_number_refuted :
  exists code i j, i <> j /\
    let out := listing (fun _ => Scan.text "Pop"%string) 1 true [] code in
    nth_error out i = nth_error out j /\ nth_error out i <> None.
Proof.
  exists (repeat (OPop, None) (Z.to_nat 10001)), 0, (Z.to_nat 10000). split; [vm_compute; discriminate|].
  vm_compute. split; [reflexivity|discriminate].
Qed.
Print Assumptions C79_number_refuted.

(** an assertion is shown with the distance to its target, not with the target *)
Theorem C79_assert_refuted :
  shown (fun _ => []) 5 (OAssertTest 2) None = Scan.text "AssertTest(2)" /\
  shown (fun _ => []) 5 (OJumpIfTrue 2) None = Scan.text "JumpIfTrue(8)".
Proof. vm_compute. split; reflexivity. Qed.
Print Assumptions C79_assert_refuted.
