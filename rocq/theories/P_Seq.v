(** C09 indexing, C10 slicing. *)
From Verif Require Import Base BaseProofs Ptr Native Value Err Iter IterSpec IterProofs Seq SeqSpec SeqProofs.
Local Open Scope Z_scope.

(** C09 for lists and vectors (lengths below 2^62, which memory bounds anyway) *)
Theorem C09_index : forall l i, Z.of_nat (length l) < 2 ^ 62 -> is_int63 i ->
  let r := match element l i with Some x => Ok x | None => Err (ValueErrorIndexOutOfBounds i (Z.of_nat (length l))) end in
  get_index (VList l) (VInt i) = r /\ get_index (VVector l) (VInt i) = r.
Proof. intros l i Hl Hi. apply get_index_list; [|exact Hi]. unfold small. change (2 ^ 62) with 4611686018427387904 in Hl. lia. Qed.
Print Assumptions C09_index.
Example C09_ex : get_index (VList [VInt 5; VInt 6; VInt 7]) (VInt (-3)) = Ok (VInt 5)
  /\ get_index (VList [VInt 5; VInt 6; VInt 7]) (VInt (-4)) = Err (ValueErrorIndexOutOfBounds (-4) 3)
  /\ get_index (VVector [VInt 5]) (VInt (- 2 ^ 62)) = Err (ValueErrorIndexOutOfBounds (- 2 ^ 62) 1).
Proof. repeat split; reflexivity. Qed.

Theorem C09_assign : forall l i x, Z.of_nat (length l) < 2 ^ 62 -> is_int63 i ->
  match element l i with
  | None => set_index (VList l) (VInt i) x = Err (ValueErrorIndexOutOfBounds i (Z.of_nat (length l)))
            /\ set_index (VVector l) (VInt i) x = Err (ValueErrorIndexOutOfBounds i (Z.of_nat (length l)))
  | Some _ => exists l', set_index (VList l) (VInt i) x = Ok (VList l') /\ set_index (VVector l) (VInt i) x = Ok (VVector l') /\
      length l' = length l /\ element l' i = Some x /\
      (forall j, - Z.of_nat (length l) <= j < Z.of_nat (length l) ->
         j <> i -> j <> i + Z.of_nat (length l) -> j <> i - Z.of_nat (length l) -> element l' j = element l j)
  end.
Proof. intros l i x Hl Hi. apply set_index_list; [|exact Hi]. unfold small. change (2 ^ 62) with 4611686018427387904 in Hl. lia. Qed.
Print Assumptions C09_assign.
Example C09_assign_ex : set_index (VList [VInt 5; VInt 6; VInt 7]) (VInt (-1)) VNil = Ok (VList [VInt 5; VInt 6; VNil]).
Proof. reflexivity. Qed.

(** strings: only for ASCII contents *)
Theorem C09_string_partial : forall s i, ascii s -> Z.of_nat (length s) < 2 ^ 62 -> is_int63 i ->
  get_index (VStr s) (VInt i) =
    match element s i with Some c => Ok (VStr [c]) | None => Err (ValueErrorIndexOutOfBounds i (Z.of_nat (length s))) end.
Proof. intros s i Ha Hl Hi. apply get_index_ascii; [exact Ha| |exact Hi]. unfold small. change (2 ^ 62) with 4611686018427387904 in Hl. lia. Qed.
Print Assumptions C09_string_partial.
Example C09_string_ex : ascii [104; 105] /\ get_index (VStr [104; 105]) (VInt 1) = Ok (VStr [105]).
Proof. split; [repeat (apply Forall_cons; [lia|]); apply Forall_nil|reflexivity]. Qed.
(** 'e-acute'[1] crashes the interpreter, and 'e-acute'[-1] too, though the string has length 1 *)
Theorem C09_string_refuted :
  ~ (forall s i, is_int63 i -> get_index (VStr s) (VInt i) =
    match element s i with Some c => Ok (VStr [c]) | None => Err (ValueErrorIndexOutOfBounds i (Z.of_nat (length s))) end).
Proof. intros H. specialize (H [233] (-1)). discriminate H. apply int63_bounds. lia. Qed.
Print Assumptions C09_string_refuted.

(** C10 for lists and vectors *)
Theorem C10_slice : forall l lo hi step, Z.of_nat (length l) < 2 ^ 62 ->
  opt_int63 lo -> opt_int63 hi -> opt_int63 step ->
  (step = Some 0 -> get_slice (VList l) (opt_int lo) (opt_int hi) (opt_int step) = Err ValueErrorStepCannotBeZero
                 /\ get_slice (VVector l) (opt_int lo) (opt_int hi) (opt_int step) = Err ValueErrorStepCannotBeZero) /\
  (step <> Some 0 -> exists out,
     get_slice (VList l) (opt_int lo) (opt_int hi) (opt_int step) = Ok (VList out) /\
     get_slice (VVector l) (opt_int lo) (opt_int hi) (opt_int step) = Ok (VVector out) /\
     is_slice l lo hi (match step with Some s => s | None => 1 end) out).
Proof. intros l lo hi st Hl. apply get_slice_list. unfold small. change (2 ^ 62) with 4611686018427387904 in Hl. lia. Qed.
Print Assumptions C10_slice.
Example C10_ex : get_slice (VList [VInt 0; VInt 1; VInt 2; VInt 3; VInt 4]) (VInt (-1)) VNil (VInt (-2))
  = Ok (VList [VInt 4; VInt 2; VInt 0]).
Proof. reflexivity. Qed.

Theorem C10_slice_laws : forall l k, Z.of_nat (length l) < 2 ^ 62 -> is_int63 k ->
  get_slice (VList l) VNil VNil VNil = Ok (VList l) /\
  get_slice (VList l) VNil VNil (VInt (-1)) = Ok (VList (rev l)) /\
  (exists l1 l2, get_slice (VList l) VNil (VInt k) VNil = Ok (VList l1) /\
                 get_slice (VList l) (VInt k) VNil VNil = Ok (VList l2) /\ l1 ++ l2 = l).
Proof.
  intros l k Hl Hk. assert (Hn : small (Z.of_nat (length l))) by (unfold small; change (2 ^ 62) with 4611686018427387904 in Hl; lia).
  split; [|split].
  - destruct (proj2 (get_slice_list l None None None Hn I I I)) as (o & H & _ & Ho); [discriminate|].
    cbn [opt_int] in H. rewrite H. repeat f_equal. eapply is_slice_unique; [exact Ho|]. apply is_slice_full.
  - destruct (proj2 (get_slice_list l None None (Some (-1)) Hn I I ltac:(apply int63_bounds; lia))) as (o & H & _ & Ho); [discriminate|].
    cbn [opt_int] in H. rewrite H. repeat f_equal. eapply is_slice_unique; [exact Ho|]. apply is_slice_reverse.
  - destruct (proj2 (get_slice_list l None (Some k) None Hn I Hk I)) as (o1 & H1 & _ & Ho1); [discriminate|].
    destruct (proj2 (get_slice_list l (Some k) None None Hn Hk I I)) as (o2 & H2 & _ & Ho2); [discriminate|].
    exists o1, o2. split; [exact H1|]. split; [exact H2|]. eapply is_slice_split; eassumption.
Qed.
Print Assumptions C10_slice_laws.

(** a first-class slice value [a:b:c] applied to a sequence is the slice *)
Theorem C10_slice_value : forall l lo hi step, opt_int63 lo -> opt_int63 hi -> opt_int63 step ->
  exists s, make_slice (opt_int lo) (opt_int hi) (opt_int step) = Ok s /\
    apply_slice s (VList l) = get_slice (VList l) (opt_int lo) (opt_int hi) (opt_int step).
Proof. intros l [lo|] [hi|] [st|] _ _ _; eexists; (split; [reflexivity|reflexivity]). Qed.
Print Assumptions C10_slice_value.

Theorem C10_string_partial : forall s lo hi step, ascii s -> Z.of_nat (length s) < 2 ^ 62 ->
  opt_int63 lo -> opt_int63 hi -> opt_int63 step ->
  (step = Some 0 -> get_slice (VStr s) (opt_int lo) (opt_int hi) (opt_int step) = Err ValueErrorStepCannotBeZero) /\
  (step <> Some 0 -> exists out,
     get_slice (VStr s) (opt_int lo) (opt_int hi) (opt_int step) = Ok (VStr out) /\
     is_slice s lo hi (match step with Some x => x | None => 1 end) out).
Proof. intros s lo hi st Ha Hl. apply get_slice_ascii; [exact Ha|]. unfold small. change (2 ^ 62) with 4611686018427387904 in Hl. lia. Qed.
Print Assumptions C10_string_partial.
Example C10_string_ex : get_slice (VStr [97; 98; 99; 100]) (VInt 1) (VInt (-1)) VNil = Ok (VStr [98; 99]).
Proof. reflexivity. Qed.
(** 'e-acute'[:] crashes *)
Theorem C10_string_refuted : ~ (forall s, get_slice (VStr s) VNil VNil VNil = Ok (VStr s)).
Proof. intros H. specialize (H [233]). discriminate. Qed.
Print Assumptions C10_string_refuted.
