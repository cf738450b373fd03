(** C72: error reports point to the place of the error, and stack traces list the active calls. *)
From Coq Require Import String Lia Arith.
From Verif Require Import Base Native Value Str Report ReportSpec ReportProofs ReportProofs2.
From Verif Require Scan.
Local Open Scope nat_scope.

(** The number of the line: for ASCII texts, a place that starts in a line (its line break included) is reported with the number of this line. *)
Theorem C72_line_partial t n s l loc : ascii t -> line_at t n s l -> width loc <> 0 -> s <= start loc <= s + length l -> lineno t loc = Some n.
Proof. intros A L W S. unfold lineno, is_empty. destruct (Nat.eqb_spec (width loc) 0); [contradiction|]. f_equal. apply (fst_line t n s l); assumption. Qed.
Print Assumptions C72_line_partial.

(** Every character is in one line. *)
Theorem C72_every_char t i : i <= length t -> exists n s l, line_at t n s l /\ s <= i <= s + length l.
Proof.
  intro I. pose proof (firstn_skipn i t) as E.
  assert (B : exists l b, skipn i t = l ++ b /\ ~ In 10%Z l /\ (b = [] \/ exists b', b = 10%Z :: b')).
  { generalize (skipn i t) as u. clear. induction u as [|c u (l & b & -> & NL & HB)]; [exists [], []; auto|]. destruct (Z.eq_dec c 10) as [->|N]; [exists [], (10%Z :: l ++ b); repeat split; eauto|].
    exists (c :: l), b. repeat split; [|exact HB]. intros [Q|Q]; [congruence|exact (NL Q)]. }
  assert (A : exists a l, firstn i t = a ++ l /\ ~ In 10%Z l /\ (a = [] \/ exists a', a = a' ++ [10%Z])).
  { generalize (firstn i t) as u. clear. induction u as [|c u (a & l & -> & NL & HA)]; [exists [], []; auto|]. destruct HA as [->|[a' ->]]; [|exists (c :: a' ++ [10%Z]), l; repeat split; eauto; right; exists (c :: a'); reflexivity].
    destruct (Z.eq_dec c 10) as [->|N]; [exists [10%Z], l; repeat split; eauto; right; exists []; reflexivity|]. exists [], (c :: l). repeat split; [|left; reflexivity]. intros [Q|Q]; [congruence|exact (NL Q)]. }
  destruct A as (a & la & EA & NA & HA). destruct B as (lb & b & EB & NB & HB). exists (newlines a), (length a), (la ++ lb). split.
  - exists a, b. rewrite <- E, EA, EB, <- !app_assoc. repeat split; auto. intro Q. apply in_app_or in Q. destruct Q; auto.
  - assert (L : length (firstn i t) = i) by (rewrite firstn_length; lia). rewrite EA, app_length in L. rewrite app_length. lia.
Qed.
Print Assumptions C72_every_char.

(** A place within one line of an ASCII text: the report shows the number and the text of this line, and below it marks (`^`) exactly the
    columns of the characters of the place. *)
Theorem C72_marks_partial name error trace t n s l loc : ascii t -> line_at t n s l -> width loc <> 0 ->
  s <= start loc <= s + length (strip_cr l) -> end_ loc <= s + length l -> strip_cr l <> [] ->
  let w := length (digits_of (n + 2)) in
  exists marks, format name error trace t loc = Some (head name error trace (digits_of (n + 1)) ++ row w n l ++ padded w (n + 2) ++ Scan.text " |" ++ (32%Z :: marks) ++ [10%Z]) /\
    forall j, nth_error marks j = Some 94%Z <-> start loc <= s + j <= end_ loc.
Proof. intros. cbv zeta. apply format_single; assumption. Qed.
Print Assumptions C72_marks_partial.

(** A place from line n to a later line n2, not ending with the first character of that line: all lines from n to n2 are shown. *)
Theorem C72_lines_partial name error trace t n s l n2 s2 l2 loc : ascii t -> line_at t n s l -> line_at t n2 s2 l2 -> n < n2 -> width loc <> 0 ->
  s <= start loc <= s + length l -> s2 < end_ loc <= s2 + length l2 ->
  let w := length (digits_of (n2 + 2)) in
  exists rs marks, format name error trace t loc = Some (head name error trace (digits_of (n + 1) ++ Scan.text " - " ++ digits_of (n2 + 1)) ++ concat rs ++ padded w (n2 + 2) ++ Scan.text " |" ++ marks ++ [10%Z]) /\
    length rs = n2 + 1 - n /\ (forall i r s' l', nth_error rs i = Some r -> line_at t (n + i) s' l' -> r = row w (n + i) l') /\ (marks = [] \/ exists k, marks = 32%Z :: repeat 94%Z k).
Proof.
  intros A L L2 N W S E. cbv zeta. destruct (format_multi name error trace t n s l n2 s2 l2 loc A L L2 N W S E) as (rs & marks & F & LR & R & M). exists rs, marks. split; [exact F|]. split; [exact LR|]. split; [|exact M].
  intros i r s' l' X LA. destruct (R i r X) as (l0 & I & ->). destruct (line_index t (n + i) s' l' A LA) as (I' & _). congruence.
Qed.
Print Assumptions C72_lines_partial.

(** Reporting never panics: for every text, and every place in it, or up to two characters after its end (as for what is not terminated), or no place. *)
Theorem C72_no_panic name error trace t loc : width loc = 0 \/ (start loc <= length t /\ end_ loc <= length t + 1) -> exists r, format name error trace t loc = Some r.
Proof. exact (format_total name error trace t loc). Qed.
Print Assumptions C72_no_panic.

(** Texts with other characters: places are in characters, but the lines are found by counting bytes; the error at `x` in the second line is reported for the first line. *)
Theorem C72_unicode_refuted : exists t n s l loc, line_at t n s l /\ width loc = 1 /\ start loc = s /\ lineno t loc <> Some n.
Proof.
  exists [39; 233; 233; 39; 10; 120]%Z, 1, 5, [120%Z], (Loc 5 1). split; [|repeat split; vm_compute; discriminate].
  exists [39; 233; 233; 39; 10]%Z, []. repeat split; auto; [right; exists [39; 233; 233; 39]%Z; reflexivity|]. intros [Q|[]]. discriminate Q.
Qed.
Print Assumptions C72_unicode_refuted.
(** A place that ends with the first character of a line: this line is not shown, and the place is reported as being in the line before. *)
Theorem C72_end_refuted : exists t n2 s2 l2 loc r, ascii t /\ line_at t n2 s2 l2 /\ n2 = 1 /\ start loc = 0 /\ end_ loc = s2 /\
  format [] [] [] t loc = Some r /\ r = Scan.text "
  at: line 1 ()

1 | f(
2 | ^^^^
".
Proof.
  exists (Scan.text "f(
)"), 1, 3, [41%Z], (Loc 0 4). eexists. split; [repeat constructor; vm_compute; congruence|]. split.
  - exists (Scan.text "f(
"), []. repeat split; auto; [right; exists (Scan.text "f("); reflexivity|]. intros [Q|[]]. discriminate Q.
  - repeat split.
Qed.
Print Assumptions C72_end_refuted.

(** The place of a part and of another part, joined, is the smallest that covers both. *)
Theorem C72_join a b : width a <> 0 -> width b <> 0 ->
  (forall i, start a <= i <= end_ a \/ start b <= i <= end_ b -> start (join a b) <= i <= end_ (join a b)) /\
  (start (join a b) = start a \/ start (join a b) = start b) /\ (end_ (join a b) = end_ a \/ end_ (join a b) = end_ b).
Proof. intros A B. unfold join, end_. cbv zeta. cbn [start width]. repeat split; lia. Qed.
Print Assumptions C72_join.

(** A stack trace stands for exactly the active calls, innermost first, at any depth: lines that repeat are counted, none is lost. *)
Theorem C72_trace ip call_stack : read_trace (stack_trace ip call_stack) = calls ip call_stack.
Proof. exact (trace_reads ip call_stack). Qed.
Print Assumptions C72_trace.

(** The function named in a line is the one whose code contains the instruction; code before all functions is that of the script. *)
Theorem C72_owner pos lens i f ip : (forall n, In n lens -> 0 < n) ->
  (nth_error (emit_functions pos lens) i = Some f -> fst f <= ip <= snd f -> find_owning ip 0 (emit_functions pos lens) = Some i) /\ (ip < pos -> find_owning ip 0 (emit_functions pos lens) = None).
Proof.
  intro P. split; [apply (owner lens pos 0); exact P|]. intro L. apply find_none. intros g G. apply emitted_after in G. unfold contains_ip. destruct (Nat.leb_spec (fst g) ip); [lia|reflexivity].
Qed.
Print Assumptions C72_owner.

(** Examples *)
Example ex_report : format (Scan.text "a.cor") (Scan.text "TypeError") [] (Scan.text "let x
  x = 1 + nil
") (Loc 14 5) = Some (Scan.text "TypeError
  at: line 2 (a.cor)

2 |   x = 1 + nil
3 |         ^^^^^
").
Proof. vm_compute. reflexivity. Qed.
Example ex_line : line_at (Scan.text "let x
  x = 1 + nil
") 1 6 (Scan.text "  x = 1 + nil").
Proof. exists (Scan.text "let x
"), [10%Z]. repeat split; eauto; [right; exists (Scan.text "let x"); reflexivity|]. vm_compute. intuition discriminate. Qed.
Example ex_trace : stack_trace 50 [0; 10; 40; 40; 40; 40; 40; 40; 40] = [Simple 39 50; Simple 39 39; Simple 39 39; Simple 39 39; Simple 39 39; Repeat 2; Simple 9 39].
Proof. reflexivity. Qed.
Example ex_owner : emit_functions 10 [5; 7] = [(10, 14); (15, 21)] /\ find_owning 15 0 [(10, 14); (15, 21)] = Some 1.
Proof. split; reflexivity. Qed.
