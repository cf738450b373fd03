(** Vocabulary for C72: places in a text, and what a report means. *)
From Coq Require Import String.
From Verif Require Import Base Str Report.
From Verif Require Scan.
Local Open Scope nat_scope.

(** ASCII characters *)
Definition ascii (t : list Z) : Prop := Forall (fun c => (0 <= c < 128)%Z) t.
Definition newlines (t : list Z) : nat := count_occ Z.eq_dec t 10%Z.
(** Line [n] (from 0) of [t] is [l], without its line break, and starts with the character [s]. *)
Definition line_at (t : list Z) (n s : nat) (l : list Z) : Prop :=
  exists a b, t = a ++ l ++ b /\ newlines a = n /\ length a = s /\ (a = [] \/ exists a', a = a' ++ [10%Z]) /\ ~ In 10%Z l /\ (b = [] \/ exists b', b = 10%Z :: b').
(** One row of a report: the number of a line, counted from 1, in [w] columns, and the line without a carriage return at its end. *)
Definition row (w n : nat) (l : list Z) : list Z := padded w (n + 1) ++ Scan.text " |" ++ (match strip_cr l with [] => [] | l => 32%Z :: l end) ++ [10%Z].
Definition digits_of (n : nat) : list Z := show_dec (Z.of_nat n).
(** the head of a report *)
Definition head (name error trace no : list Z) : list Z := error ++ Scan.text "
  at: line " ++ no ++ Scan.text " (" ++ name ++ Scan.text ")
" ++ trace ++ [10%Z].

(** The calls that are active, innermost first: where the call is, and where in the called function the program is. *)
Fixpoint calls_from (ip : nat) (returns : list nat) : list (nat * nat) :=
  match returns with [] => [] | r :: rs => (r - 1, ip) :: calls_from (r - 1) rs end.
Definition calls (ip : nat) (call_stack : list nat) : list (nat * nat) := calls_from ip (filter (fun r => 0 <? r) (rev call_stack)).
(** The calls that a trace stands for: `above line repeated n more times`. *)
Definition read_line (acc : list (nat * nat)) (l : line) : list (nat * nat) :=
  match l with Simple a b => acc ++ [(a, b)] | Repeat n => acc ++ repeat (List.last acc (0, 0)) n end.
Definition read_trace (l : list line) : list (nat * nat) := fold_left read_line l [].
