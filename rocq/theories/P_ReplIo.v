(** C80: the input of the REPL. *)
From Coq Require Import String Bool List PeanoNat ZArith.
From Verif Require Import Base.
From Verif Require Import ReplIo ReplIoSpec ReplIoProofs.
From Verif Require Scan.
Import ListNotations.
Local Open Scope nat_scope.

(** Entering the lines of an input one by one does what entering the whole input at once does, and
    blank lines between the inputs do nothing; the prompts tell how many lines belong together.  What is read after it
    finds the session after the last input; when an input ends the session, nothing more is read. *)
Theorem C80_lines (h : host) (b : between h) (ls : list (list Z)) (es : list event) (b' : between h) (go : bool) (q : list read_result) :
  keeps h -> script h b ls es b' go ->
  session (map ReadOk ls ++ q) (Repl false (past b ++ [empty_view]) (state b)) =
  if go then let '(z, es2, r) := session q (Repl false (past b' ++ [empty_view]) (state b')) in (z, es ++ es2, r)
  else (None, es, Repl false (past b') (state b')).
Proof. exact (script_session b ls es b' go q). Qed.
Print Assumptions C80_lines.

(** In particular a whole session, from its start to the end of its input. *)
Theorem C80_session (h : host) (s : St h) (ls : list (list Z)) (es : list event) (b' : between h) (go : bool) :
  keeps h -> script h (Between [] s) ls es b' go ->
  fst (session (map ReadOk ls) (new s)) = (None, es ++ (if go then [Prompt (Scan.text ">>> ")] else [])).
Proof.
  intros K H. pose proof (script_session (Between [] s) ls es b' go [] K H) as X. rewrite app_nil_r in X.
  change (fresh (Between [] s)) with (new s) in X. rewrite X. destruct go; [reflexivity|now rewrite app_nil_r].
Qed.
Print Assumptions C80_session.

(** Any lines at all are such inputs and blank lines, and then either nothing, or lines the session does not
    read because it has ended, or the beginning of an input which is never completed. *)
Theorem C80_any_lines (h : host) (b : between h) (ls : list (list Z)) :
  exists ls1 rest es b' go, ls = ls1 ++ rest /\ script h b ls1 es b' go /\
    (go = true -> rest = [] \/ (exists l r, rest = l :: r /\ l <> []) /\ forall k, 0 < k <= length rest -> incomplete h b' (text_of (firstn k rest)) = true).
Proof. exact (all_scripts h (length ls) b ls (le_n _)). Qed.
Print Assumptions C80_any_lines.

(** An input that is never completed changes nothing but the pending text: all the lines ask for more. *)
Theorem C80_pending (h : host) (b : between h) (ls : list (list Z)) :
  keeps h -> (exists l r, ls = l :: r /\ l <> []) -> (forall k, 0 < k <= length ls -> incomplete h b (text_of (firstn k ls)) = true) ->
  session (map ReadOk ls) (Repl false (past b ++ [empty_view]) (state b)) =
  (None, Prompt (Scan.text ">>> ") :: repeat (Prompt (Scan.text "... ")) (length ls), Repl true (with_input b (text_of ls)) (state b)).
Proof. exact (pending_session b ls). Qed.
Print Assumptions C80_pending.

(** An end of the input, or an error of the reader, ends the session; the error is its result. *)
Theorem C80_reader (h : host) (r : repl h) (e : list Z) (q : list read_result) :
  session (ReadExit :: q) r = (None, [Prompt (prompt r)], r) /\ session (ReadError e :: q) r = (Some e, [Prompt (prompt r)], r).
Proof. split; reflexivity. Qed.
Print Assumptions C80_reader.

(** a machine which remembers what was run, and prints how much that is; a text is incomplete while it has more `(` than `)`,
    and an error if it has less; `x` exits *)
Definition depth (t : list Z) : Z := fold_left (fun n c => (if c =? 40 then n + 1 else if c =? 41 then n - 1 else n)%Z) t 0%Z.
Definition toy : host := Host (list (list Z)) unit
  (fun vs s => let t := snd (last vs empty_view) in if (0 <? depth t)%Z then Aborted s else if (depth t <? 0)%Z then Errors [Scan.text "error"%string] s else Success (s ++ [t]))
  (fun vs s => (if list_eq_dec Z.eq_dec (last s []) (Scan.text "x"%string ++ [10%Z]) then Exit else Yield, [], [Z.of_nat (length s)], s))
  (fun s => s) (fun _ _ => []).
Example toy_keeps : keeps toy.
Proof. intros vs s s'. cbn. destruct (0 <? _)%Z; [intro E; now injection E|]. destruct (_ <? 0)%Z; discriminate. Qed.
Example toy_session :
  let t := Scan.text in
  exists es (b' : between toy), script toy (Between (h := toy) [] []) (map t ["a"; ""; "f("; ""; "2)"; ")"; "x"; "never"]%string) es b' false /\
  es = [Prompt (t ">>> "%string); Print [1%Z]; Prompt (t ">>> "%string); Prompt (t ">>> "%string); Prompt (t "... "%string); Prompt (t "... "%string); Print [2%Z];
        Prompt (t ">>> "%string); Print (t "error"%string ++ [10%Z]); Prompt (t ">>> "%string); Print [3%Z]] /\
  state (h := toy) b' = [t "a"%string ++ [10%Z]; t "f("%string ++ [10%Z; 10%Z] ++ t "2)"%string ++ [10%Z]; t "x"%string ++ [10%Z]].
Proof.
  assert (One : forall b l, l <> [] -> incomplete toy b (l ++ [10%Z]) = false -> one_input toy b [l]).
  { intros b l N I. split; [exists l, []; auto|]. split; [cbn [text_of flat_map]; now rewrite app_nil_r|]. cbn [length]. intros n [A B]. destruct n as [|[|n]]; inversion A; subst; inversion B; subst. all: try match goal with H : _ <= 0 |- _ => inversion H end. }
  cbv zeta. eexists _, _. split; [|split].
  - eapply (s_input toy _ [Scan.text "a"%string]); [apply One; [discriminate|reflexivity]|reflexivity|].
    apply s_blank.
    eapply (s_input toy _ (map Scan.text ["f("; ""; "2)"]%string)); [split; [eexists _, _; split; [reflexivity|discriminate]|split; [reflexivity|]]|reflexivity|].
    { intros n [A B]. destruct n as [|[|[|n]]]; [inversion A|reflexivity|reflexivity|]. cbn in B. exfalso. repeat match goal with H : _ < _ |- _ => unfold lt in H | H : S _ <= S _ |- _ => apply le_S_n in H | H : S _ <= 0 |- _ => inversion H end. }
    eapply (s_input toy _ [Scan.text ")"%string]); [apply One; [discriminate|reflexivity]|reflexivity|].
    eapply (s_exit toy _ [Scan.text "x"%string]); [apply One; [discriminate|reflexivity]|reflexivity].
  - reflexivity.
  - reflexivity.
Qed.
