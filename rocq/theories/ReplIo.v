(** The input of the REPL: repl.rs 43-122, reporting.rs 104-149.

    The compiler and the machine are parameters: [compile] compiles the text of the last view (vm/mod.rs 209-211),
    [exec] runs until completion and gives the views that eval() has added (compiler/mod.rs 90), [recover] is
    run_recovery, [report] is SourceView::format. *)
From Coq Require Import String.
From Verif Require Import Base.
From Verif Require Scan.

Definition view : Type := list Z * list Z.   (* name and text *)
Inductive outcome (St : Type) := Success (s : St) | Errors (es : list (list Z)) (s : St) | Aborted (s : St).
Arguments Success {St} s. Arguments Errors {St} es s. Arguments Aborted {St} s.
(** vm/mod.rs 82-87 *)
Inductive exit_type (E : Type) := Exit | Return | Yield | Error (e : E).
Arguments Exit {E}. Arguments Return {E}. Arguments Yield {E}. Arguments Error {E} e.
Record host := Host {
  St : Type; Err : Type;
  compile : list view -> St -> outcome St;
  exec : list view -> St -> exit_type Err * list view * list Z * St;
  recover : St -> St;
  report : list view -> Err -> list Z }.

(** what the reader and the user see: prompts and printed text *)
Inductive event := Prompt (p : list Z) | Print (t : list Z).
(** repl.rs 20-24 *)
Record repl (h : host) := Repl { continuation : bool; views : list view; st : St h }.
Arguments Repl {h} continuation views st. Arguments continuation {h} r. Arguments views {h} r. Arguments st {h} r.
(** repl.rs 28-32 *)
Inductive read_result := ReadExit | ReadError (e : list Z) | ReadOk (line : list Z).
(** repl.rs 38-43 *)
Inductive run_result := RunExit | RunError (e : list Z) | RunOk.

(** repl.rs 63-68, 105, 118 *)
Definition stdin_name : list Z := Scan.text "<stdin>".
Definition empty_view : view := (stdin_name, []).
(** repl.rs 76-78 *)
Definition prompt {h} (r : repl h) : list Z := if continuation r then Scan.text "... " else Scan.text ">>> ".
(** reporting.rs 121-124: text_mut, and push_str *)
Definition add_text (t : list Z) (vs : list view) : list view := removelast vs ++ [let v := last vs empty_view in (fst v, snd v ++ t)].
Definition println (t : list Z) : event := Print (t ++ [10%Z]).
Definition is_blank (l : list Z) : bool := match l with [] => true | _ => false end.

(** repl.rs 80-121 *)
Definition run {h} (input : read_result) (r : repl h) : run_result * list event * repl h :=
  match input with
  | ReadError e => (RunError e, [], r)
  | ReadExit => (RunExit, [], r)
  | ReadOk line =>
      if is_blank line && negb (continuation r) then (RunOk, [], r) else
      let vs := add_text [10%Z] (add_text line (views r)) in
      match compile h vs (st r) with
      | Errors es s => (RunOk, map println es, Repl false (vs ++ [empty_view]) s)
      | Aborted s => (RunOk, [], Repl true vs s)
      | Success s =>
          let '(x, added, printed, s') := exec h vs s in
          let vs' := vs ++ added in
          match x with
          | Exit | Return => (RunExit, [Print printed], Repl false vs' s')
          | Yield => (RunOk, [Print printed], Repl false (vs' ++ [empty_view]) (recover h s'))
          | Error e => (RunOk, [Print printed; println (report h vs' e)], Repl false (vs' ++ [empty_view]) (recover h s'))
          end
      end
  end.
(** repl.rs 46-56; a reader that has nothing left exits.  The result is an error of the reader, if there was one *)
Fixpoint session {h} (reads : list read_result) (r : repl h) : option (list Z) * list event * repl h :=
  let '(i, reads') := match reads with [] => (ReadExit, []) | i :: q => (i, q) end in
  let '(x, es, r') := run i r in
  match x, reads with
  | RunExit, _ => (None, Prompt (prompt r) :: es, r')
  | RunError e, _ => (Some e, Prompt (prompt r) :: es, r')
  | RunOk, [] => (None, Prompt (prompt r) :: es, r')
  | RunOk, _ :: q => let '(z, es', r'') := session q r' in (z, Prompt (prompt r) :: es ++ es', r'')
  end.
(** repl.rs 61-70 *)
Definition new {h} (s : St h) : repl h := Repl false [empty_view] s.
