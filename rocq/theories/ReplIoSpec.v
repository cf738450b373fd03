(** Entering whole inputs instead of lines. *)
From Coq Require Import String.
From Verif Require Import Base.
From Verif Require Import ReplIo.
From Verif Require Scan.

(** the text of some lines, each with its line feed *)
Definition text_of (ls : list (list Z)) : list Z := flat_map (fun l => l ++ [10%Z]) ls.
(** a session between two inputs: the views of what was entered so far (and eval'd), and the state of the machine *)
Record between (h : host) := Between { past : list view; state : St h }.
Arguments Between {h} past state. Arguments past {h} b. Arguments state {h} b.
Definition with_input {h} (b : between h) (t : list Z) : list view := past b ++ [(Scan.text "<stdin>", t)].
(** the text is not complete: the compiler asks for more *)
Definition incomplete (h : host) (b : between h) (t : list Z) : bool := match compile h (with_input b t) (state b) with Aborted _ => true | _ => false end.
(** a text is entered as a whole: does the session go on, what is printed, and the session after it *)
Definition enter {h} (b : between h) (t : list Z) : bool * list (list Z) * between h :=
  let vs := with_input b t in
  match compile h vs (state b) with
  | Aborted s => (true, [], Between vs s)
  | Errors es s => (true, map (fun e => e ++ [10%Z]) es, Between vs s)
  | Success s =>
      let '(x, added, printed, s') := exec h vs s in
      match x with
      | Exit | Return => (false, [printed], Between (vs ++ added) s')
      | Yield => (true, [printed], Between (vs ++ added) (recover h s'))
      | Error e => (true, [printed; report h (vs ++ added) e ++ [10%Z]], Between (vs ++ added) (recover h s'))
      end
  end.
(** the lines of one input: the first is not blank, and it is complete with the last line and no earlier *)
Definition one_input (h : host) (b : between h) (ls : list (list Z)) : Prop :=
  (exists l r, ls = l :: r /\ l <> []) /\ incomplete h b (text_of ls) = false /\
  forall n, 0 < n < length ls -> incomplete h b (text_of (firstn n ls)) = true.
(** what is entered: blank lines and inputs *)
Inductive script (h : host) : between h -> list (list Z) -> list event -> between h -> bool -> Prop :=
| s_done b : script h b [] [] b true
| s_blank b ls es b' go : script h b ls es b' go -> script h b ([] :: ls) (Prompt (Scan.text ">>> ") :: es) b' go
| s_input b input ls es b' go prints b1 :
    one_input h b input -> enter b (text_of input) = (true, prints, b1) -> script h b1 ls es b' go ->
    script h b (input ++ ls) (Prompt (Scan.text ">>> ") :: repeat (Prompt (Scan.text "... ")) (length input - 1) ++ map Print prints ++ es) b' go
| s_exit b input ls prints b1 :
    one_input h b input -> enter b (text_of input) = (false, prints, b1) ->
    script h b (input ++ ls) (Prompt (Scan.text ">>> ") :: repeat (Prompt (Scan.text "... ")) (length input - 1) ++ map Print prints) b1 false.
(** an input that is not complete does not change the machine *)
Definition keeps (h : host) : Prop := forall vs s s', compile h vs s = Aborted s' -> s' = s.
