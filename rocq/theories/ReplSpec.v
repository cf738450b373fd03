(** What a session means, apart from machine code: the lines are run one after the other by the
    interpreter of LangSpec.v, in one state, each with the variables left by the lines before it. *)
From Verif Require Import Base Native Err Vm Lang LangSpec LangCheck CompileSpec Repl.
Local Open Scope nat_scope.

Section spec.
Context (P : prims) (report : verr (E P) -> W P -> W P).
Local Notation st := (st P).

(** the functions of the lines so far *)
Definition table (fs : list sfun) : nat -> option sfun := fun i => nth_error fs i.

(** the statements [b] of a line, with the variables [ls] of the session *)
Definition gives (fs : list sfun) (ls : list (option nat)) (b : stmts) (s : st) (r : res P outcome) : Prop :=
  exists n, exec_list P (table fs) n true (Frame ls []) None b s = Some r.

(** A line that succeeds: its variables are added to those of the session; if it ends with an
    expression, the value is printed. *)
Inductive goes_on (fs : list sfun) (ls : list (option nat)) (s : st) (b : stmts) : list (option nat) -> st -> Prop :=
| go_none ls' s' : gives fs ls b s (Ok P _ (ONorm ls' None) s') -> goes_on fs ls s b ls' s'
| go_print ls' v s1 x s2 : gives fs ls b s (Ok P _ (ONorm ls' (Some v)) s1) -> calls P (table fs) (HNative NF_Print) [v] s1 (Ok P _ x s2) -> goes_on fs ls s b ls' s2.
(** A line that stops with an error, or with exit *)
Inductive stops (fs : list sfun) (ls : list (option nat)) (s : st) (b : stmts) : verr (E P) -> W P -> Prop :=
| st_run e w : gives fs ls b s (Er P _ e w) -> stops fs ls s b e w
| st_print ls' v s1 e w : gives fs ls b s (Ok P _ (ONorm ls' (Some v)) s1) -> calls P (table fs) (HNative NF_Print) [v] s1 (Er P _ e w) -> stops fs ls s b e w.

(** A history of lines that succeed *)
Inductive history : list sfun -> list (option nat) -> st -> list line -> list sfun -> list (option nat) -> st -> Prop :=
| h_nil fs ls s : history fs ls s [] fs ls s
| h_cons fs ls s l r ls1 s1 fs2 ls2 s2 : goes_on (fs ++ l_funs l) ls s (l_main l) ls1 s1 ->
    history (fs ++ l_funs l) ls1 s1 r fs2 ls2 s2 -> history fs ls s (l :: r) fs2 ls2 s2.

(** the variables a line declares *)
Fixpoint declared (b : stmts) : nat := match b with BNil => 0 | BCons s r => declares s + declared r end.
(** Lines that are compiled correctly, as in LangCheck.v; [n] is the number of variables before *)
Fixpoint ok_lines (n : nat) (l : list line) : bool :=
  match l with
  | [] => true
  | x :: r => forallb okF (l_funs x) && okB n [] [] None false false (l_main x) && ok_lines (n + declared (l_main x)) r
  end.

(** The machine: the lines entered one after the other *)
Inductive enters : session P -> list line -> session P -> Prop :=
| en_nil r : enters r [] r
| en_cons r l ls n r1 r2 : enter P report n l r = Some (Done P r1) -> enters r1 ls r2 -> enters r (l :: ls) r2.
(** the code of all lines *)
Definition code_after (r : session P) (ls : list line) : list op := r_code P (fold_left (fun r l => add_line P l r) ls r).

(** the variables of the session, by their values *)
Definition values (ls : list (option nat)) (s : st) (vs : list hval) : Prop :=
  Forall2 (fun o v => exists l, o = Some l /\ nth_error (store P s) l = Some v) ls vs.
(** waiting for the next line: the code was run to its end, in no function and no literal, and
    the stack holds the variables of the session only *)
Definition at_prompt (r : session P) : Prop :=
  ip P (r_vm P r) = length (r_code P r) /\ frames P (r_vm P r) = [(0, 0)] /\ lits P (r_vm P r) = [] /\
  length (stack P (r_vm P r)) = length (r_lv P r).
(** after a line failed: exit ends the session; an error is reported, and the session goes on
    with the code and the variables that line [r] has added *)
Definition ended_by (r : session P) (e : verr (E P)) (w : W P) (x : entered P) : Prop :=
  match e, x with
  | XExit, Ended _ w' => w' = w
  | XExit, _ => False
  | _, Done _ r' => r_code P r' = r_code P r /\ r_funs P r' = r_funs P r /\ r_lv P r' = r_lv P r /\
      world P (r_vm P r') = report e w /\ ip P (r_vm P r') = length (r_code P r) /\ lits P (r_vm P r') = []
  | _, _ => False
  end.
End spec.
