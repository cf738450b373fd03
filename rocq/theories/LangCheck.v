(** Programs the compilation theorem is about.  The excluded ones are compiled wrongly (each
    exclusion is shown to be necessary in P_Compile.v):
    - a `return` inside a loop, when the loop captures a variable declared outside it and no
      closure before the return (in program text) has captured that variable;
    - `continue` in a `for` loop whose variable is captured, or in the else part of a `for` loop;
    - `do` directly after an expression statement without `;`.
    Statements are checked with: [n] variables in scope, [F] those captured so far (in text),
    [M] variables captured somewhere in an enclosing loop and declared outside it,
    [lp] None outside loops, Some b: in a loop, and continue is allowed iff b;
    [rt]: inside a function; [d]: the statement before was an expression. *)
From Verif Require Import Base Native Err Vm Lang.
Local Open Scope nat_scope.

Definition mem (i : nat) (l : list nat) : bool := existsb (Nat.eqb i) l.
Definition under (n : nat) (l : list nat) : list nat := filter (fun i => i <? n) l.
Definition declares (s : stmt) : nat := match s with SLet _ | SLetNil | SFn _ _ | SStruct _ => 1 | _ => 0 end.
Definition leaves (s : stmt) : bool := match s with SExpr _ => true | _ => false end.

Fixpoint okS (n : nat) (F M : list nat) (lp : option bool) (rt d : bool) (s : stmt) : bool :=
  match s with
  | SReturn e => rt && forallb (fun i => mem i (capsO e ++ F)) M
  | SBreak => match lp with Some _ => true | None => false end
  | SContinue => match lp with Some b => b | None => false end
  | SIf e b el => okB n (under n (capsE e ++ F)) M lp rt false b && okEl n (under n (capsE e ++ capsB b ++ F)) M lp rt el
  | SWhile e b el =>
      let M' := under n (capsS s) ++ M in
      okB n (under n (capsE e ++ F)) M' (Some true) rt false b && okO n (under n (capsE e ++ capsB b ++ F)) M' (Some true) rt el
  | SDo b e el =>
      let M' := under n (capsS s) ++ M in
      negb d && okB n F M' (Some true) rt false b && okO n (under n (capsO e ++ capsB b ++ F)) M' (Some true) rt el
  | SLoop b => okB n F (under n (capsB b) ++ M) (Some true) rt false b
  | SFor named e b el =>
      let M' := under n (capsS s) ++ M in
      okB (if named then S (S n) else S n) (under n (capsE e ++ F)) M' (Some (negb (named && mem n (capsB b)))) rt false b
      && okO n (under n (capsE e ++ capsB b ++ F)) M' (Some false) rt el
  | _ => true
  end
with okB (n : nat) (F M : list nat) (lp : option bool) (rt d : bool) (b : stmts) : bool :=
  match b with
  | BNil => true
  | BCons s r => okS n F M lp rt d s && okB (n + declares s) (under (n + declares s) (capsS s ++ F)) M lp rt (leaves s) r
  end
with okEl (n : nat) (F M : list nat) (lp : option bool) (rt : bool) (el : else_) : bool :=
  match el with
  | ElNone => true
  | ElBlock b => okB n F M lp rt false b
  | ElIf e b el => okB n (under n (capsE e ++ F)) M lp rt false b && okEl n (under n (capsE e ++ capsB b ++ F)) M lp rt el
  end
with okO (n : nat) (F M : list nat) (lp : option bool) (rt : bool) (el : option_stmts) : bool :=
  match el with NoElse => true | Else b => okB n F M lp rt false b end.

Definition okF (f : sfun) : bool :=
  (length (sf_defs f) <=? sf_args f) &&
  (negb (sf_variadic f) || (1 <=? length (sf_defs f))) &&
  match sf_body f with BodyBlock b => okB (sf_args f) [] [] None true false b | BodyExpr _ => true end.
Definition ok_program (p : program) : bool := forallb okF (pr_funs p) && okB 0 [] [] None false false (pr_main p).
