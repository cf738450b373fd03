(** C77: the interactive session. *)
From Verif Require Import Base Native Err Vm Graph Peep Lang LangSpec LangCheck Compile ReplRun Repl CompileSpec ReplSpec P_Compile ReplProofs.
Local Open Scope nat_scope.

(** For all primitive operations, initial worlds and lists of lines (outside the cases of
    LangCheck.v) which, run one after the other by the interpreter, all succeed: the session
    takes all of them, and waits for the next; its stack is the values of the variables, and the
    world (what was printed, the heap) is the one of the interpreter.  Missing: lines after one
    that failed (see below), and lines on which the interpreter does not end. *)
Theorem C77_session_partial (P : prims) (report : verr (E P) -> W P -> W P) (w : W P) (lines : list line) fs ls s :
  history P [] [] (start P w) lines fs ls s -> ok_lines 0 lines = true ->
  (Z.of_nat (length (code_after P (session_init P w) lines)) < 2147483648)%Z ->
  exists r, enters P report (session_init P w) lines r /\ values P ls s (stack P (r_vm P r)) /\ world P (r_vm P r) = sworld P s /\ at_prompt P r.
Proof. apply session_ok. Qed.
Print Assumptions C77_session_partial.

(** There is no other session of these lines, and a line has one outcome. *)
Theorem C77_deterministic (P : prims) (report : verr (E P) -> W P -> W P) (r : session P) : 
  (forall lines a b, enters P report r lines a -> enters P report r lines b -> a = b) /\
  (forall l n n' x y, enter P report n l r = Some x -> enter P report n' l r = Some y -> x = y).
Proof. split; [exact (enters_det P report r)|]. intros. eapply enter_det; eassumption. Qed.
Print Assumptions C77_deterministic.

(** ... and if the next line stops with an error, the error is reported with the world that the
    interpreter leaves, and the session goes on; if it stops with exit, so does the session. *)
Theorem C77_failure_partial (P : prims) (report : verr (E P) -> W P -> W P) (w : W P) (lines : list line) fs ls s l e w' :
  history P [] [] (start P w) lines fs ls s -> ok_lines 0 (lines ++ [l]) = true ->
  (Z.of_nat (length (code_after P (session_init P w) (lines ++ [l]))) < 2147483648)%Z ->
  stops P (fs ++ l_funs l) ls s (l_main l) e w' -> e <> XYield ->
  exists r n x, enters P report (session_init P w) lines r /\ enter P report n l r = Some x /\ ended_by P report (add_line P l r) e w' x.
Proof. apply session_fails. Qed.
Print Assumptions C77_failure_partial.

(** ** Examples: the primitives of P_Compile.v, with a print that is the builtin `print`; an
    error is reported by a mark. *)
Definition desk : prims := {|
  W := cw; L := list hval; E := nat;
  p_bool := p_bool calc; p_compare := p_compare calc; p_compare_msg := p_compare_msg calc; p_op := p_op calc;
  p_call f args w := match f with HNative NF_Print => TRet (Cw (out w ++ args) (cnt w) (hp w)) HNil | _ => p_call calc f args w end;
  p_vector := p_vector calc; p_unroll := p_unroll calc; p_next := p_next calc;
  l_new := l_new calc; l_acc := l_acc calc; l_unroll := l_unroll calc; l_end := l_end calc |}.
Definition mark (e : verr (E desk)) (w : W desk) : W desk := Cw (out w ++ [HObj 99]) (cnt w) (hp w).
Definition gvar n := EVar (VGlobal n).
Definition plus a b := EPrim (PBinary BAdd) (ACons false a (a1 b)).
(** `let x = 1`; `fn f(a) -> a + x`; `x = f(2)`; `f(x) + x` *)
Definition ex_lines : list line :=
  [Line [] (blk [SLet (num 1)]);
   Line [SFun 1 [] false (BodyExpr (plus (EVar (VLocal 0)) (gvar 0)))] (blk [SFn 0 []]);
   Line [] (blk [SExpr (EAssign (VGlobal 0) (ECall (gvar 1) (a1 (num 2))))]);
   Line [] (blk [SExpr (plus (ECall (gvar 1) (a1 (gvar 0))) (gvar 0))])].
Definition ex_fs : list sfun := [SFun 1 [] false (BodyExpr (plus (EVar (VLocal 0)) (gvar 0)))].
Definition ex_ls : list (option nat) := [Some 0; Some 1].
Definition step_st (fs : list sfun) ls b (s : LangSpec.st desk) := exec_list desk (table fs) 20 true (Frame ls []) None b s.
Ltac one := unfold gives, calls; exists 20; vm_compute; reflexivity.
Lemma values_map P ls s vs : values P ls s vs -> map (fun o => match o with Some l => nth_error (store P s) l | None => None end) ls = map Some vs.
Proof. induction 1 as [|o v ls vs (l & -> & E) H IH]; [reflexivity|]. cbn. now rewrite E, IH. Qed.
Definition ex_end : LangSpec.st desk := St desk [HConst 3; HFun 0; HConst 2; HConst 3] [] [0; 1] (Cw [HConst 3; HConst 9] 0 []).
Example ex_history : history desk [] [] (start desk w0) ex_lines ex_fs ex_ls ex_end.
Proof.
  eapply h_cons; [eapply go_none; one|]. eapply h_cons; [eapply go_none; one|].
  eapply h_cons; [eapply go_print; one|]. eapply h_cons; [eapply go_print; one|]. apply h_nil.
Qed.
Example ex_session : exists r, enters desk mark (session_init desk w0) ex_lines r /\
  stack desk (r_vm desk r) = [HConst 3; HFun 0] /\ out (world desk (r_vm desk r)) = [HConst 3; HConst 9].
Proof.
  destruct (C77_session_partial desk mark w0 ex_lines _ _ _ ex_history eq_refl eq_refl) as (r & A & V & B & _).
  exists r. split; [exact A|]. split; [|now rewrite B].
  apply values_map in V. cbn in V. destruct (stack desk (r_vm desk r)) as [|a [|b [|c t]]]; try discriminate V. cbn in V. congruence.
Qed.
(** after these lines `x + nil` is reported, and `exit` ends the session *)
Definition bad_line : line := Line [] (blk [SExpr (plus (gvar 0) (EConst HNil))]).
Example ex_failure : exists r n r', enters desk mark (session_init desk w0) ex_lines r /\
  enter desk mark n bad_line r = Some (Done desk r') /\ out (world desk (r_vm desk r')) = [HConst 3; HConst 9; HObj 99].
Proof.
  destruct (C77_failure_partial desk mark w0 ex_lines _ _ _ bad_line (XPrim 1) (sworld desk ex_end) ex_history eq_refl eq_refl) as (r & n & x & A & B & K).
  - apply st_run. one.
  - discriminate.
  - destruct x as [r'| |]; cbn [ended_by] in K; try contradiction. exists r, n, r'. split; [exact A|]. split; [exact B|].
    destruct K as (_ & _ & _ & K & _). rewrite K. reflexivity.
Qed.
Example ex_exit : exists r n, enters desk mark (session_init desk w0) ex_lines r /\
  enter desk mark n (Line [] (blk [SExpr EQuit])) r = Some (Ended desk (Cw [HConst 3; HConst 9] 0 [])).
Proof.
  destruct (C77_failure_partial desk mark w0 ex_lines _ _ _ (Line [] (blk [SExpr EQuit])) XExit (sworld desk ex_end) ex_history eq_refl eq_refl) as (r & n & x & A & B & K).
  - apply st_run. one.
  - discriminate.
  - destruct x; cbn [ended_by] in K; try contradiction. subst. exists r, n. split; [exact A|exact B].
Qed.

(** The claim does not hold for lines after one that failed: the variables of the failed line
    stay declared, but have no place on the stack.  `let x = 1 + nil` fails; `let y = 5`; then
    `x` prints 5. *)
Definition bad_lines : list line :=
  [Line [] (blk [SLet (plus (num 1) (EConst HNil))]); Line [] (blk [SLet (num 5)]); Line [] (blk [SExpr (gvar 0)])].
Theorem C77_refuted : exists r, enters desk mark (session_init desk w0) bad_lines r /\ out (world desk (r_vm desk r)) = [HObj 99; HConst 5].
Proof.
  eexists. split.
  - eapply en_cons with (n := 20); [vm_compute; reflexivity|]. eapply en_cons with (n := 20); [vm_compute; reflexivity|].
    eapply en_cons with (n := 20); [vm_compute; reflexivity|]. apply en_nil.
  - reflexivity.
Qed.
Print Assumptions C77_refuted.
