(** C41, C42, C44, C45: compiled programs do what the source means. *)
From Verif Require Import Base Native Err Vm VmProofs Graph GraphSpec Peep PeepSpec Lang LangSpec LangCheck Compile Lit CompileSpec LangProofs CompileProofs.
Local Open Scope nat_scope.

Local Notation fns p := (fun i => nth_error (pr_funs p) i).
Local Notation lookup fs := (fun i => nth_error fs i).

(** ** A small instance of the primitive operations, for the examples.
    Numbers are [HConst]; [HObj 0] prints, [HObj 1] counts down; other objects are lists on a heap. *)
Record cw := Cw { out : list hval; cnt : nat; hp : list (list hval) }.
Definition calc_cmp (c : cmpop) (a b : hval) : bool :=
  match a, b with
  | HConst x, HConst y => match c with CLt => x <? y | CGt => y <? x | CLe => x <=? y | CGe => y <=? x | CEq => x =? y | CNe => negb (x =? y) end
  | _, _ => false
  end.
Definition as_cmp (b : binop) : option cmpop :=
  match b with
  | BLessThan => Some CLt | BGreaterThan => Some CGt | BLessThanEqual => Some CLe | BGreaterThanEqual => Some CGe
  | BEqual => Some CEq | BNotEqual => Some CNe | _ => None
  end.
Definition elems (w : cw) (v : hval) : list hval := match v with HObj (S (S k)) => nth k (hp w) [] | _ => [] end.
Definition calc : prims := {|
  W := cw; L := list hval; E := nat;
  p_bool _ v := match v with HBool b => b | HNil => false | _ => true end;
  p_compare _ := calc_cmp; p_compare_msg w _ _ _ := (w, HNil);
  p_op p args w :=
    match p, args with
    | PBinary b, [x; y] =>
        match as_cmp b with
        | Some c => TRet w (HBool (calc_cmp c x y))
        | None => match x, y with HConst x, HConst y => TRet w (HConst (x + y)) | _, _ => TErr w 1 end
        end
    | PInitIter, [v] => TRet (Cw (out w) (cnt w) (hp w ++ [elems w v])) (HObj (2 + length (hp w)))
    | _, _ => TErr w 2
    end;
  p_call f args w :=
    match f with
    | HObj 0 => TRet (Cw (out w ++ args) (cnt w) (hp w)) HNil
    | HObj 1 => TRet (Cw (out w) (cnt w - 1) (hp w)) (HBool (0 <? cnt w))
    | _ => TErr w 3
    end;
  p_vector args w := (Cw (out w) (cnt w) (hp w ++ [args]), HObj (2 + length (hp w)));
  p_unroll v w := match v with HObj (S (S k)) => (w, inr (elems w v)) | _ => (w, inl 4) end;
  p_next v w := match v with
                | HObj (S (S k)) => match nth k (hp w) [] with [] => (w, None) | x :: r => (Cw (out w) (cnt w) (upd (hp w) k r), Some x) end
                | _ => (w, None) end;
  l_new _ _ := []; l_acc l vs _ := l ++ vs;
  l_unroll l v w := match v with HObj (S (S k)) => (w, inr (l ++ elems w v)) | _ => (w, inl 4) end;
  l_end l w := (Cw (out w) (cnt w) (hp w ++ [l]), HObj (2 + length (hp w))) |}.
Definition num n := EConst (HConst n).
Definition a1 e := ACons false e ANil.
Definition print e := ECall (EConst (HObj 0)) (a1 e).
Fixpoint blk (l : list stmt) : stmts := match l with [] => BNil | s :: r => BCons s (blk r) end.
Definition w0 : W calc := Cw [] 0 [].

(** ** C41: for all primitive operations, all programs (outside the cases of LangCheck.v, which
    concern statements only), with or without the bytecode optimiser, all initial worlds:
    if the definitional interpreter ends with an outcome (exit or an error, and the final
    world), then so does the compiled code on the machine. *)
Theorem C41_compiled_same_outcome (P : prims) (p : program) (opt : bool) (w : W P) r : ok_program p = true -> small p ->
  source_outcome P p w r -> runs_to P (step P) (compile opt p) w r.
Proof. apply compile_outcome. Qed.
Print Assumptions C41_compiled_same_outcome.

(** ... and with no other outcome. *)
Theorem C41_no_other_outcome (P : prims) (p : program) (opt : bool) (w : W P) r r' : ok_program p = true -> small p ->
  source_outcome P p w r -> runs_to P (step P) (compile opt p) w r' -> r' = r.
Proof.
  intros K S H [n N]. destruct (compile_outcome P p opt w r K S H) as [m M].
  pose proof (run_det _ _ _ _ _ _ _ _ _ _ N M) as E. destruct r, r'. simpl in *. congruence.
Qed.
Print Assumptions C41_no_other_outcome.

(** The source has one outcome: the interpreter is deterministic and its fuel does not matter. *)
Theorem C41_source_deterministic (P : prims) (p : program) w r r' : source_outcome P p w r -> source_outcome P p w r' -> r = r'.
Proof. apply finishes_det. Qed.
Print Assumptions C41_source_deterministic.

(** Programs of expressions have no exceptions: main is a list of `let`, expression statements
    and function declarations, and functions have expressions as bodies. *)
Definition plain_stmt (s : stmt) : bool := match s with SLet _ | SLetNil | SExpr _ | SSemi | SFn _ _ | SStruct _ | SAssert _ _ | SAssertCmp _ _ _ _ _ => true | _ => false end.
Fixpoint plain_stmts (b : stmts) : bool := match b with BNil => true | BCons s r => plain_stmt s && plain_stmts r end.
Definition expr_fun (f : sfun) : bool :=
  (length (sf_defs f) <=? sf_args f) && (negb (sf_variadic f) || (1 <=? length (sf_defs f))) &&
  match sf_body f with BodyExpr _ => true | BodyBlock b => plain_stmts b end.
Lemma plain_ok b : forall n F M lp rt d, plain_stmts b = true -> okB n F M lp rt d b = true.
Proof.
  induction b as [|s b IH]; intros n F M lp rt d H; [reflexivity|]. cbn [plain_stmts okB] in *. apply andb_true_iff in H. destruct H as [A B].
  rewrite IH by auto. destruct s; try discriminate; reflexivity.
Qed.
Theorem C41_expressions (P : prims) (p : program) (opt : bool) (w : W P) r :
  forallb expr_fun (pr_funs p) = true -> plain_stmts (pr_main p) = true -> small p ->
  source_outcome P p w r -> runs_to P (step P) (compile opt p) w r.
Proof.
  intros A B S H. apply compile_outcome; auto. unfold ok_program. rewrite plain_ok by auto. rewrite andb_true_r.
  rewrite forallb_forall in *. intros f I. specialize (A f I). unfold expr_fun, okF in *. apply andb_true_iff in A. destruct A as [-> A].
  destruct (sf_body f); auto. now apply plain_ok.
Qed.
Print Assumptions C41_expressions.

(** The value of one expression: if after `pre` expression [e] has value [v] and leads to state
    [s1], then `pre; let x = e; post`, compiled, does what [post] does with [x] bound to [v] from
    [s1] on; all other variables are as [s1] has them. *)
Theorem C41_value (P : prims) fs pre e post opt w ls last s v s1 r : ok_program (with_let fs pre e post) = true -> small (with_let fs pre e post) ->
  runs P (lookup fs) (Frame [] []) pre (start P w) (Ok P _ (ONorm ls last) s) -> evals P (lookup fs) (Frame ls []) e s (Ok P _ v s1) ->
  finishes P (lookup fs) ls (BCons (SLet (EConst v)) post) s1 r -> runs_to P (step P) (compile opt (with_let fs pre e post)) w r.
Proof.
  intros K S Hp He Hr. apply compile_outcome; auto. unfold source_outcome, with_let. cbn [pr_main pr_funs].
  eapply finishes_app; [exact Hp|]. eapply let_swap; [exact He| |exact Hr]. now apply evals_const.
Qed.
Print Assumptions C41_value.
(** An error of the expression is the outcome. *)
Theorem C41_error (P : prims) fs pre e post opt w ls last s x w' : ok_program (with_let fs pre e post) = true -> small (with_let fs pre e post) ->
  runs P (lookup fs) (Frame [] []) pre (start P w) (Ok P _ (ONorm ls last) s) -> evals P (lookup fs) (Frame ls []) e s (Er P _ x w') ->
  runs_to P (step P) (compile opt (with_let fs pre e post)) w (x, w').
Proof.
  intros K S Hp He. apply compile_outcome; auto. unfold source_outcome, with_let. cbn [pr_main pr_funs].
  eapply finishes_app; [exact Hp|]. left. cbn [fst snd]. now apply let_err.
Qed.
Print Assumptions C41_error.

(** A program with a recursive function, defaults, closures, literals, a loop and an assert:
    `fn add(a, b = 10) -> a + b; let acc = 0; for x in [1, ...[2, 3]] { if x < 3 { acc = add(acc, x) } else { acc = add(acc) } };
     print(acc); assert acc == 14 : 5` *)
Definition ex_p : program := Program
  [SFun 2 [num 10] false (BodyExpr (EPrim (PBinary BAdd) (ACons false (EVar (VLocal 0)) (a1 (EVar (VLocal 1))))))]
  (blk [SFn 0 []; SLet (num 0);
        SFor true (ELit LitList (ACons false (num 1) (ACons true (ELit LitList (ACons false (num 2) (a1 (num 3)))) ANil)))
          (blk [SIf (EPrim (PBinary BLessThan) (ACons false (EVar (VLocal 2)) (a1 (num 3))))
                  (blk [SExpr (EAssign (VGlobal 1) (ECall (EVar (VGlobal 0)) (ACons false (EVar (VGlobal 1)) (a1 (EVar (VLocal 2))))))])
                  (ElBlock (blk [SExpr (EAssign (VGlobal 1) (ECall (EVar (VGlobal 0)) (a1 (EVar (VGlobal 1)))))]))]) NoElse;
        SExpr (print (EVar (VGlobal 1))); SSemi;
        SAssertCmp CEq false (EVar (VGlobal 1)) (num 14) (Some (num 5))]).
Definition ex_w : W calc := Cw [HConst 13] 0 [[HConst 2; HConst 3]; [HConst 1; HConst 2; HConst 3]; []].
Example ex_ok : ok_program ex_p = true. Proof. reflexivity. Qed.
Example ex_small : small ex_p. Proof. reflexivity. Qed.
Example ex_source : source_outcome calc ex_p w0 (XAssert (HConst 5) HNil, ex_w).
Proof. apply outcome_main. exists 40. vm_compute. reflexivity. Qed.
Example ex_compiled : runs_to calc (step calc) (compile true ex_p) w0 (XAssert (HConst 5) HNil, ex_w).
Proof. exact (C41_compiled_same_outcome calc ex_p true w0 _ ex_ok ex_small ex_source). Qed.
Example ex_direct : runs_to calc (step calc) (compile true ex_p) w0 (XAssert (HConst 5) HNil, ex_w).
Proof. exists 200. vm_compute. reflexivity. Qed.

(** ** C42 *)
(** `let x = a and b`, where [a] is falsy here: like `let x = a`, whatever [b] is. *)
Theorem C42_and_falsy (P : prims) fs pre a b post opt w ls last s v s1 r : ok_program (with_let fs pre (EAnd a b) post) = true -> small (with_let fs pre (EAnd a b) post) ->
  runs P (lookup fs) (Frame [] []) pre (start P w) (Ok P _ (ONorm ls last) s) ->
  evals P (lookup fs) (Frame ls []) a s (Ok P _ v s1) -> p_bool P (sworld P s1) v = false ->
  source_outcome P (with_let fs pre a post) w r -> runs_to P (step P) (compile opt (with_let fs pre (EAnd a b) post)) w r.
Proof.
  intros K S Hp Ha Hb Hr. apply compile_outcome; auto. unfold source_outcome, with_let in *. cbn [pr_main pr_funs] in *.
  eapply finishes_app_eq; [exact Hp|exact Hr|]. intros r0 H. eapply let_swap; [| |exact H]; [|exact Ha]. apply evals_and. right. exists v, s1. rewrite Hb. auto.
Qed.
Print Assumptions C42_and_falsy.
(** where [a] is truthy: like `a; let x = b`. *)
Theorem C42_and_truthy (P : prims) fs pre a b post opt w ls last s v s1 r : ok_program (with_let fs pre (EAnd a b) post) = true -> small (with_let fs pre (EAnd a b) post) ->
  runs P (lookup fs) (Frame [] []) pre (start P w) (Ok P _ (ONorm ls last) s) ->
  evals P (lookup fs) (Frame ls []) a s (Ok P _ v s1) -> p_bool P (sworld P s1) v = true ->
  source_outcome P (with_let fs (sapp pre (drops [a])) b post) w r -> runs_to P (step P) (compile opt (with_let fs pre (EAnd a b) post)) w r.
Proof.
  intros K S Hp Ha Hb Hr. apply compile_outcome; auto. unfold source_outcome, with_let in *. cbn [pr_main pr_funs] in *.
  eapply after_drop; eauto. intros r0. rewrite evals_and. intro He. right. exists v, s1. rewrite Hb. auto.
Qed.
Print Assumptions C42_and_truthy.
Theorem C42_or_truthy (P : prims) fs pre a b post opt w ls last s v s1 r : ok_program (with_let fs pre (EOr a b) post) = true -> small (with_let fs pre (EOr a b) post) ->
  runs P (lookup fs) (Frame [] []) pre (start P w) (Ok P _ (ONorm ls last) s) ->
  evals P (lookup fs) (Frame ls []) a s (Ok P _ v s1) -> p_bool P (sworld P s1) v = true ->
  source_outcome P (with_let fs pre a post) w r -> runs_to P (step P) (compile opt (with_let fs pre (EOr a b) post)) w r.
Proof.
  intros K S Hp Ha Hb Hr. apply compile_outcome; auto. unfold source_outcome, with_let in *. cbn [pr_main pr_funs] in *.
  eapply finishes_app_eq; [exact Hp|exact Hr|]. intros r0 H. eapply let_swap; [| |exact H]; [|exact Ha]. apply evals_or. right. exists v, s1. rewrite Hb. auto.
Qed.
Print Assumptions C42_or_truthy.
Theorem C42_or_falsy (P : prims) fs pre a b post opt w ls last s v s1 r : ok_program (with_let fs pre (EOr a b) post) = true -> small (with_let fs pre (EOr a b) post) ->
  runs P (lookup fs) (Frame [] []) pre (start P w) (Ok P _ (ONorm ls last) s) ->
  evals P (lookup fs) (Frame ls []) a s (Ok P _ v s1) -> p_bool P (sworld P s1) v = false ->
  source_outcome P (with_let fs (sapp pre (drops [a])) b post) w r -> runs_to P (step P) (compile opt (with_let fs pre (EOr a b) post)) w r.
Proof.
  intros K S Hp Ha Hb Hr. apply compile_outcome; auto. unfold source_outcome, with_let in *. cbn [pr_main pr_funs] in *.
  eapply after_drop; eauto. intros r0. rewrite evals_or. intro He. right. exists v, s1. rewrite Hb. auto.
Qed.
Print Assumptions C42_or_falsy.
(** `let x = if c then a else b`: like `c; let x = a` or `c; let x = b`. *)
Theorem C42_if (P : prims) fs pre c a b post opt w ls last s v s1 r : ok_program (with_let fs pre (EIf c a b) post) = true -> small (with_let fs pre (EIf c a b) post) ->
  runs P (lookup fs) (Frame [] []) pre (start P w) (Ok P _ (ONorm ls last) s) ->
  evals P (lookup fs) (Frame ls []) c s (Ok P _ v s1) ->
  source_outcome P (with_let fs (sapp pre (drops [c])) (if p_bool P (sworld P s1) v then a else b) post) w r ->
  runs_to P (step P) (compile opt (with_let fs pre (EIf c a b) post)) w r.
Proof.
  intros K S Hp Ha Hr. apply compile_outcome; auto. unfold source_outcome, with_let in *. cbn [pr_main pr_funs] in *.
  eapply after_drop; eauto. intros r0. rewrite evals_if. intro He. right. exists v, s1. destruct (p_bool _ _ _); auto.
Qed.
Print Assumptions C42_if.
(** `let x = e0 c1 e1 .. ck ek`: like `e0; e1; ..; ej; let x = b`, where operands after the first
    failing comparison are not evaluated, and [b] is whether there is none. *)
Theorem C42_chain (P : prims) fs pre e0 c1 e1 c2 e2 l post opt w ls last s v0 s0 done b s' r : compare_ok P ->
  ok_program (with_let fs pre (chain e0 c1 e1 c2 e2 l) post) = true -> small (with_let fs pre (chain e0 c1 e1 c2 e2 l) post) ->
  runs P (lookup fs) (Frame [] []) pre (start P w) (Ok P _ (ONorm ls last) s) ->
  evals P (lookup fs) (Frame ls []) e0 s (Ok P _ v0 s0) ->
  chain_ev P (lookup fs) (Frame ls []) v0 ((c1, e1) :: (c2, e2) :: l) s0 done b s' ->
  source_outcome P (with_let fs (sapp pre (drops (e0 :: done))) (EConst (HBool b)) post) w r ->
  runs_to P (step P) (compile opt (with_let fs pre (chain e0 c1 e1 c2 e2 l) post)) w r.
Proof.
  intros CO K S Hp H0 Hc Hr. apply compile_outcome; auto. unfold source_outcome, with_let in *. cbn [pr_main pr_funs] in *.
  eapply chain_finishes; eauto.
Qed.
Print Assumptions C42_chain.
Theorem C42_chain_prefix (P : prims) funs fr v l s d b s' : chain_ev P funs fr v l s d b s' ->
  exists k, d = map snd (firstn k l) /\ (b = true -> d = map snd l).
Proof. apply chain_ev_prefix. Qed.
Print Assumptions C42_chain_prefix.

(** Examples: `let n = 3; let x = ..; print(x)` where operands print. [say k] prints [k] and is nil (falsy);
    [yes k] prints [k] and then is [k] (truthy). *)
Definition say k := print (num k).
Definition yes k := EOr (say k) (num k).
Definition ex_pre := blk [SLet (num 3)].
Definition ex_post := blk [SExpr (print (EVar (VGlobal 1))); SSemi].
Definition st1 o : st calc := St calc [HConst 3] [] [0] (Cw o 0 []).
Lemma ex_pre_runs : runs calc (lookup []) (Frame [] []) ex_pre (start calc w0) (Ok calc _ (ONorm [Some 0] None) (st1 [])).
Proof. exists 5, None. vm_compute. reflexivity. Qed.
Example C42_and_falsy_ex opt : runs_to calc (step calc) (compile opt (with_let [] ex_pre (EAnd (say 7) (say 8)) ex_post)) w0 (XExit, Cw [HConst 7; HNil] 0 []).
Proof.
  eapply (C42_and_falsy calc [] ex_pre (say 7) (say 8) ex_post opt w0 [Some 0] None (st1 []) HNil (st1 [HConst 7])); [reflexivity|reflexivity|exact ex_pre_runs| |reflexivity|].
  - exists 5. vm_compute. reflexivity.
  - apply outcome_main. exists 20. vm_compute. reflexivity.
Qed.
Example C42_and_truthy_ex opt : runs_to calc (step calc) (compile opt (with_let [] ex_pre (EAnd (yes 7) (say 8)) ex_post)) w0 (XExit, Cw [HConst 7; HConst 8; HNil] 0 []).
Proof.
  eapply (C42_and_truthy calc [] ex_pre (yes 7) (say 8) ex_post opt w0 [Some 0] None (st1 []) (HConst 7) (st1 [HConst 7])); [reflexivity|reflexivity|exact ex_pre_runs| |reflexivity|].
  - exists 6. vm_compute. reflexivity.
  - apply outcome_main. exists 20. vm_compute. reflexivity.
Qed.
Example C42_or_truthy_ex opt : runs_to calc (step calc) (compile opt (with_let [] ex_pre (EOr (yes 7) (say 8)) ex_post)) w0 (XExit, Cw [HConst 7; HConst 7] 0 []).
Proof.
  eapply (C42_or_truthy calc [] ex_pre (yes 7) (say 8) ex_post opt w0 [Some 0] None (st1 []) (HConst 7) (st1 [HConst 7])); [reflexivity|reflexivity|exact ex_pre_runs| |reflexivity|].
  - exists 6. vm_compute. reflexivity.
  - apply outcome_main. exists 20. vm_compute. reflexivity.
Qed.
Example C42_or_falsy_ex opt : runs_to calc (step calc) (compile opt (with_let [] ex_pre (EOr (say 7) (yes 8)) ex_post)) w0 (XExit, Cw [HConst 7; HConst 8; HConst 8] 0 []).
Proof.
  eapply (C42_or_falsy calc [] ex_pre (say 7) (yes 8) ex_post opt w0 [Some 0] None (st1 []) HNil (st1 [HConst 7])); [reflexivity|reflexivity|exact ex_pre_runs| |reflexivity|].
  - exists 6. vm_compute. reflexivity.
  - apply outcome_main. exists 20. vm_compute. reflexivity.
Qed.
Example C42_if_ex opt : runs_to calc (step calc) (compile opt (with_let [] ex_pre (EIf (say 7) (yes 8) (yes 9)) ex_post)) w0 (XExit, Cw [HConst 7; HConst 9; HConst 9] 0 []).
Proof.
  eapply (C42_if calc [] ex_pre (say 7) (yes 8) (yes 9) ex_post opt w0 [Some 0] None (st1 []) HNil (st1 [HConst 7])); [reflexivity|reflexivity|exact ex_pre_runs| |].
  - exists 6. vm_compute. reflexivity.
  - apply outcome_main. exists 20. vm_compute. reflexivity.
Qed.
Lemma calc_compare : compare_ok calc.
Proof. intros w c a b. now destruct c. Qed.
(** `1 < yes 5 < 2 < yes 9`: the last operand is not evaluated *)
Example C42_chain_ex opt : runs_to calc (step calc) (compile opt (with_let [] ex_pre (chain (num 1) CLt (yes 5) CLt (num 2) [(CLt, yes 9)]) ex_post)) w0 (XExit, Cw [HConst 5; HBool false] 0 []).
Proof.
  eapply (C42_chain calc [] ex_pre (num 1) CLt (yes 5) CLt (num 2) [(CLt, yes 9)] ex_post opt w0 [Some 0] None (st1 []) (HConst 1) (st1 []) [yes 5; num 2] false (st1 [HConst 5])); [exact calc_compare|reflexivity|reflexivity|exact ex_pre_runs| | |].
  - exists 6. vm_compute. reflexivity.
  - eapply (ch_go _ _ _ _ _ _ _ _ (HConst 5) (st1 [HConst 5])); [exists 6; vm_compute; reflexivity|reflexivity|]. apply (ch_stop _ _ _ _ _ _ _ _ (HConst 2)); [exists 2; vm_compute; reflexivity|reflexivity].
  - apply outcome_main. exists 20. vm_compute. reflexivity.
Qed.

(** ** C44 *)
(** `let x = f(args)`, where [args] may have any number of spreads: like `let x = fv(v1, .., vn)`
    where the [vi] are the values of the plain arguments and the elements of the spread ones, in
    order. The items may contain calls and literals with spreads themselves. *)
Theorem C44_call (P : prims) fs pre f a post opt w ls last s fv s1 vs s2 r :
  ok_program (with_let fs pre (ECall f a) post) = true -> small (with_let fs pre (ECall f a) post) ->
  runs P (lookup fs) (Frame [] []) pre (start P w) (Ok P _ (ONorm ls last) s) ->
  evals P (lookup fs) (Frame ls []) f s (Ok P _ fv s1) -> args_ev P (lookup fs) (Frame ls []) a s1 vs s2 ->
  finishes P (lookup fs) ls (BCons (SLet (ECall (EConst fv) (consts vs))) post) s2 r ->
  runs_to P (step P) (compile opt (with_let fs pre (ECall f a) post)) w r.
Proof.
  intros K S Hp Hf Ha Hr. apply compile_outcome; auto. unfold source_outcome, with_let in *. cbn [pr_main pr_funs] in *.
  eapply finishes_app; [exact Hp|]. eapply let_from; [|exact Hr]. intros r0 H. exact (call_same P _ _ _ _ _ _ _ _ _ _ Hf Ha H).
Qed.
Print Assumptions C44_call.
(** A spread argument that is not iterable is the error, and what follows is not evaluated. *)
Theorem C44_call_error (P : prims) fs pre f a e b post opt w ls last s fv s0 vs s1 v s2 x w' :
  let call := ECall f (args_app a (ACons true e b)) in
  ok_program (with_let fs pre call post) = true -> small (with_let fs pre call post) ->
  runs P (lookup fs) (Frame [] []) pre (start P w) (Ok P _ (ONorm ls last) s) ->
  evals P (lookup fs) (Frame ls []) f s (Ok P _ fv s0) -> args_ev P (lookup fs) (Frame ls []) a s0 vs s1 ->
  evals P (lookup fs) (Frame ls []) e s1 (Ok P _ v s2) -> p_unroll P v (sworld P s2) = (w', inl x) ->
  runs_to P (step P) (compile opt (with_let fs pre call post)) w (XPrim x, w').
Proof.
  intros call K S Hp Hf Ha He U. eapply C41_error; [exact K|exact S|exact Hp|]. exact (call_err P _ _ _ _ _ _ _ _ _ _ _ _ _ _ _ Hf Ha He U).
Qed.
Print Assumptions C44_call_error.
(** `let x = [..]` (or a vector, set or dict): like `let x = v` where [v] is the object made of
    exactly what [literal_of] says about the items and the contributions of spreads, in order.
    For all primitive operations, the literals being those of Lit.v. *)
Theorem C44_literal (P0 : prims) same to_pair not_pair new_object fs pre t a post opt ls last :
  let P := with_literals P0 same to_pair not_pair new_object in
  forall (w : W P) s vs s2 r,
  ok_program (with_let fs pre (ELit t a) post) = true -> small (with_let fs pre (ELit t a) post) -> whole t a = true ->
  runs P (lookup fs) (Frame [] []) pre (start P w) (Ok P _ (ONorm ls last) s) ->
  items_ev P (lookup fs) (contributes P0 to_pair t) (Frame ls []) a s vs s2 ->
  let '(w', v) := new_object (Some (literal_of same t vs)) (sworld P s2) in
  finishes P (lookup fs) ls (BCons (SLet (EConst v)) post) (with_world P w' s2) r ->
  runs_to P (step P) (compile opt (with_let fs pre (ELit t a) post)) w r.
Proof.
  intros P w s vs s2 r K S Wh Hp Ha.
  destruct (literal_evals P (lookup fs) (Frame ls []) t (contributes P0 to_pair t) _ a s vs s2 (literals_hold same to_pair P0 not_pair new_object t) Wh Ha) as (l & [-> _] & He).
  change (l_end P (Some (literal_of same t vs)) (sworld P s2)) with (new_object (Some (literal_of same t vs)) (sworld P s2)) in He. destruct (new_object (Some (literal_of same t vs)) (sworld P s2)) as [w' v]. cbn [fst snd] in He.
  intro Hr. apply compile_outcome; auto. unfold source_outcome, with_let in *. cbn [pr_main pr_funs] in *.
  eapply finishes_app; [exact Hp|]. eapply let_swap; [exact He| |exact Hr]. now apply evals_const.
Qed.
Print Assumptions C44_literal.
(** The same for any representation of literals that holds what is added to it. *)
Theorem C44_literal_any (P : prims) fs pre t a post opt ls last w s vs s2 r spread reps : holds_elements P t spread reps ->
  ok_program (with_let fs pre (ELit t a) post) = true -> small (with_let fs pre (ELit t a) post) -> whole t a = true ->
  runs P (lookup fs) (Frame [] []) pre (start P w) (Ok P _ (ONorm ls last) s) ->
  items_ev P (lookup fs) spread (Frame ls []) a s vs s2 ->
  (forall l, reps l vs -> let '(w', v) := l_end P l (sworld P s2) in finishes P (lookup fs) ls (BCons (SLet (EConst v)) post) (with_world P w' s2) r) ->
  runs_to P (step P) (compile opt (with_let fs pre (ELit t a) post)) w r.
Proof.
  intros HE K S Wh Hp Ha Hr. destruct (literal_evals P (lookup fs) (Frame ls []) t spread _ a s vs s2 HE Wh Ha) as (l & R & He).
  specialize (Hr l R). destruct (l_end P l (sworld P s2)) as [w' v]. cbn [fst snd] in He.
  apply compile_outcome; auto. unfold source_outcome, with_let in *. cbn [pr_main pr_funs] in *.
  eapply finishes_app; [exact Hp|]. eapply let_swap; [exact He| |exact Hr]. now apply evals_const.
Qed.
Print Assumptions C44_literal_any.
(** What sets and dicts contain: [literal_of] read by membership and lookup, when equality of keys
    is an equivalence. *)
Theorem C44_set_members same items x : equivalence same ->
  forall l, literal_of same LitSet items = LSet l -> (existsb (same x) l = existsb (same x) items) /\ (forall i j a b, nth_error l i = Some a -> nth_error l j = Some b -> same a b = true -> i = j).
Proof. intros E l [= <-]. split; [now apply distinct_members|exact (distinct_nodup same items E)]. Qed.
Print Assumptions C44_set_members.
(** the value of a key is the one given last *)
Theorem C44_dict_lookup same items k : equivalence same ->
  forall d, literal_of same LitDict items = LDict d -> lookup_first same k d = lookup_last same k (entries_of items).
Proof. intros E d [= <-]. now apply dict_lookup. Qed.
Print Assumptions C44_dict_lookup.

(** `let n = 3; let x = f(1, ...[n, ...[5]], 2)` with `f` printing its arguments, and a dict with a spread. *)
Definition items l := fold_right (fun '(b, e) r => ACons b e r) ANil l.
Definition spreads := items [(false, num 1); (true, ELit LitList (items [(false, EVar (VGlobal 0)); (true, ELit LitVector (items [(false, num 5)]))])); (false, num 2)].
Definition st2 o h : st calc := St calc [HConst 3] [] [0] (Cw o 0 h).
Example C44_call_ex opt : runs_to calc (step calc) (compile opt (with_let [] ex_pre (ECall (EConst (HObj 0)) spreads) ex_post)) w0
  (XExit, Cw [HConst 1; HConst 3; HConst 5; HConst 2; HNil] 0 [[HConst 5]; [HConst 3; HConst 5]]).
Proof.
  eapply (C44_call calc [] ex_pre (EConst (HObj 0)) spreads ex_post opt w0 [Some 0] None (st1 []) (HObj 0) (st1 []) [HConst 1; HConst 3; HConst 5; HConst 2] (st2 [] [[HConst 5]; [HConst 3; HConst 5]])); [reflexivity|reflexivity|exact ex_pre_runs| | |].
  - now apply evals_const.
  - eapply ar_plain; [now apply evals_const|]. eapply (ar_spread _ _ _ _ _ _ _ _ _ _ [HConst 3; HConst 5]); [exists 10; vm_compute; reflexivity|reflexivity|].
    eapply ar_plain; [now apply evals_const|]. constructor.
  - right. split; [reflexivity|]. do 3 eexists. split; [exists 20, None; vm_compute; reflexivity|reflexivity].
Qed.
Example C44_call_error_ex opt : runs_to calc (step calc) (compile opt (with_let [] ex_pre (ECall (EConst (HObj 0)) (args_app (a1 (num 1)) (ACons true (yes 4) (a1 (say 6))))) ex_post)) w0
  (XPrim 4, Cw [HConst 4] 0 []).
Proof.
  eapply (C44_call_error calc [] ex_pre (EConst (HObj 0)) (a1 (num 1)) (yes 4) (a1 (say 6)) ex_post opt w0 [Some 0] None (st1 []) (HObj 0) (st1 []) [HConst 1] (st1 []) (HConst 4) (st1 [HConst 4])); [reflexivity|reflexivity|exact ex_pre_runs| | | |reflexivity].
  - now apply evals_const.
  - eapply ar_plain; [now apply evals_const|]. constructor.
  - exists 6. vm_compute. reflexivity.
Qed.
Definition hsame (a b : hval) : bool := match a, b with HConst x, HConst y => x =? y | _, _ => false end.
Definition lits : prims := with_literals calc hsame (fun v => match v with HPartial k [x] => Some (k, x) | _ => None end) (fun _ => 9)
  (fun l w => (Cw (out w) (cnt w) (hp w ++ [match l with Some (LList l | LVector l | LSet l) => l | Some (LDict d) => map (fun e => HPartial (fst e) [snd e]) d | None => [] end]), HObj (2 + length (hp w)))).
Definition st3 h : st lits := St lits [HConst 3] [] [0] (Cw [] 0 h).
(** `{1: 2, ...{3: 4, 1: 5}, 3: 6}` is `{1: 5, 3: 6}` *)
Definition dict_items := items [(false, num 1); (false, num 2); (true, ELit LitDict (items [(false, num 3); (false, num 4); (false, num 1); (false, num 5)])); (false, EVar (VGlobal 0)); (false, num 6)].
Example C44_literal_ex opt : runs_to lits (step lits) (compile opt (with_let [] ex_pre (ELit LitDict dict_items) ex_post)) w0
  (XExit, Cw [HObj 3] 0 [[HPartial (HConst 3) [HConst 4]; HPartial (HConst 1) [HConst 5]]; [HPartial (HConst 1) [HConst 5]; HPartial (HConst 3) [HConst 6]]]).
Proof.
  set (h := [[HPartial (HConst 3) [HConst 4]; HPartial (HConst 1) [HConst 5]]]).
  pose proof (C44_literal calc hsame (fun v => match v with HPartial k [x] => Some (k, x) | _ => None end) (fun _ => 9)
    (fun l w => (Cw (out w) (cnt w) (hp w ++ [match l with Some (LList l | LVector l | LSet l) => l | Some (LDict d) => map (fun e => HPartial (fst e) [snd e]) d | None => [] end]), HObj (2 + length (hp w))))
    [] ex_pre LitDict dict_items ex_post opt [Some 0] None w0 (st3 []) [HConst 1; HConst 2; HConst 3; HConst 4; HConst 1; HConst 5; HConst 3; HConst 6] (st3 h)) as T.
  cbv zeta in T. specialize (T (XExit, Cw [HObj 3] 0 [[HPartial (HConst 3) [HConst 4]; HPartial (HConst 1) [HConst 5]]; [HPartial (HConst 1) [HConst 5]; HPartial (HConst 3) [HConst 6]]])).
  apply T; clear T; [reflexivity|reflexivity|reflexivity| | |].
  - exists 5, None. vm_compute. reflexivity.
  - eapply ar_plain; [now apply evals_const|]. eapply ar_plain; [now apply evals_const|].
    eapply (ar_spread _ _ _ _ _ _ _ _ _ _ [HConst 3; HConst 4; HConst 1; HConst 5]); [exists 10; vm_compute; reflexivity| |].
    + eexists. split; [reflexivity|]. eapply po_cons; [reflexivity|]. eapply po_cons; [reflexivity|]. constructor.
    + eapply ar_plain; [exists 3; vm_compute; reflexivity|]. eapply ar_plain; [now apply evals_const|]. constructor.
  - right. split; [reflexivity|]. do 3 eexists. split; [exists 20, None; vm_compute; reflexivity|reflexivity].
Qed.

(** ** C45 *)
(** In the meaning of programs, every variable is a location. Locations in use are below the size
    of the store: so at the start, and after any expression or statements; closures and globals keep
    referring to the same locations. *)
Theorem C45_scoped_start (P : prims) w : scoped P (Frame [] []) (start P w).
Proof. exact (scoped_start P (fun _ => None) w). Qed.
Print Assumptions C45_scoped_start.
Theorem C45_cells_stay (P : prims) funs fr e s v s' : scoped P fr s -> evals P funs fr e s (Ok P _ v s') -> scoped P fr s' /\ ahead P s s'.
Proof. apply evals_scoped. Qed.
Print Assumptions C45_cells_stay.
Theorem C45_cells_stay_statements (P : prims) funs fr b s ls last s' : scoped P fr s -> runs P funs fr b s (Ok P _ (ONorm ls last) s') -> scoped P (Frame ls (up fr)) s' /\ ahead P s s'.
Proof. apply runs_scoped. Qed.
Print Assumptions C45_cells_stay_statements.
(** A declaration makes a variable that nothing refers to yet, wherever it stands (in a loop, a function called before, ...). *)
Theorem C45_declaration_fresh (P : prims) funs fr e s ls last s' : scoped P fr s -> runs P funs fr (BCons (SLet e) BNil) s (Ok P _ (ONorm ls last) s') ->
  exists v s1 l, evals P funs fr e s (Ok P _ v s1) /\ ls = locals fr ++ [Some l] /\ fresh P fr s1 l /\ nth_error (store P s') l = Some v.
Proof. apply let_fresh. Qed.
Print Assumptions C45_declaration_fresh.
(** The parameters of every call are variables that nothing refers to yet, and the captured
    variables are the locations captured when the closure was made. *)
Theorem C45_activation_fresh (P : prims) funs fr f k n e args s ls r : scoped P fr s ->
  funs f = Some (SFun n [] false (BodyExpr e)) -> length args = n -> nth_error (senvs P s) k = Some ls ->
  exists params s1, length params = n /\ NoDup params /\ (forall l, In l params -> fresh P fr s l) /\ map (nth_error (store P s1)) params = map Some args /\ ahead P s s1 /\
  (calls P funs (HClosure f k) args s r <-> evals P funs (Frame (map Some params) ls) e s1 r).
Proof. apply call_fresh. Qed.
Print Assumptions C45_activation_fresh.
(** Each iteration of `for` runs its body with a variable that nothing refers to yet. *)
Theorem C45_iteration_fresh (P : prims) funs fr it b el s w v n : scoped P fr s -> p_next P it (sworld P s) = (w, Some v) ->
  exists l s1, fresh P fr s l /\ nth_error (store P s1) l = Some v /\ ahead P s s1 /\
  exec_for P funs (S n) fr true it b el s =
    bind P (exec_block P funs n (Frame (locals fr ++ [Some l; None]) (up fr)) b s1)
      (fun o s => match o with OBreak => ret P (ONorm (locals fr) None) s | OContinue | ONorm _ _ => exec_for P funs n fr true it b el s | OReturned _ => ret P o s end).
Proof. apply for_fresh. Qed.
Print Assumptions C45_iteration_fresh.
(** A closure refers to the very locations of the variables it captures; so two closures that
    capture one variable, and the scope of that variable, share it. *)
Theorem C45_closure_shares (P : prims) funs fr f c cs s v s' : evals P funs fr (EClosure f c cs) s (Ok P _ v s') ->
  exists k ls, v = HClosure f k /\ nth_error (senvs P s') k = Some ls /\ nth_error (senvs P s) k = None /\
  forall j, match nth_error (c :: cs) j with
            | Some (CapLocal i) => exists l, is_at P fr (VLocal i) s l /\ is_at P (Frame [] ls) (VUp j) s' l
            | Some (CapUp i) => forall l, is_at P fr (VUp i) s l <-> is_at P (Frame [] ls) (VUp j) s' l
            | _ => True
            end.
Proof. apply closure_shares. Qed.
Print Assumptions C45_closure_shares.
(** Assignment through one name is seen through every other name of the same location, and
    through no name of another location. *)
Theorem C45_assign (P : prims) funs fr x e s v s' : evals P funs fr (EAssign x e) s (Ok P _ v s') ->
  exists s1 l, evals P funs fr e s (Ok P _ v s1) /\ is_at P fr x s1 l /\
  (forall fr' y, is_at P fr' y s1 l -> evals P funs fr' (EVar y) s' (Ok P _ v s')) /\
  (forall fr' y l' v', is_at P fr' y s1 l' -> l' <> l -> evals P funs fr' (EVar y) s1 (Ok P _ v' s1) -> evals P funs fr' (EVar y) s' (Ok P _ v' s')).
Proof. apply assign_seen. Qed.
Print Assumptions C45_assign.
(** Compiled programs follow this meaning of variables, outside the exclusions of LangCheck.v.
    Missing: those programs, for which it is false; see below. *)
Theorem C45_compiled_partial (P : prims) (p : program) (opt : bool) (w : W P) r : ok_program p = true -> small p ->
  (source_outcome P p w r -> forall r', runs_to P (step P) (compile opt p) w r' <-> r' = r).
Proof.
  intros K S H r'. split; [now apply C41_no_other_outcome|]. intros ->. now apply C41_compiled_same_outcome.
Qed.
Print Assumptions C45_compiled_partial.
(** `fn make(x) { fn inc() -> x = x + 1; fn get() -> x; inc(); x = x + 10; inc(); return get };
    let a = make(1); let b = make(100); print(a()); print(b())` *)
Definition add a b := EPrim (PBinary BAdd) (ACons false a (a1 b)).
Definition call0 f := ECall f ANil.
Definition counters : program := Program
  [SFun 0 [] false (BodyExpr (EAssign (VUp 0) (add (EVar (VUp 0)) (num 1)))); SFun 0 [] false (BodyExpr (EVar (VUp 0)));
   SFun 1 [] false (BodyBlock (blk [SFn 0 [CapLocal 0]; SFn 1 [CapLocal 0]; SExpr (call0 (EVar (VLocal 1))); SSemi;
     SExpr (EAssign (VLocal 0) (add (EVar (VLocal 0)) (num 10))); SSemi; SExpr (call0 (EVar (VLocal 1))); SSemi; SReturn (Some (EVar (VLocal 2)))]))]
  (blk [SFn 2 []; SLet (ECall (EVar (VGlobal 0)) (a1 (num 1))); SLet (ECall (EVar (VGlobal 0)) (a1 (num 100)));
        SExpr (print (call0 (EVar (VGlobal 1)))); SSemi; SExpr (print (call0 (EVar (VGlobal 2)))); SSemi]).
Example C45_compiled_ex opt : runs_to calc (step calc) (compile opt counters) w0 (XExit, Cw [HConst 13; HConst 112] 0 []).
Proof.
  apply (C45_compiled_partial calc counters opt w0 (XExit, Cw [HConst 13; HConst 112] 0 [])); [reflexivity|reflexivity| |reflexivity].
  apply outcome_main. exists 40. vm_compute. reflexivity.
Qed.
(** Refuted for all programs. Returning from a loop before (in text) a closure captures a variable:
    `fn f() { let x = 1; let g; loop { if g { return g } g = fn() -> x } }; let h = f(); print(h())` *)
Definition return_before_capture : program := Program
  [SFun 0 [] false (BodyExpr (EVar (VUp 0)));
   SFun 0 [] false (BodyBlock (blk [SLet (num 1); SLetNil; SLoop (blk [SIf (EVar (VLocal 1)) (blk [SReturn (Some (EVar (VLocal 1)))]) ElNone;
      SExpr (EAssign (VLocal 1) (EClosure 0 (CapLocal 0) [])); SSemi])]))]
  (blk [SLet (call0 (EConst (HFun 1))); SExpr (print (call0 (EVar (VGlobal 0)))); SSemi]).
(** `let f; for x in [1, 2] { if x < 2 { f = fn() -> x; continue } }; print(f())` *)
Definition continue_in_for : program := Program [SFun 0 [] false (BodyExpr (EVar (VUp 0)))]
  (blk [SLetNil; SFor true (ELit LitList (items [(false, num 1); (false, num 2)]))
    (blk [SIf (EPrim (PBinary BLessThan) (ACons false (EVar (VLocal 1)) (a1 (num 2)))) (blk [SExpr (EAssign (VGlobal 0) (EClosure 0 (CapLocal 1) [])); SSemi; SContinue]) ElNone]) NoElse;
    SExpr (print (call0 (EVar (VGlobal 0)))); SSemi]).
(** `fn f() { let a = 1; let b = 2; 5 do { } while count_down(); print(b); print(a) } f()` *)
Definition do_after_expression : program := Program
  [SFun 0 [] false (BodyBlock (blk [SLet (num 1); SLet (num 2); SExpr (num 5); SDo BNil (Some (call0 (EConst (HObj 1)))) NoElse; SExpr (print (EVar (VLocal 1))); SSemi; SExpr (print (EVar (VLocal 0))); SSemi]))]
  (blk [SExpr (call0 (EConst (HFun 0))); SSemi]).
Theorem C45_return_refuted : small return_before_capture /\ source_outcome calc return_before_capture w0 (XExit, Cw [HConst 1] 0 []) /\
  runs_to calc (step calc) (compile false return_before_capture) w0 (XExit, Cw [HObj 0] 0 []).
Proof. split; [reflexivity|]. split; [apply outcome_main; exists 40; vm_compute; reflexivity|]. exists 300. vm_compute. reflexivity. Qed.
Theorem C45_iterations_refuted : small continue_in_for /\ source_outcome calc continue_in_for w0 (XExit, Cw [HConst 1] 0 [[HConst 1; HConst 2]; []]) /\
  runs_to calc (step calc) (compile false continue_in_for) w0 (XExit, Cw [HConst 2] 0 [[HConst 1; HConst 2]; []]).
Proof. split; [reflexivity|]. split; [apply outcome_main; exists 40; vm_compute; reflexivity|]. exists 300. vm_compute. reflexivity. Qed.
Print Assumptions C45_return_refuted.
Print Assumptions C45_iterations_refuted.
(** here the compiled program pops a variable in each iteration and breaks down *)
Theorem C45_do_refuted : small do_after_expression /\ source_outcome calc do_after_expression (Cw [] 2 []) (XExit, Cw [HConst 2; HConst 1] 0 []) /\
  exists n, run calc (fst (compile false do_after_expression)) (fun i => nth_error (snd (compile false do_after_expression)) i) (step calc) n 0 (vm_init calc (Cw [] 2 [])) = Some (VStuck calc).
Proof. split; [reflexivity|]. split; [apply outcome_main; exists 40; vm_compute; reflexivity|]. exists 300. vm_compute. reflexivity. Qed.
Print Assumptions C45_do_refuted.
