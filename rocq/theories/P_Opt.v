(** C43: optimising the expressions of a program does not change what it does. *)
From Coq Require Import Cantor.
From Verif Require Import Base Native Err Value Ops Vm Lang LangSpec CompileSpec LangCheck Compile Graph PeepSpec CompileProofs Opt OptSpec OptProofs6 OptProofs7.
Local Open Scope nat_scope.

Lemma gentle_program (dec : nat -> option value) enc to_str fmt p : all_program (fun e => real dec e = true /\ unswapped e = true /\ gentle dec e = true) p ->
  all_program (fun e => real dec e = true /\ unswapped e = true /\ optimize dec enc to_str fmt e = walk dec enc to_str fmt (careful dec) e) p.
Proof. apply all_program_mono. intros e (A & B & C). repeat split; auto. now apply gentle_walk. Qed.

(** For all primitive operations, constants and functions obeying the laws of OptSpec.v: an
    expression as a programmer writes it (no operators marked as swapped), without complex
    constants and [gentle] (of the operands that may be reordered, all but one are constants,
    variables or partially applied builtins), gives the same values with the same final
    states as its optimised form, in every frame and every state.
    Missing from the property: reorderings of larger operands that both allocate, or of a
    closure and an expression with side effects (where the final states differ by a renaming
    of addresses); errors; and see the three counterexamples below. *)
Theorem C43_expression_partial (P : prims) dec enc to_str fmt (funs : nat -> option sfun) (e : expr) : lawful P dec enc to_str fmt ->
  real dec e = true -> unswapped e = true -> gentle dec e = true ->
  forall fr s v s', gives P funs fr e s v s' <-> gives P funs fr (optimize dec enc to_str fmt e) s v s'.
Proof. intros. apply expr_same; auto. now apply gentle_walk. Qed.
Print Assumptions C43_expression_partial.

(** ... and a program of such expressions completes with a world if and only if the optimised
    program does. *)
Theorem C43_program_partial (P : prims) dec enc to_str fmt (p : program) : lawful P dec enc to_str fmt ->
  all_program (fun e => real dec e = true /\ unswapped e = true /\ gentle dec e = true) p ->
  forall w w', completes P p w w' <-> completes P (optimize_program dec enc to_str fmt p) w w'.
Proof. intros L A w w'. apply program_same; [exact L|]. now apply gentle_program. Qed.
Print Assumptions C43_program_partial.

(** ... hence, compiled with or without the bytecode optimiser, the optimised program ends
    normally with the world with which the source program completes. *)
Theorem C43_compiled_partial (P : prims) dec enc to_str fmt (p : program) (peephole : bool) : lawful P dec enc to_str fmt ->
  all_program (fun e => real dec e = true /\ unswapped e = true /\ gentle dec e = true) p ->
  ok_program (optimize_program dec enc to_str fmt p) = true -> small (optimize_program dec enc to_str fmt p) ->
  forall w w', completes P p w w' -> runs_to P (step P) (compile peephole (optimize_program dec enc to_str fmt p)) w (XExit, w').
Proof.
  intros L A K S w w' H. apply (gentle_program dec enc to_str fmt) in A. apply (program_same P dec enc to_str fmt L p w w' A) in H. apply compile_outcome; auto.
  destruct H as (ls & last & s' & H & J). right. cbn [fst snd]. split; [reflexivity|]. eauto.
Qed.
Print Assumptions C43_compiled_partial.

(** ** An instance of the laws: integers, complex numbers, printing, and lists on a stack, where a list
    is discarded when it is called. *)
Definition zig (z : Z) : nat := if (0 <=? z)%Z then Z.to_nat (2 * z) else Z.to_nat (-2 * z - 1).
Definition zag (n : nat) : Z := if Nat.even n then Z.of_nat (Nat.div2 n) else (- Z.of_nat (Nat.div2 n) - 1)%Z.
Definition dec (n : nat) : option value :=
  match of_nat n with
  | (0, m) => Some (VInt (zag m))
  | (1, m) => let (a, b) := of_nat m in Some (VComplex (zag a) (zag b))
  | _ => None
  end.
Definition enc (v : value) : hval :=
  match v with
  | VNil => HNil
  | VBool b => HBool b
  | VInt z => HConst (to_nat (0, zig z))
  | VComplex a b => HConst (to_nat (1, to_nat (zig a, zig b)))
  | _ => HObj 0
  end.
Definition to_str (v : value) : list Z := [].
Definition fmt (s : list Z) (v : value) : result value := Err.Panic.
Record tw := Tw { printed : list hval; lists : list (list hval + list hval) }.
Definition ret_of (r : result value) (w : tw) : tree tw nat := match r with Err.Ok v => TRet w (enc v) | _ => TErr w 0 end.
Definition push (l : list hval + list hval) (w : tw) : tree tw nat := TRet (Tw (printed w) (l :: lists w)) (HObj (length (lists w))).
Definition at_ (w : tw) (h : hval) : list hval :=
  match h with HObj k => match nth_error (rev (lists w)) k with Some (inl l) => l | _ => [] end | _ => [] end.
Definition int_of (h : hval) : Z := match decode dec h with Some (VInt z) => z | _ => 0%Z end.
Definition toy_op (p : prim) (a : list hval) (w : tw) : tree tw nat :=
  match p, a with
  | PUnary o, [x] => match decode dec x with Some u => ret_of (unary_op o u) w | None => TErr w 1 end
  | PBinary o, [x; y] => match decode dec x, decode dec y with Some u, Some v => ret_of (binary_op to_str fmt o u v) w | _, _ => TErr w 1 end
  | PIndex, [a; i] => match nth_error (at_ w a) (Z.to_nat (int_of i)) with Some v => TRet w v | None => TErr w 2 end
  | PSlice, [a; x; y] => push (inl (skipn (Z.to_nat (int_of x)) (firstn (Z.to_nat (int_of y)) (at_ w a)))) w
  | PSliceStep, _ => TErr w 4
  | PMkSlice, _ | PMkSliceStep, _ => push (inr a) w
  | _, _ => TErr w 3
  end.
Definition toy_native (n : native) (l : list hval) (w : tw) : tree tw nat :=
  if length l <? native_min_nargs n then TRet w (match l with [] => HNative n | _ => HPartial (HNative n) l end)
  else match native_binop n, native_binop (native_swap n), l with
       | Some o, _, [a; b] => toy_op (PBinary o) [a; b] w
       | None, Some o, [a; b] => toy_op (PBinary o) [b; a] w
       | _, _, _ =>
           match n, l with
           | NF_Min, [HNative NF_Int] => TRet w (enc (VInt MIN_INT))
           | NF_Max, [HNative NF_Int] => TRet w (enc (VInt MAX_INT))
           | NF_Print, _ => TRet (Tw (printed w ++ l) (lists w)) HNil
           | _, _ => TErr w 5
           end
       end.
Definition toy_call (f : hval) (l : list hval) (w : tw) : tree tw nat :=
  match f with
  | HNative n => toy_native n l w
  | HPartial (HNative n) p => toy_native n (p ++ l) w
  | HObj k =>
      match lists w, l with
      | top :: rest, [a] =>
          match top with
          | inl [i] => if k =? length rest then toy_op PIndex [a; i] (Tw (printed w) rest) else TErr w 6
          | inr [x; y] => if k =? length rest then toy_op PSlice [a; x; y] (Tw (printed w) rest) else TErr w 6
          | inr [x; y; z] => if k =? length rest then toy_op PSliceStep [a; x; y; z] (Tw (printed w) rest) else TErr w 6
          | _ => TErr w 7
          end
      | _, _ => TErr w 8
      end
  | _ => TErr w 9
  end.
Definition toy : prims := {|
  W := tw; L := list hval; E := nat;
  p_bool _ h := match decode dec h with Some x => to_bool x | None => true end;
  p_compare _ _ _ _ := true; p_compare_msg w _ _ _ := (w, HNil);
  p_op := toy_op; p_call := toy_call;
  p_vector l w := (Tw (printed w) (inl l :: lists w), HObj (length (lists w)));
  p_unroll v w := (w, inr (at_ w v)); p_next _ w := (w, None);
  l_new _ _ := []; l_acc l vs _ := l ++ vs; l_unroll l v w := (w, inr (l ++ at_ w v));
  l_end l w := (Tw (printed w) (inl l :: lists w), HObj (length (lists w))) |}.

Lemma zag_zig z : zag (zig z) = z.
Proof.
  unfold zag, zig. destruct (Z.leb_spec 0 z).
  - replace (Z.to_nat (2 * z)) with (2 * Z.to_nat z) by lia. rewrite Nat.even_mul. cbn [Nat.even orb]. rewrite Nat.div2_double. lia.
  - replace (Z.to_nat (-2 * z - 1)) with (S (2 * Z.to_nat (- z - 1))) by lia. rewrite Nat.even_succ, <- Nat.negb_even, Nat.even_mul. cbn [Nat.even orb negb]. rewrite Nat.div2_succ_double. lia.
Qed.
Lemma immediate_of r w : immediate (ret_of r w).
Proof. destruct r; [right; cbn; eauto|left; cbn; unfold fails_with; eauto..]. Qed.
Lemma toy_lawful : lawful toy dec enc to_str fmt.
Proof.
  assert (FW : forall (w : tw) (e : nat), fails_with (TErr w e)) by (intros; unfold fails_with; eauto).
  split; cbn [toy p_op p_call p_bool l_new l_acc l_end W E L toy_op toy_call app].
  - intros o h x w ->. destruct (unary_op o x); cbn; auto.
  - intros o h x k y w -> ->. destruct (binary_op to_str fmt o x y); cbn; auto.
  - now intros h x w ->.
  - intros i x. unfold dec. destruct (of_nat i) as [[|[|k]] m]; try discriminate; [|destruct (of_nat m)]; intro E; injection E as <-; exact Logic.I.
  - intros v x. destruct v; cbn [enc decode]; try discriminate; try congruence; unfold dec; rewrite ?cancel_of_to; rewrite ?zag_zig; congruence.
  - discriminate.
  - intros o a w. destruct (decode dec a); [apply immediate_of|left; auto].
  - intros o a b w. destruct (decode dec a), (decode dec b); try (left; auto; fail). apply immediate_of.
  - intros n o a b w H. unfold toy_native. rewrite H. destruct n; cbn in H; try discriminate; reflexivity.
  - intros n o a b w H J. unfold toy_native. rewrite H, J. destruct n; cbn in H, J; try discriminate; reflexivity.
  - intros n l w H. unfold toy_native. apply Nat.ltb_lt in H. now rewrite H.
  - reflexivity.
  - reflexivity.
  - reflexivity.
  - intros i a w w' h E. injection E as <- <-. split; [cbn; auto|]. cbn [lists printed toy_call]. rewrite Nat.eqb_refl. destruct w. reflexivity.
  - intros a w w' h E. injection E as <- <-. split; [cbn; auto|]. cbn [lists printed toy_call]. auto.
  - intros vs a w w' h E J. injection J as <- <-. split; [cbn; auto|]. cbn [lists printed toy_call]. destruct vs as [|? [|? ?]]; cbn in E; try lia. auto.
  - intros a x y w. right. eexists _, _. split; [reflexivity|]. split; [cbn; auto|]. cbn [lists printed toy_call]. rewrite Nat.eqb_refl. destruct w. reflexivity.
  - intros a x y z w. right. eexists _, _. split; [reflexivity|]. split; [cbn; auto|]. cbn [lists printed toy_call]. rewrite Nat.eqb_refl. destruct w. reflexivity.
Qed.

(** ** Examples *)
Definition int (z : Z) : expr := EConst (enc (VInt z)).
Definition imaginary (z : Z) : expr := EConst (enc (VComplex 0 z)).
Definition a1 e := ACons false e ANil.
Definition a2 e f := ACons false e (a1 f).
Definition op (n : native) (a : args) : expr := ECall (EConst (HNative n)) a.
Definition print e := op NF_Print (a1 e).
Fixpoint blk (l : list stmt) : stmts := match l with [] => BNil | s :: r => BCons s (blk r) end.
Local Notation optp := (optimize_program dec enc to_str fmt).
Local Notation opt := (optimize dec enc to_str fmt).
Definition w0 : W toy := Tw [] [].
Definition ends (p : program) : option (bool * tw) :=
  match exec_list toy (fun i => nth_error (pr_funs p) i) 50 true (Frame [] []) None (pr_main p) (start toy w0) with
  | Some (LangSpec.Ok _ _ (ONorm _ _) s) => Some (true, sworld toy s)
  | Some (Er _ _ XExit w) => Some (false, w)
  | _ => None end.
Lemma ends_ok p w : ends p = Some (true, w) -> completes toy p w0 w.
Proof.
  unfold ends, completes, runs. intro H. destruct (exec_list _ _ _ _ _ _ _ _) as [[[ls last| | |] s|e w1]|] eqn:E; try discriminate; [|destruct e; discriminate].
  injection H as <-. exists ls, last, s. split; [|reflexivity]. exists 50, None. exact E.
Qed.
Lemma ends_exit p w : ends p = Some (false, w) -> source_outcome toy p w0 (XExit, w).
Proof.
  unfold ends, source_outcome, finishes, runs. intro H. destruct (exec_list _ _ _ _ _ _ _ _) as [[[ls last| | |] s|e w1]|] eqn:E; try discriminate. destruct e; try discriminate.
  injection H as <-. left. exists 50, None. exact E.
Qed.

(** `let x = (2 + 3) . (times 4); let y = if 1 < 2 then [x, 7] else 9; fn f(a) -> x . (plus a);
    print(y . [0]); print(f(1)); 2 . (divided-by 10) . print`, where `(2 + 3) . (times 4)` becomes 20,
    the `if` its first branch, `y . [0]` an index, and so on. *)
Definition p1 : program := Program
  [SFun 1 [] false (BodyExpr (ECompose (EVar (VGlobal 0)) (op NF_OperatorAddSwap (a1 (EVar (VLocal 0))))))]
  (blk [SLet (ECompose (EPrim (PBinary BAdd) (a2 (int 2) (int 3))) (op NF_OperatorMul (a1 (int 4))));
        SLet (EIf (EPrim (PBinary BLessThan) (a2 (int 1) (int 2))) (ELit LitList (a2 (EVar (VGlobal 0)) (int 7))) (int 9));
        SFn 0 [];
        SExpr (print (ECompose (EVar (VGlobal 1)) (ELit LitList (a1 (int 0))))); SSemi;
        SExpr (print (ECall (EVar (VGlobal 2)) (a1 (int 1)))); SSemi;
        SExpr (ECompose (ECompose (int 2) (op NF_OperatorDivSwap (a1 (int 10)))) (EConst (HNative NF_Print))); SSemi]).
Example ex_p1_opt : pr_main (optp p1) =
  blk [SLet (int 20); SLet (ELit LitList (a2 (EVar (VGlobal 0)) (int 7))); SFn 0 [];
       SExpr (print (EPrim PIndex (a2 (EVar (VGlobal 1)) (int 0)))); SSemi;
       SExpr (print (ECall (EVar (VGlobal 2)) (a1 (int 1)))); SSemi; SExpr (print (int 0)); SSemi].
Proof. vm_compute. reflexivity. Qed.
Example ex_p1 : all_program (fun e => real dec e = true /\ unswapped e = true /\ gentle dec e = true) p1.
Proof. unfold all_program, all_fun. repeat first [split | constructor]; vm_compute; reflexivity. Qed.
Example ex_p1_runs : exists w, ends p1 = Some (true, w) /\ ends (optp p1) = Some (true, w) /\ length (printed w) = 3.
Proof. vm_compute. eexists. repeat split; reflexivity. Qed.

Example ex_p1_compiles : ok_program (optp p1) = true /\ small (optp p1).
Proof. split; vm_compute; reflexivity. Qed.

(** ** Counterexamples: programs without swapped operators, which the optimiser changes *)
(** `print((divided-by 2i)(4i))` prints 2; optimised, it prints 0.  The operands of a folded operator are
    exchanged once too often when they are complex numbers. *)
Definition p2 : program := Program [] (blk [SExpr (print (ECall (op NF_OperatorDivSwap (a1 (imaginary 2))) (a1 (imaginary 4)))); SSemi]).
Theorem C43_complex_refuted : exists P dec enc to_str fmt p w w1 w2, lawful P dec enc to_str fmt /\ all_program (fun e => unswapped e = true) p /\
  completes P p w w1 /\ completes P (optimize_program dec enc to_str fmt p) w w2 /\ w1 <> w2.
Proof.
  exists toy, dec, enc, to_str, fmt, p2, w0, (Tw [enc (VInt 2)] []), (Tw [enc (VInt 0)] []).
  split; [exact toy_lawful|]. split; [repeat (split || constructor)|]. split; [|split].
  - apply ends_ok. vm_compute. reflexivity.
  - apply ends_ok. vm_compute. reflexivity.
  - vm_compute. discriminate.
Qed.
Print Assumptions C43_complex_refuted.

(** `let x = 1; print(if x then 2 else 1 + nil)` prints 2; with optimisation it does not compile,
    because the branch that is not taken is folded to an error. *)
Definition p3 : program := Program [] (blk [SLet (int 1); SExpr (print (EIf (EVar (VGlobal 0)) (int 2) (EPrim (PBinary BAdd) (a2 (int 1) (EConst HNil))))); SSemi]).
Theorem C43_dead_error_refuted : exists P dec enc to_str fmt p w w1, lawful P dec enc to_str fmt /\ all_program (fun e => unswapped e = true) p /\
  completes P p w w1 /\ accepted p /\ ~ accepted (optimize_program dec enc to_str fmt p).
Proof.
  exists toy, dec, enc, to_str, fmt, p3, w0, (Tw [enc (VInt 2)] []).
  split; [exact toy_lawful|]. split; [repeat (split || constructor)|]. split; [|split].
  - apply ends_ok. vm_compute. reflexivity.
  - repeat (split || constructor).
  - intros [_ H]. vm_compute in H. decompose [and] H. discriminate.
Qed.
Print Assumptions C43_dead_error_refuted.

(** `print(1) . exit` prints 1 and exits; optimised, it only exits.  `exit` counts as free of side effects. *)
Definition p4 : program := Program [] (blk [SExpr (ECompose (print (int 1)) EQuit); SSemi]).
Theorem C43_exit_refuted : exists P dec enc to_str fmt p w w1 w2, lawful P dec enc to_str fmt /\ all_program (fun e => unswapped e = true) p /\
  source_outcome P p w (XExit, w1) /\ source_outcome P (optimize_program dec enc to_str fmt p) w (XExit, w2) /\ w1 <> w2.
Proof.
  exists toy, dec, enc, to_str, fmt, p4, w0, (Tw [enc (VInt 1)] []), (Tw [] []).
  split; [exact toy_lawful|]. split; [repeat (split || constructor)|]. split; [|split].
  - apply ends_exit. vm_compute. reflexivity.
  - apply ends_exit. vm_compute. reflexivity.
  - discriminate.
Qed.
Print Assumptions C43_exit_refuted.
