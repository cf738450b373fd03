(** C33 (operator sections), C34 (dispatch of builtins). *)
From Verif Require Import Base Ptr Native Value ValueSpec Err Iter Seq Ops OpsSpec ValueProofs OpsProofs OpsProofs2 OpsProofs3 P_Value P_Ops Disp DispSpec DispProofs.
Local Open Scope nat_scope.

(** C34.  A direct call of any builtin with any arguments does what its arity promises. *)
Theorem C34_direct : forall V (it : V -> bool) (f : native) (args : list V),
  match arity_of (native_arg f) (length args) with
  | NeedsMore => exists c, direct it (CNative f) args = Return c /\ waiting f args c
  | Accepts => direct it (CNative f) args = Run f args
  | AcceptsElements => exists a, args = [a] /\
      (direct it (CNative f) args = RunIter f a \/
       it a = true /\ (f = NF_Min /\ direct it (CNative f) args = ConstMinInt \/ f = NF_Max /\ direct it (CNative f) args = ConstMaxInt))
  | TooManyOrFew => direct it (CNative f) args = BadArgs f (length args)
  | Never => direct it (CNative f) args = NotEvaluable (CNative f)
  end.
Proof.
  intros V it f args. unfold direct, invoke_stack, waiting.
  destruct args as [|a [|b [|c [|d args]]]]; destruct f; cbn;
    try reflexivity; try (eexists; split; [reflexivity|]);
    try (left; split; reflexivity);
    try (right; split; [discriminate|]; eexists; repeat split; reflexivity);
    try (left; reflexivity); try (destruct (it a); auto).
Qed.
Print Assumptions C34_direct.

(** no argument list makes a direct call (or a call of a partial builtin) hit a missing implementation *)
Theorem C34_no_crash : forall V (it : V -> bool) (c : callee V) (args : list V), callable_value c -> direct it c args <> Crash.
Proof.
  intros V it c args Hc. destruct c as [f|f p|v|v|v|v|v|v|v|v|v]; cbn [direct]; try discriminate; try (destruct (length args =? 1); discriminate).
  - unfold invoke_stack. destruct args as [|a [|b [|c [|d args]]]]; destruct f; cbn; try discriminate; destruct (it a); discriminate.
  - unfold invoke_partial. destruct p; cbn in Hc; destruct args as [|x [|y [|z args]]]; destruct f; cbn in *; discriminate.
Qed.
Print Assumptions C34_no_crash.

(** a partial builtin answers exactly as if its held arguments had been given in the same call *)
Theorem C34_partially_applied : forall V (it : V -> bool) (f : native) (p : partial_arg V) (args : list V), holds_for f p ->
  direct it (CPartialNative f p) args = direct it (CNative f) (held p ++ args).
Proof.
  intros V it f p args H. unfold direct, invoke_partial, invoke_stack. destruct p; cbn [held holds_for app] in *; rewrite H;
    destruct args as [|x [|y [|z args]]]; reflexivity.
Qed.
Print Assumptions C34_partially_applied.

(** however the arguments are split over calls, the last call does what one call with all of them does *)
Theorem C34_currying : forall V (it : V -> bool) (c c' : callee V) (xs ys : list V) f held0, waiting f held0 c ->
  direct it c xs = Return c' -> direct it c' ys = direct it (CNative f) (held0 ++ xs ++ ys).
Proof.
  intros V it c c' xs ys f h W R.
  assert (A : direct it c xs = direct it (CNative f) (h ++ xs)).
  { destruct W as [[-> ->]|[_ (p & -> & <- & Hp)]]; [reflexivity | apply C34_partially_applied; exact Hp]. }
  rewrite A in R. pose proof (C34_direct V it f (h ++ xs)) as D. rewrite app_assoc. set (l := h ++ xs) in *.
  destruct (arity_of _ _) eqn:E; try (rewrite R in D; discriminate).
  - destruct D as (c2 & D & W2). rewrite R in D. injection D as <-.
    destruct W2 as [[-> ->]|[_ (p & -> & <- & Hp)]]; [reflexivity | apply C34_partially_applied; exact Hp].
  - destruct D as (a & -> & [D|[_ [[_ D]|[_ D]]]]); rewrite R in D; discriminate.
Qed.
Print Assumptions C34_currying.

(** the fast paths used by `map`, `filter`, `sort_by`, `reduce`, ... *)
Theorem C34_fast0_partial : forall V (it : V -> bool) (c : callee V), callable_value c ->
  (forall v, c <> CGetField v) -> fast0 it c = direct it c [].
Proof.
  intros V it c Hc Hg. destruct c as [f|f p|v|v|v|v|v|v|v|v|v]; try reflexivity; try (exfalso; eapply Hg; reflexivity).
  destruct p; cbn in Hc; cbn; reflexivity.
Qed.
Print Assumptions C34_fast0_partial.
Theorem C34_fast1_partial : forall V (it : V -> bool) (c : callee V) a, callable_value c ->
  (it a = true -> c <> CNative NF_Min /\ c <> CNative NF_Max) -> fast1 it c a = direct it c [a].
Proof.
  intros V it c a Hc Hm. destruct c as [f|f p|v|v|v|v|v|v|v|v|v]; try reflexivity.
  destruct f; try reflexivity; cbn; destruct (it a) eqn:E; try reflexivity; destruct (Hm eq_refl); congruence.
Qed.
Print Assumptions C34_fast1_partial.
Theorem C34_fast2_partial : forall V (it : V -> bool) (c : callee V) a b, callable_value c ->
  c <> CNative NF_Print -> c <> CNative NF_Vector -> (forall f x y, c <> CPartialNative f (Arg3Par2 x y)) ->
  fast2 it c a b = direct it c [a; b].
Proof.
  intros V it c a b Hc H1 H2 H3. destruct c as [f|f p|v|v|v|v|v|v|v|v|v]; try reflexivity.
  - destruct f; try reflexivity; congruence.
  - destruct p; try reflexivity. exfalso. eapply H3. reflexivity.
Qed.
Print Assumptions C34_fast2_partial.

(** What is missing from C34: in each excepted case the fast path really differs.
    `reduce(print)` and `reduce(vector)` (any two-argument use of `print` or `vector`) crash the interpreter *)
Theorem C34_fast2_crash_refuted : forall V (it : V -> bool) a b,
  fast2 it (CNative NF_Print) a b = Crash /\ direct it (CNative NF_Print) [a; b] = Run NF_Print [a; b] /\
  fast2 it (CNative NF_Vector) a b = Crash /\ direct it (CNative NF_Vector) [a; b] = Run NF_Vector [a; b].
Proof. repeat split. Qed.
Print Assumptions C34_fast2_crash_refuted.
(** `[int] . map(min)` tries to iterate `int`; `min(int)` is the smallest integer *)
Theorem C34_fast1_min_refuted : forall V (it : V -> bool) a, it a = true ->
  fast1 it (CNative NF_Min) a = RunIter NF_Min a /\ direct it (CNative NF_Min) [a] = ConstMinInt /\
  fast1 it (CNative NF_Max) a = RunIter NF_Max a /\ direct it (CNative NF_Max) [a] = ConstMaxInt.
Proof. intros V it a H. cbn. rewrite H. repeat split. Qed.
Print Assumptions C34_fast1_min_refuted.
(** error messages with different argument counts *)
Theorem C34_fast_error_refuted : forall V (it : V -> bool) f x y a b v,
  (fast2 it (CPartialNative f (Arg3Par2 x y)) a b = BadArgs f 3 /\ direct it (CPartialNative f (Arg3Par2 x y)) [a; b] = BadArgs f 4) /\
  (fast0 it (CGetField v) = NotEvaluable (CGetField v) /\ direct it (CGetField v) [] = BadArgsGetField v 0).
Proof. repeat split. Qed.
Print Assumptions C34_fast_error_refuted.

(** the hypotheses are met: `replace` with two arguments held *)
Example C34_example : let it := (fun _ : nat => false) in
  callable_value (CPartialNative NF_Replace (Arg3Par2 1 2)) /\
  direct it (CNative NF_Replace) [1; 2] = Return (CPartialNative NF_Replace (Arg3Par2 1 2)) /\
  fast1 it (CPartialNative NF_Replace (Arg3Par2 1 2)) 3 = Run NF_Replace [1; 2; 3] /\
  direct it (CNative NF_Replace) [1; 2; 3; 4] = BadArgs NF_Replace 4.
Proof. repeat split. Qed.

(** C33.  Swapping is an involution, and a swapped operator computes the flipped operation;
    the operators without a swapped form are * & | ^ == != (and `-`, which has no section). *)
Theorem C33_swap : forall (f : native), native_swap (native_swap f) = f /\
  (forall ts fm a b r, operator2 ts fm f a b = Some r -> native_swap f <> f -> operator2 ts fm (native_swap f) b a = Some r).
Proof.
  intro f. split; [destruct f; reflexivity|]. intros ts fm a b r H N. destruct f; cbn in *; try congruence.
Qed.
Print Assumptions C33_swap.

Theorem C33_unswapped : forall f o, operator_native o = Some f -> (native_swap f = f <-> In o [BMul; BAnd; BOr; BXor; BEqual; BNotEqual]).
Proof.
  intros f o H. destruct o; cbn in H; try discriminate; injection H as <-; cbn; split; intro H; try discriminate; try tauto;
    repeat (destruct H as [H|H]; [discriminate|]); contradiction.
Qed.
Print Assumptions C33_unswapped.

(** every operator symbol names the builtin that performs it, `op(x, y)` computes `x op y`, and the
    direct opcode of a builtin call is that of the symbol *)
Theorem C33_apply : forall o f, operator_native o = Some f -> native_binop f = Some o /\
  forall ts fm it x y, direct it (CNative f) [x; y] = Run f [x; y] /\ operator2 ts fm f x y = Some (binary_op ts fm o x y).
Proof. intros o f H. destruct o; cbn in H; try discriminate; injection H as <-; (split; [reflexivity|]; intros; split; reflexivity). Qed.
Print Assumptions C33_apply.

(** `(x op)(y)`: a partial builtin whose call on [y] computes `x op y` *)
Theorem C33_section_left : forall o f it x, operator_native o = Some f ->
  exists c, section_left f x it = Return c /\
  forall y, direct it c [y] = Run f [x; y] /\ forall ts fm, operator2 ts fm f x y = Some (binary_op ts fm o x y).
Proof. intros o f it x H. destruct o; cbn in H; try discriminate; injection H as <-; (eexists; split; [reflexivity|]; intro; split; reflexivity). Qed.
Print Assumptions C33_section_left.

(** `(op x)(y)`: a partial builtin whose call on [y] computes `y op x`, for the operators with a swapped form ... *)
Theorem C33_section_right : forall o f it x, operator_native o = Some f -> ~ In o [BMul; BAnd; BOr; BXor; BEqual; BNotEqual] ->
  exists c, section_right f x it = Return c /\
  forall y, exists g, direct it c [y] = Run g [x; y] /\ forall ts fm, operator2 ts fm g x y = Some (binary_op ts fm o y x).
Proof.
  intros o f it x H N. destruct o; cbn in H; try discriminate; injection H as <-; try (exfalso; apply N; cbn; tauto);
    (eexists; split; [reflexivity|intro y; eexists; split; [reflexivity|intros; reflexivity]]).
Qed.
Print Assumptions C33_section_right.

(** ... and the others give the same answer with the operands either way round: an equal value, or an error *)
Theorem C33_section_right_symmetric : forall o f it x, operator_native o = Some f -> In o [BMul; BAnd; BOr; BXor; BEqual; BNotEqual] ->
  exists c, section_right f x it = Return c /\
  forall y, direct it c [y] = Run f [x; y] /\ forall ts fm, wf x -> wf y ->
    exists r, operator2 ts fm f x y = Some r /\ same_answer r (binary_op ts fm o y x).
Proof.
  intros o f it x H I. assert (S := symmetric_ops). 
  cbn in I. destruct I as [<-|[<-|[<-|[<-|[<-|[<-|[]]]]]]]; injection H as <-; (eexists; split; [reflexivity|]; intro y; split; [reflexivity|]);
    intros ts fm Hx Hy; eexists; (split; [reflexivity|]); apply S; auto; cbn; tauto.
Qed.
Print Assumptions C33_section_right_symmetric.

(** What is missing: for sets "equal" is not "identical", since `(& s)(t)` computes `s & t`, whose elements are
    in the order of [s], not of [t]. *)
Theorem C33_set_order_refuted : ~ (forall ts fm x y, wf x -> wf y -> operator2 ts fm NF_OperatorBitwiseAnd x y = Some (binary_op ts fm BAnd y x)).
Proof.
  intro H. specialize (H (fun _ => []) (fun _ _ => Panic) (VSet [VInt 1; VInt 2]) (VSet [VInt 2; VInt 1])).
  assert (W : forall a b, (a = 1 /\ b = 2 \/ a = 2 /\ b = 1)%Z -> wf (VSet [VInt a; VInt b])).
  { intros a b E. apply wf_set.
    - intros x [<-|[<-|[]]]; apply wf_int; destruct E as [[-> ->]|[-> ->]]; unfold is_int63, MIN_INT, MAX_INT; lia.
    - split; [|split; [intros y []|exact I]]. intros y [<-|[]]. destruct E as [[-> ->]|[-> ->]]; reflexivity. }
  assert (X := H (W _ _ (or_introl (conj eq_refl eq_refl))) (W _ _ (or_intror (conj eq_refl eq_refl)))). vm_compute in X. discriminate.
Qed.
Print Assumptions C33_set_order_refuted.

Example C33_example : let it := (fun _ : value => false) in let ts := (fun _ : value => []) in let fm := (fun _ _ => Panic) in
  exists c, section_right NF_OperatorDiv (VInt 3) it = Return c /\ direct it c [VInt 7] = Run NF_OperatorDivSwap [VInt 3; VInt 7] /\
  operator2 ts fm NF_OperatorDivSwap (VInt 3) (VInt 7) = Some (Ok (VInt 2)) /\ operator2 ts fm NF_OperatorDiv (VInt 3) (VInt 7) = Some (Ok (VInt 0)).
Proof. eexists. repeat split. Qed.
