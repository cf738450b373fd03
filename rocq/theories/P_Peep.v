(** C40: the bytecode optimiser preserves the outcome of programs. *)
From Verif Require Import Base Native Err Vm VmProofs Graph GraphSpec Peep PeepSpec PeepProofs2.
Local Open Scope nat_scope.

(** For all primitive operations, all well-formed programs and initial worlds: if the program
    linked without optimisation exits or raises an error (and never stores to its own operand
    slot, see [self_store]), then linked with optimisation it ends with the same error value
    and the same world. *)
Theorem C40_optimised_program_same_outcome (P : prims) main fs w r : wf_program main fs ->
  (Z.of_nat (length (fst (link false main fs))) < 2147483648)%Z ->
  runs_to P (strict_step P) (link false main fs) w r ->
  runs_to P (step P) (link true main fs) w r /\ runs_to P (step P) (link false main fs) w r.
Proof. intros W L H. split; apply strict_runs; [apply optimize_sim; auto | exact H]. Qed.
Print Assumptions C40_optimised_program_same_outcome.

(** ... and no other one: the two programs can never be seen to differ. *)
Theorem C40_optimised_program_no_other_outcome (P : prims) main fs w r r1 r2 : wf_program main fs ->
  (Z.of_nat (length (fst (link false main fs))) < 2147483648)%Z ->
  runs_to P (strict_step P) (link false main fs) w r ->
  runs_to P (step P) (link true main fs) w r1 -> runs_to P (step P) (link false main fs) w r2 -> r1 = r2.
Proof.
  intros W L H [n1 H1] [n2 H2]. destruct (C40_optimised_program_same_outcome P main fs w r W L H) as [[m1 M1] [m2 M2]].
  pose proof (run_det _ _ _ _ _ _ _ _ _ _ H1 M1) as E1. pose proof (run_det _ _ _ _ _ _ _ _ _ _ H2 M2) as E2.
  destruct r, r1, r2. simpl in *. congruence.
Qed.
Print Assumptions C40_optimised_program_no_other_outcome.

(** The optimised code is never longer. *)
Theorem C40_not_longer main fs : length (fst (link true main fs)) <= length (fst (link false main fs)).
Proof.
  assert (N : forall s, length (p3 s) <= length s).
  { intro s. pose proof (ro_len _ _ (ro1 s)). pose proof (ro_len _ _ (ro2 s)). pose proof (ro_len _ _ (ro3 s)). lia. }
  exact (link_funs_len p3 N fs _ _ (emit_len p3 N main [] [] (le_n _))).
Qed.
Print Assumptions C40_not_longer.

(** A concrete program: `let x = true; fn f(a, b = true) -> (a; b; ...); x = f(x); ...`;
    the world is the list of printed values, calling native 0 prints. *)
Definition toy : prims := {|
  W := list hval; L := unit; E := unit;
  p_bool _ v := match v with HBool b => b | HNil => false | _ => true end;
  p_compare _ _ _ _ := true; p_compare_msg w _ _ _ := (w, HNil);
  p_op _ args w := TRet w HNil;
  p_call f args w := TRet (w ++ args) HNil;
  p_vector args w := (w, HNil); p_unroll _ w := (w, inr []); p_next _ w := (w, None);
  l_new _ _ := tt; l_acc l _ _ := l; l_unroll l _ w := (w, inr l); l_end l w := (w, HNil) |}.
Definition ex_main : graph :=
  [Block [OConst (HBool true); OInitGlobal; OConst (HFun 0); OConst (HBool false); OCall 1 false;
          OStoreGlobal 0 false; OPop; OPushGlobal 0; OConst HNil; OConst HNil; OPop; OPop] (EBranch BrFalsePop 1 2);
   Block [OConst (HObj 7); OConst (HObj 9); OCall 1 false; OPop] (ENext 2);
   Block [OConst (HBool false); OStoreGlobal 0 false; OPop; OExit] EExit].
Definition ex_fun : pfun :=
  PFun [Block [OConst (HBool true)] (ENext 1);
        Block [OPushLocal 1; OStoreLocal 0 false; OPop; OPushLocal 0; OConst HNil; OPop; OReturn] EExit] [1] 2 false.
Example ex_wf : wf_program ex_main [ex_fun].
Proof.
  assert (W : forall G, (forall b, In b G -> (forall o, In o (bcode b) -> is_jump o = false)) -> 
     (forall b, In b G -> match bend b with EExit => exists c o, bcode b = c ++ [o] /\ is_final o = true | ENext t => t < length G
       | EBranch ty d t => d < length G /\ t < length G /\ ty <> BrJump end) -> wf_graph G) by (intros G A B b Hb; split; [exact (A b Hb) | exact (B b Hb)]).
  split; [|split].
  - apply W; intros b Hb; repeat (destruct Hb as [<-|Hb]; [simpl; try lia|]); try destruct Hb.
    1-3: intros o Ho; repeat (destruct Ho as [<-|Ho]; [reflexivity|]); destruct Ho.
    + repeat split; try lia; discriminate.
    + exists [OConst (HBool false); OStoreGlobal 0 false; OPop], OExit. auto.
  - discriminate.
  - intros f [<-|[]]. split; [|split; [discriminate|simpl; intros b [<-|[]]; lia]].
    apply W; intros b Hb; repeat (destruct Hb as [<-|Hb]; [simpl; try lia|]); try destruct Hb.
    1-2: intros o Ho; repeat (destruct Ho as [<-|Ho]; [reflexivity|]); destruct Ho.
    exists [OPushLocal 1; OStoreLocal 0 false; OPop; OPushLocal 0; OConst HNil; OPop], OReturn. auto.
Qed.
Example ex_runs : runs_to toy (strict_step toy) (link false ex_main [ex_fun]) [] (XExit, [HObj 9]).
Proof. exists 60. reflexivity. Qed.
Example ex_optimised : fst (link true ex_main [ex_fun]) =
  [OConst (HBool true); OInitGlobal; OConst (HFun 0); OConst (HBool false); OCall 1 false; OStoreGlobal 0 false;
   OConst HNil; OConst HNil; OPopN 2; OJumpIfFalsePop 4; OConst (HObj 7); OConst (HObj 9); OCall 1 false; OPop;
   OConst (HBool false); OStoreGlobal 0 true; OExit;
   OConst (HBool true); OPushLocal 1; OStoreLocal 0 false; OConst HNil; OPop; OReturn].
Proof. reflexivity. Qed.
Example ex_same : runs_to toy (step toy) (link true ex_main [ex_fun]) [] (XExit, [HObj 9]).
Proof. apply C40_optimised_program_same_outcome; [exact ex_wf | reflexivity | exact ex_runs]. Qed.
