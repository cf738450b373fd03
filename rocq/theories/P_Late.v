(** C78: names that are declared later. *)
From Coq Require Import Bool List PeanoNat.
From Verif Require Import Base Native Vm LateBind LateSpec LateProofs.
Import ListNotations.
Local Open Scope nat_scope.

(** The code of a block, after all the declarations that follow, is the code it would have if the
    names had been known, each load and store at its place, and it is an error exactly when one
    of them is (never declared, or a store to a function) - when no two late references are
    adjacent, none is at the end of the block, and no method with `self` is declared later. *)
Theorem C78_late_partial (items : list item) (ds : list (nat * late_bound)) :
  no_self ds = true -> apart items = true -> compile_late items ds = in_place ds items.
Proof. exact (late_in_place items ds). Qed.
Print Assumptions C78_late_partial.

(** The same when the block ends with its only late reference. *)
Theorem C78_late_last_partial (items : list item) (ds : list (nat * late_bound)) :
  no_self ds = true -> only_last items = true -> compile_late items ds = in_place ds items.
Proof. exact (late_last items ds). Qed.
Print Assumptions C78_late_last_partial.

(** the condition in `if 1 < x { .. }`, and an empty block; x is declared twice, and the first one counts *)
Example late_if :
  only_last [IOp (OConst (HConst 1)); ILoad 7 NoThis (Some 9)] = true /\
  compile_late [IOp (OConst (HConst 1)); ILoad 7 NoThis (Some 9)] [(5, BLocal 2); (7, BLocal 3); (7, BMethod 0 false)] = Some [OConst (HConst 1); OPushGlobal 3] /\
  only_last [ILoad 7 NoThis (Some 9)] = true /\ compile_late [ILoad 7 NoThis (Some 9)] [(5, BLocal 2)] = Some [OPushGlobal 9].
Proof. vm_compute. repeat split; reflexivity. Qed.

(** fn f() { print(1 + x + 2); g = h; ... } with x, h, g declared later, in another order; g is a fallback global *)
Example late_three :
  let items := [IOp (OConst (HConst 0)); IOp (OConst (HConst 1)); ILoad 7 NoThis None; IOp (OPrim (PBinary BAdd)); IOp (OConst (HConst 2));
                ILoad 9 NoThis (Some 4); IOp (OPrim (PBinary BAdd)); IStore 8 NoThis None; IOp OReturn] in
  let ds := [(8, BLocal 1); (5, BLocal 2); (7, BMethod 3 false)] in
  no_self ds = true /\ apart items = true /\
  compile_late items ds =
    Some [OConst (HConst 0); OConst (HConst 1); OConst (HFun 3); OPrim (PBinary BAdd); OConst (HConst 2); OPushGlobal 4; OPrim (PBinary BAdd); OStoreGlobal 1 false; OReturn].
Proof. vm_compute. repeat split; reflexivity. Qed.
(** one of them never declared: an error *)
Example late_undeclared :
  let items := [ILoad 7 NoThis None; IOp OReturn] in
  apart items = true /\ compile_late items [(8, BLocal 0)] = None.
Proof. vm_compute. split; reflexivity. Qed.

(** `fn f() { x = y }; let x = 1; let y = 2`: f stores to x before it loads y *)
Theorem C78_late_refuted_order :
  exists items ds, no_self ds = true /\ in_place ds items = Some [OPushGlobal 1; OStoreGlobal 0 false; OReturn] /\
    compile_late items ds = Some [OStoreGlobal 0 false; OPushGlobal 1; OReturn].
Proof. exists [ILoad 1 NoThis None; IStore 0 NoThis None; IOp OReturn], [(0, BLocal 0); (1, BLocal 1)]. vm_compute. repeat split; reflexivity. Qed.
Print Assumptions C78_late_refuted_order.

(** a method with `self` declared after the method that uses it: the method is looked up before
    `self` is pushed, so on whatever is on top of the stack *)
Theorem C78_late_refuted_self :
  exists items ds, apart items = true /\ in_place ds items = Some [OPushLocal 0; OGetMethod 3; OReturn] /\
    compile_late items ds = Some [OGetMethod 3; OPushLocal 0; OReturn].
Proof. exists [ILoad 0 (ThisLocal 0) None; IOp OReturn], [(0, BMethod 3 true)]. vm_compute. repeat split; reflexivity. Qed.
Print Assumptions C78_late_refuted_self.

(** a block that ends with a load: `let t = a + 1; if b ...`, with a and b declared later in this
    order: b is loaded first, and 1 is added to b *)
Theorem C78_late_refuted_end :
  exists items ds, no_self ds = true /\
    in_place ds items = Some [OPushGlobal 0; OConst (HConst 1); OPrim (PBinary BAdd); OPushGlobal 1] /\
    compile_late items ds = Some [OPushGlobal 1; OPushGlobal 0; OConst (HConst 1); OPrim (PBinary BAdd)].
Proof.
  exists [ILoad 0 NoThis None; IOp (OConst (HConst 1)); IOp (OPrim (PBinary BAdd)); ILoad 1 NoThis None], [(0, BLocal 0); (1, BLocal 1)].
  vm_compute. repeat split; reflexivity.
Qed.
Print Assumptions C78_late_refuted_end.
