(** Proofs for C43, continued: whole expressions, statements and programs. *)
From Verif Require Import Base Native Err Value Ops Vm Lang LangSpec CompGraph CompUnf LangProofs CompileSpec CompileProofs Opt OptSpec OptProofs OptProofs2 OptProofs3.
Local Open Scope nat_scope.

Section opt.
Context (P : prims) (funs : nat -> option sfun).
Context (dec : nat -> option value) (enc : value -> hval) (to_str : value -> list Z) (fmt : list Z -> value -> result value).
Context (LW : lawful P dec enc to_str fmt).
Local Notation decode := (decode dec).
Local Notation into_const := (into_const dec).
Local Notation careful := (careful dec).
Local Notation real := (real dec).
Local Notation real_args := (real_args dec).
Local Notation real_cmps := (real_cmps dec).
Local Notation visit_unary := (visit_unary dec enc).
Local Notation visit_binary := (visit_binary dec enc to_str fmt).
Local Notation visit_native := (visit_native dec enc to_str fmt careful).
Local Notation visit_call := (visit_call dec enc to_str fmt careful).
Local Notation visit_compose_other := (visit_compose_other dec enc to_str fmt careful).
Local Notation visit_compose := (visit_compose dec enc to_str fmt careful).
Local Notation visit_if := (visit_if dec).
Local Notation walk := (walk dec enc to_str fmt careful).
Local Notation walk_args := (walk_args dec enc to_str fmt careful).
Local Notation walk_cmps := (walk_cmps dec enc to_str fmt careful).
Local Notation plain1 a := (ACons false a ANil).
Local Notation plain2 a b := (ACons false a (ACons false b ANil)).
Local Notation eqv := (eqv P funs).
Local Notation eqvA := (eqvA P funs).
Local Notation eqvC := (eqvC P funs).

(** ** No complex constants appear *)
Definition rv (x : value) : Prop := match x with VNil | VBool _ | VInt _ | VStr _ => True | _ => False end.
Definition nc (x : value) : Prop := match x with VComplex _ _ => False | _ => True end.
Lemma decode_rv h x : decode h = Some x -> not_complex dec h = true -> rv x.
Proof.
  unfold not_complex. intro E. rewrite E. destruct h; try discriminate; cbn in E; try (injection E as <-; intros; exact Logic.I).
  pose proof (lw_dec _ _ _ _ _ LW _ _ E) as D. destruct x; try tauto. discriminate.
Qed.
Lemma unary_nc o x v : rv x -> unary_op o x = Err.Ok v -> nc v.
Proof. destruct o, x; cbn; intros R E; try tauto; try discriminate; injection E as <-; exact Logic.I. Qed.
Lemma binary_nc o x y v : rv x -> rv y -> binary_op to_str fmt o x y = Err.Ok v -> nc v.
Proof.
  intros Rx Ry. destruct o, x, y; try contradiction; cbn;
    repeat match goal with |- context [match ?z with _ => _ end] => destruct z eqn:? end;
    intro E; try discriminate E; try (injection E as <-; exact Logic.I); try (apply (lw_fmt _ _ _ _ _ LW) in E as [t ->]; exact Logic.I).

  all: try (unfold binary_str_repeat in E; match type of E with context [if ?b then _ else _] => destruct b end; [discriminate E|injection E as <-; exact Logic.I]).
  all: match type of E with context [div_floor ?a ?b] => destruct (div_floor a b) | context [mod_floor ?a ?b] => destruct (mod_floor a b) end; cbn in E; try discriminate E; injection E as <-; exact Logic.I.
Qed.
Lemma real_enc v : nc v -> real (EConst (enc v)) = true.
Proof.
  intro N. change (not_complex dec (enc v) = true). unfold not_complex. destruct (decode (enc v)) as [x|] eqn:E; [|reflexivity]. apply (lw_enc _ _ _ _ _ LW) in E. subst. now destruct v.
Qed.
Lemma real_result r : (forall v, r = Err.Ok v -> nc v) -> real (result_expr enc r) = true.
Proof. destruct r; cbn [result_expr]; intro H; [apply real_enc; auto|reflexivity|reflexivity]. Qed.
Lemma real_const e x : real e = true -> into_const e = Some x -> rv x.
Proof. intros R E. apply into_const_inv in E as (h & -> & E). eapply decode_rv; eauto. Qed.
Lemma r_cons sp e r : real_args (ACons sp e r) = real e && real_args r. Proof. reflexivity. Qed.
Lemma r_prim p a : real (EPrim p a) = real_args a. Proof. reflexivity. Qed.
Lemma r_call f a : real (ECall f a) = real f && real_args a. Proof. reflexivity. Qed.
Lemma r_compose f a : real (ECompose f a) = real f && real a. Proof. reflexivity. Qed.
Lemma r_swap o f a : real (EBinSwap o f a) = real f && real a. Proof. reflexivity. Qed.
Local Ltac rr := repeat (rewrite ?r_cons, ?r_prim, ?r_call, ?r_compose, ?r_swap in *); rewrite ?andb_true_iff in *.
Lemma real_unary o a : real a = true -> real (visit_unary o a) = true.
Proof.
  intro R. unfold Opt.visit_unary. destruct (into_const a) as [x|] eqn:E; [|rr; auto].
  apply real_result. intros v. apply unary_nc. exact (real_const _ _ R E).
Qed.
Lemma real_binary o a b sw : real a = true -> real b = true -> real (visit_binary o a b sw) = true.
Proof.
  intros Ra Rb. unfold Opt.visit_binary. destruct (into_const a) as [x|] eqn:E; [destruct (into_const b) as [y|] eqn:F|].
  - apply real_result. intros v. destruct sw; apply binary_nc; first [exact (real_const _ _ Ra E)|exact (real_const _ _ Rb F)].
  - destruct sw; rr; auto.
  - destruct sw; rr; auto.
Qed.
Lemma real_native n a : real_args a = true -> real (visit_native n a) = true.
Proof.
  intro R. assert (D : real (ECall (EConst (HNative n)) a) = true) by (rr; auto).
  unfold Opt.visit_native. destruct a as [|[|] x [|[|] y [|]]]; try exact D; try (repeat match goal with |- real (match ?z with _ => _ end) = true => destruct z end; exact D).
  - destruct x as [h| | | | | | | | | | | | | | | | ]; try exact D. destruct h as [| | | | |n'| | |]; try exact D. destruct n'; try exact D. destruct n; try exact D; apply real_enc; exact Logic.I.
  - change (real (visit_native n (plain2 x y)) = true). rewrite (visit_native2 dec enc to_str fmt). rr. destruct (native_binop n); [apply real_binary; tauto|]. destruct (native_binop (native_swap n)); [apply real_binary; tauto|]. rr. tauto.
Qed.
Lemma real_call f a : real f = true -> real_args a = true -> real (visit_call f a) = true.
Proof.
  intros Rf Ra. assert (D : real (ECall f a) = true) by (rr; auto). unfold Opt.visit_call.
  destruct f as [h| | | | |g inner| | | | | | | | | | | ]; try exact D.
  - destruct h; try exact D. now apply real_native.
  - destruct g as [h| | | | | | | | | | | | | | | | ]; try exact D. destruct h as [| | | | |n| | |]; try exact D.
    destruct (negb (any_spread inner) && is_partial (EConst (HNative n)) (n_args inner)); [|exact D]. apply real_native. rewrite (real_append dec). rr. tauto.
Qed.
Lemma real_compose_other a f : real a = true -> real f = true -> real (visit_compose_other a f) = true.
Proof.
  intros Ra Rf. assert (D : real (ECompose a f) = true) by (rr; auto). unfold Opt.visit_compose_other. destruct (careful f a); [apply real_call; rr; auto|].
  destruct f as [h| | | | |g inner| | | | | | | | | | | ]; try exact D.
  destruct g as [h| | | | | | | | | | | | | | | | ]; try exact D. destruct h as [| | | | |n| | |]; try exact D. destruct inner as [|[|] r [|]]; try exact D.
  destruct (is_operator n); [|exact D]. rr. destruct (native_binop n); [rr; tauto|]. destruct (native_binop (native_swap n)); [rr; tauto|reflexivity].
Qed.
Lemma real_compose a f : real a = true -> real f = true -> real (visit_compose a f) = true.
Proof.
  intros Ra Rf. pose proof (real_compose_other a f Ra Rf) as D. unfold Opt.visit_compose. destruct f as [| | | | | | |p items| | |t items| | | | | | ]; try exact D.
  - destruct p; try exact D; rr; auto.
  - destruct t; try exact D. destruct (any_spread items); [exact D|]. destruct items as [|sp i [|]]; try reflexivity.
    rewrite r_prim, !r_cons, !andb_true_iff. change (real_args (ACons sp i ANil) = true) in Rf. rewrite r_cons, andb_true_iff in Rf. tauto.
Qed.
Lemma real_if c a b : real c = true -> real a = true -> real b = true -> real (visit_if c a b) = true.
Proof.
  intros. unfold Opt.visit_if. destruct (into_const c) as [x|]; [now destruct (to_bool x)|]. change (real c && real a && real b = true). now rewrite H, H0, H1.
Qed.

(** ** Expressions *)
Lemma visit_if_ok c a b : eqv (EIf c a b) (visit_if c a b).
Proof.
  unfold Opt.visit_if. destruct (into_const c) as [x|] eqn:E; [|apply eqv_refl]. apply into_const_inv in E as (h & -> & E).
  intros fr s v s'. rewrite ev_if. setoid_rewrite ev_const. pose proof (lw_bool _ _ _ _ _ LW h x (sworld P s) E) as B. split.
  - intros (y & s1 & [-> ->] & H). rewrite B in H. now destruct (to_bool x).
  - intro H. exists h, s. split; auto. rewrite B. now destruct (to_bool x).
Qed.
Definition okE (e : expr) : Prop := real e = true -> unswapped e = true -> real (walk e) = true /\ eqv e (walk e).
Definition okA (a : args) : Prop := real_args a = true -> unswapped_args a = true -> real_args (walk_args a) = true /\ eqvA a (walk_args a).
Definition okC (c : cmps) : Prop := real_cmps c = true -> unswapped_cmps c = true -> real_cmps (walk_cmps c) = true /\ eqvC c (walk_cmps c).
Lemma walk_prim p a : walk (EPrim p a) = match p, a with
  | PUnary o, ACons false a ANil => visit_unary o (walk a)
  | PBinary o, ACons false l (ACons false r ANil) => visit_binary o (walk l) (walk r) false
  | _, _ => EPrim p (walk_args a) end.
Proof. reflexivity. Qed.
Lemma walk_cons sp e r : walk_args (ACons sp e r) = ACons sp (walk e) (walk_args r). Proof. reflexivity. Qed.
Lemma ok_all : (forall e, okE e) /\ (forall a, okA a) /\ (forall c, okC c).
Proof.
  apply expr_all; unfold okE, okA, okC.
  - intros; split; [assumption|apply eqv_refl].
  - intros; split; [assumption|apply eqv_refl].
  - intros; split; [assumption|apply eqv_refl].
  - intros; split; [assumption|apply eqv_refl].
  - intros; split; [assumption|apply eqv_refl].
  - intros f IHf a IHa R U. change (real f && real_args a = true) in R. change (unswapped f && unswapped_args a = true) in U. apply andb_true_iff in R as [R1 R2]. apply andb_true_iff in U as [U1 U2].
    destruct (IHf R1 U1) as [Q1 E1], (IHa R2 U2) as [Q2 E2]. change (walk (ECall f a)) with (visit_call (walk f) (walk_args a)).
    split; [now apply real_call|]. eapply eqv_trans; [apply cg_call; eassumption|]. now apply visit_call_ok.
  - intros a IHa f IHf R U. change (real a && real f = true) in R. change (unswapped a && unswapped f = true) in U. apply andb_true_iff in R as [R2 R1]. apply andb_true_iff in U as [U2 U1].
    destruct (IHf R1 U1) as [Q1 E1], (IHa R2 U2) as [Q2 E2]. change (walk (ECompose a f)) with (visit_compose (walk a) (walk f)).
    split; [now apply real_compose|]. eapply eqv_trans; [apply cg_compose; eassumption|]. now apply visit_compose_ok.
  - intros p a IHa R U. destruct (IHa R U) as [Q E]. rewrite walk_prim.
    assert (D : real (EPrim p (walk_args a)) = true /\ eqv (EPrim p a) (EPrim p (walk_args a))) by (split; [exact Q|now apply cg_prim]).
    destruct p; try exact D.
    + destruct a as [|[|] x [|]]; try exact D. rewrite walk_cons in *. destruct D as [D1 D2]. rr. split; [apply real_unary; tauto|]. eapply eqv_trans; [exact D2|]. apply (visit_unary_ok P funs dec enc to_str fmt LW).
    + destruct a as [|[|] x [|[|] y [|]]]; try exact D. rewrite !walk_cons in *. destruct D as [D1 D2]. rr. split; [apply real_binary; tauto|]. eapply eqv_trans; [exact D2|]. apply (visit_binary_ok P funs dec enc to_str fmt LW).
  - intros; discriminate.
  - intros l IHl o e IHe r IHr R U. change (real l && real e && real_cmps r = true) in R. change (unswapped l && unswapped e && unswapped_cmps r = true) in U. rewrite !andb_true_iff in R, U.
    destruct R as [[R1 R2] R3], U as [[U1 U2] U3]. destruct (IHl R1 U1) as [Q1 E1], (IHe R2 U2) as [Q2 E2], (IHr R3 U3) as [Q3 E3].
    split; [change (real (walk l) && real (walk e) && real_cmps (walk_cmps r) = true); now rewrite Q1, Q2, Q3|]. now apply cg_compare.
  - intros t a IHa R U. destruct (IHa R U) as [Q E]. split; [exact Q|now apply cg_lit].
  - intros a IHa b IHb R U. change (real a && real b = true) in R. change (unswapped a && unswapped b = true) in U. rewrite !andb_true_iff in R, U. destruct R as [R1 R2], U as [U1 U2].
    destruct (IHa R1 U1) as [Q1 E1], (IHb R2 U2) as [Q2 E2]. split; [change (real (walk a) && real (walk b) = true); now rewrite Q1, Q2|]. now apply cg_and.
  - intros a IHa b IHb R U. change (real a && real b = true) in R. change (unswapped a && unswapped b = true) in U. rewrite !andb_true_iff in R, U. destruct R as [R1 R2], U as [U1 U2].
    destruct (IHa R1 U1) as [Q1 E1], (IHb R2 U2) as [Q2 E2]. split; [change (real (walk a) && real (walk b) = true); now rewrite Q1, Q2|]. now apply cg_or.
  - intros c IHc a IHa b IHb R U. change (real c && real a && real b = true) in R. change (unswapped c && unswapped a && unswapped b = true) in U. rewrite !andb_true_iff in R, U. destruct R as [[R0 R1] R2], U as [[U0 U1] U2].
    destruct (IHc R0 U0) as [Q0 E0], (IHa R1 U1) as [Q1 E1], (IHb R2 U2) as [Q2 E2]. change (walk (EIf c a b)) with (visit_if (walk c) (walk a) (walk b)).
    split; [now apply real_if|]. eapply eqv_trans; [apply cg_if; eassumption|]. apply visit_if_ok.
  - intros a IHa i b IHb o R U. change (real a && real b = true) in R. change (unswapped a && unswapped b = true) in U. rewrite !andb_true_iff in R, U. destruct R as [R1 R2], U as [U1 U2].
    destruct (IHa R1 U1) as [Q1 E1], (IHb R2 U2) as [Q2 E2]. split; [change (real (walk a) && real (walk b) = true); now rewrite Q1, Q2|]. now apply cg_swapfield.
  - intros a IHa i IHi o b IHb R U. change (real a && real i && real b = true) in R. change (unswapped a && unswapped i && unswapped b = true) in U. rewrite !andb_true_iff in R, U. destruct R as [[R0 R1] R2], U as [[U0 U1] U2].
    destruct (IHa R0 U0) as [Q0 E0], (IHi R1 U1) as [Q1 E1], (IHb R2 U2) as [Q2 E2].
    split; [change (real (walk a) && real (walk i) && real (walk b) = true); now rewrite Q0, Q1, Q2|]. now apply cg_arrayop.
  - intros x e IHe R U. destruct (IHe R U) as [Q E]. split; [exact Q|now apply cg_assign].
  - intros _ _. split; [reflexivity|apply cg_nil].
  - intros sp e IHe r IHr R U. change (real e && real_args r = true) in R. change (unswapped e && unswapped_args r = true) in U. rewrite !andb_true_iff in R, U. destruct R as [R1 R2], U as [U1 U2].
    destruct (IHe R1 U1) as [Q1 E1], (IHr R2 U2) as [Q2 E2]. rewrite walk_cons. split; [now rewrite r_cons, Q1, Q2|now apply cg_cons].
  - intros o e IHe R U. destruct (IHe R U) as [Q E]. split; [exact Q|now apply cg_last].
  - intros o e IHe r IHr R U. change (real e && real_cmps r = true) in R. change (unswapped e && unswapped_cmps r = true) in U. rewrite !andb_true_iff in R, U. destruct R as [R1 R2], U as [U1 U2].
    destruct (IHe R1 U1) as [Q1 E1], (IHr R2 U2) as [Q2 E2]. split; [change (real (walk e) && real_cmps (walk_cmps r) = true); now rewrite Q1, Q2|now apply cg_ccons].
Qed.
End opt.
