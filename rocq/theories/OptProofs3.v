(** Proofs for C43, continued: each step of the optimiser keeps the meaning. *)
From Verif Require Import Base Native Err Value Ops Vm Lang LangSpec CompGraph CompUnf LangProofs CompileSpec CompileProofs Opt OptSpec OptProofs OptProofs2.
Local Open Scope nat_scope.

Section opt.
Context (P : prims) (funs : nat -> option sfun).
Context (dec : nat -> option value) (enc : value -> hval) (to_str : value -> list Z) (fmt : list Z -> value -> result value).
Context (LW : lawful P dec enc to_str fmt).
Local Notation st := (st P).
Local Notation ev := (gives P funs).
Local Notation argsE := (argsE P funs).
Local Notation plainE := (plainE P funs).
Local Notation chainE := (chainE P funs).
Local Notation litE := (litE P funs).
Local Notation callE := (callE P funs).
Local Notation treeE := (treeE P funs).
Local Notation decode := (decode dec).
Local Notation into_const := (into_const dec).
Local Notation careful := (careful dec).
Local Notation with_world := (with_world P).
Local Notation real := (real dec).
Local Notation real_args := (real_args dec).
Local Notation real_cmps := (real_cmps dec).
Local Notation visit_unary := (visit_unary dec enc).
Local Notation visit_binary := (visit_binary dec enc to_str fmt).
Local Notation visit_native := (visit_native dec enc to_str fmt careful).
Local Notation visit_call := (visit_call dec enc to_str fmt careful).
Local Notation visit_compose_other := (visit_compose_other dec enc to_str fmt careful).
Local Notation visit_compose := (visit_compose dec enc to_str fmt careful).
Local Notation visit_if := (visit_if dec).
Local Notation walk := (walk dec enc to_str fmt careful).
Local Notation walk_args := (walk_args dec enc to_str fmt careful).
Local Notation walk_cmps := (walk_cmps dec enc to_str fmt careful).
Local Notation plain1 a := (ACons false a ANil).
Local Notation plain2 a b := (ACons false a (ACons false b ANil)).

Definition eqv (e e' : expr) : Prop := forall fr s v s', ev fr e s v s' <-> ev fr e' s v s'.
Record eqvA (a a' : args) : Prop := {
  ea_n : n_args a' = n_args a;
  ea_args : forall fr s vs s', argsE fr a s vs s' <-> argsE fr a' s vs s';
  ea_plain : forall fr s vs s', plainE fr a s vs s' <-> plainE fr a' s vs s';
  ea_lit : forall fr l p s x s', litE fr l p a s x s' <-> litE fr l p a' s x s' }.
Definition eqvC (c c' : cmps) : Prop := forall fr l s v s', chainE fr l c s v s' <-> chainE fr l c' s v s'.
Lemma eqv_refl e : eqv e e. Proof. intros ? ? ? ?; reflexivity. Qed.
Lemma eqv_trans a b c : eqv a b -> eqv b c -> eqv a c.
Proof. intros H J ? ? ? ?. now rewrite (H _ _ _ _), (J _ _ _ _). Qed.

(** ** Congruence *)
Local Ltac go := repeat match goal with H : _ /\ _ |- _ => destruct H | H : exists _, _ |- _ => destruct H end.
Lemma cg_call f f' a a' : eqv f f' -> eqvA a a' -> eqv (ECall f a) (ECall f' a').
Proof. intros H J fr s v s'. rewrite !ev_call. unfold eqv in H. setoid_rewrite H. setoid_rewrite (ea_args _ _ J). reflexivity. Qed.
Lemma cg_compose f f' a a' : eqv f f' -> eqv a a' -> eqv (ECompose a f) (ECompose a' f').
Proof. intros H J fr s v s'. rewrite !ev_compose. unfold eqv in *. setoid_rewrite H. setoid_rewrite J. reflexivity. Qed.
Lemma cg_prim p a a' : eqvA a a' -> eqv (EPrim p a) (EPrim p a').
Proof. intros J fr s v s'. rewrite !ev_prim. setoid_rewrite (ea_plain _ _ J). reflexivity. Qed.
Lemma cg_swap o l l' r r' : eqv l l' -> eqv r r' -> eqv (EBinSwap o l r) (EBinSwap o l' r').
Proof. intros H J fr s v s'. rewrite !ev_swap. unfold eqv in *. setoid_rewrite H. setoid_rewrite J. reflexivity. Qed.
Lemma cg_lit t a a' : eqvA a a' -> eqv (ELit t a) (ELit t a').
Proof. intros J fr s v s'. rewrite !ev_lit. rewrite (ea_n _ _ J). setoid_rewrite (ea_lit _ _ J). reflexivity. Qed.
Local Ltac fin H := split; intros; go; repeat (eexists; try (split; [first [apply H|eapply H]|])).
Lemma cg_and a a' b b' : eqv a a' -> eqv b b' -> eqv (EAnd a b) (EAnd a' b').
Proof.
  intros H J fr s v s'. rewrite !ev_and. split; intros (x & s1 & K & Q); exists x, s1; (split; [now apply H|]); destruct (p_bool P _ x); auto; now apply J.
Qed.
Lemma cg_or a a' b b' : eqv a a' -> eqv b b' -> eqv (EOr a b) (EOr a' b').
Proof.
  intros H J fr s v s'. rewrite !ev_or. split; intros (x & s1 & K & Q); exists x, s1; (split; [now apply H|]); destruct (p_bool P _ x); auto; now apply J.
Qed.
Lemma cg_if c c' a a' b b' : eqv c c' -> eqv a a' -> eqv b b' -> eqv (EIf c a b) (EIf c' a' b').
Proof.
  intros H J G fr s v s'. rewrite !ev_if. split; intros (x & s1 & K & Q); exists x, s1; (split; [now apply H|]); destruct (p_bool P _ x); first [now apply J|now apply G].
Qed.
Lemma cg_compare l l' o e e' r r' : eqv l l' -> eqv e e' -> eqvC r r' -> eqv (ECompare l o e r) (ECompare l' o e' r').
Proof.
  intros H J G fr s v s'. rewrite !ev_compare. split; intros (x & s1 & y & s2 & K & K2 & Q); exists x, s1, y, s2; (split; [now apply H|]); (split; [now apply J|]); destruct (p_compare P _ o x y); auto; now apply G.
Qed.
Lemma cg_assign x e e' : eqv e e' -> eqv (EAssign x e) (EAssign x e').
Proof. intros H fr s v s'. rewrite !ev_assign. unfold eqv in H. setoid_rewrite H. reflexivity. Qed.
Lemma cg_nil : eqvA ANil ANil. Proof. split; intros; reflexivity. Qed.
Lemma cg_cons sp e e' r r' : eqv e e' -> eqvA r r' -> eqvA (ACons sp e r) (ACons sp e' r').
Proof.
  intros H J. unfold eqv in H. split.
  - cbn [n_args]. now rewrite (ea_n _ _ J).
  - intros. destruct sp; [rewrite !args_spread|rewrite !args_plain]; setoid_rewrite H; setoid_rewrite (ea_args _ _ J); reflexivity.
  - intros. destruct sp; [now rewrite !plain_spread|rewrite !plain_cons]. setoid_rewrite H. setoid_rewrite (ea_plain _ _ J). reflexivity.
  - intros. destruct sp; [rewrite !lit_spread|rewrite !lit_plain]; setoid_rewrite H; setoid_rewrite (ea_lit _ _ J); reflexivity.
Qed.
Lemma cg_last o e e' : eqv e e' -> eqvC (CLast o e) (CLast o e').
Proof. intros H fr l s v s'. rewrite !chain_last. unfold eqv in H. setoid_rewrite H. reflexivity. Qed.
Lemma cg_ccons o e e' r r' : eqv e e' -> eqvC r r' -> eqvC (CCons o e r) (CCons o e' r').
Proof.
  intros H J fr l s v s'. rewrite !chain_cons. split; intros (y & s1 & K & Q); exists y, s1; (split; [now apply H|]); destruct (p_compare P _ o l y); auto; now apply J.
Qed.
Local Notation "'do' ( x , s ) <- m ;; k" := (bind P m (fun x s => k)) (at level 200, m at level 100, k at level 200).
Local Ltac mono := intros; intro; cbv beta zeta; pose proof (mono_all P funs) as MONO; 
  repeat first [ apply le_refl | apply le_none | apply (m_eval _ _ _ (MONO _)) | apply (m_args _ _ _ (MONO _)) | apply (m_plain _ _ _ (MONO _))
   | apply (m_chain _ _ _ (MONO _)) | apply (m_lit _ _ _ (MONO _)) | apply (m_scall _ _ _ (MONO _)) | apply (m_tree _ _ _ (MONO _)) | apply le_bind; [|intros]
   | match goal with |- le _ (match ?x with _ => _ end) (match ?y with _ => _ end) => unify x y; destruct x end ].
Lemma okx_bind_iff {A B} (f f' : nat -> M P A) (k k' : nat -> A -> st -> M P B) b s :
  upw P f -> upw P f' -> (forall a s, upw P (fun n => k n a s)) -> (forall a s, upw P (fun n => k' n a s)) ->
  (forall a s, okx P f a s <-> okx P f' a s) -> (forall a s1, okx P (fun n => k n a s1) b s <-> okx P (fun n => k' n a s1) b s) ->
  okx P (fun n => bind P (f n) (k n)) b s <-> okx P (fun n => bind P (f' n) (k' n)) b s.
Proof. intros U U' K K' H J. rewrite (okx_bind P funs f k), (okx_bind P funs f' k') by auto. setoid_rewrite H. setoid_rewrite J. reflexivity. Qed.
Local Ltac bi x s := apply okx_bind_iff; [mono|mono|mono|mono| |intros x s].
Lemma cg_swapfield a a' i b b' o : eqv a a' -> eqv b b' -> eqv (ESwapField a i b o) (ESwapField a' i b' o).
Proof.
  intros H J fr s v s'. unfold gives, evals. fold (okx P (fun n => eval P funs n fr (ESwapField a i b o) s) v s'). fold (okx P (fun n => eval P funs n fr (ESwapField a' i b' o) s) v s').
  rewrite (okx_S P _ _ _ _ eq_refl (fun n => eval_S P funs n fr (ESwapField a i b o) s)), (okx_S P _ _ _ _ eq_refl (fun n => eval_S P funs n fr (ESwapField a' i b' o) s)). cbv beta iota.
  bi x s1; [intros; apply H|]. bi old s2; [reflexivity|]. bi y s3; [intros; apply J|]. reflexivity.
Qed.
Lemma cg_arrayop a a' i i' o b b' : eqv a a' -> eqv i i' -> eqv b b' -> eqv (EArrayOp a i o b) (EArrayOp a' i' o b').
Proof.
  intros H G J fr s v s'. unfold gives, evals. fold (okx P (fun n => eval P funs n fr (EArrayOp a i o b) s) v s'). fold (okx P (fun n => eval P funs n fr (EArrayOp a' i' o b') s) v s').
  rewrite (okx_S P _ _ _ _ eq_refl (fun n => eval_S P funs n fr (EArrayOp a i o b) s)), (okx_S P _ _ _ _ eq_refl (fun n => eval_S P funs n fr (EArrayOp a' i' o b') s)). cbv beta iota.
  bi x s1; [intros; apply H|]. bi ix s2; [intros; apply G|]. bi old s3; [reflexivity|]. bi y s4; [intros; apply J|]. reflexivity.
Qed.

(** ** Operators *)
Lemma ev_error fr s v s' : ev fr EError s v s' <-> False.
Proof. unfold EError. rewrite ev_prim. split; [|tauto]. intros (vs & s1 & H & L & _). apply plain_nil in H as [-> _]. discriminate. Qed.
Lemma ev_unary fr o a s v s' : ev fr (EPrim (PUnary o) (plain1 a)) s v s' <-> exists x s1, ev fr a s x s1 /\ treeE (p_op P (PUnary o) [x] (sworld P s1)) s1 v s'.
Proof.
  rewrite ev_prim. setoid_rewrite plain_cons. setoid_rewrite plain_nil. split.
  - intros (vs & s1 & (x & s2 & t & H & [-> ->] & ->) & _ & T). eauto.
  - intros (x & s1 & H & T). exists [x], s1. split; [|auto]. exists x, s1, []. auto.
Qed.
Lemma ev_op2 fr p a b s v s' : prim_arity p = 2 ->
  ev fr (EPrim p (plain2 a b)) s v s' <-> exists x s1 y s2, ev fr a s x s1 /\ ev fr b s1 y s2 /\ treeE (p_op P p [x; y] (sworld P s2)) s2 v s'.
Proof.
  intro Ar. rewrite ev_prim. setoid_rewrite plain_cons. setoid_rewrite plain_cons. setoid_rewrite plain_nil. split.
  - intros (vs & s1 & (x & s2 & t & H & (y & s3 & t2 & J & [-> ->] & ->) & ->) & _ & T). eauto 10.
  - intros (x & s1 & y & s2 & H & J & T). exists [x; y], s2. split; [|auto]. exists x, s1, [y]. split; auto. split; auto. exists y, s2, []. auto.
Qed.
Lemma into_const_inv e x : into_const e = Some x -> exists h, e = EConst h /\ decode h = Some x.
Proof. destruct e; try discriminate. cbn. eauto. Qed.
Lemma result_ok t r fr s v s' : match r with Err.Ok x => t = TRet (sworld P s) (enc x) | _ => fails_with t end ->
  (treeE t s v s' <-> ev fr (result_expr enc r) s v s').
Proof.
  destruct r; cbn [result_expr]; intro H.
  - rewrite H, tree_ret, ww_id, ev_const. reflexivity.
  - rewrite (tree_fails P funs _ _ _ _ H), ev_error. reflexivity.
  - rewrite (tree_fails P funs _ _ _ _ H), ev_error. reflexivity.
Qed.
Lemma visit_unary_ok o a : eqv (EPrim (PUnary o) (plain1 a)) (visit_unary o a).
Proof.
  intros fr s v s'. unfold Opt.visit_unary. destruct (into_const a) as [x|] eqn:E; [|reflexivity].
  apply into_const_inv in E as (h & -> & E). rewrite ev_unary. rewrite <- (result_ok (p_op P (PUnary o) [h] (sworld P s)) _ fr s v s' (lw_unary _ _ _ _ _ LW o h x (sworld P s) E)).
  setoid_rewrite ev_const. split; [intros (y & s1 & [-> ->] & T); exact T|intro T; eauto].
Qed.
Lemma visit_binary_ok o l r : eqv (EPrim (PBinary o) (plain2 l r)) (visit_binary o l r false).
Proof.
  intros fr s v s'. unfold Opt.visit_binary. destruct (into_const l) as [x|] eqn:E; [|reflexivity]. destruct (into_const r) as [y|] eqn:F; [|reflexivity].
  apply into_const_inv in E as (h & -> & E). apply into_const_inv in F as (k & -> & F).
  rewrite ev_op2 by reflexivity. rewrite <- (result_ok (p_op P (PBinary o) [h; k] (sworld P s)) _ fr s v s' (lw_binary _ _ _ _ _ LW o h x k y (sworld P s) E F)).
  setoid_rewrite ev_const. split; [intros (x' & s1 & y' & s2 & [-> ->] & [-> ->] & T); exact T|intro T; exists h, s, k, s; auto].
Qed.

(** ** Calls of native functions *)
Lemma ev_call_native fr n a s v s' : ev fr (ECall (EConst (HNative n)) a) s v s' <-> exists vs s1, argsE fr a s vs s1 /\ treeE (p_call P (HNative n) vs (sworld P s1)) s1 v s'.
Proof.
  rewrite ev_call. setoid_rewrite ev_const. split.
  - intros (fv & s1 & vs & s2 & [-> ->] & H & J). apply (call_builtin P funs _ _ _ _ _ (native_not_user n)) in J. eauto.
  - intros (vs & s1 & H & J). exists (HNative n), s, vs, s1. rewrite (call_builtin P funs _ _ _ _ _ (native_not_user n)). auto.
Qed.
Lemma args2 fr a b s vs s' : argsE fr (plain2 a b) s vs s' <-> exists x s1 y, ev fr a s x s1 /\ ev fr b s1 y s' /\ vs = [x; y].
Proof.
  setoid_rewrite args_plain. setoid_rewrite args_plain. setoid_rewrite args_nil. split.
  - intros (x & s1 & t & H & (y & s2 & t2 & J & [-> ->] & ->) & ->). eauto 10.
  - intros (x & s1 & y & H & J & ->). exists x, s1, [y]. split; auto. split; auto. exists y, s', []. auto.
Qed.
Lemma args1 fr a s vs s' : argsE fr (plain1 a) s vs s' <-> exists x, ev fr a s x s' /\ vs = [x].
Proof.
  setoid_rewrite args_plain. setoid_rewrite args_nil. split.
  - intros (x & s1 & t & H & [-> ->] & ->). eauto.
  - intros (x & H & ->). exists x, s', []. auto.
Qed.
Lemma call2 fr n a b s v s' : ev fr (ECall (EConst (HNative n)) (plain2 a b)) s v s' <->
  exists x s1 y s2, ev fr a s x s1 /\ ev fr b s1 y s2 /\ treeE (p_call P (HNative n) [x; y] (sworld P s2)) s2 v s'.
Proof.
  rewrite ev_call_native. setoid_rewrite args2. split.
  - intros (vs & s1 & (x & s2 & y & H & J & ->) & T). eauto 10.
  - intros (x & s1 & y & s2 & H & J & T). exists [x; y], s2. eauto 10.
Qed.
Lemma const_strong h x : decode h = Some x -> not_complex dec h = true -> purity dec (EConst h) = PureStrong.
Proof.
  unfold not_complex. intros E. rewrite E. destruct h; try discriminate; try reflexivity. cbn in *.
  pose proof (lw_dec _ _ _ _ _ LW _ _ E) as D. rewrite E. destruct x; try tauto; try discriminate; reflexivity.
Qed.
Lemma careful_const a b x y : real a = true -> real b = true -> into_const a = Some x -> into_const b = Some y -> careful a b = true.
Proof.
  intros Ra Rb Ea Eb. apply into_const_inv in Ea as (h & -> & Ea). apply into_const_inv in Eb as (k & -> & Eb).
  unfold OptSpec.careful. rewrite (const_strong _ _ Ea Ra), (const_strong _ _ Eb Rb). reflexivity.
Qed.
Lemma visit_native2 n x y : visit_native n (plain2 x y) =
  match native_binop n with
  | Some o => visit_binary o x y false
  | None => match native_binop (native_swap n) with Some o => visit_binary o y x (negb (careful y x)) | None => ECall (EConst (HNative n)) (plain2 x y) end
  end.
Proof. unfold Opt.visit_native. destruct x as [h| | | | | | | | | | | | | | | | ]; try reflexivity. destruct h as [| | | | |n'| | |]; try reflexivity. destruct n'; reflexivity. Qed.
Lemma visit_native_ok n a : real_args a = true -> eqv (ECall (EConst (HNative n)) a) (visit_native n a).
Proof.
  intros R. unfold Opt.visit_native. destruct a as [|[|] x [|[|] y [|]]]; try (repeat match goal with |- eqv _ (match ?z with _ => _ end) => destruct z end; apply eqv_refl).
  - destruct x as [h| | | | | | | | | | | | | | | | ]; try apply eqv_refl. destruct h as [| | | | |n'| | |]; try apply eqv_refl.
    destruct (native_eqb n' NF_Int) eqn:E.
    + assert (n' = NF_Int) as -> by (destruct n'; cbn in E; try discriminate; reflexivity).
      destruct n; try apply eqv_refl.
      * intros fr s v s'. rewrite ev_call_native, ev_const. setoid_rewrite args1. setoid_rewrite ev_const. split.
        -- intros (vs & s1 & (x & [-> ->] & ->) & T). rewrite (lw_min _ _ _ _ _ LW), tree_ret, ww_id in T. exact T.
        -- intro T. exists [HNative NF_Int], s. split; eauto. now rewrite (lw_min _ _ _ _ _ LW), tree_ret, ww_id.
      * intros fr s v s'. rewrite ev_call_native, ev_const. setoid_rewrite args1. setoid_rewrite ev_const. split.
        -- intros (vs & s1 & (x & [-> ->] & ->) & T). rewrite (lw_max _ _ _ _ _ LW), tree_ret, ww_id in T. exact T.
        -- intro T. exists [HNative NF_Int], s. split; eauto. now rewrite (lw_max _ _ _ _ _ LW), tree_ret, ww_id.
    + destruct n'; try apply eqv_refl. discriminate.
  - (* two arguments *) change (eqv (ECall (EConst (HNative n)) (plain2 x y)) (visit_native n (plain2 x y))). rewrite visit_native2.
    cbn in R. rewrite andb_true_r in R. apply andb_true_iff in R as [Rx Ry].
    destruct (native_binop n) as [o|] eqn:B.
    + assert (G : eqv (ECall (EConst (HNative n)) (plain2 x y)) (visit_binary o x y false)).
      { eapply eqv_trans; [|apply visit_binary_ok]. intros fr s v s'. rewrite call2, ev_op2 by reflexivity. setoid_rewrite (lw_native _ _ _ _ _ LW n o _ _ _ B). reflexivity. }
      exact G.
    + destruct (native_binop (native_swap n)) as [o|] eqn:B'.
      * assert (G : eqv (ECall (EConst (HNative n)) (plain2 x y)) (visit_binary o y x (negb (careful y x)))).
        { assert (E1 : forall fr s v s', ev fr (ECall (EConst (HNative n)) (plain2 x y)) s v s' <-> ev fr (EBinSwap o y x) s v s').
          { intros. rewrite call2, ev_swap. setoid_rewrite (lw_swapped _ _ _ _ _ LW n o _ _ _ B B'). reflexivity. }
          destruct (careful y x) eqn:C; cbn [negb].
          - eapply eqv_trans; [exact E1|]. eapply eqv_trans; [|apply visit_binary_ok]. destruct (careful_comm P funs dec enc to_str fmt LW _ _ C) as [C1 C2].
            intros fr s v s'. rewrite ev_swap, ev_op2 by reflexivity. split.
            + intros (a & s1 & b & s2 & H & J & K). destruct (C2 _ _ _ _ _ _ H J) as (s1' & H' & J'). exists b, s1', a, s2. auto.
            + intros (b & s1 & a & s2 & H & J & K). destruct (C1 _ _ _ _ _ _ H J) as (s1' & H' & J'). exists a, s1', b, s2. auto.
          - unfold Opt.visit_binary. destruct (into_const y) as [a|] eqn:Ey; [|exact E1]. destruct (into_const x) as [b|] eqn:Ex; [|exact E1].
            rewrite (careful_const _ _ _ _ Ry Rx Ey Ex) in C. discriminate. }
        exact G.
      * assert (G : eqv (ECall (EConst (HNative n)) (plain2 x y)) (ECall (EConst (HNative n)) (plain2 x y))) by apply eqv_refl.
        exact G.
Qed.

(** ** Calls *)
Lemma tree_world w t s v s' : treeE t (with_world w s) v s' <-> treeE t s v s'.
Proof.
  unfold OptProofs.treeE. rewrite (okx_S P _ _ _ _ eq_refl (fun n => stree_S P funs n t (with_world w s))), (okx_S P _ _ _ _ eq_refl (fun n => stree_S P funs n t s)).
  destruct t; reflexivity.
Qed.
Lemma args_append_ev fr : forall a b s vs s', argsE fr (args_append a b) s vs s' <-> exists v1 s1 v2, argsE fr a s v1 s1 /\ argsE fr b s1 v2 s' /\ vs = v1 ++ v2.
Proof.
  induction a as [|sp e r IH]; intros b s vs s'; cbn [args_append].
  - setoid_rewrite args_nil. split; [intro H; exists [], s, vs; auto|intros (v1 & s1 & v2 & [-> ->] & H & ->); exact H].
  - destruct sp.
    + setoid_rewrite args_spread. setoid_rewrite IH. split.
      * intros (v & s1 & w & l & t & H & E & (v1 & s2 & v2 & J & K & ->) & ->). exists (l ++ v1), s2, v2. rewrite app_assoc. split; auto. exists v, s1, w, l, v1. auto.
      * intros (v1 & s1 & v2 & (v & s2 & w & l & t & H & E & J & ->) & K & ->). exists v, s2, w, l, (t ++ v2). rewrite app_assoc. split; auto. split; auto. split; auto. exists t, s1, v2. auto.
    + setoid_rewrite args_plain. setoid_rewrite IH. split.
      * intros (v & s1 & t & H & (v1 & s2 & v2 & J & K & ->) & ->). exists (v :: v1), s2, v2. split; auto. exists v, s1, v1. auto.
      * intros (v1 & s1 & v2 & (v & s2 & t & H & J & ->) & K & ->). exists v, s2, (t ++ v2). split; auto. split; auto. exists t, s1, v2. auto.
Qed.
Lemma real_append a b : real_args (args_append a b) = real_args a && real_args b.
Proof.
  induction a as [|sp e r IH]; [reflexivity|]. cbn [args_append]. change (real e && real_args (args_append r b) = real e && real_args r && real_args b). now rewrite IH, andb_assoc.
Qed.
Lemma call_rest n v1 v2 s v s' : length v1 < native_min_nargs n ->
  callE (match v1 with [] => HNative n | _ => HPartial (HNative n) v1 end) v2 s v s' <-> treeE (p_call P (HNative n) (v1 ++ v2) (sworld P s)) s v s'.
Proof.
  intro Lt. destruct v1 as [|x r].
  - apply call_builtin. apply native_not_user.
  - rewrite (call_builtin P funs (HPartial (HNative n) (x :: r)) v2 s v s' (fun H => H)), (lw_partial_call _ _ _ _ _ LW n (x :: r) v2 _ ltac:(discriminate) Lt). reflexivity.
Qed.
Lemma visit_call_ok f a : real f = true -> real_args a = true -> eqv (ECall f a) (visit_call f a).
Proof.
  intros Rf Ra. unfold Opt.visit_call. destruct f as [h| | | | |g inner| | | | | | | | | | | ]; try apply eqv_refl.
  - destruct h; try apply eqv_refl. now apply visit_native_ok.
  - destruct g as [h| | | | | | | | | | | | | | | | ]; try apply eqv_refl. destruct h as [| | | | |n| | |]; try apply eqv_refl.
    destruct (negb (any_spread inner) && is_partial (EConst (HNative n)) (n_args inner)) eqn:C; [|apply eqv_refl].
    apply andb_true_iff in C as [NS Pa]. apply negb_true_iff in NS. cbn [is_partial] in Pa. apply Nat.ltb_lt in Pa.
    eapply eqv_trans; [|apply visit_native_ok; rewrite real_append; apply andb_true_iff; split; [exact Rf|exact Ra]].
    intros fr s v s'. rewrite ev_call, ev_call_native. setoid_rewrite args_append_ev. split.
    + intros (fv & s1 & vs & s2 & H & J & K). apply ev_call in H as (fv' & s0 & v1 & s3 & H & A & B). apply ev_const in H as [-> ->].
      pose proof (args_length P funs _ _ _ _ _ NS A) as Hl. apply (call_partial P funs dec enc to_str fmt LW) in B; [|lia]. destruct B as [-> ->].
      apply call_rest in K; [|lia]. exists (v1 ++ vs), s2. split; auto. exists v1, s3, vs. auto.
    + intros (vs & s2 & (v1 & s1 & v2 & A & B & ->) & T). pose proof (args_length P funs _ _ _ _ _ NS A) as Hl.
      exists (match v1 with [] => HNative n | _ => HPartial (HNative n) v1 end), s1, v2, s2. split; [|split; [exact B|apply call_rest; [lia|exact T]]].
      apply ev_call. exists (HNative n), s, v1, s1. rewrite ev_const. split; auto. split; auto. apply (call_partial P funs dec enc to_str fmt LW); [lia|auto].
Qed.

(** ** Composition *)
Lemma compose_call a f : careful f a = true -> eqv (ECompose a f) (ECall f (plain1 a)).
Proof.
  intros C. destruct (careful_comm P funs dec enc to_str fmt LW _ _ C) as [C1 C2]. intros fr s v s'. rewrite ev_compose, ev_call. setoid_rewrite args1. split.
  - intros (x & s1 & fv & s2 & H & J & K). destruct (C2 _ _ _ _ _ _ H J) as (s1' & H' & J'). exists fv, s1', [x], s2. eauto.
  - intros (fv & s1 & vs & s2 & H & (x & J & ->) & K). destruct (C1 _ _ _ _ _ _ H J) as (s1' & H' & J'). exists x, s1', fv, s2. auto.
Qed.
Lemma op_min n : is_operator n = true -> native_min_nargs n = 2 /\ (native_binop n = None -> exists o, native_binop (native_swap n) = Some o).
Proof. destruct n; intro H; try discriminate H; split; try reflexivity; cbn; intro; try discriminate; eauto. Qed.
Lemma compose_op n a r : is_operator n = true ->
  forall fr s v s', ev fr (ECompose a (ECall (EConst (HNative n)) (plain1 r))) s v s' <->
    exists x s1 y s2, ev fr a s x s1 /\ ev fr r s1 y s2 /\ treeE (p_call P (HNative n) [y; x] (sworld P s2)) s2 v s'.
Proof.
  intros Op fr s v s'. destruct (op_min n Op) as [Mn _]. rewrite ev_compose. split.
  - intros (x & s1 & fv & s2 & H & J & K). apply ev_call in J as (fv' & s0 & vs & s3 & J & A & B). apply ev_const in J as [-> ->]. apply args1 in A as (y & A & ->).
    apply (call_partial P funs dec enc to_str fmt LW) in B; [|rewrite Mn; cbn; lia]. destruct B as [-> ->].
    apply (call_rest n [y] [x]) in K; [|rewrite Mn; cbn; lia]. exists x, s1, y, s3. auto.
  - intros (x & s1 & y & s2 & H & J & K). exists x, s1, (HPartial (HNative n) [y]), s2. split; auto. split.
    + apply ev_call. exists (HNative n), s1, [y], s2. rewrite ev_const, args1. split; auto. split; eauto. apply (call_partial P funs dec enc to_str fmt LW); [rewrite Mn; cbn; lia|auto].
    + apply (call_rest n [y] [x]); [rewrite Mn; cbn; lia|exact K].
Qed.
Lemma visit_compose_other_ok a f : real a = true -> real f = true -> eqv (ECompose a f) (visit_compose_other a f).
Proof.
  intros Ra Rf. unfold Opt.visit_compose_other. destruct (careful f a) eqn:C.
  - eapply eqv_trans; [apply compose_call; exact C|]. apply visit_call_ok; auto. change (real a && true = true). now rewrite andb_true_r.
  - destruct f as [h| | | | |g inner| | | | | | | | | | | ]; try apply eqv_refl.
    destruct g as [h| | | | | | | | | | | | | | | | ]; try apply eqv_refl. destruct h as [| | | | |n| | |]; try apply eqv_refl.
    destruct inner as [|[|] r [|]]; try apply eqv_refl. destruct (is_operator n) eqn:Op; [|apply eqv_refl]. destruct (op_min n Op) as [_ Sw].
    destruct (native_binop n) as [o|] eqn:B.
    + intros fr s v s'. rewrite (compose_op n a r Op), ev_swap. setoid_rewrite (lw_native _ _ _ _ _ LW n o _ _ _ B). reflexivity.
    + destruct (Sw eq_refl) as [o B']. rewrite B'. intros fr s v s'. rewrite (compose_op n a r Op), ev_op2 by reflexivity.
      setoid_rewrite (lw_swapped _ _ _ _ _ LW n o _ _ _ B B'). reflexivity.
Qed.
Lemma lit_plain_all fr l : forall a p s x s', any_spread a = false ->
  litE fr l p a s x s' <-> exists vs, argsE fr a s vs s' /\ x = OptProofs.flush P l (p ++ vs) (sworld P s').
Proof.
  induction a as [|sp e r IH]; intros p s x s' NS.
  - rewrite lit_nil. setoid_rewrite args_nil. split; [intros [-> ->]; exists []; rewrite app_nil_r; auto|intros (vs & [-> ->] & ->); now rewrite app_nil_r].
  - destruct sp; [discriminate|]. rewrite lit_plain. setoid_rewrite args_plain. split.
    + intros (v & s1 & H & J). apply IH in J as (vs & J & ->); [|exact NS]. exists (v :: vs). rewrite <- app_assoc. split; auto. exists v, s1, vs. auto.
    + intros (vs & (v & s1 & t & H & J & ->) & ->). exists v, s1. split; auto. apply IH; [exact NS|]. exists t. rewrite <- app_assoc. auto.
Qed.
Lemma plain_args fr : forall a s vs s', any_spread a = false -> plainE fr a s vs s' <-> argsE fr a s vs s'.
Proof.
  induction a as [|sp e r IH]; intros s vs s' NS; [now rewrite plain_nil, args_nil|]. destruct sp; [discriminate|]. rewrite plain_cons, args_plain. setoid_rewrite (fun s vs s' => IH s vs s' NS). reflexivity.
Qed.
Lemma compose_list a items : any_spread items = false -> forall fr s v s', ev fr (ECompose a (ELit LitList items)) s v s' <->
  exists x s1 vs s2 w h, ev fr a s x s1 /\ argsE fr items s1 vs s2 /\ l_end P (OptProofs.flush P (l_new P LitList (n_args items)) vs (sworld P s2)) (sworld P s2) = (w, h) /\ callE h [x] (with_world w s2) v s'.
Proof.
  intros NS fr s v s'. rewrite ev_compose. setoid_rewrite ev_lit. split.
  - intros (x & s1 & fv & s2 & H & (l & s3 & w & J & E & ->) & K). apply lit_plain_all in J as (vs & J & ->); [|exact NS]. cbn [app] in E. exists x, s1, vs, s3, w, fv. auto.
  - intros (x & s1 & vs & s2 & w & h & H & J & E & K). exists x, s1, h, (with_world w s2). split; auto. split; auto. eexists _, s2, w. split; [|split; [exact E|reflexivity]].
    apply lit_plain_all; [exact NS|]. exists vs. auto.
Qed.
Lemma visit_compose_ok a f : real a = true -> real f = true -> eqv (ECompose a f) (visit_compose a f).
Proof.
  intros Ra Rf. unfold Opt.visit_compose. destruct f as [| | | | | | |p items| | |t items| | | | | | ]; try (now apply visit_compose_other_ok).
  - destruct p; try (now apply visit_compose_other_ok).
    + intros fr s v s'. rewrite ev_compose. setoid_rewrite ev_prim. setoid_rewrite plain_cons. split.
      * intros (x & s1 & fv & s2 & H & (vs & s3 & J & Hl & T) & K). destruct vs as [|y [|z [|]]]; try discriminate Hl.
        exists (x :: [y;z]), s3. split; [exists x, s1, [y;z]; auto|]. split; [reflexivity|].
        destruct (lw_slice _ _ _ _ _ LW x y z (sworld P s3)) as [[F1 F2]|(w & h & E & U & F)]; [eapply tree_fails in T; eauto; tauto|].
        rewrite E in T. apply tree_ret in T as [-> ->]. apply call_builtin in K; [|exact U]. cbn [sworld LangSpec.with_world] in K. rewrite F in K. exact (proj1 (tree_world _ _ _ _ _) K).
      * intros (vs0 & s3 & (x & s1 & vs & H & J & ->) & Hl & T). destruct vs as [|y [|z [|]]]; try discriminate Hl.
        destruct (lw_slice _ _ _ _ _ LW x y z (sworld P s3)) as [[F1 F2]|(w & h & E & U & F)]; [eapply tree_fails in T; eauto; tauto|].
        exists x, s1, h, (with_world w s3). split; auto. split; [exists [y;z], s3; split; auto; split; auto; rewrite E; now apply tree_ret|].
        apply call_builtin; [exact U|]. cbn [sworld LangSpec.with_world]. rewrite F. apply (proj2 (tree_world _ _ _ _ _)); exact T.
    + intros fr s v s'. rewrite ev_compose. setoid_rewrite ev_prim. setoid_rewrite plain_cons. split.
      * intros (x & s1 & fv & s2 & H & (vs & s3 & J & Hl & T) & K). destruct vs as [|y [|z [|q [|]]]]; try discriminate Hl.
        exists (x :: [y;z;q]), s3. split; [exists x, s1, [y;z;q]; auto|]. split; [reflexivity|].
        destruct (lw_slice_step _ _ _ _ _ LW x y z q (sworld P s3)) as [[F1 F2]|(w & h & E & U & F)]; [eapply tree_fails in T; eauto; tauto|].
        rewrite E in T. apply tree_ret in T as [-> ->]. apply call_builtin in K; [|exact U]. cbn [sworld LangSpec.with_world] in K. rewrite F in K. exact (proj1 (tree_world _ _ _ _ _) K).
      * intros (vs0 & s3 & (x & s1 & vs & H & J & ->) & Hl & T). destruct vs as [|y [|z [|q [|]]]]; try discriminate Hl.
        destruct (lw_slice_step _ _ _ _ _ LW x y z q (sworld P s3)) as [[F1 F2]|(w & h & E & U & F)]; [eapply tree_fails in T; eauto; tauto|].
        exists x, s1, h, (with_world w s3). split; auto. split; [exists [y;z;q], s3; split; auto; split; auto; rewrite E; now apply tree_ret|].
        apply call_builtin; [exact U|]. cbn [sworld LangSpec.with_world]. rewrite F. apply (proj2 (tree_world _ _ _ _ _)); exact T.
  - destruct t; try (now apply visit_compose_other_ok). destruct (any_spread items) eqn:NS; [now apply visit_compose_other_ok|].
    destruct items as [|sp i [|sp2 i2 r]].
    + intros fr s v s'. rewrite ev_error. rewrite (compose_list a ANil NS). split; [|tauto].
      intros (x & s1 & vs & s2 & w & h & H & J & E & K). apply args_nil in J as [-> ->]. cbn [OptProofs.flush n_args] in E. destruct (lw_list0 _ _ _ _ _ LW x _ _ _ E) as [U F].
      apply call_builtin in K; [|exact U]. eapply tree_fails in K; eauto.
    + destruct sp; [discriminate|]. intros fr s v s'. rewrite (compose_list a _ NS), ev_op2 by reflexivity. setoid_rewrite args1. cbn [n_args]. split.
      * intros (x & s1 & vs & s2 & w & h & H & (y & J & ->) & E & K). cbn [OptProofs.flush] in E. destruct (lw_list1 _ _ _ _ _ LW y x _ _ _ E) as [U F].
        apply call_builtin in K; [|exact U]. cbn [sworld LangSpec.with_world] in K. rewrite F in K. exists x, s1, y, s2. split; auto. split; auto. exact (proj1 (tree_world _ _ _ _ _) K).
      * intros (x & s1 & y & s2 & H & J & T). destruct (l_end P (l_acc P (l_new P LitList 1) [y] (sworld P s2)) (sworld P s2)) as [w h] eqn:E.
        destruct (lw_list1 _ _ _ _ _ LW y x _ _ _ E) as [U F]. exists x, s1, [y], s2, w, h. split; auto. split; eauto. split; [exact E|].
        apply call_builtin; [exact U|]. cbn [sworld LangSpec.with_world]. rewrite F. apply (proj2 (tree_world _ _ _ _ _)); exact T.
    + intros fr s v s'. rewrite ev_error. rewrite (compose_list a _ NS). split; [|tauto].
      intros (x & s1 & vs & s2 & w & h & H & J & E & K). pose proof (args_length P funs _ _ _ _ _ NS J) as Hl. cbn [n_args] in *. 
      assert (L2 : 2 <= length vs) by (rewrite Hl; lia). rewrite <- Hl in E. destruct vs as [|v1 vs]; [cbn in L2; lia|]. cbn [OptProofs.flush] in E.
      destruct (lw_list2 _ _ _ _ _ LW (v1 :: vs) x _ _ _ L2 E) as [U F]. apply call_builtin in K; [|exact U]. eapply tree_fails in K; eauto.
Qed.
End opt.
