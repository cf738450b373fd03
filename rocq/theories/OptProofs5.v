(** Proofs for C43, continued: replacing expressions in statements and functions. *)
From Verif Require Import Base Native Err Value Ops Vm Lang LangSpec CompGraph CompUnf LangProofs CompileSpec CompileProofs Opt OptSpec OptProofs.
Local Open Scope nat_scope.

(** ** Related statements *)
Section rel.
Context (R : expr -> expr -> Prop).
Inductive rel_o : option expr -> option expr -> Prop := ro_none : rel_o None None | ro_some e e' : R e e' -> rel_o (Some e) (Some e').
Inductive rel_stmt : stmt -> stmt -> Prop :=
| rs_expr e e' : R e e' -> rel_stmt (SExpr e) (SExpr e')
| rs_semi : rel_stmt SSemi SSemi
| rs_let e e' : R e e' -> rel_stmt (SLet e) (SLet e')
| rs_letnil : rel_stmt SLetNil SLetNil
| rs_fn f c : rel_stmt (SFn f c) (SFn f c)
| rs_struct v : rel_stmt (SStruct v) (SStruct v)
| rs_ret e e' : rel_o e e' -> rel_stmt (SReturn e) (SReturn e')
| rs_if c c' b b' el el' : R c c' -> rel_stmts b b' -> rel_else el el' -> rel_stmt (SIf c b el) (SIf c' b' el')
| rs_while c c' b b' el el' : R c c' -> rel_stmts b b' -> rel_os el el' -> rel_stmt (SWhile c b el) (SWhile c' b' el')
| rs_do c c' b b' el el' : rel_o c c' -> rel_stmts b b' -> rel_os el el' -> rel_stmt (SDo b c el) (SDo b' c' el')
| rs_loop b b' : rel_stmts b b' -> rel_stmt (SLoop b) (SLoop b')
| rs_for n e e' b b' el el' : R e e' -> rel_stmts b b' -> rel_os el el' -> rel_stmt (SFor n e b el) (SFor n e' b' el')
| rs_break : rel_stmt SBreak SBreak
| rs_continue : rel_stmt SContinue SContinue
| rs_assert e e' m m' : R e e' -> rel_o m m' -> rel_stmt (SAssert e m) (SAssert e' m')
| rs_assertc c sw a a' b b' m m' : R a a' -> R b b' -> rel_o m m' -> rel_stmt (SAssertCmp c sw a b m) (SAssertCmp c sw a' b' m')
with rel_stmts : stmts -> stmts -> Prop :=
| rb_nil : rel_stmts BNil BNil
| rb_cons s s' r r' : rel_stmt s s' -> rel_stmts r r' -> rel_stmts (BCons s r) (BCons s' r')
with rel_else : else_ -> else_ -> Prop :=
| re_none : rel_else ElNone ElNone
| re_block b b' : rel_stmts b b' -> rel_else (ElBlock b) (ElBlock b')
| re_if c c' b b' el el' : R c c' -> rel_stmts b b' -> rel_else el el' -> rel_else (ElIf c b el) (ElIf c' b' el')
with rel_os : option_stmts -> option_stmts -> Prop :=
| rn_none : rel_os NoElse NoElse
| rn_else b b' : rel_stmts b b' -> rel_os (Else b) (Else b').
Inductive rel_body : fbody -> fbody -> Prop :=
| rf_block b b' : rel_stmts b b' -> rel_body (BodyBlock b) (BodyBlock b')
| rf_expr e e' : R e e' -> rel_body (BodyExpr e) (BodyExpr e').
Record rel_fun (f f' : sfun) : Prop := {
  rel_args : sf_args f' = sf_args f; rel_var : sf_variadic f' = sf_variadic f;
  rel_defs : Forall2 R (sf_defs f) (sf_defs f'); rel_bd : rel_body (sf_body f) (sf_body f') }.
End rel.

Section table.
Context (P : prims) (F G : nat -> option sfun) (R : expr -> expr -> Prop).
Local Notation st := (st P).
Hypothesis HR : forall e e', R e e' -> forall fr s v s', gives P G fr e s v s' -> gives P G fr e' s v s'.
Hypothesis HT : forall i, match F i, G i with Some f, Some g => rel_fun R f g | None, None => True | _, _ => False end.

Definition sim {A} (m : M P A) (f : nat -> M P A) : Prop := forall a s, m = Some (LangSpec.Ok P _ a s) -> okx P f a s.
Lemma sim_S {A} (m : M P A) f g : (forall n, f (S n) = g n) -> sim m g -> sim m f.
Proof. intros E H a s J. destruct (H a s J) as [n K]. exists (S n). now rewrite E. Qed.
Lemma sim_bind {A B} (m : M P A) f (k : A -> st -> M P B) (k' : nat -> A -> st -> M P B) : upw P f -> (forall a s, upw P (fun n => k' n a s)) ->
  sim m f -> (forall a s, sim (k a s) (fun n => k' n a s)) -> sim (bind P m k) (fun n => bind P (f n) (k' n)).
Proof.
  intros U V H J b s E. destruct m as [[a s1|]|]; cbn [bind] in E; try discriminate. apply (okx_bind P F f k'); auto. exists a, s1. split; [now apply H|now apply J].
Qed.
Lemma sim_ret {A} (m : M P A) : sim m (fun _ => m). Proof. intros a s H. now exists 0. Qed.
Lemma sim_none {A} (f : nat -> M P A) : sim None f. Proof. intros a s H. discriminate. Qed.
Lemma sim_er {A} e w (f : nat -> M P A) : sim (Some (Er P A e w)) f. Proof. intros a s H. discriminate. Qed.

Record tr (n : nat) : Prop := {
  t_eval : forall fr e s, sim (eval P F n fr e s) (fun m => eval P G m fr e s);
  t_args : forall fr a s, sim (eval_args P F n fr a s) (fun m => eval_args P G m fr a s);
  t_plain : forall fr a s, sim (eval_plain P F n fr a s) (fun m => eval_plain P G m fr a s);
  t_chain : forall fr l a s, sim (eval_chain P F n fr l a s) (fun m => eval_chain P G m fr l a s);
  t_lit : forall fr l p a s, sim (eval_lit P F n fr l p a s) (fun m => eval_lit P G m fr l p a s);
  t_exec : forall g fr c c' s, rel_stmt R c c' -> sim (exec P F n g fr c s) (fun m => exec P G m g fr c' s);
  t_for : forall fr nm it b b' el el' s, rel_stmts R b b' -> rel_os R el el' -> sim (exec_for P F n fr nm it b el s) (fun m => exec_for P G m fr nm it b' el' s);
  t_list : forall g fr l b b' s, rel_stmts R b b' -> sim (exec_list P F n g fr l b s) (fun m => exec_list P G m g fr l b' s);
  t_block : forall fr b b' s, rel_stmts R b b' -> sim (exec_block P F n fr b s) (fun m => exec_block P G m fr b' s);
  t_opt : forall fr b b' s, rel_os R b b' -> sim (exec_opt P F n fr b s) (fun m => exec_opt P G m fr b' s);
  t_else : forall fr b b' s, rel_else R b b' -> sim (exec_else P F n fr b s) (fun m => exec_else P G m fr b' s);
  t_scall : forall f a s, sim (scall P F n f a s) (fun m => scall P G m f a s);
  t_enter : forall f fn fn' a s, rel_fun R fn fn' -> sim (enter P F n f fn a s) (fun m => enter P G m f fn' a s);
  t_defs : forall ds ds' s, Forall2 R ds ds' -> sim (eval_defs P F n ds s) (fun m => eval_defs P G m ds' s);
  t_tree : forall t s, sim (stree P F n t s) (fun m => stree P G m t s) }.
Lemma t_eval' n : tr n -> forall fr e e' s, R e e' -> sim (eval P F n fr e s) (fun m => eval P G m fr e' s).
Proof. intros T fr e e' s H v s' E. apply (t_eval n T) in E. exact (HR e e' H fr s v s' E). Qed.
Lemma rel_required fn fn' : rel_fun R fn fn' -> required fn' = required fn /\ forall k, accepts fn' k = accepts fn k.
Proof.
  intros [A B C _]. assert (required fn' = required fn) as E by (unfold required; rewrite A; clear - C; assert (length (sf_defs fn) = length (sf_defs fn')) as -> by (induction C; cbn; congruence); reflexivity).
  split; [exact E|]. intro k. unfold accepts. now rewrite E, A, B.
Qed.
Lemma forall2_skipn {A B} (Q : A -> B -> Prop) l l' : Forall2 Q l l' -> forall k, Forall2 Q (skipn k l) (skipn k l').
Proof. induction 1; intros [|k]; cbn [skipn]; auto. Qed.
Local Ltac mono := intros; intro; cbv beta zeta; pose proof (mono_all P G) as MONO; 
  repeat first [ apply le_refl | apply le_none | apply (m_eval _ _ _ (MONO _)) | apply (m_args _ _ _ (MONO _)) | apply (m_plain _ _ _ (MONO _))
   | apply (m_chain _ _ _ (MONO _)) | apply (m_lit _ _ _ (MONO _)) | apply (m_scall _ _ _ (MONO _)) | apply (m_tree _ _ _ (MONO _))
   | apply (m_exec _ _ _ (MONO _)) | apply (m_for _ _ _ (MONO _)) | apply (m_list _ _ _ (MONO _)) | apply (m_block _ _ _ (MONO _)) | apply (m_opt _ _ _ (MONO _))
   | apply (m_else _ _ _ (MONO _)) | apply (m_enter _ _ _ (MONO _)) | apply (m_defs _ _ _ (MONO _)) | apply le_bind; [|intros]
   | match goal with |- le _ (match ?x with _ => _ end) (match ?y with _ => _ end) => unify x y; destruct x end ].
Local Ltac sm T := cbv zeta; repeat first [ apply sim_ret | apply sim_none | apply sim_er
  | eapply (t_eval' _ T); eassumption | apply (t_eval _ T) | apply (t_args _ T) | apply (t_plain _ T) | apply (t_chain _ T) | apply (t_lit _ T) | apply (t_exec _ T); try first [assumption | constructor; first [assumption | constructor; assumption]]
  | apply (t_for _ T); assumption | apply (t_list _ T); assumption | apply (t_block _ T); assumption | apply (t_opt _ T); assumption | apply (t_else _ T); assumption
  | apply (t_scall _ T) | apply (t_enter _ T); assumption | apply (t_defs _ T); assumption | apply (t_tree _ T)
  | apply sim_bind; [mono|mono| |intros]
  | match goal with |- sim (match ?x with _ => _ end) _ => destruct x end ].
Lemma tr_all n : tr n.
Proof.
  induction n as [|n T]; [split; intros; apply sim_none|]. split; intros.
  - eapply sim_S; [intro; apply eval_S|]. rewrite eval_S. cbv beta. destruct e; sm T.
  - eapply sim_S; [intro; apply eval_args_S|]. rewrite eval_args_S. cbv beta. destruct a; sm T.
  - eapply sim_S; [intro; apply eval_plain_S|]. rewrite eval_plain_S. cbv beta. destruct a; sm T.
  - eapply sim_S; [intro; apply eval_chain_S|]. rewrite eval_chain_S. cbv beta. destruct a; sm T.
  - eapply sim_S; [intro; apply eval_lit_S|]. rewrite eval_lit_S. cbv beta. destruct a; sm T.
  - eapply sim_S; [intro; apply exec_S|]. rewrite exec_S. cbv beta. destruct H; try (match goal with H : rel_o _ _ _ |- _ => destruct H end); sm T.
  - eapply sim_S; [intro; apply exec_for_S|]. rewrite exec_for_S. cbv beta. sm T.
  - eapply sim_S; [intro; apply exec_list_S|]. rewrite exec_list_S. cbv beta. destruct H; sm T.
  - eapply sim_S; [intro; apply exec_block_S|]. rewrite exec_block_S. cbv beta. sm T.
  - eapply sim_S; [intro; apply exec_opt_S|]. rewrite exec_opt_S. cbv beta. destruct H; sm T.
  - eapply sim_S; [intro; apply exec_else_S|]. rewrite exec_else_S. cbv beta. destruct H; sm T.
  - eapply sim_S; [intro; apply scall_S|]. rewrite scall_S. cbv beta.
    assert (X : forall i, match F i with
      | None => G i = None
      | Some fn => exists fn', G i = Some fn' /\ rel_fun R fn fn' /\ required fn' = required fn /\ sf_args fn' = sf_args fn /\ sf_variadic fn' = sf_variadic fn /\ forall k, accepts fn' k = accepts fn k end).
    { intro i. specialize (HT i). destruct (F i) as [fn|], (G i) as [fn'|]; try contradiction; [|reflexivity]. exists fn'. destruct (rel_required _ _ HT) as [A B].
      repeat split; auto; try apply HT. }
    destruct f; try (sm T; fail); [| |destruct f; try (sm T; fail)].
    all: match goal with |- sim (match F ?i with _ => _ end) _ => specialize (X i); destruct (F i); [|apply sim_none] end.
    all: destruct X as (fn' & -> & Y & X1 & X2 & X3 & X4); cbv zeta; rewrite X1, X2, X3, X4; sm T.
  - eapply sim_S; [intro; apply enter_S|]. rewrite enter_S. cbv beta zeta.
    destruct (rel_required _ _ H) as [-> _]. destruct H as [_ _ HD HB].
    assert (forall k, Forall2 R (skipn k (sf_defs fn)) (skipn k (sf_defs fn'))) by (intro; now apply forall2_skipn).
    destruct HB; sm T; apply (t_defs _ T), H.
  - eapply sim_S; [intro; apply eval_defs_S|]. rewrite eval_defs_S. cbv beta. destruct H; sm T.
  - eapply sim_S; [intro; apply stree_S|]. rewrite stree_S. cbv beta. sm T.
Qed.
End table.
