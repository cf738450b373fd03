(** Proofs for C43: one lemma per construct of the language, congruence, reordering, and the
    steps of the optimiser. *)
From Verif Require Import Base Native Err Value Ops Vm VmProofs Graph GraphSpec GraphProofs Peep PeepSpec PeepProofs Lang LangSpec CompUnf LangProofs CompGraph CompileSpec CompileProofs Opt OptSpec.
Local Open Scope nat_scope.

Section ev.
Context (P : prims) (funs : nat -> option sfun).
Local Notation st := (st P).
Local Notation "'do' ( x , s ) <- m ;; k" := (bind P m (fun x s => k)) (at level 200, m at level 100, k at level 200).

Definition okx {A} (f : nat -> M P A) (a : A) (s : st) : Prop := exists n, f n = Some (LangSpec.Ok P _ a s).
Definition upw {A} (f : nat -> M P A) : Prop := forall n, le P (f n) (f (S n)).
Lemma okx_bind {A B} (f : nat -> M P A) (k : nat -> A -> st -> M P B) b s : upw f -> (forall a s, upw (fun n => k n a s)) ->
  (okx (fun n => bind P (f n) (k n)) b s <-> exists a s1, okx f a s1 /\ okx (fun n => k n a s1) b s).
Proof.
  intros Hf Hk. unfold okx. rewrite (bind_ex P funs f k _ Hf (fun a s n => Hk a s n)). split.
  - intros [(e & w & H & E)|(a & s1 & H & K)]; [discriminate|eauto].
  - intros (a & s1 & H & K). right. eauto.
Qed.
Lemma okx_S {A} (f g : nat -> M P A) a s : f 0 = None -> (forall n, f (S n) = g n) -> (okx f a s <-> okx g a s).
Proof. intros Z E. apply (ex_S P); auto. Qed.
Lemma okx_ret {A} (a : A) s b s' : okx (fun _ => ret P a s) b s' <-> b = a /\ s' = s.
Proof. split; [intros [n [= <- <-]]; auto|intros [-> ->]; now exists 0]. Qed.
Lemma okx_none {A} (b : A) s' : okx (fun _ => None) b s' <-> False.
Proof. split; [intros [n H]; discriminate|tauto]. Qed.
Lemma okx_er {A} e w (b : A) s' : okx (fun _ => Some (Er P A e w)) b s' <-> False.
Proof. split; [intros [n H]; discriminate|tauto]. Qed.
Lemma okx_ext {A} (f g : nat -> M P A) a s : (forall n, f n = g n) -> (okx f a s <-> okx g a s).
Proof. intro E. unfold okx. split; intros [n H]; exists n; congruence. Qed.

Definition argsE fr a s vs s' : Prop := okx (fun n => eval_args P funs n fr a s) vs s'.
Definition plainE fr a s vs s' : Prop := okx (fun n => eval_plain P funs n fr a s) vs s'.
Definition chainE fr l c s v s' : Prop := okx (fun n => eval_chain P funs n fr l c s) v s'.
Definition litE fr l p a s x s' : Prop := okx (fun n => eval_lit P funs n fr l p a s) x s'.
Definition callE f vs s v s' : Prop := okx (fun n => scall P funs n f vs s) v s'.
Definition treeE t s v s' : Prop := okx (fun n => stree P funs n t s) v s'.
Local Notation ev := (gives P funs).

Local Ltac lm := cbv zeta; repeat first [ apply le_refl | apply le_none | apply le_bind; [|intros] | progress auto
  | match goal with |- le _ (match ?x with _ => _ end) (match ?y with _ => _ end) => unify x y; destruct x end ].
Local Ltac mono := intros; intro; cbv beta zeta; pose proof (mono_all P funs) as MONO; 
  repeat first [ apply le_refl | apply le_none | apply (m_eval _ _ _ (MONO _)) | apply (m_args _ _ _ (MONO _)) | apply (m_plain _ _ _ (MONO _))
   | apply (m_chain _ _ _ (MONO _)) | apply (m_lit _ _ _ (MONO _)) | apply (m_scall _ _ _ (MONO _)) | apply (m_tree _ _ _ (MONO _)) | apply le_bind; [|intros]
   | match goal with |- le _ (match ?x with _ => _ end) (match ?y with _ => _ end) => unify x y; destruct x end ].
Local Ltac unf L := match goal with |- (?l <-> _) => apply (iff_trans (B := l)); [reflexivity|] end; eapply iff_trans; [apply okx_S; [reflexivity|intro; apply L]|cbv beta iota].

Lemma ev_const fr h s v s' : ev fr (EConst h) s v s' <-> v = h /\ s' = s.
Proof. unf @eval_S. apply okx_ret. Qed.
Lemma ev_quit fr s v s' : ev fr EQuit s v s' <-> False.
Proof. unf @eval_S. apply okx_er. Qed.
Lemma ev_call fr f a s v s' : ev fr (ECall f a) s v s' <-> exists fv s1 vs s2, ev fr f s fv s1 /\ argsE fr a s1 vs s2 /\ callE fv vs s2 v s'.
Proof.
  unf @eval_S. rewrite (okx_bind (fun n => eval P funs n fr f s) (fun n fv s1 => do (vs, s) <- eval_args P funs n fr a s1 ;; scall P funs n fv vs s)) by mono.
  split.
  - intros (fv & s1 & H & K). apply (okx_bind (fun n => eval_args P funs n fr a s1) (fun n vs s => scall P funs n fv vs s)) in K; [|mono..].
    destruct K as (vs & s2 & K & J). exists fv, s1, vs, s2. auto.
  - intros (fv & s1 & vs & s2 & H & K & J). exists fv, s1. split; auto.
    apply (okx_bind (fun n => eval_args P funs n fr a s1) (fun n vs s => scall P funs n fv vs s)); [mono..|]. exists vs, s2. auto.
Qed.
Lemma ev_compose fr a f s v s' : ev fr (ECompose a f) s v s' <-> exists x s1 fv s2, ev fr a s x s1 /\ ev fr f s1 fv s2 /\ callE fv [x] s2 v s'.
Proof.
  unf @eval_S. rewrite (okx_bind (fun n => eval P funs n fr a s) (fun n x s1 => do (fv, s) <- eval P funs n fr f s1 ;; scall P funs n fv [x] s)) by mono.
  split.
  - intros (x & s1 & H & K). apply (okx_bind (fun n => eval P funs n fr f s1) (fun n fv s => scall P funs n fv [x] s)) in K; [|mono..].
    destruct K as (fv & s2 & K & J). exists x, s1, fv, s2. auto.
  - intros (x & s1 & fv & s2 & H & K & J). exists x, s1. split; auto.
    apply (okx_bind (fun n => eval P funs n fr f s1) (fun n fv s => scall P funs n fv [x] s)); [mono..|]. exists fv, s2. auto.
Qed.
Lemma okx_if {A} (b : bool) (f g : nat -> M P A) a s : okx (fun n => if b then f n else g n) a s <-> if b then okx f a s else okx g a s.
Proof. destruct b; reflexivity. Qed.
Lemma ev_prim fr p a s v s' : ev fr (EPrim p a) s v s' <-> exists vs s1, plainE fr a s vs s1 /\ length vs = prim_arity p /\ treeE (p_op P p vs (sworld P s1)) s1 v s'.
Proof.
  unf @eval_S. rewrite (okx_bind (fun n => eval_plain P funs n fr a s) (fun n vs s1 => if length vs =? prim_arity p then stree P funs n (p_op P p vs (sworld P s1)) s1 else None)) by mono.
  split; intros (vs & s1 & H & K); exists vs, s1; split; auto.
  - destruct (length vs =? prim_arity p) eqn:E; [|now destruct K]. split; [now apply Nat.eqb_eq|exact K].
  - destruct K as [E K]. apply Nat.eqb_eq in E. now rewrite E.
Qed.
Lemma ev_swap fr o l r s v s' : ev fr (EBinSwap o l r) s v s' <-> exists y s1 x s2, ev fr r s y s1 /\ ev fr l s1 x s2 /\ treeE (p_op P (PBinary o) [x; y] (sworld P s2)) s2 v s'.
Proof.
  unf @eval_S. rewrite (okx_bind (fun n => eval P funs n fr r s) (fun n y s1 => do (x, s) <- eval P funs n fr l s1 ;; stree P funs n (p_op P (PBinary o) [x; y] (sworld P s)) s)) by mono.
  split.
  - intros (y & s1 & H & K). apply (okx_bind (fun n => eval P funs n fr l s1) (fun n x s => stree P funs n (p_op P (PBinary o) [x; y] (sworld P s)) s)) in K; [|mono..].
    destruct K as (x & s2 & K & J). exists y, s1, x, s2. auto.
  - intros (y & s1 & x & s2 & H & K & J). exists y, s1. split; auto.
    apply (okx_bind (fun n => eval P funs n fr l s1) (fun n x s => stree P funs n (p_op P (PBinary o) [x; y] (sworld P s)) s)); [mono..|]. exists x, s2. auto.
Qed.
Lemma ev_and fr a b s v s' : ev fr (EAnd a b) s v s' <-> exists x s1, ev fr a s x s1 /\ if p_bool P (sworld P s1) x then ev fr b s1 v s' else v = x /\ s' = s1.
Proof.
  unf @eval_S. rewrite (okx_bind (fun n => eval P funs n fr a s) (fun n x s1 => if p_bool P (sworld P s1) x then eval P funs n fr b s1 else ret P x s1)) by mono.
  split; intros (x & s1 & H & K); exists x, s1; (split; [exact H|]); destruct (p_bool P (sworld P s1) x); auto; now apply okx_ret.
Qed.
Lemma ev_or fr a b s v s' : ev fr (EOr a b) s v s' <-> exists x s1, ev fr a s x s1 /\ if p_bool P (sworld P s1) x then v = x /\ s' = s1 else ev fr b s1 v s'.
Proof.
  unf @eval_S. rewrite (okx_bind (fun n => eval P funs n fr a s) (fun n x s1 => if p_bool P (sworld P s1) x then ret P x s1 else eval P funs n fr b s1)) by mono.
  split; intros (x & s1 & H & K); exists x, s1; (split; [exact H|]); destruct (p_bool P (sworld P s1) x); auto; now apply okx_ret.
Qed.
Lemma ev_if fr c a b s v s' : ev fr (EIf c a b) s v s' <-> exists x s1, ev fr c s x s1 /\ if p_bool P (sworld P s1) x then ev fr a s1 v s' else ev fr b s1 v s'.
Proof.
  unf @eval_S. rewrite (okx_bind (fun n => eval P funs n fr c s) (fun n x s1 => if p_bool P (sworld P s1) x then eval P funs n fr a s1 else eval P funs n fr b s1)) by mono.
  split; intros (x & s1 & H & K); exists x, s1; (split; [exact H|]); destruct (p_bool P (sworld P s1) x); auto.
Qed.
Lemma ev_var fr x s v s' : ev fr (EVar x) s v s' <-> s' = s /\ exists l, var_loc P fr x s = ret P l s /\ nth_error (store P s) l = Some v.
Proof.
  unf @eval_S. rewrite (okx_bind (fun n => var_loc P fr x s) (fun n l s1 => read P l s1)) by mono.
  assert (VL : forall l s1, okx (fun _ => var_loc P fr x s) l s1 <-> s1 = s /\ var_loc P fr x s = ret P l s).
  { intros l s1. unfold okx. split.
    - intros [n H]. assert (s1 = s) as ->; [|auto]. unfold var_loc, ret in H. destruct x; repeat (match type of H with context [match ?y with _ => _ end] => destruct y end); try discriminate; congruence.
    - intros [-> H]. now exists 0. }
  split.
  - intros (l & s1 & H & K). apply VL in H as [-> H]. destruct K as [n K]. unfold read in K. destruct (nth_error (store P s) l) as [y|] eqn:E; [|discriminate].
    injection K as -> <-. eauto.
  - intros [-> (l & H & E)]. exists l, s. split; [now apply VL|]. exists 0. unfold read. now rewrite E.
Qed.
Lemma ev_method fr f e s v s' : ev fr (EMethod f e) s v s' <-> exists x, ev fr e s x s' /\ v = HPartial (HFun f) [x].
Proof.
  unf @eval_S. rewrite (okx_bind (fun n => eval P funs n fr e s) (fun n x s1 => ret P (HPartial (HFun f) [x]) s1)) by mono.
  split.
  - intros (x & s1 & H & K). apply okx_ret in K as [-> ->]. eauto.
  - intros (x & H & ->). exists x, s'. split; auto. now apply okx_ret.
Qed.
Lemma ev_closure fr f c cs s v s' : ev fr (EClosure f c cs) s v s' <->
  exists ls, captured fr (c :: cs) = Some ls /\ v = HClosure f (length (senvs P s)) /\ s' = St P (store P s) (senvs P s ++ [ls]) (globals P s) (sworld P s).
Proof.
  unf @eval_S. destruct (captured fr (c :: cs)) as [ls|].
  - unfold new_closure. rewrite okx_ret. split; [intros [-> ->]; eauto|intros (l & [= <-] & -> & ->); auto].
  - rewrite okx_none. split; [tauto|intros (l & H & _); discriminate].
Qed.
Lemma ev_lit fr t a s v s' : ev fr (ELit t a) s v s' <-> exists l s1 w, litE fr (l_new P t (n_args a)) [] a s l s1 /\ l_end P l (sworld P s1) = (w, v) /\ s' = with_world P w s1.
Proof.
  unf @eval_S. rewrite (okx_bind (fun n => eval_lit P funs n fr (l_new P t (n_args a)) [] a s) (fun n l s1 => let '(w, v) := l_end P l (sworld P s1) in ret P v (with_world P w s1))) by mono.
  split.
  - intros (l & s1 & H & K). destruct (l_end P l (sworld P s1)) as [w x] eqn:E. apply okx_ret in K as [-> ->]. exists l, s1, w. auto.
  - intros (l & s1 & w & H & E & ->). exists l, s1. split; auto. rewrite E. now apply okx_ret.
Qed.
Lemma args_nil fr s vs s' : argsE fr ANil s vs s' <-> vs = [] /\ s' = s.
Proof. unf @eval_args_S. apply okx_ret. Qed.
Lemma args_plain fr e r s vs s' : argsE fr (ACons false e r) s vs s' <-> exists v s1 t, ev fr e s v s1 /\ argsE fr r s1 t s' /\ vs = v :: t.
Proof.
  unf @eval_args_S. rewrite (okx_bind (fun n => eval P funs n fr e s) (fun n v s1 => do (vs, s) <- eval_args P funs n fr r s1 ;; ret P (v :: vs) s)) by mono.
  split.
  - intros (v & s1 & H & K). apply (okx_bind (fun n => eval_args P funs n fr r s1) (fun n vs s => ret P (v :: vs) s)) in K; [|mono..].
    destruct K as (t & s2 & K & J). apply okx_ret in J as [-> ->]. exists v, s1, t. auto.
  - intros (v & s1 & t & H & K & ->). exists v, s1. split; auto.
    apply (okx_bind (fun n => eval_args P funs n fr r s1) (fun n vs s => ret P (v :: vs) s)); [mono..|]. exists t, s'. split; auto. now apply okx_ret.
Qed.
Lemma args_spread fr e r s vs s' : argsE fr (ACons true e r) s vs s' <->
  exists v s1 w l t, ev fr e s v s1 /\ p_unroll P v (sworld P s1) = (w, inr l) /\ argsE fr r (with_world P w s1) t s' /\ vs = l ++ t.
Proof.
  unf @eval_args_S. rewrite (okx_bind (fun n => eval P funs n fr e s) (fun n v s1 => match p_unroll P v (sworld P s1) with (w, inl x) => Some (Er P _ (XPrim x) w) | (w, inr l) => do (vs, s) <- eval_args P funs n fr r (with_world P w s1) ;; ret P (l ++ vs) s end)) by mono.
  split.
  - intros (v & s1 & H & K). destruct (p_unroll P v (sworld P s1)) as [w [x|l]] eqn:E; [now destruct K|].
    apply (okx_bind (fun n => eval_args P funs n fr r (with_world P w s1)) (fun n vs s => ret P (l ++ vs) s)) in K; [|mono..].
    destruct K as (t & s2 & K & J). apply okx_ret in J as [-> ->]. exists v, s1, w, l, t. auto.
  - intros (v & s1 & w & l & t & H & E & K & ->). exists v, s1. split; auto. rewrite E.
    apply (okx_bind (fun n => eval_args P funs n fr r (with_world P w s1)) (fun n vs s => ret P (l ++ vs) s)); [mono..|]. exists t, s'. split; auto. now apply okx_ret.
Qed.
Lemma plain_nil fr s vs s' : plainE fr ANil s vs s' <-> vs = [] /\ s' = s.
Proof. unf @eval_plain_S. apply okx_ret. Qed.
Lemma plain_cons fr e r s vs s' : plainE fr (ACons false e r) s vs s' <-> exists v s1 t, ev fr e s v s1 /\ plainE fr r s1 t s' /\ vs = v :: t.
Proof.
  unf @eval_plain_S. rewrite (okx_bind (fun n => eval P funs n fr e s) (fun n v s1 => do (vs, s) <- eval_plain P funs n fr r s1 ;; ret P (v :: vs) s)) by mono.
  split.
  - intros (v & s1 & H & K). apply (okx_bind (fun n => eval_plain P funs n fr r s1) (fun n vs s => ret P (v :: vs) s)) in K; [|mono..].
    destruct K as (t & s2 & K & J). apply okx_ret in J as [-> ->]. exists v, s1, t. auto.
  - intros (v & s1 & t & H & K & ->). exists v, s1. split; auto.
    apply (okx_bind (fun n => eval_plain P funs n fr r s1) (fun n vs s => ret P (v :: vs) s)); [mono..|]. exists t, s'. split; auto. now apply okx_ret.
Qed.
Lemma plain_spread fr e r s vs s' : plainE fr (ACons true e r) s vs s' <-> False.
Proof. unf @eval_plain_S. apply okx_none. Qed.
Definition flush (l : L P) (pend : list hval) (w : W P) : L P := match pend with [] => l | _ => l_acc P l pend w end.
Lemma lit_nil fr l p s x s' : litE fr l p ANil s x s' <-> x = flush l p (sworld P s) /\ s' = s.
Proof. unf @eval_lit_S. apply okx_ret. Qed.
Lemma lit_plain fr l p e r s x s' : litE fr l p (ACons false e r) s x s' <-> exists v s1, ev fr e s v s1 /\ litE fr l (p ++ [v]) r s1 x s'.
Proof.
  unf @eval_lit_S. rewrite (okx_bind (fun n => eval P funs n fr e s) (fun n v s1 => eval_lit P funs n fr l (p ++ [v]) r s1)) by mono. reflexivity.
Qed.
Lemma lit_spread fr l p e r s x s' : litE fr l p (ACons true e r) s x s' <->
  exists v s1 w l', ev fr e s v s1 /\ l_unroll P (flush l p (sworld P s)) v (sworld P s1) = (w, inr l') /\ litE fr l' [] r (with_world P w s1) x s'.
Proof.
  unf @eval_lit_S. rewrite (okx_bind (fun n => eval P funs n fr e s) (fun n v s1 => match l_unroll P (flush l p (sworld P s)) v (sworld P s1) with (w, inl x) => Some (Er P _ (XPrim x) w) | (w, inr l) => eval_lit P funs n fr l [] r (with_world P w s1) end)) by mono.
  split.
  - intros (v & s1 & H & K). destruct (l_unroll P _ v (sworld P s1)) as [w [y|l']] eqn:E; [now destruct K|]. exists v, s1, w, l'. auto.
  - intros (v & s1 & w & l' & H & E & K). exists v, s1. split; auto. rewrite E. exact K.
Qed.
Lemma tree_ret w h s v s' : treeE (TRet w h) s v s' <-> v = h /\ s' = with_world P w s.
Proof. unf @stree_S. apply okx_ret. Qed.
Lemma tree_err w e s v s' : treeE (TErr w e) s v s' <-> False.
Proof. unf @stree_S. apply okx_er. Qed.
Lemma tree_fails t s v s' : fails_with t -> treeE t s v s' <-> False.
Proof. intros (w & e & ->). apply tree_err. Qed.
Lemma call_builtin h vs s v s' : ~ user_function h -> callE h vs s v s' <-> treeE (p_call P h vs (sworld P s)) s v s'.
Proof.
  intro N. unf @scall_S. destruct h as [| | | |[]| | | |]; try (exfalso; exact (N Logic.I)); reflexivity.
Qed.
Lemma ev_det fr e s v s' v2 s2 : ev fr e s v s' -> ev fr e s v2 s2 -> v2 = v /\ s2 = s'.
Proof. intros H J. pose proof (evals_det P funs fr e s _ _ H J) as E. injection E; auto. Qed.
Lemma ev_compare fr l c e r s v s' : ev fr (ECompare l c e r) s v s' <->
  exists x s1 y s2, ev fr l s x s1 /\ ev fr e s1 y s2 /\ if p_compare P (sworld P s2) c x y then chainE fr y r s2 v s' else v = HBool false /\ s' = s2.
Proof.
  unf @eval_S. rewrite (okx_bind (fun n => eval P funs n fr l s) (fun n x s1 => do (y, s) <- eval P funs n fr e s1 ;; if p_compare P (sworld P s) c x y then eval_chain P funs n fr y r s else ret P (HBool false) s)) by mono.
  split.
  - intros (x & s1 & H & K). apply (okx_bind (fun n => eval P funs n fr e s1) (fun n y s => if p_compare P (sworld P s) c x y then eval_chain P funs n fr y r s else ret P (HBool false) s)) in K; [|mono..].
    destruct K as (y & s2 & K & J). exists x, s1, y, s2. repeat split; auto. destruct (p_compare P _ c x y); auto. now apply okx_ret in J.
  - intros (x & s1 & y & s2 & H & K & J). exists x, s1. split; auto.
    apply (okx_bind (fun n => eval P funs n fr e s1) (fun n y s => if p_compare P (sworld P s) c x y then eval_chain P funs n fr y r s else ret P (HBool false) s)); [mono..|].
    exists y, s2. split; auto. destruct (p_compare P _ c x y); auto. now apply okx_ret.
Qed.
Lemma chain_last fr l c e s v s' : chainE fr l (CLast c e) s v s' <-> exists y s1, ev fr e s y s1 /\ treeE (p_op P (PBinary (cmp_binop c)) [l; y] (sworld P s1)) s1 v s'.
Proof.
  unf @eval_chain_S. rewrite (okx_bind (fun n => eval P funs n fr e s) (fun n y s1 => stree P funs n (p_op P (PBinary (cmp_binop c)) [l; y] (sworld P s1)) s1)) by mono. reflexivity.
Qed.
Lemma chain_cons fr l c e r s v s' : chainE fr l (CCons c e r) s v s' <-> exists y s1, ev fr e s y s1 /\ if p_compare P (sworld P s1) c l y then chainE fr y r s1 v s' else v = HBool false /\ s' = s1.
Proof.
  unf @eval_chain_S. rewrite (okx_bind (fun n => eval P funs n fr e s) (fun n y s1 => if p_compare P (sworld P s1) c l y then eval_chain P funs n fr y r s1 else ret P (HBool false) s1)) by mono.
  split; intros (y & s1 & H & K); exists y, s1; (split; [exact H|]); destruct (p_compare P _ c l y); auto; now apply okx_ret.
Qed.
Lemma ev_assign fr x e s v s' : ev fr (EAssign x e) s v s' <->
  exists s1 l s2, ev fr e s v s1 /\ var_loc P fr x s1 = Some (LangSpec.Ok P _ l s2) /\ (l <? length (store P s2)) = true /\ s' = set_loc P l v s2.
Proof.
  unf @eval_S. rewrite (okx_bind (fun n => eval P funs n fr e s) (fun n v s1 => do (l, s) <- var_loc P fr x s1 ;; if l <? length (store P s) then ret P v (set_loc P l v s) else None)) by mono.
  split.
  - intros (y & s1 & H & [n K]). destruct (var_loc P fr x s1) as [[l s2|]|] eqn:E; cbn [bind] in K; try discriminate.
    destruct (l <? length (store P s2)) eqn:Lt; [|discriminate]. injection K as <- <-. exists s1, l, s2. auto.
  - intros (s1 & l & s2 & H & E & Lt & ->). exists v, s1. split; auto. exists 0. rewrite E. cbn [bind]. now rewrite Lt.
Qed.
End ev.
