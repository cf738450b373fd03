(** Laws of the definitional interpreter in terms of CompileSpec.v. *)
From Verif Require Import Base Native Err Vm VmProofs Graph GraphSpec GraphProofs Peep PeepSpec PeepProofs PeepProofs2 Lang LangSpec LangCheck Compile CompUnf LangProofs Lit CompileSpec CompSim7 CompWf P_Peep.
Local Open Scope nat_scope.

Section laws.
Context (P : prims) (funs : nat -> option sfun).
Local Notation st := (st P).
Local Notation evals := (evals P funs).
Local Notation runs := (runs P funs).
Local Notation eval := (eval P funs).

(** [bind] with enough fuel *)
Definition seqR {A B} (R : res P A -> Prop) (K : A -> st -> res P B -> Prop) (r : res P B) : Prop :=
  (exists e w, R (Er P _ e w) /\ r = Er P _ e w) \/ (exists a s, R (Ok P _ a s) /\ K a s r).
Lemma bind_ex {A B} (f : nat -> M P A) (k : nat -> A -> st -> M P B) r :
  (forall n, le P (f n) (f (S n))) -> (forall a s n, le P (k n a s) (k (S n) a s)) ->
  ((exists n, bind P (f n) (k n) = Some r) <-> seqR (fun r => exists n, f n = Some r) (fun a s r => exists n, k n a s = Some r) r).
Proof.
  intros Hf Hk. split.
  - intros [n H]. destruct (f n) as [[a s|e w]|] eqn:E; cbn [bind] in H; [|injection H as <-|discriminate].
    + right. exists a, s. split; [exists n; exact E|exists n; exact H].
    + left. exists e, w. split; [exists n; exact E|reflexivity].
  - intros [(e & w & [n H] & ->)|(a & s & [n H] & [m J])].
    + exists n. now rewrite H.
    + exists (max n m). rewrite (up_mono P f Hf n (max n m) ltac:(lia) _ H). cbn [bind].
      exact (up_mono P (fun n => k n a s) (Hk a s) m (max n m) ltac:(lia) _ J).
Qed.
Lemma ex_S {A} (f g : nat -> M P A) r : f 0 = None -> (forall n, f (S n) = g n) -> ((exists n, f n = Some r) <-> exists n, g n = Some r).
Proof.
  intros Z E. split; intros [n H].
  - destruct n; [congruence|]. exists n. now rewrite <- E.
  - exists (S n). now rewrite E.
Qed.
Lemma le_r {A} (m : M P A) : le P m m. Proof. apply le_refl. Qed.
Hint Resolve m_eval m_args m_plain m_chain m_lit m_exec m_for LangProofs.m_list m_block m_opt m_else m_scall m_enter m_defs m_tree mono_all le_r : mono.
Lemma le_eval fr e s n : le P (eval n fr e s) (eval (S n) fr e s). Proof. apply m_eval, mono_all. Qed.
Lemma evals_det fr e s r r' : evals fr e s r -> evals fr e s r' -> r = r'.
Proof. intros [n H] [m J]. exact (up_det P (fun n => eval n fr e s) (le_eval fr e s) n m r r' H J). Qed.
Lemma le_if {A} (b : bool) (x x' y y' : M P A) : le P x x' -> le P y y' -> le P (if b then x else y) (if b then x' else y').
Proof. now destruct b. Qed.
Lemma const_ex {A} (m : M P A) r : (exists n : nat, m = Some r) <-> m = Some r.
Proof. split; [now intros [_ H] | intro H; now exists 0]. Qed.

Lemma evals_and fr a b s r : evals fr (EAnd a b) s r <->
  seqR (evals fr a s) (fun v s' r => if p_bool P (sworld P s') v then evals fr b s' r else r = Ok P _ v s') r.
Proof.
  unfold CompileSpec.evals. rewrite (ex_S (fun n => eval n fr (EAnd a b) s) _ r eq_refl (fun n => eval_S P funs n fr _ s)). cbv beta iota.
  rewrite (bind_ex (fun n => eval n fr a s) (fun n v s' => if p_bool P (sworld P s') v then eval n fr b s' else ret P v s')).
  - split; (intros [H|(v & s' & H & J)]; [left; auto|right; exists v, s'; split; auto]); destruct (p_bool P (sworld P s') v); auto.
    + destruct J as [n [= <-]]. reflexivity.
    + subst. now exists 0.
  - intro. apply le_eval.
  - intros. apply le_if; [apply le_eval|apply le_r].
Qed.
Lemma evals_or fr a b s r : evals fr (EOr a b) s r <->
  seqR (evals fr a s) (fun v s' r => if p_bool P (sworld P s') v then r = Ok P _ v s' else evals fr b s' r) r.
Proof.
  unfold CompileSpec.evals. rewrite (ex_S (fun n => eval n fr (EOr a b) s) _ r eq_refl (fun n => eval_S P funs n fr _ s)). cbv beta iota.
  rewrite (bind_ex (fun n => eval n fr a s) (fun n v s' => if p_bool P (sworld P s') v then ret P v s' else eval n fr b s')).
  - split; (intros [H|(v & s' & H & J)]; [left; auto|right; exists v, s'; split; auto]); destruct (p_bool P (sworld P s') v); auto.
    + destruct J as [n [= <-]]. reflexivity.
    + subst. now exists 0.
  - intro. apply le_eval.
  - intros. apply le_if; [apply le_r|apply le_eval].
Qed.
Lemma evals_if fr c a b s r : evals fr (EIf c a b) s r <->
  seqR (evals fr c s) (fun v s' r => if p_bool P (sworld P s') v then evals fr a s' r else evals fr b s' r) r.
Proof.
  unfold CompileSpec.evals. rewrite (ex_S (fun n => eval n fr (EIf c a b) s) _ r eq_refl (fun n => eval_S P funs n fr _ s)). cbv beta iota.
  rewrite (bind_ex (fun n => eval n fr c s) (fun n v s' => if p_bool P (sworld P s') v then eval n fr a s' else eval n fr b s')).
  - split; (intros [H|(v & s' & H & J)]; [left; auto|right; exists v, s'; split; auto]); destruct (p_bool P (sworld P s') v); auto.
  - intro. apply le_eval.
  - intros. apply le_if; apply le_eval.
Qed.
Lemma evals_const fr v s r : evals fr (EConst v) s r <-> r = Ok P _ v s.
Proof. split; [intros [[|n] H]; [discriminate|injection H as <-; reflexivity] | intros ->; now exists 1]. Qed.

(** ** Chains *)
Lemma chain_rest_ev fr : compare_ok P -> forall l c e v s d b s', chain_ev P funs fr v ((c, e) :: l) s d b s' ->
  exists n, eval_chain P funs n fr v (chain_rest c e l) s = Some (Ok P _ (HBool b) s').
Proof.
  intros CO. induction l as [|[c' e'] l IH]; intros c e v s d b s' H; cbn [chain_rest].
  - inversion H; subst.
    + match goal with HE : CompileSpec.evals _ _ _ e s _ |- _ => destruct HE as [n E] end. exists (S (S n)). rewrite eval_chain_S.
      rewrite (le_eval fr e s n _ E). cbn [bind]. rewrite CO. rewrite stree_S. match goal with HC : p_compare _ _ _ _ _ = _ |- _ => rewrite HC end.
      destruct s'; reflexivity.
    + match goal with HE : CompileSpec.evals _ _ _ e s _ |- _ => destruct HE as [n E] end. exists (S (S n)). rewrite eval_chain_S.
      rewrite (le_eval fr e s n _ E). cbn [bind]. rewrite CO. rewrite stree_S. match goal with HC : p_compare _ _ _ _ _ = _ |- _ => rewrite HC end.
      match goal with HC : chain_ev _ _ _ _ [] _ _ _ _ |- _ => inversion HC; subst end. destruct s'; reflexivity.
  - inversion H; subst.
    + match goal with HE : CompileSpec.evals _ _ _ e s _ |- _ => destruct HE as [n E] end. exists (S n). rewrite eval_chain_S, E. cbn [bind].
      match goal with HC : p_compare _ _ _ _ _ = _ |- _ => rewrite HC end. reflexivity.
    + match goal with HE : CompileSpec.evals _ _ _ e s _ |- _ => destruct HE as [n E] end.
      match goal with HC : chain_ev _ _ _ _ (_ :: _) _ _ _ _ |- _ => destruct (IH _ _ _ _ _ _ _ HC) as [m J] end.
      exists (S (max n m)). rewrite eval_chain_S.
      rewrite (up_mono P _ (le_eval fr e s) n (max n m) ltac:(lia) _ E). cbn [bind].
      match goal with HC : p_compare _ _ _ _ _ = _ |- _ => rewrite HC end.
      exact (up_mono P (fun n => eval_chain P funs n fr x (chain_rest c' e' l) s'0) (fun n => m_chain P funs n (mono_all P funs n) fr x _ s'0) m (max n m) ltac:(lia) _ J).
Qed.
Lemma chain_evals fr e0 c1 e1 c2 e2 l s v0 s0 d b s' : compare_ok P -> evals fr e0 s (Ok P _ v0 s0) ->
  chain_ev P funs fr v0 ((c1, e1) :: (c2, e2) :: l) s0 d b s' -> evals fr (chain e0 c1 e1 c2 e2 l) s (Ok P _ (HBool b) s').
Proof.
  intros CO [n E] H. unfold chain. inversion H; subst.
  - match goal with HE : CompileSpec.evals _ _ _ e1 s0 _ |- _ => destruct HE as [m J] end. exists (S (max n m)). rewrite eval_S.
    rewrite (up_mono P _ (le_eval fr e0 s) n (max n m) ltac:(lia) _ E). cbn [bind].
    rewrite (up_mono P _ (le_eval fr e1 s0) m (max n m) ltac:(lia) _ J). cbn [bind].
    match goal with HC : p_compare _ _ _ _ _ = _ |- _ => rewrite HC end. reflexivity.
  - match goal with HE : CompileSpec.evals _ _ _ e1 s0 _ |- _ => destruct HE as [m J] end.
    match goal with HC : chain_ev _ _ _ _ (_ :: _) _ _ _ _ |- _ => destruct (chain_rest_ev fr CO _ _ _ _ _ _ _ _ HC) as [k L] end.
    exists (S (max k (max n m))). rewrite eval_S.
    rewrite (up_mono P _ (le_eval fr e0 s) n (max k (max n m)) ltac:(lia) _ E). cbn [bind].
    rewrite (up_mono P _ (le_eval fr e1 s0) m (max k (max n m)) ltac:(lia) _ J). cbn [bind].
    match goal with HC : p_compare _ _ _ _ _ = _ |- _ => rewrite HC end.
    match goal with |- eval_chain _ _ _ _ ?x ?r ?t = _ =>
      exact (up_mono P (fun n => eval_chain P funs n fr x r t) (fun n => m_chain P funs n (mono_all P funs n) fr x _ t) k (max k (max n m)) ltac:(lia) _ L) end.
Qed.
(** the operands evaluated are a prefix of the chain, all of it iff the result is true *)
Lemma chain_ev_prefix fr v l s d b s' : chain_ev P funs fr v l s d b s' -> exists k, d = map snd (firstn k l) /\ (b = true -> d = map snd l).
Proof.
  induction 1.
  - exists 0. auto.
  - exists 1. split; [reflexivity|discriminate].
  - destruct IHchain_ev as [k [A B]]. exists (S k). simpl. split; [now f_equal|]. intro. now rewrite B.
Qed.

(** ** Arguments and literals *)
Lemma args_evals fr a s vs s' : args_ev P funs fr a s vs s' -> exists n, eval_args P funs n fr a s = Some (Ok P _ vs s').
Proof.
  assert (MA : forall r t n, le P (eval_args P funs n fr r t) (eval_args P funs (S n) fr r t)) by (intros; apply m_args, mono_all).
  induction 1 as [s|e r s v s1 vs s2 [n E] H [m J]|e r s v s1 w l vs s2 [n E] U H [m J]].
  - now exists 1.
  - exists (S (max n m)). rewrite eval_args_S.
    rewrite (up_mono P _ (le_eval fr e s) n (max n m) ltac:(lia) _ E). cbn [bind].
    rewrite (up_mono P _ (MA r s1) m (max n m) ltac:(lia) _ J). reflexivity.
  - exists (S (max n m)). rewrite eval_args_S.
    rewrite (up_mono P _ (le_eval fr e s) n (max n m) ltac:(lia) _ E). cbn [bind]. rewrite U.
    rewrite (up_mono P _ (MA r (with_world P w s1)) m (max n m) ltac:(lia) _ J). reflexivity.
Qed.
Lemma le_scall f a s n : le P (scall P funs n f a s) (scall P funs (S n) f a s). Proof. apply m_scall, mono_all. Qed.
Lemma call_evals fr f a s fv s1 vs s2 r : evals fr f s (Ok P _ fv s1) -> args_ev P funs fr a s1 vs s2 ->
  (calls P funs fv vs s2 r <-> evals fr (ECall f a) s r).
Proof.
  intros [n E] H. destruct (args_evals _ _ _ _ _ H) as [m J].
  assert (MA : forall r t n, le P (eval_args P funs n fr r t) (eval_args P funs (S n) fr r t)) by (intros; apply m_args, mono_all).
  assert (X : forall k, max n m <= k -> eval (S k) fr (ECall f a) s = scall P funs k fv vs s2).
  { intros k L. rewrite eval_S. rewrite (up_mono P _ (le_eval fr f s) n k ltac:(lia) _ E). cbn [bind].
    rewrite (up_mono P _ (MA a s1) m k ltac:(lia) _ J). reflexivity. }
  split.
  - intros [k C]. exists (S (max k (max n m))). rewrite X by lia. exact (up_mono P _ (le_scall fv vs s2) k (max k (max n m)) ltac:(lia) _ C).
  - intros [k C]. exists (max k (max n m)). rewrite <- X by lia. exact (up_mono P _ (le_eval fr (ECall f a) s) k (S (max k (max n m))) ltac:(lia) _ C).
Qed.
Lemma lit_evals fr t spread reps : holds_elements P t spread reps -> forall a s vs s', items_ev P funs spread fr a s vs s' ->
  forall l pend xs, reps l xs -> flushes (fits t) (length pend) a = true ->
  exists n l', eval_lit P funs n fr l pend a s = Some (Ok P _ l' s') /\ reps l' (xs ++ pend ++ vs).
Proof.
  intros [He1 He2 He3]. 
  assert (ML : forall l p r t n, le P (eval_lit P funs n fr l p r t) (eval_lit P funs (S n) fr l p r t)) by (intros; apply m_lit, mono_all).
  assert (FL : forall l xs pend w, reps l xs -> fits t (length pend) = true -> reps (match pend with [] => l | _ => l_acc P l pend w end) (xs ++ pend)).
  { intros l xs [|p q] w R F; [now rewrite app_nil_r|auto]. }
  intros a s vs s'. induction 1 as [s|e r s v s1 vs s2 [n E] H IH|e r s v s1 w l0 vs s2 [n E] U H IH]; intros l pend xs R F; cbn [flushes] in F.
  - exists 1. eexists. rewrite eval_lit_S. split; [reflexivity|]. rewrite app_nil_r. now apply FL.
  - assert (F' : flushes (fits t) (length (pend ++ [v])) r = true) by (rewrite app_length, Nat.add_comm; exact F).
    destruct (IH l (pend ++ [v]) xs R F') as (m & l' & J & R'). exists (S (max n m)), l'. rewrite eval_lit_S. cbv zeta.
    rewrite (up_mono P _ (le_eval fr e s) n (max n m) ltac:(lia) _ E). cbn [bind]. rewrite (up_mono P _ (ML l (pend ++ [v]) r s1) m (max n m) ltac:(lia) _ J).
    split; [reflexivity|]. now rewrite <- app_assoc in R'.
  - apply andb_true_iff in F. destruct F as [F1 F2].
    destruct (He3 _ _ v (sworld P s1) w l0 (FL l xs pend (sworld P s) R F1) U) as (l1 & U1 & R1).
    destruct (IH l1 [] _ R1 F2) as (m & l' & J & R'). exists (S (max n m)), l'. rewrite eval_lit_S. cbv zeta.
    rewrite (up_mono P _ (le_eval fr e s) n (max n m) ltac:(lia) _ E). cbn [bind]. rewrite U1. rewrite (up_mono P _ (ML l1 [] r (with_world P w s1)) m (max n m) ltac:(lia) _ J).
    split; [reflexivity|]. simpl in R'. rewrite <- !app_assoc in R'. exact R'.
Qed.
Lemma literal_evals fr t spread reps a s vs s' : holds_elements P t spread reps -> whole t a = true -> items_ev P funs spread fr a s vs s' ->
  exists l, reps l vs /\ evals fr (ELit t a) s (Ok P _ (snd (l_end P l (sworld P s'))) (with_world P (fst (l_end P l (sworld P s'))) s')).
Proof.
  intros H F J. destruct (lit_evals fr t spread reps H a s vs s' J (l_new P t (n_args a)) [] [] (he_new _ _ _ _ H _) F) as (n & l & E & R).
  exists l. split; [exact R|]. exists (S n). rewrite eval_S, E. cbn [bind]. destruct (l_end P l (sworld P s')) as [w v]. reflexivity.
Qed.
Lemma consts_ev fr vs : forall s, args_ev P funs fr (consts vs) s vs s.
Proof. induction vs as [|v vs IH]; intro s; [constructor|]. cbn [consts]. econstructor; [now apply evals_const|apply IH]. Qed.
Lemma call_same fr f a s fv s1 vs s2 r : evals fr f s (Ok P _ fv s1) -> args_ev P funs fr a s1 vs s2 ->
  evals fr (ECall (EConst fv) (consts vs)) s2 r -> evals fr (ECall f a) s r.
Proof.
  intros Hf Ha H. eapply call_evals; eauto. eapply (call_evals fr (EConst fv) (consts vs)); [now apply evals_const|apply consts_ev|exact H].
Qed.
(** a spread that is not iterable *)
Lemma args_err fr spread a e b s vs s1 v s2 x w : items_ev P funs spread fr a s vs s1 -> (forall v w w' l, spread v w w' l -> p_unroll P v w = (w', inr l)) ->
  evals fr e s1 (Ok P _ v s2) -> p_unroll P v (sworld P s2) = (w, inl x) ->
  exists n, eval_args P funs n fr (args_app a (ACons true e b)) s = Some (Er P _ (XPrim x) w).
Proof.
  assert (MA : forall r t n, le P (eval_args P funs n fr r t) (eval_args P funs (S n) fr r t)) by (intros; apply m_args, mono_all).
  intros H SP He U. induction H as [s|e0 r s v0 s0 vs s3 [n E] H IH|e0 r s v0 s0 w0 l0 vs s3 [n E] U0 H IH]; cbn [args_app].
  - destruct He as [n E]. exists (S n). rewrite eval_args_S, E. cbn [bind]. now rewrite U.
  - destruct (IH He) as [m J]. exists (S (max n m)). rewrite eval_args_S.
    rewrite (up_mono P _ (le_eval fr e0 s) n (max n m) ltac:(lia) _ E). cbn [bind].
    rewrite (up_mono P _ (MA _ s0) m (max n m) ltac:(lia) _ J). reflexivity.
  - destruct (IH He) as [m J]. exists (S (max n m)). rewrite eval_args_S.
    rewrite (up_mono P _ (le_eval fr e0 s) n (max n m) ltac:(lia) _ E). cbn [bind]. rewrite (SP _ _ _ _ U0).
    rewrite (up_mono P _ (MA _ (with_world P w0 s0)) m (max n m) ltac:(lia) _ J). reflexivity.
Qed.
Lemma call_err fr f a e b s fv s0 vs s1 v s2 x w : evals fr f s (Ok P _ fv s0) -> args_ev P funs fr a s0 vs s1 ->
  evals fr e s1 (Ok P _ v s2) -> p_unroll P v (sworld P s2) = (w, inl x) -> evals fr (ECall f (args_app a (ACons true e b))) s (Er P _ (XPrim x) w).
Proof.
  intros [n E] Ha He U. destruct (args_err fr _ a e b s0 vs s1 v s2 x w Ha (fun v w w' l H => H) He U) as [m J].
  exists (S (max n m)). rewrite eval_S. rewrite (up_mono P _ (le_eval fr f s) n (max n m) ltac:(lia) _ E). cbn [bind].
  rewrite (up_mono P (fun n => eval_args P funs n fr _ s0) (fun n => m_args P funs n (mono_all P funs n) fr _ s0) m (max n m) ltac:(lia) _ J). reflexivity.
Qed.

(** ** Statement sequences *)
Lemma le_list g fr last b s n : le P (exec_list P funs n g fr last b s) (exec_list P funs (S n) g fr last b s). Proof. apply LangProofs.m_list, mono_all. Qed.
Lemma list_app g a : forall fr last b s ls v s1 r n m, exec_list P funs n g fr last a s = Some (Ok P _ (ONorm ls v) s1) ->
  exec_list P funs m g (Frame ls (up fr)) v b s1 = Some r -> exists k, exec_list P funs k g fr last (sapp a b) s = Some r.
Proof.
  induction a as [|c a IH]; intros fr last b s ls v s1 r n m H J; (destruct n; [discriminate|]); rewrite exec_list_S in H.
  - injection H as <- <- <-. exists m. destruct fr. exact J.
  - cbn [sapp]. destruct (exec P funs n g fr c s) as [[o s2|e w]|] eqn:E; cbn [bind] in H; try discriminate.
    destruct o as [ls2 v2| | |]; try discriminate.
    destruct (IH (Frame ls2 (up fr)) v2 b s2 ls v s1 r n m H J) as [k K]. exists (S (max n k)). rewrite exec_list_S.
    rewrite (up_mono P (fun n => exec P funs n g fr c s) (fun n => m_exec P funs n (mono_all P funs n) g fr c s) n (max n k) ltac:(lia) _ E). cbn [bind].
    exact (up_mono P _ (le_list g (Frame ls2 (up fr)) v2 (sapp a b) s2) k (max n k) ltac:(lia) _ K).
Qed.
(** whether the last statement left a value does not matter, unless nothing follows *)
Lemma list_last g fr last last' c b s n : exec_list P funs n g fr last (BCons c b) s = exec_list P funs n g fr last' (BCons c b) s.
Proof. destruct n; reflexivity. Qed.
Lemma list_last_any g fr last last' b s n r : exec_list P funs n g fr last b s = Some r ->
  exists r', exec_list P funs n g fr last' b s = Some r' /\ match r with Er _ _ e w => r' = r | Ok _ _ (ONorm ls v) t => exists v', r' = Ok P _ (ONorm ls v') t | _ => r' = r end.
Proof.
  intro H. destruct b as [|c b].
  - destruct n; [discriminate|]. rewrite exec_list_S in H. injection H as <-. exists (Ok P _ (ONorm (locals fr) last') s). split; [reflexivity|]. eauto.
  - rewrite (list_last g fr last' last). exists r. split; auto. destruct r as [[]|]; eauto.
Qed.
Lemma runs_app fr a b s ls v s1 r : runs fr a s (Ok P _ (ONorm ls v) s1) -> runs (Frame ls (up fr)) b s1 r ->
  exists r', runs fr (sapp a b) s r' /\ match r with Er _ _ e w => r' = r | Ok _ _ (ONorm ls v) t => exists v', r' = Ok P _ (ONorm ls v') t | _ => r' = r end.
Proof.
  intros (n & last & H) (m & last' & J). destruct (list_last_any true (Frame ls (up fr)) last' v b s1 m r J) as (r' & J' & Hr).
  destruct (list_app true a fr last b s ls v s1 r' n m H J') as [k K]. exists r'. split; auto. exists k, last. exact K.
Qed.
Lemma finishes_app ls0 a b s ls v s1 r : runs (Frame ls0 []) a s (Ok P _ (ONorm ls v) s1) -> finishes P funs ls b s1 r -> finishes P funs ls0 (sapp a b) s r.
Proof.
  intros H [J|(E & ls' & last & s' & J & W)].
  - destruct (runs_app (Frame ls0 []) a b s ls v s1 _ H J) as (r' & R & ->). left. exact R.
  - destruct (runs_app (Frame ls0 []) a b s ls v s1 _ H J) as (r' & R & [v' ->]). right. split; auto. exists ls', v', s'. auto.
Qed.
Lemma finishes_app_err ls0 a b s e w : runs (Frame ls0 []) a s (Er P _ e w) -> finishes P funs ls0 (sapp a b) s (e, w).
Proof.
  intros (n & last & H). left. cbn [fst snd]. enough (exists k, exec_list P funs k true (Frame ls0 []) last (sapp a b) s = Some (Er P _ e w)) as [k K] by (exists k, last; exact K).
  revert H. generalize (Frame ls0 []). revert last s n. induction a as [|c a IH]; intros last s n fr H; (destruct n; [discriminate|]); rewrite exec_list_S in H; [discriminate|].
  cbn [sapp]. destruct (exec P funs n true fr c s) as [[o s2|e' w']|] eqn:E; cbn [bind] in H; try discriminate.
  - destruct o as [ls2 v2| | |]; try discriminate. destruct (IH v2 s2 n _ H) as [k K]. exists (S (max n k)). rewrite exec_list_S.
    rewrite (up_mono P (fun n => exec P funs n true fr c s) (fun n => m_exec P funs n (mono_all P funs n) true fr c s) n (max n k) ltac:(lia) _ E). cbn [bind].
    exact (up_mono P _ (le_list true (Frame ls2 (up fr)) v2 (sapp a b) s2) k (max n k) ltac:(lia) _ K).
  - exists (S n). rewrite exec_list_S, E. exact H.
Qed.
(** `let x = e` where [e] has a value *)
Lemma let_runs fr e s v s1 : evals fr e s (Ok P _ v s1) ->
  let '(ls, s2) := declare P true v fr s1 in runs fr (BCons (SLet e) BNil) s (Ok P _ (ONorm ls None) s2).
Proof.
  intros [n E]. destruct (declare P true v fr s1) as [ls s2] eqn:D. exists (S (S (S n))), None. rewrite exec_list_S, exec_S.
  rewrite (le_eval fr e s n _ E). cbn [bind]. rewrite D. cbn [bind ret]. rewrite exec_list_S. reflexivity.
Qed.
Lemma let_err fr e s x w b : evals fr e s (Er P _ x w) -> runs fr (BCons (SLet e) b) s (Er P _ x w).
Proof. intros [n E]. exists (S (S n)), None. rewrite exec_list_S, exec_S, E. reflexivity. Qed.
Lemma drop_runs fr e s v s1 : evals fr e s (Ok P _ v s1) -> runs fr (drops [e]) s (Ok P _ (ONorm (locals fr) None) s1).
Proof.
  intros [n E]. exists (S (S (S (S n)))), None. unfold drops. rewrite exec_list_S, exec_S. rewrite (le_eval fr e s (S n) _ (le_eval fr e s n _ E)). cbn [bind ret].
  rewrite exec_list_S, exec_S. cbn [bind ret]. rewrite exec_list_S. reflexivity.
Qed.
(** two expressions that have the same value and lead to the same state here *)
Lemma let_swap ls e e' s s' v s1 post r : evals (Frame ls []) e s (Ok P _ v s1) -> evals (Frame ls []) e' s' (Ok P _ v s1) ->
  finishes P funs ls (BCons (SLet e') post) s' r -> finishes P funs ls (BCons (SLet e) post) s r.
Proof.
  assert (X : forall e s, evals (Frame ls []) e s (Ok P _ v s1) -> forall last n, exists m, forall r, exec_list P funs n true (Frame ls []) last (BCons (SLet e) post) s = Some r ->
     exec_list P funs m true (Frame (fst (declare P true v (Frame ls []) s1)) []) None post (snd (declare P true v (Frame ls []) s1)) = Some r).
  { intros f t Hf last n. exists n. intros r0 H. destruct n; [discriminate|]. rewrite exec_list_S in H. destruct n; [discriminate|]. rewrite exec_S in H.
    destruct (eval n (Frame ls []) f t) as [r1|] eqn:E; [|discriminate].
    assert (r1 = Ok P _ v s1) as -> by (eapply evals_det; [exists n; exact E|exact Hf]). cbn [bind] in H.
    destruct (declare P true v (Frame ls []) s1) as [ls2 s2]. cbn [bind ret fst snd up] in *. now apply le_list. }
  assert (Y : forall e s, evals (Frame ls []) e s (Ok P _ v s1) -> forall n r,
     exec_list P funs n true (Frame (fst (declare P true v (Frame ls []) s1)) []) None post (snd (declare P true v (Frame ls []) s1)) = Some r ->
     runs (Frame ls []) (BCons (SLet e) post) s r).
  { intros f t [k Hk] n r0 H. exists (S (S (max k n))), None. rewrite exec_list_S, exec_S.
    rewrite (up_mono P _ (le_eval (Frame ls []) f t) k (max k n) ltac:(lia) _ Hk). cbn [bind].
    destruct (declare P true v (Frame ls []) s1) as [ls2 s2]. cbn [bind ret fst snd up] in *.
    exact (up_mono P _ (le_list true (Frame ls2 []) None post s2) n (S (max k n)) ltac:(lia) _ H). }
  intros H1 H2 [(n & last & J)|(E & ls' & la & t & (n & last & J) & W)]; destruct (X e' s' H2 last n) as [m Hm]; specialize (Hm _ J).
  - left. eapply Y; eauto.
  - right. split; auto. exists ls', la, t. split; auto. eapply Y; eauto.
Qed.
Lemma drops_finishes ls es b : forall s s1 r,
  (exists vs, Forall2 (fun e '(s, v, s') => evals (Frame ls []) e s (Ok P _ v s')) es vs /\
     (fix link s vs := match vs with [] => s = s1 | (t, _, t') :: q => s = t /\ link t' q end) s vs) ->
  finishes P funs ls b s1 r -> finishes P funs ls (sapp (drops es) b) s r.
Proof.
  induction es as [|e es IH]; intros s s1 r (vs & F & L) H.
  - inversion F; subst. subst. exact H.
  - inversion F as [|x y l l' Hxy Hl]; subst. destruct y as [[t v] t']. destruct L as [<- L].
    change (sapp (drops (e :: es)) b) with (sapp (drops [e]) (sapp (drops es) b)).
    eapply finishes_app; [eapply drop_runs; exact Hxy|]. cbn [locals]. eapply IH; [|exact H]. eauto.
Qed.
Lemma chain_links fr v l s d b s' : chain_ev P funs fr v l s d b s' ->
  exists vs, Forall2 (fun e '(s, v, s') => evals fr e s (Ok P _ v s')) d vs /\
     (fix link s vs := match vs with [] => s = s' | (t, _, t') :: q => s = t /\ link t' q end) s vs.
Proof.
  induction 1.
  - exists []. split; [constructor|reflexivity].
  - exists [(s, x, s')]. split; [repeat constructor; auto|auto].
  - destruct IHchain_ev as (vs & A & B). exists ((s, x, s') :: vs). split; [constructor; auto|auto].
Qed.
Lemma finishes_det ls b s r r' : finishes P funs ls b s r -> finishes P funs ls b s r' -> r = r'.
Proof.
  assert (D : forall n m last last' r r', exec_list P funs n true (Frame ls []) last b s = Some r -> exec_list P funs m true (Frame ls []) last' b s = Some r' ->
     match r, r' with Er _ _ e w, Er _ _ e' w' => e = e' /\ w = w' | Ok _ _ (ONorm l _) t, Ok _ _ (ONorm l' _) t' => l = l' /\ t = t' | Er _ _ _ _, Ok _ _ (ONorm _ _) _ => False | Ok _ _ (ONorm _ _) _, Er _ _ _ _ => False | _, _ => True end).
  { intros n m la la' x y A B. destruct (list_last_any true (Frame ls []) la la' b s n x A) as (x' & A' & Hx).
    pose proof (up_det P _ (le_list true (Frame ls []) la' b s) n m _ _ A' B) as <-.
    destruct x as [[l v| | |v] t|e w]; try (destruct x' as [[]|]; exact Logic.I).
    - destruct Hx as [v' ->]. auto.
    - subst. auto. }
  destruct r as [e w], r' as [e' w'].
  intros [(n & la & H)|(E1 & l & v & t & (n & la & H) & W)] [(m & lb & J)|(E2 & l' & v' & t' & (m & lb & J) & W')]; pose proof (D _ _ _ _ _ _ H J) as X; cbn [fst snd] in *.
  - destruct X. congruence.
  - destruct X.
  - destruct X.
  - destruct X. congruence.
Qed.
End laws.

(** ** The main theorem once more *)
Lemma outcome_main P p w r : source_outcome P p w r <-> exists n, run_main P (fun i => nth_error (pr_funs p) i) n (pr_main p) w = Some r.
Proof.
  unfold source_outcome, finishes, runs, run_main, start. destruct r as [e w']. cbn [fst snd]. split.
  - intros [(n & last & H)|(-> & ls & v & s' & (n & last & H) & <-)].
    + destruct (list_last_any _ _ _ _ _ None _ _ _ _ H) as (r' & E & ->). exists n. now rewrite E.
    + destruct (list_last_any _ _ _ _ _ None _ _ _ _ H) as (r' & E & [v' ->]). exists n. now rewrite E.
  - intros [n H]. destruct (exec_list P _ n true (Frame [] []) None (pr_main p) _) as [[[ls v| | |v] s|e1 w1]|] eqn:E; try discriminate; injection H as <- <-.
    + right. split; auto. exists ls, v, s. split; [|reflexivity]. exists n, None. exact E.
    + left. exists n, None. exact E.
Qed.
Definition small (p : program) : Prop := (Z.of_nat (length (fst (compile false p))) < 2147483648)%Z.
Lemma compile_outcome P p opt w r : ok_program p = true -> small p -> source_outcome P p w r -> runs_to P (step P) (compile opt p) w r.
Proof.
  intros Ok S H. apply outcome_main in H. destruct H as [n H]. pose proof (compile_sim P p n w r Ok S H) as R.
  destruct (C40_optimised_program_same_outcome P _ _ w r (compile_wf p) S R) as [A B]. destruct opt; assumption.
Qed.
(** replacing what comes after [pre] *)
Section after.
Context (P : prims) (funs : nat -> option sfun).
Local Notation runs := (runs P funs).
Local Notation evals := (evals P funs).
Local Notation finishes := (finishes P funs).
(** [finishes] after a prefix that ended normally *)
Lemma list_app_inv g a : forall fr last b s ls v s1 r n k, exec_list P funs n g fr last a s = Some (Ok P _ (ONorm ls v) s1) ->
  exec_list P funs k g fr last (sapp a b) s = Some r -> exec_list P funs k g (Frame ls (up fr)) v b s1 = Some r.
Proof.
  induction a as [|c a IH]; intros fr last b s ls v s1 r n k H J; (destruct n; [discriminate|]); rewrite exec_list_S in H.
  - injection H as <- <- <-. destruct fr. exact J.
  - cbn [sapp] in J. destruct k; [discriminate|]. rewrite exec_list_S in J.
    destruct (exec P funs n g fr c s) as [[o s2|e w]|] eqn:E; cbn [bind] in H; try discriminate.
    destruct (exec P funs k g fr c s) as [r2|] eqn:E2; [|discriminate].
    pose proof (up_det P (fun n => exec P funs n g fr c s) (fun n => m_exec P funs n (mono_all P funs n) g fr c s) _ _ _ _ E E2) as <-. cbn [bind] in J.
    destruct o as [ls2 v2| | |]; try discriminate. apply le_list. exact (IH (Frame ls2 (up fr)) v2 b s2 ls v s1 r n k H J).
Qed.
Lemma finishes_inv ls0 a b s ls v s1 r : runs (Frame ls0 []) a s (Ok P _ (ONorm ls v) s1) -> finishes ls0 (sapp a b) s r -> finishes ls b s1 r.
Proof.
  intros (n & last & H).
  assert (X : forall r, runs (Frame ls0 []) (sapp a b) s r -> exists r', runs (Frame ls []) b s1 r' /\
     match r with Er _ _ e w => r' = r | Ok _ _ (ONorm ls v) t => exists v', r' = Ok P _ (ONorm ls v') t | _ => True end).
  { intros r0 (k & last' & J). destruct (list_last_any P funs true (Frame ls0 []) last' last (sapp a b) s k r0 J) as (r' & J' & Hr).
    pose proof (list_app_inv true a (Frame ls0 []) last b s ls v s1 r' n k H J') as Q. exists r'. split; [exists k, v; exact Q|].
    destruct r0 as [[]|]; auto. }
  intros [J|(E & ls' & la & t & J & W)].
  - destruct (X _ J) as (r' & R & ->). left. exact R.
  - destruct (X _ J) as (r' & R & [v' ->]). right. split; auto. exists ls', v', t. auto.
Qed.
Lemma finishes_app_eq ls0 a b b' s ls v s1 r : runs (Frame ls0 []) a s (Ok P _ (ONorm ls v) s1) -> finishes ls0 (sapp a b') s r ->
  (forall r, finishes ls b' s1 r -> finishes ls b s1 r) -> finishes ls0 (sapp a b) s r.
Proof. intros H J K. eapply finishes_app; [exact H|]. apply K. eapply finishes_inv; eauto. Qed.
Lemma sapp_assoc a b c : sapp (sapp a b) c = sapp a (sapp b c).
Proof. induction a; simpl; [reflexivity|]. now rewrite IHa. Qed.
(** an expression that is evaluated where `let x = e` stands *)
Lemma let_from ls e e' s s' post r : (forall r, evals (Frame ls []) e' s' r -> evals (Frame ls []) e s r) ->
  finishes ls (BCons (SLet e') post) s' r -> finishes ls (BCons (SLet e) post) s r.
Proof.
  intros K.
  assert (X : forall last n r, exec_list P funs n true (Frame ls []) last (BCons (SLet e') post) s' = Some r -> runs (Frame ls []) (BCons (SLet e) post) s r).
  { intros last n r0 H. destruct n; [discriminate|]. rewrite exec_list_S in H. destruct n; [discriminate|]. rewrite exec_S in H.
    destruct (eval P funs n (Frame ls []) e' s') as [r1|] eqn:E; [|discriminate].
    destruct (K r1 ltac:(exists n; exact E)) as [k Hk]. exists (S (S (max k n))), None. rewrite exec_list_S, exec_S.
    rewrite (up_mono P _ (le_eval P funs (Frame ls []) e s) k (max k n) ltac:(lia) _ Hk). destruct r1 as [v s1|x w]; cbn [bind] in *; auto.
    destruct (declare P true v (Frame ls []) s1) as [ls2 s2]. cbn [bind ret fst snd up] in *.
    exact (up_mono P _ (le_list P funs true (Frame ls2 []) None post s2) (S n) (S (max k n)) ltac:(lia) _ H). }
  intros [(n & last & J)|(E & ls' & la & t & (n & last & J) & W)]; specialize (X last n _ J).
  - left. exact X.
  - right. split; auto. exists ls', la, t. auto.
Qed.
Lemma after_drop pre e a b post s0 ls last s v s1 r : runs (Frame [] []) pre s0 (Ok P _ (ONorm ls last) s) ->
  evals (Frame ls []) a s (Ok P _ v s1) -> finishes [] (sapp (sapp pre (drops [a])) (BCons (SLet b) post)) s0 r ->
  (forall r, evals (Frame ls []) b s1 r -> evals (Frame ls []) e s r) ->
  finishes [] (sapp pre (BCons (SLet e) post)) s0 r.
Proof.
  intros Hp Ha Hr K. rewrite sapp_assoc in Hr. eapply finishes_app_eq; [exact Hp|exact Hr|]. intros r0 H.
  eapply finishes_inv in H; [|exact (drop_runs P funs (Frame ls []) a s v s1 Ha)]. cbn [locals] in H. eapply let_from; eauto.
Qed.
Lemma drops_inv ls es b : forall s s1 r,
  (exists vs, Forall2 (fun e '(s, v, s') => evals (Frame ls []) e s (Ok P _ v s')) es vs /\
     (fix link s vs := match vs with [] => s = s1 | (t, _, t') :: q => s = t /\ link t' q end) s vs) ->
  finishes ls (sapp (drops es) b) s r -> finishes ls b s1 r.
Proof.
  induction es as [|e es IH]; intros s s1 r (vs & F & L) H.
  - inversion F; subst. subst. exact H.
  - inversion F as [|x y l l' Hxy Hl]; subst. destruct y as [[t v] t']. destruct L as [<- L].
    change (sapp (drops (e :: es)) b) with (sapp (drops [e]) (sapp (drops es) b)) in H.
    eapply finishes_inv in H; [|eapply drop_runs; exact Hxy]. cbn [locals] in H. eapply IH; [|exact H]. eauto.
Qed.
Lemma chain_finishes pre e0 c1 e1 c2 e2 l post s0 ls last s v0 t0 done b s' r : compare_ok P ->
  runs (Frame [] []) pre s0 (Ok P _ (ONorm ls last) s) -> evals (Frame ls []) e0 s (Ok P _ v0 t0) ->
  chain_ev P funs (Frame ls []) v0 ((c1, e1) :: (c2, e2) :: l) t0 done b s' ->
  finishes [] (sapp (sapp pre (drops (e0 :: done))) (BCons (SLet (EConst (HBool b))) post)) s0 r ->
  finishes [] (sapp pre (BCons (SLet (chain e0 c1 e1 c2 e2 l)) post)) s0 r.
Proof.
  intros CO Hp H0 Hc Hr. rewrite sapp_assoc in Hr. eapply finishes_app_eq; [exact Hp|exact Hr|]. intros r0 H.
  assert (H' : finishes ls (BCons (SLet (EConst (HBool b))) post) s' r0).
  { eapply drops_inv; [|exact H]. destruct (chain_links P funs _ _ _ _ _ _ _ Hc) as (vs & F & L).
    exists ((s, v0, t0) :: vs). split; [constructor; auto|auto]. }
  eapply let_swap; [|apply evals_const; reflexivity|exact H']. eapply chain_evals; eauto.
Qed.
End after.

(** ** The literals of Lit.v *)
Section literals.
Context (same : hval -> hval -> bool) (to_pair : hval -> option (hval * hval)).
Lemma fold_snoc {A} (vs : list A) : forall l, fold_left (fun l v => l ++ [v]) vs l = l ++ vs.
Proof. induction vs as [|v vs IH]; intro l; simpl; [now rewrite app_nil_r|]. rewrite IH, <- app_assoc. reflexivity. Qed.
Lemma distinct_app (xs vs : list hval) : forall seen, distinct same seen (xs ++ vs) = distinct same seen xs ++ distinct same (seen ++ distinct same seen xs) vs.
Proof.
  induction xs as [|x xs IH]; intro seen; simpl; [now rewrite app_nil_r|].
  destruct (existsb (same x) seen); [apply IH|]. simpl. rewrite IH. f_equal. rewrite <- app_assoc. reflexivity.
Qed.
Lemma fold_distinct vs : forall l, fold_left (fun l v => iset_insert same v l) vs l = l ++ distinct same l vs.
Proof.
  induction vs as [|v vs IH]; intro l; simpl; [now rewrite app_nil_r|]. rewrite IH. unfold iset_insert.
  destruct (existsb (same v) l); [reflexivity|]. rewrite <- app_assoc. reflexivity.
Qed.
Fixpoint entries_app xs : forall ys, Nat.even (length xs) = true -> entries_of (xs ++ ys) = entries_of xs ++ entries_of ys.
Proof.
  destruct xs as [|k [|x xs]]; intros ys H; [reflexivity|discriminate|]. simpl in *. f_equal. now apply entries_app.
Qed.
Fixpoint dict_acc_fold vs : forall l, Nat.even (length vs) = true -> dict_acc same vs l = Some (fold_left (fun d e => imap_insert same (fst e) (snd e) d) (entries_of vs) l).
Proof.
  destruct vs as [|k [|x vs]]; intros l H; [reflexivity|discriminate|]. simpl in *. now apply dict_acc_fold.
Qed.
Lemma dict_unroll_fold vs ys : pairs_of to_pair vs ys -> forall l, Nat.even (length ys) = true /\
  dict_unroll same to_pair vs l = Some (fold_left (fun d e => imap_insert same (fst e) (snd e) d) (entries_of ys) l).
Proof.
  induction 1 as [|v k x vs l T H IH]; intro d; [split; reflexivity|]. cbn [dict_unroll]. rewrite T.
  destruct (IH (imap_insert same k x d)) as [A ->]. split; [exact A|reflexivity].
Qed.
Lemma equiv_trans_b : equivalence same -> forall x y l, same x y = true -> existsb (same x) l = existsb (same y) l.
Proof.
  intros (R & Sy & T) x y l H. induction l as [|z l IH]; [reflexivity|]. simpl. rewrite IH. f_equal.
  destruct (same y z) eqn:A; [exact (T _ _ _ H A)|]. destruct (same x z) eqn:B; [|reflexivity]. rewrite Sy in H. now rewrite (T _ _ _ H B) in A.
Qed.
Lemma distinct_members_gen x : equivalence same -> forall l seen, existsb (same x) (seen ++ distinct same seen l) = existsb (same x) (seen ++ l).
Proof.
  intros Eq. induction l as [|y l IH]; intro seen; [reflexivity|]. cbn [distinct]. destruct (existsb (same y) seen) eqn:E.
  - rewrite IH, !existsb_app. simpl. destruct (same x y) eqn:A; [|reflexivity].
    rewrite (equiv_trans_b Eq x y seen A), E. reflexivity.
  - specialize (IH (seen ++ [y])). rewrite <- !app_assoc in IH. exact IH.
Qed.
Lemma distinct_members items x : equivalence same -> existsb (same x) (distinct same [] items) = existsb (same x) items.
Proof. intro Eq. exact (distinct_members_gen x Eq items []). Qed.
Lemma distinct_notin l : forall seen y, In y (distinct same seen l) -> existsb (same y) seen = false.
Proof.
  induction l as [|x l IH]; intros seen y H; [destruct H|]. cbn [distinct] in H. destruct (existsb (same x) seen) eqn:E; [eauto|].
  destruct H as [<-|H]; [exact E|]. specialize (IH _ _ H). rewrite existsb_app in IH. now apply orb_false_iff in IH.
Qed.
Lemma distinct_nodup items : equivalence same -> forall i j a b, nth_error (distinct same [] items) i = Some a -> nth_error (distinct same [] items) j = Some b -> same a b = true -> i = j.
Proof.
  intros (R & Sy & T). generalize (@nil hval). induction items as [|x l IH]; intros seen i j a b Ha Hb H; cbn [distinct] in *; [destruct i; discriminate|].
  destruct (existsb (same x) seen) eqn:E; [eauto|].
  assert (X : forall y, In y (distinct same (seen ++ [x]) l) -> same y x = false).
  { intros y I. pose proof (distinct_notin _ _ _ I) as N. rewrite existsb_app in N. apply orb_false_iff in N. destruct N as [_ N]. simpl in N. now rewrite orb_false_r in N. }
  destruct i as [|i], j as [|j]; simpl in Ha, Hb; auto.
  - injection Ha as <-. rewrite Sy in H. now rewrite (X b (nth_error_In _ _ Hb)) in H.
  - injection Hb as <-. now rewrite (X a (nth_error_In _ _ Ha)) in H.
  - f_equal. eauto.
Qed.
Lemma lookup_insert k k' x d : equivalence same -> lookup_first same k (imap_insert same k' x d) = if same k k' then Some x else lookup_first same k d.
Proof.
  intros (R & Sy & T). induction d as [|[k2 y] d IH]; cbn [imap_insert lookup_first]; [reflexivity|].
  destruct (same k' k2) eqn:A; cbn [lookup_first].
  - destruct (same k k') eqn:B.
    + now rewrite (T _ _ _ B A).
    + destruct (same k k2) eqn:D; [|reflexivity]. rewrite Sy in A. now rewrite (T _ _ _ D A) in B.
  - rewrite IH. destruct (same k k2) eqn:D; [|reflexivity]. destruct (same k k') eqn:B; [|reflexivity].
    rewrite Sy in B. now rewrite (T _ _ _ B D) in A.
Qed.
Lemma dict_lookup k items : equivalence same ->
  lookup_first same k (fold_left (fun d e => imap_insert same (fst e) (snd e) d) (entries_of items) []) = lookup_last same k (entries_of items).
Proof.
  intro Eq. enough (X : forall l d, lookup_first same k (fold_left (fun d e => imap_insert same (fst e) (snd e) d) l d) =
    match lookup_last same k l with Some y => Some y | None => lookup_first same k d end).
  { rewrite X. simpl. now destruct (lookup_last same k (entries_of items)). }
  induction l as [|[k' x] l IH]; intro d; [reflexivity|]. cbn [fold_left fst snd lookup_last]. rewrite IH, lookup_insert by exact Eq.
  destruct (lookup_last same k l); [reflexivity|]. now destruct (same k k').
Qed.
Lemma literals_hold P not_pair mk t :
  holds_elements (with_literals P same to_pair not_pair mk) t (contributes P to_pair t)
    (fun l xs => l = Some (literal_of same t xs) /\ (t = LitDict -> Nat.even (length xs) = true)).
Proof.
  constructor.
  - intro n. split; [|reflexivity]. now destruct t.
  - intros l xs vs w [-> Ev] F. cbn [with_literals l_acc]. split.
    + destruct t; cbn [literal_of lit_acc].
      * now rewrite fold_snoc.
      * now rewrite fold_snoc.
      * rewrite fold_distinct, distinct_app. reflexivity.
      * cbn [fits] in F. rewrite dict_acc_fold by auto. rewrite entries_app by auto. rewrite fold_left_app. reflexivity.
    + intros ->. specialize (Ev eq_refl). cbn [fits] in F. rewrite app_length, Nat.even_add, Ev, F. reflexivity.
  - intros l xs v w w' ys [-> Ev] C. cbn [with_literals l_unroll]. destruct t; cbn [contributes literal_of lit_unroll] in *.
    + red in C. rewrite C. eexists. split; [reflexivity|]. split; [|discriminate]. cbn [lit_acc]. now rewrite fold_snoc.
    + red in C. rewrite C. eexists. split; [reflexivity|]. split; [|discriminate]. cbn [lit_acc]. now rewrite fold_snoc.
    + red in C. rewrite C. eexists. split; [reflexivity|]. split; [|discriminate]. cbn [lit_acc]. rewrite fold_distinct, distinct_app. reflexivity.
    + destruct C as (vs & C & PO). red in C. rewrite C. specialize (Ev eq_refl). destruct (dict_unroll_fold vs ys PO (fold_left (fun d e => imap_insert same (fst e) (snd e) d) (entries_of xs) [])) as [A ->].
      eexists. split; [reflexivity|]. split; [|intros _; rewrite app_length, Nat.even_add, Ev, A; reflexivity].
      rewrite entries_app by auto. rewrite fold_left_app. reflexivity.
Qed.
End literals.

(** ** Locations, in the terms of CompileSpec.v *)
Section locations.
Context (P : prims) (funs : nat -> option sfun).
Lemma locs_refers ls s : locs_in P ls s <-> forall l, refers ls l -> loc_in P s l.
Proof.
  unfold refers, loc_in, locs_in. split.
  - intros H l I. apply In_nth_error in I. destruct I as [i E]. eauto.
  - intros H i l E. apply H. eapply nth_error_In; eauto.
Qed.
Lemma scoped_iff fr s : scoped P fr s <-> frok P fr s /\ good P s.
Proof.
  unfold scoped, frok, good. rewrite !locs_refers. split.
  - intros (A & B & D & F). split; [split; auto|]. split.
    + intros c ls E. apply locs_refers. intros l R. eapply D; eauto. eapply nth_error_In; eauto.
    + intros i l E. apply F. eapply nth_error_In; eauto.
  - intros ((A & B) & D & F). split; [auto|]. split; [auto|]. split.
    + intros ls l I R. apply In_nth_error in I. destruct I as [c E]. apply (proj1 (locs_refers ls s) (D c ls E)). exact R.
    + intros l I. apply In_nth_error in I. destruct I as [c E]. exact (F c l E).
Qed.
Lemma scoped_start w : scoped P (Frame [] []) (start P w).
Proof. unfold scoped, refers. simpl. repeat split; intros; tauto. Qed.
Lemma ext_ahead s s' : ext P s s' -> ahead P s s'.
Proof.
  intros (A & [x B] & [y D]). split; [auto|]. split; intros i l E; [rewrite B|rewrite D]; (rewrite nth_error_app1; [auto|apply nth_error_Some; congruence]).
Qed.
Lemma evals_scoped fr e s v s' : scoped P fr s -> evals P funs fr e s (Ok P _ v s') -> scoped P fr s' /\ ahead P s s'.
Proof.
  rewrite !scoped_iff. intros [F G] [n E]. pose proof (k_eval P funs n (keeps_all P funs n) fr e s F G) as K. rewrite E in K. destruct K as [X G'].
  split; [split; [eapply frok_ext; eauto|auto]|now apply ext_ahead].
Qed.
Lemma runs_scoped fr b s ls last s' : scoped P fr s -> runs P funs fr b s (Ok P _ (ONorm ls last) s') -> scoped P (Frame ls (up fr)) s' /\ ahead P s s'.
Proof.
  rewrite !scoped_iff. intros [F G] (n & la & E). pose proof (k_list P funs n (keeps_all P funs n) true fr la b s F G) as K. rewrite E in K. destruct K as [[X G'] L].
  split; [split; [split; [exact L|]|auto]|now apply ext_ahead]. eapply (locs_ext P funs (up fr) s s'); [exact X|exact (proj2 F)].
Qed.
Lemma alloc_list_eq vs : forall s, alloc_list P vs s = (map Some (seq (length (store P s)) (length vs)), St P (store P s ++ vs) (senvs P s) (globals P s) (sworld P s)).
Proof.
  induction vs as [|v vs IH]; intro s; cbn [alloc_list]; [destruct s; simpl; now rewrite app_nil_r|].
  unfold alloc. rewrite IH. cbn [store senvs globals sworld length seq map]. rewrite app_length, <- app_assoc. simpl. rewrite Nat.add_1_r. reflexivity.
Qed.
(** variables *)
Lemma read_var fr x l s v : var_loc P fr x s = ret P l s -> nth_error (store P s) l = Some v -> evals P funs fr (EVar x) s (Ok P _ v s).
Proof. intros H R. exists 1. rewrite eval_S, H. cbn [bind ret]. unfold read. now rewrite R. Qed.
Lemma var_same fr x s : match var_loc P fr x s with Some (Ok _ _ l s') => s' = s | _ => True end.
Proof. unfold var_loc. destruct x; repeat match goal with |- context [match nth_error ?a ?b with _ => _ end] => destruct (nth_error a b) as [[]|] | |- context [match nth_error ?a ?b with _ => _ end] => destruct (nth_error a b) end; simpl; auto. Qed.
Lemma assign_inv fr x e s v s' : evals P funs fr (EAssign x e) s (Ok P _ v s') ->
  exists s1 l, evals P funs fr e s (Ok P _ v s1) /\ var_loc P fr x s1 = ret P l s1 /\ l < length (store P s1) /\ s' = set_loc P l v s1.
Proof.
  intros [[|n] H]; [discriminate|]. rewrite eval_S in H. destruct (eval P funs n fr e s) as [[v1 s1|]|] eqn:E; cbn [bind] in H; try discriminate.
  pose proof (var_same fr x s1) as V. destruct (var_loc P fr x s1) as [[l s2|]|] eqn:Ev; cbn [bind] in H; try discriminate. subst s2.
  destruct (l <? length (store P s1)) eqn:L; [|discriminate]. apply Nat.ltb_lt in L. injection H as <- <-. exists s1, l. repeat (split; auto). now exists n.
Qed.
Lemma var_loc_set fr x s l v : var_loc P fr x (set_loc P l v s) = match var_loc P fr x s with Some (Ok _ _ k _) => ret P k (set_loc P l v s) | Some (Er _ _ e w) => Some (Er P _ e w) | None => None end.
Proof. unfold var_loc. destruct x; cbn [set_loc globals sworld]; repeat match goal with |- context [match nth_error ?a ?b with _ => _ end] => destruct (nth_error a b) as [[]|] | |- context [match nth_error ?a ?b with _ => _ end] => destruct (nth_error a b) end; reflexivity. Qed.
Lemma closure_evals fr f c cs s v s' : evals P funs fr (EClosure f c cs) s (Ok P _ v s') ->
  exists ls, captured fr (c :: cs) = Some ls /\ v = HClosure f (length (senvs P s)) /\ s' = St P (store P s) (senvs P s ++ [ls]) (globals P s) (sworld P s).
Proof.
  intros [[|n] H]; [discriminate|]. rewrite eval_S in H. destruct (captured fr (c :: cs)) as [ls|] eqn:E; [|discriminate].
  cbv [new_closure ret] in H. injection H as <- <-. eauto.
Qed.
Lemma captured_nth fr cs : forall ls, captured fr cs = Some ls -> length ls = length cs /\ forall j,
  match nth_error cs j with
  | Some (CapLocal i) => exists l, nth_error (locals fr) i = Some (Some l) /\ nth_error ls j = Some (Some l)
  | Some (CapUp i) => exists o, nth_error (up fr) i = Some o /\ nth_error ls j = Some o
  | Some (CapStale _) => nth_error ls j = Some None
  | None => nth_error ls j = None
  end.
Proof.
  induction cs as [|c cs IH]; intros ls H; cbn [captured] in H.
  - injection H as <-. split; [reflexivity|]. intros [|j]; reflexivity.
  - destruct (captured fr cs) as [l0|]; [|discriminate]. destruct (IH _ eq_refl) as [A B].
    destruct c; [destruct (nth_error (locals fr) i) as [[l|]|] eqn:E; try discriminate|destruct (nth_error (up fr) i) as [o|] eqn:E; try discriminate|]; injection H as <-;
      (split; [simpl; congruence|]); intros [|j]; simpl; try exact (B j); eauto.
Qed.
(** calling a closure *)
Lemma closure_body f k n e args s ls r : funs f = Some (SFun n [] false (BodyExpr e)) -> length args = n -> nth_error (senvs P s) k = Some ls ->
  (calls P funs (HClosure f k) args s r <->
   evals P funs (Frame (map Some (seq (length (store P s)) n)) ls) e (St P (store P s ++ args) (senvs P s) (globals P s) (sworld P s)) r).
Proof.
  intros Hf Hn Hk.
  assert (X : forall m, scall P funs (S (S m)) (HClosure f k) args s = eval P funs m (Frame (map Some (seq (length (store P s)) n)) ls) e (St P (store P s ++ args) (senvs P s) (globals P s) (sworld P s)) \/ m = 0).
  { intros [|m]; [now right|]. left. rewrite scall_S, Hf. unfold required, accepts. cbn [sf_args sf_defs sf_variadic length]. rewrite Hn.
    replace (n <? n - 0) with false by (symmetry; apply Nat.ltb_ge; lia). unfold required. cbn [sf_args sf_defs length].
    replace (n - 0 <=? n) with true by (symmetry; apply Nat.leb_le; lia). rewrite Nat.leb_refl. cbn [andb orb].
    rewrite enter_S. cbv zeta. rewrite Hk. cbn [sf_defs sf_body]. rewrite skipn_nil. rewrite eval_defs_S. cbn [bind ret]. rewrite app_nil_r, alloc_list_eq, Hn. reflexivity. }
  split.
  - intros [m H]. destruct m as [|[|m]].
    + discriminate.
    + rewrite scall_S, Hf in H. unfold required, accepts in H. cbn [sf_args sf_defs sf_variadic length] in H. rewrite Hn in H. unfold required in H. cbn [sf_args sf_defs length] in H.
      replace (n <? n - 0) with false in H by (symmetry; apply Nat.ltb_ge; lia).
      replace (n - 0 <=? n) with true in H by (symmetry; apply Nat.leb_le; lia). rewrite Nat.leb_refl in H. discriminate H.
    + apply le_scall in H. destruct (X (S m)) as [Y|Y]; [|discriminate]. exists (S m). now rewrite <- Y.
  - intros [m H]. apply le_eval in H. destruct (X (S m)) as [Y|Y]; [|discriminate]. exists (S (S (S m))). now rewrite Y.
Qed.
Lemma is_at_loc fr x s l : is_at P fr x s l <-> var_loc P fr x s = ret P l s.
Proof.
  unfold is_at, var_loc, ret. destruct x; repeat match goal with |- context [match nth_error ?a ?b with _ => _ end] => destruct (nth_error a b) as [[]|] end; split; intro H; try discriminate; (inversion H; subst; reflexivity).
Qed.
Lemma scoped_fresh fr s l : scoped P fr s -> length (store P s) <= l -> fresh P fr s l.
Proof.
  intros (A & B & D & F) L. unfold loc_in in *. repeat split.
  - intro R. specialize (A _ R). lia.
  - intro R. specialize (B _ R). lia.
  - intros ls I R. specialize (D _ _ I R). lia.
  - intro R. specialize (F _ R). lia.
Qed.
Lemma let_fresh fr e s ls last s' : scoped P fr s -> runs P funs fr (BCons (SLet e) BNil) s (Ok P _ (ONorm ls last) s') ->
  exists v s1 l, evals P funs fr e s (Ok P _ v s1) /\ ls = locals fr ++ [Some l] /\ fresh P fr s1 l /\ nth_error (store P s') l = Some v.
Proof.
  intros Sc (n & la & H). destruct n as [|[|n]]; try discriminate. rewrite exec_list_S, exec_S in H.
  destruct (eval P funs n fr e s) as [[v s1|]|] eqn:E; cbn [bind] in H; try discriminate.
  assert (He : evals P funs fr e s (Ok P _ v s1)) by (exists n; exact E). destruct (evals_scoped _ _ _ _ _ Sc He) as [Sc1 _].
  unfold declare, alloc in H. cbn [bind ret] in H. rewrite exec_list_S in H. cbn [ret] in H. injection H as <- <- <-.
  exists v, s1, (length (store P s1)). split; [exact He|]. split; [reflexivity|]. split; [apply scoped_fresh; auto|].
  cbn [store]. rewrite nth_error_app2, Nat.sub_diag by lia. reflexivity.
Qed.
Lemma for_fresh fr it b el s w v n : scoped P fr s -> p_next P it (sworld P s) = (w, Some v) ->
  exists l s1, fresh P fr s l /\ nth_error (store P s1) l = Some v /\ ahead P s s1 /\
  exec_for P funs (S n) fr true it b el s =
    bind P (exec_block P funs n (Frame (locals fr ++ [Some l; None]) (up fr)) b s1)
      (fun o s => match o with OBreak => ret P (ONorm (locals fr) None) s | OContinue | ONorm _ _ => exec_for P funs n fr true it b el s | OReturned _ => ret P o s end).
Proof.
  intros Sc H. exists (length (store P s)), (St P (store P s ++ [v]) (senvs P s) (globals P s) w).
  split; [apply scoped_fresh; auto|]. split; [cbn [store]; rewrite nth_error_app2, Nat.sub_diag by lia; reflexivity|].
  split; [split; [simpl; rewrite app_length; lia|]; split; auto|].
  rewrite exec_for_S, H. unfold declare, alloc. cbn [store senvs globals sworld with_world locals]. rewrite <- app_assoc. reflexivity.
Qed.
Lemma closure_shares fr f c cs s v s' : evals P funs fr (EClosure f c cs) s (Ok P _ v s') ->
  exists k ls, v = HClosure f k /\ nth_error (senvs P s') k = Some ls /\ nth_error (senvs P s) k = None /\
  forall j, match nth_error (c :: cs) j with
            | Some (CapLocal i) => exists l, is_at P fr (VLocal i) s l /\ is_at P (Frame [] ls) (VUp j) s' l
            | Some (CapUp i) => forall l, is_at P fr (VUp i) s l <-> is_at P (Frame [] ls) (VUp j) s' l
            | _ => True
            end.
Proof.
  intro H. destruct (closure_evals _ _ _ _ _ _ _ H) as (ls & C & -> & ->). exists (length (senvs P s)), ls. split; [reflexivity|].
  split; [cbn [senvs]; rewrite nth_error_app2, Nat.sub_diag by lia; reflexivity|]. split; [apply nth_error_None; lia|].
  destruct (captured_nth _ _ _ C) as [_ N]. intro j. specialize (N j). unfold is_at. cbn [up]. destruct (nth_error (c :: cs) j) as [[i|i|i]|]; auto.
  destruct N as (o & A & B). intro l. rewrite A, B. tauto.
Qed.
Lemma assign_seen fr x e s v s' : evals P funs fr (EAssign x e) s (Ok P _ v s') ->
  exists s1 l, evals P funs fr e s (Ok P _ v s1) /\ is_at P fr x s1 l /\
  (forall fr' y, is_at P fr' y s1 l -> evals P funs fr' (EVar y) s' (Ok P _ v s')) /\
  (forall fr' y l' v', is_at P fr' y s1 l' -> l' <> l -> evals P funs fr' (EVar y) s1 (Ok P _ v' s1) -> evals P funs fr' (EVar y) s' (Ok P _ v' s')).
Proof.
  intro H. destruct (assign_inv _ _ _ _ _ _ H) as (s1 & l & He & V & L & ->). exists s1, l. split; [exact He|]. split; [now apply is_at_loc|]. split.
  - intros fr' y A. apply is_at_loc in A. eapply (read_var fr' y l); [rewrite var_loc_set, A; reflexivity|]. cbn [store set_loc]. rewrite nth_upd, Nat.eqb_refl. apply Nat.ltb_lt in L. now rewrite L.
  - intros fr' y l' v' A N R. apply is_at_loc in A. eapply (read_var fr' y l'); [rewrite var_loc_set, A; reflexivity|]. cbn [store set_loc]. rewrite nth_upd. replace (l =? l') with false by (symmetry; apply Nat.eqb_neq; auto). cbn [andb].
    destruct R as [[|n] R]; [discriminate|]. rewrite eval_S, A in R. cbn [bind ret] in R. unfold read in R. destruct (nth_error (store P s1) l') as [u|]; [|discriminate]. now injection R as ->.
Qed.
Lemma call_fresh fr f k n e args s ls r : scoped P fr s ->
  funs f = Some (SFun n [] false (BodyExpr e)) -> length args = n -> nth_error (senvs P s) k = Some ls ->
  exists params s1, length params = n /\ NoDup params /\ (forall l, In l params -> fresh P fr s l) /\ map (nth_error (store P s1)) params = map Some args /\ ahead P s s1 /\
  (calls P funs (HClosure f k) args s r <-> evals P funs (Frame (map Some params) ls) e s1 r).
Proof.
  intros Sc Hf Hn Hk. exists (seq (length (store P s)) n), (St P (store P s ++ args) (senvs P s) (globals P s) (sworld P s)).
  split; [apply seq_length|]. split; [apply seq_NoDup|]. split; [intros l I; apply in_seq in I; apply scoped_fresh; auto; lia|]. split.
  - cbn [store]. rewrite <- Hn. clear. generalize (store P s) as st0. intro st0.
    enough (X : forall a b, map (nth_error (a ++ b)) (seq (length a) (length b)) = map Some b) by apply X.
    intros a b. revert a. induction b as [|x b IH]; intro a; [reflexivity|]. simpl. f_equal; [rewrite nth_error_app2, Nat.sub_diag by lia; reflexivity|].
    specialize (IH (a ++ [x])). rewrite app_length, Nat.add_1_r, <- app_assoc in IH. exact IH.
  - split; [split; [simpl; rewrite app_length; lia|]; split; auto|]. now apply closure_body.
Qed.
End locations.
