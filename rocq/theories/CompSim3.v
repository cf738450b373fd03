(** Simulation of expressions: the inductive steps. *)
From Verif Require Import Base Native Err Vm VmProofs Graph GraphSpec GraphProofs Peep PeepSpec PeepProofs Lang LangSpec Compile CompGraph CompGraph2 CompFlow CompInv CompUnf CompSim1 CompSim2.
Local Open Scope nat_scope.
Local Arguments CompInv.mk : simpl never.

Section sim3.
Context (P : prims) (C : list op) (T : nat -> option func) (funs : nat -> option sfun).
Local Notation reaches := (reaches P C T).
Local Notation failing := (failing P C T).
Local Notation esim := (esim P C T).
Local Notation goes := (goes P C T).
Local Notation branches := (branches P C T).
Local Notation inv := (inv P).
Local Notation glob := (glob P).
Local Notation mk := (mk P).
Local Notation sstep := (strict_step P).
Local Notation post := (post P).
Local Notation pre := (pre P).
Local Notation Res := (Res P C T).
Local Notation P_eval := (P_eval P C T funs).
Local Notation P_args := (P_args P C T funs).
Local Notation P_plain := (P_plain P C T funs).
Local Notation P_chain := (P_chain P C T funs).
Local Notation P_lit := (P_lit P C T funs).
Local Notation P_tree := (P_tree P C T funs).
Local Notation P_scall := (P_scall P C T funs).

Lemma go_push G sta o g fs li un s K h fs' li' un' s' K' h' D : laid C G sta -> isopen g -> fits (g_push o g) G ->
  sstep o (mk fs li un (S (here sta g)) s K h) = Go P (mk fs' li' un' (S (here sta g)) s' K' h') ->
  reaches D (mk fs li un (here sta g) s K h) (mk fs' li' un' (here sta (g_push o g)) s' K' h').
Proof. intros HL O F H. destruct (at_push C G sta HL o g O F) as [A ->]. eapply step_go; eauto. Qed.
Lemma fail_push G sta o g fs li un s K h e w D : laid C G sta -> isopen g -> fits (g_push o g) G ->
  sstep o (mk fs li un (S (here sta g)) s K h) = Fail P e w -> failing D (mk fs li un (here sta g) s K h) e w.
Proof. intros HL O F H. destruct (at_push C G sta HL o g O F) as [A _]. eapply step_fail; eauto. Qed.
Lemma prim_push n G sta p g vs fs li un s K h F : P_tree n -> laid C G sta -> isopen g -> fits (g_push (OPrim p) g) G -> inv s K h -> glob s K -> length vs = prim_arity p ->
  let m0 := mk fs li un (here sta g) s (K ++ map STmp vs) h in
  esim fs m0 (stree P funs n (p_op P p vs (sworld P s)) s) (Res fs m0 F [] K s h (fun v s' h' => mk fs li un (here sta (g_push (OPrim p) g)) s' (K ++ [STmp v]) h')).
Proof. intros IT HL O Ft I G0 E. destruct (at_push C G sta HL _ g O Ft) as [A ->]. now apply prim_sim. Qed.
Lemma peek_push n G sta p g vs fs li un s K h F : P_tree n -> laid C G sta -> isopen g -> fits (g_push (OPeek p) g) G -> inv s K h -> glob s K -> length vs = prim_arity p ->
  let m0 := mk fs li un (here sta g) s (K ++ map STmp vs) h in
  esim fs m0 (stree P funs n (p_op P p vs (sworld P s)) s) (Res fs m0 F [] K s h (fun v s' h' => mk fs li un (here sta (g_push (OPeek p) g)) s' ((K ++ map STmp vs) ++ [STmp v]) h')).
Proof. intros IT HL O Ft I G0 E. destruct (at_push C G sta HL _ g O Ft) as [A ->]. now apply peek_sim. Qed.
Lemma call_push n G sta k g fv args fs li un s K h F : P_scall n -> laid C G sta -> isopen g -> fits (g_push (OCall k false) g) G -> inv s K h -> glob s K -> length args = k ->
  let m0 := mk fs li un (here sta g) s ((K ++ [STmp fv]) ++ map STmp args) h in
  esim fs m0 (scall P funs n fv args s) (Res fs m0 F [] K s h (fun v s' h' => mk fs li un (here sta (g_push (OCall k false) g)) s' (K ++ [STmp v]) h')).
Proof. intros IT HL O Ft I G0 E. destruct (at_push C G sta HL _ g O Ft) as [A ->]. eapply call_sim; eauto. intros m ->. rewrite s_call0. now subst k. Qed.

Lemma pre_inv fr F fs K s h : pre fr F fs K s h -> inv s K h. Proof. now intros [A B D E]. Qed.
Lemma pre_glob fr F fs K s h : pre fr F fs K s h -> glob s K. Proof. now intros [A B D E]. Qed.
Lemma pre_tmpp fr F fs K v L s h s' h' : pre fr F fs K s h -> post F L K s h s' h' -> pre fr F fs (K ++ [STmp v]) s' h'.
Proof. intros A B. apply pre_tmp. eapply pre_post; eauto. Qed.
Hint Resolve pre_inv pre_glob pre_tmp pre_tmps pre_post : cg.

(** a variable reference *)
Lemma load_sim G sta fr F fs li un x g s K h : laid C G sta -> isopen g -> fits (g_push (load_op x) g) G -> pre fr F fs K s h ->
  let m0 := mk fs li un (here sta g) s K h in
  esim fs m0 (bind P (var_loc P fr x s) (fun l s => read P l s)) (Res fs m0 F [] K s h (fun v s' h' => mk fs li un (here sta (g_push (load_op x) g)) s' (K ++ [STmp v]) h')).
Proof.
  intros HL O Ft Pr m0. pose proof (s_load P x fr F fs li un (S (here sta g)) s K h Pr) as R.
  destruct (var_loc P fr x s) as [[l s'|e w]|]; cbn [bind CompSim1.esim]; auto.
  - destruct R as [-> R]. unfold read. destruct (nth_error (store P s) l) as [v|] eqn:E; cbn [CompSim1.esim]; auto.
    apply esim_ret; [eapply pre_inv; eauto|]. eapply go_push; eauto. rewrite R. now rewrite (nth_store _ _ _ E).
  - eapply fail_push; eauto.
Qed.

Lemma gx e g : isopen g -> grow g (cexpr e g). Proof. apply expr_grow. Qed.
(** the branches of a comparison chain *)
Lemma chain_branches G sta (HL : laid C G sta) r : forall g0 g bs, grow g0 g -> brs_in g0 g bs -> fits (ccmps r bs g) G ->
  fits g G /\ forall b ty, In (b, ty) bs -> ty <> BrJump -> exists t, branches ty (tail G sta b) t (nth (S b) sta 0) /\ goes t (here sta (ccmps r bs g)).
Proof.
  induction r as [c e|c e r IH]; intros g0 g bs GR BI Ft; cbn [ccmps] in *.
  - pose proof (grow_open _ _ GR) as O. set (g1 := g_push _ _) in *.
    assert (G1 : grow g g1) by (eapply grow_trans; [apply gx; auto|apply grow_push; auto with cg]).
    destruct (join_all_spec P C T G sta HL bs g1) as (A & B & D & H); auto.
    + eapply grow_open; eauto.
    + eapply joinable_in, brs_grow; eauto.
    + split; [eapply fits_grow; eauto|]. intros b ty Hb NJ. specialize (H b ty Hb). destruct ty; auto. contradiction.
  - rewrite bf_eq in *. pose proof (grow_open _ _ GR) as O.
    assert (G1 : grow g (cexpr e g)) by (apply gx; auto).
    assert (G2 : grow g0 (cexpr e g)) by (eapply grow_trans; eauto).
    assert (G3 : grow g0 (fst (g_branch_forward (cexpr e g)))) by (eapply grow_trans; [exact G2|apply grow_bf; auto with cg]).
    destruct (IH g0 _ _ G3 (brs_add _ _ _ (BrCompare c) (brs_grow _ _ _ _ BI G1) G2) Ft) as [A B].
    split; [fit|]. intros b ty Hb NJ. apply B; auto. rewrite in_app_iff. auto.
Qed.

Lemma step_eval n : P_eval n -> P_args n -> P_plain n -> P_chain n -> P_lit n -> P_tree n -> P_scall n -> P_eval (S n).
Proof.
  intros IE IA IP IC IL IT IS G sta fr F fs li un e s K h g HL O Ft Pr m0. rewrite eval_S.
  pose proof (pre_inv _ _ _ _ _ _ Pr) as I0.
  destruct e as [v| |x|f e|f c cs|f a|a f|p a|o lhs rhs|lhs c e rest|t a|a b|a b|c t f|a i b o|a i o b|x e]; cbn [cexpr capsE] in *.
  - apply esim_ret; auto. eapply go_push; [exact HL|exact O|exact Ft|apply s_const].
  - eapply fail_push; [exact HL|exact O|exact Ft|reflexivity].
  - now apply load_sim with (G := G).
  - rewrite <- (app_nil_r (capsE e)). eapply esim_seq; [apply (IE G); [exact HL|oo|fit|auto]|]. intros v s1 h1 Po. cbv beta.
    apply esim_ret; [apply Po|]. eapply go_push; [exact HL|oo|exact Ft|apply s_method].
  - destruct (captured fr (c :: cs)) as [ls|] eqn:Ec; [|exact Logic.I].
    destruct (at_pushes C T G sta HL _ g O Ft) as [A B].
    destruct (closure_sim P C T funs fr F fs li un f c cs (here sta g) s K h ls Pr Ec A) as [h' [Po R]].
    cbn [new_closure] in *. exists h'. split; [exact Po|]. rewrite B. exact R.
  - destruct (cargs a false (cexpr f g)) as [g' b'] eqn:Ea. 
    assert (Eg : g' = fst (cargs a false (cexpr f g))) by now rewrite Ea. assert (Eb : b' = snd (cargs a false (cexpr f g))) by now rewrite Ea.
    assert (O' : isopen g') by (rewrite Eg; oo).
    assert (Fa : fits g' G) by (eapply f_push; eauto). rewrite Eg in Fa.
    assert (Ff : fits (cexpr f g) G) by fit.
    eapply esim_seq; [apply (IE G); eauto|]. intros fv s1 h1 Po. cbv beta.
    rewrite <- (app_nil_r (capsA a)).
    assert (Pr1 : pre fr F fs (K ++ [STmp fv]) s1 h1) by (eapply pre_tmpp; eauto).
    specialize (IA G sta fr F fs li un a false 0%Z s1 (K ++ [STmp fv]) h1 (cexpr f g) HL ltac:(oo) Fa Pr1 (fun _ => eq_refl)). cbv zeta in IA.
    rewrite <- Eg, <- Eb in IA. cbn [uns] in IA.
    eapply esim_bind; [exact IA|]. intros vs s2 [Hn [h2 [Po2 R2]]].
    destruct (at_push C G sta HL _ g' O' Ft) as [A ->].
    assert (I2 : inv s2 K h2). { eapply inv_same; [apply same_vars_sym, tmp_same|]. apply Po2. }
    assert (G2 : glob s2 K). { eapply pre_glob with (h := h2). eapply pre_post; [eapply pre_post; [exact Pr|exact Po]|]. eapply post_untmp; eauto. }
    eapply esim_step; [exact R2| |].
    + eapply (call_sim P C T funs n fv vs fs li _ un (n_args a) b' (here sta g') s2 K h2 F IS I2 G2 A). intros m ->. destruct b'; cbn [uns].
      * rewrite s_call1. f_equal. lia.
      * rewrite s_call0. now rewrite Hn.
    + intros v s3 [h3 [Po3 R3]]. exists h3. split; [eapply post_trans; [eapply post_untmp; exact Po2|exact Po3]|]. eapply reaches_trans; eauto.
  - eapply esim_seq; [apply (IE G); [exact HL|oo|fit|auto]|]. intros v s1 h1 Po. cbv beta. rewrite <- (app_nil_r (capsE f)).
    eapply esim_seq; [eapply esim_untmp; apply (IE G); [exact HL|oo|fit|eapply pre_tmpp; eauto]|]. intros fv s2 h2 Po2. cbv beta.
    assert (Pr2 : pre fr F fs K s2 h2) by (eapply pre_post; [eapply pre_post; [exact Pr|exact Po]|exact Po2]).
    eapply esim_pre; [eapply go_push; [exact HL| |eapply f_push; [|exact Ft]|apply s_swap]; oo|].
    apply (call_push n G sta 1 (g_push OSwap (cexpr f (cexpr a g))) fv [v]); eauto with cg.
  - rewrite <- (app_nil_r (capsA a)). eapply esim_seq; [apply (IP G); eauto; fit|]. intros vs s1 h1 Po. cbv beta.
    destruct (Nat.eqb_spec (length vs) (prim_arity p)); [|exact Logic.I].
    assert (Pr2 : pre fr F fs K s1 h1) by (eapply pre_post; eauto).
    eapply prim_push; eauto with cg.
  - eapply esim_seq; [apply (IE G); [exact HL|oo|fit|auto]|]. intros v s1 h1 Po. cbv beta. rewrite <- (app_nil_r (capsE lhs)).
    eapply esim_seq; [eapply esim_untmp; apply (IE G); [exact HL|oo|fit|eapply pre_tmpp; eauto]|]. intros l s2 h2 Po2. cbv beta.
    assert (Pr2 : pre fr F fs K s2 h2) by (eapply pre_post; [eapply pre_post; [exact Pr|exact Po]|exact Po2]).
    eapply esim_pre; [eapply go_push; [exact HL| |eapply f_push; [|exact Ft]|apply s_swap]; oo|].
    pose proof (prim_push n G sta (PBinary o) (g_push OSwap (cexpr lhs (cexpr rhs g))) [l; v] fs li un s2 K h2 F) as X.
    rewrite <- app_assoc. apply X; eauto with cg.
  - (* comparison chain *)
    rewrite bf_eq in *. set (g2 := cexpr e (cexpr lhs g)) in *. set (g3 := fst (g_branch_forward g2)) in *.
    assert (G2 : grow g g2) by (eapply grow_trans; [apply gx|apply gx]; oo).
    assert (G3 : grow g g3) by (eapply grow_trans; [exact G2|apply grow_bf; oo]).
    assert (BI : brs_in g g3 [(length g2 - 1, BrCompare c)]) by (apply (brs_add g g2 []); [split; constructor|exact G2]).
    destruct (chain_branches G sta HL rest g g3 _ G3 BI Ft) as [F3 BB].
    assert (F2 : fits g2 G) by (eapply f_bf; [|exact F3]; oo).
    eapply esim_seq; [apply (IE G); [exact HL|oo|fit|auto]|]. intros l s1 h1 Po. cbv beta.
    eapply esim_seq; [eapply esim_untmp; apply (IE G); [exact HL|oo|fit|eapply pre_tmpp; eauto]|]. intros v s2 h2 Po2. cbv beta. fold g2.
    assert (Pr2 : pre fr F fs K s2 h2) by (eapply pre_post; [eapply pre_post; [exact Pr|exact Po]|exact Po2]).
    destruct (BB _ _ (or_introl eq_refl)) as [t [B1 B2]]; [discriminate|].
    rewrite (tail_bf G sta g2) in B1 by (auto; oo). replace (S (length g2 - 1)) with (length g2) in B1 by (pose proof (open_pos g2 ltac:(oo)); lia).
    rewrite <- (here_bf sta g2) in B1 by oo. fold g3 in B1.
    pose proof (b_compare P C T c _ _ _ fs li un s2 K l v h2 fs B1) as R.
    destruct (p_compare P (sworld P s2) c l v).
    + eapply esim_pre; [exact R|]. apply (IC G) with (g0 := g); auto.
    + apply esim_incl with (L := []); [|intros ? []]. apply esim_ret; [apply Po2|]. eapply reaches_trans; [exact R|]. apply go_reaches. exact B2.
  - (* literal *)
    eapply esim_pre; [eapply go_push with (o := OLitBegin t (n_args a)) (li' := l_new P t (n_args a) :: li); [exact HL|exact O|fit|reflexivity]|].
    rewrite <- (app_nil_r (capsA a)). eapply esim_seq.
    + pose proof (IL G sta fr F fs li un (l_new P t (n_args a)) [] a s K h (g_push (OLitBegin t (n_args a)) g)) as X. cbn [length map] in X. rewrite app_nil_r in X.
      apply X; auto; [oo|fit].
    + intros l s1 h1 Po. cbv beta. assert (Pr1 : pre fr F fs K s1 h1) by (eapply pre_post; eauto).
      destruct (l_end P l (sworld P s1)) as [w v] eqn:El. apply esim_retw; [eauto with cg|].
      eapply go_push; [exact HL|oo|exact Ft|]. unfold strict_step. cbn [self_store step]. rewrite <- push_mk. unfold CompInv.mk at 1. cbn [Vm.lits].
      rewrite world_mk, El. reflexivity.
  - (* and *)
    rewrite bf_eq in *. set (g1 := cexpr a g) in *. set (g2 := fst (g_branch_forward g1)) in *.
    assert (O1 : isopen g1) by oo. assert (O2 : isopen g2) by oo.
    assert (G2 : grow g2 (cexpr b (g_push OPop g2))) by (eapply grow_trans; [apply (grow_push OPop)|apply gx]; oo).
    assert (Pb : pending (cexpr b (g_push OPop g2)) (length g1 - 1)) by (eapply pending_grow; [apply pending_bf; oo|exact G2]).
    assert (Fb : fits (cexpr b (g_push OPop g2)) G) by (eapply fits_jf; [oo|exact Pb|exact Ft]).
    pose proof (bf_branch P C T G sta HL g1 _ BrFalse O1 G2 Ft ltac:(discriminate)) as B1. fold g2 in B1.
    pose proof (at_jf P C T G sta HL _ _ _ (o_expr b _ (o_push OPop _ O2)) Pb Ft) as B2.
    eapply esim_seq; [apply (IE G); [exact HL|oo|fit|auto]|]. intros v s1 h1 Po. cbv beta.
    pose proof (b_false P C T _ _ _ fs li un s1 K v h1 fs B1) as R.
    assert (Pr1 : pre fr F fs K s1 h1) by (eapply pre_post; eauto).
    destruct (p_bool P (sworld P s1) v).
    + eapply esim_pre; [exact R|]. eapply esim_pre; [eapply go_push with (o := OPop); [exact HL|exact O2|fit|apply s_pop]|].
      eapply esim_post; [apply (IE G); [exact HL|oo|fit|auto]|]. intros u s2 h2 _. apply go_reaches. exact B2.
    + apply esim_incl with (L := []); [|intros ? []]. apply esim_ret; [apply Po|]. exact R.
  - (* or *)
    rewrite bf_eq in *. set (g1 := cexpr a g) in *. set (g2 := fst (g_branch_forward g1)) in *.
    assert (O1 : isopen g1) by oo. assert (O2 : isopen g2) by oo.
    assert (G2 : grow g2 (cexpr b (g_push OPop g2))) by (eapply grow_trans; [apply (grow_push OPop)|apply gx]; oo).
    assert (Pb : pending (cexpr b (g_push OPop g2)) (length g1 - 1)) by (eapply pending_grow; [apply pending_bf; oo|exact G2]).
    assert (Fb : fits (cexpr b (g_push OPop g2)) G) by (eapply fits_jf; [oo|exact Pb|exact Ft]).
    pose proof (bf_branch P C T G sta HL g1 _ BrTrue O1 G2 Ft ltac:(discriminate)) as B1. fold g2 in B1.
    pose proof (at_jf P C T G sta HL _ _ _ (o_expr b _ (o_push OPop _ O2)) Pb Ft) as B2.
    eapply esim_seq; [apply (IE G); [exact HL|oo|fit|auto]|]. intros v s1 h1 Po. cbv beta.
    pose proof (b_true P C T _ _ _ fs li un s1 K v h1 fs B1) as R.
    assert (Pr1 : pre fr F fs K s1 h1) by (eapply pre_post; eauto).
    destruct (p_bool P (sworld P s1) v).
    + apply esim_incl with (L := []); [|intros ? []]. apply esim_ret; [apply Po|]. exact R.
    + eapply esim_pre; [exact R|]. eapply esim_pre; [eapply go_push with (o := OPop); [exact HL|exact O2|fit|apply s_pop]|].
      eapply esim_post; [apply (IE G); [exact HL|oo|fit|auto]|]. intros u s2 h2 _. apply go_reaches. exact B2.
  - (* if then else *)
    rewrite bf_eq in *. rewrite (bf_eq (cexpr t _)) in *.
    set (g1 := cexpr c g) in *. set (g2 := fst (g_branch_forward g1)) in *. set (g3 := cexpr t g2) in *. set (g4 := fst (g_branch_forward g3)) in *.
    assert (O1 : isopen g1) by oo. assert (O2 : isopen g2) by oo. assert (O3 : isopen g3) by oo. assert (O4 : isopen g4) by oo.
    assert (G2 : grow g1 g2) by (apply grow_bf; oo).
    assert (G3 : grow g2 g3) by (apply gx; oo).
    assert (G4 : grow g3 g4) by (apply grow_bf; oo).
    assert (G24 : grow g2 g4) by (eapply grow_trans; eauto).
    assert (P1 : pending g4 (length g1 - 1)) by (eapply pending_grow; [apply pending_bf; oo|exact G24]).
    assert (P2 : pending g4 (length g3 - 1)) by (apply pending_bf; oo).
    assert (L2 : length g2 = S (length g1)) by apply bf_len.
    pose proof (grow_len _ _ G3). pose proof (open_pos _ O1).
    set (g5 := g_join_forward g4 (length g1 - 1) BrFalsePop) in *.
    assert (O5 : isopen g5) by (apply jf_isopen; auto).
    assert (P5 : pending g5 (length g3 - 1)) by (apply pending_jf; auto; lia).
    assert (P6 : pending (cexpr f g5) (length g3 - 1)) by (eapply pending_grow; [exact P5|apply gx; oo]).
    assert (F6 : fits (cexpr f g5) G) by (eapply fits_jf; [oo|exact P6|exact Ft]).
    assert (F5 : fits g5 G) by fit.
    assert (F4 : fits g4 G) by (eapply fits_jf; [oo|exact P1|exact F5]).
    pose proof (bf_branch P C T G sta HL g1 g4 BrFalsePop O1 G24 F5 ltac:(discriminate)) as B1. fold g2 g5 in B1.
    pose proof (at_jf P C T G sta HL _ _ _ (o_expr f _ O5) P6 Ft) as B2.
    pose proof (from_jf_jump P C T G sta HL _ _ (o_expr f _ O5) P6 Ft) as B3. rewrite (tail_bf G sta g3) in B3 by auto.
    eapply esim_seq; [apply (IE G); [exact HL|oo|fit|auto]|]. intros v s1 h1 Po. cbv beta. fold g1.
    pose proof (b_falsepop P C T _ _ _ fs li un s1 K v h1 fs B1) as R.
    assert (Pr1 : pre fr F fs K s1 h1) by (eapply pre_post; eauto).
    destruct (p_bool P (sworld P s1) v).
    + apply esim_incl with (L := capsE t); [|intros; rewrite in_app_iff; auto].
      eapply esim_pre; [exact R|]. eapply esim_post; [apply (IE G); [exact HL|oo|fit|auto]|]. intros u s2 h2 _. apply go_reaches. exact B3.
    + apply esim_incl with (L := capsE f); [|intros; rewrite in_app_iff; auto].
      eapply esim_pre; [exact R|]. eapply esim_post; [apply (IE G); [exact HL|oo|fit|auto]|]. intros u s2 h2 _. apply go_reaches. exact B2.
  - (* swap field *)
    set (g1 := cexpr a g) in *. assert (O1 : isopen g1) by oo. set (g2 := g_push (OPeek (PGetField i)) g1) in *. assert (O2 : isopen g2) by oo.
    set (g3 := cexpr b g2) in *. assert (O3 : isopen g3) by oo.
    assert (F3 : fits g3 G) by fit. assert (F2 : fits g2 G) by fit. assert (F1 : fits g1 G) by fit.
    eapply esim_seq; [apply (IE G); eauto|]. intros x s1 h1 Po. cbv beta. fold g1.
    assert (Pr1 : pre fr F fs K s1 h1) by (eapply pre_post; eauto).
    apply esim_incl with (L := [] ++ capsE b ++ [] ++ []); [|intros k; rewrite !app_nil_r; auto].
    eapply esim_seq; [apply (peek_push n G sta (PGetField i) g1 [x]); eauto with cg|]. intros old s2 h2 Po2. cbv beta. cbn [map]. fold g2.
    assert (Pr2 : pre fr F fs K s2 h2) by (eapply pre_post; eauto).
    eapply esim_seq; [eapply esim_untmp, esim_untmp; apply (IE G); auto; eauto with cg|]. intros y s3 h3 Po3. cbv beta. fold g3.
    assert (Pr3 : pre fr F fs K s3 h3) by (eapply pre_post; eauto).
    rewrite <- (app_assoc (K ++ [STmp x])).
    eapply esim_seq; [eapply esim_untmp; apply (prim_push n G sta (PBinary o) g3 [old; y]); eauto with cg; fit|]. intros v s4 h4 Po4. cbv beta.
    assert (Pr4 : pre fr F fs K s4 h4) by (eapply pre_post; eauto).
    rewrite <- app_assoc. apply (prim_push n G sta (PSetField i) _ [x; v]); eauto with cg.
  - (* array op *)
    set (g1 := cexpr a g) in *. assert (O1 : isopen g1) by oo. set (g2 := cexpr i g1) in *. assert (O2 : isopen g2) by oo.
    set (g3 := g_push (OPeek PIndex) g2) in *. assert (O3 : isopen g3) by oo. set (g4 := cexpr b g3) in *. assert (O4 : isopen g4) by oo.
    set (g5 := match o with Some o => _ | None => _ end) in *.
    assert (O5 : isopen g5) by (unfold g5; destruct o; oo).
    assert (F5 : fits g5 G) by fit.
    assert (F4 : fits g4 G) by (unfold g5 in F5; destruct o; fit). assert (F3 : fits g3 G) by fit. assert (F2 : fits g2 G) by fit. assert (F1 : fits g1 G) by fit.
    eapply esim_seq; [apply (IE G); eauto|]. intros x s1 h1 Po. cbv beta. fold g1.
    assert (Pr1 : pre fr F fs K s1 h1) by (eapply pre_post; eauto).
    apply esim_incl with (L := capsE i ++ [] ++ capsE b ++ [] ++ []); [|intros k; rewrite !app_nil_r; auto].
    eapply esim_seq; [eapply esim_untmp; apply (IE G); eauto with cg|]. intros ix s2 h2 Po2. cbv beta. fold g2.
    assert (Pr2 : pre fr F fs K s2 h2) by (eapply pre_post; eauto).
    rewrite <- app_assoc.
    eapply esim_seq; [apply (peek_push n G sta PIndex g2 [x; ix]); eauto with cg|]. intros old s3 h3 Po3. cbv beta. cbn [map]. fold g3.
    assert (Pr3 : pre fr F fs K s3 h3) by (eapply pre_post; eauto).
    eapply esim_seq; [eapply (esim_untmps _ _ _ _ _ _ _ _ _ [x; ix]), esim_untmp; apply (IE G); auto; apply pre_tmp, (pre_tmps P fr F fs K [x; ix]); auto|]. intros y s4 h4 Po4. cbv beta. fold g4.
    assert (Pr4 : pre fr F fs K s4 h4) by (eapply pre_post; eauto).
    eapply esim_seq with (f1 := fun v s' h' => mk fs li un (here sta g5) s' ((K ++ [STmp x; STmp ix]) ++ [STmp v]) h').
    + eapply (esim_untmps _ _ _ _ _ _ _ _ _ [x; ix]). pose proof (pre_tmps P fr F fs K [x; ix] _ _ Pr4) as Pr5.
      destruct o as [o|].
      * rewrite <- (app_assoc (K ++ [STmp x; STmp ix])). apply (prim_push n G sta (PBinary o) g4 [old; y]); eauto with cg.
      * eapply esim_pre; [eapply go_push; [exact HL|exact O4|eapply f_push; [|exact F5]; oo|apply s_swap]|].
        apply (call_push n G sta 1 (g_push OSwap g4) y [old]); eauto with cg.
    + intros v s5 h5 Po5. cbv beta. assert (Pr5 : pre fr F fs K s5 h5) by (eapply pre_post; eauto).
      rewrite <- app_assoc. apply (prim_push n G sta PStoreArray g5 [x; ix; v]); eauto with cg.
  - (* assignment *)
    rewrite <- (app_nil_r (capsE e)). eapply esim_seq; [apply (IE G); [exact HL|oo|fit|auto]|]. intros v s1 h1 Po. cbv beta.
    assert (Pr1 : pre fr F fs K s1 h1) by (eapply pre_post; eauto).
    pose proof (s_store P T x fr F fs li un (S (here sta (cexpr e g))) s1 K v h1 Pr1) as R.
    destruct (var_loc P fr x s1) as [[l s'|er w]|]; cbn [bind CompSim1.esim]; auto.
    + destruct R as [-> [h' [R Po']]]. destruct (l <? length (store P s1)); [|exact Logic.I]. exists h'. split; [exact Po'|].
      eapply go_push; [exact HL|oo|exact Ft|exact R].
    + eapply fail_push; [exact HL|oo|exact Ft|exact R].
Qed.

(** ** Arguments *)
Lemma cargs_true a : forall g, snd (cargs a true g) = true.
Proof. induction a as [|sp e r IH]; intros g; cbn [cargs snd]; auto. destruct sp; apply IH. Qed.
Lemma s_unroll b u fs li un i s K v h : (b = false -> u = 0%Z) ->
  sstep (OUnroll (negb b)) (mk fs li (uns b u un) i s (K ++ [STmp v]) h) =
  match p_unroll P v (sworld P s) with
  | (w, inl e) => Fail P (XPrim e) w
  | (w, inr l) => Go P (mk fs li ((u + (Z.of_nat (length l) - 1))%Z :: un) i (with_world P w s) (K ++ map STmp l) h)
  end.
Proof.
  intros Hu. unfold strict_step. cbn [self_store step].
  assert (X : (if negb b then set_unrolls P (0%Z :: unrolls P (mk fs li (uns b u un) i s (K ++ [STmp v]) h)) (mk fs li (uns b u un) i s (K ++ [STmp v]) h)
               else mk fs li (uns b u un) i s (K ++ [STmp v]) h) = mk fs li (u :: un) i s (K ++ [STmp v]) h).
  { destruct b; cbn [negb uns]; [reflexivity|]. rewrite (Hu eq_refl). reflexivity. }
  rewrite X. rewrite pop1t_mk, world_mk. destruct (p_unroll P v (sworld P s)) as [w [e|l]]; [reflexivity|].
  unfold CompInv.mk at 1. cbn [Vm.unrolls]. f_equal. rewrite <- pushl_mk. reflexivity.
Qed.
Lemma step_args n : P_eval n -> P_args n -> P_args (S n).
Proof.
  intros IE IA G sta fr F fs li un a b u s K h g HL O Ft Pr Hu m0. rewrite eval_args_S.
  destruct a as [|sp e r]; cbn [cargs capsA n_args] in *.
  - cbn [CompSim1.esim ret]. cbn [fst snd length]. split; [reflexivity|]. exists h. split; [apply post_refl; eauto with cg|].
    cbn [map length]. rewrite app_nil_r. replace (u + Z.of_nat 0 - Z.of_nat 0)%Z with u by lia. apply reaches_refl.
  - destruct sp.
    + set (g1 := g_push (OUnroll (negb b)) (cexpr e g)) in *. assert (O1 : isopen g1) by oo.
      assert (F1 : fits g1 G) by fit.
      eapply esim_bind; [apply (IE G); [exact HL|oo|fit|exact Pr]|]. intros v s1 [h1 [Po R]].
      assert (Pr1 : pre fr F fs K s1 h1) by (eapply pre_post; eauto).
      pose proof (s_unroll b u fs li un (S (here sta (cexpr e g))) s1 K v h1 Hu) as SU.
      destruct (p_unroll P v (sworld P s1)) as [w [er|l]].
      * cbn [CompSim1.esim]. eapply reaches_failing; [exact R|]. eapply fail_push; [exact HL|oo|exact F1|exact SU].
      * assert (R1 : reaches fs m0 (mk fs li (uns true (u + (Z.of_nat (length l) - 1)) un) (here sta g1) (with_world P w s1) (K ++ map STmp l) h1)).
        { eapply reaches_trans; [exact R|]. eapply go_push; [exact HL|oo|exact F1|exact SU]. }
        assert (Pr2 : pre fr F fs (K ++ map STmp l) (with_world P w s1) h1).
        { apply pre_tmps. eapply pre_post; [exact Pr1|]. apply (post_world P F). eauto with cg. }
        specialize (IA G sta fr F fs li un r true (u + (Z.of_nat (length l) - 1))%Z _ _ _ g1 HL O1 Ft Pr2 ltac:(discriminate)). cbv zeta in IA.
        eapply esim_step; [exact R1| |].
        -- eapply esim_bind; [exact IA|]. intros vs s2 [Hn [h2 [Po2 R2]]].
           instantiate (1 := fun vs' s' => (snd (cargs r true g1) = false -> length vs' = S (n_args r)) /\
             exists h', post F (capsA r) (K ++ map STmp l) (with_world P w s1) h1 s' h' /\ reaches fs (mk fs li (uns true (u + (Z.of_nat (length l) - 1)) un) (here sta g1) (with_world P w s1) (K ++ map STmp l) h1)
               (mk fs li (uns (snd (cargs r true g1)) (u + Z.of_nat (length vs') - Z.of_nat (S (n_args r))) un) (here sta (fst (cargs r true g1))) s' (K ++ map STmp vs') h')).
           cbn [CompSim1.esim ret]. rewrite cargs_true in *. split; [discriminate|]. exists h2. split; [exact Po2|].
           rewrite map_app, app_length, app_assoc. replace (u + Z.of_nat (length l + length vs) - Z.of_nat (S (n_args r)))%Z with (u + (Z.of_nat (length l) - 1) + Z.of_nat (length vs) - Z.of_nat (n_args r))%Z by lia. exact R2.
        -- intros vs s2 [Hn [h2 [Po2 R2]]]. split; [exact Hn|]. exists h2. split; [|eapply reaches_trans; eauto].
           eapply post_trans; [exact Po|]. change (capsA r) with ([] ++ capsA r). eapply post_trans; [apply (post_world P F); eauto with cg|]. eapply post_untmps. exact Po2.
    + assert (Fe : fits (cexpr e g) G) by fit.
      eapply esim_bind; [apply (IE G); [exact HL|oo|fit|exact Pr]|]. intros v s1 [h1 [Po R]].
      assert (Pr1 : pre fr F fs (K ++ [STmp v]) s1 h1) by (eapply pre_tmpp; eauto).
      specialize (IA G sta fr F fs li un r b u _ _ _ (cexpr e g) HL ltac:(oo) Ft Pr1 Hu). cbv zeta in IA.
      eapply esim_step; [exact R| |].
      * eapply esim_bind; [exact IA|]. intros vs s2 [Hn [h2 [Po2 R2]]].
        instantiate (1 := fun vs' s' => (snd (cargs r b (cexpr e g)) = false -> length vs' = S (n_args r)) /\
             exists h', post F (capsA r) (K ++ [STmp v]) s1 h1 s' h' /\ reaches fs (mk fs li (uns b u un) (here sta (cexpr e g)) s1 (K ++ [STmp v]) h1)
               (mk fs li (uns (snd (cargs r b (cexpr e g))) (u + Z.of_nat (length vs') - Z.of_nat (S (n_args r))) un) (here sta (fst (cargs r b (cexpr e g)))) s' (K ++ map STmp vs') h')).
        cbn [CompSim1.esim ret]. split; [intro Q; cbn [length]; f_equal; auto|]. exists h2. split; [exact Po2|].
        cbn [map length]. replace (u + Z.of_nat (S (length vs)) - Z.of_nat (S (n_args r)))%Z with (u + Z.of_nat (length vs) - Z.of_nat (n_args r))%Z by lia.
        rewrite <- app_assoc in R2. exact R2.
      * intros vs s2 [Hn [h2 [Po2 R2]]]. split; [exact Hn|]. exists h2. split; [|eapply reaches_trans; eauto].
        eapply post_trans; [exact Po|]. eapply post_untmp. exact Po2.
Qed.
Lemma step_plain n : P_eval n -> P_plain n -> P_plain (S n).
Proof.
  intros IE IA G sta fr F fs li un a s K h g HL O Ft Pr m0. rewrite eval_plain_S.
  destruct a as [|sp e r]; cbn [cplain capsA] in *.
  - apply esim_ret; [eauto with cg|]. cbn [map]. rewrite app_nil_r. apply reaches_refl.
  - destruct sp; [exact Logic.I|]. eapply esim_seq; [apply (IE G); [exact HL|oo|fit|exact Pr]|]. intros v s1 h1 Po. cbv beta.
    rewrite <- (app_nil_r (capsA r)). eapply esim_seq; [eapply esim_untmp; apply (IA G); [exact HL|oo|exact Ft|eapply pre_tmpp; eauto]|]. intros vs s2 h2 Po2. cbv beta.
    apply esim_ret; [apply Po2|]. cbn [map]. rewrite <- app_assoc. apply reaches_refl.
Qed.
Lemma step_chain n : P_eval n -> P_chain n -> P_tree n -> P_chain (S n).
Proof.
  intros IE IC IT G sta fr F fs li un l r bs s K h g g0 HL GR BI Ft Pr m0. rewrite eval_chain_S. pose proof (grow_open _ _ GR) as O.
  destruct r as [c e|c e r]; cbn [ccmps capsC] in *.
  - set (g1 := g_push _ _) in *. assert (O1 : isopen g1) by oo.
    assert (G1 : grow g g1) by (eapply grow_trans; [apply gx; auto|apply (grow_push (OPrim (PBinary (cmp_binop c)))); oo]).
    destruct (join_all_spec P C T G sta HL bs g1 O1 (joinable_in _ _ _ (brs_grow _ _ _ _ BI G1)) Ft) as (A & B & D & _).
    rewrite <- (app_nil_r (capsE e)). eapply esim_seq; [eapply esim_untmp; apply (IE G); [exact HL|oo|fit|eauto with cg]|]. intros v s1 h1 Po. cbv beta.
    assert (Pr1 : pre fr F fs K s1 h1) by (eapply pre_post; eauto).
    eapply esim_post.
    + rewrite <- app_assoc. apply (prim_push n G sta (PBinary (cmp_binop c)) (cexpr e g) [l; v]); eauto with cg.
    + intros u s2 h2 _. cbv beta. apply go_reaches. exact D.
  - rewrite bf_eq in *. set (g2 := cexpr e g) in *. set (g3 := fst (g_branch_forward g2)) in *.
    assert (G1 : grow g g2) by (apply gx; auto).
    assert (G2 : grow g0 g2) by (eapply grow_trans; eauto).
    assert (G3 : grow g0 g3) by (eapply grow_trans; [exact G2|apply grow_bf; oo]).
    assert (BI2 : brs_in g0 g3 (bs ++ [(length g2 - 1, BrCompare c)])) by (apply brs_add; [eapply brs_grow; eauto|exact G2]).
    destruct (chain_branches G sta HL r g0 g3 _ G3 BI2 Ft) as [F3 BB].
    assert (F2 : fits g2 G) by fit.
    eapply esim_seq; [eapply esim_untmp; apply (IE G); [exact HL|oo|fit|eauto with cg]|]. intros v s1 h1 Po. cbv beta. fold g2.
    assert (Pr1 : pre fr F fs K s1 h1) by (eapply pre_post; eauto).
    destruct (BB (length g2 - 1) (BrCompare c)) as [t [B1 B2]]; [rewrite in_app_iff; simpl; auto|discriminate|].
    rewrite (tail_bf G sta g2) in B1 by (auto; oo). replace (S (length g2 - 1)) with (length g2) in B1 by (pose proof (open_pos g2 ltac:(oo)); lia).
    rewrite <- (here_bf sta g2) in B1 by oo. fold g3 in B1.
    pose proof (b_compare P C T c _ _ _ fs li un s1 K l v h1 fs B1) as R.
    destruct (p_compare P (sworld P s1) c l v).
    + eapply esim_pre; [exact R|]. apply (IC G) with (g0 := g0); auto.
    + apply esim_incl with (L := []); [|intros ? []]. apply esim_ret; [apply Po|]. eapply reaches_trans; [exact R|]. apply go_reaches. exact B2.
Qed.
Lemma s_litacc l pend fs li un i s K h : sstep (OLitAcc (length pend)) (mk fs (l :: li) un i s (K ++ map STmp pend) h) =
  Go P (mk fs (l_acc P l pend (sworld P s) :: li) un i s K h).
Proof.
  unfold strict_step. cbn [self_store step]. unfold CompInv.mk at 1. cbn [Vm.lits]. rewrite slen_mk, app_length, map_length.
  replace (length pend <=? length K + length pend) with true by (symmetry; apply Nat.leb_le; lia).
  rewrite stack_mk, top_mk, below_mk. reflexivity.
Qed.
Lemma s_litunroll l v fs li un i s K h : sstep OLitUnroll (mk fs (l :: li) un i s (K ++ [STmp v]) h) =
  match l_unroll P l v (sworld P s) with
  | (w, inl e) => Fail P (XPrim e) w
  | (w, inr l') => Go P (mk fs (l' :: li) un i (with_world P w s) K h)
  end.
Proof.
  unfold strict_step. cbn [self_store step]. rewrite pop1t_mk. unfold CompInv.mk at 1. cbn [Vm.lits]. rewrite world_mk.
  destruct (l_unroll P l v (sworld P s)) as [w [e|l']]; reflexivity.
Qed.
Lemma step_lit n : P_eval n -> P_lit n -> P_lit (S n).
Proof.
  intros IE IL G sta fr F fs li un l pend a s K h g HL O Ft Pr m0. rewrite eval_lit_S. cbv zeta.
  set (flush := match pend with [] => l | _ => l_acc P l pend (sworld P s) end).
  set (gf := if 0 <? length pend then g_push (OLitAcc (length pend)) g else g).
  assert (Of : isopen gf) by (unfold gf; destruct (0 <? length pend); oo).
  assert (RF : fits gf G -> reaches fs m0 (mk fs (flush :: li) un (here sta gf) s K h)).
  { intros Ff. unfold flush, gf, m0 in *. destruct pend as [|p pend]; cbn [length Nat.ltb Nat.leb] in *.
    - cbn [map]. rewrite app_nil_r. apply reaches_refl.
    - eapply go_push; [exact HL|exact O|exact Ff|]. apply (s_litacc l (p :: pend)). }
  destruct a as [|sp e r]; cbn [clit capsA] in *.
  - fold gf in Ft |- *. apply esim_ret; [eauto with cg|]. apply RF. exact Ft.
  - destruct sp; fold gf in Ft |- *.
    + cbv zeta in *. fold gf in Ft |- *. set (g2 := g_push OLitUnroll (cexpr e gf)) in *. assert (O2 : isopen g2) by oo. assert (F2 : fits g2 G) by fit.
      assert (Fe : fits (cexpr e gf) G) by (eapply f_push; [|exact F2]; oo).
      assert (Ff : fits gf G) by (eapply f_expr; [|exact Fe]; oo).
      eapply esim_pre; [exact (RF Ff)|].
      eapply esim_seq; [apply (IE G); [exact HL|oo|exact Fe|exact Pr]|]. intros v s1 h1 Po. cbv beta.
      assert (Pr1 : pre fr F fs K s1 h1) by (eapply pre_post; eauto).
      pose proof (s_litunroll flush v fs li un (S (here sta (cexpr e gf))) s1 K h1) as SU.
      destruct (l_unroll P flush v (sworld P s1)) as [w [er|l']].
      * eapply fail_push; [exact HL|oo|exact F2|exact SU].
      * eapply esim_pre; [eapply go_push; [exact HL|oo|exact F2|exact SU]|]. fold g2.
        assert (Po2 : post F [] K s1 h1 (with_world P w s1) h1) by (apply post_world; eauto with cg).
        eapply (esim_after P C T fs _ _ F [] (capsA r)); [exact Po2|].
        pose proof (IL G sta fr F fs li un l' [] r (with_world P w s1) K h1 g2 HL O2 Ft) as X. cbn [length map] in X. rewrite app_nil_r in X.
        apply X. eauto with cg.
    + assert (Fe : fits (cexpr e g) G) by fit.
      eapply esim_seq; [eapply esim_untmps; apply (IE G); [exact HL|oo|exact Fe|eauto with cg]|]. intros v s1 h1 Po. cbv beta.
      assert (Pr1 : pre fr F fs K s1 h1) by (eapply pre_post; eauto).
      pose proof (IL G sta fr F fs li un l (pend ++ [v]) r s1 K h1 (cexpr e g) HL ltac:(oo)) as X.
      rewrite map_app, app_assoc, app_length in X. cbn [map length] in X. rewrite Nat.add_1_r in X. apply X; auto.
Qed.
End sim3.
