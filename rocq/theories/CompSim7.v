(** Simulation of function bodies, whole programs. *)
From Verif Require Import Base Native Err Vm VmProofs Graph GraphSpec GraphProofs Peep PeepSpec PeepProofs PeepProofs2 Lang LangSpec LangCheck Compile CompGraph CompGraph2 CompFlow CompInv CompUnf CompLv CompSim1 CompSim2 CompSim3 CompSim4 CompSim5 CompSim6.
Local Open Scope nat_scope.
Local Arguments CompInv.mk : simpl never.

(** ** Default arguments: static part *)
Lemma cdefs_grow ds : forall g, isopen g -> grow g (fst (cdefs ds g)).
Proof.
  induction ds as [|d r IH]; intros g O; cbn [cdefs]; [now apply grow_refl|]. rewrite br_eq. rewrite (cdefs_eq r). cbn [fst].
  eapply grow_trans; [apply (proj1 expr_grow); exact O|]. eapply grow_trans; [apply grow_br; apply o_expr; exact O|]. apply IH. apply o_br, o_expr, O.
Qed.
Lemma cdefs_cons d r g : fst (cdefs (d :: r) g) = fst (cdefs r (fst (g_branch_reverse (cexpr d g)))) /\
  snd (cdefs (d :: r) g) = length (cexpr d g) :: snd (cdefs r (fst (g_branch_reverse (cexpr d g)))).
Proof. cbn [cdefs]. rewrite br_eq, cdefs_eq. cbn [fst snd]. auto. Qed.
Lemma here_br sta g : isopen g -> here sta (fst (g_branch_reverse g)) = nth (length g) sta 0.
Proof. intros O. unfold g_branch_reverse. cbn [fst]. now apply here_new. Qed.
Lemma cdefs_at sta ds : forall g k b0, isopen g -> k <= length ds -> here sta g = nth b0 sta 0 ->
  exists gk, isopen gk /\ here sta gk = nth (nth k (b0 :: snd (cdefs ds g)) 0) sta 0 /\ fst (cdefs (skipn k ds) gk) = fst (cdefs ds g).
Proof.
  induction ds as [|d r IH]; intros g k b0 O Lk H0.
  - simpl in Lk. replace k with 0 by lia. exists g. auto.
  - destruct k as [|k]; [exists g; auto|]. destruct (cdefs_cons d r g) as [E1 E2]. rewrite E1, E2 in *. cbn [skipn].
    set (g1 := fst (g_branch_reverse (cexpr d g))) in *. assert (O1 : isopen g1) by (apply o_br, o_expr, O).
    pose proof (here_br sta (cexpr d g) (o_expr _ _ O)) as H1. fold g1 in H1.
    apply (IH g1 k (length (cexpr d g)) O1); [simpl in Lk; lia|exact H1].
Qed.

Section sim7.
Context (P : prims) (C : list op) (T : nat -> option func) (funs : nat -> option sfun).
Local Notation reaches := (reaches P C T).
Local Notation failing := (failing P C T).
Local Notation esim := (esim P C T).
Local Notation inv := (inv P).
Local Notation glob := (glob P).
Local Notation mk := (mk P).
Local Notation sstep := (strict_step P).
Local Notation post := (post P).
Local Notation pre := (pre P).
Local Notation st := (st P).
Local Notation store := (store P).
Local Notation senvs := (senvs P).
Local Notation globals := (globals P).
Local Notation sworld := (sworld P).
Local Notation P_eval := (P_eval P C T funs).
Local Notation Res := (Res P C T).
Local Notation returns := (returns P C T).

(** no variable at or above [F] *)
Definition flat (F : nat) (K : list slot) : Prop := forall x l, nth_error K x = Some (SVar l) -> x < F.
Lemma flat_capgrow F F' L K h h' : flat F K -> capgrow F L K h h' -> capgrow F' [] K h h'.
Proof.
  intros Fl H x Q. destruct (H x Q) as [?|[i [_ ->]]]; [now left|]. destruct Q as [k [l [_ Q]]]. apply Fl in Q. lia.
Qed.
Lemma flat_post F F' L K s h s' h' : flat F K -> post F L K s h s' h' -> post F' [] K s h s' h'.
Proof. intros Fl [A B D]. split; auto. eapply flat_capgrow; eauto. Qed.
Lemma flat_tmps F K vs : flat F K -> flat F (K ++ map STmp vs).
Proof. intros H x l Q. apply (H x l). now apply (tmps_same K vs). Qed.
Lemma flat_len K : flat (length K) K. Proof. intros x l H. apply nth_error_Some. congruence. Qed.
Lemma flat_le F F' K : flat F K -> F <= F' -> flat F' K. Proof. intros H L x l Q. specialize (H x l Q). lia. Qed.

Definition P_defs (n : nat) : Prop := forall G sta F fs li un ds s K h g, laid C G sta -> isopen g -> fits (fst (cdefs ds g)) G ->
  pre (Frame [] []) F fs K s h -> flat F K ->
  let m0 := mk fs li un (here sta g) s K h in
  esim fs m0 (eval_defs P funs n ds s) (Res fs m0 F [] K s h (fun vs s' h' => mk fs li un (here sta (fst (cdefs ds g))) s' (K ++ map STmp vs) h')).
Lemma step_defs n : P_eval n -> P_defs n -> P_defs (S n).
Proof.
  intros IE ID G sta F fs li un ds s K h g HL O Ft Pr Fl m0. rewrite eval_defs_S. destruct ds as [|d r].
  - apply esim_ret; [apply Pr|]. cbn [cdefs fst map]. rewrite app_nil_r. apply reaches_refl.
  - destruct (cdefs_cons d r g) as [E1 _]. rewrite E1 in *. set (g1 := fst (g_branch_reverse (cexpr d g))) in *.
    assert (Oe : isopen (cexpr d g)) by (apply o_expr, O).
    assert (O1 : isopen g1) by (apply o_br, Oe).
    assert (F1 : fits g1 G) by (eapply fits_grow; [apply cdefs_grow; exact O1|exact Ft]).
    assert (F0 : fits (cexpr d g) G) by (eapply f_br; [exact Oe|exact F1]).
    change (@nil nat) with ([] ++ @nil nat). eapply esim_seq.
    + eapply esim_step; [apply reaches_refl|apply (IE G sta (Frame [] []) F fs li un d s K h g HL O F0 Pr)|]. intros v s1 [h1 [Po R]].
      exists h1. split; [eapply flat_post; eauto|]. eapply reaches_trans; [exact R|].
      apply go_reaches. exact (proj1 (at_br P C T G sta HL (cexpr d g) Oe F1)).
    + intros v s1 h1 Po. cbv beta. fold g1.
      assert (Pr1 : pre (Frame [] []) F fs (K ++ [STmp v]) s1 h1) by (apply pre_tmp; eapply pre_post; eauto).
      pose proof (ID G sta F fs li un r s1 (K ++ [STmp v]) h1 g1 HL O1 Ft Pr1 (flat_tmps _ _ [v] Fl)) as X. cbv zeta in X. apply esim_untmp in X.
      change (@nil nat) with ([] ++ @nil nat). eapply esim_seq; [exact X|]. intros vs s2 h2 Po2. apply esim_ret; [apply Po2|]. cbn [map]. rewrite <- app_assoc. apply reaches_refl.
Qed.
Lemma eval_defs_len n : forall ds s vs s', eval_defs P funs n ds s = Some (Ok P _ vs s') -> length vs = length ds.
Proof.
  induction n as [|n IH]; intros ds s vs s' H; [discriminate|]. rewrite eval_defs_S in H. destruct ds as [|d r].
  - injection H as <- <-. reflexivity.
  - destruct (eval P funs n (Frame [] []) d s) as [[v s1|]|]; cbn [bind] in H; try discriminate.
    destruct (eval_defs P funs n r s1) as [[w s2|]|] eqn:E; cbn [bind ret] in H; try discriminate. injection H as <- <-. simpl. f_equal. eapply IH; eauto.
Qed.

(** ** Parameters become variables *)
Lemma alloc_sim vs : forall A s h, inv s (A ++ map STmp vs) h -> exists new,
  fst (alloc_list P vs s) = map Some new /\ length new = length vs /\ let s' := snd (alloc_list P vs s) in
  inv s' (A ++ map SVar new) h /\ (forall x, capd h (A ++ map SVar new) x -> capd h (A ++ map STmp vs) x) /\
  render (store s') (A ++ map SVar new) = render (store s) (A ++ map STmp vs) /\ senvs s' = senvs s /\ globals s' = globals s /\ sworld s' = sworld s.
Proof.
  induction vs as [|v r IH]; intros A s h I.
  - exists []. cbn. split; [reflexivity|]. split; [reflexivity|]. split; [exact I|]. auto.
  - cbn [map] in I. pose proof (inv_alloc P s A v (map STmp r) h I) as I1. pose proof (render_alloc P s A v (map STmp r) h I) as R1.
    assert (I2 : inv (falloc P v s) ((A ++ [SVar (length (store s))]) ++ map STmp r) h) by (rewrite <- app_assoc; exact I1).
    destruct (IH _ _ _ I2) as (new & E1 & E2 & I3 & C3 & R3 & E3 & E4 & E5). exists (length (store s) :: new).
    cbn [alloc_list alloc]. change (St P (store s ++ [v]) (senvs s) (globals s) (sworld s)) with (falloc P v s).
    destruct (alloc_list P r (falloc P v s)) as [ls s'] eqn:Ea. cbn [fst snd map length] in *. rewrite <- !app_assoc in *. cbn [app] in *.
    split; [now rewrite E1|]. split; [lia|]. split; [exact I3|]. split; [|split; [|auto]].
    + intros x Q. apply C3 in Q. eapply fresh_uncaptured; [exact I|exact Q].
    + rewrite R3. exact R1.
Qed.

(** ** Leaving a function *)
Lemma leave_sim G sta F fs li un c1 a K2 s1 h1 xs : laid C G sta -> fpof fs = F -> isopen (cg c1) -> split_at 2 (lv c1) a -> split_at 1 (lv c1) 0 ->
  length K2 = F + length (lv c1) -> inv s1 K2 h1 -> (forall j, capd h1 K2 (F + j) -> flagged (lv c1) j) ->
  let c3 := pop_locals 1 true false true (pop_locals 2 true false true c1) in fits (cg c3) G ->
  exists h' own, reaches fs (mk fs li un (here sta (cg c1)) s1 (K2 ++ map STmp xs) h1) (mk fs li un (here sta (cg c3)) s1 (firstn F K2 ++ map STmp (own ++ xs)) h') /\
    inv s1 (firstn F K2) h' /\ (forall x, capd h' (firstn F K2) x -> capd h1 K2 x).
Proof.
  intros HL Ef O Sp2 Sp1 LK I Hc c3 Ft. set (c2 := pop_locals 2 true false true c1) in *.
  assert (L2 : lv c2 = firstn a (lv c1)) by (now apply lv_pop).
  assert (G2 : cgrow c1 c2) by (now apply cgrow_pop_locals). pose proof (cgrow_open _ _ G2) as O2.
  assert (G3 : cgrow c2 c3) by (now apply cgrow_pop_locals).
  assert (F2 : fits (cg c2) G) by (eapply fits_cgrow; [exact G3|exact Ft]).
  unfold c3 in Ft |- *. rewrite cg_pop in *. unfold c2 in F2. rewrite cg_pop in F2. cbn [app] in *. rewrite app_nil_r in *.
  destruct (at_pushes C T G sta HL _ (cg c1) O F2) as [Cd1 E1]. destruct (at_pushes C T G sta HL _ (cg c2) O2 Ft) as [Cd2 E2].
  assert (E1' : here sta (cg c2) = here sta (cg c1) + length (lifts_from 0 2 (lv c1))) by (unfold c2; rewrite cg_pop, app_nil_r; exact E1). rewrite E2.
  assert (La : a <= length (lv c1)) by apply Sp2.
  destruct (scope_sim P C T funs F fs Ef li un true 2 a fs (here sta (cg c1)) (lv c1) K2 s1 h1 xs Sp2 LK I ltac:(intros; now apply Hc) Cd1) as (h2 & R1 & I2 & C2).
  set (junk := render (store s1) (skipn (F + a) K2)) in *. set (KA := firstn (F + a) K2) in *.
  assert (LA : length KA = F + length (lv c2)) by (unfold KA; rewrite firstn_length, L2, firstn_length; lia).
  assert (I2' : inv s1 KA h2) by (eapply inv_same; [apply same_vars_sym, (tmps_same KA junk)|exact I2]).
  assert (C2' : forall x, capd h2 KA x -> capd h1 K2 x) by (intros x Q; apply C2; eapply capd_same; [apply tmps_same|exact Q]).
  assert (Sp1' : split_at 1 (lv c2) 0).
  { split; [lia|]. intros i d f H. rewrite L2 in H. destruct Sp1 as [_ Sp1]. apply (Sp1 i d f). rewrite <- (firstn_skipn a (lv c1)). rewrite nth_error_app1; auto. apply nth_error_Some. congruence. }
  destruct (scope_sim P C T funs F fs Ef li un true 1 0 fs (here sta (cg c2)) (lv c2) KA s1 h2 (junk ++ xs) Sp1' LA I2') as (h3 & R2 & I3 & C3).
  - intros j _ Q. pose proof (capd_lt _ _ _ Q) as Lt. apply C2' in Q. destruct (Hc j Q) as [d Hd]. exists d. rewrite L2 in *. rewrite <- (firstn_skipn a (lv c1)) in Hd.
    rewrite nth_error_app1 in Hd; auto. lia.
  - exact Cd2.
  - assert (EA : firstn (F + 0) KA = firstn F K2). { unfold KA. rewrite Nat.add_0_r, firstn_firstn. f_equal. lia. } rewrite EA in *.
    exists h3, (render (store s1) (skipn (F + 0) KA) ++ junk). split; [|split].
    + eapply reaches_trans; [exact R1|]. rewrite <- app_assoc, <- map_app. rewrite <- E1'. rewrite !map_app, <- !app_assoc in *. exact R2.
    + eapply inv_same; [apply same_vars_sym, tmps_same|exact I3].
    + intros x Q. apply C2', C3. eapply capd_same; [apply tmps_same|exact Q].
Qed.
Lemma ret_sim fs li un i s K fv own v h j : nth_error C j = Some OReturn ->
  let mr := mk ((i, S (length K)) :: fs) li un j s ((K ++ [STmp fv]) ++ map STmp (own ++ [v])) h in
  nth_error C (ip P mr) = Some OReturn /\ sstep OReturn (set_ip P (S (ip P mr)) mr) = Ret P (mk fs li un i s (K ++ [STmp v]) h).
Proof.
  intros H mr. split; [exact H|]. unfold strict_step. cbn [self_store step].
  change (set_ip P (S (ip P mr)) mr) with (mk ((i, S (length K)) :: fs) li un (S j) s ((K ++ [STmp fv]) ++ map STmp (own ++ [v])) h).
  change (Vm.frames P (mk ((i, S (length K)) :: fs) li un (S j) s ((K ++ [STmp fv]) ++ map STmp (own ++ [v])) h)) with ((i, S (length K)) :: fs). cbv iota beta.
  rewrite stack_mk. rewrite map_app. cbn [map]. rewrite (app_assoc (K ++ [STmp fv])). rewrite rev_snoc.
  rewrite render_len, !app_length. cbn [length].
  replace (length K <? length K + 1 + length (map STmp own) + 1 - 1) with true by (symmetry; apply Nat.ltb_lt; lia).
  f_equal. rewrite !render_app, <- !app_assoc. rewrite <- (render_len (store s) K) at 1. rewrite (firstn_len_app (render (store s) K)) by reflexivity.
  unfold set_ip, set_frames, set_stack, CompInv.mk. cbn [Vm.ip Vm.stack Vm.frames Vm.lits Vm.unrolls Vm.gcount Vm.opens Vm.cells Vm.envs Vm.world sval]. now rewrite render_app.
Qed.

(** ** The parts of a compiled function *)
Definition f_c0 (sf : sfun) : cs := CS (fst (cdefs (sf_defs sf) g_new)) false (repeat (1, false) (sf_args sf)) [].
Definition f_list (sf : sfun) (b : stmts) : cs := cstmts false 2 None b (f_c0 sf).
Definition f_c1 (sf : sfun) : cs := match sf_body sf with
  | BodyBlock b => if delay (f_list sf b) then f_list sf b else cpush (OConst HNil) (f_list sf b)
  | BodyExpr e => cex e (f_c0 sf)
  end.
Definition f_c3 (sf : sfun) : cs := pop_locals 1 true false true (pop_locals 2 true false true (f_c1 sf)).
Lemma cfun_code sf : pf_code (cfun sf) = g_push OReturn (cg (f_c3 sf)).
Proof. unfold cfun. rewrite cdefs_eq. destruct (sf_body sf) eqn:E; unfold f_c3, f_c1; rewrite E; reflexivity. Qed.
Lemma f_open0 sf : isopen (cg (f_c0 sf)).
Proof. cbn [f_c0 cg]. eapply grow_open, cdefs_grow. exists [], []. reflexivity. Qed.
Lemma f_grow01 sf : cgrow (f_c0 sf) (f_c1 sf).
Proof.
  pose proof (f_open0 sf) as O. unfold f_c1. destruct (sf_body sf) as [b|e]; [|now apply cgrow_cex].
  assert (A : cgrow (f_c0 sf) (f_list sf b)) by (now apply stmt_grow). destruct (delay _); auto.
  eapply cgrow_trans; [exact A|]. apply cgrow_push. eapply cgrow_open, A.
Qed.
Lemma f_open1 sf : isopen (cg (f_c1 sf)). Proof. eapply cgrow_open, f_grow01. Qed.
Lemma f_grow13 sf : cgrow (f_c1 sf) (f_c3 sf).
Proof.
  eapply cgrow_trans; [apply cgrow_pop_locals, f_open1|]. apply cgrow_pop_locals. eapply cgrow_open, cgrow_pop_locals, f_open1.
Qed.
Lemma f_depth sf : depths 1 (repeat (1, false) (sf_args sf)).
Proof. intros i d f H. apply nth_error_In, repeat_spec in H. injection H as -> ->. auto. Qed.
Lemma split1_repeat n : split_at 1 (repeat (1, false) n) 0.
Proof. split; [lia|]. intros i d f H. apply nth_error_In, repeat_spec in H. injection H as -> ->. lia. Qed.
Lemma f_lv1 sf : split_at 2 (lv (f_c1 sf)) (sf_args sf) /\ split_at 1 (lv (f_c1 sf)) 0.
Proof.
  assert (A0 : split_at 2 (repeat (1, false) (sf_args sf)) (sf_args sf)).
  { pose proof (split_top 1 _ (f_depth sf)) as Q. rewrite repeat_length in Q. exact Q. }
  pose proof (split1_repeat (sf_args sf)) as B0.
  unfold f_c1. destruct (sf_body sf) as [b|e].
  - assert (E : lv (if delay (f_list sf b) then f_list sf b else cpush (OConst HNil) (f_list sf b)) = lv (f_list sf b)) by (now destruct (delay _)).
    rewrite E. destruct (proj1 (proj2 lv_all) b false 2 None (f_c0 sf) (depths_le 1 2 _ (f_depth sf) ltac:(lia))) as (fl & Lf & Ev).
    unfold f_list. rewrite Ev. cbn [f_c0 lv]. split; (apply split_fl; [apply split_mark; assumption|lia]).
  - rewrite lv_cex. split; apply split_mark; assumption.
Qed.

Lemma pre_enter fv f K s s1 h1 ups sto0 new fs : (fv = HFun f \/ exists c, fv = HClosure f c) ->
  match fv with HClosure _ c => nth_error (senvs sto0) c | _ => Some [] end = Some ups -> (exists l, senvs s = senvs sto0 ++ l) ->
  glob s K -> inv s1 ((K ++ [STmp fv]) ++ map SVar new) h1 -> senvs s1 = senvs s -> globals s1 = globals s -> fpof fs = S (length K) ->
  pre (Frame (map Some new) ups) (S (length K)) fs ((K ++ [STmp fv]) ++ map SVar new) s1 h1.
Proof.
  intros Hfv Eu [l El] Gb I E1 E2 Ef. split; auto.
  - intros i l0 H. rewrite E2 in H. apply Gb in H. rewrite <- app_assoc, nth_error_app1; auto. apply nth_error_Some. congruence.
  - split; cbn [locals up].
    + intros i l0 H. rewrite nth_error_app2 by (rewrite app_length; simpl; lia). rewrite app_length. cbn [length].
      replace (S (length K) + i - (length K + 1)) with i by lia. rewrite nth_error_map in *. destruct (nth_error new i); [|discriminate]. simpl in *. congruence.
    + intros b Eb. injection Eb as <-. exists fv. rewrite <- app_assoc. apply mid_at.
    + intros Nu. destruct Hfv as [->|[c ->]]; [congruence|]. exists (length K), f, c. split; [reflexivity|]. split; [rewrite <- app_assoc; apply mid_at|].
      rewrite E1, El, nth_error_app1; auto. apply nth_error_Some. congruence.
Qed.
Local Notation P_enter := (P_enter P C T funs).
Lemma step_enter n : P_eval n -> P_defs n -> (forall G sta F fs li un, laid C G sta -> fpof fs = F -> P_list P C T funs G sta F fs li un false true n) -> P_enter (S n).
Proof.
  intros IE ID IL f fv sf fu sta vals s K h fs li un i U Hfv I Gb Lv m2. rewrite enter_S. cbv zeta.
  destruct (match fv with HClosure _ c => nth_error (senvs s) c | _ => Some [] end) as [ups|] eqn:Eu; [|exact Logic.I].
  pose proof (u_laid _ _ _ _ _ _ U) as HL. pose proof (cfun_code sf) as EG. set (G := pf_code (cfun sf)) in *.
  set (F := S (length K)) in *. set (fs' := (i, F) :: fs) in *. assert (Ef : fpof fs' = F) by reflexivity.
  pose proof (u_ok _ _ _ _ _ _ U) as Ok. destruct (okF_parts T funs _ Ok) as [D1 D2].
  pose proof (f_grow01 sf) as G01. pose proof (f_grow13 sf) as G13. pose proof (f_open1 sf) as O1. pose proof (cgrow_open _ _ G13) as O3.
  assert (FG : fits (g_push OReturn (cg (f_c3 sf))) G) by (rewrite EG; apply fits_self).
  assert (F3 : fits (cg (f_c3 sf)) G) by (eapply f_push; [exact O3|exact FG]).
  assert (F1 : fits (cg (f_c1 sf)) G) by (eapply fits_cgrow; eauto).
  assert (F0 : fits (cg (f_c0 sf)) G) by (eapply fits_cgrow; eauto).
  destruct (at_push C G sta HL OReturn _ O3 FG) as [CR _].
  (* defaults *)
  set (k := length vals - required sf) in *.
  assert (Lk : k <= length (sf_defs sf)) by (unfold k, required in *; lia).
  destruct (cdefs_at sta (sf_defs sf) g_new k 0 ltac:(exists [], []; reflexivity) Lk) as (gk & Ok0 & Hk & Ek).
  { unfold here, last_code. cbn. lia. }
  assert (Hm : m2 = mk fs' li un (here sta gk) s ((K ++ [STmp fv]) ++ map STmp vals) h).
  { unfold m2. f_equal. unfold entry. rewrite cfun_defaults. symmetry. exact Hk. }
  assert (SV0 : same_vars K ((K ++ [STmp fv]) ++ map STmp vals)) by (eapply same_vars_trans; [apply tmp_same|apply tmps_same]).
  set (K0 := (K ++ [STmp fv]) ++ map STmp vals) in *.
  assert (Fl0 : flat F K0). { apply flat_tmps. apply (flat_tmps _ _ [fv]). eapply flat_le; [apply flat_len|unfold F; lia]. }
  assert (Pr0 : pre (Frame [] []) F fs' K0 s h).
  { split; [eapply inv_same; eauto|eapply glob_same; eauto| |exact Ef]. split; cbn [locals up].
    - intros [|] ? ?; discriminate.
    - intros b Eb. injection Eb as <-. exists fv. unfold K0. rewrite <- app_assoc. apply mid_at.
    - congruence. }
  assert (Fk : fits (fst (cdefs (skipn k (sf_defs sf)) gk)) G) by (rewrite Ek; exact F0).
  pose proof (ID G sta F fs' li un (skipn k (sf_defs sf)) s K0 h gk HL Ok0 Fk Pr0 Fl0) as ED. cbv zeta in ED. rewrite <- Hm, Ek in ED.
  destruct (eval_defs P funs n (skipn k (sf_defs sf)) s) as [[ds s0|e w]|] eqn:Ed; cbn [bind]; [|exact ED|exact Logic.I].
  destruct ED as (h0 & Po0 & R0).
  assert (Ld : length ds = length (sf_defs sf) - k) by (rewrite (eval_defs_len _ _ _ _ _ Ed), skipn_length; reflexivity).
  (* parameters *)
  assert (EK : K0 ++ map STmp ds = (K ++ [STmp fv]) ++ map STmp (vals ++ ds)) by (unfold K0; now rewrite map_app, !app_assoc).
  rewrite EK in R0.
  assert (I0 : inv s0 ((K ++ [STmp fv]) ++ map STmp (vals ++ ds)) h0) by (rewrite <- EK; eapply inv_same; [apply tmps_same|apply Po0]).
  destruct (alloc_sim (vals ++ ds) _ _ _ I0) as (new & A1 & A2 & I1 & C1 & R1 & A3 & A4 & A5).
  destruct (alloc_list P (vals ++ ds) s0) as [ls s1] eqn:Ea. cbn [fst snd] in *. subst ls.
  assert (Ln : length new = sf_args sf) by (rewrite A2, app_length, Ld; unfold k, required in *; lia).
  set (K1 := (K ++ [STmp fv]) ++ map SVar new) in *.
  assert (LK1 : length K1 = F + sf_args sf) by (unfold K1, F; rewrite !app_length, map_length; simpl; lia).
  set (m1 := mk fs' li un (here sta (cg (f_c0 sf))) s1 K1 h0).
  assert (R01 : reaches fs' m2 m1).
  { unfold m1. replace (mk fs' li un (here sta (cg (f_c0 sf))) s1 K1 h0) with (mk fs' li un (here sta (cg (f_c0 sf))) s0 ((K ++ [STmp fv]) ++ map STmp (vals ++ ds)) h0); [exact R0|].
    unfold CompInv.mk. now rewrite R1, A4, A5. }
  assert (Ps : exists l, senvs s0 = senvs s ++ l) by apply Po0.
  assert (Pg : globals s0 = globals s) by apply Po0.
  assert (Pr1 : pre (Frame (map Some new) ups) F fs' K1 s1 h0).
  { eapply (pre_enter fv f K s0 s1 h0 ups s); eauto. intros j l H. rewrite Pg in H. auto. }
  assert (C0 : forall x, capd h0 K1 x -> capd h K x).
  { intros x Q. apply C1 in Q. rewrite <- EK in Q. apply (capd_same _ _ _ _ (same_vars_sym _ _ (tmps_same K0 ds))) in Q.
    destruct (po_cap _ _ _ _ _ _ _ _ Po0 x Q) as [Q1|[j [[] _]]]. eapply capd_same; [apply same_vars_sym; exact SV0|exact Q1]. }
  assert (CF : forall x, capd h0 K1 x -> x < length K) by (intros x Q; apply C0, capd_lt in Q; exact Q).
  (* the end of the function *)
  assert (DONE : forall s2 K2 h2 own v j, nth_error C j = Some OReturn -> reaches fs' m2 (mk fs' li un j s2 (firstn F K1 ++ map STmp (own ++ [v])) h2) ->
     inv s2 (firstn F K1) h2 -> (forall x, capd h2 (firstn F K1) x -> capd h0 K1 x \/ exists i, x = F + i) -> (exists l, senvs s2 = senvs s1 ++ l) -> globals s2 = globals s1 -> K2 = K ->
     exists h', post 0 [] K s h s2 h' /\ returns fs m2 (mk fs li un i s2 (K ++ [STmp v]) h')).
  { intros s2 K2 h2 own v j Hj R Iv Cv [l2 Ev] Gv _. assert (EF : firstn F K1 = K ++ [STmp fv]). { unfold K1. apply firstn_len_app. rewrite app_length. simpl. unfold F. lia. }
    rewrite EF in *. exists h2. split.
    - split.
      + eapply inv_same; [apply same_vars_sym, tmp_same|exact Iv].
      + destruct Ps as [l1 Ps]. split; [exists (l1 ++ l2); rewrite Ev, A3, Ps; now rewrite app_assoc|congruence].
      + intros x Q. left. pose proof (capd_lt _ _ _ Q) as Lt. apply C0. destruct (Cv x) as [Q2|[j2 ->]]; auto; [|unfold F in Lt; lia]. eapply capd_same; [apply tmp_same|exact Q].
    - destruct (ret_sim fs li un i s2 K fv own v h2 j Hj) as [RA RB]. eexists. split; [|split; [exact RA|exact RB]]. intros d Hd. apply R. exact Hd. }
  destruct (f_lv1 sf) as [Sp2 Sp1].
  assert (LEAVE : forall s2 new2 h2 v, length (lv (f_c1 sf)) = sf_args sf + length new2 -> reaches fs' m1 (mk fs' li un (here sta (cg (f_c1 sf))) s2 ((K1 ++ map SVar new2) ++ [STmp v]) h2) ->
     inv s2 (K1 ++ map SVar new2) h2 -> (forall x, capd h2 (K1 ++ map SVar new2) x -> capd h0 K1 x \/ exists i, x = F + i) -> (exists l, senvs s2 = senvs s1 ++ l) -> globals s2 = globals s1 ->
     (forall j, capd h2 (K1 ++ map SVar new2) (F + j) -> flagged (lv (f_c1 sf)) j) ->
     exists h', post 0 [] K s h s2 h' /\ returns fs m2 (mk fs li un i s2 (K ++ [STmp v]) h')).
  { intros s2 new2 h2 v Le R Iv Cv Ev Gv Fv.
    destruct (leave_sim G sta F fs' li un (f_c1 sf) (sf_args sf) (K1 ++ map SVar new2) s2 h2 [v] HL Ef O1 Sp2 Sp1) as (h3 & own & R3 & I3 & C3); auto.
    { rewrite app_length, map_length. lia. }
    assert (EF : firstn F (K1 ++ map SVar new2) = firstn F K1). { rewrite firstn_app. replace (F - length K1) with 0 by lia. now rewrite firstn_O, app_nil_r. }
    rewrite EF in *. eapply (DONE s2 K h3 own v (here sta (cg (f_c3 sf))) CR); auto.
    eapply reaches_trans; [exact R01|]. eapply reaches_trans; [exact R|exact R3]. }
  assert (L0 : length (lv (f_c0 sf)) = sf_args sf) by apply repeat_length.
  destruct (sf_body sf) as [b|e] eqn:Eb.
  - (* block *)
    assert (Hy : hyps P F fs' (LX None None 0 0) 2 (Frame (map Some new) ups) [] [] s1 K1 h0 (f_c0 sf)).
    { split; [apply f_open0| |apply (depths_le 1); [apply f_depth|lia]|intros ? []|exact Logic.I]. split; auto.
      - now rewrite L0.
      - cbn [locals]. now rewrite map_length, L0.
      - intros j Q. apply CF in Q. unfold F in Q. lia.
      - intros ? []. }
    assert (Okb : okB (length (lv (f_c0 sf))) [] [] None true (delay (f_c0 sf)) b = true).
    { rewrite L0. unfold okF in Ok. rewrite Eb in Ok. apply andb_true_iff in Ok. apply Ok. }
    assert (Ol : isopen (cg (f_list sf b))) by (eapply cgrow_open; apply stmt_grow; apply f_open0).
    assert (Ec1 : f_c1 sf = if delay (f_list sf b) then f_list sf b else cpush (OConst HNil) (f_list sf b)) by (unfold f_c1; now rewrite Eb).
    assert (Fb : fits (cg (f_list sf b)) G).
    { rewrite Ec1 in F1. destruct (delay (f_list sf b)); auto. eapply f_push; [exact Ol|exact F1]. }
    pose proof (IL G sta F fs' li un HL Ef (LX None None 0 0) 2 (Frame (map Some new) ups) [] [] s1 K1 h0 (f_c0 sf) b None Hy eq_refl Fb Okb ltac:(intro Q; discriminate)) as EL.
    cbv zeta in EL. cbn [x_lc dlv andb] in EL. rewrite app_nil_r in EL. fold m1 in EL. fold (f_list sf b) in EL.
    destruct (exec_list P funs n false (Frame (map Some new) ups) None b s1) as [[o s2|e w]|]; cbn [bind];
      [|intros d Hd; eapply reach_fails; [apply R01; exact Hd|apply EL; exact Hd]|exact Logic.I].
    destruct (list_split T funs F fs' Ef false 1 None b (f_c0 sf) (f_depth sf)) as [_ Ll]. fold (f_list sf b) in Ll. rewrite L0 in Ll.
    assert (Lv1 : lv (f_c1 sf) = lv (f_list sf b)) by (rewrite Ec1; destruct (delay (f_list sf b)); reflexivity).
    cbn [esim] in EL. destruct o as [ls v| | |v]; cbn [QL] in EL; [|exact Logic.I|exact Logic.I|].
    + destruct EL as (h2 & new2 & -> & Ln2 & Dv & [Iv [Cv Ev]] & Eg & R & Cp). rewrite app_nil_r in Eg.
      assert (Fin : forall v0, reaches fs' m1 (mk fs' li un (here sta (cg (f_c1 sf))) s2 ((K1 ++ map SVar new2) ++ [STmp v0]) h2) ->
         exists h', post 0 [] K s h s2 h' /\ returns fs m2 (mk fs li un i s2 (K ++ [STmp v0]) h')).
      { intros v0 Rv. apply (LEAVE s2 new2 h2 v0); auto.
        - rewrite Lv1, Ll, Ln2. reflexivity.
        - intros x Q. destruct (Cv x Q) as [?|[j [_ ->]]]; eauto.
        - intros j Q. rewrite Lv1. destruct (Cp j Q) as [?|[]]; auto. }
      destruct v as [v|]; cbn [ret isS dlv] in *; rewrite <- Dv in Ec1.
      * apply Fin. rewrite Ec1. exact R.
      * apply Fin. rewrite Ec1 in *. rewrite app_nil_r in R. eapply reaches_trans; [exact R|].
        eapply (go_push P C T G sta (OConst HNil)); [exact HL|exact Ol|exact F1|apply s_const].
    + destruct EL as (h2 & _ & [Iv [Cv Ev]] & Eg & own & j & Hj & R). cbn [ret].
      eapply (DONE s2 K h2 own v j Hj); auto.
      * eapply reaches_trans; [exact R01|]. rewrite map_app. exact R.
      * intros x Q. destruct (Cv x Q) as [?|[j2 [_ ->]]]; eauto.
  - (* expression *)
    assert (Ec1 : f_c1 sf = cex e (f_c0 sf)) by (unfold f_c1; now rewrite Eb). rewrite Ec1 in *.
    pose proof (IE G sta (Frame (map Some new) ups) F fs' li un e s1 K1 h0 (cg (f_c0 sf)) HL (f_open0 sf) F1 Pr1) as EL. cbv zeta in EL. fold m1 in EL.
    destruct (eval P funs n (Frame (map Some new) ups) e s1) as [[v s2|e0 w]|];
      [|intros d Hd; eapply reach_fails; [apply R01; exact Hd|apply EL; exact Hd]|exact Logic.I].
    destruct EL as (h2 & Po & R). apply (LEAVE s2 [] h2 v); cbn [map]; rewrite ?app_nil_r.
    + rewrite lv_cex, mark_len, L0. cbn. lia.
    + exact R.
    + apply Po.
    + intros x Q. destruct (po_cap _ _ _ _ _ _ _ _ Po x Q) as [?|[j [_ ->]]]; eauto.
    + apply Po.
    + apply Po.
    + intros j Q. pose proof (capd_lt _ _ _ Q) as Lt. destruct (po_cap _ _ _ _ _ _ _ _ Po _ Q) as [Q1|[j2 [Hj E2]]].
      * apply CF in Q1. unfold F in Q1. lia.
      * replace j2 with j in Hj by lia. rewrite lv_cex. apply (flagged_in T funs F fs' Ef); auto. rewrite L0. lia.
Qed.

(** ** All the statements together *)
Section all.
Context (HU : forall f sf, funs f = Some sf -> exists fu sta, unit_ok C T f sf fu sta).
Definition stm (n : nat) : Prop := forall G sta F fs li un top rt, laid C G sta -> fpof fs = F ->
  P_exec P C T funs G sta F fs li un top rt n /\ P_list P C T funs G sta F fs li un top rt n /\
  P_block P C T funs G sta F fs li un top rt n /\ P_opt P C T funs G sta F fs li un top rt n /\
  P_else P C T funs G sta F fs li un top rt n /\ P_for P C T funs G sta F fs li un top rt n.
Record all_ok (n : nat) : Prop := {
  a_eval : P_eval n; a_args : P_args P C T funs n; a_plain : P_plain P C T funs n; a_chain : P_chain P C T funs n; a_lit : P_lit P C T funs n;
  a_tree : P_tree P C T funs n; a_scall : P_scall P C T funs n; a_enter : P_enter n; a_defs : P_defs n; a_stm : stm n }.
Lemma all_0 : all_ok 0.
Proof.
  split; repeat intro; try exact Logic.I. 
  split; [repeat intro; exact Logic.I|]. split; [repeat intro; exact Logic.I|]. split; [repeat intro; exact Logic.I|].
  split; [repeat intro; exact Logic.I|]. split; repeat intro; exact Logic.I.
Qed.
Lemma all_S n : (forall m, m <= n -> all_ok m) -> all_ok (S n).
Proof.
  intros H. destruct (H n (Nat.le_refl n)) as [A1 A2 A3 A4 A5 A6 A7 A8 A9 A10]. split.
  - now apply step_eval.
  - now apply step_args.
  - now apply step_plain.
  - now apply step_chain.
  - now apply step_lit.
  - now apply step_tree.
  - now apply step_scall.
  - apply step_enter; auto. intros. now apply A10.
  - now apply step_defs.
  - intros G sta F fs li un top rt HL Ef. destruct (A10 G sta F fs li un top rt HL Ef) as (B1 & B2 & B3 & B4 & B5 & B6).
    split; [|split; [|split; [|split; [|split]]]].
    + apply exec_of0; auto. apply exec0_of. intro x. apply (xc_all P C T funs G sta HL F fs Ef li un top rt n); auto.
      intros m Lm. destruct (H m Lm) as [C1 _ _ _ _ C6 _ _ _ C10]. destruct (C10 G sta F fs li un top rt HL Ef) as (D1 & D2 & D3 & D4 & D5 & D6).
      split; [auto|]. split; [auto|]. split; [auto|]. split; [auto|]. split; auto.
    + now apply step_list.
    + now apply step_block.
    + now apply step_opt.
    + now apply step_else.
    + now apply step_for.
Qed.
Theorem all_sim n : all_ok n.
Proof.
  assert (forall k m, m <= k -> all_ok m) as X.
  { induction k as [|k IH]; intros m L; [replace m with 0 by lia; apply all_0|]. destruct (Nat.eq_dec m (S k)) as [->|]; [now apply all_S|apply IH; lia]. }
  apply (X n). lia.
Qed.
End all.
End sim7.

(** ** Linking *)
Lemma cdefs_bound ds : forall g b, isopen g -> In b (snd (cdefs ds g)) -> b < length (fst (cdefs ds g)).
Proof.
  induction ds as [|d r IH]; intros g b O H; [destruct H|]. destruct (cdefs_cons d r g) as [E1 E2]. rewrite E1, E2 in *.
  set (g1 := fst (g_branch_reverse (cexpr d g))) in *. assert (O1 : isopen g1) by (apply o_br, o_expr, O).
  destruct H as [<-|H]; [|now apply IH]. pose proof (grow_len _ _ (cdefs_grow r g1 O1)) as L. unfold g1 in L at 1. rewrite br_len in L. lia.
Qed.
Lemma cfun_bound sf b : In b (pf_defaults (cfun sf)) -> b < length (pf_code (cfun sf)).
Proof.
  intro H. rewrite cfun_defaults in H. apply cdefs_bound in H; [|exists [], []; reflexivity]. rewrite cfun_code.
  pose proof (grow_len _ _ (proj1 (f_grow01 sf))) as L1. pose proof (grow_len _ _ (proj1 (f_grow13 sf))) as L2.
  pose proof (grow_len _ _ (grow_push OReturn _ (cgrow_open _ _ (f_grow13 sf)))) as L3. cbn [f_c0 cg] in L1. lia.
Qed.
Lemma cfun_ne sf : pf_code (cfun sf) <> [].
Proof.
  rewrite cfun_code. intro H. pose proof (grow_len _ _ (grow_push OReturn _ (cgrow_open _ _ (f_grow13 sf)))) as L3.
  destruct (cgrow_open _ _ (f_grow13 sf)) as (a & b & E). unfold opn in E. rewrite H, E, app_length in L3. simpl in L3. lia.
Qed.
Lemma link_units fs : forall code CC TT, link_funs (fun g => g) (map cfun fs) code = (CC, TT) -> (Z.of_nat (length CC) < 2147483648)%Z ->
  (forall sf, In sf fs -> okF sf = true) ->
  forall f sf, nth_error fs f = Some sf -> exists fu sta, unit_ok CC (nth_error TT) f sf fu sta.
Proof.
  induction fs as [|g fs IH]; intros code CC TT H L Ok f sf Hf; [destruct f; discriminate|].
  cbn [map link_funs] in H. destruct (emit (pf_code (cfun g)) code) as [c1 st1] eqn:E1. destruct (link_funs (fun g => g) (map cfun fs) c1) as [d t] eqn:E2.
  injection H as <- <-. destruct f as [|f]; cbn [nth_error] in Hf.
  - injection Hf as ->. exists (Func (length code) (pf_args (cfun sf)) (map (fun b => nth b st1 0 - length code) (pf_defaults (cfun sf))) (pf_variadic (cfun sf))), st1.
    destruct (link_funs_prefix (fun g => g) (map cfun fs) c1) as [x X]. rewrite E2 in X. cbn [fst] in X. subst d. rewrite app_length in L.
    pose proof (emit_laid _ _ _ _ E1 ltac:(lia)) as HL. split; cbn [fn_head fn_args fn_variadic fn_defaults nth_error].
    + apply Ok. now left.
    + reflexivity.
    + now apply laid_app.
    + symmetry. eapply emit_start0; [exact E1|apply cfun_ne].
    + unfold cfun. rewrite cdefs_eq. reflexivity.
    + unfold cfun. rewrite cdefs_eq. reflexivity.
    + assert (B : forall b, In b (pf_defaults (cfun sf)) -> length code + (nth b st1 0 - length code) = nth b st1 0).
      { intros b Hb. apply cfun_bound in Hb. assert (N : nth_error st1 b = Some (nth b st1 0)) by (apply nth_error_nth'; rewrite (l_len _ _ _ HL); exact Hb).
        apply (emit_starts_ge _ _ _ _ _ _ E1) in N. lia. }
      revert B. generalize (pf_defaults (cfun sf)). induction l as [|b l IHl]; intro B; cbn [map]; constructor; [apply B; now left|]. apply IHl. intros b' Hb. apply B. now right.
  - destruct (IH _ _ _ E2 L ltac:(intros; apply Ok; now right) f sf Hf) as (fu & sta & [A1 A2 A3 A4 A5 A6 A7]). exists fu, sta. split; auto.
Qed.

(** ** Whole programs *)
Definition m_list (main : stmts) : cs := cstmts true 0 None main (CS g_new false [] []).
Definition m_end (main : stmts) : cs := pop_locals 0 true true true (dpop (m_list main)).
Lemma cmain_eq main : cmain main = g_push OExit (cg (m_end main)). Proof. reflexivity. Qed.
Lemma main_sim P C T funs main sta : (forall f sf, funs f = Some sf -> exists fu sta, unit_ok C T f sf fu sta) ->
  laid C (cmain main) sta -> nth 0 sta 0 = 0 -> okB 0 [] [] None false false main = true -> forall n w r,
  run_main P funs n main w = Some r -> CompFlow.fails P C T 0 (vm_init P w) (fst r) (snd r).
Proof.
  intros HU HL H0 Ok n w r H. set (G := cmain main) in *. pose proof (a_stm _ _ _ _ _ (all_sim P C T funs HU n)) as A.
  set (fs := [(0, 0)]). assert (Ef : fpof fs = 0) by reflexivity.
  destruct (A G sta 0 fs [] [] true false HL Ef) as (_ & PL & _). clear A.
  set (c0 := CS g_new false [] []). set (s0 := St P [] [] [] w). set (h0 := Hp [] [] [] []).
  assert (O0 : isopen (cg c0)) by (exists [], []; reflexivity).
  assert (Hy : hyps P 0 fs (LX None None 0 0) 0 (Frame [] []) [] [] s0 [] h0 c0).
  { split; [exact O0| |intros [|] ? ? ?; discriminate|intros ? []|exact Logic.I]. split; auto.
    - split; [|intros [|] ? ?; discriminate| |exact Ef].
      + split; try reflexivity; try (intros [|] ? ?; discriminate); try (intros [|] ? ? ?; discriminate); try (intros; discriminate). constructor.
      + split; cbn [locals up]; [intros [|] ? ?; discriminate|intros; discriminate|congruence].
    - intros j [k [l [Q _]]]. destruct k; discriminate.
    - intros ? []. }
  assert (Ol : cgrow c0 (m_list main)) by (now apply stmt_grow). pose proof (cgrow_open _ _ Ol) as O1.
  assert (Od : cgrow (m_list main) (dpop (m_list main))) by (now apply cgrow_dpop). pose proof (cgrow_open _ _ Od) as O2.
  assert (Oe : cgrow (dpop (m_list main)) (m_end main)) by (now apply cgrow_pop_locals). pose proof (cgrow_open _ _ Oe) as O3.
  assert (FG : fits (g_push OExit (cg (m_end main))) G) by (rewrite <- cmain_eq; apply fits_self).
  assert (F3 : fits (cg (m_end main)) G) by (eapply f_push; [exact O3|exact FG]).
  assert (F2 : fits (cg (dpop (m_list main))) G) by (eapply fits_cgrow; eauto).
  assert (F1 : fits (cg (m_list main)) G) by (eapply fits_cgrow; eauto).
  assert (Gk : gok P 0 false true (LX None None 0 0) (Frame [] []) s0) by (intros _; split; [reflexivity|]; split; [reflexivity|]; split; reflexivity).
  pose proof (PL (LX None None 0 0) 0 (Frame [] []) [] [] s0 [] h0 c0 main None Hy eq_refl F1 Ok Gk) as E. clear PL. cbv zeta in E. cbn [x_lc dlv andb Nat.eqb app] in E.
  change (cstmts true 0 None main c0) with (m_list main) in E. unfold run_main in H. fold s0 in H.
  assert (EM : mk P fs [] [] (here sta (cg c0)) s0 [] h0 = vm_init P w).
  { unfold here, last_code. change (nth (length (cg c0) - 1) sta 0) with (nth 0 sta 0). rewrite H0. reflexivity. }
  rewrite EM in E. destruct (exec_list P funs n true (Frame [] []) None main s0) as [[o s1|e w1]|]; [|injection H as <-; apply E; cbn; lia|discriminate].
  destruct o as [ls v| | |v]; try discriminate. injection H as <-. destruct E as (h1 & new & -> & Ln & Dv & [Iv [Cv Ev]] & Eg & R & Cp). cbn [fst snd].
  cbn [app locals] in *.
  destruct (proj1 (proj2 lv_all) main true 0 None c0 ltac:(intros [|] ? ? ?; discriminate)) as (fl & Lf & Ell). change (cstmts true 0 None main c0) with (m_list main) in Ell. change (lv c0) with (@nil (nat * bool)) in Ell. cbn [mark_from app] in Ell.
  assert (LL : length (map SVar new) = 0 + length (lv (dpop (m_list main)))) by (rewrite lv_dpop, Ell, !map_length; lia).
  assert (R2 : reaches P C T fs (mk P fs [] [] (here sta (cg (m_list main))) s1 (map SVar new ++ dlv v) h1) (mk P fs [] [] (here sta (cg (dpop (m_list main)))) s1 (map SVar new) h1)).
  { unfold dpop in *. rewrite <- Dv in *. destruct v as [v|]; cbn [isS dlv] in *; [|rewrite app_nil_r; apply reaches_refl].
    eapply (go_push P C T G sta OPop); [exact HL|exact O1|exact F2|apply s_pop]. }
  destruct (pop_sim P C T funs G sta HL 0 fs Ef [] [] true 0 0 true (dpop (m_list main)) (map SVar new) s1 h1 [] fs (split_zero _) LL O2 Iv) as (h2 & zs & Lz & R3 & _).
  { intros j _ Q. rewrite lv_dpop. destruct (Cp j Q) as [?|[]]; auto. }
  { exact F3. }
  destruct zs; [|discriminate]. cbn [map] in R3. rewrite app_nil_r in R3. cbn [Nat.add firstn app] in R3. fold (m_end main) in R3.
  destruct (at_push C G sta HL OExit _ O3 FG) as [CE _].
  eapply reach_fails; [apply R; cbn; lia|]. eapply reach_fails; [apply R2; cbn; lia|]. eapply reach_fails; [apply R3; cbn; lia|].
  eapply fails_go; [exact CE|]. reflexivity.
Qed.
Lemma m_open main : isopen (cg (m_end main)).
Proof.
  assert (O0 : isopen (cg (CS g_new false [] []))) by (exists [], []; reflexivity).
  pose proof (cgrow_open _ _ (proj1 (proj2 stmt_grow) main true 0 None _ O0)) as O1.
  eapply cgrow_open, cgrow_pop_locals. eapply cgrow_open, cgrow_dpop. exact O1.
Qed.
Lemma cmain_ne main : cmain main <> [].
Proof.
  rewrite cmain_eq. intro H. pose proof (grow_len _ _ (grow_push OExit _ (m_open main))) as L3.
  destruct (m_open main) as (a & b & E). unfold opn in E. rewrite H, E, app_length in L3. simpl in L3. lia.
Qed.
Theorem compile_sim P p n w r : ok_program p = true -> (Z.of_nat (length (fst (compile false p))) < 2147483648)%Z ->
  run_main P (fun i => nth_error (pr_funs p) i) n (pr_main p) w = Some r -> runs_to P (strict_step P) (compile false p) w r.
Proof.
  intros Ok L H. unfold ok_program in Ok. apply andb_true_iff in Ok. destruct Ok as [Ok1 Ok2]. rewrite forallb_forall in Ok1.
  unfold compile, link in *. destruct (emit (cmain (pr_main p)) []) as [c0 st0] eqn:E0. cbn [fst] in *.
  destruct (link_funs (fun g => g) (map cfun (pr_funs p)) c0) as [CC TT] eqn:E1. cbn [fst snd] in *.
  destruct (link_funs_prefix (fun g => g) (map cfun (pr_funs p)) c0) as [x X]. rewrite E1 in X. cbn [fst] in X.
  assert (HL : laid CC (cmain (pr_main p)) st0). { rewrite X. apply laid_app. eapply emit_laid; [exact E0|]. rewrite X, app_length in L. lia. }
  assert (H0 : nth 0 st0 0 = 0).
  { change 0 with (@length op []) at 3. eapply emit_start0; [exact E0|apply cmain_ne]. }
  destruct (main_sim P CC (nth_error TT) (fun i => nth_error (pr_funs p) i) (pr_main p) st0) with (n := n) (w := w) (r := r) as [N HN]; auto.
  - intros f sf Hf. eapply (link_units (pr_funs p)); eauto.
  - exists N. cbn [fst snd]. exact HN.
Qed.
