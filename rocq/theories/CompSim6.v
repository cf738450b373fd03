(** Simulation of statements: expressions in statements, scopes, simple statements. *)
From Verif Require Import Base Native Err Vm VmProofs Graph GraphSpec GraphProofs Peep PeepSpec PeepProofs Lang LangSpec LangCheck Compile CompGraph CompGraph2 CompFlow CompInv CompUnf CompLv CompSim1 CompSim2 CompSim3 CompSim5.
Local Open Scope nat_scope.
Local Arguments CompInv.mk : simpl never.

(** growth of the compiler state keeps the finished part *)
Lemma fits_cgrow c c' G : cgrow c c' -> fits (cg c') G -> fits (cg c) G. Proof. intros [A _]. now apply fits_grow. Qed.
Lemma cgrow_brk c c' j : cgrow c c' -> In j (brk c) -> In j (brk c'). Proof. intros [_ [new [-> _]]]. rewrite in_app_iff. auto. Qed.
Lemma cgrow_len c c' : cgrow c c' -> length (cg c) <= length (cg c'). Proof. intros [A _]. now apply grow_len. Qed.
Lemma dpop_false c : delay c = false -> dpop c = c. Proof. unfold dpop. now intros ->. Qed.
Lemma lv_cex e c : lv (cex e c) = mark_from 0 (capsE e) (lv c). Proof. reflexivity. Qed.
Lemma brk_dpop c : brk (dpop c) = brk c. Proof. unfold dpop. now destruct (delay c). Qed.
Lemma brk_pop sc m p l c : brk (pop_locals sc m p l c) = brk c. Proof. unfold pop_locals. now destruct m. Qed.
Lemma cg_pop sc m p l c : cg (pop_locals sc m p l c) = g_pushes ((if l then lifts_from 0 sc (lv c) else []) ++ (if p then repeat OPop (in_scope sc (lv c)) else [])) (cg c).
Proof. unfold pop_locals. now destruct m. Qed.

Section sim6.
Context (P : prims) (C : list op) (T : nat -> option func) (funs : nat -> option sfun).
Local Notation reaches := (reaches P C T).
Local Notation failing := (failing P C T).
Local Notation esim := (esim P C T).
Local Notation goes := (goes P C T).
Local Notation branches := (branches P C T).
Local Notation inv := (inv P).
Local Notation glob := (glob P).
Local Notation sstep := (strict_step P).
Local Notation post := (post P).
Local Notation pre := (pre P).
Local Notation st := (st P).
Local Notation store := (store P).
Local Notation senvs := (senvs P).
Local Notation globals := (globals P).
Local Notation Res := (Res P C T).
Local Notation P_eval := (P_eval P C T funs).
Local Notation P_tree := (P_tree P C T funs).
Context (G : graph) (sta : list nat) (HL : laid C G sta) (F : nat) (fs : list (nat * nat)) (Ef : fpof fs = F) (li : list (L P)) (un : list Z) (top rt : bool).
Local Notation mk := (CompInv.mk P fs li un).
Local Notation here := (here sta).
Local Notation tail := (tail G sta).
Local Notation hyps := (hyps P F fs).
Local Notation fin := (fin P F).
Local Notation gok := (gok P F rt).
Local Notation Qo := (Qo P C T G sta F fs li un rt).
Local Notation hyps_next0 := (hyps_next0 P T funs F fs Ef).
Local Notation hyps_next := (hyps_next P T funs F fs Ef).
Local Notation spre := (spre P F fs).
Local Notation Qo_after := (Qo_after P C T funs G sta F fs Ef li un rt).
Local Notation scope_sim := (scope_sim P C T funs F fs Ef li un top).
Local Notation code := (code C).
Local Notation code_app := (code_app C T funs).
Local Notation fin_idem := (fin_idem P T funs F).
Local Notation flagged_in := (flagged_in T funs F fs Ef).

Lemma Qo_dst X gl fr K s h L m0 dst dst' nd dl brks o s' : goes dst dst' -> Qo X gl fr K s h L m0 dst nd dl brks o s' -> Qo X gl fr K s h L m0 dst' nd dl brks o s'.
Proof.
  intros Go [h' H]. exists h'. destruct o as [ls v| | |v]; [|exact H|exact H|exact H].
  destruct H as (new & A & B & D & E & H & Q). exists new. split; [auto|]. split; [auto|]. split; [auto|]. split; [auto|]. split; [auto|].
  eapply reaches_trans; [exact Q|]. now apply go_reaches.
Qed.
(** an effect on the state before the rest *)
Lemma chain0 X gl fr K s h L1 L2 L s1 h1 m0 m1 r dst nd dl brks brks' :
  reaches fs m0 m1 -> fin L1 K s h s1 K h1 -> globals s1 = globals s -> esim fs m1 r (Qo X gl fr K s1 h1 L2 m1 dst nd dl brks) ->
  (forall i, In i (L1 ++ L2) -> In i L) -> (forall i, In i brks -> In i brks') -> esim fs m0 r (Qo X gl fr K s h L m0 dst nd dl brks').
Proof.
  intros R Fi Gl E IL IB. eapply esim_step; [exact R|exact E|]. intros o s' Q. eapply Qo_incl; [|exact IL|exact IB].
  eapply Qo_pre; [exact R|]. eapply Qo_after0; eauto.
Qed.
Lemma hyps_up X sd fr M Fs s K h c : hyps X sd fr M Fs s K h c -> hyps X (S sd) fr M Fs s K h c.
Proof.
  intros [A B D E H]. split; auto; [apply (depths_le sd); auto|]. unfold lrel in *. destruct (x_lc X) as [[[a b] d]|], (x_lp X) as [e|]; auto. destruct H as (H1 & H2 & H3 & H4 & H5).
  split; auto. split; [lia|]. split; auto. split; auto. intro Q. destruct (H5 Q) as (Q1 & Q2 & Q3). auto.
Qed.
Lemma hyps_weak X sd fr M Fs s K h c c' : hyps X sd fr M Fs s K h c -> lv c' = lv c -> isopen (cg c') -> length (cg c) <= length (cg c') -> hyps X sd fr M Fs s K h c'.
Proof.
  intros [A B D E H] Q O Le. split; rewrite ?Q; auto. clear - H Le. unfold lrel in *. destruct (x_lc X) as [[[a b] d]|], (x_lp X) as [e|]; auto.
  destruct H as (H1 & H2 & H3 & H4 & H5). split; auto. split; auto. split; auto. split; [lia|auto].
Qed.
Lemma hyps_grow X sd fr M Fs s K h c c' : hyps X sd fr M Fs s K h c -> cgrow c c' -> lv c' = lv c -> hyps X sd fr M Fs s K h c'.
Proof. intros H Gr E. eapply hyps_weak; [exact H|exact E|eapply cgrow_open; exact Gr|now apply cgrow_len]. Qed.
Lemma hyps_world X sd fr M Fs s K h c w : hyps X sd fr M Fs s K h c -> hyps X sd fr M Fs (with_world P w s) K h c.
Proof.
  intros [A [[I Gb FR E0] B1 B2 B3 B4] D E H]. split; auto. split; auto. split; auto.
  - now apply inv_with_world.
  - eapply frel_senvs; [exact FR|]. exists []. cbn. now rewrite app_nil_r.
Qed.
Lemma y_inv X sd fr M Fs s K h c : hyps X sd fr M Fs s K h c -> inv s K h. Proof. intro H. apply (sp_pre _ _ _ _ _ _ _ _ _ (y_pre _ _ _ _ _ _ _ _ _ _ _ _ H)). Qed.
Lemma y_glob X sd fr M Fs s K h c : hyps X sd fr M Fs s K h c -> glob s K. Proof. intro H. apply (sp_pre _ _ _ _ _ _ _ _ _ (y_pre _ _ _ _ _ _ _ _ _ _ _ _ H)). Qed.
Lemma y_prep X sd fr M Fs s K h c : hyps X sd fr M Fs s K h c -> pre fr F fs K s h. Proof. intro H. apply (sp_pre _ _ _ _ _ _ _ _ _ (y_pre _ _ _ _ _ _ _ _ _ _ _ _ H)). Qed.

(** an expression in a statement; [vs]: values already on the stack *)
Lemma ex_sim n X sd fr M Fs s K h c e vs : P_eval n -> hyps X sd fr M Fs s K h c -> fits (cg (cex e c)) G ->
  let m0 := mk (here (cg c)) s (K ++ map STmp vs) h in
  esim fs m0 (eval P funs n fr e s) (fun v s1 => exists h1, hyps X sd fr M (under (length (lv c)) (capsE e ++ Fs)) s1 K h1 (cex e c) /\
    fin (capsE e) K s h s1 K h1 /\ globals s1 = globals s /\ reaches fs m0 (mk (here (cg (cex e c))) s1 ((K ++ map STmp vs) ++ [STmp v]) h1)).
Proof.
  intros IE Hy Ft m0. pose proof (y_prep _ _ _ _ _ _ _ _ _ Hy) as Pr. apply (pre_tmps P _ _ _ _ vs) in Pr.
  pose proof (IE G sta fr F fs li un e s (K ++ map STmp vs) h (cg c) HL (y_open _ _ _ _ _ _ _ _ _ _ _ _ Hy) Ft Pr) as E. cbv zeta in E.
  eapply esim_step; [apply reaches_refl|exact E|]. intros v s1 [h1 [Po R]]. apply post_untmps in Po. exists h1.
  pose proof (fin_post _ _ _ _ _ _ _ _ Po) as Fi. assert (Gl : globals s1 = globals s) by apply Po.
  split; [|split; [exact Fi|split; [exact Gl|exact R]]].
  eapply hyps_next0; [exact Hy|exact Fi|exact Gl|apply cgrow_cex; apply (y_open _ _ _ _ _ _ _ _ _ _ _ _ Hy)|apply lv_cex].
Qed.
(** the delayed pop *)
Lemma dpop_sim X sd fr M Fs s K h c last : hyps X sd fr M Fs s K h c -> delay c = isS last -> fits (cg (dpop c)) G ->
  reaches fs (mk (here (cg c)) s (K ++ dlv last) h) (mk (here (cg (dpop c))) s K h) /\ hyps X sd fr M Fs s K h (dpop c).
Proof.
  intros Hy D Ft. pose proof (y_open _ _ _ _ _ _ _ _ _ _ _ _ Hy) as O. split; [|eapply hyps_grow; [exact Hy|now apply cgrow_dpop|apply lv_dpop]].
  unfold dpop in *. rewrite D in *. destruct last as [v|]; cbn [isS dlv] in *.
  - eapply (go_push P C T G sta OPop); [exact HL|exact O|exact Ft|apply s_pop].
  - rewrite app_nil_r. apply reaches_refl.
Qed.
(** declaring a variable *)
Lemma declare_sim X sd fr M Fs s K h c v g : hyps X sd fr M Fs s K h c -> gok g X fr s ->
  let ls := fst (declare P g v fr s) in let s' := snd (declare P g v fr s) in let new := [length (store s)] in
  ls = locals fr ++ map Some new /\ fin [] K s h s' (K ++ map SVar new) h /\ globals s' = globals s ++ (if g then new else []) /\
  store s' = store s ++ [v] /\ senvs s' = senvs s /\ render (store s') (K ++ map SVar new) = render (store s) (K ++ [STmp v]) /\ sworld P s' = sworld P s.
Proof.
  intros Hy Gk. pose proof (y_inv _ _ _ _ _ _ _ _ _ Hy) as I. cbv zeta. cbn [declare alloc fst snd map].
  assert (I1 : inv s (K ++ [STmp v]) h) by (eapply inv_same; [apply tmp_same|exact I]).
  assert (I2 : inv (falloc P v s) (K ++ [SVar (length (store s))]) h) by (apply inv_alloc; exact I1).
  assert (R : render (store (falloc P v s)) (K ++ [SVar (length (store s))]) = render (store s) (K ++ [STmp v])) by (eapply render_alloc; exact I1).
  assert (Cg : cg2 F [] K h (K ++ [SVar (length (store s))]) h).
  { intros x H. left. apply (fresh_uncaptured _ _ _ _ _ _ _ I1) in H. eapply capd_same; [apply same_vars_sym, tmp_same|exact H]. }
  split; [reflexivity|]. destruct g; cbn [globals store senvs sworld].
  - split; [|repeat split; auto]. split; [apply (inv_globals P (falloc P v s)); exact I2|]. split; [exact Cg|]. exists []. cbn. now rewrite app_nil_r.
  - split; [|repeat split; auto; now rewrite app_nil_r]. split; [exact I2|]. split; [exact Cg|]. exists []. cbn. now rewrite app_nil_r.
Qed.

(** ** The statements of the simulation *)
Definition stat (c' : cs) (b : bool) := b.
Definition P_exec (n : nat) : Prop := forall X sd fr M Fs s K h c x last, hyps X sd fr M Fs s K h c -> delay c = isS last ->
  let c' := cstmt top sd (x_lc X) x c in let gl := top && (sd =? 0) in
  fits (cg c') G -> okS (length (lv c)) Fs M (x_lp X) rt (delay c) x = true -> gok gl X fr s ->
  let m0 := mk (here (cg c)) s (K ++ dlv last) h in
  esim fs m0 (exec P funs n gl fr x s) (Qo X gl fr K s h (capsS x) m0 (here (cg c')) (declares x) (leaves x) (brk c')).
(** after the delayed pop *)
Definition P_exec0 (n : nat) : Prop := forall X sd fr M Fs s K h c x, hyps X sd fr M Fs s K h c -> delay c = false ->
  let c' := cstmt top sd (x_lc X) x c in let gl := top && (sd =? 0) in
  fits (cg c') G -> okS (length (lv c)) Fs M (x_lp X) rt false x = true -> gok gl X fr s ->
  let m0 := mk (here (cg c)) s K h in
  esim fs m0 (exec P funs n gl fr x s) (Qo X gl fr K s h (capsS x) m0 (here (cg c')) (declares x) (leaves x) (brk c')).
(** a list: the captured variables are flagged at its end, too *)
Definition capok (lvs : list (nat * bool)) (M : list nat) (K : list slot) (h : hp) : Prop := forall j, capd h K (F + j) -> flagged lvs j \/ In j M.
Definition QL (X : loopx) (gl : bool) (fr : frame) (K : list slot) (s : st) (h : hp) (L : list nat) (m0 : vm P)
    (dst nd : nat) (dl : bool) (brks : list nat) (R : list slot -> hp -> Prop) : outcome -> st -> Prop := fun o s' =>
  match o with
  | ONorm ls v => exists h' new, ls = locals fr ++ map Some new /\ length new = nd /\ isS v = dl /\
      fin L K s h s' (K ++ map SVar new) h' /\ globals s' = globals s ++ (if gl then new else []) /\
      reaches fs m0 (mk dst s' ((K ++ map SVar new) ++ dlv v) h') /\ R (K ++ map SVar new) h'
  | _ => Qo X gl fr K s h L m0 dst nd dl brks o s'
  end.
Definition P_list (n : nat) : Prop := forall X sd fr M Fs s K h c b last, hyps X sd fr M Fs s K h c -> delay c = isS last ->
  let c' := cstmts top sd (x_lc X) b c in let gl := top && (sd =? 0) in
  fits (cg c') G -> okB (length (lv c)) Fs M (x_lp X) rt (delay c) b = true -> gok gl X fr s ->
  let m0 := mk (here (cg c)) s (K ++ dlv last) h in
  esim fs m0 (exec_list P funs n gl fr last b s) (QL X gl fr K s h (capsB b) m0 (here (cg c')) (decls b) (delay c') (brk c') (capok (lv c') M)).
Definition P_block (n : nat) : Prop := forall X sd fr M Fs s K h c b, hyps X (S sd) fr M Fs s K h c -> depths sd (lv c) -> delay c = false ->
  let c' := dpop (in_block sd (cstmts top (S sd) (x_lc X) b) c) in
  fits (cg c') G -> okB (length (lv c)) Fs M (x_lp X) rt false b = true ->
  let m0 := mk (here (cg c)) s K h in
  esim fs m0 (exec_block P funs n fr b s) (Qo X false fr K s h (capsB b) m0 (here (cg c')) 0 false (brk c')).
Definition P_opt (n : nat) : Prop := forall X sd fr M Fs s K h c el, hyps X (S sd) fr M Fs s K h c -> depths sd (lv c) -> delay c = false ->
  let c' := copt top sd (x_lc X) el c in
  fits (cg c') G -> okO (length (lv c)) Fs M (x_lp X) rt el = true ->
  let m0 := mk (here (cg c)) s K h in
  esim fs m0 (exec_opt P funs n fr el s) (Qo X false fr K s h (capsOS el) m0 (here (cg c')) 0 false (brk c')).

Lemma g_stmt x sd lc c : isopen (cg c) -> cgrow c (cstmt top sd lc x c). Proof. apply stmt_grow. Qed.
Lemma g_stmts b sd lc c : isopen (cg c) -> cgrow c (cstmts top sd lc b c). Proof. apply stmt_grow. Qed.
Lemma g_opt el sd lc c : isopen (cg c) -> cgrow c (copt top sd lc el c). Proof. apply stmt_grow. Qed.
Lemma g_block b sd lc c : isopen (cg c) -> cgrow c (dpop (in_block sd (cstmts top (S sd) lc b) c)).
Proof.
  intro O. assert (A : cgrow c (in_block sd (cstmts top (S sd) lc b) c)) by (apply cgrow_in_block; auto; intros; now apply g_stmts).
  eapply cgrow_trans; [exact A|]. apply cgrow_dpop. eapply cgrow_open, A.
Qed.

Lemma exec_of0 n : P_exec0 n -> P_exec n.
Proof.
  intros H X sd fr M Fs s K h c x last Hy D c' gl Ft Ok Gk m0. pose proof (y_open _ _ _ _ _ _ _ _ _ _ _ _ Hy) as O.
  destruct (delay c) eqn:Ed.
  - assert (Ec : c' = cstmt top sd (x_lc X) x (dpop c)).
    { unfold c'. destruct x; try (cbn [okS] in Ok; discriminate); cbn [cstmt]; rewrite ?(dpop_false (dpop c)) by apply delay_dpop; reflexivity. }
    assert (Fd : fits (cg (dpop c)) G). { eapply fits_cgrow; [|exact Ft]. rewrite Ec. apply g_stmt. eapply cgrow_open, cgrow_dpop, O. }
    assert (Dl : delay c = isS last) by congruence.
    destruct (dpop_sim _ _ _ _ _ _ _ _ _ last Hy Dl Fd) as [R Hy']. unfold m0. rewrite Ec in *.
    eapply (chain0 _ _ _ _ _ _ [] (capsS x)); [exact R|apply fin_refl; eapply y_inv; exact Hy|reflexivity| |auto|intros i Hi; exact Hi].
    apply H with (M := M) (Fs := Fs); auto; [apply delay_dpop|]. rewrite lv_dpop. destruct x; try discriminate; exact Ok.
  - destruct last as [v|]; [discriminate|]. unfold m0. cbn [dlv]. rewrite app_nil_r. eapply H; eauto.
Qed.

(** ** Scopes *)
Lemma pop_sim sc k m c K s h xs D : split_at sc (lv c) k -> length K = F + length (lv c) -> isopen (cg c) -> inv s K h ->
  (forall j, k <= j -> capd h K (F + j) -> flagged (lv c) j) -> fits (cg (pop_locals sc m true true c)) G ->
  exists h' zs, length zs = length xs /\
    reaches D (mk (here (cg c)) s (K ++ map STmp xs) h) (mk (here (cg (pop_locals sc m true true c))) s (firstn (F + k) K ++ map STmp zs) h') /\
    inv s (firstn (F + k) K) h' /\ (forall x, capd h' (firstn (F + k) K) x -> capd h K x).
Proof.
  intros Sp LK O I Hc Ft. rewrite cg_pop in *. destruct (at_pushes C T G sta HL _ (cg c) O Ft) as [Cd ->].
  apply code_app in Cd. destruct Cd as [C1 C2].
  destruct (scope_sim sc k D (here (cg c)) (lv c) K s h xs Sp LK I Hc C1) as (h' & R & I' & Cp).
  set (junk := render (store s) (skipn (F + k) K)) in *.
  assert (Lj : length junk = in_scope sc (lv c)). { unfold junk. rewrite render_len, skipn_length, (split_in_scope sc (lv c) k Sp). lia. }
  set (all := junk ++ xs).
  assert (La : length all = in_scope sc (lv c) + length xs) by (unfold all; rewrite app_length; lia).
  exists h', (firstn (length xs) all). split; [rewrite firstn_length; lia|]. split; [|split].
  - eapply reaches_trans; [exact R|]. rewrite <- app_assoc, <- map_app. fold all. rewrite <- (firstn_skipn (length xs) all) at 1.
    rewrite map_app, app_assoc, app_length, repeat_length.
    assert (Lk : length (map STmp (skipn (length xs) all)) = in_scope sc (lv c)) by (rewrite map_length, skipn_length; lia).
    rewrite Nat.add_assoc, <- Lk. apply pops_sim. rewrite Lk. exact C2.
  - eapply inv_same; [apply same_vars_sym, (tmps_same _ junk)|exact I'].
  - intros x Q. apply Cp. eapply capd_same; [apply (tmps_same _ junk)|exact Q].
Qed.
Lemma QL_Qo X gl fr K s h L m0 dst nd dl brks R o s' : QL X gl fr K s h L m0 dst nd dl brks R o s' -> Qo X gl fr K s h L m0 dst nd dl brks o s'.
Proof.
  destruct o as [ls v| | |v]; intro H; [|exact H|exact H|exact H]. destruct H as (h' & new & A & B & D & E & H & Q & _).
  exists h', new. split; [auto|]. split; [auto|]. split; [auto|]. split; [auto|]. auto.
Qed.
Lemma QL_after X (gl : bool) fr K s h L1 L2 s1 (new : list nat) h1 m0 m1 dst nd1 nd dl brks R o s' : reaches fs m0 m1 ->
  fin L1 K s h s1 (K ++ map SVar new) h1 -> globals s1 = globals s ++ (if gl then new else []) -> length new = nd1 ->
  F <= length K -> (x_lp X <> None -> F + x_nb X <= length K) -> (x_lp X = Some true -> F + x_nin X <= length K) ->
  (gl = true -> x_lp X = None /\ rt = false) ->
  QL X gl (Frame (locals fr ++ map Some new) (up fr)) (K ++ map SVar new) s1 h1 L2 m1 dst nd dl brks R o s' ->
  QL X gl fr K s h (L1 ++ L2) m0 dst (nd1 + nd) dl brks R o s'.
Proof.
  intros Rm Fi Gl Ln LF Lb Lc Hg H. destruct o as [ls v| | |v]; [|eapply Qo_pre; [exact Rm|]; eapply Qo_after; eauto; exact H ..].
  destruct H as (h' & new2 & A & B & D & E & H & Q & Z). exists h', (new ++ new2). cbn [locals] in A. rewrite !map_app, app_length.
  split; [rewrite A; now rewrite <- app_assoc|]. split; [lia|]. split; [auto|]. rewrite <- !app_assoc in *. split; [eapply fin_trans; eauto|].
  split; [rewrite H, Gl, <- app_assoc; now destruct gl|]. split; [|exact Z]. eapply reaches_trans; eauto.
Qed.
Lemma okS_do d n Fs M lp x : okS n Fs M lp rt d x = true -> d = false \/ match x with SDo _ _ _ => False | _ => True end.
Proof. destruct x; auto; destruct d; auto; cbn [okS]; discriminate. Qed.
Lemma gok_next gl X fr s s' (new : list nat) : gok gl X fr s -> globals s' = globals s ++ (if gl then new else []) ->
  gok gl X (Frame (locals fr ++ map Some new) (up fr)) s'.
Proof. intros H E Q. destruct (H Q) as (A & B & D). rewrite E, Q. cbn [locals]. rewrite !app_length, map_length. auto. Qed.
Lemma hyps_nb X sd fr M Fs s K h c : hyps X sd fr M Fs s K h c -> (x_lp X <> None -> F + x_nb X <= length K) /\ (x_lp X = Some true -> F + x_nin X <= length K).
Proof.
  intro Hy. pose proof (hyps_len _ _ _ _ _ _ _ _ _ _ _ _ Hy). pose proof (y_loop _ _ _ _ _ _ _ _ _ _ _ _ Hy) as Lr. split; intro Q.
  - pose proof (lrel_nb _ _ _ _ _ Lr Q). lia.
  - pose proof (lrel_nin _ _ _ _ _ Lr Q). lia.
Qed.
Lemma step_list n : P_exec n -> P_list n -> P_list (S n).
Proof.
  intros IX IL X sd fr M Fs s K h c b last Hy D c' gl Ft Ok Gk m0. pose proof (y_open _ _ _ _ _ _ _ _ _ _ _ _ Hy) as O. rewrite exec_list_S.
  destruct b as [|x r].
  - cbn [esim QL ret]. exists h, []. cbn [map]. rewrite !app_nil_r. split; [reflexivity|]. split; [reflexivity|]. split; [symmetry; exact D|].
    split; [apply fin_refl; eapply y_inv; exact Hy|]. split; [now destruct gl; rewrite app_nil_r|]. split; [apply reaches_refl|].
    exact (sp_cap _ _ _ _ _ _ _ _ _ (y_pre _ _ _ _ _ _ _ _ _ _ _ _ Hy)).
  - cbn [okB] in Ok. apply andb_true_iff in Ok. destruct Ok as [Ok1 Ok2]. unfold c' in *. clear c'. cbn [cstmts capsB decls] in *.
    set (c1 := cstmt top sd (x_lc X) x c) in *. assert (G1 : cgrow c c1) by (apply g_stmt; exact O).
    pose proof (cgrow_open _ _ G1) as O1. assert (F1 : fits (cg c1) G) by (eapply fits_cgrow; [apply g_stmts; exact O1|exact Ft]).
    pose proof (g_stmts r sd (x_lc X) c1 O1) as G2.
    assert (L1 : lv c1 = mark_from 0 (capsS x) (lv c ++ repeat (sd, false) (declares x))) by (apply lv_all; apply (y_dep _ _ _ _ _ _ _ _ _ _ _ _ Hy)).
    assert (LF : F <= length K) by (rewrite (hyps_len _ _ _ _ _ _ _ _ _ _ _ _ Hy); lia).
    destruct (hyps_nb _ _ _ _ _ _ _ _ _ Hy) as [NB NI].
    assert (Hg : gl = true -> x_lp X = None /\ rt = false) by (intro Q; destruct (Gk Q) as (_ & _ & Q1 & Q2); auto).
    eapply esim_bind; [apply (IX X sd fr M Fs s K h c x last Hy D F1 Ok1 Gk)|]. fold c1. fold gl. fold m0.
    intros o s1 Q. destruct o as [ls v| | |v].
    + destruct Q as (h1 & new & -> & Ln & Dv & Fi & Eg & R).
      assert (Hy1 : hyps X sd (Frame (locals fr ++ map Some new) (up fr)) M (under (length (lv c) + declares x) (capsS x ++ Fs)) s1 (K ++ map SVar new) h1 c1).
      { eapply hyps_next with (gl := gl); [exact Hy|exact Fi|exact Eg| |exact Ln|exact G1|exact L1]. intro Q. destruct (Gk Q) as (Q1 & Q2 & _). auto. }
      assert (D1 : delay c1 = leaves x). { apply delay_all. eapply okS_do. exact Ok1. }
      assert (E1 : length (lv c1) = length (lv c) + declares x) by (rewrite L1, mark_len, app_length, repeat_length; reflexivity).
      eapply esim_step; [exact R| |].
      * apply (IL X sd _ M _ s1 _ h1 c1 r v Hy1); [congruence|exact Ft| |eapply gok_next; eauto]. rewrite E1, D1. exact Ok2.
      * intros o2 s2 Q2. eapply QL_after; eauto.
    + cbn [esim QL ret]. eapply Qo_incl with (L := capsS x) (brks := brk c1); [|intros i Hi; apply in_app_iff; auto|intros i Hi; eapply cgrow_brk; [exact G2|exact Hi]]. exact Q.
    + cbn [esim QL ret]. eapply Qo_incl with (L := capsS x) (brks := brk c1); [|intros i Hi; apply in_app_iff; auto|intros i Hi; eapply cgrow_brk; [exact G2|exact Hi]]. exact Q.
    + cbn [esim QL ret]. eapply Qo_incl with (L := capsS x) (brks := brk c1); [|intros i Hi; apply in_app_iff; auto|intros i Hi; eapply cgrow_brk; [exact G2|exact Hi]]. exact Q.
Qed.
Lemma list_split sd lc b c : depths sd (lv c) -> split_at (S sd) (lv (cstmts top (S sd) lc b c)) (length (lv c)) /\ length (lv (cstmts top (S sd) lc b c)) = length (lv c) + decls b.
Proof.
  intro D. destruct (proj1 (proj2 lv_all) b top (S sd) lc c (depths_le _ _ _ D (Nat.le_succ_diag_r sd))) as (fl & Lf & ->). split.
  - apply split_fl; auto. apply split_mark, split_top; auto.
  - rewrite app_length, mark_len, map_length. lia.
Qed.
Lemma brk_block sd lc b c : delay c = false -> brk (dpop (in_block sd (cstmts top (S sd) lc b) c)) = brk (cstmts top (S sd) lc b c).
Proof. intro D. unfold in_block. rewrite brk_dpop, brk_pop. now rewrite dpop_false. Qed.
Lemma step_block n : P_list n -> P_block (S n).
Proof.
  intros IL X sd fr M Fs s K h c b Hy Dp Dl c' Ft Ok m0. pose proof (y_open _ _ _ _ _ _ _ _ _ _ _ _ Hy) as O. rewrite exec_block_S.
  pose proof (hyps_len _ _ _ _ _ _ _ _ _ _ _ _ Hy) as LK.
  assert (Bk : brk c' = brk (cstmts top (S sd) (x_lc X) b c)) by now apply brk_block.
  unfold c' in *. clear c'. unfold in_block in *. rewrite (dpop_false c Dl) in *. set (c1 := cstmts top (S sd) (x_lc X) b c) in *.
  pose proof (cgrow_open _ _ (g_stmts b (S sd) (x_lc X) c O)) as O1. fold c1 in O1.
  set (c2 := pop_locals (S sd) true true true c1) in *.
  assert (G2 : cgrow c1 c2) by (now apply cgrow_pop_locals). pose proof (cgrow_open _ _ G2) as O2.
  assert (F2 : fits (cg c2) G) by (eapply fits_cgrow; [apply cgrow_dpop; exact O2|exact Ft]).
  assert (F1 : fits (cg c1) G) by (eapply fits_cgrow; [exact G2|exact F2]).
  pose proof (IL X (S sd) fr M Fs s K h c b None Hy Dl) as E. cbv zeta in E. cbn [Nat.eqb] in E. rewrite andb_false_r in E. cbn [dlv] in E. rewrite app_nil_r in E.
  rewrite Dl in E. specialize (E F1 Ok ltac:(intro; discriminate)). fold m0 in E. fold c1 in E.
  eapply esim_bind; [exact E|]. intros o s1 Q. destruct o as [ls v| | |v].
  - destruct Q as (h1 & new & -> & Ln & Dv & Fi & Eg & R & Cp). cbn [esim ret]. rewrite app_nil_r in Eg.
    destruct (list_split sd (x_lc X) b c Dp) as [Sp Ll]. fold c1 in Sp, Ll.
    set (xs := match v with Some v => [v] | None => [] end). assert (Ex : dlv v = map STmp xs) by (destruct v; reflexivity). rewrite Ex in R.
    destruct (pop_sim (S sd) (length (lv c)) true c1 (K ++ map SVar new) s1 h1 xs fs Sp) as (h2 & zs & Lz & R2 & I2 & Cp2); auto.
    { rewrite app_length, map_length. lia. }
    { apply Fi. }
    { intros j Hj Q. destruct (Cp j Q) as [Q1|Q1]; auto. apply (sp_M _ _ _ _ _ _ _ _ _ (y_pre _ _ _ _ _ _ _ _ _ _ _ _ Hy)) in Q1. lia. }
    fold c2 in R2. rewrite (firstn_len_app K) in R2, I2, Cp2 by lia.
    apply (Qo_norm P C T G sta F fs li un rt X false fr K s h (capsB b) m0 _ false _ None s1 h2); auto.
    + split; [exact I2|]. destruct Fi as [_ [Cg Se]]. split; [|exact Se]. intros x Q. apply Cp2 in Q. destruct (Cg x Q) as [Q1|Q1]; auto.
    + cbn [dlv]. rewrite app_nil_r. eapply reaches_trans; [exact R|]. eapply reaches_trans; [exact R2|].
      assert (D2 : delay c2 = isS v) by (unfold c2; rewrite delay_pop; congruence). unfold dpop in *. rewrite D2 in *. destruct v as [v|]; cbn [isS] in *; cbn in xs.
      * destruct zs as [|z [|]]; try discriminate. cbn [map]. eapply (go_push P C T G sta OPop); [exact HL|exact O2|exact Ft|apply s_pop].
      * destruct zs; [|discriminate]. cbn [map]. rewrite app_nil_r. apply reaches_refl.
  - cbn [esim ret QL] in *. rewrite Bk. exact Q.
  - cbn [esim ret QL] in *. rewrite Bk. exact Q.
  - cbn [esim ret QL] in *. rewrite Bk. exact Q.
Qed.
Lemma step_opt n : P_block n -> P_opt (S n).
Proof.
  intros IB X sd fr M Fs s K h c el Hy Dp Dl c' Ft Ok m0. rewrite exec_opt_S. destruct el as [|b].
  - cbn [esim ret]. apply (Qo_norm P C T G sta F fs li un rt X false fr K s h [] m0 _ false _ None s h); auto.
    + apply fin_refl. eapply y_inv; exact Hy.
    + cbn [dlv]. rewrite app_nil_r. apply reaches_refl.
  - apply (IB X sd fr M Fs s K h c b Hy Dp Dl Ft Ok).
Qed.

(** ** Simple statements *)
Definition XC (n : nat) (x : stmt) : Prop := forall X sd fr M Fs s K h c, hyps X sd fr M Fs s K h c -> delay c = false ->
  let c' := cstmt top sd (x_lc X) x c in let gl := top && (sd =? 0) in
  fits (cg c') G -> okS (length (lv c)) Fs M (x_lp X) rt false x = true -> gok gl X fr s ->
  let m0 := mk (here (cg c)) s K h in
  esim fs m0 (exec P funs n gl fr x s) (Qo X gl fr K s h (capsS x) m0 (here (cg c')) (declares x) (leaves x) (brk c')).
Lemma exec0_of n : (forall x, XC n x) -> P_exec0 n. Proof. intros H X sd fr M Fs s K h c x. apply H. Qed.

Lemma x_expr n e : P_eval n -> XC (S n) (SExpr e).
Proof.
  intros IE X sd fr M Fs s K h c Hy Dl c' gl Ft Ok Gk m0. rewrite exec_S. cbv zeta. unfold c' in *. clear c'. cbn [cstmt] in *. rewrite (dpop_false c Dl) in *.
  pose proof (ex_sim n X sd fr M Fs s K h c e [] IE Hy Ft) as E. cbv zeta in E. cbn [map] in E. rewrite app_nil_r in E. fold m0 in E.
  eapply esim_bind; [exact E|]. intros v s1 (h1 & Hy1 & Fi & Eg & R). cbn [esim ret capsS declares leaves].
  apply (Qo_norm P C T G sta F fs li un rt X gl fr K s h (capsE e) m0 _ true _ (Some v) s1 h1); auto.
Qed.
Lemma x_semi n : XC (S n) SSemi.
Proof.
  intros X sd fr M Fs s K h c Hy Dl c' gl Ft Ok Gk m0. rewrite exec_S. cbv zeta. unfold c' in *. clear c'. cbn [cstmt] in *. rewrite (dpop_false c Dl) in *.
  cbn [esim ret capsS declares leaves].
  apply (Qo_norm P C T G sta F fs li un rt X gl fr K s h [] m0 _ false _ None s h); auto.
  - apply fin_refl. eapply y_inv; exact Hy.
  - cbn [dlv]. rewrite app_nil_r. apply reaches_refl.
Qed.
(** the counter of globals *)
Definition sg (g : bool) (s : st) : st := if g then St P (store s) (senvs s) (globals s ++ [length (store s)]) (sworld P s) else s.
Lemma sg_senvs g s : senvs (sg g s) = senvs s. Proof. now destruct g. Qed.
Lemma sg_store g s : store (sg g s) = store s. Proof. now destruct g. Qed.
Lemma sg_inv g s K h : inv s K h -> inv (sg g s) K h. Proof. destruct g; [apply inv_globals|auto]. Qed.
Lemma init_sim sd c s K h D : isopen (cg c) -> fits (cg (init_local top sd c)) G ->
  reaches D (mk (here (cg c)) s K h) (mk (here (cg (init_local top sd c))) (sg (top && (sd =? 0)) s) K h).
Proof.
  intros O Ft. unfold init_local in *. destruct (top && (sd =? 0)); [|apply reaches_refl].
  eapply (go_push P C T G sta OInitGlobal); [exact HL|exact O|exact Ft|]. unfold strict_step. cbn [self_store step]. unfold CompInv.mk, set_gcount. cbn. rewrite app_length, Nat.add_1_r. reflexivity.
Qed.
Lemma sg_declare g v fr s i K h : render (store (snd (declare P g v fr s))) (K ++ map SVar [length (store s)]) = render (store s) (K ++ [STmp v]) ->
  mk i (snd (declare P g v fr s)) (K ++ map SVar [length (store s)]) h = mk i (sg g s) (K ++ [STmp v]) h.
Proof. intro E. unfold CompInv.mk. rewrite E. unfold declare, alloc, sg. destruct g; reflexivity. Qed.
Lemma declare_norm X sd fr M Fs s K h c v (g : bool) s0 h0 L m0 dst brks : hyps X sd fr M Fs s K h c -> gok g X fr s ->
  fin L K s0 h0 s K h -> globals s = globals s0 -> reaches fs m0 (mk dst (sg g s) (K ++ [STmp v]) h) ->
  esim fs m0 (let '(ls, s1) := declare P g v fr s in ret P (ONorm ls None) s1) (Qo X g fr K s0 h0 L m0 dst 1 false brks).
Proof.
  intros Hy Gk Fi0 Eg0 R. destruct (declare_sim _ _ _ _ _ _ _ _ _ v g Hy Gk) as (A & B & D & E1 & E2 & E3 & E4).
  destruct (declare P g v fr s) as [ls s1] eqn:E. cbn [fst snd] in *. cbn [esim ret]. exists h, [length (store s)].
  split; [exact A|]. split; [reflexivity|]. split; [reflexivity|]. split; [|split].
  - rewrite <- (app_nil_r L). eapply fin_trans; eauto.
  - rewrite D, Eg0. reflexivity.
  - cbn [dlv]. rewrite app_nil_r. pose proof (sg_declare g v fr s dst K h) as S1. rewrite E in S1. cbn [snd] in S1. rewrite S1 by exact E3. exact R.
Qed.
Lemma x_let n e : P_eval n -> XC (S n) (SLet e).
Proof.
  intros IE X sd fr M Fs s K h c Hy Dl c' gl Ft Ok Gk m0. rewrite exec_S. cbv zeta. unfold c' in *. clear c'. cbn [cstmt] in *. rewrite (dpop_false c Dl) in *.
  pose proof (y_open _ _ _ _ _ _ _ _ _ _ _ _ Hy) as O.
  assert (O1 : isopen (cexpr e (cg c))) by oo.
  assert (F1 : fits (cg (cex e c)) G). { eapply fits_cgrow; [|exact Ft]. apply cgrow_trans with (b := cex e (declare_local sd c)); [|apply cgrow_init; exact O1].
    eapply cgrow_same; [apply grow_refl; exact O1|reflexivity|reflexivity]. }
  pose proof (ex_sim n X sd fr M Fs s K h c e [] IE Hy F1) as E. cbv zeta in E. cbn [map] in E. rewrite app_nil_r in E. fold m0 in E.
  eapply esim_bind; [exact E|]. intros v s1 (h1 & Hy1 & Fi & Eg & R). cbn [capsS declares leaves].
  eapply declare_norm; [exact Hy1| |exact Fi|exact Eg|].
  - intro Q. rewrite Eg. apply Gk. exact Q.
  - eapply reaches_trans; [exact R|]. apply (init_sim sd (cex e (declare_local sd c))); [exact O1|exact Ft].
Qed.
Lemma declare_const X sd fr M Fs s K h c v : let gl := top && (sd =? 0) in hyps X sd fr M Fs s K h c -> gok gl X fr s ->
  let c' := cpush (OConst v) (init_local top sd (declare_local sd c)) in fits (cg c') G ->
  let m0 := mk (here (cg c)) s K h in forall brks,
  esim fs m0 (let '(ls, s1) := declare P gl v fr s in ret P (ONorm ls None) s1) (Qo X gl fr K s h [] m0 (here (cg c')) 1 false brks).
Proof.
  intros gl Hy Gk c' Ft m0 brks. pose proof (y_open _ _ _ _ _ _ _ _ _ _ _ _ Hy) as O.
  pose proof (cgrow_init top sd (declare_local sd c) O) as G1. pose proof (cgrow_open _ _ G1) as O1.
  eapply declare_norm; [exact Hy|exact Gk|apply fin_refl; eapply y_inv; exact Hy|reflexivity|].
  eapply reaches_trans; [apply (init_sim sd (declare_local sd c)); [exact O|]|].
  - eapply fits_cgrow; [apply (cgrow_push (OConst v)); exact O1|exact Ft].
  - eapply (go_push P C T G sta (OConst v)); [exact HL|exact O1|exact Ft|apply s_const].
Qed.
Lemma x_letnil n : XC (S n) SLetNil.
Proof.
  intros X sd fr M Fs s K h c Hy Dl c' gl Ft Ok Gk m0. rewrite exec_S. cbv zeta. unfold c' in *. clear c'. cbn [cstmt] in *. rewrite (dpop_false c Dl) in *.
  eapply declare_const; eauto.
Qed.
Lemma x_struct n v : XC (S n) (SStruct v).
Proof.
  intros X sd fr M Fs s K h c Hy Dl c' gl Ft Ok Gk m0. rewrite exec_S. cbv zeta. unfold c' in *. clear c'. cbn [cstmt] in *. rewrite (dpop_false c Dl) in *.
  eapply declare_const; eauto.
Qed.
Lemma x_fn n f caps : XC (S n) (SFn f caps).
Proof.
  intros X sd fr M Fs s K h c Hy Dl c' gl Ft Ok Gk m0. rewrite exec_S. cbv zeta. unfold c' in *. clear c'. cbn [cstmt] in *. rewrite (dpop_false c Dl) in *.
  destruct caps as [|cr cs]; [apply (declare_const X sd fr M Fs s K h c (HFun f) Hy Gk Ft)|].
  pose proof (y_open _ _ _ _ _ _ _ _ _ _ _ _ Hy) as O. pose proof (y_inv _ _ _ _ _ _ _ _ _ Hy) as I.
  pose proof (cgrow_init top sd (declare_local sd c) O) as G1. pose proof (cgrow_open _ _ G1) as O1.
  set (c1 := init_local top sd (declare_local sd c)) in *. set (ops := closure_ops f (cr :: cs)) in *.
  change (fits (g_pushes ops (cg c1)) G) in Ft. change (cg (mark (cap_locals (cr :: cs)) (on_g (g_pushes ops) c1))) with (g_pushes ops (cg c1)).
  destruct (at_pushes C T G sta HL ops (cg c1) O1 Ft) as [Cd ->]. change (CompFlow.here sta (cg c1)) with (here (cg c1)) in *.
  set (i := here (cg c1)) in *. unfold ops in Cd. unfold closure_ops in Cd. apply (code_cons C) in Cd. destruct Cd as [Cd1 Cd]. apply (code_cons C) in Cd. destruct Cd as [Cd2 Cd].
  set (v := HClosure f (length (senvs s))) in *. destruct (declare_sim _ _ _ _ _ _ _ _ _ v gl Hy Gk) as (A & B & D & E1 & E2 & E3 & E4).
  pose proof (sg_declare gl v fr s (S (S i)) K) as Sg.
  destruct (declare P gl v fr s) as [ls s1] eqn:Ed. cbn [fst snd] in *. destruct (captured (Frame ls (up fr)) (cr :: cs)) as [cl|] eqn:Ec; [|exact Logic.I].
  cbn [new_closure esim ret].
  set (l := length (store s)) in *. set (K' := K ++ map SVar [l]) in *.
  set (hh := Hp (h_op h) (h_ce h) (h_en h ++ [[]]) (h_phi h)).
  assert (Is : inv s1 K' h) by apply B.
  assert (I1 : inv (senv P (senvs s1 ++ [[]]) s1) K' hh) by (apply inv_new_env; exact Is).
  assert (Gb : glob s1 K').
  { eapply (glob_new P T funs F fs Ef gl s s1 K [l]); [eapply y_glob; exact Hy|exact D|]. intro Q. destruct (Gk Q) as (Q1 & Q2 & _).
    pose proof (sp_len _ _ _ _ _ _ _ _ _ (y_pre _ _ _ _ _ _ _ _ _ _ _ _ Hy)). pose proof (sp_loc _ _ _ _ _ _ _ _ _ (y_pre _ _ _ _ _ _ _ _ _ _ _ _ Hy)). lia. }
  assert (FR : frel P (Frame ls (up fr)) F K' s1).
  { rewrite A. apply (frel_new P T funs F fs Ef fr K s s1 [l]).
    - apply (y_prep _ _ _ _ _ _ _ _ _ Hy).
    - pose proof (sp_len _ _ _ _ _ _ _ _ _ (y_pre _ _ _ _ _ _ _ _ _ _ _ _ Hy)). pose proof (sp_loc _ _ _ _ _ _ _ _ _ (y_pre _ _ _ _ _ _ _ _ _ _ _ _ Hy)). lia.
    - exists []. now rewrite app_nil_r. }
  destruct (close_sim P C T funs (Frame ls (up fr)) F fs li un f K (SVar l) fs (cr :: cs) Ef cl (senvs s1) [] (senv P (senvs s1 ++ [[]]) s1) hh (S (S i)) (h_en h) []) as (h' & R & I' & Cg); auto.
  { pose proof (envs_len P _ _ _ Is). auto. }
  { change (frel P (Frame ls (up fr)) F K' (senv P (senvs s1) s1)). eapply frel_senvs; [exact FR|]. exists []. now rewrite app_nil_r. }
  { cbn [sval senv LangSpec.store]. rewrite E1. unfold l. rewrite nth_snoc_r, E2. reflexivity. }
  exists h', [l]. split; [exact A|]. split; [reflexivity|]. split; [reflexivity|]. split; [|split].
  - split; [exact I'|]. split.
    + intros x Q. destruct (Cg x Q) as [Q1|Q1]; [|auto]. left. destruct B as [_ [B _]]. destruct (B x Q1) as [?|[? [[] _]]]. auto.
    + exists [cl]. cbn [LangSpec.senvs]. rewrite E2. reflexivity.
  - exact D.
  - cbn [dlv]. rewrite app_nil_r. fold K'.
    assert (Fi1 : fits (cg c1) G) by (eapply f_pushes; [exact O1|exact Ft]).
    eapply reaches_trans; [apply (init_sim sd (declare_local sd c)); [exact O|exact Fi1]|]. fold c1. fold i. fold gl.
    eapply reaches_trans; [eapply step_go; [exact Cd1|apply s_const]|].
    assert (Ig : inv (sg gl s) K h) by (now apply sg_inv).
    eapply reaches_trans; [eapply step_go; [exact Cd2|apply s_closure; exact Ig]|].
    replace (S i + 1) with (S (S i)) in * by lia.
    match goal with |- reaches _ ?a _ => replace a with (mk (S (S i)) (senv P (senvs s1 ++ [[]]) s1) K' hh) end.
    + assert (El : length ops = S (S (length (cr :: cs)))) by (unfold ops, closure_ops; cbn; now rewrite map_length).
      rewrite El. replace (i + S (S (length (cr :: cs)))) with (S (S i) + length (cr :: cs)) by lia. exact R.
    + specialize (Sg hh E3). unfold CompInv.mk in *. cbn [senv LangSpec.store LangSpec.globals LangSpec.senvs LangSpec.sworld] in *.
      rewrite sg_senvs, sg_store in *. exact Sg.
Qed.

(** ** Abrupt statements *)
Lemma msg_sim n X sd fr M Fs s K h c e vs : P_eval n -> hyps X sd fr M Fs s K h c -> fits (cg (cmsg e c)) G ->
  let m0 := mk (here (cg c)) s (K ++ map STmp vs) h in
  esim fs m0 (match e with Some e => eval P funs n fr e s | None => ret P HNil s end) (fun v s1 => exists h1, hyps X sd fr M (under (length (lv c)) (capsO e ++ Fs)) s1 K h1 (cmsg e c) /\
    fin (capsO e) K s h s1 K h1 /\ globals s1 = globals s /\ reaches fs m0 (mk (here (cg (cmsg e c))) s1 ((K ++ map STmp vs) ++ [STmp v]) h1)).
Proof.
  intros IE Hy Ft m0. destruct e as [e|]; [now apply ex_sim|]. pose proof (y_open _ _ _ _ _ _ _ _ _ _ _ _ Hy) as O. cbn [cmsg capsO esim ret] in *. exists h. split; [|split; [|split]].
  - eapply hyps_grow; [|apply cgrow_push; exact O|reflexivity]. eapply hyps_F; [exact Hy|]. intros j Hj. apply filter_In in Hj. apply Hj.
  - apply fin_refl. eapply y_inv; exact Hy.
  - reflexivity.
  - eapply (go_push P C T G sta (OConst HNil)); [exact HL|exact O|exact Ft|apply s_const].
Qed.
Lemma in_under n l j : j < n -> In j l -> In j (under n l).
Proof. intros A B. apply filter_In. split; auto. now apply Nat.ltb_lt. Qed.
Lemma return_sim e X sd fr M Fs s0 h0 L s K h c v m0 (gl : bool) dst brks :
  hyps X sd fr M (under (length (lv c)) (capsO e ++ Fs)) s K h c -> rt && forallb (fun i => mem i (capsO e ++ Fs)) M = true ->
  fits (cg (cpush OReturn (pop_locals 0 false false true c))) G ->
  fin L K s0 h0 s K h -> globals s = globals s0 -> reaches fs m0 (mk (here (cg c)) s (K ++ [STmp v]) h) ->
  Qo X gl fr K s0 h0 L m0 dst 0 false brks (OReturned v) s.
Proof.
  intros Hy Ok Ft Fi Eg R. apply andb_true_iff in Ok. destruct Ok as [Er Ok]. rewrite forallb_forall in Ok.
  pose proof (y_open _ _ _ _ _ _ _ _ _ _ _ _ Hy) as O. unfold cpush in Ft. cbn [on_g cg] in Ft. rewrite cg_pop in Ft. rewrite app_nil_r in Ft.
  assert (O1 : isopen (g_pushes (lifts_from 0 0 (lv c)) (cg c))) by oo.
  destruct (at_push C G sta HL OReturn _ O1 Ft) as [Cr _]. assert (F1 : fits (g_pushes (lifts_from 0 0 (lv c)) (cg c)) G) by fit.
  destruct (at_pushes C T G sta HL _ (cg c) O F1) as [Cd E].
  destruct (scope_sim 0 0 fs (here (cg c)) (lv c) K s h [v] (split_zero _) (hyps_len _ _ _ _ _ _ _ _ _ _ _ _ Hy) (y_inv _ _ _ _ _ _ _ _ _ Hy)) as (h' & R' & I' & Cp).
  { intros j _ Q. destruct (sp_cap _ _ _ _ _ _ _ _ _ (y_pre _ _ _ _ _ _ _ _ _ _ _ _ Hy) j Q) as [Q1|Q1]; auto. apply (y_F _ _ _ _ _ _ _ _ _ _ _ _ Hy).
    specialize (Ok _ Q1). unfold mem in Ok. apply existsb_exists in Ok. destruct Ok as [j' [Ok1 Ok2]]. apply Nat.eqb_eq in Ok2. subst j'. apply in_under; auto.
    apply (sp_M _ _ _ _ _ _ _ _ _ (y_pre _ _ _ _ _ _ _ _ _ _ _ _ Hy) j Q1). }
  { exact Cd. }
  rewrite Nat.add_0_r in *. exists h'. split; [exact Er|]. split; [|split; [exact Eg|]].
  - destruct Fi as [_ [Cg Se]]. split; [|split; [|exact Se]].
    + eapply inv_same; [apply same_vars_sym, tmps_same|exact I'].
    + intros x Q. apply Cg, Cp. eapply capd_same; [apply tmps_same|exact Q].
  - exists (render (store s) (skipn F K)), (here (g_pushes (lifts_from 0 0 (lv c)) (cg c))). split; [exact Cr|].
    eapply reaches_trans; [exact R|]. rewrite E. rewrite app_assoc. exact R'.
Qed.
Lemma x_return n e : P_eval n -> XC (S n) (SReturn e).
Proof.
  intros IE X sd fr M Fs s K h c Hy Dl c' gl Ft Ok Gk m0. rewrite exec_S. cbv zeta. unfold c' in *. clear c'. cbn [cstmt okS] in *. rewrite (dpop_false c Dl) in *.
  pose proof (y_open _ _ _ _ _ _ _ _ _ _ _ _ Hy) as O. change (match e with Some e => cex e c | None => cpush (OConst HNil) c end) with (cmsg e c) in *.
  pose proof (cgrow_cmsg e c O) as G1. pose proof (cgrow_open _ _ G1) as O1.
  assert (F1 : fits (cg (cmsg e c)) G). { eapply fits_cgrow; [|exact Ft]. eapply cgrow_trans; [apply cgrow_pop_locals; exact O1|]. apply cgrow_push. eapply cgrow_open, cgrow_pop_locals, O1. }
  pose proof (msg_sim n X sd fr M Fs s K h c e [] IE Hy F1) as E. cbv zeta in E. cbn [map] in E. rewrite app_nil_r in E. fold m0 in E.
  assert (Lc : length (lv (cmsg e c)) = length (lv c)) by (rewrite lv_cmsg; apply mark_len).
  assert (Z : esim fs m0 (bind P (match e with Some e => eval P funs n fr e s | None => ret P HNil s end) (fun v s => ret P (OReturned v) s))
     (Qo X gl fr K s h (capsO e) m0 (here (cg (cpush OReturn (pop_locals 0 false false true (cmsg e c))))) 0 false (brk (cpush OReturn (pop_locals 0 false false true (cmsg e c)))))).
  { eapply esim_bind; [exact E|]. intros v s1 (h1 & Hy1 & Fi & Eg & R). cbn [esim ret]. eapply return_sim; [rewrite Lc; exact Hy1|exact Ok|exact Ft|exact Fi|exact Eg|exact R]. }
  destruct e as [e|]; exact Z.
Qed.
Lemma x_break n : XC (S n) SBreak.
Proof.
  intros X sd fr M Fs s K h c Hy Dl c' gl Ft Ok Gk m0. rewrite exec_S. cbv zeta. unfold c' in *. clear c'. cbn [cstmt okS] in *. rewrite (dpop_false c Dl) in *.
  pose proof (y_open _ _ _ _ _ _ _ _ _ _ _ _ Hy) as O. pose proof (y_loop _ _ _ _ _ _ _ _ _ _ _ _ Hy) as Lr. unfold lrel in Lr.
  destruct (x_lp X) as [bb|] eqn:Elp; [|discriminate]. destruct (x_lc X) as [[[start enc] inner]|] eqn:Elc; [|contradiction].
  destruct Lr as (Sp & _ & Mb & _ & _). set (c1 := pop_locals enc false true true c) in *.
  pose proof (cgrow_pop_locals enc false true true c O) as G1. fold c1 in G1. pose proof (cgrow_open _ _ G1) as O1.
  rewrite bf_eq in *. cbv iota zeta beta in *. cbn [cg brk] in *.
  assert (F1 : fits (cg c1) G) by (eapply f_bf; [exact O1|exact Ft]).
  destruct (pop_sim enc (x_nb X) false c K s h [] fs Sp (hyps_len _ _ _ _ _ _ _ _ _ _ _ _ Hy) O (y_inv _ _ _ _ _ _ _ _ _ Hy)) as (h' & zs & Lz & R & I' & Cp); auto.
  { intros j Hj Q. destruct (sp_cap _ _ _ _ _ _ _ _ _ (y_pre _ _ _ _ _ _ _ _ _ _ _ _ Hy) j Q) as [Q1|Q1]; auto. apply Mb in Q1. lia. }
  destruct zs; [|discriminate]. cbn [map] in R. rewrite !app_nil_r in R. fold c1 in R. cbn [esim ret]. exists h'. split; [congruence|]. split; [|split; [reflexivity|]].
  - split; [exact I'|]. split; [|exists []; now rewrite app_nil_r]. intros x Q. auto.
  - exists (length (cg c1) - 1). split; [apply in_app_iff; simpl; auto|]. rewrite (tail_bf G sta (cg c1) O1 Ft). exact R.
Qed.
Lemma x_continue n : XC (S n) SContinue.
Proof.
  intros X sd fr M Fs s K h c Hy Dl c' gl Ft Ok Gk m0. rewrite exec_S. cbv zeta. unfold c' in *. clear c'. cbn [cstmt okS] in *. rewrite (dpop_false c Dl) in *.
  pose proof (y_open _ _ _ _ _ _ _ _ _ _ _ _ Hy) as O. pose proof (y_loop _ _ _ _ _ _ _ _ _ _ _ _ Hy) as Lr. unfold lrel in Lr.
  destruct (x_lp X) as [bb|] eqn:Elp; [|discriminate]. subst bb. destruct (x_lc X) as [[[start enc] inner]|] eqn:Elc; [|contradiction].
  destruct Lr as (Sp0 & _ & Mb & St & Lr). destruct (Lr eq_refl) as (Sp & _ & Le). set (c1 := pop_locals inner false true true c) in *.
  pose proof (cgrow_pop_locals inner false true true c O) as G1. fold c1 in G1. pose proof (cgrow_open _ _ G1) as O1. cbn [on_g cg brk] in *.
  assert (F1 : fits (cg c1) G) by (eapply fits_grow; [apply grow_jr; exact O1|exact Ft]).
  destruct (pop_sim inner (x_nin X) false c K s h [] fs Sp (hyps_len _ _ _ _ _ _ _ _ _ _ _ _ Hy) O (y_inv _ _ _ _ _ _ _ _ _ Hy)) as (h' & zs & Lz & R & I' & Cp); auto.
  { intros j Hj Q. destruct (sp_cap _ _ _ _ _ _ _ _ _ (y_pre _ _ _ _ _ _ _ _ _ _ _ _ Hy) j Q) as [Q1|Q1]; auto. apply Mb in Q1. lia. }
  destruct zs; [|discriminate]. cbn [map] in R. rewrite !app_nil_r in R. fold c1 in R. cbn [esim ret]. exists h'. split; [congruence|]. split; [|split; [reflexivity|]].
  - split; [exact I'|]. split; [|exists []; now rewrite app_nil_r]. intros x Q. auto.
  - rewrite Elc. eapply reaches_trans; [exact R|]. apply go_reaches. eapply (at_jr_jump P C T G sta HL (cg c1)); [exact O1|exact Ft|]. pose proof (cgrow_len _ _ G1). lia.
Qed.
(** ** Assertions *)
Lemma s_assertfailed s K i a b h : sstep OAssertFailed (mk i s ((K ++ [STmp a]) ++ [STmp b]) h) = Fail P (XAssert b a) (sworld P s).
Proof. unfold strict_step. cbn [self_store step]. rewrite pop1t_mk, pop1t_mk. reflexivity. Qed.
Lemma assert_fail n X sd fr M Fs s K h c msg ty j text gl dst brks L : P_eval n -> hyps X sd fr M Fs s K h c ->
  isopen (cg c) -> pending (cg c) j -> let c' := on_g (fun g => g_join_forward (g_push OAssertFailed g) j ty) (cmsg msg c) in
  fits (cg c') G ->
  let m0 := mk (here (cg c)) s (K ++ [STmp text]) h in
  esim fs m0 (bind P (match msg with Some e => eval P funs n fr e s | None => ret P HNil s end) (fun x s => Some (Er P _ (XAssert x text) (sworld P s))))
    (Qo X gl fr K s h L m0 dst 0 false brks).
Proof.
  intros IE Hy O Pj c' Ft m0. pose proof (cgrow_cmsg msg c O) as G1. pose proof (cgrow_open _ _ G1) as O1. cbn [on_g cg] in *.
  unfold c' in Ft. cbn [on_g cg] in Ft.
  assert (F2 : fits (g_push OAssertFailed (cg (cmsg msg c))) G).
  { eapply fits_jf; [oo| |exact Ft]. eapply pending_grow; [|apply grow_push; exact O1]. eapply pending_grow; [exact Pj|apply G1]. }
  assert (F1 : fits (cg (cmsg msg c)) G) by fit.
  pose proof (msg_sim n X sd fr M Fs s K h c msg [text] IE Hy F1) as E. cbv zeta in E. cbn [map] in E. fold m0 in E.
  eapply esim_bind; [exact E|]. intros v s1 (h1 & Hy1 & Fi & Eg & R). cbn [esim]. eapply reaches_failing; [exact R|].
  eapply (fail_push P C T G sta OAssertFailed); [exact HL|exact O1|exact F2|apply s_assertfailed].
Qed.
Lemma x_assert n e msg : P_eval n -> XC (S n) (SAssert e msg).
Proof.
  intros IE X sd fr M Fs s K h c Hy Dl c' gl Ft Ok Gk m0. rewrite exec_S. cbv zeta. unfold c' in *. clear c'. cbn [cstmt okS capsS declares leaves] in *. rewrite (dpop_false c Dl) in *.
  pose proof (y_open _ _ _ _ _ _ _ _ _ _ _ _ Hy) as O. set (c1 := cex e c) in *. assert (G1 : cgrow c c1) by now apply cgrow_cex. pose proof (cgrow_open _ _ G1) as O1.
  rewrite bf_eq in *. cbv iota zeta beta in *. set (c2 := on_g (fun _ => fst (g_branch_forward (cg c1))) c1) in *.
  assert (G2 : cgrow c1 c2) by now apply cgrow_bf. pose proof (cgrow_open _ _ G2) as O2. assert (Pj : pending (cg c2) (length (cg c1) - 1)) by now apply pending_bf.
  pose proof (cgrow_cmsg msg c2 O2) as G3. pose proof (cgrow_open _ _ G3) as O3. set (c3 := cmsg msg c2) in *.
  assert (Gr : grow (cg c2) (g_push OAssertFailed (cg c3))) by (eapply grow_trans; [apply G3|apply grow_push; exact O3]).
  cbn [on_g cg] in Ft. cbn [on_g cg brk].
  assert (F2 : fits (cg c2) G). { eapply fits_grow; [exact Gr|]. eapply fits_jf; [oo| |exact Ft]. eapply pending_grow; [exact Pj|exact Gr]. }
  assert (F1 : fits (cg c1) G) by (eapply fits_cgrow; [exact G2|exact F2]).
  pose proof (bf_branch P C T G sta HL (cg c1) (g_push OAssertFailed (cg c3)) BrAssertTest O1 Gr Ft ltac:(discriminate)) as B.
  pose proof (ex_sim n X sd fr M Fs s K h c e [] IE Hy F1) as E. cbv zeta in E. cbn [map] in E. rewrite app_nil_r in E. fold m0 in E. fold c1 in E.
  eapply esim_bind; [exact E|]. intros v s1 (h1 & Hy1 & Fi & Eg & R).
  pose proof (b_asserttest P C T _ _ _ fs li un s1 K v h1 fs B) as R2.
  destruct (p_bool P (sworld P s1) v).
  - cbn [esim ret]. eapply Qo_incl with (L := capsE e); [|intros i Hi; apply in_app_iff; auto|intros i Hi; exact Hi].
    apply (Qo_norm P C T G sta F fs li un rt X gl fr K s h (capsE e) m0 _ false _ None s1 h1); auto.
    cbn [dlv]. rewrite app_nil_r. eapply reaches_trans; [exact R|exact R2].
  - eapply (chain0 _ _ _ _ _ _ (capsE e) (capsO msg)); [eapply reaches_trans; [exact R|exact R2]|exact Fi|exact Eg| |auto|intros i Hi; exact Hi].
    assert (Hy2 : hyps X sd fr M (under (length (lv c)) (capsE e ++ Fs)) s1 K h1 c2) by (eapply hyps_grow; [exact Hy1|exact G2|reflexivity]).
    exact (assert_fail n X sd fr M _ s1 K h1 c2 msg BrAssertTest (length (cg c1) - 1) HNil gl _ _ _ IE Hy2 O2 Pj Ft).
Qed.
Lemma fin_world L K s h s1 K' h1 w : fin L K s h s1 K' h1 -> fin L K s h (with_world P w s1) K' h1.
Proof. intros [A [B D]]. split; [now apply inv_with_world|]. split; auto. Qed.
Lemma pair_sim n X sd fr M Fs s K h c (swap : bool) a b : P_eval n -> hyps X sd fr M Fs s K h c ->
  let c1 := if swap then cpush OSwap (cex a (cex b c)) else cex b (cex a c) in fits (cg c1) G ->
  let m0 := mk (here (cg c)) s K h in
  esim fs m0 (if swap then bind P (eval P funs n fr b s) (fun y s => bind P (eval P funs n fr a s) (fun x s => ret P (x, y) s))
              else bind P (eval P funs n fr a s) (fun x s => bind P (eval P funs n fr b s) (fun y s => ret P (x, y) s)))
   (fun p s1 => exists h1 Fs1, hyps X sd fr M Fs1 s1 K h1 c1 /\ fin (capsE a ++ capsE b) K s h s1 K h1 /\ globals s1 = globals s /\
      reaches fs m0 (mk (here (cg c1)) s1 ((K ++ [STmp (fst p)]) ++ [STmp (snd p)]) h1)).
Proof.
  intros IE Hy c1 Ft m0. pose proof (y_open _ _ _ _ _ _ _ _ _ _ _ _ Hy) as O.
  assert (Z : forall a b, fits (cg (cex b (cex a c))) G -> esim fs m0 (bind P (eval P funs n fr a s) (fun x s => bind P (eval P funs n fr b s) (fun y s => ret P (x, y) s)))
   (fun p s1 => exists h1 Fs1, hyps X sd fr M Fs1 s1 K h1 (cex b (cex a c)) /\ fin (capsE a ++ capsE b) K s h s1 K h1 /\ globals s1 = globals s /\
      reaches fs m0 (mk (here (cg (cex b (cex a c)))) s1 ((K ++ [STmp (fst p)]) ++ [STmp (snd p)]) h1))).
  { intros a0 b0 F2. assert (F1 : fits (cg (cex a0 c)) G) by (cbn [cex mark with_lv on_g cg] in *; fit).
    pose proof (ex_sim n X sd fr M Fs s K h c a0 [] IE Hy F1) as E. cbv zeta in E. cbn [map] in E. rewrite app_nil_r in E. fold m0 in E.
    eapply esim_bind; [exact E|]. intros x s1 (h1 & Hy1 & Fi & Eg & R).
    pose proof (ex_sim n X sd fr M _ s1 K h1 (cex a0 c) b0 [x] IE Hy1 F2) as E2. cbv zeta in E2. cbn [map] in E2.
    eapply esim_bind; [eapply esim_step; [exact R|exact E2|intros y s2 Q; exact Q]|]. intros y s2 (h2 & Hy2 & Fi2 & Eg2 & R2). cbn [esim ret fst snd].
    exists h2. eexists. split; [exact Hy2|]. split; [eapply fin_trans; eauto|]. split; [congruence|]. eapply reaches_trans; eauto. }
  destruct swap; [|apply Z; exact Ft]. unfold c1 in *. clear c1. assert (O1 : isopen (cg (cex a (cex b c)))) by (cbn [cex mark with_lv on_g cg]; oo).
  assert (F1 : fits (cg (cex a (cex b c))) G) by (eapply fits_cgrow; [apply (cgrow_push OSwap); exact O1|exact Ft]).
  specialize (Z b a F1).
  destruct (eval P funs n fr b s) as [[y s1|e w]|]; cbn [bind] in *; [|exact Z|exact Z]. destruct (eval P funs n fr a s1) as [[x s2|e w]|]; cbn [bind ret esim] in *; [|exact Z|exact Z].
  destruct Z as (h1 & Fs1 & Hy1 & Fi & Eg & R). cbn [fst snd] in *. exists h1, Fs1. split; [|split; [|split; [exact Eg|]]].
  - eapply hyps_grow; [exact Hy1|apply cgrow_push; exact O1|reflexivity].
  - eapply fin_incl; [exact Fi|]. intros i. rewrite !in_app_iff. tauto.
  - eapply reaches_trans; [exact R|]. eapply (go_push P C T G sta OSwap); [exact HL|exact O1|exact Ft|apply s_swap].
Qed.
Lemma x_assertcmp n o swap a b msg : P_eval n -> XC (S n) (SAssertCmp o swap a b msg).
Proof.
  intros IE X sd fr M Fs s K h c Hy Dl c' gl Ft Ok Gk m0. rewrite exec_S. cbv zeta. unfold c' in *. clear c'. cbn [cstmt okS capsS declares leaves] in *. rewrite (dpop_false c Dl) in *.
  pose proof (y_open _ _ _ _ _ _ _ _ _ _ _ _ Hy) as O. set (c1 := if swap then cpush OSwap (cex a (cex b c)) else cex b (cex a c)) in *.
  assert (G1 : cgrow c c1).
  { assert (A : forall a b, cgrow c (cex b (cex a c))) by (intros; eapply cgrow_trans; [apply cgrow_cex; exact O|apply cgrow_cex; eapply cgrow_open, cgrow_cex, O]).
    unfold c1. destruct swap; [|apply A]. eapply cgrow_trans; [apply A|apply cgrow_push; eapply cgrow_open, A]. }
  pose proof (cgrow_open _ _ G1) as O1.
  rewrite bf_eq in *. cbv iota zeta beta in *. set (c2 := on_g (fun _ => fst (g_branch_forward (cg c1))) c1) in *.
  assert (G2 : cgrow c1 c2) by now apply cgrow_bf. pose proof (cgrow_open _ _ G2) as O2. assert (Pj : pending (cg c2) (length (cg c1) - 1)) by now apply pending_bf.
  pose proof (cgrow_cmsg msg c2 O2) as G3. pose proof (cgrow_open _ _ G3) as O3. set (c3 := cmsg msg c2) in *.
  assert (Gr : grow (cg c2) (g_push OAssertFailed (cg c3))) by (eapply grow_trans; [apply G3|apply grow_push; exact O3]).
  cbn [on_g cg] in Ft. cbn [on_g cg brk].
  assert (F2 : fits (cg c2) G). { eapply fits_grow; [exact Gr|]. eapply fits_jf; [oo| |exact Ft]. eapply pending_grow; [exact Pj|exact Gr]. }
  assert (F1 : fits (cg c1) G) by (eapply fits_cgrow; [exact G2|exact F2]).
  pose proof (bf_branch P C T G sta HL (cg c1) (g_push OAssertFailed (cg c3)) (BrAssertCompare o) O1 Gr Ft ltac:(discriminate)) as B.
  pose proof (pair_sim n X sd fr M Fs s K h c swap a b IE Hy F1) as E. cbv zeta in E. fold m0 in E. fold c1 in E.
  eapply esim_bind; [exact E|]. intros p s1 (h1 & Fs1 & Hy1 & Fi & Eg & R).
  pose proof (b_assertcompare P C T o _ _ _ fs li un s1 K (fst p) (snd p) h1 fs B) as R2.
  destruct (p_compare P (sworld P s1) o (fst p) (snd p)).
  - cbn [esim ret]. eapply Qo_incl with (L := capsE a ++ capsE b); [|intros i Hi; rewrite !in_app_iff in *; tauto|intros i Hi; exact Hi].
    apply (Qo_norm P C T G sta F fs li un rt X gl fr K s h (capsE a ++ capsE b) m0 _ false _ None s1 h1); auto.
    cbn [dlv]. rewrite app_nil_r. eapply reaches_trans; [exact R|exact R2].
  - destruct (p_compare_msg P (sworld P s1) o (fst p) (snd p)) as [w text].
    eapply (chain0 _ _ _ _ _ _ (capsE a ++ capsE b) (capsO msg)); [eapply reaches_trans; [exact R|exact R2]|apply fin_world; exact Fi|exact Eg| |intros i; rewrite !in_app_iff; tauto|intros i Hi; exact Hi].
    assert (Hy2 : hyps X sd fr M Fs1 (with_world P w s1) K h1 c2) by (apply hyps_world; eapply hyps_grow; [exact Hy1|exact G2|reflexivity]).
    exact (assert_fail n X sd fr M Fs1 (with_world P w s1) K h1 c2 msg (BrAssertCompare o) (length (cg c1) - 1) text gl _ _ _ IE Hy2 O2 Pj Ft).
Qed.

(** ** If, elif, else *)
Definition else_entry (el : else_) (g : graph) : nat := match el with ElNone => length g | _ => S (length g) end.
(** the state after the branch to the else part has been joined *)
Definition else_start (j : nat) (c : cs) : cs := on_g (fun _ => g_join_forward (fst (g_branch_forward (cg c))) j BrFalsePop) c.
Lemma else_start_open j c : isopen (cg c) -> pending (cg c) j -> isopen (cg (else_start j c)) /\ pending (fst (g_branch_forward (cg c))) j /\ pending (cg (else_start j c)) (length (cg c) - 1).
Proof.
  intros O Pj. assert (P1 : pending (fst (g_branch_forward (cg c))) j) by (eapply pending_grow; [exact Pj|now apply grow_bf]).
  split; [apply jf_isopen; [oo|exact P1]|]. split; [exact P1|]. apply pending_jf; [now apply pending_bf|]. destruct Pj. lia.
Qed.
Lemma else_block top' sd lc j b c : celse top' sd lc j (ElBlock b) c = on_g (fun g => g_join_forward g (length (cg c) - 1) BrJump) (dpop (in_block sd (cstmts top' (S sd) lc b) (else_start j c))).
Proof. reflexivity. Qed.
Lemma else_if top' sd lc j e b el c : celse top' sd lc j (ElIf e b el) c = on_g (fun g => g_join_forward g (length (cg c) - 1) BrJump) (cstmt top' sd lc (SIf e b el) (else_start j c)).
Proof. reflexivity. Qed.
(** both kinds of else part: [body] compiles it *)
Lemma else_flow_body j c c2 : isopen (cg c) -> pending (cg c) j -> cgrow (else_start j c) c2 -> fits (g_join_forward (cg c2) (length (cg c) - 1) BrJump) G ->
  fits (cg c) G /\ branches BrFalsePop (tail j) (nth (S (length (cg c))) sta 0) (nth (S j) sta 0) /\
  goes (here (cg c)) (here (g_join_forward (cg c2) (length (cg c) - 1) BrJump)) /\
  fits (cg c2) G /\ goes (here (cg c2)) (here (g_join_forward (cg c2) (length (cg c) - 1) BrJump)).
Proof.
  intros O Pj Gr Ft. destruct (else_start_open j c O Pj) as (O1 & P1 & P2).
  assert (P3 : pending (cg c2) (length (cg c) - 1)) by (eapply pending_grow; [exact P2|apply Gr]).
  pose proof (cgrow_open _ _ Gr) as O2. assert (F2 : fits (cg c2) G) by (eapply fits_jf; eauto).
  assert (F1 : fits (cg (else_start j c)) G) by (eapply fits_cgrow; eauto). cbn [else_start on_g cg] in F1.
  assert (Fb : fits (fst (g_branch_forward (cg c))) G) by (eapply fits_jf; [| |exact F1]; [oo|exact P1]).
  split; [fit|]. split; [|split; [|split; [exact F2|]]].
  - assert (Ob : isopen (fst (g_branch_forward (cg c)))) by oo. pose proof (from_jf P C T G sta HL _ _ BrFalsePop Ob P1 F1 ltac:(discriminate)) as B. rewrite (here_jf T), bf_len in B. exact B.
  - rewrite <- (tail_bf G sta (cg c) O Fb). eapply from_jf_jump; eauto.
  - eapply at_jf; eauto.
Qed.
Lemma else_flow el : forall sd lc j c, isopen (cg c) -> pending (cg c) j -> fits (cg (celse top sd lc j el c)) G ->
  fits (cg c) G /\ branches BrFalsePop (tail j) (nth (else_entry el (cg c)) sta 0) (nth (S j) sta 0) /\
  goes (here (cg c)) (here (cg (celse top sd lc j el c))) /\ (forall i, In i (brk c) -> In i (brk (celse top sd lc j el c))).
Proof.
  intros sd lc j c O Pj Ft. destruct (else_start_open j c O Pj) as (O1 & P1 & P2). destruct el as [|b|e b el].
  - cbn [celse on_g cg else_entry brk] in *. split; [eapply fits_jf; eauto|]. split; [|split; [eapply at_jf; eauto|auto]].
    pose proof (from_jf P C T G sta HL _ _ BrFalsePop O Pj Ft ltac:(discriminate)) as B. rewrite (here_jf T) in B. exact B.
  - rewrite else_block in *. pose proof (g_block b sd lc _ O1) as Gr. set (c2 := dpop _) in *. cbn [on_g cg brk] in *.
    destruct (else_flow_body j c c2 O Pj Gr Ft) as (A1 & A2 & A3 & _). split; [auto|]. split; [auto|]. split; [auto|]. intros i Hi. eapply cgrow_brk; [exact Gr|exact Hi].
  - rewrite else_if in *. pose proof (g_stmt (SIf e b el) sd lc _ O1) as Gr. set (c2 := cstmt _ _ _ _ _) in *. cbn [on_g cg brk] in *.
    destruct (else_flow_body j c c2 O Pj Gr Ft) as (A1 & A2 & A3 & _). split; [auto|]. split; [auto|]. split; [auto|]. intros i Hi. eapply cgrow_brk; [exact Gr|exact Hi].
Qed.
Definition P_else (n : nat) : Prop := forall X sd fr M Fs s K h c j el, hyps X (S sd) fr M Fs s K h c -> depths sd (lv c) -> delay c = false -> pending (cg c) j ->
  let c' := celse top sd (x_lc X) j el c in
  fits (cg c') G -> okEl (length (lv c)) Fs M (x_lp X) rt el = true ->
  let m0 := mk (nth (else_entry el (cg c)) sta 0) s K h in
  esim fs m0 (exec_else P funs n fr el s) (Qo X false fr K s h (capsEl el) m0 (here (cg c')) 0 false (brk c')).
Lemma hyps_mark X sd fr M Fs s K h c c' L : hyps X sd fr M Fs s K h c -> cgrow c c' -> lv c' = mark_from 0 L (lv c) -> hyps X sd fr M (under (length (lv c)) (L ++ Fs)) s K h c'.
Proof.
  intros Hy Gr E. eapply hyps_next0; [exact Hy| |reflexivity|exact Gr|exact E]. eapply fin_incl; [apply fin_refl; eapply y_inv; exact Hy|]. intros i [].
Qed.
Lemma esim_dst X gl fr K s h L m0 r dst dst' nd dl brks : goes dst dst' -> esim fs m0 r (Qo X gl fr K s h L m0 dst nd dl brks) -> esim fs m0 r (Qo X gl fr K s h L m0 dst' nd dl brks).
Proof. intros Go E. eapply esim_step; [apply reaches_refl|exact E|]. intros o s' Q. eapply Qo_dst; eauto. Qed.
Lemma esim_sub X gl fr K s h L L' m0 r dst nd dl brks brks' : esim fs m0 r (Qo X gl fr K s h L m0 dst nd dl brks) ->
  (forall i, In i L -> In i L') -> (forall i, In i brks -> In i brks') -> esim fs m0 r (Qo X gl fr K s h L' m0 dst nd dl brks').
Proof. intros E A B. eapply esim_step; [apply reaches_refl|exact E|]. intros o s' Q. eapply Qo_incl; eauto. Qed.
Lemma lv_blk b sd lc c : depths sd (lv c) -> lv (dpop (in_block sd (cstmts top (S sd) lc b) c)) = mark_from 0 (capsB b) (lv c).
Proof. intro D. apply (lv_block sd _ (capsB b) (decls b)); auto. intros c0 D0. apply lv_all. exact D0. Qed.
Lemma if_core n : P_eval n -> P_block n -> P_else n -> forall X sd fr M Fs s K h c e b el, hyps X (S sd) fr M Fs s K h c -> depths sd (lv c) -> delay c = false ->
  let c' := cstmt top sd (x_lc X) (SIf e b el) c in
  fits (cg c') G -> let N := length (lv c) in
  okB N (under N (capsE e ++ Fs)) M (x_lp X) rt false b && okEl N (under N (capsE e ++ capsB b ++ Fs)) M (x_lp X) rt el = true ->
  let m0 := mk (here (cg c)) s K h in
  esim fs m0 (bind P (eval P funs n fr e s) (fun v s => if p_bool P (sworld P s) v then exec_block P funs n fr b s else exec_else P funs n fr el s))
    (Qo X false fr K s h (capsE e ++ capsB b ++ capsEl el) m0 (here (cg c')) 0 false (brk c')).
Proof.
  intros IE IB IL X sd fr M Fs s K h c e b el Hy Dp Dl c' Ft N Ok m0. apply andb_true_iff in Ok. destruct Ok as [Ok1 Ok2].
  pose proof (y_open _ _ _ _ _ _ _ _ _ _ _ _ Hy) as O. unfold c' in *. clear c'. cbn [cstmt] in *. rewrite (dpop_false c Dl) in *.
  set (c1 := cex e c) in *. assert (G1 : cgrow c c1) by now apply cgrow_cex. pose proof (cgrow_open _ _ G1) as O1.
  rewrite bf_eq in *. cbv iota zeta beta in *. set (c2 := on_g (fun _ => fst (g_branch_forward (cg c1))) c1) in *.
  assert (G2 : cgrow c1 c2) by now apply cgrow_bf. pose proof (cgrow_open _ _ G2) as O2. assert (Pj : pending (cg c2) (length (cg c1) - 1)) by now apply pending_bf.
  pose proof (g_block b sd (x_lc X) c2 O2) as G3. set (c3 := dpop (in_block sd (cstmts top (S sd) (x_lc X) b) c2)) in *. pose proof (cgrow_open _ _ G3) as O3.
  assert (Pj3 : pending (cg c3) (length (cg c1) - 1)) by (eapply pending_grow; [exact Pj|apply G3]).
  destruct (else_flow el sd (x_lc X) _ c3 O3 Pj3 Ft) as (F3 & B & Go & Bk).
  assert (F2 : fits (cg c2) G) by (eapply fits_cgrow; eauto). assert (F1 : fits (cg c1) G) by (eapply fits_cgrow; eauto).
  rewrite (tail_bf G sta (cg c1) O1 F2) in B. replace (S (length (cg c1) - 1)) with (length (cg c1)) in B by (pose proof (open_pos _ O1); lia).
  rewrite <- (here_bf sta (cg c1) O1) in B.
  pose proof (ex_sim n X (S sd) fr M Fs s K h c e [] IE Hy F1) as E. cbv zeta in E. cbn [map] in E. rewrite app_nil_r in E. fold m0 in E. fold c1 in E.
  assert (L1 : lv c1 = mark_from 0 (capsE e) (lv c)) by reflexivity. assert (N1 : length (lv c1) = N) by (rewrite L1; apply mark_len).
  assert (D1 : depths sd (lv c1)) by (rewrite L1; now apply depths_mark).
  eapply esim_bind; [exact E|]. intros v s1 (h1 & Hy1 & Fi & Eg & R). fold N in Hy1.
  pose proof (b_falsepop P C T _ _ _ fs li un s1 K v h1 fs B) as R2.
  assert (Hy2 : hyps X (S sd) fr M (under N (capsE e ++ Fs)) s1 K h1 c2) by (eapply hyps_grow; [exact Hy1|exact G2|reflexivity]).
  destruct (p_bool P (sworld P s1) v).
  - eapply (chain0 _ _ _ _ _ _ (capsE e) (capsB b)); [eapply reaches_trans; [exact R|exact R2]|exact Fi|exact Eg| |intros i; rewrite !in_app_iff; tauto|exact Bk].
    eapply esim_dst; [exact Go|]. eapply (IB X sd fr M _ s1 K h1 c2 b Hy2); auto. change (length (lv c2)) with (length (lv c1)). now rewrite N1.
  - eapply (chain0 _ _ _ _ _ _ (capsE e) (capsEl el)); [eapply reaches_trans; [exact R|exact R2]|exact Fi|exact Eg| |intros i; rewrite !in_app_iff; tauto|intros i Hi; exact Hi].
    assert (L3 : lv c3 = mark_from 0 (capsB b) (lv c2)) by (now apply lv_blk).
    assert (Hy3 : hyps X (S sd) fr M (under N (capsE e ++ capsB b ++ Fs)) s1 K h1 c3).
    { eapply hyps_F; [eapply hyps_mark; [exact Hy2|exact G3|exact L3]|]. intros i Hi. change (length (lv c2)) with (length (lv c1)). rewrite N1.
      apply filter_In in Hi. destruct Hi as [Hi Hn]. apply filter_In. split; auto. rewrite !in_app_iff in *. destruct Hi as [Hi|[Hi|Hi]]; auto; right; apply filter_In; split; auto; rewrite in_app_iff; auto. }
    apply (IL X sd fr M _ s1 K h1 c3 _ el Hy3); auto.
    + rewrite L3. now apply depths_mark.
    + apply delay_dpop.
    + rewrite L3, mark_len. change (length (lv c2)) with (length (lv c1)). now rewrite N1.
Qed.
Lemma Qo_gl X gl fr K s h L m0 dst dl brks o s' : Qo X false fr K s h L m0 dst 0 dl brks o s' -> Qo X gl fr K s h L m0 dst 0 dl brks o s'.
Proof.
  intros [h' H]. exists h'. destruct o as [ls v| | |v]; auto. destruct H as (new & A & B & D & E & H & Q). destruct new; [|discriminate]. exists [].
  split; [auto|]. split; [auto|]. split; [auto|]. split; [auto|]. split; [|auto]. rewrite H. now destruct gl.
Qed.
Lemma x_if n e b el : P_eval n -> P_block n -> P_else n -> XC (S n) (SIf e b el).
Proof.
  intros IE IB IL X sd fr M Fs s K h c Hy Dl c' gl Ft Ok Gk m0. rewrite exec_S. cbv zeta. cbn [okS capsS declares leaves] in *.
  pose proof (if_core n IE IB IL X sd fr M Fs s K h c e b el (hyps_up _ _ _ _ _ _ _ _ _ Hy) (y_dep _ _ _ _ _ _ _ _ _ _ _ _ Hy) Dl Ft Ok) as E. cbv zeta in E. fold m0 in E. fold c' in E.
  eapply esim_step; [apply reaches_refl|exact E|]. intros o s' Q. now apply Qo_gl.
Qed.
Lemma step_else n : P_eval n -> P_block n -> P_else n -> P_else (S n).
Proof.
  intros IE IB IL X sd fr M Fs s K h c j el Hy Dp Dl Pj c' Ft Ok m0. pose proof (y_open _ _ _ _ _ _ _ _ _ _ _ _ Hy) as O. rewrite exec_else_S.
  destruct (else_start_open j c O Pj) as (O1 & P1 & P2).
  assert (Hy1 : hyps X (S sd) fr M Fs s K h (else_start j c)).
  { eapply hyps_weak; [exact Hy|reflexivity|exact O1|]. unfold else_start. cbn [on_g cg]. rewrite jf_len, bf_len. lia. }
  assert (E1 : here (cg (else_start j c)) = nth (S (length (cg c))) sta 0). { unfold else_start. cbn [on_g cg]. rewrite (here_jf T), bf_len. reflexivity. }
  destruct el as [|b|e b el].
  - cbn [esim ret]. apply (Qo_norm P C T G sta F fs li un rt X false fr K s h [] m0 _ false _ None s h); auto.
    + apply fin_refl. eapply y_inv; exact Hy.
    + cbn [dlv]. rewrite app_nil_r. unfold m0, c'. cbn [celse on_g cg else_entry]. rewrite (here_jf T). apply reaches_refl.
  - unfold c' in *. clear c'. unfold m0. cbn [else_entry okEl capsEl] in *. rewrite else_block in *. pose proof (g_block b sd (x_lc X) _ O1) as Gr. set (c2 := dpop _) in *. cbn [on_g cg brk] in *.
    destruct (else_flow_body j c c2 O Pj Gr Ft) as (A1 & A2 & A3 & A4 & A5). rewrite <- E1. eapply esim_dst; [exact A5|]. eapply (IB X sd fr M Fs s K h (else_start j c)); eauto.
  - unfold c' in *. clear c'. unfold m0. cbn [else_entry okEl capsEl] in *. rewrite else_if in *. pose proof (g_stmt (SIf e b el) sd (x_lc X) _ O1) as Gr. set (c2 := cstmt _ _ _ _ _) in *. cbn [on_g cg brk] in *.
    destruct (else_flow_body j c c2 O Pj Gr Ft) as (A1 & A2 & A3 & A4 & A5). rewrite <- E1. eapply esim_dst; [exact A5|].
    eapply (if_core n IE IB IL X sd fr M Fs s K h (else_start j c)); eauto.
Qed.

(** ** Loops *)
Definition lstart (c : cs) : cs := CS (fst (g_branch_reverse (cg c))) (delay c) (lv c) [].
Definition lx (sd : nat) (c : cs) : loopx := LX (Some (length (cg c), S sd, S sd)) (Some true) (length (lv c)) (length (lv c)).
Lemma lstart_open c : isopen (cg c) -> isopen (cg (lstart c)). Proof. intro O. unfold lstart. cbn [cg]. oo. Qed.
Lemma hyps_loop X sd fr M Fs s K h c L : hyps X sd fr M Fs s K h c -> hyps (lx sd c) (S sd) fr (under (length (lv c)) L ++ M) Fs s K h (lstart c).
Proof.
  intros [A [Pr Le Lo Cp Mb] D E H]. assert (Mb' : forall j, In j (under (length (lv c)) L ++ M) -> j < length (lv c)).
  { intros j Hj. apply in_app_iff in Hj. destruct Hj as [Hj|Hj]; auto. apply filter_In in Hj. now apply Nat.ltb_lt. }
  split; cbn [lstart lv]; auto.
  - now apply lstart_open.
  - split; auto. intros j Q. destruct (Cp j Q); auto. right. apply in_app_iff. auto.
  - apply (depths_le sd); auto.
  - unfold lrel, lx. cbn [x_lc x_lp x_nb x_nin lstart lv cg]. rewrite br_len. split; [now apply split_top|]. split; [lia|]. split; [auto|]. split; [lia|]. intros _. split; [now apply split_top|]. split; lia.
Qed.
Lemma hyps_again X sd fr M Fs s K h c L s1 h1 : hyps X sd fr M Fs s K h c -> fin L K s h s1 K h1 -> globals s1 = globals s -> (forall j, In j L -> j < length (lv c) -> In j M) ->
  hyps X sd fr M Fs s1 K h1 c.
Proof.
  intros [A [[I Gb FR E0] Le Lo Cp Mb] D E H] [I1 [Cg Se]] Eg Sub. split; auto. split; auto.
  - split; auto; [|eapply frel_senvs; eauto]. intros i l Hi. rewrite Eg in Hi. now apply Gb.
  - intros j Q. destruct (Cg _ Q) as [Q1|[i [Q1 Q2]]]; [now apply Cp|]. right. replace i with j in Q1 by lia. apply Sub; auto. apply capd_lt in Q. lia.
Qed.
Lemma loop_end c1 c6 outer : cgrow c1 c6 -> brk c1 = [] -> fits (cg (end_loop outer c6)) G ->
  fits (cg c6) G /\ goes (here (cg c6)) (here (cg (end_loop outer c6))) /\ forall j, In j (brk c6) -> goes (tail j) (here (cg (end_loop outer c6))).
Proof.
  intros Gr E Ft. pose proof (cgrow_open _ _ Gr) as O6. destruct Gr as [_ [new [Eb [Nd Fa]]]]. rewrite E in Eb. cbn [app] in Eb. subst new. cbn [end_loop cg] in *.
  assert (J : joinable (cg c6) (map (fun b => (b, BrJump)) (brk c6))).
  { split.
    - rewrite map_map. cbn [fst]. now rewrite map_id.
    - rewrite Forall_forall in *. intros x Hx. apply in_map_iff in Hx. destruct Hx as [b [<- Hb]]. cbn [fst]. apply (Fa _ Hb). }
  destruct (join_all_spec P C T G sta HL _ (cg c6) O6 J Ft) as (_ & A & B & D). split; [exact A|]. split; [exact B|]. intros j Hj.
  specialize (D j BrJump (in_map (fun b => (b, BrJump)) _ _ Hj)). exact D.
Qed.
Lemma loop_out X N start enc inn fr K s h L m0 dst brks o s' : Qo X false fr K s h L m0 dst 0 false brks o s' ->
  x_nb X = N -> (x_lp X = Some true -> x_nin X = N) -> x_lc X = Some (start, enc, inn) -> length K = F + N ->
  match o with
  | ONorm _ _ => exists h', fin L K s h s' K h' /\ globals s' = globals s /\ reaches fs m0 (mk dst s' K h')
  | OBreak => exists h' j, fin L K s h s' K h' /\ globals s' = globals s /\ In j brks /\ reaches fs m0 (mk (tail j) s' K h')
  | OContinue => x_lp X = Some true /\ exists h', fin L K s h s' K h' /\ globals s' = globals s /\ reaches fs m0 (mk (nth start sta 0) s' K h')
  | OReturned v => forall X' gl dst' brks', Qo X' gl fr K s h L m0 dst' 0 false brks' (OReturned v) s'
  end.
Proof.
  intros [h' Q] Nb Ni Lc LK. destruct o as [ls v| | |v].
  - destruct Q as (new & A & B & D & E & H & R). destruct new; [|discriminate]. destruct v; [discriminate|]. cbn [map dlv] in *. rewrite !app_nil_r in *. exists h'. auto.
  - destruct Q as (_ & A & B & j & D & R). rewrite Nb in *. rewrite <- LK, firstn_all in *. exists h', j. auto.
  - destruct Q as (E & A & B & R). rewrite Ni in * by exact E. rewrite Lc in R. rewrite <- LK, firstn_all in *. split; auto. exists h'. auto.
  - intros X' gl dst' brks'. exists h'. exact Q.
Qed.
(** falling out of a loop *)
Lemma loop_skip X gl fr K s h L m0 dst brks s' h' : fin L K s h s' K h' -> globals s' = globals s -> reaches fs m0 (mk dst s' K h') ->
  esim fs m0 (ret P (ONorm (locals fr) None) s') (Qo X gl fr K s h L m0 dst 0 false brks).
Proof.
  intros A B R. cbn [esim ret]. apply (Qo_norm P C T G sta F fs li un rt X gl fr K s h L m0 _ false _ None s' h'); auto. cbn [dlv]. now rewrite app_nil_r.
Qed.
Lemma chain_again X gl fr K s h L1 L s1 h1 m0 i r dst brks : reaches fs m0 (mk i s1 K h1) -> fin L1 K s h s1 K h1 -> globals s1 = globals s ->
  (forall j, In j L1 -> In j L) -> esim fs (mk i s1 K h1) r (Qo X gl fr K s1 h1 L (mk i s1 K h1) dst 0 false brks) -> esim fs m0 r (Qo X gl fr K s h L m0 dst 0 false brks).
Proof. intros R Fi Eg I E. eapply chain0; [exact R|exact Fi|exact Eg|exact E|intros j Hj; apply in_app_iff in Hj; destruct Hj; auto|auto]. Qed.
Definition P_loops (n : nat) (x : stmt) : Prop := forall X sd fr M Fs s K h c gl, isopen (cg c) -> depths sd (lv c) -> delay c = false ->
  hyps (lx sd c) (S sd) fr (under (length (lv c)) (capsS x) ++ M) Fs s K h (lstart c) ->
  let c' := cstmt top sd (x_lc X) x c in
  fits (cg c') G -> okS (length (lv c)) Fs M (x_lp X) rt false x = true ->
  let m0 := mk (nth (length (cg c)) sta 0) s K h in
  esim fs m0 (exec P funs n gl fr x s) (Qo X gl fr K s h (capsS x) m0 (here (cg c')) 0 false (brk c')).
Definition is_loop (x : stmt) : Prop := match x with SWhile _ _ _ | SDo _ _ _ | SLoop _ => True | _ => False end.
Lemma loop_begin x sd lc c : is_loop x -> delay c = false -> isopen (cg c) -> fits (cg (cstmt top sd lc x c)) G -> fits (cg (lstart c)) G.
Proof.
  intros Hx Dl O Ft. pose proof (lstart_open c O) as O1. destruct x; try contradiction; cbn [cstmt] in Ft; rewrite ?(dpop_false c Dl) in Ft; unfold begin_loop in Ft; rewrite br_eq in Ft; cbv iota zeta beta in Ft;
    fold (lstart c) in Ft.
  - rewrite bf_eq in Ft. cbv iota zeta beta in Ft.
    set (c2 := cex c0 (lstart c)) in *. assert (A2 : cgrow (lstart c) c2) by (now apply cgrow_cex). pose proof (cgrow_open _ _ A2) as O2.
    set (c3 := on_g (fun _ => fst (g_branch_forward (cg c2))) c2) in *. assert (A3 : cgrow c2 c3) by (now apply cgrow_bf). pose proof (cgrow_open _ _ A3) as O3.
    pose proof (g_block b sd (Some (length (cg c), S sd, S sd)) c3 O3) as A4. set (c4 := dpop _) in *. pose proof (cgrow_open _ _ A4) as O4.
    assert (A5 : cgrow (lstart c) (on_g (fun g => g_join_forward g (length (cg c2) - 1) BrFalsePop) (on_g (fun g => g_join_reverse g (length (cg c)) BrJump) c4))).
    { apply cgrow_bf_jf; auto. fold c3. eapply cgrow_trans; [exact A4|]. apply cgrow_on, grow_jr; exact O4. }
    set (c5 := on_g _ (on_g _ c4)) in A5.
    eapply fits_cgrow; [exact A5|]. eapply fits_cgrow; [apply (g_opt els sd (Some (length (cg c), S sd, S sd)) c5); eapply cgrow_open; exact A5|].
    eapply (loop_end (lstart c)); [|reflexivity|exact Ft]. eapply cgrow_trans; [exact A5|]. apply g_opt. eapply cgrow_open; exact A5.
  - pose proof (g_block b sd (Some (length (cg c), S sd, S sd)) (lstart c) O1) as A2. set (c2 := dpop _) in *. pose proof (cgrow_open _ _ A2) as O2.
    set (c3 := match c0 with Some e => _ | None => _ end) in *.
    assert (A3 : cgrow c2 c3). { unfold c3. destruct c0 as [e|]; [|now apply cgrow_refl]. pose proof (cgrow_cex e c2 O2) as A. eapply cgrow_trans; [exact A|]. apply cgrow_on, grow_jr. eapply cgrow_open; exact A. }
    assert (A4 : cgrow (lstart c) (copt top sd (Some (length (cg c), S sd, S sd)) els c3)).
    { eapply cgrow_trans; [exact A2|]. eapply cgrow_trans; [exact A3|]. apply g_opt. eapply cgrow_open; exact A3. }
    eapply fits_cgrow; [exact A4|]. eapply (loop_end (lstart c)); [exact A4|reflexivity|exact Ft].
  - pose proof (g_block b sd (Some (length (cg c), S sd, S sd)) (lstart c) O1) as A2. set (c2 := dpop _) in *. pose proof (cgrow_open _ _ A2) as O2.
    assert (A4 : cgrow (lstart c) (on_g (fun g => g_join_reverse g (length (cg c)) BrJump) c2)).
    { eapply cgrow_trans; [exact A2|]. apply cgrow_on, grow_jr. exact O2. }
    eapply fits_cgrow; [exact A4|]. eapply (loop_end (lstart c)); [exact A4|reflexivity|exact Ft].
Qed.
Lemma x_loops n x : is_loop x -> P_loops n x -> XC n x.
Proof.
  intros Hx H X sd fr M Fs s K h c Hy Dl c' gl Ft Ok Gk m0. pose proof (y_open _ _ _ _ _ _ _ _ _ _ _ _ Hy) as O. unfold c' in *. clear c'.
  pose proof (loop_begin x sd (x_lc X) c Hx Dl O Ft) as F1. destruct (at_br P C T G sta HL (cg c) O F1) as [Go _].
  replace (declares x) with 0 by (destruct x; try contradiction; reflexivity). replace (leaves x) with false by (destruct x; try contradiction; reflexivity).
  assert (R : reaches fs m0 (mk (nth (length (cg c)) sta 0) s K h)). { unfold m0. apply go_reaches. destruct (at_br P C T G sta HL (cg c) O F1) as [A <-]. exact A. }
  eapply (chain0 _ _ _ _ _ _ [] (capsS x)); [exact R|apply fin_refl; eapply y_inv; exact Hy|reflexivity| |auto|intros i Hi; exact Hi].
  apply (H X sd fr M Fs s K h c gl O (y_dep _ _ _ _ _ _ _ _ _ _ _ _ Hy) Dl (hyps_loop _ _ _ _ _ _ _ _ _ _ Hy) Ft Ok).
Qed.
Lemma step_while n e b el : P_eval n -> P_block n -> P_opt n -> P_loops n (SWhile e b el) -> P_loops (S n) (SWhile e b el).
Proof.
  intros IE IB IO IW X sd fr M Fs s K h c gl O Dp Dl Hy c' Ft Ok m0. rewrite exec_S. cbv zeta.
  pose proof (IW X sd fr M Fs) as IW'. pose proof Ft as Ft0. pose proof Ok as Ok0. unfold c' in *. clear c'.
  set (x := SWhile e b el) in *. set (N := length (lv c)) in *. set (M' := under N (capsS x) ++ M) in *. unfold x in Ft, Ok. cbn [cstmt okS] in Ft, Ok.
  fold x in Ok. fold M' in Ok. apply andb_true_iff in Ok. destruct Ok as [Ok1 Ok2].
  rewrite (dpop_false c Dl) in Ft. unfold begin_loop in Ft. rewrite br_eq in Ft. cbv iota zeta beta in Ft. fold (lstart c) in Ft.
  set (cF := cstmt top sd (x_lc X) x c) in *. assert (EF : cF = cstmt top sd (x_lc X) x c) by reflexivity. assert (EC : cstmt top sd (x_lc X) x c = cF) by reflexivity. unfold x in EF. cbn [cstmt] in EF.
  rewrite (dpop_false c Dl) in EF. unfold begin_loop in EF. rewrite br_eq in EF. cbv iota zeta beta in EF. fold (lstart c) in EF. clearbody cF.
  set (start := length (cg c)) in *. set (lc := Some (start, S sd, S sd)) in *. set (outer := brk c) in *.
  set (c1 := lstart c) in *. pose proof (lstart_open c O) as O1. fold c1 in O1.
  set (c2 := cex e c1) in *. assert (A2 : cgrow c1 c2) by (now apply cgrow_cex). pose proof (cgrow_open _ _ A2) as O2.
  rewrite bf_eq in Ft, EF. cbv iota zeta beta in Ft, EF.
  set (c3 := on_g (fun _ => fst (g_branch_forward (cg c2))) c2) in *. assert (A3 : cgrow c2 c3) by (now apply cgrow_bf). pose proof (cgrow_open _ _ A3) as O3.
  pose proof (g_block b sd lc c3 O3) as A4. set (c4 := dpop (in_block sd (cstmts top (S sd) lc b) c3)) in *. pose proof (cgrow_open _ _ A4) as O4.
  set (c4j := on_g (fun g => g_join_reverse g start BrJump) c4) in *. assert (A4j : cgrow c4 c4j) by (apply cgrow_on, grow_jr; exact O4). pose proof (cgrow_open _ _ A4j) as O4j.
  change (on_g (fun g => g_join_forward (g_join_reverse g start BrJump) (length (cg c2) - 1) BrFalsePop) c4) with (on_g (fun g => g_join_forward g (length (cg c2) - 1) BrFalsePop) c4j) in *.
  set (c5 := on_g (fun g => g_join_forward g (length (cg c2) - 1) BrFalsePop) c4j) in *.
  assert (A5 : cgrow c1 c5). { apply cgrow_bf_jf; auto. fold c3. eapply cgrow_trans; eauto. } pose proof (cgrow_open _ _ A5) as O5.
  pose proof (g_opt el sd lc c5 O5) as A6. set (c6 := copt top sd lc el c5) in *.
  destruct (loop_end c1 c6 outer (cgrow_trans _ _ _ A5 A6) eq_refl Ft) as (F6 & Go6 & Gob). rewrite <- EF in Go6, Gob.
  assert (F5 : fits (cg c5) G) by (eapply fits_cgrow; eauto).
  assert (Gr : grow (fst (g_branch_forward (cg c2))) (cg c4j)) by (eapply (grow_trans _ (cg c4)); [apply A4|apply A4j]).
  pose proof (bf_branch P C T G sta HL (cg c2) (cg c4j) BrFalsePop O2 Gr F5 ltac:(discriminate)) as B.
  assert (F4j : fits (cg c4j) G). { eapply fits_jf; [exact O4j| |exact F5]. eapply pending_grow; [now apply pending_bf|exact Gr]. }
  assert (F4 : fits (cg c4) G) by (eapply fits_cgrow; eauto). assert (F3 : fits (cg c3) G) by (eapply fits_cgrow; eauto). assert (F2 : fits (cg c2) G) by (eapply fits_cgrow; eauto).
  assert (Go4 : goes (here (cg c4)) (nth start sta 0)).
  { eapply at_jr_jump; [exact HL|exact O4|exact F4j|]. pose proof (cgrow_len _ _ A4). pose proof (cgrow_len _ _ A3). pose proof (cgrow_len _ _ A2). assert (length (cg c1) = S start) by (apply br_len). lia. }
  assert (E1 : here (cg c1) = nth start sta 0). { apply (at_br P C T G sta HL (cg c) O). change (fits (cg c1) G). eapply fits_cgrow; [exact A2|exact F2]. }
  assert (L2 : lv c2 = mark_from 0 (capsE e) (lv c1)) by reflexivity. assert (N2 : length (lv c2) = N) by (rewrite L2; apply mark_len).
  assert (D2 : depths sd (lv c2)) by (rewrite L2; now apply depths_mark).
  assert (LK : length K = F + N) by (apply (hyps_len _ _ _ _ _ _ _ _ _ _ _ _ Hy)).
  assert (Sub : forall j, In j (capsS x) -> j < N -> In j M') by (intros j Hj Hn; apply in_app_iff; left; now apply in_under).
  unfold m0. rewrite <- E1.
  pose proof (ex_sim n (lx sd c) (S sd) fr M' Fs s K h c1 e [] IE Hy F2) as E. cbv zeta in E. cbn [map] in E. rewrite app_nil_r in E. fold c2 in E.
  eapply esim_bind; [exact E|]. intros v s1 (h1 & Hy1 & Fi & Eg & R). change (length (lv c1)) with N in Hy1.
  pose proof (b_falsepop P C T _ _ _ fs li un s1 K v h1 fs B) as R2. pose proof (reaches_trans _ _ _ _ _ _ _ R R2) as R3. clear R R2.
  assert (Hy3 : hyps (lx sd c) (S sd) fr M' (under N (capsE e ++ Fs)) s1 K h1 c3) by (eapply hyps_grow; [exact Hy1|exact A3|reflexivity]).
  assert (Again : forall L1 s2 h2, reaches fs (mk (here (cg c1)) s K h) (mk (nth start sta 0) s2 K h2) -> fin L1 K s h s2 K h2 -> globals s2 = globals s -> (forall j, In j L1 -> In j (capsS x)) ->
     esim fs (mk (here (cg c1)) s K h) (exec P funs n gl fr x s2) (Qo X gl fr K s h (capsS x) (mk (here (cg c1)) s K h) (here (cg cF)) 0 false (brk cF))).
  { intros L1 s2 h2 R Fi2 Eg2 I. eapply chain_again; [exact R|exact Fi2|exact Eg2|exact I|].
    pose proof (IW' s2 K h2 c gl O Dp Dl) as Z. cbv zeta in Z. rewrite EC in Z. apply Z; [|exact Ft0|exact Ok0].
    eapply hyps_again; [exact Hy|exact Fi2|exact Eg2|]. intros j Hj Hn. apply Sub; auto. }
  assert (IncB : forall j, In j (capsE e ++ capsB b) -> In j (capsS x)) by (intros j; unfold x; cbn [capsS]; rewrite !in_app_iff; tauto).
  assert (IncO : forall j, In j (capsE e ++ capsOS el) -> In j (capsS x)) by (intros j; unfold x; cbn [capsS]; rewrite !in_app_iff; tauto).
  destruct (p_bool P (sworld P s1) v) eqn:Ev.
  - pose proof (IB (lx sd c) sd fr M' _ s1 K h1 c3 b Hy3) as Q. cbv zeta in Q. change (lv c3) with (lv c2) in Q. rewrite N2 in Q. specialize (Q D2 Dl F4 Ok1).
    eapply esim_bind; [eapply esim_step; [exact R3|exact Q|intros o s2 Z; exact Z]|]. intros o s2 Qo2.
    pose proof (loop_out (lx sd c) N start (S sd) (S sd) _ _ _ _ _ _ _ _ o s2 Qo2 eq_refl (fun _ => eq_refl) eq_refl LK) as LO. destruct o as [ls lv'| | |rv].
    + destruct LO as (h2 & Fi2 & Eg2 & R4). eapply Again; [|eapply fin_trans; [exact Fi|exact Fi2]|congruence|exact IncB].
      eapply reaches_trans; [exact R3|]. eapply reaches_trans; [exact R4|]. now apply go_reaches.
    + destruct LO as (h2 & j & Fi2 & Eg2 & Hj & R4). eapply loop_skip; [eapply fin_incl; [eapply fin_trans; [exact Fi|exact Fi2]|exact IncB]|congruence|].
      eapply reaches_trans; [exact R3|]. eapply reaches_trans; [exact R4|]. apply go_reaches, Gob. eapply cgrow_brk; [exact A6|]. cbn [c5 c4j on_g brk]. exact Hj.
    + destruct LO as (_ & h2 & Fi2 & Eg2 & R4). eapply Again; [|eapply fin_trans; [exact Fi|exact Fi2]|congruence|exact IncB].
      eapply reaches_trans; [exact R3|exact R4].
    + cbn [esim ret]. eapply Qo_incl; [|exact IncB|intros i Hi; exact Hi]. eapply Qo_pre; [exact R3|]. eapply Qo_after0; [exact Fi|exact Eg|]. apply LO.
  - assert (L4 : lv c4 = mark_from 0 (capsB b) (lv c3)) by (now apply lv_blk). assert (N4 : length (lv c4) = N) by (rewrite L4, mark_len; exact N2).
    assert (Hy5 : hyps (lx sd c) (S sd) fr M' (under N (capsE e ++ capsB b ++ Fs)) s1 K h1 c5).
    { eapply hyps_weak with (c := c4); [|reflexivity|exact O5|]; [|unfold c5, c4j; cbn [on_g cg]; rewrite jf_len, jr_len; lia].
      eapply hyps_F; [eapply hyps_mark; [exact Hy3|exact A4|exact L4]|]. intros i Hi. change (length (lv c3)) with (length (lv c2)). rewrite N2.
      apply filter_In in Hi. destruct Hi as [Hi Hn]. apply filter_In. split; auto. rewrite !in_app_iff in *. destruct Hi as [Hi|[Hi|Hi]]; auto; right; apply filter_In; split; auto; rewrite in_app_iff; auto. }
    pose proof (IO (lx sd c) sd fr M' _ s1 K h1 c5 el Hy5) as Q. cbv zeta in Q. change (lv c5) with (lv c4) in Q. rewrite N4 in Q.
    specialize (Q ltac:(rewrite L4; now apply depths_mark) (delay_dpop _) F6 Ok2). change (copt top sd (x_lc (lx sd c)) el c5) with c6 in Q.
    eapply esim_bind; [eapply esim_step; [exact R3|exact Q|intros o s2 Z; exact Z]|]. intros o s2 Qo2.
    pose proof (loop_out (lx sd c) N start (S sd) (S sd) _ _ _ _ _ _ _ _ o s2 Qo2 eq_refl (fun _ => eq_refl) eq_refl LK) as LO. destruct o as [ls lv'| | |rv].
    + destruct LO as (h2 & Fi2 & Eg2 & R4). eapply loop_skip; [eapply fin_incl; [eapply fin_trans; [exact Fi|exact Fi2]|exact IncO]|congruence|].
      eapply reaches_trans; [exact R3|]. eapply reaches_trans; [exact R4|]. now apply go_reaches.
    + destruct LO as (h2 & j & Fi2 & Eg2 & Hj & R4). eapply loop_skip; [eapply fin_incl; [eapply fin_trans; [exact Fi|exact Fi2]|exact IncO]|congruence|].
      eapply reaches_trans; [exact R3|]. eapply reaches_trans; [exact R4|]. apply go_reaches, Gob. exact Hj.
    + destruct LO as (_ & h2 & Fi2 & Eg2 & R4). eapply Again; [|eapply fin_trans; [exact Fi|exact Fi2]|congruence|exact IncO].
      eapply reaches_trans; [exact R3|exact R4].
    + cbn [esim ret]. eapply Qo_incl; [|exact IncO|intros i Hi; exact Hi]. eapply Qo_pre; [exact R3|]. eapply Qo_after0; [exact Fi|exact Eg|]. apply LO.
Qed.
Lemma step_loop n b : P_block n -> P_loops n (SLoop b) -> P_loops (S n) (SLoop b).
Proof.
  intros IB IW X sd fr M Fs s K h c gl O Dp Dl Hy c' Ft Ok m0. rewrite exec_S. cbv zeta.
  pose proof (IW X sd fr M Fs) as IW'. pose proof Ft as Ft0. pose proof Ok as Ok0. unfold c' in *. clear c'.
  set (x := SLoop b) in *. set (N := length (lv c)) in *. set (M' := under N (capsS x) ++ M) in *. unfold x in Ft, Ok. cbn [cstmt okS] in Ft, Ok.
  change (capsB b) with (capsS x) in Ok. fold M' in Ok.
  rewrite (dpop_false c Dl) in Ft. unfold begin_loop in Ft. rewrite br_eq in Ft. cbv iota zeta beta in Ft. fold (lstart c) in Ft.
  set (cF := cstmt top sd (x_lc X) x c) in *. assert (EF : cF = cstmt top sd (x_lc X) x c) by reflexivity. assert (EC : cstmt top sd (x_lc X) x c = cF) by reflexivity. unfold x in EF. cbn [cstmt] in EF.
  rewrite (dpop_false c Dl) in EF. unfold begin_loop in EF. rewrite br_eq in EF. cbv iota zeta beta in EF. fold (lstart c) in EF. clearbody cF.
  set (start := length (cg c)) in *. set (lc := Some (start, S sd, S sd)) in *. set (outer := brk c) in *.
  set (c1 := lstart c) in *. pose proof (lstart_open c O) as O1. fold c1 in O1.
  pose proof (g_block b sd lc c1 O1) as A4. set (c4 := dpop (in_block sd (cstmts top (S sd) lc b) c1)) in *. pose proof (cgrow_open _ _ A4) as O4.
  set (c6 := on_g (fun g => g_join_reverse g start BrJump) c4) in *. assert (A6 : cgrow c4 c6) by (apply cgrow_on, grow_jr; exact O4).
  destruct (loop_end c1 c6 outer (cgrow_trans _ _ _ A4 A6) eq_refl Ft) as (F6 & _ & Gob). rewrite <- EF in Gob.
  assert (F4 : fits (cg c4) G) by (eapply fits_cgrow; eauto).
  assert (Go4 : goes (here (cg c4)) (nth start sta 0)).
  { eapply at_jr_jump; [exact HL|exact O4|exact F6|]. pose proof (cgrow_len _ _ A4). assert (length (cg c1) = S start) by (apply br_len). lia. }
  assert (E1 : here (cg c1) = nth start sta 0). { apply (at_br P C T G sta HL (cg c) O). change (fits (cg c1) G). eapply fits_cgrow; [exact A4|exact F4]. }
  assert (LK : length K = F + N) by (apply (hyps_len _ _ _ _ _ _ _ _ _ _ _ _ Hy)).
  assert (Sub : forall j, In j (capsS x) -> j < N -> In j M') by (intros j Hj Hn; apply in_app_iff; left; now apply in_under).
  unfold m0. rewrite <- E1.
  assert (Again : forall L1 s2 h2, reaches fs (mk (here (cg c1)) s K h) (mk (nth start sta 0) s2 K h2) -> fin L1 K s h s2 K h2 -> globals s2 = globals s -> (forall j, In j L1 -> In j (capsS x)) ->
     esim fs (mk (here (cg c1)) s K h) (exec P funs n gl fr x s2) (Qo X gl fr K s h (capsS x) (mk (here (cg c1)) s K h) (here (cg cF)) 0 false (brk cF))).
  { intros L1 s2 h2 R Fi2 Eg2 I. eapply chain_again; [exact R|exact Fi2|exact Eg2|exact I|].
    pose proof (IW' s2 K h2 c gl O Dp Dl) as Z. cbv zeta in Z. rewrite EC in Z. apply Z; [|exact Ft0|exact Ok0].
    eapply hyps_again; [exact Hy|exact Fi2|exact Eg2|]. intros j Hj Hn. apply Sub; auto. }
  pose proof (IB (lx sd c) sd fr M' _ s K h c1 b Hy Dp Dl) as Q. cbv zeta in Q. specialize (Q F4 Ok).
  eapply esim_bind; [exact Q|]. intros o s2 Qo2.
  pose proof (loop_out (lx sd c) N start (S sd) (S sd) _ _ _ _ _ _ _ _ o s2 Qo2 eq_refl (fun _ => eq_refl) eq_refl LK) as LO. destruct o as [ls lv'| | |rv].
  + destruct LO as (h2 & Fi2 & Eg2 & R4). eapply Again; [|exact Fi2|congruence|intros j Hj; exact Hj]. eapply reaches_trans; [exact R4|]. now apply go_reaches.
  + destruct LO as (h2 & j & Fi2 & Eg2 & Hj & R4). eapply loop_skip; [exact Fi2|congruence|]. eapply reaches_trans; [exact R4|]. apply go_reaches, Gob. exact Hj.
  + destruct LO as (_ & h2 & Fi2 & Eg2 & R4). eapply Again; [exact R4|exact Fi2|congruence|intros j Hj; exact Hj].
  + cbn [esim ret]. apply LO.
Qed.
Lemma step_do n b oe el : P_eval n -> P_block n -> P_opt n -> P_loops n (SDo b oe el) -> P_loops (S n) (SDo b oe el).
Proof.
  intros IE IB IO IW X sd fr M Fs s K h c gl O Dp Dl Hy c' Ft Ok m0. rewrite exec_S. cbv zeta.
  pose proof (IW X sd fr M Fs) as IW'. pose proof Ft as Ft0. pose proof Ok as Ok0. unfold c' in *. clear c'.
  set (x := SDo b oe el) in *. set (N := length (lv c)) in *. set (M' := under N (capsS x) ++ M) in *. unfold x in Ft, Ok. cbn [cstmt okS negb] in Ft, Ok.
  fold x in Ok. fold M' in Ok. rewrite andb_true_l in Ok. apply andb_true_iff in Ok. destruct Ok as [Ok1 Ok2].
  unfold begin_loop in Ft. rewrite br_eq in Ft. cbv iota zeta beta in Ft. fold (lstart c) in Ft.
  set (cF := cstmt top sd (x_lc X) x c) in *. assert (EF : cF = cstmt top sd (x_lc X) x c) by reflexivity. assert (EC : cstmt top sd (x_lc X) x c = cF) by reflexivity. unfold x in EF. cbn [cstmt] in EF.
  unfold begin_loop in EF. rewrite br_eq in EF. cbv iota zeta beta in EF. fold (lstart c) in EF. clearbody cF.
  set (start := length (cg c)) in *. set (lc := Some (start, S sd, S sd)) in *. set (outer := brk c) in *.
  set (c1 := lstart c) in *. pose proof (lstart_open c O) as O1. fold c1 in O1.
  pose proof (g_block b sd lc c1 O1) as A4. set (c4 := dpop (in_block sd (cstmts top (S sd) lc b) c1)) in *. pose proof (cgrow_open _ _ A4) as O4.
  set (c5 := match oe with Some e => on_g (fun g => g_join_reverse g start BrTruePop) (cex e c4) | None => c4 end) in *.
  assert (A5 : cgrow c4 c5). { unfold c5. destruct oe as [e|]; [|now apply cgrow_refl]. pose proof (cgrow_cex e c4 O4) as A. eapply cgrow_trans; [exact A|]. apply cgrow_on, grow_jr. eapply cgrow_open; exact A. }
  pose proof (cgrow_open _ _ A5) as O5.
  pose proof (g_opt el sd lc c5 O5) as A6. set (c6 := copt top sd lc el c5) in *.
  destruct (loop_end c1 c6 outer (cgrow_trans _ _ _ (cgrow_trans _ _ _ A4 A5) A6) eq_refl Ft) as (F6 & Go6 & Gob). rewrite <- EF in Go6, Gob.
  assert (F5 : fits (cg c5) G) by (eapply fits_cgrow; eauto).
  assert (F4 : fits (cg c4) G) by (eapply fits_cgrow; [exact A5|exact F5]).
  assert (E1 : here (cg c1) = nth start sta 0). { apply (at_br P C T G sta HL (cg c) O). change (fits (cg c1) G). eapply fits_cgrow; [exact A4|exact F4]. }
  assert (LK : length K = F + N) by (apply (hyps_len _ _ _ _ _ _ _ _ _ _ _ _ Hy)).
  assert (Sub : forall j, In j (capsS x) -> j < N -> In j M') by (intros j Hj Hn; apply in_app_iff; left; now apply in_under).
  unfold m0. rewrite <- E1.
  assert (Again : forall L1 s2 h2, reaches fs (mk (here (cg c1)) s K h) (mk (nth start sta 0) s2 K h2) -> fin L1 K s h s2 K h2 -> globals s2 = globals s -> (forall j, In j L1 -> In j (capsS x)) ->
     esim fs (mk (here (cg c1)) s K h) (exec P funs n gl fr x s2) (Qo X gl fr K s h (capsS x) (mk (here (cg c1)) s K h) (here (cg cF)) 0 false (brk cF))).
  { intros L1 s2 h2 R Fi2 Eg2 I. eapply chain_again; [exact R|exact Fi2|exact Eg2|exact I|].
    pose proof (IW' s2 K h2 c gl O Dp Dl) as Z. cbv zeta in Z. rewrite EC in Z. apply Z; [|exact Ft0|exact Ok0].
    eapply hyps_again; [exact Hy|exact Fi2|exact Eg2|]. intros j Hj Hn. apply Sub; auto. }
  assert (IncB : forall j, In j (capsB b) -> In j (capsS x)) by (intros j; unfold x; cbn [capsS]; rewrite !in_app_iff; tauto).
  assert (IncE : forall j, In j (capsB b ++ capsO oe) -> In j (capsS x)) by (intros j; unfold x; cbn [capsS]; rewrite !in_app_iff; tauto).
  assert (IncO : forall j, In j ((capsB b ++ capsO oe) ++ capsOS el) -> In j (capsS x)) by (intros j; unfold x; cbn [capsS]; rewrite !in_app_iff; tauto).
  pose proof (IB (lx sd c) sd fr M' _ s K h c1 b Hy Dp Dl) as Q. cbv zeta in Q. specialize (Q F4 Ok1).
  eapply esim_bind; [exact Q|]. intros o s2 Qo2.
  pose proof (loop_out (lx sd c) N start (S sd) (S sd) _ _ _ _ _ _ _ _ o s2 Qo2 eq_refl (fun _ => eq_refl) eq_refl LK) as LO. destruct o as [ls lv'| | |rv].
  - destruct LO as (h2 & Fi2 & Eg2 & R4). assert (L4 : lv c4 = mark_from 0 (capsB b) (lv c1)) by (now apply lv_blk). assert (N4 : length (lv c4) = N) by (rewrite L4, mark_len; reflexivity).
    assert (Hy4 : hyps (lx sd c) (S sd) fr M' (under N (capsB b ++ Fs)) s2 K h2 c4).
    { eapply hyps_mark with (c := c1); [|exact A4|exact L4]. eapply hyps_again; [exact Hy|exact Fi2|exact Eg2|]. intros j Hj Hn. apply Sub; auto. }
    assert (D4 : depths sd (lv c4)) by (rewrite L4; now apply depths_mark).
    assert (W : esim fs (mk (here (cg c1)) s K h) (match oe with None => ret P false s2 | Some e => bind P (eval P funs n fr e s2) (fun v s => ret P (p_bool P (sworld P s) v) s) end)
       (fun again s3 => exists h3, hyps (lx sd c) (S sd) fr M' (under N (capsO oe ++ capsB b ++ Fs)) s3 K h3 c5 /\ fin (capsO oe) K s2 h2 s3 K h3 /\ globals s3 = globals s2 /\
          reaches fs (mk (here (cg c1)) s K h) (mk (if again : bool then nth start sta 0 else here (cg c5)) s3 K h3))).
    { destruct oe as [e|].
      - pose proof (cgrow_cex e c4 O4) as Ae. pose proof (cgrow_open _ _ Ae) as Oe. assert (Fe : fits (cg (cex e c4)) G) by (eapply fits_grow; [|exact F5]; apply grow_jr; exact Oe).
        pose proof (ex_sim n (lx sd c) (S sd) fr M' _ s2 K h2 c4 e [] IE Hy4 Fe) as E. cbv zeta in E. cbn [map] in E. rewrite app_nil_r in E.
        eapply esim_bind; [eapply esim_step; [exact R4|exact E|intros v s3 Z; exact Z]|]. intros v s3 (h3 & Hy3 & Fi & Eg & R). cbn [esim ret]. exists h3.
        split; [|split; [exact Fi|split; [exact Eg|]]].
        + eapply hyps_F; [eapply hyps_weak; [exact Hy3|reflexivity|exact O5|]|].
          * unfold c5. cbn [on_g cg]. rewrite jr_len. lia.
          * intros i Hi. rewrite N4. apply filter_In in Hi. destruct Hi as [Hi Hn]. apply filter_In. split; auto. rewrite !in_app_iff in *. destruct Hi as [Hi|[Hi|Hi]]; auto; right; apply filter_In; split; auto; rewrite in_app_iff; auto.
        + eapply reaches_trans; [exact R4|]. eapply reaches_trans; [exact R|]. 
          assert (Bq : branches BrTruePop (here (cg (cex e c4))) (nth start sta 0) (here (cg c5))).
          { eapply at_jr; [exact HL|exact Oe|exact F5| |discriminate]. pose proof (cgrow_len _ _ Ae). pose proof (cgrow_len _ _ A4). assert (length (cg c1) = S start) by (apply br_len). lia. }
          apply (b_truepop P C T _ _ _ fs li un s3 K v h3 fs Bq).
      - cbn [esim ret]. exists h2. split; [exact Hy4|]. split; [apply fin_refl; eapply y_inv; exact Hy4|]. split; [reflexivity|exact R4]. }
    eapply esim_bind; [exact W|]. clear W. intros again s3 (h3 & Hy3 & Fi3 & Eg3 & R5). destruct again.
    + eapply Again; [exact R5|eapply fin_trans; [exact Fi2|exact Fi3]|congruence|exact IncE].
    + assert (L5 : length (lv c5) = N) by (unfold c5; destruct oe as [e|]; [change (length (mark_from 0 (capsE e) (lv c4)) = N); rewrite mark_len|]; exact N4).
      pose proof (IO (lx sd c) sd fr M' _ s3 K h3 c5 el Hy3) as Q2. cbv zeta in Q2. rewrite L5 in Q2.
      assert (D5 : depths sd (lv c5)) by (unfold c5; destruct oe as [e|]; [change (depths sd (mark_from 0 (capsE e) (lv c4))); now apply depths_mark|exact D4]).
      assert (Y5 : delay c5 = false) by (unfold c5; destruct oe; apply delay_dpop).
      specialize (Q2 D5 Y5 F6 Ok2). change (copt top sd (x_lc (lx sd c)) el c5) with c6 in Q2.
      eapply esim_bind; [eapply esim_step; [exact R5|exact Q2|intros o s4 Z; exact Z]|]. intros o s4 Qo4.
      pose proof (loop_out (lx sd c) N start (S sd) (S sd) _ _ _ _ _ _ _ _ o s4 Qo4 eq_refl (fun _ => eq_refl) eq_refl LK) as LO. destruct o as [ls2 lv2| | |rv].
      * destruct LO as (h4 & Fi4 & Eg4 & R6). eapply loop_skip; [eapply fin_incl; [eapply fin_trans; [eapply fin_trans; [exact Fi2|exact Fi3]|exact Fi4]|exact IncO]|congruence|].
        eapply reaches_trans; [exact R5|]. eapply reaches_trans; [exact R6|]. now apply go_reaches.
      * destruct LO as (h4 & j & Fi4 & Eg4 & Hj & R6). eapply loop_skip; [eapply fin_incl; [eapply fin_trans; [eapply fin_trans; [exact Fi2|exact Fi3]|exact Fi4]|exact IncO]|congruence|].
        eapply reaches_trans; [exact R5|]. eapply reaches_trans; [exact R6|]. apply go_reaches, Gob. exact Hj.
      * destruct LO as (_ & h4 & Fi4 & Eg4 & R6). eapply Again; [|eapply fin_trans; [eapply fin_trans; [exact Fi2|exact Fi3]|exact Fi4]|congruence|exact IncO].
        eapply reaches_trans; [exact R5|exact R6].
      * cbn [esim ret]. eapply Qo_incl; [|exact IncO|intros i Hi; exact Hi]. eapply Qo_pre; [exact R5|]. eapply Qo_after0; [eapply fin_trans; [exact Fi2|exact Fi3]|congruence|]. apply LO.
  - destruct LO as (h2 & j & Fi2 & Eg2 & Hj & R4). eapply loop_skip; [eapply fin_incl; [exact Fi2|exact IncB]|congruence|]. eapply reaches_trans; [exact R4|]. apply go_reaches, Gob.
    eapply cgrow_brk; [exact A6|]. eapply cgrow_brk; [exact A5|]. exact Hj.
  - destruct LO as (_ & h2 & Fi2 & Eg2 & R4). eapply Again; [exact R4|exact Fi2|congruence|exact IncB].
  - cbn [esim ret]. eapply Qo_incl; [|exact IncB|intros i Hi; exact Hi]. apply LO.
Qed.

(** ** For *)
Lemma upd_mid {A} (a : list A) x y b : upd (a ++ x :: b) (length a) y = a ++ y :: b.
Proof. induction a as [|z a IH]; cbn; [reflexivity|]. now rewrite IH. Qed.
Lemma s_storej N i s K j it v h : length K = F + N ->
  sstep (OStoreLocal N false) (mk i s ((K ++ [STmp j] ++ [STmp it]) ++ [STmp v]) h) = Go P (mk i s ((K ++ [STmp v] ++ [STmp it]) ++ [STmp v]) h).
Proof.
  intro LK. assert (Ln : length (render (store s) ((K ++ [STmp j] ++ [STmp it]) ++ [STmp v])) = length K + 3) by (rewrite render_len, !app_length; cbn [length]; lia).
  unfold strict_step. cbn [self_store step]. rewrite fp_mk, Ef, stack_mk, Ln, <- LK.
  replace (S (length K) =? length K + 3) with false by (symmetry; apply Nat.eqb_neq; lia). rewrite with_topt_mk. unfold store_local. rewrite fp_mk, Ef, stack_mk, Ln, <- LK.
  replace (length K <? length K + 3) with true by (symmetry; apply Nat.ltb_lt; lia). f_equal.
  unfold set_stack, CompInv.mk. cbn [Vm.ip Vm.stack Vm.frames Vm.lits Vm.unrolls Vm.gcount Vm.opens Vm.cells Vm.envs Vm.world]. f_equal.
  rewrite <- !app_assoc, !render_app. cbn [app render map sval]. rewrite <- (render_len (store s) K) at 1. apply upd_mid.
Qed.
(** code of the loop variable and the body *)
Definition f_bind (named : bool) (N : nat) : list op := if named then [OStoreLocal N false; OPop] else [OPop].
Definition f_loop (sd : nat) (named : bool) (N : nat) (b : stmts) (el : option_stmts) (c1 : cs) : cs :=
  let start := length (cg c1) in let lc := Some (start, S sd, S (S sd)) in
  let c2 := lstart c1 in let c3 := on_g (fun _ => fst (g_branch_forward (cg c2))) c2 in
  let c4 := on_g (g_pushes (f_bind named N)) c3 in
  let c5 := dpop (in_block (S sd) (cstmts top (S (S sd)) lc b) c4) in
  let c6 := pop_locals (S sd) false false true c5 in
  let c6j := on_g (fun g => g_join_reverse g start BrJump) c6 in
  let c7 := on_g (fun g => g_join_forward g (length (cg c2) - 1) BrTestIter) c6j in
  copt top sd lc el (pop_locals (S sd) true true false c7).
Definition f_pre (sd : nat) (named : bool) (e : expr) (c : cs) : cs :=
  cpush (OPrim PInitIter) (declare_local (S sd) (cex e (if named then cpush (OConst HNil) (declare_local (S sd) c) else c))).
Lemma for_eq sd lc named e b el c : delay c = false -> cstmt top sd lc (SFor named e b el) c = end_loop (brk c) (f_loop sd named (length (lv c)) b el (f_pre sd named e c)).
Proof.
  intro Dl. cbn [cstmt]. rewrite (dpop_false c Dl). unfold begin_loop. rewrite br_eq, bf_eq. cbv iota zeta beta. fold (f_pre sd named e c).
  replace (brk (f_pre sd named e c)) with (brk c) by (destruct named; reflexivity). unfold f_loop. cbv zeta. destruct named; reflexivity.
Qed.
Definition nvs (named : bool) : nat := if named then 1 else 0.
(** binding the loop variable *)
Lemma bind_sim named N X sd fr M Fs s K h c v jk it g D : hyps X sd fr M Fs s K h c -> length K = F + N -> length (locals fr) = N -> length jk = nvs named -> isopen g -> fits (g_pushes (f_bind named N) g) G ->
  let r := if named then declare P false v fr s else (locals fr, s) in
  exists new, fst r = locals fr ++ map Some new /\ length new = nvs named /\ fin [] K s h (snd r) (K ++ map SVar new) h /\ globals (snd r) = globals s /\
   reaches D (mk (here g) s ((K ++ map STmp (jk ++ [it])) ++ [STmp v]) h) (mk (here (g_pushes (f_bind named N) g)) (snd r) ((K ++ map SVar new) ++ [STmp it]) h).
Proof.
  intros Hy LK LL Lj O Ft r. pose proof (y_inv _ _ _ _ _ _ _ _ _ Hy) as I. destruct named; cbn [nvs f_bind] in *; unfold r; clear r.
  - destruct jk as [|j [|? ?]]; try discriminate. destruct (declare_sim X sd fr M Fs s K h c v false Hy ltac:(intro; discriminate)) as (A & B & D1 & E & H & R & W). exists [length (store s)].
    split; [exact A|]. split; [reflexivity|]. split; [exact B|]. split; [rewrite D1; apply app_nil_r|].
    assert (Ob : isopen (g_push (OStoreLocal N false) g)) by oo. assert (F1 : fits (g_push (OStoreLocal N false) g) G) by (eapply fits_grow; [|exact Ft]; apply (grow_push OPop); exact Ob).
    eapply reaches_trans; [eapply (go_push P C T G sta (OStoreLocal N false)); [exact HL|exact O|exact F1|]|].
    + rewrite map_app. cbn [map app]. apply (s_storej N _ s K j it v h LK).
    + eapply reaches_trans; [eapply (go_push P C T G sta OPop); [exact HL|exact Ob|exact Ft|apply s_pop]|].
      change (g_pushes [OStoreLocal N false; OPop] g) with (g_push OPop (g_push (OStoreLocal N false) g)).
      assert (I1 : inv s (K ++ STmp v :: [STmp it]) h) by (eapply inv_same; [apply (tmps_same K [v; it])|exact I]).
      cbn [declare fst snd alloc map]. rewrite <- app_assoc. cbn [app].
      rewrite (mk_alloc P fs li un _ s K v [STmp it] h I1). apply reaches_refl.
  - destruct jk; try discriminate. exists []. cbn [fst snd map app]. rewrite !app_nil_r. split; [reflexivity|]. split; [reflexivity|]. split; [apply fin_refl; exact I|]. split; [reflexivity|].
    eapply (go_push P C T G sta OPop); [exact HL|exact O|exact Ft|apply s_pop].
Qed.
Definition xfor (sd start N : nat) (cont : bool) (nin : nat) : loopx := LX (Some (start, S sd, S (S sd))) (Some cont) N nin.
Definition f_top (c1 : cs) (l0 : list (nat * bool)) : cs := CS (cg (lstart c1)) false l0 [].
Lemma hyps_body sd start N cont fr M Fs s K h c0 s2 new it c4 bs : hyps (xfor sd start N false N) (S sd) fr M Fs s K h c0 -> length (lv c0) = N -> depths sd (lv c0) ->
  fin [] K s h s2 (K ++ map SVar new) h -> globals s2 = globals s -> length bs = S (length new) -> lv c4 = lv c0 ++ map (pair (S sd)) bs -> isopen (cg c4) -> start < length (cg c4) ->
  hyps (xfor sd start N cont (length (lv c4))) (S (S sd)) (Frame ((locals fr ++ map Some new) ++ [None]) (up fr)) M Fs s2 ((K ++ map SVar new) ++ [STmp it]) h c4.
Proof.
  intros [A [[I Gb FR E0] Le Lo Cp Mb] D E H] LN Dp [I2 [Cg Se]] Eg Lb Lv O St.
  assert (Ll : length (lv c4) = N + S (length new)) by (rewrite Lv, app_length, map_length; lia).
  split; auto.
  - split.
    + split; auto.
      * eapply inv_same; [apply tmp_same|exact I2].
      * eapply glob_same; [apply tmp_same|]. eapply (glob_new P T funs F fs Ef false); [exact Gb|rewrite Eg; symmetry; apply app_nil_r|discriminate].
      * pose proof (frel_new P T funs F fs Ef fr K s s2 new FR ltac:(lia) Se) as Z. apply (frel_more P _ _ _ [STmp it]) in Z. destruct Z as [Z1 Z2 Z3]. split; auto. cbn [locals] in *.
        intros i l Hi. destruct (Nat.lt_ge_cases i (length (locals fr ++ map Some new))).
        -- rewrite nth_error_app1 in Hi by auto. now apply Z1.
        -- rewrite nth_error_app2 in Hi by auto. destruct (i - _) as [|[|?]]; discriminate.
    + rewrite !app_length, map_length, Ll. cbn [length]. lia.
    + cbn [locals]. rewrite !app_length, map_length, Ll. cbn [length]. lia.
    + intros j Q. apply (capd_same _ _ _ _ (same_vars_sym _ _ (tmp_same _ _))) in Q. destruct (Cg _ Q) as [Q1|[i [[] _]]]. destruct (Cp _ Q1) as [Q2|Q2]; auto. left. rewrite Lv. now apply flagged_app.
    + intros j Q. apply Mb in Q. lia.
  - rewrite Lv. apply (depths_le (S sd)); [|lia]. apply depths_fl; [apply (depths_le sd); auto|lia].
  - intros j Hj. rewrite Lv. apply flagged_app. auto.
  - unfold lrel, xfor. cbn [x_lc x_lp x_nb x_nin]. split; [|split; [lia|split; [intros j Hj; apply Mb in Hj; lia|split; [exact St|]]]].
    + rewrite Lv, <- LN. apply split_fl; auto. now apply split_top.
    + intros _. split; [|lia]. apply split_top. rewrite Lv. apply depths_fl; [apply (depths_le sd); auto|lia].
Qed.
Definition P_for (n : nat) : Prop := forall X gl brks named it b el sd fr M Fs Fo s K h c1 l0 bs jk outer,
  isopen (cg c1) -> delay c1 = false -> lv c1 = l0 ++ map (pair (S sd)) bs -> length bs = S (nvs named) -> depths sd l0 -> length jk = nvs named ->
  hyps (xfor sd (length (cg c1)) (length l0) false (length l0)) (S sd) fr M Fs s K h (f_top c1 l0) ->
  (forall j, In j (capsB b ++ capsOS el) -> j < length l0 -> In j M) -> (forall j, In j Fo -> In j (under (length l0) (capsB b ++ Fs))) ->
  let c' := end_loop outer (f_loop sd named (length l0) b el c1) in
  fits (cg c') G ->
  okB (length l0 + S (nvs named)) Fs M (Some (negb (named && mem (length l0) (capsB b)))) rt false b = true -> okO (length l0) Fo M (Some false) rt el = true ->
  let m0 := mk (nth (length (cg c1)) sta 0) s (K ++ map STmp (jk ++ [it])) h in
  esim fs m0 (exec_for P funs n fr named it b el s) (Qo X gl fr K s h (capsB b ++ capsOS el) m0 (here (cg c')) 0 false brks).
(** the variable leaves its scope without being captured *)
Lemma untag_all s K new it h : inv s ((K ++ map SVar new) ++ [STmp it]) h -> length new <= 1 -> (forall x, length K <= x -> ~ capd h ((K ++ map SVar new) ++ [STmp it]) x) ->
  inv s K h /\ forall x, capd h K x -> capd h ((K ++ map SVar new) ++ [STmp it]) x.
Proof.
  intros I Ln Nc. destruct new as [|l [|? ?]]; cbn [map length] in *; [| |lia].
  - rewrite app_nil_r in *. split; [eapply inv_same; [apply same_vars_sym, tmp_same|exact I]|]. intros x Q. eapply capd_same; [apply tmp_same|exact Q].
  - rewrite <- app_assoc in *. cbn [app] in *. assert (SV : same_vars K (K ++ STmp HNil :: [STmp it])) by apply (tmps_same K [HNil; it]). split.
    + eapply inv_same; [apply same_vars_sym; exact SV|]. eapply inv_untag; [exact I|]. apply Nc. lia.
    + intros x Q. eapply untag_capd; [exact I|]. eapply capd_same; [exact SV|exact Q].
Qed.
Lemma render_new s K new it : render (store s) ((K ++ map SVar new) ++ [STmp it]) = render (store s) (K ++ map STmp (map (fun l => nth l (store s) HNil) new ++ [it])).
Proof. rewrite <- app_assoc, !render_app, map_app, render_app. cbn [map]. do 2 f_equal. unfold render. rewrite !map_map. apply map_ext. reflexivity. Qed.
Lemma step_for n : P_block n -> P_opt n -> P_for n -> P_for (S n).
Proof.
  intros IB IO IF X gl brks named it b el sd fr M Fs Fo s K h c1 l0 bs jk outer O1 Dl Lv Lb Dp Lj Hy SubM SubF c' Ft Ok1 Ok2 m0. rewrite exec_for_S.
  set (N := length l0) in *. set (start := length (cg c1)) in *. set (cc := end_loop outer (f_loop sd named N b el c1)) in *.
  assert (EC : end_loop outer (f_loop sd named N b el c1) = cc) by reflexivity. unfold c' in *. clear c'.
  pose proof Ft as Ft0. rewrite <- EC in Ft. unfold f_loop in EC, Ft. cbv zeta in EC, Ft. clearbody cc. fold start in EC, Ft. set (lc := Some (start, S sd, S (S sd))) in *.
  set (c2 := lstart c1) in *. pose proof (lstart_open c1 O1) as O2. fold c2 in O2.
  set (c3 := on_g (fun _ => fst (g_branch_forward (cg c2))) c2) in *. assert (A3 : cgrow c2 c3) by (now apply cgrow_bf). pose proof (cgrow_open _ _ A3) as O3.
  set (c4 := on_g (g_pushes (f_bind named N)) c3) in *. assert (A4 : cgrow c3 c4) by (apply cgrow_on, grow_pushes; exact O3). pose proof (cgrow_open _ _ A4) as O4.
  pose proof (g_block b (S sd) lc c4 O4) as A5. set (c5 := dpop (in_block (S sd) (cstmts top (S (S sd)) lc b) c4)) in *. pose proof (cgrow_open _ _ A5) as O5.
  set (c6 := pop_locals (S sd) false false true c5) in *. assert (A6 : cgrow c5 c6) by (now apply cgrow_pop_locals). pose proof (cgrow_open _ _ A6) as O6.
  set (c6j := on_g (fun g => g_join_reverse g start BrJump) c6) in *. assert (A6j : cgrow c6 c6j) by (apply cgrow_on, grow_jr; exact O6). pose proof (cgrow_open _ _ A6j) as O6j.
  set (c7 := on_g (fun g => g_join_forward g (length (cg c2) - 1) BrTestIter) c6j) in *.
  assert (A36 : cgrow c3 c6j) by (eapply cgrow_trans; [exact A4|]; eapply cgrow_trans; [exact A5|]; eapply cgrow_trans; [exact A6|exact A6j]).
  assert (A7 : cgrow c2 c7) by (apply cgrow_bf_jf; [now apply cgrow_refl|exact A36]). pose proof (cgrow_open _ _ A7) as O7.
  set (c8 := pop_locals (S sd) true true false c7) in *. assert (A8 : cgrow c7 c8) by (now apply cgrow_pop_locals). pose proof (cgrow_open _ _ A8) as O8.
  pose proof (g_opt el sd lc c8 O8) as A9. set (c9 := copt top sd lc el c8) in *.
  assert (A29 : cgrow c2 c9) by (eapply cgrow_trans; [exact A7|]; eapply cgrow_trans; [exact A8|exact A9]).
  destruct (loop_end c2 c9 outer A29 eq_refl Ft) as (F9 & Go9 & Gob). rewrite EC in Go9, Gob.
  assert (F8 : fits (cg c8) G) by (eapply fits_cgrow; [exact A9|exact F9]). assert (F7 : fits (cg c7) G) by (eapply fits_cgrow; [exact A8|exact F8]).
  assert (Gr : grow (fst (g_branch_forward (cg c2))) (cg c6j)) by apply A36.
  pose proof (bf_branch P C T G sta HL (cg c2) (cg c6j) BrTestIter O2 Gr F7 ltac:(discriminate)) as B.
  assert (F6j : fits (cg c6j) G). { eapply fits_jf; [exact O6j| |exact F7]. eapply pending_grow; [now apply pending_bf|exact Gr]. }
  assert (F6 : fits (cg c6) G) by (eapply fits_cgrow; [exact A6j|exact F6j]). assert (F5 : fits (cg c5) G) by (eapply fits_cgrow; [exact A6|exact F6]).
  assert (F4 : fits (cg c4) G) by (eapply fits_cgrow; [exact A5|exact F5]). assert (F3 : fits (cg c3) G) by (eapply fits_cgrow; [exact A4|exact F4]).
  assert (L2 : length (cg c2) = S start) by apply br_len.
  assert (Go6 : goes (here (cg c6)) (nth start sta 0)).
  { eapply at_jr_jump; [exact HL|exact O6|exact F6j|]. pose proof (cgrow_len _ _ A3). pose proof (cgrow_len _ _ A4). pose proof (cgrow_len _ _ A5). pose proof (cgrow_len _ _ A6). lia. }
  assert (E2 : here (cg c2) = nth start sta 0). { apply (at_br P C T G sta HL (cg c1) O1). change (fits (cg c2) G). eapply fits_cgrow; [exact A3|exact F3]. }
  assert (LK : length K = F + N) by (apply (hyps_len _ _ _ _ _ _ _ _ _ _ _ _ Hy)).
  assert (LL : length (locals fr) = N) by (apply (sp_loc _ _ _ _ _ _ _ _ _ (y_pre _ _ _ _ _ _ _ _ _ _ _ _ Hy))).
  assert (L4 : lv c4 = l0 ++ map (pair (S sd)) bs) by exact Lv.
  assert (N4 : length (lv c4) = N + S (nvs named)) by (rewrite L4, app_length, map_length, Lb; reflexivity).
  assert (D4 : depths (S sd) (lv c4)) by (rewrite L4; apply depths_fl; [apply (depths_le sd); auto|lia]).
  assert (L5 : lv c5 = mark_from 0 (capsB b) (lv c4)) by (now apply lv_blk).
  assert (S5 : split_at (S sd) (lv c5) N) by (rewrite L5, L4; apply split_mark, split_fl; [unfold N; now apply split_top|lia]).
  assert (N5 : length (lv c5) = N + S (nvs named)) by (rewrite L5, mark_len; exact N4).
  assert (Sw : forall w, hyps (xfor sd start N false N) (S sd) fr M Fs (with_world P w s) K h (f_top c1 l0)) by (intro w; now apply hyps_world).
  assert (Iw : forall w, fin [] K s h (with_world P w s) K h) by (intro w; apply fin_world, fin_refl; eapply y_inv; exact Hy).
  unfold m0. rewrite <- E2. pose proof (b_testiter P C T _ _ _ fs li un s (K ++ map STmp jk) it h fs B) as R0. destruct (p_next P it (sworld P s)) as [w [v|]] eqn:En.
  - (* one more value *)
    rewrite <- app_assoc in R0. change [STmp it] with (map STmp [it]) in R0. rewrite <- map_app in R0.
    specialize (Sw w). specialize (Iw w). set (s1 := with_world P w s) in *. assert (Eg1 : globals s1 = globals s) by reflexivity. clearbody s1.
    pose proof (bind_sim named N _ _ _ _ _ _ _ _ _ v jk it (cg c3) fs Sw LK LL Lj O3 F4) as Bd. cbv zeta in Bd. destruct Bd as (new & En1 & Ln & Fi2 & Eg2 & R1).
    change (here (fst (g_branch_forward (cg c2)))) with (here (cg c3)) in R0. pose proof (reaches_trans _ _ _ _ _ _ _ R0 R1) as R2. clear R0 R1.
    destruct (if named then declare P false v fr s1 else (locals fr, s1)) as [ls s2]. cbn [fst snd] in *. subst ls.
    change (here (g_pushes (f_bind named N) (cg c3))) with (here (cg c4)) in R2.
    assert (St4 : start < length (cg c4)) by (pose proof (cgrow_len _ _ A3); pose proof (cgrow_len _ _ A4); lia).
    pose proof (hyps_body sd start N (negb (named && mem N (capsB b))) fr M Fs s1 K h (f_top c1 l0) s2 new it c4 bs Sw eq_refl Dp Fi2 Eg2 ltac:(congruence) L4 O4 St4) as Hb.
    set (XB := xfor sd start N (negb (named && mem N (capsB b))) (length (lv c4))) in *. set (KB := (K ++ map SVar new) ++ [STmp it]) in *. set (frb := Frame ((locals fr ++ map Some new) ++ [None]) (up fr)) in *.
    pose proof (IB XB (S sd) frb M Fs s2 KB h c4 b Hb D4 Dl) as Q. cbv zeta in Q. change (x_lc XB) with lc in Q. fold c5 in Q. rewrite N4 in Q. specialize (Q F5 Ok1).
    eapply esim_bind; [eapply esim_step; [exact R2|exact Q|intros o s3 Z; exact Z]|]. clear Q. intros o s3 [h3 Q].
    assert (LKB : length KB = F + length (lv c4)) by (unfold KB; rewrite !app_length, map_length, N4; cbn [length]; lia).
    assert (FB : firstn (F + N) KB = K) by (unfold KB; rewrite <- app_assoc; now apply firstn_len_app).
    assert (SB : skipn (F + N) KB = map SVar new ++ [STmp it]) by (unfold KB; rewrite <- app_assoc, <- LK, skipn_app, skipn_all, Nat.sub_diag; reflexivity).
    assert (CB : forall x, capd h KB x -> capd h K x).
    { intros x Qx. apply (capd_same _ _ _ _ (same_vars_sym _ _ (tmp_same _ _))) in Qx. destruct Fi2 as [_ [Cg _]]. destruct (Cg _ Qx) as [Z|[i [[] _]]]. exact Z. }
    (* the next round *)
    assert (Again : forall jk' h4, length jk' = nvs named -> reaches fs (mk (here (cg c2)) s (K ++ map STmp (jk ++ [it])) h) (mk (nth start sta 0) s3 (K ++ map STmp (jk' ++ [it])) h4) ->
      fin (capsB b) K s h s3 K h4 -> globals s3 = globals s ->
      esim fs (mk (here (cg c2)) s (K ++ map STmp (jk ++ [it])) h) (exec_for P funs n fr named it b el s3) (Qo X gl fr K s h (capsB b ++ capsOS el) (mk (here (cg c2)) s (K ++ map STmp (jk ++ [it])) h) (here (cg cc)) 0 false brks)).
    { intros jk' h4 Lj' R Fi Eg. eapply (chain0 X gl fr K s h (capsB b) (capsB b ++ capsOS el)); [exact R|exact Fi|exact Eg| |intros i Hi; rewrite !in_app_iff in *; tauto|intros i Hi; exact Hi].
      pose proof (IF X gl brks named it b el sd fr M Fs Fo s3 K h4 c1 l0 bs jk' outer O1 Dl Lv Lb Dp Lj') as Z. cbv zeta in Z. fold N start in Z.
      change (end_loop outer (f_loop sd named N b el c1)) with (end_loop outer c9) in Z. rewrite EC in Z.
      apply Z; auto. eapply hyps_again; [exact Hy|exact Fi|exact Eg|]. intros j Hj Hn. apply SubM; auto. apply in_app_iff; auto. }
    assert (FinB : forall h4, inv s3 K h4 -> (forall x, capd h4 K x -> exists y, y = x /\ capd h3 KB y) -> cg2 F (capsB b) KB h KB h3 -> (exists l, senvs s3 = senvs s2 ++ l) -> fin (capsB b) K s h s3 K h4).
    { intros h4 I4 C4 Cg Se. split; [exact I4|]. split.
      - intros x Qx. destruct (C4 x Qx) as (y & -> & Qy). destruct (Cg _ Qy) as [Z|Z]; auto.
      - destruct Iw as [_ [_ [l1 S1]]]. destruct Fi2 as [_ [_ [l2' S2]]]. destruct Se as [l3 S3]. exists (l1 ++ l2' ++ l3). rewrite S3, S2, S1. now rewrite !app_assoc. }
    destruct o as [ls lv'| | |rv].
    + destruct Q as (new2 & E1 & Ln2 & Dv & Fi3 & Eg3 & R3). destruct new2; [|discriminate]. destruct lv'; [discriminate|]. cbn [map dlv app] in *. rewrite !app_nil_r in *.
      destruct Fi3 as [I3 [Cg3 Se3]]. unfold c6 in F6. rewrite cg_pop in F6. rewrite app_nil_r in F6. destruct (at_pushes C T G sta HL _ (cg c5) O5 F6) as [Cd Eh].
      destruct (scope_sim (S sd) N fs (here (cg c5)) (lv c5) KB s3 h3 [] S5) as (h4 & R4 & I4 & C4); [congruence|exact I3| |exact Cd|].
      { intros j Hj Qx. destruct (Cg3 _ Qx) as [Z|[i [Z1 Z2]]].
        - apply CB in Z. apply capd_lt in Z. lia.
        - replace i with j in Z1 by lia. rewrite L5. apply flagged_in; auto. apply capd_lt in Qx. lia. }
      cbn [map] in R4. rewrite !app_nil_r in R4. rewrite FB, SB in R4, I4, C4.
      assert (EJ : map STmp (render (store s3) (map SVar new ++ [STmp it])) = map STmp (map (fun l => nth l (store s3) HNil) new ++ [it])).
      { f_equal. unfold render. rewrite map_app, map_map. reflexivity. }
      rewrite EJ in R4, I4, C4. clear EJ. set (jk' := map (fun l => nth l (store s3) HNil) new) in *.
      eapply (Again jk' h4); [unfold jk'; rewrite map_length; exact Ln| | |congruence].
      * eapply reaches_trans; [exact R2|]. eapply reaches_trans; [exact R3|]. eapply reaches_trans; [exact R4|]. rewrite <- Eh. apply go_reaches.
        unfold c6 in Go6. rewrite cg_pop, app_nil_r in Go6. exact Go6.
      * eapply FinB; [eapply inv_same; [apply same_vars_sym, tmps_same|exact I4]| |exact Cg3|exact Se3]. intros x Qx. exists x. split; [reflexivity|]. apply C4. eapply capd_same; [apply tmps_same|exact Qx].
    + destruct Q as (_ & Fi3 & Eg3 & j & Hj & R3). change (x_nb XB) with N in Fi3, R3. rewrite FB in Fi3, R3. destruct Fi3 as [I3 [Cg3 Se3]].
      eapply loop_skip with (h' := h3); [eapply fin_incl; [|intros i Hi; apply in_app_iff; left; exact Hi]| congruence|].
      * split; [exact I3|]. split; [intros x Qx; destruct (Cg3 _ Qx) as [Z|Z]; auto|].
        destruct Iw as [_ [_ [l1 S1]]]. destruct Fi2 as [_ [_ [l2' S2]]]. destruct Se3 as [l3 S3]. exists (l1 ++ l2' ++ l3). rewrite S3, S2, S1. now rewrite !app_assoc.
      * eapply reaches_trans; [exact R2|]. eapply reaches_trans; [exact R3|]. apply go_reaches, Gob.
        eapply cgrow_brk; [exact A9|]. unfold c8. rewrite brk_pop. unfold c7, c6j. cbn [on_g brk]. unfold c6. rewrite brk_pop. exact Hj.
    + destruct Q as (Ec & Fi3 & Eg3 & R3). change (x_nin XB) with (length (lv c4)) in Fi3, R3. rewrite <- LKB, firstn_all in Fi3, R3. cbn [XB x_lp xfor] in Ec. injection Ec as Ec. apply negb_true_iff in Ec.
      destruct Fi3 as [I3 [Cg3 Se3]]. unfold XB in R3. cbn [xfor x_lc] in R3.
      assert (NoC : forall x, length K <= x -> ~ capd h3 KB x).
      { intros x Lx Qx. destruct (Cg3 _ Qx) as [Z|[i [Z1 Z2]]]; [apply CB, capd_lt in Z; lia|].
        assert (Hn : named = true /\ i = N). { pose proof (capd_lt _ _ _ Qx) as Lt. destruct Qx as (k & l & _ & Qn). unfold KB in Qn, Lt. rewrite !app_length, map_length in Lt. cbn [length] in Lt.
          destruct named; cbn [nvs] in *.
          - split; auto. destruct (Nat.eq_dec x (length (K ++ map SVar new))) as [->|NE]; [rewrite mid_at in Qn; discriminate|]. rewrite app_length, map_length in NE. lia.
          - exfalso. destruct new; [|discriminate]. cbn [map length] in *. rewrite app_nil_r in Qn. replace x with (length K) in Qn by lia. rewrite mid_at in Qn. discriminate. }
        destruct Hn as [-> ->]. cbn [andb] in Ec. assert (Tr : mem N (capsB b) = true) by (unfold mem; apply existsb_exists; exists N; split; [exact Z1|apply Nat.eqb_refl]). congruence. }
      destruct (untag_all s3 K new it h3 I3 ltac:(rewrite Ln; destruct named; cbn; lia) NoC) as [I4 C4].
      eapply (Again (map (fun l => nth l (store s3) HNil) new) h3); [rewrite map_length; exact Ln| | |congruence].
      * eapply reaches_trans; [exact R2|]. rewrite (mk_render P fs li un _ s3 _ _ h3 (render_new s3 K new it)) in R3. exact R3.
      * eapply FinB; [exact I4| |exact Cg3|exact Se3]. intros x Qx. exists x. auto.
    + destruct Q as (Er & Fi3 & Eg3 & own & i & Hi & R3). assert (FK : firstn F KB = firstn F K) by (unfold KB; rewrite <- app_assoc, firstn_app; replace (F - length K) with 0 by lia; cbn [firstn]; apply app_nil_r).
      rewrite FK in Fi3, R3. cbn [esim ret]. exists h3. split; [exact Er|]. split; [|split; [congruence|exists own, i; split; [exact Hi|]; eapply reaches_trans; [exact R2|exact R3]]].
      destruct Fi3 as [I3 [Cg3 Se3]]. split; [exact I3|]. split.
      * intros x Qx. destruct (Cg3 _ Qx) as [Z|[i' [Z1 Z2]]]; [left; auto|]. right. exists i'. split; auto. apply in_app_iff; auto.
      * destruct Iw as [_ [_ [l1 S1]]]. destruct Fi2 as [_ [_ [l2' S2]]]. destruct Se3 as [l3 S3]. exists (l1 ++ l2' ++ l3). rewrite S3, S2, S1. now rewrite !app_assoc.
  - (* no more values *)
    specialize (Sw w). specialize (Iw w). set (s1 := with_world P w s) in *. assert (Eg1 : globals s1 = globals s) by reflexivity. clearbody s1.
    rewrite <- app_assoc in R0. change [STmp it] with (map STmp [it]) in R0. rewrite <- map_app in R0.
    assert (L8 : lv c8 = mark_from 0 (capsB b) l0).
    { unfold c8. rewrite (lv_pop _ _ _ _ N); [|exact S5]. change (lv c7) with (lv c5). rewrite L5, L4, mark_firstn. f_equal. now apply firstn_len_app. }
    assert (R1 : reaches fs (mk (here (cg c7)) s1 (K ++ map STmp (jk ++ [it])) h) (mk (here (cg c8)) s1 K h)).
    { unfold c8 in F8 |- *. rewrite cg_pop in F8 |- *. cbn [app] in F8 |- *. destruct (at_pushes C T G sta HL _ (cg c7) O7 F8) as [Cd Eh]. rewrite Eh. rewrite repeat_length.
      assert (Es : in_scope (S sd) (lv c7) = length (map STmp (jk ++ [it]))).
      { change (lv c7) with (lv c5). rewrite (split_in_scope _ _ _ S5), N5, map_length, app_length, Lj. cbn [length]. lia. }
      rewrite Es in *. apply pops_sim. exact Cd. }
    assert (Hy8 : hyps (xfor sd start N false N) (S sd) fr M Fo s1 K h c8).
    { eapply hyps_F; [|exact SubF]. change N with (length (lv (f_top c1 l0))) at 3. eapply hyps_mark; [exact Sw|exact (cgrow_trans _ _ _ A7 A8)|exact L8]. }
    pose proof (IO (xfor sd start N false N) sd fr M Fo s1 K h c8 el Hy8) as Q. cbv zeta in Q. rewrite L8 in Q. rewrite mark_len in Q. fold N in Q.
    assert (D8 : delay c8 = false) by (unfold c8; rewrite delay_pop; unfold c7, c6j, c6; cbn [on_g delay]; rewrite delay_pop; apply delay_dpop).
    specialize (Q ltac:(now apply depths_mark) D8 F9 Ok2). change (copt top sd (x_lc (xfor sd start N false N)) el c8) with c9 in Q.
    pose proof (reaches_trans _ _ _ _ _ _ _ R0 R1) as R3.
    eapply esim_bind; [eapply esim_step; [exact R3|exact Q|intros o s2 Z; exact Z]|]. intros o s2 Qo2. 
    pose proof (loop_out (xfor sd start N false N) N start (S sd) (S (S sd)) _ _ _ _ _ _ _ _ o s2 Qo2 eq_refl (fun _ => eq_refl) eq_refl LK) as LO. destruct o as [ls lv'| | |rv].
    + destruct LO as (h2 & Fi2 & Eg2 & R4). eapply loop_skip with (h' := h2); [eapply fin_incl; [eapply fin_trans; [exact Iw|exact Fi2]|intros i Hi; apply in_app_iff; right; exact Hi]|congruence|].
      eapply reaches_trans; [exact R3|]. eapply reaches_trans; [exact R4|]. now apply go_reaches.
    + destruct LO as (h2 & j & Fi2 & Eg2 & Hj & R4). eapply loop_skip with (h' := h2); [eapply fin_incl; [eapply fin_trans; [exact Iw|exact Fi2]|intros i Hi; apply in_app_iff; right; exact Hi]|congruence|].
      eapply reaches_trans; [exact R3|]. eapply reaches_trans; [exact R4|]. apply go_reaches, Gob. exact Hj.
    + destruct LO as (E & _). discriminate.
    + cbn [esim ret]. eapply Qo_incl; [|intros i Hi; apply in_app_iff; right; exact Hi|intros i Hi; exact Hi]. eapply Qo_pre; [exact R3|]. change (capsOS el) with ([] ++ capsOS el). eapply Qo_after0; [exact Iw|exact Eg1|]. apply LO.
Qed.
Lemma hyps_forl X sd fr M Fs s K h c c1 L : hyps X sd fr M Fs s K h c -> isopen (cg c1) ->
  hyps (xfor sd (length (cg c1)) (length (lv c)) false (length (lv c))) (S sd) fr (under (length (lv c)) L ++ M) Fs s K h (f_top c1 (lv c)).
Proof.
  intros [A [Pr Le Lo Cp Mb] D E H] O1. assert (Mb' : forall j, In j (under (length (lv c)) L ++ M) -> j < length (lv c)).
  { intros j Hj. apply in_app_iff in Hj. destruct Hj as [Hj|Hj]; auto. apply filter_In in Hj. now apply Nat.ltb_lt. }
  split; cbn [f_top lv cg]; auto.
  - now apply lstart_open.
  - split; auto. intros j Q. destruct (Cp j Q); auto. right. apply in_app_iff. auto.
  - apply (depths_le sd); auto.
  - unfold lrel, xfor. cbn [x_lc x_lp x_nb x_nin lstart lv cg]. rewrite br_len. split; [now apply split_top|]. split; [lia|]. split; [auto|]. split; [lia|]. discriminate.
Qed.
Lemma f_loop_grow sd named N b el c1 : isopen (cg c1) -> cgrow (lstart c1) (f_loop sd named N b el c1).
Proof.
  intro O1. unfold f_loop. cbv zeta. set (start := length (cg c1)). set (lc := Some (start, S sd, S (S sd))).
  set (c2 := lstart c1) in *. pose proof (lstart_open c1 O1) as O2. fold c2 in O2.
  set (c3 := on_g (fun _ => fst (g_branch_forward (cg c2))) c2) in *. assert (A3 : cgrow c2 c3) by (now apply cgrow_bf). pose proof (cgrow_open _ _ A3) as O3.
  set (c4 := on_g (g_pushes (f_bind named N)) c3) in *. assert (A4 : cgrow c3 c4) by (apply cgrow_on, grow_pushes; exact O3). pose proof (cgrow_open _ _ A4) as O4.
  pose proof (g_block b (S sd) lc c4 O4) as A5. set (c5 := dpop (in_block (S sd) (cstmts top (S (S sd)) lc b) c4)) in *. pose proof (cgrow_open _ _ A5) as O5.
  set (c6 := pop_locals (S sd) false false true c5) in *. assert (A6 : cgrow c5 c6) by (now apply cgrow_pop_locals). pose proof (cgrow_open _ _ A6) as O6.
  set (c6j := on_g (fun g => g_join_reverse g start BrJump) c6) in *. assert (A6j : cgrow c6 c6j) by (apply cgrow_on, grow_jr; exact O6). pose proof (cgrow_open _ _ A6j) as O6j.
  set (c7 := on_g (fun g => g_join_forward g (length (cg c2) - 1) BrTestIter) c6j) in *.
  assert (A36 : cgrow c3 c6j) by (eapply cgrow_trans; [exact A4|]; eapply cgrow_trans; [exact A5|]; eapply cgrow_trans; [exact A6|exact A6j]).
  assert (A7 : cgrow c2 c7) by (apply cgrow_bf_jf; [now apply cgrow_refl|exact A36]). pose proof (cgrow_open _ _ A7) as O7.
  eapply cgrow_trans; [exact A7|]. assert (A8 : cgrow c7 (pop_locals (S sd) true true false c7)) by (now apply cgrow_pop_locals). eapply cgrow_trans; [exact A8|]. apply g_opt. eapply cgrow_open; exact A8.
Qed.
Lemma x_for n named e b el : P_eval n -> P_tree n -> P_for n -> XC (S n) (SFor named e b el).
Proof.
  intros IE IT IF X sd fr M Fs s K h c Hy Dl c' gl Ft Ok Gk m0. rewrite exec_S. cbv zeta. unfold c' in *. clear c'. rewrite (for_eq sd (x_lc X) named e b el c Dl) in *.
  pose proof (y_open _ _ _ _ _ _ _ _ _ _ _ _ Hy) as O. set (N := length (lv c)) in *. set (c1 := f_pre sd named e c) in *. cbn [declares leaves]. set (x := SFor named e b el) in *.
  set (cn := if named then cpush (OConst HNil) c else c). set (vs := if named then [HNil] else []).
  assert (An : cgrow c cn) by (unfold cn; destruct named; [now apply cgrow_push|now apply cgrow_refl]). pose proof (cgrow_open _ _ An) as On.
  assert (Ec : cg c1 = g_push (OPrim PInitIter) (cg (cex e cn))) by (unfold c1, f_pre, cn; destruct named; reflexivity).
  assert (Bc : brk c1 = brk c) by (unfold c1, f_pre; destruct named; reflexivity).
  assert (Oe : isopen (cg (cex e cn))) by (eapply cgrow_open; apply cgrow_cex; exact On).
  assert (O1 : isopen (cg c1)) by (rewrite Ec; oo).
  pose proof (f_loop_grow sd named N b el c1 O1) as A2.
  destruct (loop_end (lstart c1) _ (brk c) A2 eq_refl Ft) as (F6 & _ & _).
  assert (F2 : fits (cg (lstart c1)) G) by (eapply fits_cgrow; [exact A2|exact F6]).
  assert (F1 : fits (cg c1) G) by (eapply fits_grow; [apply grow_br; exact O1|exact F2]).
  assert (Fe : fits (cg (cex e cn)) G) by (rewrite Ec in F1; eapply fits_grow; [apply (grow_push (OPrim PInitIter)); exact Oe|exact F1]).
  assert (Fn : fits (cg cn) G) by (eapply fits_cgrow; [apply cgrow_cex; exact On|exact Fe]).
  assert (Rn : reaches fs m0 (mk (here (cg cn)) s (K ++ map STmp vs) h)).
  { unfold m0, cn, vs in *. destruct named; cbn [map]; [|rewrite app_nil_r; apply reaches_refl]. eapply (go_push P C T G sta (OConst HNil)); [exact HL|exact O|exact Fn|apply s_const]. }
  assert (Lcn : lv cn = lv c) by (unfold cn; destruct named; reflexivity).
  assert (Hn : hyps X sd fr M Fs s K h cn) by (eapply hyps_grow; [exact Hy|exact An|exact Lcn]).
  pose proof (ex_sim n X sd fr M Fs s K h cn e vs IE Hn Fe) as E. cbv zeta in E.
  eapply esim_bind; [eapply esim_step; [exact Rn|exact E|intros v s1 Z; exact Z]|]. clear E. intros v s1 (h1 & Hy1 & Fi1 & Eg1 & R1). rewrite Lcn in Hy1. fold N in Hy1.
  pose proof (pre_tmps P _ _ _ _ vs _ _ (y_prep _ _ _ _ _ _ _ _ _ Hy1)) as Pr. pose proof Pr as [Iv Gv _ _]. rewrite Ec in F1.
  pose proof (prim_push P C T funs n G sta PInitIter (cg (cex e cn)) [v] fs li un s1 (K ++ map STmp vs) h1 F IT HL Oe F1 Iv Gv eq_refl) as E. cbv zeta in E. rewrite <- Ec in E. cbn [map] in E.
  pose proof (reaches_trans _ _ _ _ _ _ _ Rn R1) as R2.
  eapply esim_bind; [eapply esim_step; [exact R2|exact E|intros it s2 Z; exact Z]|]. clear E. intros it s2 (h2 & Po & R3). apply post_untmps in Po.
  pose proof (fin_post _ _ _ _ _ _ _ _ Po) as Fi2. assert (Eg2 : globals s2 = globals s1) by apply Po.
  assert (Hy2 : hyps X sd fr M (under N (capsE e ++ Fs)) s2 K h2 (cex e cn)).
  { eapply hyps_again; [exact Hy1|exact Fi2|exact Eg2|intros j []]. }
  assert (Rs : reaches fs m0 (mk (nth (length (cg c1)) sta 0) s2 (K ++ map STmp (vs ++ [it])) h2)).
  { eapply reaches_trans; [exact R2|]. eapply reaches_trans; [exact R3|]. rewrite map_app, app_assoc. cbn [map]. apply go_reaches. destruct (at_br P C T G sta HL (cg c1) O1 F2) as [A <-]. exact A. }
  set (l0 := mark_from 0 (capsE e) (lv c)). assert (L0 : length l0 = N) by (unfold l0; apply mark_len).
  assert (Le : lv (cex e cn) = l0) by (unfold l0; rewrite <- Lcn; reflexivity).
  set (bs := (if named then [existsb (Nat.eqb N) (capsE e)] else []) ++ [false]).
  assert (L1 : lv c1 = l0 ++ map (pair (S sd)) bs).
  { unfold c1, f_pre, bs, l0. destruct named; cbn [cpush declare_local with_lv on_g lv cex mark map app]; [|reflexivity]. rewrite mark_app. cbn [mark_from Nat.add]. rewrite <- app_assoc. reflexivity. }
  assert (D1 : delay c1 = false) by (unfold c1, f_pre; destruct named; exact Dl).
  assert (Dp : depths sd l0) by (apply depths_mark; apply (y_dep _ _ _ _ _ _ _ _ _ _ _ _ Hy)).
  cbn [okS] in Ok. fold x in Ok. fold N in Ok. apply andb_true_iff in Ok. destruct Ok as [Ok1 Ok2].
  eapply (chain0 X gl fr K s h (capsE e) (capsB b ++ capsOS el) (capsS x)); [exact Rs|eapply fin_incl; [eapply fin_trans; [exact Fi1|exact Fi2]|intros i Hi; rewrite app_nil_r in Hi; exact Hi]|congruence| |intros i Hi; exact Hi|intros i Hi; exact Hi].
  pose proof (hyps_forl X sd fr M _ s2 K h2 (cex e cn) c1 (capsS x) Hy2 O1) as Hf. rewrite Le, L0 in Hf.
  pose proof (IF X gl (brk c) named it b el sd fr (under N (capsS x) ++ M) (under N (capsE e ++ Fs)) (under N (capsE e ++ capsB b ++ Fs)) s2 K h2 c1 l0 bs vs (brk c) O1 D1 L1) as Z. cbv zeta in Z. rewrite L0 in Z. apply Z.
  - unfold bs. destruct named; reflexivity.
  - exact Dp.
  - unfold vs. destruct named; reflexivity.
  - exact Hf.
  - intros j Hj Hn'. apply in_app_iff. left. apply in_under; auto. unfold x. cbn [capsS]. apply in_app_iff. auto.
  - intros j Hj. apply filter_In in Hj. destruct Hj as [Hj Hl]. apply filter_In. split; auto. rewrite !in_app_iff in *. destruct Hj as [Hj|[Hj|Hj]]; auto; right; apply filter_In; split; auto; rewrite in_app_iff; auto.
  - exact Ft.
  - replace (N + S (nvs named)) with (if named then S (S N) else S N) by (destruct named; cbn [nvs]; lia). exact Ok1.
  - exact Ok2.
Qed.
(** ** All statements *)
Lemma xc_all n : (forall m, m <= n -> P_eval m /\ P_block m /\ P_opt m /\ P_else m /\ P_tree m /\ P_for m) -> forall x m, m <= S n -> XC m x.
Proof.
  intros H x m Lm. destruct x; try (destruct m as [|m]; [intros X sd fr M Fs s K h ? ? ? ? ? ? ? ? ?; exact Logic.I|]; destruct (H m ltac:(lia)) as (IE & IB & IO & IL & IT & IF)).
  - now apply x_expr.
  - now apply x_semi.
  - now apply x_let.
  - now apply x_letnil.
  - now apply x_fn.
  - now apply x_struct.
  - now apply x_return.
  - now apply x_if.
  - apply x_loops; [exact Logic.I|]. clear IE IB IO IL IT IF. assert (Z : forall m, m <= S n -> P_loops m (SWhile c b els)).
    { induction m0 as [|m0 IH]; intro L0; [intros X sd fr M Fs s K h c0 gl O Dp Dl Hy c' Ft Ok m1; exact Logic.I|].
      destruct (H m0 ltac:(lia)) as (IE & IB & IO & IL & IT & IF). apply step_while; auto. apply IH. lia. }
    apply Z. exact Lm.
  - apply x_loops; [exact Logic.I|]. clear IE IB IO IL IT IF. assert (Z : forall m, m <= S n -> P_loops m (SDo b c els)).
    { induction m0 as [|m0 IH]; intro L0; [intros X sd fr M Fs s K h c0 gl O Dp Dl Hy c' Ft Ok m1; exact Logic.I|].
      destruct (H m0 ltac:(lia)) as (IE & IB & IO & IL & IT & IF). apply step_do; auto. apply IH. lia. }
    apply Z. exact Lm.
  - apply x_loops; [exact Logic.I|]. clear IE IB IO IL IT IF. assert (Z : forall m, m <= S n -> P_loops m (SLoop b)).
    { induction m0 as [|m0 IH]; intro L0; [intros X sd fr M Fs s K h c0 gl O Dp Dl Hy c' Ft Ok m1; exact Logic.I|].
      destruct (H m0 ltac:(lia)) as (IE & IB & IO & IL & IT & IF). apply step_loop; auto. apply IH. lia. }
    apply Z. exact Lm.
  - now apply x_for.
  - now apply x_break.
  - now apply x_continue.
  - now apply x_assert.
  - now apply x_assertcmp.
Qed.
End sim6.
