(** Statements only add to the graph; where things end up in the finished code. *)
From Verif Require Import Base Native Err Vm VmProofs Graph GraphSpec GraphProofs Peep Lang Compile CompGraph.
Local Open Scope nat_scope.

Lemma bf_len g : length (fst (g_branch_forward g)) = S (length g).
Proof. unfold g_branch_forward. simpl. rewrite app_length. simpl. lia. Qed.
Lemma br_len g : length (fst (g_branch_reverse g)) = S (length g).
Proof. unfold g_branch_reverse. simpl. rewrite app_length, len_g_end. simpl. lia. Qed.
Lemma jr_len g b ty : length (g_join_reverse g b ty) = S (length g).
Proof. unfold g_join_reverse. rewrite app_length, len_g_end. simpl. lia. Qed.

(** [c'] continues [c]; the new breaks are pending *)
Definition news (g0 g : graph) (new : list nat) : Prop :=
  NoDup new /\ Forall (fun b => pending g b /\ length g0 <= S b) new.
Definition cgrow (c c' : cs) : Prop :=
  grow (cg c) (cg c') /\ exists new, brk c' = brk c ++ new /\ news (cg c) (cg c') new.
Lemma news_nil g g' : news g g' []. Proof. split; constructor. Qed.
Lemma news_grow g0 g g' n : news g0 g n -> grow g g' -> news g0 g' n.
Proof. intros [A B] G. split; auto. eapply Forall_impl; [|exact B]. intros b [X Y]. split; auto. eapply pending_grow; eauto. Qed.
Lemma NoDup_app_disj {A} (a b : list A) : NoDup a -> NoDup b -> (forall x, In x a -> In x b -> False) -> NoDup (a ++ b).
Proof.
  intros H1 H2 H3. induction a as [|x a IH]; simpl; auto. inversion H1; subst. constructor.
  - rewrite in_app_iff. intros [I|I]; [auto | apply (H3 x); simpl; auto].
  - apply IH; auto. intros y Y1 Y2. apply (H3 y); simpl; auto.
Qed.
Lemma cgrow_same c g : grow (cg c) g -> forall c', cg c' = g -> brk c' = brk c -> cgrow c c'.
Proof. intros G c' <- E. split; auto. exists []. rewrite app_nil_r. split; auto. apply news_nil. Qed.
Lemma news_app g0 g1 g2 a b : grow g0 g1 -> grow g1 g2 -> news g0 g1 a -> news g1 g2 b -> news g0 g2 (a ++ b).
Proof.
  intros G1 G2 [A1 A2] [B1 B2]. pose proof (grow_len _ _ G1). split.
  - apply NoDup_app_disj; auto. intros x X Y. rewrite Forall_forall in A2, B2.
    destruct (A2 x X) as [[U _] _]. destruct (B2 x Y) as [_ V]. lia.
  - apply Forall_app. split.
    + eapply Forall_impl; [|exact A2]. intros x [X Y]. split; auto. eapply pending_grow; eauto.
    + eapply Forall_impl; [|exact B2]. intros x [X Y]. split; auto. lia.
Qed.
Lemma cgrow_trans a b d : cgrow a b -> cgrow b d -> cgrow a d.
Proof.
  intros [G [n [E N]]] [G' [n' [E' N']]]. split; [eapply grow_trans; eauto|].
  exists (n ++ n'). rewrite E', E, app_assoc. split; auto. eapply news_app; eauto.
Qed.
Lemma cgrow_refl c : isopen (cg c) -> cgrow c c.
Proof. intro O. eapply cgrow_same; [apply grow_refl|reflexivity|reflexivity]. auto. Qed.
Lemma cgrow_open c c' : cgrow c c' -> isopen (cg c').
Proof. intros [G _]. eapply grow_open; eauto. Qed.
Lemma cgrow_open0 c c' : cgrow c c' -> isopen (cg c).
Proof. intros [G _]. eapply grow_open0; eauto. Qed.
Lemma cgrow_on f c : grow (cg c) (f (cg c)) -> cgrow c (on_g f c).
Proof. intro G. eapply cgrow_same; [exact G|reflexivity|reflexivity]. Qed.
Lemma cgrow_push o c : isopen (cg c) -> cgrow c (cpush o c).
Proof. intro O. apply cgrow_on. now apply grow_push. Qed.
Lemma cgrow_dpop c : isopen (cg c) -> cgrow c (dpop c).
Proof.
  intro O. unfold dpop. destruct (delay c); [|now apply cgrow_refl].
  eapply cgrow_same; [apply (grow_push OPop); exact O|reflexivity|reflexivity].
Qed.
Lemma cgrow_lv c l : isopen (cg c) -> cgrow c (with_lv l c).
Proof. intro O. eapply cgrow_same; [apply grow_refl; auto|reflexivity|reflexivity]. Qed.
Lemma cgrow_cex e c : isopen (cg c) -> cgrow c (cex e c).
Proof. intro O. eapply cgrow_same; [apply (proj1 expr_grow); exact O|reflexivity|reflexivity]. Qed.
Lemma cgrow_pop_locals sc m p l c : isopen (cg c) -> cgrow c (pop_locals sc m p l c).
Proof.
  intro O. unfold pop_locals. cbv zeta. eapply cgrow_same; [eapply grow_pushes; exact O| |]; destruct m; reflexivity.
Qed.
Lemma cgrow_init top sd c : isopen (cg c) -> cgrow c (init_local top sd c).
Proof. intro O. unfold init_local. destruct (top && _); [now apply cgrow_push | now apply cgrow_refl]. Qed.
Lemma cgrow_in_block sd body c : (forall c, isopen (cg c) -> cgrow c (body c)) -> isopen (cg c) -> cgrow c (in_block sd body c).
Proof.
  intros H O. unfold in_block. pose proof (cgrow_dpop c O) as A.
  eapply cgrow_trans; [exact A|]. pose proof (H _ (cgrow_open _ _ A)) as B. eapply cgrow_trans; [exact B|].
  apply cgrow_pop_locals. eapply cgrow_open; eauto.
Qed.
Lemma cgrow_cmsg m c : isopen (cg c) -> cgrow c (cmsg m c).
Proof. intro O. destruct m; [now apply cgrow_cex | now apply cgrow_push]. Qed.
(** a forward branch, code, a join *)
Lemma cgrow_bf c : isopen (cg c) -> cgrow c (on_g (fun _ => fst (g_branch_forward (cg c))) c).
Proof. intro O. apply cgrow_on. now apply grow_bf. Qed.
Lemma cgrow_jf c c' b ty : cgrow c c' -> pending (cg c') b -> length (cg c) <= S b ->
  (forall new, brk c' = brk c ++ new -> ~ In b new) ->
  cgrow c (on_g (fun g => g_join_forward g b ty) c').
Proof.
  intros [G [n [E [N1 N2]]]] Pb L NI. split; [cbn [on_g cg]; now apply grow_jf|]. exists n. split; [exact E|]. split; auto. cbn [on_g cg].
  specialize (NI n E). rewrite Forall_forall in *. intros x X. destruct (N2 x X). split; auto. apply pending_jf; auto.
  intros ->. auto.
Qed.
Lemma cgrow_new_ge c0 c c' b : cgrow c0 c -> cgrow c c' -> S b < length (cg c) -> (forall new, brk c = brk c0 ++ new -> ~ In b new) ->
  forall new, brk c' = brk c0 ++ new -> ~ In b new.
Proof.
  intros [_ [n0 [E0 _]]] [_ [n [E [_ N]]]] L NI new Q I. rewrite E, E0, <- app_assoc in Q. apply app_inv_head in Q. subst new.
  apply in_app_iff in I. destruct I as [I|I]; [now apply (NI n0)|]. rewrite Forall_forall in N. destruct (N b I) as [_ X]. lia.
Qed.
Lemma cgrow_bf_jf c0 c c2 ty : cgrow c0 c -> cgrow (on_g (fun _ => fst (g_branch_forward (cg c))) c) c2 ->
  cgrow c0 (on_g (fun g => g_join_forward g (length (cg c) - 1) ty) c2).
Proof.
  intros A B. pose proof (cgrow_open _ _ A) as O. pose proof (cgrow_bf c O) as F.
  pose proof (open_pos _ O). pose proof (open_pos _ (cgrow_open0 _ _ A)). pose proof (grow_len _ _ (proj1 A)).
  assert (AF : cgrow c0 (on_g (fun _ => fst (g_branch_forward (cg c))) c)) by (eapply cgrow_trans; eauto).
  apply cgrow_jf.
  - eapply cgrow_trans; eauto.
  - eapply pending_grow; [|exact (proj1 B)]. apply (pending_bf (cg c) O).
  - lia.
  - eapply cgrow_new_ge; [exact AF|exact B| |].
    + cbn [on_g cg]. rewrite bf_len. lia.
    + intros new Q I. cbn [on_g brk] in Q. destruct A as [_ [n0 [E0 [_ N]]]]. rewrite E0 in Q. apply app_inv_head in Q. subst new.
      rewrite Forall_forall in N. destruct (N _ I) as [[X _] _]. lia.
Qed.
(** [on_g (fun _ => g)] with [g] a branch of the current graph *)
Lemma cgrow_loop c0 c c' start : cgrow (CS (fst (g_branch_reverse (cg c))) (delay c) (lv c) []) c' -> isopen (cg c) -> cgrow c0 c ->
  start = brk c -> cgrow c0 (end_loop start c').
Proof.
  intros [G [n [E [N1 N2]]]] O [G0 [n0 [E0 M]]] ->. cbn [cg brk] in *. rewrite app_nil_l in E.
  assert (GG : grow (cg c) (cg c')) by (eapply grow_trans; [apply grow_br; exact O|exact G]).
  pose proof (grow_len _ _ G0).
  split; unfold end_loop; cbn [cg brk].
  - apply grow_join_all; [eapply grow_trans; eauto| |].
    + rewrite E. rewrite map_map. simpl. rewrite map_id. exact N1.
    + rewrite E. apply Forall_map. eapply Forall_impl; [|exact N2]. cbn [fst]. intros b [X Y]. split; auto. rewrite br_len in Y. lia.
  - exists n0. split; auto. eapply news_grow; [exact M|].
    apply grow_join_all; auto.
    + rewrite E. rewrite map_map. simpl. rewrite map_id. exact N1.
    + rewrite E. apply Forall_map. eapply Forall_impl; [|exact N2]. cbn [fst]. intros b [X Y]. split; auto. rewrite br_len in Y. lia.
Qed.

Local Ltac op := first [assumption | match goal with
  | H : cgrow _ ?c |- isopen (cg ?c') => unify c c'; exact (cgrow_open _ _ H)
  | H : cgrow ?c _ |- isopen (cg ?c') => unify c c'; exact (cgrow_open0 _ _ H) end].
Lemma stmt_grow :
  (forall s top sd lc c, isopen (cg c) -> cgrow c (cstmt top sd lc s c)) /\
  (forall b top sd lc c, isopen (cg c) -> cgrow c (cstmts top sd lc b c)) /\
  (forall el top sd lc j c0 c, cgrow c0 c -> pending (cg c) j -> length (cg c0) <= S j ->
      (forall new, brk c = brk c0 ++ new -> ~ In j new) -> cgrow c0 (celse top sd lc j el c)) /\
  (forall el top sd lc c, isopen (cg c) -> cgrow c (copt top sd lc el c)).
Proof.
  apply stmt_all; intros; cbn [cstmt cstmts celse copt].
  - pose proof (cgrow_dpop c H) as A. eapply cgrow_trans; [exact A|]. pose proof (cgrow_cex e (dpop c) ltac:(op)) as B.
    eapply cgrow_trans; [exact B|]. eapply cgrow_same; [apply grow_refl; op|reflexivity|reflexivity].
  - now apply cgrow_dpop.
  - eapply cgrow_trans; [apply cgrow_dpop; auto|]. assert (O : isopen (cg (dpop c))) by (eapply cgrow_open, cgrow_dpop; auto).
    eapply cgrow_trans; [apply cgrow_lv; exact O|]. eapply cgrow_trans; [apply cgrow_cex; exact O|]. apply cgrow_init. eapply cgrow_open, cgrow_cex, O.
  - eapply cgrow_trans; [apply cgrow_dpop; auto|]. assert (O : isopen (cg (dpop c))) by (eapply cgrow_open, cgrow_dpop; auto).
    eapply cgrow_trans; [apply cgrow_lv; exact O|]. eapply cgrow_trans; [apply cgrow_init; exact O|]. apply cgrow_push. eapply cgrow_open, cgrow_init, O.
  - eapply cgrow_trans; [apply cgrow_dpop; auto|]. assert (O : isopen (cg (dpop c))) by (eapply cgrow_open, cgrow_dpop; auto).
    eapply cgrow_trans; [apply cgrow_lv; exact O|]. pose proof (cgrow_init top sd (declare_local sd (dpop c)) O) as A.
    eapply cgrow_trans; [exact A|]. eapply cgrow_same; [apply (grow_pushes (closure_ops f caps)); op|reflexivity|reflexivity].
  - eapply cgrow_trans; [apply cgrow_dpop; auto|]. assert (O : isopen (cg (dpop c))) by (eapply cgrow_open, cgrow_dpop; auto).
    eapply cgrow_trans; [apply cgrow_lv; exact O|]. eapply cgrow_trans; [apply cgrow_init; exact O|]. apply cgrow_push. eapply cgrow_open, cgrow_init, O.
  - eapply cgrow_trans; [apply cgrow_dpop; auto|]. assert (O : isopen (cg (dpop c))) by (eapply cgrow_open, cgrow_dpop; auto).
    set (c1 := match e with Some _ => _ | None => _ end). assert (A : cgrow (dpop c) c1) by (destruct e; [now apply cgrow_cex | now apply cgrow_push]).
    eapply cgrow_trans; [exact A|]. eapply cgrow_trans; [apply cgrow_pop_locals; op|]. apply cgrow_push. eapply cgrow_open, cgrow_pop_locals. op.
  - (* if *)
    rewrite bf_eq; cbv iota zeta beta. set (c1 := cex c (dpop c0)). assert (A : cgrow c0 c1) by (eapply cgrow_trans; [apply cgrow_dpop; auto|apply cgrow_cex; eapply cgrow_open, cgrow_dpop; auto]).
    set (c2 := on_g (fun _ => fst (g_branch_forward (cg c1))) c1). assert (B : cgrow c1 c2) by (apply cgrow_bf; op).
    set (c3 := in_block sd (cstmts top (S sd) lc b) c2). assert (D : cgrow c2 c3) by (apply cgrow_in_block; [auto|op]).
    pose proof (cgrow_dpop c3 ltac:(op)) as F. pose proof (open_pos _ (cgrow_open _ _ A)). pose proof (open_pos _ H1). pose proof (grow_len _ _ (proj1 A)).
    apply H0.
    + eapply cgrow_trans; [|exact F]. eapply cgrow_trans; [|exact D]. eapply cgrow_trans; eauto.
    + eapply pending_grow; [apply (pending_bf (cg c1)); op|]. exact (proj1 (cgrow_trans _ _ _ D F)).
    + lia.
    + eapply cgrow_new_ge; [exact (cgrow_trans _ _ _ A B)|exact (cgrow_trans _ _ _ D F)| |].
      * unfold c2. cbn [on_g cg]. rewrite bf_len. lia.
      * unfold c2. cbn [on_g brk]. intros new Q I. destruct A as [_ [n0 [E0 [_ N]]]]. rewrite E0 in Q. apply app_inv_head in Q. subst new.
        rewrite Forall_forall in N. destruct (N _ I) as [[X _] _]. lia.
  - (* while *)
    assert (O : isopen (cg (dpop c0))) by (eapply cgrow_open, cgrow_dpop; auto).
    unfold begin_loop. rewrite br_eq. cbv iota zeta beta. set (c1 := CS (fst (g_branch_reverse (cg (dpop c0)))) _ _ []).
    assert (O1 : isopen (cg c1)) by (eapply grow_open, grow_br; exact O).
    set (c2 := cex c c1). assert (A : cgrow c1 c2) by (apply cgrow_cex; auto). rewrite bf_eq; cbv iota zeta beta.
    set (c3 := on_g (fun _ => fst (g_branch_forward (cg c2))) c2). assert (B : cgrow c2 c3) by (apply cgrow_bf; op).
    set (c4 := in_block sd _ c3). assert (D : cgrow c3 c4) by (apply cgrow_in_block; [auto|op]).
    pose proof (cgrow_dpop c4 ltac:(op)) as F. 
    eapply cgrow_loop; [|exact O|apply cgrow_dpop; auto|reflexivity]. fold c1.
    set (c5 := on_g (fun g => g_join_reverse g (length (cg (dpop c0))) BrJump) (dpop c4)).
    assert (G5 : cgrow (dpop c4) c5) by (apply cgrow_on, grow_jr; op).
    assert (G6 : cgrow c1 (on_g (fun g => g_join_forward g (length (cg c2) - 1) BrFalsePop) c5)).
    { apply cgrow_bf_jf; auto. fold c3. eapply cgrow_trans; [exact D|]. eapply cgrow_trans; eauto. }
    eapply cgrow_trans; [exact G6|]. apply H0. op.
  - (* do *)
    unfold begin_loop. rewrite br_eq. cbv iota zeta beta. set (c1 := CS (fst (g_branch_reverse (cg c0))) _ _ []).
    assert (O1 : isopen (cg c1)) by (eapply grow_open, grow_br; auto).
    eapply cgrow_loop; [|exact H1|apply cgrow_refl; auto|reflexivity]. fold c1.
    set (c4 := in_block sd _ c1). assert (D : cgrow c1 c4) by (apply cgrow_in_block; auto).
    pose proof (cgrow_dpop c4 ltac:(op)) as F. eapply cgrow_trans; [exact D|]. eapply cgrow_trans; [exact F|].
    destruct c as [e|]; [|apply H0; op].
    pose proof (cgrow_cex e (dpop c4) ltac:(op)) as Q. eapply cgrow_trans; [exact Q|].
    assert (G5 : cgrow (cex e (dpop c4)) (on_g (fun g => g_join_reverse g (length (cg c0)) BrTruePop) (cex e (dpop c4)))) by (apply cgrow_on, grow_jr; op).
    eapply cgrow_trans; [exact G5|]. apply H0. op.
  - (* loop *)
    assert (O : isopen (cg (dpop c))) by (eapply cgrow_open, cgrow_dpop; auto).
    unfold begin_loop. rewrite br_eq. cbv iota zeta beta. set (c1 := CS (fst (g_branch_reverse (cg (dpop c)))) _ _ []).
    assert (O1 : isopen (cg c1)) by (eapply grow_open, grow_br; exact O).
    eapply cgrow_loop; [|exact O|apply cgrow_dpop; auto|reflexivity]. fold c1.
    set (c4 := in_block sd _ c1). assert (D : cgrow c1 c4) by (apply cgrow_in_block; auto).
    pose proof (cgrow_dpop c4 ltac:(op)) as F. eapply cgrow_trans; [exact D|]. eapply cgrow_trans; [exact F|].
    apply cgrow_on, grow_jr. op.
  - (* for *)
    assert (O : isopen (cg (dpop c))) by (eapply cgrow_open, cgrow_dpop; auto). pose proof (cgrow_dpop c H1) as Z.
    set (x := length (lv (dpop c))).
    set (c1 := if named then cpush (OConst HNil) (declare_local (S sd) (dpop c)) else dpop c).
    assert (A1 : cgrow (dpop c) c1).
    { unfold c1. destruct named; [|now apply cgrow_refl]. eapply cgrow_trans; [apply (cgrow_lv _ (lv (dpop c) ++ [(S sd, false)])); exact O|]. apply cgrow_push. exact O. }
    set (c2 := cex e c1). assert (A2 : cgrow c1 c2) by (apply cgrow_cex; op).
    set (c3 := cpush (OPrim PInitIter) (declare_local (S sd) c2)).
    assert (A3 : cgrow c2 c3). { eapply cgrow_trans; [apply (cgrow_lv _ (lv c2 ++ [(S sd, false)])); op|]. apply cgrow_push. change (isopen (cg c2)). op. }
    assert (ZA : cgrow c c3) by (eapply cgrow_trans; [exact Z|]; eapply cgrow_trans; [exact A1|]; eapply cgrow_trans; eauto).
    unfold begin_loop. rewrite br_eq. cbv iota zeta beta. set (c4 := CS (fst (g_branch_reverse (cg c3))) _ _ []).
    assert (O4 : isopen (cg c4)) by (eapply grow_open, grow_br; op).
    rewrite bf_eq; cbv iota zeta beta. set (c5 := on_g (fun _ => if named then _ else _) c4).
    eapply cgrow_loop; [|op|exact ZA|reflexivity]. fold c4.
    assert (B : cgrow (on_g (fun _ => fst (g_branch_forward (cg c4))) c4) c5).
    { assert (OB : isopen (fst (g_branch_forward (cg c4)))) by (eapply grow_open, grow_bf; auto).
      unfold c5. eapply cgrow_same; [|reflexivity|reflexivity]. cbn [on_g cg].
      destruct named; [eapply grow_trans; apply grow_push; [auto|]; eapply grow_open, grow_push; auto | apply grow_push; auto]. }
    set (c6 := in_block (S sd) _ c5). assert (D : cgrow c5 c6) by (apply cgrow_in_block; [auto|op]).
    pose proof (cgrow_dpop c6 ltac:(op)) as F.
    set (c7 := pop_locals (S sd) false false true (dpop c6)). assert (A7 : cgrow (dpop c6) c7) by (apply cgrow_pop_locals; op).
    set (c8 := on_g (fun g => g_join_reverse g (length (cg c3)) BrJump) c7). assert (A8 : cgrow c7 c8) by (apply cgrow_on, grow_jr; op).
    assert (A9 : cgrow c4 (on_g (fun g => g_join_forward g (length (cg c4) - 1) BrTestIter) c8)).
    { apply cgrow_bf_jf; [now apply cgrow_refl|]. eapply cgrow_trans; [exact B|]. eapply cgrow_trans; [exact D|]. eapply cgrow_trans; [exact F|]. eapply cgrow_trans; eauto. }
    set (c9 := on_g _ c8) in A9.
    assert (A10 : cgrow c9 (pop_locals (S sd) true true false c9)) by (apply cgrow_pop_locals; op).
    eapply cgrow_trans; [exact A9|]. eapply cgrow_trans; [exact A10|]. apply H0. op.
  - (* break *)
    destruct lc as [[[st en] inn]|]; [|now apply cgrow_dpop].
    pose proof (cgrow_dpop c H) as A. set (c1 := pop_locals en false true true (dpop c)).
    assert (B : cgrow (dpop c) c1) by (apply cgrow_pop_locals; op). rewrite bf_eq; cbv iota zeta beta.
    eapply cgrow_trans; [exact A|]. eapply cgrow_trans; [exact B|].
    assert (O : isopen (cg c1)) by op. pose proof (open_pos _ O).
    split; [apply grow_bf; auto|]. exists [length (cg c1) - 1]. split; auto. split; [repeat constructor; auto|].
    constructor; [|constructor]. split; [now apply pending_bf|lia].
  - (* continue *)
    destruct lc as [[[st en] inn]|]; [|now apply cgrow_dpop].
    pose proof (cgrow_dpop c H) as A. eapply cgrow_trans; [exact A|].
    set (c1 := pop_locals inn false true true (dpop c)). assert (B : cgrow (dpop c) c1) by (apply cgrow_pop_locals; op).
    eapply cgrow_trans; [exact B|]. apply cgrow_on, grow_jr. op.
  - (* assert *)
    set (c1 := cex e (dpop c)). assert (A : cgrow c c1) by (eapply cgrow_trans; [apply cgrow_dpop; auto|apply cgrow_cex; eapply cgrow_open, cgrow_dpop; auto]).
    rewrite bf_eq; cbv iota zeta beta. set (c2 := on_g (fun _ => fst (g_branch_forward (cg c1))) c1). assert (B : cgrow c1 c2) by (apply cgrow_bf; op).
    pose proof (cgrow_cmsg msg c2 ltac:(op)) as D. pose proof (cgrow_push OAssertFailed (cmsg msg c2) ltac:(op)) as F.
    exact (cgrow_bf_jf c c1 _ BrAssertTest A (cgrow_trans _ _ _ D F)).
  - (* assert compare *)
    set (c1 := if swap then _ else _). assert (A : cgrow c0 c1).
    { pose proof (cgrow_dpop c0 H) as A. eapply cgrow_trans; [exact A|]. unfold c1. destruct swap.
      - pose proof (cgrow_cex rhs _ (cgrow_open _ _ A)) as B. eapply cgrow_trans; [exact B|]. pose proof (cgrow_cex lhs _ (cgrow_open _ _ B)) as D.
        eapply cgrow_trans; [exact D|]. apply cgrow_push. op.
      - pose proof (cgrow_cex lhs _ (cgrow_open _ _ A)) as B. eapply cgrow_trans; [exact B|]. apply cgrow_cex. op. }
    rewrite bf_eq; cbv iota zeta beta. set (c2 := on_g (fun _ => fst (g_branch_forward (cg c1))) c1). assert (B : cgrow c1 c2) by (apply cgrow_bf; op).
    pose proof (cgrow_cmsg msg c2 ltac:(op)) as D. pose proof (cgrow_push OAssertFailed (cmsg msg c2) ltac:(op)) as F.
    exact (cgrow_bf_jf c0 c1 _ (BrAssertCompare c) A (cgrow_trans _ _ _ D F)).
  - now apply cgrow_refl.
  - eapply cgrow_trans; [apply H; auto|]. apply H0. eapply cgrow_open. apply H. auto.
  - (* no else *) now apply cgrow_jf.
  - (* else block *)
    rewrite bf_eq; cbv iota zeta beta. pose proof (open_pos _ (cgrow_open _ _ H0)). pose proof (open_pos _ (cgrow_open0 _ _ H0)). pose proof (grow_len _ _ (proj1 H0)).
    set (c2 := on_g (fun _ => fst (g_branch_forward (cg c))) c). assert (B : cgrow c c2) by (apply cgrow_bf; op).
    destruct H1 as [J1 J2].
    assert (P2 : pending (cg c2) j) by (eapply pending_grow; [split; eauto|exact (proj1 B)]).
    assert (D : cgrow c0 (on_g (fun g => g_join_forward g j BrFalsePop) c2)) by (apply cgrow_jf; auto; eapply cgrow_trans; eauto).
    change (on_g (fun _ => g_join_forward (fst (g_branch_forward (cg c))) j BrFalsePop) c) with (on_g (fun g => g_join_forward g j BrFalsePop) c2).
    set (c3 := on_g (fun g => g_join_forward g j BrFalsePop) c2) in *.
    set (c4 := in_block sd _ c3). assert (G4 : cgrow c3 c4) by (apply cgrow_in_block; [auto|op]).
    pose proof (cgrow_dpop c4 ltac:(op)) as F. pose proof (cgrow_trans _ _ _ G4 F) as G5.
    assert (P3 : pending (cg c3) (length (cg c) - 1)). { unfold c3. cbn [on_g cg]. apply pending_jf; [|lia]. apply (pending_bf (cg c)). op. }
    apply cgrow_jf; [eapply cgrow_trans; eauto|eapply pending_grow; [exact P3|exact (proj1 G5)]|lia|].
    eapply cgrow_new_ge; [exact D|exact G5|exact (proj1 P3)|].
    intros new Q I. destruct H0 as [_ [n0 [E0 [_ N]]]]. unfold c3, c2 in Q. cbn [on_g brk] in Q. rewrite E0 in Q. apply app_inv_head in Q. subst new.
    rewrite Forall_forall in N. destruct (N _ I) as [[X _] _]. lia.
  - (* elif *)
    rewrite bf_eq; cbv iota zeta beta. pose proof (open_pos _ (cgrow_open _ _ H1)). pose proof (open_pos _ (cgrow_open0 _ _ H1)). pose proof (grow_len _ _ (proj1 H1)).
    set (c2 := on_g (fun _ => fst (g_branch_forward (cg c1))) c1). assert (B : cgrow c1 c2) by (apply cgrow_bf; op).
    destruct H2 as [J1 J2].
    assert (P2 : pending (cg c2) j) by (eapply pending_grow; [split; eauto|exact (proj1 B)]).
    assert (D : cgrow c0 (on_g (fun g => g_join_forward g j BrFalsePop) c2)) by (apply cgrow_jf; auto; eapply cgrow_trans; eauto).
    change (on_g (fun _ => g_join_forward (fst (g_branch_forward (cg c1))) j BrFalsePop) c1) with (on_g (fun g => g_join_forward g j BrFalsePop) c2).
    set (c3 := on_g (fun g => g_join_forward g j BrFalsePop) c2) in *.
    assert (P3 : pending (cg c3) (length (cg c1) - 1)). { unfold c3. cbn [on_g cg]. apply pending_jf; [|lia]. apply (pending_bf (cg c1)). op. }
    assert (NI : forall new, brk c3 = brk c0 ++ new -> ~ In (length (cg c1) - 1) new).
    { intros new Q I. destruct H1 as [_ [n0 [E0 [_ N]]]]. unfold c3, c2 in Q. cbn [on_g brk] in Q. rewrite E0 in Q. apply app_inv_head in Q. subst new.
      rewrite Forall_forall in N. destruct (N _ I) as [[X _] _]. lia. }
    pose proof (cgrow_dpop c3 ltac:(op)) as F3. set (c4 := cex c (dpop c3)). assert (G4 : cgrow c3 c4) by (eapply cgrow_trans; [exact F3|apply cgrow_cex; op]).
    rewrite bf_eq; cbv iota zeta beta. set (c5 := on_g (fun _ => fst (g_branch_forward (cg c4))) c4). assert (G5 : cgrow c4 c5) by (apply cgrow_bf; op).
    set (c6 := in_block sd _ c5). assert (G6 : cgrow c5 c6) by (apply cgrow_in_block; [auto|op]).
    pose proof (cgrow_dpop c6 ltac:(op)) as F. pose proof (cgrow_trans _ _ _ G6 F) as G7.
    pose proof (open_pos _ (cgrow_open _ _ G4)). pose proof (open_pos _ (cgrow_open0 _ _ G4)). pose proof (grow_len _ _ (proj1 G4)).
    assert (G8 : cgrow c3 (celse top sd lc (length (cg c4) - 1) els (dpop c6))).
    { apply H0.
      - eapply cgrow_trans; [exact G4|]. eapply cgrow_trans; eauto.
      - eapply pending_grow; [apply (pending_bf (cg c4)); op|exact (proj1 G7)].
      - lia.
      - eapply cgrow_new_ge; [exact (cgrow_trans _ _ _ G4 G5)|exact G7| |].
        + unfold c5. cbn [on_g cg]. rewrite bf_len. lia.
        + unfold c5. cbn [on_g brk]. intros new Q I. destruct G4 as [_ [n0 [E0 [_ N]]]]. rewrite E0 in Q. apply app_inv_head in Q. subst new.
          rewrite Forall_forall in N. destruct (N _ I) as [[X _] _]. lia. }
    apply cgrow_jf; [eapply cgrow_trans; eauto|eapply pending_grow; [exact P3|exact (proj1 G8)]|lia|].
    eapply cgrow_new_ge; [exact D|exact G8|exact (proj1 P3)|exact NI].
  - now apply cgrow_refl.
  - pose proof (cgrow_in_block sd _ c (H top (S sd) lc) H0) as A. eapply cgrow_trans; [exact A|]. apply cgrow_dpop. op.
Qed.
