(** C39: linearising the control flow graph. *)
From Verif Require Import Base Native Err Vm Graph GraphSpec GraphProofs.
Local Open Scope nat_scope.

(** From every block, the emitted flat code can perform exactly the traces of the graph,
    and ends in exactly the same ways.  [base]: code emitted earlier; it is kept. *)
Theorem C39_emit_preserves_traces : forall G base C starts,
  wf_graph G -> emit G base = (C, starts) -> (Z.of_nat (length C) < 2^31)%Z ->
  length starts = length G /\ (exists l, C = base ++ l) /\
  forall b s, nth_error starts b = Some s ->
    (forall evs, graph_can G b evs <-> flat_can C s evs) /\
    (forall evs o, graph_ends G b evs o <-> flat_ends C s evs o).
Proof.
  intros G base C st HW HE HL. pose proof (emit_laid G base C st HE HL) as L.
  split; [apply (l_len _ _ _ L)|]. split; [eapply emit_prefix; eauto|].
  intros b s Hs. assert (Hb : b < length G) by (rewrite <- (l_len _ _ _ L); apply nth_error_Some; congruence).
  apply nth_error_nth with (d := 0) in Hs. subst s.
  split; intros; [now apply traces_equal | now apply ends_equal].
Qed.
Print Assumptions C39_emit_preserves_traces.

(** Later emission does not disturb code emitted earlier: traces of an earlier graph
    are still those of the extended code. *)
Theorem C39_emit_twice : forall G1 G2 base C1 s1 C2 s2,
  wf_graph G1 -> emit G1 base = (C1, s1) -> emit G2 C1 = (C2, s2) -> (Z.of_nat (length C1) < 2^31)%Z ->
  forall b s, nth_error s1 b = Some s -> forall evs o, graph_ends G1 b evs o <-> flat_ends C2 s evs o.
Proof.
  intros G1 G2 base C1 s1 C2 s2 HW H1 H2 HL b s Hs evs o.
  pose proof (emit_laid _ _ _ _ H1 HL) as L. destruct (emit_prefix _ _ _ _ H2) as [l ->].
  pose proof (laid_app _ l _ _ L) as L2.
  assert (Hb : b < length G1) by (rewrite <- (l_len _ _ _ L); apply nth_error_Some; congruence).
  apply nth_error_nth with (d := 0) in Hs. subst s. now apply ends_equal.
Qed.
Print Assumptions C39_emit_twice.

(** The builder operations add exactly the requested edges. *)
Lemma nth_upd {A} (l : list A) i j x : nth_error (upd l i x) j = if (i =? j) && (i <? length l) then Some x else nth_error l j.
Proof.
  revert i j. induction l as [|a l IH]; intros [|i] [|j]; simpl; auto.
  - now rewrite Bool.andb_false_r.
  - rewrite IH. reflexivity.
Qed.
Lemma g_end_nth g i e j : nth_error (g_end g i e) j =
  match nth_error g j with Some b => Some (if i =? j then Block (bcode b) e else b) | None => None end.
Proof.
  unfold g_end. destruct (nth_error g i) as [b|] eqn:E.
  - rewrite nth_upd. destruct (Nat.eqb_spec i j) as [->|N]; simpl.
    + assert (j < length g) by (apply nth_error_Some; congruence). apply Nat.ltb_lt in H. now rewrite H, E.
    + destruct (nth_error g j); auto.
  - destruct (nth_error g j) as [b|] eqn:F; auto. destruct (Nat.eqb_spec i j) as [->|]; [congruence|auto].
Qed.
Lemma g_end_len g i e : length (g_end g i e) = length g.
Proof. unfold g_end. destruct (nth_error g i); auto. apply upd_length. Qed.

Theorem C39_join_forward : forall g f ty i, S f < length g ->
  nth_error (g_join_forward g f ty) i =
    if i =? length g then Some (Block [] EExit)
    else match nth_error g i with
         | None => None
         | Some b => Some (if i =? f then Block (bcode b) (mk_branch ty (S f) (length g))
                           else if i =? length g - 1 then Block (bcode b) (ENext (length g)) else b)
         end.
Proof.
  intros g f ty i H. unfold g_join_forward.
  destruct (Nat.eqb_spec i (length g)) as [->|N].
  - rewrite nth_error_app2 by (rewrite !g_end_len; lia). now rewrite !g_end_len, Nat.sub_diag.
  - destruct (Nat.lt_ge_cases i (length g)).
    + rewrite nth_error_app1 by (rewrite !g_end_len; lia). rewrite !g_end_nth.
      destruct (nth_error g i); auto. rewrite (Nat.eqb_sym f i), (Nat.eqb_sym _ i).
      destruct (Nat.eqb_spec i f) as [->|]; auto. destruct (Nat.eqb_spec f (length g - 1)); auto.
    + replace (nth_error g i) with (@None block) by (symmetry; apply nth_error_None; lia).
      apply nth_error_None. rewrite app_length, !g_end_len. simpl. lia.
Qed.
Print Assumptions C39_join_forward.
Theorem C39_join_reverse : forall g b ty i, g <> [] ->
  nth_error (g_join_reverse g b ty) i =
    if i =? length g then Some (Block [] EExit)
    else match nth_error g i with
         | None => None
         | Some k => Some (if i =? length g - 1 then Block (bcode k) (mk_branch ty (length g) b) else k)
         end.
Proof.
  intros g b ty i H. unfold g_join_reverse.
  destruct (Nat.eqb_spec i (length g)) as [->|N].
  - rewrite nth_error_app2 by (rewrite !g_end_len; lia). now rewrite !g_end_len, Nat.sub_diag.
  - destruct (Nat.lt_ge_cases i (length g)).
    + rewrite nth_error_app1 by (rewrite !g_end_len; lia). rewrite !g_end_nth.
      destruct (nth_error g i); auto. now rewrite (Nat.eqb_sym _ i).
    + replace (nth_error g i) with (@None block) by (symmetry; apply nth_error_None; lia).
      apply nth_error_None. rewrite app_length, !g_end_len. simpl. lia.
Qed.
Print Assumptions C39_join_reverse.

(** `while a { b } else { c }`, built as parse_while_statement does (parser/mod.rs:776-803),
    then Exit. *)
Definition while_graph : graph :=
  let '(g, top) := g_branch_reverse g_new in
  let g := g_push (OPushLocal 0) g in
  let '(g, br) := g_branch_forward g in
  let g := g_push (OPushLocal 1) g in
  let g := g_join_reverse g top BrJump in
  let g := g_join_forward g br BrFalsePop in
  g_push OExit g.
Example while_graph_blocks : while_graph =
  [Block [] (ENext 1); Block [OPushLocal 0] (EBranch BrFalsePop 2 4);
   Block [OPushLocal 1] (ENext 1); Block [] (ENext 4); Block [OExit] EExit].
Proof. reflexivity. Qed.
Example while_graph_wf : wf_graph while_graph.
Proof.
  intros b H. repeat (destruct H as [<-|H]; [split; [simpl; intros o Ho; intuition; subst; reflexivity | simpl; try lia]|]).
  - repeat split; try lia; discriminate.
  - exists [], OExit. auto.
  - destruct H.
Qed.
Example while_graph_code : emit while_graph [OPop] =
  ([OPop; OPushLocal 0; OJumpIfFalsePop 2; OPushLocal 1; OJump (-4); OExit], [1; 1; 3; 5; 5]).
Proof. reflexivity. Qed.
(** two iterations *)
Example while_graph_run : flat_ends (fst (emit while_graph [OPop])) 1
  [EvOp (OPushLocal 0); EvBranch BrFalsePop false; EvOp (OPushLocal 1); EvOp (OPushLocal 0); EvBranch BrFalsePop true] OExit.
Proof.
  refine (proj1 (proj2 (proj2 (proj2 (C39_emit_preserves_traces while_graph [OPop] _ _ while_graph_wf eq_refl eq_refl)) 0 1 eq_refl) _ _) _).
  exists 4, 0, (Block [OExit] EExit). split; [|auto].
  apply (star_cons _ _ [] (1,0)); [apply (g_next _ 0 (Block [] (ENext 1))); reflexivity|].
  apply (star_cons _ _ [_] (1,1)); [eapply g_op; reflexivity|].
  apply (star_cons _ _ [_] (2,0)); [apply (g_not_taken _ 1 (Block [OPushLocal 0] (EBranch BrFalsePop 2 4)) BrFalsePop 2 4); reflexivity|].
  apply (star_cons _ _ [_] (2,1)); [eapply g_op; reflexivity|].
  apply (star_cons _ _ [] (1,0)); [apply (g_next _ 2 (Block [OPushLocal 1] (ENext 1))); reflexivity|].
  apply (star_cons _ _ [_] (1,1)); [eapply g_op; reflexivity|].
  apply (star_cons _ _ [_] (4,0)); [apply (g_taken _ 1 (Block [OPushLocal 0] (EBranch BrFalsePop 2 4)) BrFalsePop 2 4); reflexivity|].
  constructor.
Qed.
