(** Facts about graphs under construction, for the compilation proof. *)
From Verif Require Import Base Native Err Vm VmProofs Graph GraphSpec GraphProofs Peep Lang Compile.
Local Open Scope nat_scope.

Lemma app_inj_len {A} (a b c d : list A) : length a = length c -> a ++ b = c ++ d -> a = c /\ b = d.
Proof.
  revert c. induction a as [|x a IH]; intros [|y c] L H; simpl in *; try discriminate; auto.
  injection H as -> H. destruct (IH c ltac:(lia) H) as [-> ->]. auto.
Qed.
(** a graph under construction: finished blocks and the current block *)
Definition opn (g : graph) (gi : graph) (c : list op) : Prop := g = gi ++ [Block c EExit].
Lemma opn_inj gi c gi' c' : gi ++ [Block c EExit] = gi' ++ [Block c' EExit] -> gi = gi' /\ c = c'.
Proof. intro H. apply app_inj_tail in H. destruct H as [-> H]. injection H as ->. auto. Qed.
Lemma new_open : g_new = [] ++ [Block [] EExit]. Proof. reflexivity. Qed.
Lemma push_open o gi c : g_push o (gi ++ [Block c EExit]) = gi ++ [Block (c ++ [o]) EExit].
Proof. unfold g_push, upd_last. rewrite rev_app_distr. simpl. now rewrite rev_involutive. Qed.
Lemma pushes_open os : forall gi c, g_pushes os (gi ++ [Block c EExit]) = gi ++ [Block (c ++ os) EExit].
Proof.
  induction os as [|o os IH]; intros gi c; simpl; [now rewrite app_nil_r|].
  unfold g_pushes in *. simpl. rewrite push_open, IH, <- app_assoc. reflexivity.
Qed.
Lemma bf_open gi c : g_branch_forward (gi ++ [Block c EExit]) = ((gi ++ [Block c EExit]) ++ [Block [] EExit], length gi).
Proof. unfold g_branch_forward. rewrite app_length. simpl. f_equal. lia. Qed.
Lemma g_end_app1 gi r i e : i < length gi -> g_end (gi ++ r) i e = g_end gi i e ++ r.
Proof.
  intro H. unfold g_end. rewrite nth_error_app1 by auto.
  destruct (nth_error gi i) eqn:E; [|apply nth_error_None in E; lia]. now apply upd_app1.
Qed.
Lemma g_end_app2 gi c e0 r e : g_end (gi ++ Block c e0 :: r) (length gi) e = gi ++ Block c e :: r.
Proof. unfold g_end. rewrite nth_error_app2, Nat.sub_diag by lia. simpl. apply upd_app2. Qed.
Lemma br_open gi c : g_branch_reverse (gi ++ [Block c EExit]) =
  ((gi ++ [Block c (ENext (S (length gi)))]) ++ [Block [] EExit], S (length gi)).
Proof.
  unfold g_branch_reverse. rewrite app_length. simpl.
  replace (length gi + 1 - 1) with (length gi) by lia. rewrite g_end_app2. replace (length gi + 1) with (S (length gi)) by lia. reflexivity.
Qed.
Lemma jr_open gi c b ty : g_join_reverse (gi ++ [Block c EExit]) b ty =
  (gi ++ [Block c (mk_branch ty (S (length gi)) b)]) ++ [Block [] EExit].
Proof.
  unfold g_join_reverse. rewrite app_length. simpl.
  replace (length gi + 1 - 1) with (length gi) by lia. rewrite g_end_app2. replace (length gi + 1) with (S (length gi)) by lia. reflexivity.
Qed.
(** joining a pending branch at block [length gi] *)
Lemma jf_open gi c0 r c ty : g_join_forward ((gi ++ Block c0 EExit :: r) ++ [Block c EExit]) (length gi) ty =
  ((gi ++ Block c0 (mk_branch ty (S (length gi)) (S (length gi + S (length r)))) :: r) ++
   [Block c (ENext (S (length gi + S (length r))))]) ++ [Block [] EExit].
Proof.
  unfold g_join_forward. f_equal.
  assert (A : length (gi ++ Block c0 EExit :: r) = length gi + S (length r)) by (rewrite app_length; reflexivity).
  assert (B : length ((gi ++ Block c0 EExit :: r) ++ [Block c EExit]) = S (length gi + S (length r)))
    by (rewrite app_length, A; simpl; lia).
  rewrite B. replace (S (length gi + S (length r)) - 1) with (length (gi ++ Block c0 EExit :: r)) by (rewrite A; lia).
  rewrite g_end_app2. rewrite <- app_assoc. simpl. rewrite g_end_app2. rewrite <- app_assoc. reflexivity.
Qed.

(** [g'] is [g] continued: finished blocks stay exactly as they are *)
Definition grow (g g' : graph) : Prop :=
  exists gi c gi' c', opn g gi c /\ opn g' gi' c' /\
    ((gi' = gi /\ exists x, c' = c ++ x) \/ exists x e r, gi' = gi ++ Block (c ++ x) e :: r).
Definition isopen (g : graph) : Prop := exists gi c, opn g gi c.
Lemma grow_refl g : isopen g -> grow g g.
Proof. intros [gi [c H]]. exists gi, c, gi, c. split; [auto|]. split; [auto|]. left. split; auto. exists []. now rewrite app_nil_r. Qed.
Lemma grow_trans a b d : grow a b -> grow b d -> grow a d.
Proof.
  intros [gi [c [gi' [c' [A [B H]]]]]] [hi [e [hi' [e' [A' [B' H']]]]]].
  unfold opn in *. subst a b d. apply opn_inj in A'. destruct A' as [<- <-].
  exists gi, c, hi', e'. split; [reflexivity|]. split; [reflexivity|].
  destruct H as [[-> [x ->]]|[x [en [r ->]]]].
  - destruct H' as [[-> [y ->]]|[y [en [r ->]]]].
    + left. split; auto. exists (x ++ y). now rewrite app_assoc.
    + right. exists (x ++ y), en, r. now rewrite app_assoc.
  - right. destruct H' as [[-> _]|[y [en' [r' ->]]]].
    + exists x, en, r. reflexivity.
    + exists x, en, (r ++ Block (c' ++ y) en' :: r'). now rewrite <- app_assoc.
Qed.
Lemma grow_open g g' : grow g g' -> isopen g'.
Proof. intros [gi [c [gi' [c' [_ [B _]]]]]]. exists gi', c'. auto. Qed.
Lemma grow_open0 g g' : grow g g' -> isopen g.
Proof. intros [gi [c [gi' [c' [A _]]]]]. exists gi, c. auto. Qed.
Lemma grow_push o g : isopen g -> grow g (g_push o g).
Proof.
  intros [gi [c ->]]. exists gi, c, gi, (c ++ [o]). rewrite push_open.
  split; [reflexivity|]. split; [reflexivity|]. left. eauto.
Qed.
Lemma grow_pushes os g : isopen g -> grow g (g_pushes os g).
Proof.
  intros [gi [c ->]]. exists gi, c, gi, (c ++ os). rewrite pushes_open.
  split; [reflexivity|]. split; [reflexivity|]. left. eauto.
Qed.
Lemma grow_bf g : isopen g -> grow g (fst (g_branch_forward g)).
Proof.
  intros [gi [c ->]]. rewrite bf_open. exists gi, c, (gi ++ [Block c EExit]), [].
  split; [reflexivity|]. split; [reflexivity|]. right. exists [], EExit, []. now rewrite app_nil_r.
Qed.
Lemma grow_br g : isopen g -> grow g (fst (g_branch_reverse g)).
Proof.
  intros [gi [c ->]]. rewrite br_open. exists gi, c. do 2 eexists. 
  split; [reflexivity|]. split; [reflexivity|]. right. exists [], (ENext (S (length gi))), []. now rewrite app_nil_r.
Qed.
Lemma grow_jr g b ty : isopen g -> grow g (g_join_reverse g b ty).
Proof.
  intros [gi [c ->]]. rewrite jr_open. exists gi, c. do 2 eexists. 
  split; [reflexivity|]. split; [reflexivity|]. right. eexists [], _, []. now rewrite app_nil_r.
Qed.
Lemma grow_len g g' : grow g g' -> length g <= length g'.
Proof.
  intros [gi [c [gi' [c' [-> [-> H]]]]]]. destruct H as [[-> _]|[x [e [r ->]]]]; rewrite !app_length; simpl; lia.
Qed.
(** a block that is pending in [g], or becomes so by branch_forward, stays pending *)
Lemma grow_nth g g' b : grow g g' -> S b < length g -> nth_error g' b = nth_error g b.
Proof.
  intros [gi [c [gi' [c' [-> [-> H]]]]]] L. rewrite app_length in L. simpl in L.
  destruct H as [[-> _]|[x [e [r ->]]]].
  - rewrite !nth_error_app1 by lia. auto.
  - rewrite <- app_assoc. rewrite !nth_error_app1 by lia. auto.
Qed.

(** joining branch [b] of [g], which is pending *)
Definition pending (g : graph) (b : nat) : Prop := S b < length g /\ exists c, nth_error g b = Some (Block c EExit).
Lemma pending_grow g g' b : pending g b -> grow g g' -> pending g' b.
Proof.
  intros [A [c B]] G. pose proof (grow_len _ _ G). split; [lia|]. exists c. rewrite (grow_nth _ _ _ G A). auto.
Qed.
Lemma pending_bf g : isopen g -> pending (fst (g_branch_forward g)) (length g - 1).
Proof.
  intros [gi [c ->]]. rewrite bf_open. simpl. split.
  - rewrite !app_length. simpl. lia.
  - exists c. rewrite app_length. simpl. replace (length gi + 1 - 1) with (length gi) by lia.
    rewrite <- app_assoc. rewrite nth_error_app2, Nat.sub_diag by lia. reflexivity.
Qed.
Lemma bf_snd g : snd (g_branch_forward g) = length g - 1. Proof. reflexivity. Qed.
Lemma pending_split gi0 c0 b : pending (gi0 ++ [Block c0 EExit]) b -> exists gi c r, gi0 = gi ++ Block c EExit :: r /\ b = length gi.
Proof.
  intros [A [c B]]. rewrite app_length in A. simpl in A. rewrite nth_error_app1 in B by lia.
  apply nth_error_split in B. destruct B as [l1 [l2 [-> <-]]]. eauto.
Qed.
Lemma jf_isopen g b ty : isopen g -> pending g b -> isopen (g_join_forward g b ty).
Proof.
  intros [gi0 [c0 ->]] H. destruct (pending_split _ _ _ H) as [gi [c [r [-> ->]]]]. rewrite jf_open. eexists _, _. reflexivity.
Qed.
(** joining a branch made after [g] *)
Lemma grow_jf g g' b ty : grow g g' -> pending g' b -> length g <= S b -> grow g (g_join_forward g' b ty).
Proof.
  intros [gi [c [gi' [c' [-> [-> H]]]]]] Pb L. rewrite app_length in L. simpl in L.
  destruct (pending_split _ _ _ Pb) as [hi [ch [r [E ->]]]]. rewrite E, jf_open.
  assert (L2 : length gi <= length hi) by lia.
  destruct H as [[-> _]|[x [e [r0 ->]]]].
  - exfalso. rewrite E in L2. rewrite app_length in L2. simpl in L2. lia.
  - exists gi, c. do 2 eexists. split; [reflexivity|]. split; [reflexivity|]. right.
    destruct (Nat.eq_dec (length gi) (length hi)) as [Q|Q].
    + assert (EE : gi = hi /\ Block (c ++ x) e :: r0 = Block ch EExit :: r) by (apply app_inj_len; auto). destruct EE as [-> E2]. clear E; rename E2 into E. injection E as <- -> ->.
      exists x. do 2 eexists. rewrite <- app_assoc. simpl. reflexivity.
    + assert (Hh : exists h, hi = gi ++ Block (c ++ x) e :: h).
      { assert (X : firstn (length hi) (gi ++ Block (c ++ x) e :: r0) = hi)
          by (rewrite E, firstn_app, Nat.sub_diag, firstn_all, firstn_O, app_nil_r; reflexivity).
        rewrite firstn_app in X. rewrite firstn_all2 in X by lia.
        destruct (length hi - length gi) eqn:D; [lia|]. simpl in X. eauto. }
      destruct Hh as [h ->]. exists x, e. eexists. rewrite <- !app_assoc. simpl. reflexivity.
Qed.

Lemma nth_g_end g i e j : nth_error (g_end g i e) j =
  match nth_error g j with Some b => Some (if i =? j then Block (bcode b) e else b) | None => None end.
Proof.
  unfold g_end. destruct (nth_error g i) as [b|] eqn:E.
  - revert i j E. induction g as [|x g IH]; intros [|i] [|j] E; simpl in *; try discriminate; auto.
    + injection E as ->. auto.
    + destruct (nth_error g j); auto.
  - destruct (nth_error g j) as [b|] eqn:F; auto. destruct (Nat.eqb_spec i j) as [->|]; [congruence|auto].
Qed.
Lemma len_g_end g i e : length (g_end g i e) = length g.
Proof. unfold g_end. destruct (nth_error g i); auto. apply upd_length. Qed.
Lemma jf_len g b ty : length (g_join_forward g b ty) = S (length g).
Proof. unfold g_join_forward. rewrite app_length, !len_g_end. simpl. lia. Qed.
Lemma pending_jf g b b' ty : pending g b' -> b <> b' -> pending (g_join_forward g b ty) b'.
Proof.
  intros [A [c B]] N. split; [rewrite jf_len; lia|]. exists c. unfold g_join_forward.
  rewrite nth_error_app1 by (rewrite !len_g_end; lia). rewrite !nth_g_end, B.
  replace (length g - 1 =? b') with false by (symmetry; apply Nat.eqb_neq; lia).
  replace (b =? b') with false by (symmetry; apply Nat.eqb_neq; lia). reflexivity.
Qed.
Lemma grow_join_all bs : forall g0 g, grow g0 g -> NoDup (map fst bs) ->
  Forall (fun b => pending g (fst b) /\ length g0 <= S (fst b)) bs -> grow g0 (join_all g bs).
Proof.
  unfold join_all. induction bs as [|[b ty] bs IH]; intros g0 g G N F; [exact G|]. simpl.
  inversion F as [|x y [F1 F2] F3]; subst. inversion N as [|x y N1 N2]; subst.
  apply IH; auto.
  - now apply grow_jf.
  - rewrite Forall_forall in *. intros b' Hb. destruct (F3 b' Hb) as [X Y]. split; auto.
    apply pending_jf; auto. simpl. intros ->. apply N1. now apply in_map.
Qed.

Scheme expr_mut := Induction for expr Sort Prop
  with args_mut := Induction for args Sort Prop
  with cmps_mut := Induction for cmps Sort Prop.
Combined Scheme expr_all from expr_mut, args_mut, cmps_mut.
Scheme stmt_mut := Induction for stmt Sort Prop
  with stmts_mut := Induction for stmts Sort Prop
  with else_mut := Induction for else_ Sort Prop
  with opt_mut := Induction for option_stmts Sort Prop.
Combined Scheme stmt_all from stmt_mut, stmts_mut, else_mut, opt_mut.

Lemma bf_eq g : g_branch_forward g = (fst (g_branch_forward g), length g - 1). Proof. reflexivity. Qed.
Lemma br_eq g : g_branch_reverse g = (fst (g_branch_reverse g), length g). Proof. reflexivity. Qed.
Lemma open_pos g : isopen g -> 1 <= length g.
Proof. intros [gi [c ->]]. rewrite app_length. simpl. lia. Qed.

(** branch forward, compile more, join *)
Lemma grow_bf_jf g0 g g1 g2 ty : grow g0 g -> g1 = fst (g_branch_forward g) -> grow g1 g2 -> grow g0 (g_join_forward g2 (length g - 1) ty).
Proof.
  intros G -> H. pose proof (grow_open _ _ G) as O. pose proof (pending_bf _ O) as Pb.
  pose proof (grow_len _ _ G). pose proof (open_pos _ (grow_open0 _ _ G)).
  apply grow_jf.
  - eapply grow_trans; [exact G|]. eapply grow_trans; [apply grow_bf; auto|exact H].
  - eapply pending_grow; eauto.
  - lia.
Qed.
Definition brs_in (g0 g : graph) (bs : list (nat * brtype)) : Prop :=
  NoDup (map fst bs) /\ Forall (fun b => pending g (fst b) /\ length g0 <= S (fst b)) bs.
Lemma brs_grow g0 g g' bs : brs_in g0 g bs -> grow g g' -> brs_in g0 g' bs.
Proof.
  intros [A B] G. split; auto. eapply Forall_impl; [|exact B]. intros b [X Y]. split; auto. eapply pending_grow; eauto.
Qed.
Lemma brs_add g0 g bs ty : brs_in g0 g bs -> grow g0 g -> brs_in g0 (fst (g_branch_forward g)) (bs ++ [(length g - 1, ty)]).
Proof.
  intros [A B] G. pose proof (grow_open _ _ G) as O. pose proof (grow_len _ _ G). pose proof (open_pos _ (grow_open0 _ _ G)). split.
  - rewrite map_app. simpl. apply NoDup_app_remove_l with (l := [length g - 1]) || idtac.
    assert (F : Forall (fun x => x <> length g - 1) (map fst bs)).
    { apply Forall_map. eapply Forall_impl; [|exact B]. intros b [[X _] _]. lia. }
    clear B. induction (map fst bs) as [|x l IH]; simpl; [repeat constructor; auto|].
    inversion A; subst. inversion F; subst. constructor; [|auto]. rewrite in_app_iff. intros [I|[I|[]]]; auto.
  - apply Forall_app. split.
    + eapply Forall_impl; [|exact B]. intros b [X Y]. split; auto. eapply pending_grow; [exact X|]. now apply grow_bf.
    + constructor; [|constructor]. simpl. split; [now apply pending_bf|lia].
Qed.

Local Ltac op := solve [eauto using grow_open, grow_open0].
Lemma expr_grow :
  (forall e g, isopen g -> grow g (cexpr e g)) /\
  (forall a, (forall un g, isopen g -> grow g (fst (cargs a un g))) /\ (forall g, isopen g -> grow g (cplain a g)) /\
             (forall acc g, isopen g -> grow g (clit a acc g))) /\
  (forall r g0 g bs, grow g0 g -> brs_in g0 g bs -> grow g0 (ccmps r bs g)).
Proof.
  apply expr_all; intros; cbn [cexpr cargs cplain ccmps clit].
  - now apply grow_push.
  - now apply grow_push.
  - now apply grow_push.
  - eapply grow_trans; [apply H; auto|]. apply grow_push. op.
  - now apply grow_pushes.
  - destruct H0 as [H0 _]. specialize (H0 false (cexpr f g) ltac:(op)). destruct (cargs args false (cexpr f g)) as [g' un]. simpl in H0.
    eapply grow_trans; [apply H; auto|]. eapply grow_trans; [exact H0|]. apply grow_push. op.
  - eapply grow_trans; [apply H; auto|]. eapply grow_trans; [apply H0; op|]. 
    eapply grow_trans; apply grow_push; [op|]. eapply grow_open. apply grow_push. op.
  - destruct H as [_ [H _]]. eapply grow_trans; [apply H; auto|]. apply grow_push. op.
  - eapply grow_trans; [apply H0; auto|]. eapply grow_trans; [apply H; op|]. 
    eapply grow_trans; apply grow_push; [op|]. eapply grow_open. apply grow_push. op.
  - rewrite bf_eq. assert (G : grow g (cexpr e (cexpr lhs g))) by (eapply grow_trans; [apply H; auto|apply H0; op]).
    apply H1.
    + eapply grow_trans; [exact G|]. apply grow_bf. op.
    + apply (brs_add g (cexpr e (cexpr lhs g)) []); [split; constructor|exact G].
  - destruct H as [_ [_ H]]. eapply grow_trans; [apply grow_push; auto|]. eapply grow_trans; [apply H; eapply grow_open; apply grow_push; auto|].
    apply grow_push. eapply grow_open. apply H. eapply grow_open. apply grow_push. auto.
  - rewrite bf_eq. eapply grow_bf_jf; [apply H; auto|reflexivity|].
    assert (O : isopen (fst (g_branch_forward (cexpr a g)))) by (eapply grow_open; apply grow_bf; op).
    eapply grow_trans; [apply grow_push; auto|]. apply H0. eapply grow_open, grow_push. auto.
  - rewrite bf_eq. eapply grow_bf_jf; [apply H; auto|reflexivity|].
    assert (O : isopen (fst (g_branch_forward (cexpr a g)))) by (eapply grow_open; apply grow_bf; op).
    eapply grow_trans; [apply grow_push; auto|]. apply H0. eapply grow_open, grow_push. auto.
  - rewrite bf_eq. rewrite (bf_eq (cexpr t _)).
    set (g1 := cexpr c g) in *. set (g2 := fst (g_branch_forward g1)) in *. set (g3 := cexpr t g2) in *. set (g4 := fst (g_branch_forward g3)) in *.
    assert (G1 : grow g g1) by (apply H; auto).
    assert (G2 : grow g1 g2) by (apply grow_bf; op).
    assert (G3 : grow g2 g3) by (apply H0; op).
    assert (G4 : grow g3 g4) by (apply grow_bf; op).
    assert (P1 : pending g4 (length g1 - 1)) by (eapply pending_grow; [apply pending_bf; op | eapply grow_trans; eauto]).
    assert (P2 : pending g4 (length g3 - 1)) by (apply pending_bf; op).
    pose proof (grow_len _ _ G1). pose proof (grow_len _ _ G3). pose proof (open_pos _ H2).
    assert (L2 : length g2 = S (length g1)) by (unfold g2, g_branch_forward; simpl; rewrite app_length; simpl; lia).
    set (g5 := g_join_forward g4 (length g1 - 1) BrFalsePop) in *.
    assert (G5 : grow g g5) by (apply grow_jf; auto; [eapply grow_trans; [exact G1|]; eapply grow_trans; [exact G2|]; eapply grow_trans; eauto|lia]).
    assert (P5 : pending g5 (length g3 - 1)) by (apply pending_jf; auto; lia).
    assert (G6 : grow g5 (cexpr f g5)) by (apply H1; op).
    apply grow_jf; [eapply grow_trans; eauto | eapply pending_grow; eauto | lia].
  - eapply grow_trans; [apply H; auto|]. assert (isopen (cexpr lhs g)) as O by op.
    eapply grow_trans; [apply grow_push; exact O|]. assert (isopen (g_push (OPeek (PGetField i)) (cexpr lhs g))) as O2 by (eapply grow_open, grow_push; auto).
    eapply grow_trans; [apply H0; exact O2|]. eapply grow_trans; apply grow_push; [op|]. eapply grow_open, grow_push. op.
  - eapply grow_trans; [apply H; auto|]. eapply grow_trans; [apply H0; op|]. assert (isopen (cexpr idx (cexpr arr g))) as O by op.
    eapply grow_trans; [apply grow_push; exact O|]. assert (isopen (g_push (OPeek PIndex) (cexpr idx (cexpr arr g)))) as O2 by (eapply grow_open, grow_push; auto).
    eapply grow_trans; [apply H1; exact O2|]. destruct o.
    + eapply grow_trans; apply grow_push; [op|]. eapply grow_open, grow_push. op.
    + eapply grow_trans; [apply grow_push; op|]. eapply grow_trans; apply grow_push; eapply grow_open, grow_push; [op|]. eapply grow_open, grow_push. op.
  - eapply grow_trans; [apply H; auto|]. apply grow_push. op.
  - split; [|split]; intros; [now apply grow_refl|now apply grow_refl|]. destruct (0 <? acc); [now apply grow_push|now apply grow_refl].
  - destruct H0 as [A [B D]]. split; [|split]; intros.
    + destruct spread.
      * eapply grow_trans; [apply H; auto|]. eapply grow_trans; [apply grow_push; op|]. apply A. eapply grow_open, grow_push. op.
      * eapply grow_trans; [apply H; auto|]. apply A. op.
    + eapply grow_trans; [apply H; auto|]. apply B. op.
    + destruct spread.
      * cbv zeta. set (g1 := if 0 <? acc then _ else g). assert (G1 : grow g g1) by (unfold g1; destruct (0 <? acc); [now apply grow_push|now apply grow_refl]).
        eapply grow_trans; [exact G1|]. eapply grow_trans; [apply H; op|]. eapply grow_trans; [apply grow_push; op|]. apply D. eapply grow_open, grow_push. op.
      * eapply grow_trans; [apply H; auto|]. apply D. op.
  - assert (O : isopen g) by op. assert (G1 : grow g (g_push (OPrim (PBinary (cmp_binop c))) (cexpr e g))) by (eapply grow_trans; [apply H; auto|apply grow_push; op]).
    destruct (brs_grow _ _ _ _ H1 G1). apply grow_join_all; auto. eapply grow_trans; eauto.
  - rewrite bf_eq. assert (O : isopen g) by op. assert (G1 : grow g (cexpr e g)) by (apply H; auto).
    apply H0.
    + eapply grow_trans; [eapply grow_trans; [exact H1|exact G1]|]. apply grow_bf. op.
    + apply brs_add; [eapply brs_grow; eauto|eapply grow_trans; eauto].
Qed.
