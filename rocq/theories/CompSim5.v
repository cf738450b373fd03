(** Simulation of statements: vocabulary; leaving scopes. *)
From Verif Require Import Base Native Err Vm VmProofs Graph GraphSpec GraphProofs Peep PeepSpec PeepProofs Lang LangSpec LangCheck Compile CompGraph CompGraph2 CompFlow CompInv CompUnf CompLv CompSim1 CompSim2 CompSim3.
Local Open Scope nat_scope.
Local Arguments CompInv.mk : simpl never.

Definition dlv (v : option hval) : list slot := match v with Some v => [STmp v] | None => [] end.
Definition isS (v : option hval) : bool := match v with Some _ => true | None => false end.
Definition flagged (l : list (nat * bool)) (j : nat) : Prop := exists d, nth_error l j = Some (d, true).
(** growth of the captured slots between two stacks *)
Definition cg2 (F : nat) (L : list nat) (K : list slot) (h : hp) (K' : list slot) (h' : hp) : Prop :=
  forall x, capd h' K' x -> capd h K x \/ exists i, In i L /\ x = F + i.
Lemma cg2_trans F L1 L2 K1 h1 K2 h2 K3 h3 : cg2 F L1 K1 h1 K2 h2 -> cg2 F L2 K2 h2 K3 h3 -> cg2 F (L1 ++ L2) K1 h1 K3 h3.
Proof.
  intros A B x H. destruct (B x H) as [H1|[i [H1 H2]]]; [|right; exists i; rewrite in_app_iff; auto].
  destruct (A x H1) as [?|[i [? ?]]]; [auto|]. right. exists i. rewrite in_app_iff. auto.
Qed.
Lemma cg2_incl F L L' K h K' h' : cg2 F L K h K' h' -> (forall i, In i L -> In i L') -> cg2 F L' K h K' h'.
Proof. intros H I x Hx. destruct (H x Hx) as [?|[i [? ?]]]; eauto. Qed.
Lemma cg2_refl F K h : cg2 F [] K h K h. Proof. intros x H. auto. Qed.

Lemma lifts_app sc a : forall i b, lifts_from i sc (a ++ b) = lifts_from (i + length a) sc b ++ lifts_from i sc a.
Proof.
  induction a as [|[d f] a IH]; intros i b; simpl; [now rewrite Nat.add_0_r, app_nil_r|]. rewrite IH, <- app_assoc. f_equal.
  now rewrite Nat.add_succ_comm.
Qed.
Lemma lifts_low sc l : (forall d f, In (d, f) l -> d < sc) -> forall i, lifts_from i sc l = [].
Proof.
  induction l as [|[d f] l IH]; intros H i; simpl; auto. rewrite IH by (intros; eapply H; simpl; eauto).
  replace (sc <=? d) with false; auto. symmetry. apply Nat.leb_gt. eapply H. simpl. auto.
Qed.
Lemma split_lifts sc l k : split_at sc l k -> lifts_from 0 sc l = lifts_from k sc (skipn k l).
Proof.
  intros [A B]. rewrite <- (firstn_skipn k l) at 1. rewrite lifts_app. rewrite (lifts_low sc (firstn k l)).
  - rewrite app_nil_r, firstn_length. f_equal. lia.
  - intros d f H. apply In_nth_error in H. destruct H as [i H].
    assert (i < k). { assert (i < length (firstn k l)) by (apply nth_error_Some; congruence). rewrite firstn_length in *. lia. }
    specialize (B i d f). rewrite <- (firstn_skipn k l), nth_error_app1 in B by (rewrite firstn_length; lia). specialize (B H). lia.
Qed.
Lemma firstn_len_app {A} (a b : list A) k : length a = k -> firstn k (a ++ b) = a.
Proof. intros <-. now rewrite firstn_app, Nat.sub_diag, firstn_all, firstn_O, app_nil_r. Qed.
Lemma repeat_S_tail {A} (x : A) n : repeat x (S n) = x :: repeat x n. Proof. reflexivity. Qed.

Lemma nth_error_skipn {A} (l : list A) : forall k j, nth_error (skipn k l) j = nth_error l (k + j).
Proof. induction l as [|a l IH]; intros [|k] j; simpl; auto; now destruct j. Qed.

Section sim5.
Context (P : prims) (C : list op) (T : nat -> option func) (funs : nat -> option sfun).
Local Notation reaches := (reaches P C T).
Local Notation failing := (failing P C T).
Local Notation esim := (esim P C T).
Local Notation goes := (goes P C T).
Local Notation branches := (branches P C T).
Local Notation inv := (inv P).
Local Notation glob := (glob P).
Local Notation mk := (mk P).
Local Notation sstep := (strict_step P).
Local Notation post := (post P).
Local Notation pre := (pre P).
Local Notation st := (st P).
Local Notation store := (store P).
Local Notation senvs := (senvs P).
Local Notation globals := (globals P).

Definition code (i : nat) (os : list op) : Prop := forall j o, nth_error os j = Some o -> nth_error C (i + j) = Some o.
Lemma code_cons i o os : code i (o :: os) -> nth_error C i = Some o /\ code (S i) os.
Proof.
  intro H. split; [rewrite <- (Nat.add_0_r i); now apply H|]. intros j o' Hj. rewrite Nat.add_succ_comm. now apply H.
Qed.
Lemma code_app i a b : code i (a ++ b) -> code i a /\ code (i + length a) b.
Proof.
  intro H. split; intros j o Hj.
  - apply H. rewrite nth_error_app1; auto. apply nth_error_Some. congruence.
  - rewrite <- Nat.add_assoc. apply H. rewrite nth_error_app2 by lia. now replace (length a + j - length a) with j by lia.
Qed.
Lemma pops_sim fs li un D s K h X : forall i, code i (repeat OPop (length X)) ->
  reaches D (mk fs li un i s (K ++ X) h) (mk fs li un (i + length X) s K h).
Proof.
  induction X as [|y X IH] using rev_ind; intros i H; [rewrite app_nil_r, Nat.add_0_r; apply reaches_refl|].
  rewrite app_length in *. simpl in *. rewrite Nat.add_1_r in *. simpl in H. apply code_cons in H. destruct H as [H1 H2].
  eapply reaches_trans; [rewrite app_assoc; eapply step_go; [exact H1|apply s_pop]|]. rewrite <- Nat.add_succ_comm. now apply IH.
Qed.
Lemma mk_render fs li un i s K K' h : render (store s) K = render (store s) K' -> mk fs li un i s K h = mk fs li un i s K' h.
Proof. intro E. unfold CompInv.mk. now rewrite E. Qed.
Lemma mk_tag fs li un i s A y B h : mk fs li un i s (A ++ y :: B) h = mk fs li un i s (A ++ STmp (sval (store s) y) :: B) h.
Proof. apply mk_render. now rewrite !render_app. Qed.
Lemma s_lift fs li un i s A y B h j : length A = fpof fs + j -> inv s (A ++ y :: B) h ->
  sstep (OLift j) (mk fs li un i s (A ++ y :: B) h) = Go P (mk fs li un i s (A ++ STmp (sval (store s) y) :: B) (lifted (length A) (sval (store s) y) h)).
Proof.
  intros E I. rewrite <- mk_tag. unfold strict_step. cbn [self_store step]. rewrite fp_mk, <- E, stack_mk, cells_mk. unfold lifted.
  change (opens P (mk fs li un i s (A ++ y :: B) h)) with (h_op h).
  destruct (assoc (length A) (h_op h)) as [k|] eqn:As; [|reflexivity].
  rewrite (render_nth _ _ _ y) by apply mid_at. rewrite (i_open _ _ _ _ I _ _ As). reflexivity.
Qed.
Lemma lifts_sim fs li un D s F sc : fpof fs = F -> forall (l : list (nat * bool)) k B A X h i,
  length B = length l -> length A = F + k -> (forall d f, In (d, f) l -> sc <= d) ->
  inv s (A ++ B ++ X) h -> (forall j, j < length B -> capd h (A ++ B ++ X) (F + (k + j)) -> flagged l j) ->
  code i (lifts_from k sc l) ->
  let K' := A ++ map STmp (render (store s) B) ++ X in
  exists h', reaches D (mk fs li un i s (A ++ B ++ X) h) (mk fs li un (i + length (lifts_from k sc l)) s K' h') /\
    inv s K' h' /\ (forall x, capd h' K' x -> capd h (A ++ B ++ X) x).
Proof.
  intros Ef. induction l as [|[d f] l IH] using rev_ind; intros k B A X h i LB LA Hd I Hc Hi.
  - destruct B; [|discriminate]. cbn [render map app]. exists h. simpl. rewrite Nat.add_0_r. split; [apply reaches_refl|auto].
  - destruct B as [|y B _] using rev_ind; [rewrite app_length in LB; simpl in LB; lia|]. rewrite !app_length in LB. simpl in LB.
    assert (LB' : length B = length l) by lia. rewrite lifts_app in *. cbn [lifts_from] in *.
    assert (Hsc : (sc <=? d) = true). { apply Nat.leb_le. apply (Hd d f). rewrite in_app_iff. simpl. auto. }
    rewrite Hsc in *. cbn [andb app] in *.
    assert (Ek : A ++ (B ++ [y]) ++ X = (A ++ B) ++ y :: X) by (now rewrite <- !app_assoc).
    assert (Ek2 : A ++ map STmp (render (store s) (B ++ [y])) ++ X = A ++ map STmp (render (store s) B) ++ STmp (sval (store s) y) :: X).
    { rewrite render_app, map_app, <- app_assoc. reflexivity. }
    cbv zeta. rewrite Ek2. set (v := sval (store s) y) in *.
    assert (X1 : exists h1, reaches D (mk fs li un i s (A ++ (B ++ [y]) ++ X) h) (mk fs li un (i + length (if f then [OLift (k + length l)] else [])) s (A ++ B ++ STmp v :: X) h1) /\
      inv s (A ++ B ++ STmp v :: X) h1 /\ (forall x, capd h1 (A ++ B ++ STmp v :: X) x -> capd h (A ++ (B ++ [y]) ++ X) x)).
    { rewrite Ek in *. rewrite (app_assoc A B (STmp v :: X)). destruct f.
      - exists (lifted (length (A ++ B)) v h). split; [|split].
        + cbn [length app] in *. apply code_cons in Hi. destruct Hi as [Hi _]. rewrite Nat.add_1_r.
          eapply step_go; [exact Hi|]. apply s_lift; [|exact I]. rewrite app_length, LA, LB', Ef. lia.
        + apply inv_lift. exact I.
        + intros x. apply (lift_capd _ _ _ _ _ _ _ _ I).
      - exists h. cbn [length app]. rewrite Nat.add_0_r. split; [|split].
        + unfold v. rewrite <- mk_tag. apply reaches_refl.
        + destruct y as [l0|v0]; [|exact I]. apply (inv_untag _ _ _ l0); [exact I|]. intro Q.
          destruct (Hc (length B)) as [d0 Hf].
          * rewrite app_length. simpl. lia.
          * replace (F + (k + length B)) with (length (A ++ B)) by (rewrite app_length; lia). exact Q.
          * rewrite LB', nth_error_app2, Nat.sub_diag in Hf by lia. simpl in Hf. discriminate.
        + intros x. apply (untag_capd _ _ _ _ _ _ _ _ I). }
    destruct X1 as (h1 & R1 & I1 & C1). apply code_app in Hi. destruct Hi as [_ Hi].
    destruct (IH k B A (STmp v :: X) h1 (i + length (if f then [OLift (k + length l)] else [])) LB' LA) as (h2 & R2 & I2 & C2); auto.
    + intros d0 f0 H. apply (Hd d0 f0). rewrite in_app_iff. auto.
    + intros j Hj Q. apply C1 in Q. destruct (Hc j) as [d0 Hf]; [rewrite app_length; lia|exact Q|]. exists d0.
      rewrite nth_error_app1 in Hf by lia. exact Hf.
    + exists h2. split; [|split; auto]. eapply reaches_trans; [exact R1|]. rewrite app_length, Nat.add_assoc. exact R2.
Qed.

(** ** Statements: the context *)
Section stm.
Context (G : graph) (sta : list nat) (HL : laid C G sta) (F : nat) (fs : list (nat * nat)) (Ef : fpof fs = F) (li : list (L P)) (un : list Z) (top rt : bool).
Local Notation mk := (mk fs li un).
Local Notation here := (here sta).

(** the enclosing loop: compile-time context, whether continue is allowed, number of
    variables that survive a break and a continue *)
Record loopx := LX { x_lc : loopctx; x_lp : option bool; x_nb : nat; x_nin : nat }.
Record spre (fr : frame) (K : list slot) (s : st) (h : hp) (lvs : list (nat * bool)) (M : list nat) : Prop := {
  sp_pre : pre fr F fs K s h;
  sp_len : length K = F + length lvs;
  sp_loc : length (locals fr) = length lvs;
  sp_cap : forall j, capd h K (F + j) -> flagged lvs j \/ In j M;
  sp_M : forall j, In j M -> j < length lvs }.
Definition lrel (X : loopx) (sd : nat) (lvs : list (nat * bool)) (M : list nat) (len : nat) : Prop :=
  match x_lc X, x_lp X with
  | None, None => True
  | Some (start, enc, inner), Some b =>
      split_at enc lvs (x_nb X) /\ enc <= sd /\ (forall j, In j M -> j < x_nb X) /\ start < len /\
      (b = true -> split_at inner lvs (x_nin X) /\ inner <= sd /\ x_nb X <= x_nin X)
  | _, _ => False
  end.
Record hyps (X : loopx) (sd : nat) (fr : frame) (M Fs : list nat) (s : st) (K : list slot) (h : hp) (c : cs) : Prop := {
  y_open : isopen (cg c);
  y_pre : spre fr K s h (lv c) M;
  y_dep : depths sd (lv c);
  y_F : forall j, In j Fs -> flagged (lv c) j;
  y_loop : lrel X sd (lv c) M (length (cg c)) }.
Definition gok (gl : bool) (X : loopx) (fr : frame) (s : st) : Prop :=
  gl = true -> F = 0 /\ length (globals s) = length (locals fr) /\ x_lp X = None /\ rt = false.

(** ** Outcomes *)
Definition fin (L : list nat) (K : list slot) (s : st) (h : hp) (s' : st) (K' : list slot) (h' : hp) : Prop :=
  inv s' K' h' /\ cg2 F L K h K' h' /\ exists l, senvs s' = senvs s ++ l.
Lemma fin_trans L1 L2 K1 s1 h1 K2 s2 h2 K3 s3 h3 : fin L1 K1 s1 h1 s2 K2 h2 -> fin L2 K2 s2 h2 s3 K3 h3 -> fin (L1 ++ L2) K1 s1 h1 s3 K3 h3.
Proof.
  intros [A1 [B1 [l1 D1]]] [A2 [B2 [l2 D2]]]. split; [auto|]. split; [eapply cg2_trans; eauto|]. exists (l1 ++ l2). now rewrite D2, D1, app_assoc.
Qed.
Lemma fin_incl L L' K s h s' K' h' : fin L K s h s' K' h' -> (forall i, In i L -> In i L') -> fin L' K s h s' K' h'.
Proof. intros [A [B D]] I. split; auto. split; auto. eapply cg2_incl; eauto. Qed.
Lemma fin_idem L K1 s1 h1 K2 s2 h2 K3 s3 h3 : fin L K1 s1 h1 s2 K2 h2 -> fin L K2 s2 h2 s3 K3 h3 -> fin L K1 s1 h1 s3 K3 h3.
Proof. intros A B. eapply fin_incl; [eapply fin_trans; eauto|]. intros i. rewrite in_app_iff. tauto. Qed.
Lemma fin_post L K s h s' h' : post F L K s h s' h' -> fin L K s h s' K h'.
Proof. intros [A [B D] E]. split; auto. Qed.
Lemma fin_refl K s h : inv s K h -> fin [] K s h s K h.
Proof. intros I. split; auto. split; [apply cg2_refl|]. exists []. now rewrite app_nil_r. Qed.

Definition Qo (X : loopx) (gl : bool) (fr : frame) (K : list slot) (s : st) (h : hp) (L : list nat) (m0 : vm P)
    (dst nd : nat) (dl : bool) (brks : list nat) : outcome -> st -> Prop := fun o s' => exists h',
  match o with
  | ONorm ls v => exists new, ls = locals fr ++ map Some new /\ length new = nd /\ isS v = dl /\
      fin L K s h s' (K ++ map SVar new) h' /\ globals s' = globals s ++ (if gl then new else []) /\
      reaches fs m0 (mk dst s' ((K ++ map SVar new) ++ dlv v) h')
  | OBreak => x_lp X <> None /\ fin L K s h s' (firstn (F + x_nb X) K) h' /\ globals s' = globals s /\
      exists j, In j brks /\ reaches fs m0 (mk (tail G sta j) s' (firstn (F + x_nb X) K) h')
  | OContinue => x_lp X = Some true /\ fin L K s h s' (firstn (F + x_nin X) K) h' /\ globals s' = globals s /\
      match x_lc X with Some (start, _, _) => reaches fs m0 (mk (nth start sta 0) s' (firstn (F + x_nin X) K) h') | None => False end
  | OReturned v => rt = true /\ fin L K s h s' (firstn F K) h' /\ globals s' = globals s /\
      exists own i, nth_error C i = Some OReturn /\ reaches fs m0 (mk i s' (firstn F K ++ map STmp own ++ [STmp v]) h')
  end.
Lemma Qo_pre X gl fr K s h L m0 m1 dst nd dl brks o s' : reaches fs m0 m1 -> Qo X gl fr K s h L m1 dst nd dl brks o s' -> Qo X gl fr K s h L m0 dst nd dl brks o s'.
Proof.
  intros R [h' H]. exists h'. destruct o as [ls v| | |v].
  - destruct H as (new & A & B & D & E & H & Q). exists new. split; [auto|]. split; [auto|]. split; [auto|]. split; [auto|]. split; [auto|]. eapply reaches_trans; eauto.
  - destruct H as (A & B & D & j & E & Q). split; [auto|]. split; [auto|]. split; [auto|]. exists j. split; auto. eapply reaches_trans; eauto.
  - destruct H as (A & B & D & Q). split; [auto|]. split; [auto|]. split; [auto|]. destruct (x_lc X) as [[[? ?] ?]|]; auto. eapply reaches_trans; eauto.
  - destruct H as (A & B & D & own & i & E & Q). split; [auto|]. split; [auto|]. split; [auto|]. exists own, i. split; auto. eapply reaches_trans; eauto.
Qed.
Lemma Qo_incl X gl fr K s h L L' m0 dst nd dl brks brks' o s' : Qo X gl fr K s h L m0 dst nd dl brks o s' ->
  (forall i, In i L -> In i L') -> (forall i, In i brks -> In i brks') -> Qo X gl fr K s h L' m0 dst nd dl brks' o s'.
Proof.
  intros [h' H] IL IB. exists h'. destruct o as [ls v| | |v].
  - destruct H as (new & A & B & D & E & H & Q). exists new. split; [auto|]. split; [auto|]. split; [auto|]. split; [eapply fin_incl; eauto|]. auto.
  - destruct H as (A & B & D & j & E & Q). split; [auto|]. split; [eapply fin_incl; eauto|]. split; [auto|]. exists j. auto.
  - destruct H as (A & B & D & Q). split; [auto|]. split; [eapply fin_incl; eauto|]. auto.
  - destruct H as (A & B & D & own & i & E & Q). split; [auto|]. split; [eapply fin_incl; eauto|]. split; [auto|]. exists own, i. auto.
Qed.
(** the exceptional outcomes do not depend on where the statement ends *)
Definition abrupt (o : outcome) : Prop := match o with ONorm _ _ => False | _ => True end.
(** earlier changes of the state *)
Lemma Qo_after X (gl : bool) fr K s h L1 L2 s1 (new : list nat) h1 m0 dst nd1 nd dl brks o s' :
  fin L1 K s h s1 (K ++ map SVar new) h1 -> globals s1 = globals s ++ (if gl then new else []) -> length new = nd1 ->
  F <= length K -> (x_lp X <> None -> F + x_nb X <= length K) -> (x_lp X = Some true -> F + x_nin X <= length K) ->
  (gl = true -> x_lp X = None /\ rt = false) ->
  Qo X gl (Frame (locals fr ++ map Some new) (up fr)) (K ++ map SVar new) s1 h1 L2 m0 dst nd dl brks o s' ->
  Qo X gl fr K s h (L1 ++ L2) m0 dst (nd1 + nd) dl brks o s'.
Proof.
  intros Fi Gl Ln LF Lb Lc Hg [h' H]. exists h'.
  assert (FN : forall k, k <= length K -> firstn k (K ++ map SVar new) = firstn k K).
  { intros k Hk. rewrite firstn_app. replace (k - length K) with 0 by lia. now rewrite firstn_O, app_nil_r. }
  destruct o as [ls v| | |v].
  - destruct H as (new2 & A & B & D & E & H & Q). cbn [locals] in A. exists (new ++ new2). rewrite !map_app, app_length.
    split; [rewrite A; now rewrite <- app_assoc|]. split; [lia|]. split; [auto|]. rewrite <- !app_assoc in *. split; [eapply fin_trans; eauto|].
    split; [|auto]. rewrite H, Gl. rewrite <- app_assoc. now destruct gl.
  - destruct H as (A & B & D & j & E & Q). destruct gl; [destruct (Hg eq_refl); congruence|]. rewrite app_nil_r in Gl. rewrite FN in * by auto.
    split; [auto|]. split; [eapply fin_trans; eauto|]. split; [congruence|]. exists j. auto.
  - destruct H as (A & B & D & Q). destruct gl; [destruct (Hg eq_refl); congruence|]. rewrite app_nil_r in Gl. rewrite FN in * by auto.
    split; [auto|]. split; [eapply fin_trans; eauto|]. split; [congruence|]. auto.
  - destruct H as (A & B & D & own & i & E & Q). destruct gl; [destruct (Hg eq_refl); congruence|]. rewrite app_nil_r in Gl. rewrite FN in * by auto.
    split; [auto|]. split; [eapply fin_trans; eauto|]. split; [congruence|]. exists own, i. auto.
Qed.
(** the common case: no new variables *)
Lemma Qo_after0 X gl fr K s h L1 L2 s1 h1 m0 dst nd dl brks o s' :
  fin L1 K s h s1 K h1 -> globals s1 = globals s ->
  Qo X gl fr K s1 h1 L2 m0 dst nd dl brks o s' ->
  Qo X gl fr K s h (L1 ++ L2) m0 dst nd dl brks o s'.
Proof.
  intros Fi Gl [h' H]. exists h'. rewrite Gl in H.
  destruct o as [ls v| | |v].
  - destruct H as (new2 & A & B & D & E & H & Q). exists new2. split; [auto|]. split; [auto|]. split; [auto|]. split; [eapply fin_trans; eauto|]. auto.
  - destruct H as (A & B & D & j & E & Q). split; [auto|]. split; [eapply fin_trans; eauto|]. split; [congruence|]. exists j. auto.
  - destruct H as (A & B & D & Q). split; [auto|]. split; [eapply fin_trans; eauto|]. auto.
  - destruct H as (A & B & D & own & i & E & Q). split; [auto|]. split; [eapply fin_trans; eauto|]. split; [congruence|]. exists own, i. auto.
Qed.
Lemma Qo_norm X gl fr K s h L m0 dst dl brks v s' h' : fin L K s h s' K h' -> globals s' = globals s -> isS v = dl ->
  reaches fs m0 (mk dst s' (K ++ dlv v) h') -> Qo X gl fr K s h L m0 dst 0 dl brks (ONorm (locals fr) v) s'.
Proof.
  intros A B D E. exists h', []. cbn [map]. rewrite !app_nil_r. split; [auto|]. split; [auto|]. split; [auto|]. split; [auto|]. split; [|auto]. now destruct gl; rewrite app_nil_r.
Qed.

(** ** Moving along the hypotheses *)
Lemma flagged_mark l caps j : flagged l j -> flagged (mark_from 0 caps l) j.
Proof. intros [d H]. exists d. now rewrite (mark_nth caps l 0 j d true H). Qed.
Lemma flagged_in l caps j : j < length l -> In j caps -> flagged (mark_from 0 caps l) j.
Proof.
  intros L H. destruct (nth_error l j) as [[d f]|] eqn:E; [|apply nth_error_None in E; lia]. exists d. rewrite (mark_nth caps l 0 j d f E). f_equal. f_equal.
  rewrite orb_true_iff. right. apply existsb_exists. exists j. split; auto. now apply Nat.eqb_eq.
Qed.
Lemma flagged_lt l j : flagged l j -> j < length l. Proof. intros [d H]. apply nth_error_Some. congruence. Qed.
Lemma flagged_app l l2 j : flagged l j -> flagged (l ++ l2) j.
Proof. intros [d H]. exists d. rewrite nth_error_app1; auto. apply nth_error_Some. congruence. Qed.
Lemma capd_lt h K x : capd h K x -> x < length K. Proof. intros [k [l [_ H]]]. apply nth_error_Some. congruence. Qed.
Lemma frel_new fr K s s' new : frel P fr F K s -> length K = F + length (locals fr) -> (exists l, senvs s' = senvs s ++ l) ->
  frel P (Frame (locals fr ++ map Some new) (up fr)) F (K ++ map SVar new) s'.
Proof.
  intros FR E X. apply (frel_more P _ _ K (map SVar new)) in FR. apply (frel_senvs P _ _ _ _ s' FR) in X. destruct X as [A B D]. split; auto.
  intros i l H. cbn [locals] in H. destruct (Nat.lt_ge_cases i (length (locals fr))).
  - rewrite nth_error_app1 in H by auto. auto.
  - rewrite nth_error_app2 in H by auto. rewrite nth_error_map in H. rewrite nth_error_app2 by lia. rewrite nth_error_map.
    replace (F + i - length K) with (i - length (locals fr)) by lia. destruct (nth_error new _); [|discriminate]. simpl in *. congruence.
Qed.
Lemma glob_new (gl : bool) s s' K (new : list nat) : glob s K -> globals s' = globals s ++ (if gl then new else []) -> (gl = true -> length K = length (globals s)) -> glob s' (K ++ map SVar new).
Proof.
  intros Gb E Hg i l H. rewrite E in H. destruct (Nat.lt_ge_cases i (length (globals s))).
  - rewrite nth_error_app1 in H by auto. pose proof (Gb i l H) as N. rewrite nth_error_app1; auto. apply nth_error_Some. congruence.
  - rewrite nth_error_app2 in H by auto. destruct gl; [|destruct (i - length (globals s)); discriminate]. specialize (Hg eq_refl).
    rewrite nth_error_app2 by lia. rewrite Hg, nth_error_map, H. reflexivity.
Qed.
Lemma spre_next (gl : bool) fr K s h lvs M L s' (new : list nat) h' sd nd : spre fr K s h lvs M -> fin L K s h s' (K ++ map SVar new) h' -> globals s' = globals s ++ (if gl then new else []) ->
  (gl = true -> F = 0 /\ length (globals s) = length (locals fr)) -> length new = nd ->
  spre (Frame (locals fr ++ map Some new) (up fr)) (K ++ map SVar new) s' h' (mark_from 0 L (lvs ++ repeat (sd, false) nd)) M.
Proof.
  intros [[I Gb FR E] B D A H] [I' [Cg X]] Eg Hg Ln.
  split.
  - split; auto.
    + eapply glob_new; [exact Gb|exact Eg|]. intros Q. destruct (Hg Q). lia.
    + eapply frel_new; eauto. lia.
  - rewrite mark_len, !app_length, map_length, repeat_length. lia.
  - cbn [locals]. rewrite mark_len, !app_length, map_length, repeat_length. lia.
  - intros j Q. pose proof (capd_lt _ _ _ Q) as Lt. rewrite app_length, map_length in Lt. destruct (Cg _ Q) as [Q1|[i [Q1 Q2]]].
    + destruct (A j Q1) as [Q2|Q2]; [left|auto]. apply flagged_mark, flagged_app. exact Q2.
    + left. replace i with j in Q1 by lia. apply flagged_in; auto. rewrite app_length, repeat_length. lia.
  - intros j Q. rewrite mark_len, app_length. specialize (H j Q). lia.
Qed.
Lemma lrel_more X sd lvs M len L nd len' : lrel X sd lvs M len -> len <= len' -> lrel X sd (mark_from 0 L (lvs ++ repeat (sd, false) nd)) M len'.
Proof.
  unfold lrel. destruct (x_lc X) as [[[a b] d]|], (x_lp X) as [e|]; auto. intros (A & B & D & E & H) Le.
  split; [apply split_mark, split_more; auto|]. split; [auto|]. split; [auto|]. split; [lia|]. intro Q. destruct (H Q) as (H1 & H2 & H3). split; auto. apply split_mark, split_more; auto.
Qed.
Lemma hyps_next (gl : bool) X sd fr M Fs s K h c c' L s' (new : list nat) h' nd : hyps X sd fr M Fs s K h c -> fin L K s h s' (K ++ map SVar new) h' ->
  globals s' = globals s ++ (if gl then new else []) -> (gl = true -> F = 0 /\ length (globals s) = length (locals fr)) -> length new = nd ->
  cgrow c c' -> lv c' = mark_from 0 L (lv c ++ repeat (sd, false) nd) ->
  hyps X sd (Frame (locals fr ++ map Some new) (up fr)) M (under (length (lv c) + nd) (L ++ Fs)) s' (K ++ map SVar new) h' c'.
Proof.
  intros [A B D E H] Fi Eg Hg Ln Gr Lv. split.
  - eapply cgrow_open; eauto.
  - rewrite Lv. eapply spre_next; eauto.
  - rewrite Lv. now apply depths_mark, depths_more.
  - intros j Hj. apply filter_In in Hj. destruct Hj as [Hj Lj]. apply Nat.ltb_lt in Lj. rewrite Lv. apply in_app_iff in Hj. destruct Hj as [Hj|Hj].
    + apply flagged_in; auto. rewrite app_length, repeat_length. exact Lj.
    + apply flagged_mark, flagged_app. auto.
  - rewrite Lv. eapply lrel_more; eauto. apply grow_len. apply Gr.
Qed.
Lemma frame_eta fr : Frame (locals fr ++ map Some (@nil nat)) (up fr) = fr.
Proof. destruct fr. cbn. now rewrite app_nil_r. Qed.
Lemma hyps_next0 X sd fr M Fs s K h c c' L s' h' : hyps X sd fr M Fs s K h c -> fin L K s h s' K h' ->
  globals s' = globals s -> cgrow c c' -> lv c' = mark_from 0 L (lv c) ->
  hyps X sd fr M (under (length (lv c)) (L ++ Fs)) s' K h' c'.
Proof.
  intros A B D E H. pose proof (hyps_next false X sd fr M Fs s K h c c' L s' [] h' 0 A) as Z. cbn [map repeat] in Z. rewrite !app_nil_r in Z.
  rewrite Nat.add_0_r in Z. replace (Frame (locals fr) (up fr)) with fr in Z by (now destruct fr). apply Z; auto. discriminate.
Qed.
Lemma under_sub n a b j : In j (under n a) -> (forall i, In i a -> In i b) -> In j (under n b).
Proof. intros H I. apply filter_In in H. apply filter_In. destruct H. auto. Qed.
Lemma hyps_F X sd fr M Fs Fs' s K h c : hyps X sd fr M Fs s K h c -> (forall j, In j Fs' -> In j Fs) -> hyps X sd fr M Fs' s K h c.
Proof. intros [A B D E H] I. split; auto. Qed.
Lemma hyps_len X sd fr M Fs s K h c : hyps X sd fr M Fs s K h c -> length K = F + length (lv c). Proof. intros H. apply (y_pre _ _ _ _ _ _ _ _ _ H). Qed.
Lemma lrel_nb X sd lvs M len : lrel X sd lvs M len -> x_lp X <> None -> x_nb X <= length lvs.
Proof. unfold lrel. destruct (x_lc X) as [[[? ?] ?]|], (x_lp X); intros H N; try contradiction; try congruence. destruct H as [[A _] _]. exact A. Qed.
Lemma lrel_nin X sd lvs M len : lrel X sd lvs M len -> x_lp X = Some true -> x_nin X <= length lvs.
Proof. unfold lrel. destruct (x_lc X) as [[[? ?] ?]|], (x_lp X); intros H Q; try contradiction; try congruence. destruct H as (_ & _ & _ & _ & H). injection Q as ->. destruct (H eq_refl) as [[A _] _]. exact A. Qed.

(** ** Leaving scopes *)
Lemma scope_sim sc k D i lvs K s h xs : split_at sc lvs k -> length K = F + length lvs -> inv s K h ->
  (forall j, k <= j -> capd h K (F + j) -> flagged lvs j) -> code i (lifts_from 0 sc lvs) ->
  let K' := firstn (F + k) K ++ map STmp (render (store s) (skipn (F + k) K)) in
  exists h', reaches D (mk i s (K ++ map STmp xs) h) (mk (i + length (lifts_from 0 sc lvs)) s (K' ++ map STmp xs) h') /\
    inv s K' h' /\ (forall x, capd h' K' x -> capd h K x).
Proof.
  intros Sp LK I Hc Hi K'. pose proof Sp as [Sp1 Sp2]. rewrite (split_lifts _ _ _ Sp) in *.
  assert (SV : same_vars K (K ++ map STmp xs)) by apply tmps_same.
  assert (EK : K ++ map STmp xs = firstn (F + k) K ++ skipn (F + k) K ++ map STmp xs) by (now rewrite app_assoc, firstn_skipn).
  destruct (lifts_sim fs li un D s F sc Ef (skipn k lvs) k (skipn (F + k) K) (firstn (F + k) K) (map STmp xs) h i) as (h' & R & I' & C').
  - rewrite !skipn_length. lia.
  - rewrite firstn_length. lia.
  - intros d f H. apply In_nth_error in H. destruct H as [j H]. rewrite nth_error_skipn in H. apply Sp2 in H. lia.
  - rewrite <- EK. eapply inv_same; eauto.
  - intros j Hj Q. rewrite <- EK in Q. apply (capd_same _ _ _ _ (same_vars_sym _ _ SV)) in Q. destruct (Hc (k + j) ltac:(lia) Q) as [d Hd]. exists d. now rewrite nth_error_skipn.
  - exact Hi.
  - rewrite <- EK in R, C'. unfold K'. rewrite <- app_assoc. rewrite app_assoc in I'. exists h'. split; [exact R|]. split.
    + eapply inv_same; [|exact I']. apply same_vars_sym, tmps_same.
    + intros x Q. apply (capd_same _ _ _ _ (tmps_same _ xs)) in Q. rewrite <- app_assoc in Q. apply C' in Q. eapply capd_same; [apply same_vars_sym; exact SV|exact Q].
Qed.
End stm.
End sim5.
