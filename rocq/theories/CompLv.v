(** What compiling a statement does to the list of variables. *)
From Verif Require Import Base Native Err Vm Graph Peep Lang LangCheck Compile CompGraph.
Local Open Scope nat_scope.

Lemma mark_len caps l : forall i, length (mark_from i caps l) = length l.
Proof. induction l as [|[d f] l IH]; intros i; simpl; auto. Qed.
Lemma mark_ext a b l : (forall i, existsb (Nat.eqb i) a = existsb (Nat.eqb i) b) -> forall i, mark_from i a l = mark_from i b l.
Proof. intros H. induction l as [|[d f] l IH]; intros i; simpl; auto. rewrite H, IH. reflexivity. Qed.
Lemma mark_mark a b l : forall i, mark_from i b (mark_from i a l) = mark_from i (a ++ b) l.
Proof. induction l as [|[d f] l IH]; intros i; simpl; auto. rewrite IH, existsb_app, orb_assoc. reflexivity. Qed.
Lemma mark_app caps a : forall i b, mark_from i caps (a ++ b) = mark_from i caps a ++ mark_from (i + length a) caps b.
Proof. induction a as [|[d f] a IH]; intros i b; simpl; [now rewrite Nat.add_0_r|]. rewrite IH. do 2 f_equal. now rewrite Nat.add_succ_comm. Qed.
Lemma mark_nil l : forall i, mark_from i [] l = l.
Proof. induction l as [|[d f] l IH]; intros i; simpl; auto. now rewrite orb_false_r, IH. Qed.
Lemma mark_firstn caps l : forall i k, firstn k (mark_from i caps l) = mark_from i caps (firstn k l).
Proof. induction l as [|[d f] l IH]; intros i [|k]; simpl; auto. now rewrite IH. Qed.
Lemma mark_nth caps l : forall i j d f, nth_error l j = Some (d, f) -> nth_error (mark_from i caps l) j = Some (d, f || existsb (Nat.eqb (i + j)) caps).
Proof.
  induction l as [|[d0 f0] l IH]; intros i [|j] d f H; simpl in *; try discriminate.
  - injection H as -> ->. now rewrite Nat.add_0_r.
  - rewrite (IH (S i) j d f H). now rewrite Nat.add_succ_comm.
Qed.
Lemma mark_nth_inv caps l i j d f : nth_error (mark_from i caps l) j = Some (d, f) -> exists f0, nth_error l j = Some (d, f0) /\ f = f0 || existsb (Nat.eqb (i + j)) caps.
Proof.
  intro H. destruct (nth_error l j) as [[d0 f0]|] eqn:E.
  - rewrite (mark_nth caps l i j d0 f0 E) in H. injection H as -> <-. eauto.
  - apply nth_error_None in E. assert (nth_error (mark_from i caps l) j = None) by (apply nth_error_None; now rewrite mark_len). congruence.
Qed.
Lemma below_firstn {A} (l : list A) k : below l k = firstn (length l - k) l. Proof. reflexivity. Qed.

(** ** Scopes: the variables from number [k] on are those of depth at least [sc] *)
Definition split_at (sc : nat) (l : list (nat * bool)) (k : nat) : Prop :=
  k <= length l /\ forall i d f, nth_error l i = Some (d, f) -> (sc <= d <-> k <= i).
Definition depths (sd : nat) (l : list (nat * bool)) : Prop := forall i d f, nth_error l i = Some (d, f) -> d <= sd.
Lemma split_top sd l : depths sd l -> split_at (S sd) l (length l).
Proof. intros D. split; auto. intros i d f H. specialize (D i d f H). assert (i < length l) by (apply nth_error_Some; congruence). lia. Qed.
Lemma split_mark sc caps l k : split_at sc l k -> split_at sc (mark_from 0 caps l) k.
Proof. intros [A B]. split; [now rewrite mark_len|]. intros i d f H. apply mark_nth_inv in H. destruct H as [f0 [H _]]. eauto. Qed.
Lemma depths_mark sd caps l : depths sd l -> depths sd (mark_from 0 caps l).
Proof. intros D i d f H. apply mark_nth_inv in H. destruct H as [f0 [H _]]. eauto. Qed.
Lemma split_fl sc l k sd fl : split_at sc l k -> sc <= sd -> split_at sc (l ++ map (pair sd) fl) k.
Proof.
  intros [A B] L. split; [rewrite app_length; lia|]. intros i d f H. destruct (Nat.lt_ge_cases i (length l)).
  - rewrite nth_error_app1 in H by auto. eauto.
  - rewrite nth_error_app2 in H by auto. rewrite nth_error_map in H. destruct (nth_error fl _); [|discriminate]. injection H as -> ->. lia.
Qed.
Lemma depths_fl sd l sd' fl : depths sd l -> sd' <= sd -> depths sd (l ++ map (pair sd') fl).
Proof.
  intros D L i d f H. destruct (Nat.lt_ge_cases i (length l)).
  - rewrite nth_error_app1 in H by auto. eauto.
  - rewrite nth_error_app2 in H by auto. rewrite nth_error_map in H. destruct (nth_error fl _); [|discriminate]. injection H as -> ->. lia.
Qed.
Lemma split_more sc l k sd n : split_at sc l k -> sc <= sd -> split_at sc (l ++ repeat (sd, false) n) k.
Proof.
  intros [A B] L. split; [rewrite app_length; lia|]. intros i d f H. destruct (Nat.lt_ge_cases i (length l)).
  - rewrite nth_error_app1 in H by auto. eauto.
  - rewrite nth_error_app2 in H by auto. apply nth_error_In in H. apply repeat_spec in H. injection H as -> ->. lia.
Qed.
Lemma depths_more sd l sd' n : depths sd l -> sd' <= sd -> depths sd (l ++ repeat (sd', false) n).
Proof.
  intros D L i d f H. destruct (Nat.lt_ge_cases i (length l)).
  - rewrite nth_error_app1 in H by auto. eauto.
  - rewrite nth_error_app2 in H by auto. apply nth_error_In in H. apply repeat_spec in H. injection H as -> ->. lia.
Qed.
Lemma depths_le sd sd' l : depths sd l -> sd <= sd' -> depths sd' l.
Proof. intros D L i d f H. specialize (D i d f H). lia. Qed.
Lemma split_in_scope sc l k : split_at sc l k -> in_scope sc l = length l - k.
Proof.
  unfold in_scope. revert k. induction l as [|[d f] l IH]; intros k [A B]; simpl in *; auto.
  assert (B0 := B 0 d f eq_refl). simpl. destruct k as [|k].
  - replace (sc <=? d) with true by (symmetry; apply Nat.leb_le; lia). simpl. rewrite (IH 0); [lia|]. split; [lia|]. intros i d' f' H. specialize (B (S i) d' f' H). lia.
  - replace (sc <=? d) with false by (symmetry; apply Nat.leb_gt; lia). rewrite (IH k); [lia|]. split; [lia|]. intros i d' f' H. specialize (B (S i) d' f' H). lia.
Qed.
Lemma split_below sc l k : split_at sc l k -> below l (in_scope sc l) = firstn k l.
Proof. intros S. rewrite (split_in_scope _ _ _ S). unfold below. f_equal. destruct S. lia. Qed.
Lemma split_zero l : split_at 0 l 0. Proof. split; [lia|]. intros; lia. Qed.

(** ** Statements *)
Fixpoint decls (b : stmts) : nat := match b with BNil => 0 | BCons s r => declares s + decls r end.
Lemma lv_dpop c : lv (dpop c) = lv c. Proof. unfold dpop. now destruct (delay c). Qed.
Lemma lv_cmsg m c : lv (cmsg m c) = mark_from 0 (capsO m) (lv c).
Proof. destruct m; simpl; auto. now rewrite mark_nil. Qed.
Lemma delay_dpop c : delay (dpop c) = false. Proof. unfold dpop. now destruct (delay c) eqn:E. Qed.
Lemma delay_pop sc m p l c : delay (pop_locals sc m p l c) = delay c.
Proof. unfold pop_locals. now destruct m. Qed.
Lemma lv_pop sc p l c k : split_at sc (lv c) k -> lv (pop_locals sc true p l c) = firstn k (lv c).
Proof. intros S. unfold pop_locals. cbn [with_lv on_g lv]. now apply split_below. Qed.
Lemma lv_pop0 sc p l c : lv (pop_locals sc false p l c) = lv c. Proof. reflexivity. Qed.
Lemma mark_swap a b l : mark_from 0 (a ++ b) l = mark_from 0 (b ++ a) l.
Proof. apply mark_ext. intro. rewrite !existsb_app. apply orb_comm. Qed.
Lemma lv_block sd (body : cs -> cs) caps k c : depths sd (lv c) ->
  (forall c, depths (S sd) (lv c) -> exists fl, length fl = k /\ lv (body c) = mark_from 0 caps (lv c) ++ map (pair (S sd)) fl) ->
  lv (dpop (in_block sd body c)) = mark_from 0 caps (lv c).
Proof.
  intros D H. rewrite lv_dpop. unfold in_block.
  destruct (H (dpop c)) as [fl [_ E]]; [rewrite lv_dpop; apply (depths_le sd); auto|]. rewrite lv_dpop in E.
  rewrite (lv_pop _ _ _ _ (length (lv c))).
  - rewrite E. rewrite <- (mark_len caps (lv c) 0) at 1. rewrite firstn_app, Nat.sub_diag, firstn_all, firstn_O, app_nil_r. reflexivity.
  - rewrite E. apply split_fl; auto. rewrite <- (mark_len caps (lv c) 0). now apply split_top, depths_mark.
Qed.

Scheme stmt_mut := Induction for stmt Sort Prop with stmts_mut := Induction for stmts Sort Prop
  with else_mut := Induction for else_ Sort Prop with opt_mut := Induction for option_stmts Sort Prop.
Combined Scheme stmt_all from stmt_mut, stmts_mut, else_mut, opt_mut.

Lemma lv_all :
  (forall s top sd lc c, depths sd (lv c) -> lv (cstmt top sd lc s c) = mark_from 0 (capsS s) (lv c ++ repeat (sd, false) (declares s))) /\
  (forall b top sd lc c, depths sd (lv c) -> exists fl, length fl = decls b /\ lv (cstmts top sd lc b c) = mark_from 0 (capsB b) (lv c) ++ map (pair sd) fl) /\
  (forall el top sd lc j c, depths sd (lv c) -> lv (celse top sd lc j el c) = mark_from 0 (capsEl el) (lv c)) /\
  (forall el top sd lc c, depths sd (lv c) -> lv (copt top sd lc el c) = mark_from 0 (capsOS el) (lv c)).
Proof.
  apply stmt_all.
  - (* SExpr *) intros e top sd lc c D. cbn. now rewrite lv_dpop, app_nil_r.
  - intros top sd lc c D. cbn. now rewrite lv_dpop, mark_nil, app_nil_r.
  - intros e top sd lc c D. cbn. unfold init_local. destruct (top && _); cbn; now rewrite lv_dpop.
  - intros top sd lc c D. cbn. unfold init_local. destruct (top && _); cbn; now rewrite lv_dpop, mark_nil.
  - intros f cs top sd lc c D. cbn. unfold init_local. destruct (top && _); cbn; now rewrite lv_dpop.
  - intros v top sd lc c D. cbn. unfold init_local. destruct (top && _); cbn; now rewrite lv_dpop, mark_nil.
  - intros [e|] top sd lc c D; cbn; rewrite lv_dpop; [|rewrite mark_nil]; now rewrite app_nil_r.
  - (* SIf *) intros e b IB el IE top sd lc c D. cbn [cstmt declares capsS]. rewrite bf_eq. rewrite app_nil_r.
    set (c1 := on_g _ _). assert (E1 : lv c1 = mark_from 0 (capsE e) (lv c)) by (unfold c1; cbn; now rewrite lv_dpop).
    assert (D1 : depths sd (lv c1)) by (rewrite E1; now apply depths_mark).
    assert (E2 := lv_block sd (cstmts top (S sd) lc b) (capsB b) (decls b) c1 D1 (fun c => IB top (S sd) lc c)).
    rewrite IE; rewrite E2; [|rewrite E1, mark_mark; now apply depths_mark]. rewrite E1, !mark_mark. now rewrite <- ?app_assoc.
  - (* SWhile *) intros e b IB el IE top sd lc c D. cbn [cstmt declares capsS]. unfold begin_loop. rewrite br_eq, bf_eq, app_nil_r. cbv zeta.
    set (lc' := Some _). set (c1 := on_g (fun _ => fst (g_branch_forward _)) _).
    assert (E1 : lv c1 = mark_from 0 (capsE e) (lv c)) by (unfold c1; cbn; now rewrite lv_dpop).
    assert (D1 : depths sd (lv c1)) by (rewrite E1; now apply depths_mark).
    assert (E2 := lv_block sd (cstmts top (S sd) lc' b) (capsB b) (decls b) c1 D1 (fun c => IB top (S sd) lc' c)).
    unfold end_loop. cbn [lv]. rewrite IE; cbn [on_g lv]; rewrite E2; [|rewrite E1, mark_mark; now apply depths_mark]. rewrite E1, !mark_mark. now rewrite <- ?app_assoc.
  - (* SDo *) intros b IB e el IE top sd lc c D. cbn [cstmt declares capsS]. unfold begin_loop. rewrite br_eq, app_nil_r. cbv zeta.
    set (lc' := Some _). set (c1 := CS _ _ _ _).
    assert (D1 : depths sd (lv c1)) by exact D.
    assert (E2 := lv_block sd (cstmts top (S sd) lc' b) (capsB b) (decls b) c1 D1 (fun c => IB top (S sd) lc' c)).
    set (c2 := dpop _) in *. clearbody c2.
    unfold end_loop. cbn [lv]. destruct e as [e|]; (rewrite IE; cbn [on_g lv cex mark with_lv]; rewrite E2; [|try rewrite mark_mark; now apply depths_mark]); rewrite !mark_mark; cbn [capsO]; now rewrite <- ?app_assoc.
  - (* SLoop *) intros b IB top sd lc c D. cbn [cstmt declares capsS]. unfold begin_loop. rewrite br_eq, app_nil_r. cbv zeta.
    set (lc' := Some _). set (c1 := CS _ _ _ _).
    assert (E1 : lv c1 = lv c) by (unfold c1; cbn; now rewrite lv_dpop).
    unfold end_loop. cbn [lv on_g]. rewrite (lv_block sd (cstmts top (S sd) lc' b) (capsB b) (decls b) c1); rewrite ?E1; auto.
  - (* SFor *) intros nm e b IB el IE top sd lc c D. cbn [cstmt declares capsS]. unfold begin_loop. cbv zeta. rewrite br_eq, bf_eq, app_nil_r.
    set (lc' := Some _). match goal with |- context [in_block (S sd) _ (on_g ?f ?x)] => set (c1 := on_g f x) end.
    set (k := if nm then 2 else 1).
    assert (E1 : lv c1 = mark_from 0 (capsE e) (lv c) ++ (if nm then [(S sd, existsb (Nat.eqb (length (lv c))) (capsE e))] else []) ++ [(S sd, false)]).
    { unfold c1. destruct nm; cbn; rewrite lv_dpop; auto. rewrite mark_app. cbn. now rewrite <- ?app_assoc. }
    clearbody c1.
    assert (S1 : forall caps, split_at (S sd) (mark_from 0 caps (lv c1)) (length (lv c))).
    { intros caps. apply split_mark. rewrite E1. rewrite <- (mark_len (capsE e) (lv c) 0). split; [rewrite app_length; lia|]. intros i d f H.
      destruct (Nat.lt_ge_cases i (length (mark_from 0 (capsE e) (lv c)))).
      - rewrite nth_error_app1 in H by auto. apply (depths_mark _ (capsE e) _ D) in H. lia.
      - rewrite nth_error_app2 in H by auto. apply nth_error_In in H. destruct nm; simpl in H; [destruct H as [H|[H|[]]]|destruct H as [H|[]]]; injection H; intros; lia. }
    assert (D1 : depths (S sd) (lv c1)).
    { rewrite E1. intros i d f H. destruct (Nat.lt_ge_cases i (length (mark_from 0 (capsE e) (lv c)))).
      - rewrite nth_error_app1 in H by auto. apply (depths_mark _ (capsE e) _ D) in H. lia.
      - rewrite nth_error_app2 in H by auto. apply nth_error_In in H. destruct nm; simpl in H; [destruct H as [H|[H|[]]]|destruct H as [H|[]]]; injection H; intros; lia. }
    assert (E2 := lv_block (S sd) (cstmts top (S (S sd)) lc' b) (capsB b) (decls b) c1 D1 (fun c => IB top (S (S sd)) lc' c)).
    set (c2 := dpop _) in *. clearbody c2.
    assert (E3 : firstn (length (lv c)) (lv c1) = mark_from 0 (capsE e) (lv c)).
    { rewrite E1. rewrite <- (mark_len (capsE e) (lv c) 0) at 1. now rewrite firstn_app, Nat.sub_diag, firstn_all, firstn_O, app_nil_r. }
    match goal with |- context [pop_locals (S sd) true true false ?x] => set (c3 := x) end.
    assert (E4 : lv (pop_locals (S sd) true true false c3) = mark_from 0 (capsE e ++ capsB b) (lv c)).
    { rewrite (lv_pop _ _ _ _ (length (lv c))); unfold c3; cbn [on_g lv]; rewrite lv_pop0, E2; auto. rewrite mark_firstn, E3, mark_mark. reflexivity. }
    unfold end_loop. cbn [lv]. rewrite IE; rewrite E4; [|now apply depths_mark]. rewrite mark_mark. now rewrite <- ?app_assoc.
  - intros top sd [[[st enc] inn]|] c D; cbn [cstmt declares capsS]; try rewrite bf_eq; cbn [lv]; rewrite ?lv_pop0, ?lv_dpop, mark_nil; now rewrite app_nil_r.
  - intros top sd [[[st enc] inn]|] c D; cbn [cstmt declares capsS]; cbn [lv on_g]; rewrite ?lv_pop0, ?lv_dpop, mark_nil; now rewrite app_nil_r.
  - intros e m top sd lc c D. cbn [cstmt declares capsS]. rewrite bf_eq. cbn [on_g lv]. rewrite lv_cmsg. cbn [on_g lv cex mark with_lv]. now rewrite lv_dpop, mark_mark, app_nil_r.
  - intros o sw a b m top sd lc c D. cbn [cstmt declares capsS]. rewrite bf_eq. cbn [on_g lv]. rewrite lv_cmsg. cbn [on_g lv]. rewrite app_nil_r.
    destruct sw; cbn [cpush on_g lv cex mark with_lv]; rewrite lv_dpop, !mark_mark; [|now rewrite <- ?app_assoc].
    apply mark_ext. intro. rewrite !existsb_app. destruct (existsb _ (capsE a)), (existsb _ (capsE b)); auto.
  - intros top sd lc c D. exists []. cbn. now rewrite mark_nil, app_nil_r.
  - intros s IS b IB top sd lc c D. cbn [cstmts capsB decls].
    destruct (IB top sd lc (cstmt top sd lc s c)) as [fl [L E]]; [rewrite IS by auto; apply depths_mark, depths_more; auto|].
    rewrite IS in E by auto. rewrite mark_app in E. rewrite mark_app in E. rewrite mark_mark, mark_len in E.
    assert (X : forall i a l, (forall x, In x l -> fst x = sd) -> exists fl, length fl = length l /\ mark_from i a l = map (pair sd) fl).
    { clear. intros i a l. revert i. induction l as [|[d f] l IH]; intros i H; [exists []; auto|]. destruct (IH (S i)) as [fl [L E]]; [intros; apply H; simpl; auto|].
      simpl. assert (d = sd) as -> by (apply (H (d, f)); simpl; auto). exists ((f || existsb (Nat.eqb i) a) :: fl). simpl. rewrite E. auto. }
    match type of E with _ = (_ ++ ?m) ++ _ => destruct (X 0 [] m) as [fl2 [L2 E2]] end.
    { intros x Hx. clear - Hx. apply In_nth_error in Hx. destruct Hx as [i Hi]. destruct x as [d f]. simpl.
      apply mark_nth_inv in Hi. destruct Hi as [f0 [Hi _]]. apply mark_nth_inv in Hi. destruct Hi as [f1 [Hi _]]. apply nth_error_In, repeat_spec in Hi. congruence. }
    rewrite mark_nil in E2. rewrite E2 in E. exists (fl2 ++ fl). split.
    + rewrite app_length, L, L2, !mark_len, repeat_length. reflexivity.
    + rewrite E, map_app, app_assoc. reflexivity.
  - intros top sd lc j c D. cbn. now rewrite mark_nil.
  - intros b IB top sd lc j c D. cbn [celse capsEl]. rewrite bf_eq. cbn [on_g lv]. rewrite (lv_block sd (cstmts top (S sd) lc b) (capsB b) (decls b)); auto.
  - intros e b IB el IE top sd lc j c D. cbn [celse capsEl]. unfold g_branch_forward. cbn [on_g lv].
    match goal with |- context [in_block sd _ (on_g ?f ?x)] => set (c1 := on_g f x) end.
    assert (E1 : lv c1 = mark_from 0 (capsE e) (lv c)) by (unfold c1; cbn; now rewrite lv_dpop).
    assert (D1 : depths sd (lv c1)) by (rewrite E1; now apply depths_mark).
    assert (E2 := lv_block sd (cstmts top (S sd) lc b) (capsB b) (decls b) c1 D1 (fun c => IB top (S sd) lc c)).
    rewrite IE; rewrite E2; [|rewrite E1, mark_mark; now apply depths_mark]. rewrite E1, !mark_mark. now rewrite <- ?app_assoc.
  - intros top sd lc c D. cbn. now rewrite mark_nil.
  - intros b IB top sd lc c D. cbn [copt capsOS]. rewrite (lv_block sd (cstmts top (S sd) lc b) (capsB b) (decls b)); auto.
Qed.

(** ** The flag delay_pop_from_expression_statement *)
Lemma delay_all :
  (forall s top sd lc c, (delay c = false \/ match s with SDo _ _ _ => False | _ => True end) -> delay (cstmt top sd lc s c) = leaves s) /\
  (forall b : stmts, True) /\
  (forall el top sd lc j c, delay c = false -> delay (celse top sd lc j el c) = false) /\
  (forall el top sd lc c, delay c = false -> delay (copt top sd lc el c) = false).
Proof.
  apply stmt_all; auto.
  - intros. cbn. apply delay_dpop.
  - intros e top sd lc c _. cbn. unfold init_local. destruct (top && _); cbn; apply delay_dpop.
  - intros top sd lc c _. cbn. unfold init_local. destruct (top && _); cbn; apply delay_dpop.
  - intros f cs top sd lc c _. cbn. unfold init_local. destruct (top && _); cbn; apply delay_dpop.
  - intros v top sd lc c _. cbn. unfold init_local. destruct (top && _); cbn; apply delay_dpop.
  - intros [e|] top sd lc c _; cbn; apply delay_dpop.
  - intros e b _ el IE top sd lc c _. cbn [cstmt leaves]. rewrite bf_eq. apply IE, delay_dpop.
  - intros e b _ el IE top sd lc c _. cbn [cstmt leaves]. unfold begin_loop. rewrite br_eq, bf_eq. cbv zeta. unfold end_loop. cbn [delay]. apply IE. cbn [on_g delay]. apply delay_dpop.
  - intros b _ e el IE top sd lc c [H|[]]. cbn [cstmt leaves]. unfold begin_loop. rewrite br_eq. cbv zeta. unfold end_loop. cbn [delay]. apply IE. destruct e; cbn [on_g delay cex mark with_lv]; apply delay_dpop.
  - intros b _ top sd lc c _. cbn [cstmt leaves]. unfold begin_loop. rewrite br_eq. cbv zeta. unfold end_loop. cbn [delay on_g]. apply delay_dpop.
  - intros nm e b _ el IE top sd lc c _. cbn [cstmt leaves]. unfold begin_loop. cbv zeta. rewrite br_eq, bf_eq. unfold end_loop. cbn [delay]. apply IE. rewrite delay_pop. cbn [on_g delay]. rewrite delay_pop. apply delay_dpop.
  - intros top sd [[[? ?] ?]|] c _; cbn [cstmt leaves]; try rewrite bf_eq; cbn [delay]; rewrite ?delay_pop; apply delay_dpop.
  - intros top sd [[[? ?] ?]|] c _; cbn [cstmt leaves on_g delay]; rewrite ?delay_pop; apply delay_dpop.
  - intros e m top sd lc c _. cbn [cstmt leaves]. rewrite bf_eq. cbn [on_g delay]. destruct m; cbn; apply delay_dpop.
  - intros o sw a b m top sd lc c _. cbn [cstmt leaves]. rewrite bf_eq. cbn [on_g delay]. destruct m, sw; cbn; apply delay_dpop.
  - intros b _ top sd lc j c _. cbn [celse]. rewrite bf_eq. cbn [on_g delay]. apply delay_dpop.
  - intros e b _ el IE top sd lc j c _. cbn [celse]. unfold g_branch_forward. cbn [on_g delay]. apply IE, delay_dpop.
  - intros b _ top sd lc c _. cbn [copt]. apply delay_dpop.
Qed.
