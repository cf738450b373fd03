(** C40: the three peephole passes, by the simulation of PeepProofs. *)
From Verif Require Import Base Native Err Vm VmProofs Graph GraphSpec GraphProofs Peep PeepSpec PeepProofs.
Local Open Scope nat_scope.

(** code before and after one pass *)
Inductive ro : list op -> list op -> Prop :=
| ro_nil : ro [] []
| ro_same o s t : ro s t -> ro (o :: s) (o :: t)
| ro_load o1 o3 s t : store_load o1 o3 -> ro s t -> ro (o1 :: OPop :: o3 :: s) (o1 :: t)
| ro_pop o1 o2 s t : store_pop o1 o2 -> ro s t -> ro (o1 :: OPop :: s) (o2 :: t)
| ro_pops k s t : 2 <= k -> ro s t -> ro (repeat OPop k ++ s) (OPopN k :: t).

Lemma ro_refl s : ro s s.
Proof. induction s; constructor; auto. Qed.

Lemma ro_load_pass : forall n s, length s <= n -> ro s (merge_store_pop_load s).
Proof.
  induction n as [|n IH]; intros s Hs; destruct s as [|o s]; simpl in Hs; try constructor; try lia.
  assert (D : ro (o :: s) (o :: merge_store_pop_load s)) by (constructor; apply IH; lia).
  cbn [merge_store_pop_load].
  destruct o as [| | | | | | | | | |i b| |i b| |i| | | | | | | | | | | | | | | | | | | | | |]; try exact D.
  - destruct b; [exact D|]. destruct s as [|o2 s]; [exact D|]. destruct o2; try exact D.
    destruct s as [|o3 s]; [exact D|]. destruct o3 as [| | | | | | | | |j| | | | | | | | | | | | | | | | | | | | | | | | | | |]; try exact D.
    destruct (Nat.eqb_spec i j); [|exact D]. subst j. apply ro_load with (o3 := OPushLocal i); [constructor | apply IH; simpl in Hs; lia].
  - destruct b; [exact D|]. destruct s as [|o2 s]; [exact D|]. destruct o2; try exact D.
    destruct s as [|o3 s]; [exact D|]. destruct o3 as [| | | | | | | | | | |j| | | | | | | | | | | | | | | | | | | | | | | | |]; try exact D.
    destruct (Nat.eqb_spec i j); [|exact D]. subst j. apply ro_load with (o3 := OPushGlobal i); [constructor | apply IH; simpl in Hs; lia].
  - destruct s as [|o2 s]; [exact D|]. destruct o2; try exact D.
    destruct s as [|o3 s]; [exact D|]. destruct o3 as [| | | | | | | | | | | | |j| | | | | | | | | | | | | | | | | | | | | | |]; try exact D.
    destruct (Nat.eqb_spec i j); [|exact D]. subst j. apply ro_load with (o3 := OPushUp i); [constructor | apply IH; simpl in Hs; lia].
Qed.
Lemma ro_pop_pass : forall n s, length s <= n -> ro s (merge_store_global_pop s).
Proof.
  induction n as [|n IH]; intros s Hs; destruct s as [|o s]; simpl in Hs; try constructor; try lia.
  assert (D : ro (o :: s) (o :: merge_store_global_pop s)) by (constructor; apply IH; lia).
  cbn [merge_store_global_pop].
  destruct o as [| | | | | | | | | |i b| |i b| |i| | | | | | | | | | | | | | | | | | | | | |]; try exact D.
  - destruct b; [exact D|]. destruct s as [|o2 s]; [exact D|]. destruct o2; try exact D.
    apply ro_pop; [constructor | apply IH; simpl in Hs; lia].
  - destruct b; [exact D|]. destruct s as [|o2 s]; [exact D|]. destruct o2; try exact D.
    apply ro_pop; [constructor | apply IH; simpl in Hs; lia].
Qed.
Lemma ro_flush k s t : ro s t -> ro (repeat OPop k ++ s) (flush k ++ t).
Proof. intro H. destruct k as [|[|k]]; [exact H | apply ro_same; exact H | apply ro_pops; [lia | exact H]]. Qed.
Lemma ro_pops_pass : forall s k, ro (repeat OPop k ++ s) (merge_pops_from k s).
Proof.
  induction s as [|o s IH]; intro k.
  - rewrite <- (app_nil_r (merge_pops_from k [])). apply ro_flush. constructor.
  - assert (D : ro (repeat OPop k ++ o :: s) (flush k ++ o :: merge_pops_from 0 s)) by (apply ro_flush; constructor; exact (IH 0)).
    destruct o; try exact D. cbn [merge_pops_from].
    replace (repeat OPop k ++ OPop :: s) with (repeat OPop (S k) ++ s); [apply IH|].
    change (OPop :: s) with ([OPop] ++ s). rewrite app_assoc. f_equal. clear. induction k; simpl; [auto|]. now rewrite <- IHk.
Qed.

(** what a pass preserves *)
Lemma ro_len s t : ro s t -> length t <= length s.
Proof. induction 1; simpl; rewrite ?app_length, ?repeat_length; lia. Qed.
Lemma ro_nojump s t : ro s t -> (forall o, In o s -> is_jump o = false) -> forall o, In o t -> is_jump o = false.
Proof.
  induction 1; simpl; intros Hs x Hx; auto.
  - destruct Hx as [<-|Hx]; [apply Hs; auto | apply IHro; auto].
  - destruct Hx as [<-|Hx]; [apply Hs; auto | apply IHro; auto].
  - destruct Hx as [<-|Hx]; [destruct H; reflexivity | apply IHro; auto].
  - destruct Hx as [<-|Hx]; [reflexivity | apply IHro; auto]. intros. apply Hs. apply in_or_app. auto.
Qed.
Definition ends_final (s : list op) : Prop := exists c o, s = c ++ [o] /\ is_final o = true.
Lemma ends_final_cons o s : ends_final (o :: s) -> is_final o = false -> ends_final s.
Proof.
  intros (c & x & E & F) H. destruct c as [|a c]; simpl in E; injection E as -> E; [congruence|]. subst. exists c, x. auto.
Qed.
Lemma ends_final_cons' o s : ends_final s -> ends_final (o :: s).
Proof. intros (c & x & -> & F). exists (o :: c), x. auto. Qed.
Lemma ends_final_pops k s : ends_final (repeat OPop k ++ s) -> ends_final s.
Proof. induction k; simpl; auto. intro H. apply IHk. apply ends_final_cons in H; auto. Qed.
Lemma store_load_final o1 o3 : store_load o1 o3 -> is_final o1 = false /\ is_final o3 = false /\ is_jump o1 = false.
Proof. destruct 1; auto. Qed.
Lemma store_pop_final o1 o3 : store_pop o1 o3 -> is_final o1 = false /\ is_final o3 = false /\ is_jump o1 = false.
Proof. destruct 1; auto. Qed.
Lemma ro_final s t : ro s t -> ends_final s -> ends_final t.
Proof.
  induction 1; intro E; auto.
  - destruct (is_final o) eqn:F.
    + destruct E as (c & x & E1 & E2). destruct c as [|a c]; simpl in E1; injection E1 as -> E1.
      * subst s. inversion H. subst. exists [], x. auto. destruct k; [lia|discriminate].
      * apply ends_final_cons', IHro. subst. exists c, x. auto.
    + apply ends_final_cons in E; auto. now apply ends_final_cons', IHro.
  - apply store_load_final in H. destruct H as (F1 & F2 & _). apply ends_final_cons', IHro.
    apply ends_final_cons in E; auto. apply ends_final_cons in E; auto. apply ends_final_cons in E; auto.
  - apply store_pop_final in H. destruct H as (F1 & F2 & _). apply ends_final_cons', IHro.
    apply ends_final_cons in E; auto. apply ends_final_cons in E; auto.
  - apply ends_final_cons', IHro. now apply ends_final_pops in E.
Qed.

(** ** One linked unit: a graph and its transform, both laid out *)
Definition mapb (f : list op -> list op) (b : block) : block := Block (f (bcode b)) (bend b).
Definition mapg (f : list op -> list op) (g : graph) : graph := map (mapb f) g.

Section inst.
Context (P : prims) (C1 C2 : list op).
Record unit_ok (u : graph * list nat * graph * list nat) : Prop := {
  u_wf : wf_graph (fst (fst (fst u)));
  u_l1 : laid C1 (fst (fst (fst u))) (snd (fst (fst u)));
  u_l2 : laid C2 (snd (fst u)) (snd u);
  u_ro : Forall2 (fun a b => bend a = bend b /\ ro (bcode a) (bcode b)) (fst (fst (fst u))) (snd (fst u)) }.

Inductive at_pos (G1 : graph) (st1 : list nat) (G2 : graph) (st2 : list nat) (p q : nat) : Prop :=
| ap_in b blk1 blk2 pre1 s1 pre2 s2 : nth_error G1 b = Some blk1 -> nth_error G2 b = Some blk2 ->
    bcode blk1 = pre1 ++ s1 -> bcode blk2 = pre2 ++ s2 -> ro s1 s2 -> (bend blk1 = EExit -> ends_final s1) ->
    p = nth b st1 0 + length pre1 -> q = nth b st2 0 + length pre2 -> at_pos G1 st1 G2 st2 p q
| ap_jump b blk1 blk2 ty d t : nth_error G1 b = Some blk1 -> nth_error G2 b = Some blk2 ->
    bend blk1 = EBranch ty d t -> d <> S b ->
    p = S (nth b st1 0 + length (bcode blk1)) -> q = S (nth b st2 0 + length (bcode blk2)) -> at_pos G1 st1 G2 st2 p q.

Context (U : list (graph * list nat * graph * list nat)) (HU : forall u, In u U -> unit_ok u).
Definition AA (p q : nat) : Prop := exists u, In u U /\ at_pos (fst (fst (fst u))) (snd (fst (fst u))) (snd (fst u)) (snd u) p q.

Lemma F2_nth {X Y} (R : X -> Y -> Prop) l l' : Forall2 R l l' -> forall i a, nth_error l i = Some a -> exists b, nth_error l' i = Some b /\ R a b.
Proof. induction 1; intros [|i] a Ha; simpl in *; try discriminate; [injection Ha as <-; eauto | eauto]. Qed.

Lemma at_start u b : In u U -> b < length (fst (fst (fst u))) -> at_pos (fst (fst (fst u))) (snd (fst (fst u))) (snd (fst u)) (snd u) (nth b (snd (fst (fst u))) 0) (nth b (snd u) 0).
Proof.
  intros Hu Hb. destruct (HU u Hu) as [W L1 L2 RO].
  destruct (nth_error (fst (fst (fst u))) b) as [blk1|] eqn:E1; [|apply nth_error_None in E1; lia].
  destruct (F2_nth _ _ _ RO _ _ E1) as (blk2 & E2 & E3 & E4).
  apply ap_in with (b := b) (blk1 := blk1) (blk2 := blk2) (pre1 := []) (s1 := bcode blk1) (pre2 := []) (s2 := bcode blk2); auto; simpl; try lia.
  intro He. destruct (W blk1) as [_ W2]; [eapply nth_error_In; eauto|]. rewrite He in W2. exact W2.
Qed.
Lemma to_ip_target p t : to_ip (S p) (Z.of_nat t - Z.of_nat p - 1) = t.
Proof. unfold to_ip. lia. Qed.

Lemma nth_after {X} (pre s : list X) o : nth_error (pre ++ o :: s) (length pre) = Some o.
Proof. rewrite nth_error_app2, Nat.sub_diag by lia. reflexivity. Qed.
Lemma nth_after_n {X} (pre s : list X) i : nth_error (pre ++ s) (length pre + i) = nth_error s i.
Proof. rewrite nth_error_app2 by lia. f_equal. lia. Qed.
Lemma app_cons_assoc {X} (a : list X) x b : a ++ x :: b = (a ++ [x]) ++ b.
Proof. now rewrite <- app_assoc. Qed.

Lemma AA_prog p q : AA p q -> prog C1 C2 AA p q.
Proof.
  intros (u & Hu & HP). destruct (HU u Hu) as [W L1 L2 RO]. pose proof (at_start u) as ST.
  assert (LN : length (fst (fst (fst u))) = length (snd (fst u))) by (eapply Forall2_length; eauto).
  destruct u as [[[G1 st1] G2] st2]. cbn [fst snd] in *.
  assert (STA : forall b, b < length G1 -> AA (nth b st1 0) (nth b st2 0)).
  { intros b Hb. exists (G1, st1, G2, st2). split; [auto|]. apply (ST b Hu Hb). }
  assert (PA : forall p q, at_pos G1 st1 G2 st2 p q -> AA p q) by (intros; exists (G1, st1, G2, st2); auto).
  destruct HP as [b blk1 blk2 pre1 s1 pre2 s2 E1 E2 E3 E4 E5 E6 -> ->|b blk1 blk2 ty d t E1 E2 E3 E4 -> ->].
  - (* inside a block *)
    remember (length G1 - b) as k eqn:Hk. assert (Hk' : length G1 - b <= k) by lia. clear Hk.
    revert b blk1 blk2 pre1 s1 pre2 s2 E1 E2 E3 E4 E5 E6 Hk'. induction k as [|k IH]; intros.
    { assert (b < length G1) by (apply nth_error_Some; congruence). lia. }
    assert (Hb : b < length G1) by (apply nth_error_Some; congruence).
    destruct (F2_nth _ _ _ RO _ _ E1) as (blk2' & E2' & E7 & _). rewrite E2 in E2'. injection E2' as <-.
    destruct (W blk1) as [W1 W2]; [eapply nth_error_In; eauto|].
    assert (K1 : forall i o, nth_error s1 i = Some o -> nth_error C1 (nth b st1 0 + length pre1 + i) = Some o).
    { intros i o Hi. rewrite <- Nat.add_assoc. apply (l_op _ _ _ L1 b blk1); auto. rewrite E3, nth_after_n. auto. }
    assert (K2 : forall i o, nth_error s2 i = Some o -> nth_error C2 (nth b st2 0 + length pre2 + i) = Some o).
    { intros i o Hi. rewrite <- Nat.add_assoc. apply (l_op _ _ _ L2 b blk2); auto. rewrite E4, nth_after_n. auto. }
    assert (NX : forall a1 t1 a2 t2, s1 = a1 ++ t1 -> s2 = a2 ++ t2 -> ro t1 t2 -> (bend blk1 = EExit -> ends_final t1) ->
       AA (nth b st1 0 + length pre1 + length a1) (nth b st2 0 + length pre2 + length a2)).
    { intros a1 t1 a2 t2 X1 X2 X3 X4. apply PA. apply ap_in with (b := b) (blk1 := blk1) (blk2 := blk2) (pre1 := pre1 ++ a1) (s1 := t1) (pre2 := pre2 ++ a2) (s2 := t2); auto.
      - rewrite E3, X1. now rewrite app_assoc.
      - rewrite E4, X2. now rewrite app_assoc.
      - rewrite app_length. lia.
      - rewrite app_length. lia. }
    assert (AD : forall x y, AA (x + 1) (y + 1) -> AA (S x) (S y)) by (intros x y; now rewrite !Nat.add_1_r).
    destruct E5 as [|o s t E5|o1 o3 s t H1 E5|o1 o2 s t H1 E5|j s t Hj E5].
    + (* end of the block *)
      rewrite app_nil_r in E3, E4. subst pre1 pre2. destruct (bend blk1) as [|n|ty d t] eqn:Be.
      * destruct (E6 eq_refl) as (c & o & X & _). destruct c; discriminate.
      * destruct (l_next _ _ _ L1 b blk1 n E1 Be W2) as [[X1 X2]|[X1 X2]];
        destruct (l_next _ _ _ L2 b blk2 n E2 ltac:(congruence) ltac:(congruence)) as [[Y1 Y2]|[Y1 Y2]]; try congruence.
        -- rewrite <- X2, <- Y2. pose proof (ST n Hu W2) as Z.
           destruct (nth_error G1 n) as [b1|] eqn:En1; [|apply nth_error_None in En1; lia].
           destruct (F2_nth _ _ _ RO _ _ En1) as (b2 & En2 & Z1 & Z2).
           replace (nth n st1 0) with (nth n st1 0 + length (@nil op)) by (simpl; lia).
           replace (nth n st2 0) with (nth n st2 0 + length (@nil op)) by (simpl; lia).
           apply IH with (blk1 := b1) (blk2 := b2) (s1 := bcode b1) (s2 := bcode b2); auto; [|lia].
           intro He. destruct (W b1) as [_ W3]; [eapply nth_error_In; eauto|]. rewrite He in W3. exact W3.
        -- eapply pr_br with (ty := BrJump); simpl; eauto. rewrite !to_ip_target. apply STA. auto. congruence.
      * destruct W2 as (Wd & Wt & Wy).
        destruct (l_branch _ _ _ L1 b blk1 ty d t E1 Be Wd Wt) as [X1 X2].
        destruct (l_branch _ _ _ L2 b blk2 ty d t E2 ltac:(congruence) ltac:(congruence) ltac:(congruence)) as [Y1 Y2].
        eapply pr_br; eauto.
        -- rewrite !to_ip_target. apply STA; auto.
        -- intros _. destruct X2 as [[X2 X3]|[X2 X3]], Y2 as [[Y2 Y3]|[Y2 Y3]]; try congruence.
           ++ rewrite <- X3, <- Y3. apply STA; auto.
           ++ apply PA. eapply ap_jump; eauto.
    + assert (Jo : is_jump o = false) by (apply W1; rewrite E3; apply in_or_app; simpl; auto).
      apply pr_same with (o := o); auto.
      * rewrite <- (Nat.add_0_r (nth b st1 0 + length pre1)). now apply K1.
      * rewrite <- (Nat.add_0_r (nth b st2 0 + length pre2)). now apply K2.
      * intro F. apply AD. apply (NX [o] s [o] t); auto. intro X. apply (ends_final_cons o s); auto.
    + destruct (store_load_final _ _ H1) as (F1 & F3 & J1).
      eapply pr_load with (o1 := o1) (o3 := o3); auto.
      * rewrite <- (Nat.add_0_r (nth b st1 0 + length pre1)). now apply K1.
      * rewrite <- Nat.add_1_r. now apply K1.
      * replace (S (S (nth b st1 0 + length pre1))) with (nth b st1 0 + length pre1 + 2) by lia. now apply K1.
      * rewrite <- (Nat.add_0_r (nth b st2 0 + length pre2)). now apply K2.
      * replace (S (S (S (nth b st1 0 + length pre1)))) with (nth b st1 0 + length pre1 + 3) by lia. rewrite <- (Nat.add_1_r (nth b st2 0 + _)).
        apply (NX [o1; OPop; o3] s [o1] t); auto. intro X. specialize (E6 X). repeat (apply ends_final_cons in E6; auto).
    + destruct (store_pop_final _ _ H1) as (F1 & F3 & J1).
      eapply pr_pop with (o1 := o1) (o2 := o2); auto.
      * rewrite <- (Nat.add_0_r (nth b st1 0 + length pre1)). now apply K1.
      * rewrite <- Nat.add_1_r. now apply K1.
      * rewrite <- (Nat.add_0_r (nth b st2 0 + length pre2)). now apply K2.
      * replace (S (S (nth b st1 0 + length pre1))) with (nth b st1 0 + length pre1 + 2) by lia. rewrite <- (Nat.add_1_r (nth b st2 0 + _)).
        apply (NX [o1; OPop] s [o2] t); auto. intro X. specialize (E6 X). repeat (apply ends_final_cons in E6; auto).
    + apply pr_pops with (k := j).
      * intros i Hi. apply K1. rewrite nth_error_app1 by (rewrite repeat_length; auto). now apply nth_error_repeat.
      * lia.
      * rewrite <- (Nat.add_0_r (nth b st2 0 + length pre2)). now apply K2.
      * rewrite <- (Nat.add_1_r (nth b st2 0 + _)).
        replace j with (length (repeat OPop j)) at 1 by apply repeat_length.
        apply (NX (repeat OPop j) s [OPopN j] t); auto. intro X. apply (ends_final_pops j). auto.
  - destruct (F2_nth _ _ _ RO _ _ E1) as (blk2' & E2' & E7 & _). rewrite E2 in E2'. injection E2' as <-.
    destruct (W blk1) as [W1 W2]; [eapply nth_error_In; eauto|]. rewrite E3 in W2. destruct W2 as (Wd & Wt & Wy).
    destruct (l_branch _ _ _ L1 b blk1 ty d t E1 E3 Wd Wt) as [X1 [[X2 X3]|[X2 X3]]]; [congruence|].
    destruct (l_branch _ _ _ L2 b blk2 ty d t E2 ltac:(congruence) ltac:(congruence) ltac:(congruence)) as [Y1 [[Y2 Y3]|[Y2 Y3]]]; [congruence|].
    eapply pr_br with (ty := BrJump); simpl; eauto.
    + rewrite !to_ip_target. apply STA; auto.
    + congruence.
Qed.
End inst.

(** ** Linking *)
Section links.
Context (g1 g2 : list op -> list op) (HG : forall s, ro (g1 s) (g2 s)).

Definition linkw (g : list op -> list op) (main : graph) (fs : list pfun) : list op * list func :=
  link_funs (mapg g) fs (fst (emit (mapg g main) [])).
Definition wf_pfun' (g : list op -> list op) (f : pfun) : Prop :=
  wf_graph (mapg g (pf_code f)) /\ pf_code f <> [] /\ forall b, In b (pf_defaults f) -> b < length (pf_code f).

Lemma mapg_ro G : Forall2 (fun a b => bend a = bend b /\ ro (bcode a) (bcode b)) (mapg g1 G) (mapg g2 G).
Proof. induction G; simpl; constructor; auto. simpl. auto. Qed.
Lemma mapg_len g G : length (mapg g G) = length G.
Proof. apply map_length. Qed.

Lemma link_funs_prefix opt fs : forall code, exists l, fst (link_funs opt fs code) = code ++ l.
Proof.
  induction fs as [|f fs IH]; intro code; simpl.
  - exists []. now rewrite app_nil_r.
  - destruct (emit (opt (pf_code f)) code) as [c st] eqn:E. destruct (emit_prefix _ _ _ _ E) as [l1 ->].
    destruct (IH (code ++ l1)) as [l2 H]. destruct (link_funs opt fs (code ++ l1)) as [c' t]. simpl in *. subst.
    exists (l1 ++ l2). now rewrite app_assoc.
Qed.

(** the units of a linked program *)
Lemma link_funs_units : forall fs code1 code2 CC1 T1 CC2 T2,
  (forall f, In f fs -> wf_pfun' g1 f) ->
  link_funs (mapg g1) fs code1 = (CC1, T1) -> link_funs (mapg g2) fs code2 = (CC2, T2) ->
  (Z.of_nat (length CC1) < 2147483648)%Z -> (Z.of_nat (length CC2) < 2147483648)%Z ->
  exists U, (forall l1 l2 u, In u U -> unit_ok (CC1 ++ l1) (CC2 ++ l2) u) /\
    length T1 = length T2 /\
    forall i f h, nth_error T1 i = Some f -> nth_error T2 i = Some h ->
      fn_args f = fn_args h /\ fn_variadic f = fn_variadic h /\ length (fn_defaults f) = length (fn_defaults h) /\
      AA U (fn_head f) (fn_head h) /\
      forall j d e, nth_error (fn_defaults f) j = Some d -> nth_error (fn_defaults h) j = Some e -> AA U (fn_head f + d) (fn_head h + e).
Proof.
  induction fs as [|f fs IH]; intros code1 code2 CC1 T1 CC2 T2 HW H1 H2 L1 L2.
  - simpl in *. injection H1 as <- <-. injection H2 as <- <-. exists []. split; [intros ? ? ? []|]. split; [auto|].
    intros [|i]; discriminate.
  - cbn [link_funs] in H1, H2.
    destruct (emit (mapg g1 (pf_code f)) code1) as [c1 st1] eqn:E1. destruct (emit (mapg g2 (pf_code f)) code2) as [c2 st2] eqn:E2.
    destruct (link_funs (mapg g1) fs c1) as [d1 t1] eqn:F1. destruct (link_funs (mapg g2) fs c2) as [d2 t2] eqn:F2.
    injection H1 as <- <-. injection H2 as <- <-.
    destruct (IH _ _ _ _ _ _ (fun x Hx => HW x (or_intror Hx)) F1 F2 L1 L2) as (U & U1 & U2 & U3).
    destruct (HW f (or_introl eq_refl)) as (W1 & W2 & W3).
    destruct (link_funs_prefix (mapg g1) fs c1) as [x1 X1]. rewrite F1 in X1. simpl in X1.
    destruct (link_funs_prefix (mapg g2) fs c2) as [x2 X2]. rewrite F2 in X2. simpl in X2. subst d1 d2.
    rewrite app_length in L1, L2.
    set (u := (mapg g1 (pf_code f), st1, mapg g2 (pf_code f), st2)).
    assert (HU : forall l1 l2, unit_ok ((c1 ++ x1) ++ l1) ((c2 ++ x2) ++ l2) u).
    { intros l1 l2. unfold u. split; simpl.
      - exact W1.
      - apply laid_app, laid_app. eapply emit_laid; eauto. lia.
      - apply laid_app, laid_app. eapply emit_laid; eauto. lia.
      - apply mapg_ro. }
    assert (HU' : forall l1 l2 v, In v (u :: U) -> unit_ok ((c1 ++ x1) ++ l1) ((c2 ++ x2) ++ l2) v).
    { intros l1 l2 v [<-|Hv]; auto. }
    exists (u :: U). split; [exact HU'|]. split; [simpl; auto|].
    assert (ST : forall b, b < length (pf_code f) -> AA (u :: U) (nth b st1 0) (nth b st2 0)).
    { intros b Hb. exists u. split; [now left|].
      apply (at_start ((c1 ++ x1) ++ []) ((c2 ++ x2) ++ []) (u :: U) (HU' [] []) u b); [now left|]. unfold u; simpl. now rewrite mapg_len. }
    assert (MON : forall p q, AA U p q -> AA (u :: U) p q) by (intros p q (v & V1 & V2); exists v; split; [now right | auto]).
    intros [|i] fa fb Ha Hb; simpl in Ha, Hb.
    + injection Ha as <-. injection Hb as <-. cbn [fn_args fn_variadic fn_defaults fn_head].
      assert (NE : forall g, mapg g (pf_code f) <> []) by (intros g; destruct (pf_code f); simpl; congruence).
      pose proof (emit_start0 _ _ _ _ E1 (NE g1)) as S1. pose proof (emit_start0 _ _ _ _ E2 (NE g2)) as S2.
      repeat split; auto.
      * now rewrite !map_length.
      * rewrite <- S1, <- S2. apply ST. destruct (pf_code f); [congruence|simpl; lia].
      * intros j d e Hd He. rewrite nth_error_map in Hd, He.
        destruct (nth_error (pf_defaults f) j) as [b|] eqn:Ej; [|discriminate]. simpl in Hd, He. injection Hd as <-. injection He as <-.
        assert (Hb : b < length (pf_code f)) by (apply W3; eapply nth_error_In; eauto).
        assert (N1 : nth_error st1 b = Some (nth b st1 0)) by (apply nth_error_nth'; pose proof (l_len _ _ _ (u_l1 _ _ _ (HU [] []))) as LL; unfold u in LL; cbn [fst snd] in LL; rewrite mapg_len in LL; lia).
        assert (N2 : nth_error st2 b = Some (nth b st2 0)) by (apply nth_error_nth'; pose proof (l_len _ _ _ (u_l2 _ _ _ (HU [] []))) as LL; unfold u in LL; cbn [fst snd] in LL; rewrite mapg_len in LL; lia).
        apply (emit_starts_ge _ _ _ _ _ _ E1) in N1. apply (emit_starts_ge _ _ _ _ _ _ E2) in N2.
        replace (length code1 + (nth b st1 0 - length code1)) with (nth b st1 0) by lia.
        replace (length code2 + (nth b st2 0 - length code2)) with (nth b st2 0) by lia. apply ST; auto.
    + destruct (U3 i fa fb Ha Hb) as (Y1 & Y2 & Y3 & Y4 & Y5). repeat split; auto. intros j d e Hd He. apply MON. eauto.
Qed.

Lemma last_nth {X} (l : list X) d : last l d = nth (length l - 1) l d.
Proof. induction l as [|a [|b l] IH]; simpl; auto. simpl in IH. rewrite IH. rewrite Nat.sub_0_r. reflexivity. Qed.

Theorem link_sim (P : prims) main fs w r :
  wf_graph (mapg g1 main) -> main <> [] -> (forall f, In f fs -> wf_pfun' g1 f) ->
  (Z.of_nat (length (fst (linkw g1 main fs))) < 2147483648)%Z -> (Z.of_nat (length (fst (linkw g2 main fs))) < 2147483648)%Z ->
  runs_to P (strict_step P) (linkw g1 main fs) w r -> runs_to P (strict_step P) (linkw g2 main fs) w r.
Proof.
  intros W1 W2 W3 L1 L2 [n Hn]. unfold linkw in *.
  destruct (emit (mapg g1 main) []) as [c1 st1] eqn:E1. destruct (emit (mapg g2 main) []) as [c2 st2] eqn:E2. cbn [fst] in *.
  destruct (link_funs (mapg g1) fs c1) as [d1 t1] eqn:F1. destruct (link_funs (mapg g2) fs c2) as [d2 t2] eqn:F2. cbn [fst snd] in *.
  destruct (link_funs_units fs _ _ _ _ _ _ W3 F1 F2 L1 L2) as (U & U1 & U2 & U3).
  destruct (link_funs_prefix (mapg g1) fs c1) as [x1 X1]. rewrite F1 in X1. simpl in X1.
  destruct (link_funs_prefix (mapg g2) fs c2) as [x2 X2]. rewrite F2 in X2. simpl in X2.
  set (u := (mapg g1 main, st1, mapg g2 main, st2)).
  assert (HU : forall v, In v (u :: U) -> unit_ok d1 d2 v).
  { intros v [<-|Hv].
    - unfold u. split; simpl; auto.
      + rewrite X1. apply laid_app. eapply emit_laid; eauto. rewrite X1, app_length in L1. lia.
      + rewrite X2. apply laid_app. eapply emit_laid; eauto. rewrite X2, app_length in L2. lia.
      + apply mapg_ro.
    - rewrite <- (app_nil_r d1), <- (app_nil_r d2). auto. }
  assert (A0 : AA (u :: U) 0 0).
  { exists u. split; [now left|]. pose proof (at_start d1 d2 (u :: U) HU u 0 (or_introl eq_refl)) as X.
    assert (NE : forall g, mapg g main <> []) by (intros g; destruct main; simpl; congruence).
    pose proof (emit_start0 _ _ _ _ E1 (NE g1)) as S1. pose proof (emit_start0 _ _ _ _ E2 (NE g2)) as S2.
    simpl in X. rewrite S1, S2 in X. apply X. rewrite mapg_len. destruct main; [congruence|simpl; lia]. }
  assert (MON : forall p q, AA U p q -> AA (u :: U) p q) by (intros p q (v & V1 & V2); exists v; split; [now right | auto]).
  assert (HF : forall i, rel_fun (AA (u :: U)) (nth_error t1 i) (nth_error t2 i)).
  { intro i. destruct (nth_error t1 i) as [f|] eqn:N1, (nth_error t2 i) as [h|] eqn:N2; simpl; auto.
    - destruct (U3 i f h N1 N2) as (Y1 & Y2 & Y3 & Y4 & Y5). repeat split; auto. intro k.
      unfold jump_offset, min_args, max_args. rewrite <- Y1, <- Y2, <- Y3.
      destruct (k =? fn_args f - length (fn_defaults f)); [now apply MON|].
      destruct (fn_variadic f && (fn_args f <=? k)).
      + destruct (fn_defaults f) as [|a l] eqn:D1, (fn_defaults h) as [|b l'] eqn:D2; try discriminate; auto.
        rewrite !last_nth. apply MON, (Y5 (length (a :: l) - 1)).
        * apply nth_error_nth'. simpl. lia.
        * rewrite Y3. apply nth_error_nth'. simpl. lia.
      + destruct (nth_error (fn_defaults f) (k - _ - 1)) as [a|] eqn:D1, (nth_error (fn_defaults h) (k - _ - 1)) as [b|] eqn:D2; auto.
        * apply MON. eauto.
        * apply nth_error_None in D2. assert (k - (fn_args f - length (fn_defaults f)) - 1 < length (fn_defaults f)) by (apply nth_error_Some; congruence). lia.
        * apply nth_error_None in D1. assert (k - (fn_args f - length (fn_defaults f)) - 1 < length (fn_defaults h)) by (apply nth_error_Some; congruence). lia.
    - apply nth_error_None in N2. assert (i < length t1) by (apply nth_error_Some; congruence). lia.
    - apply nth_error_None in N1. assert (i < length t2) by (apply nth_error_Some; congruence). lia. }
  destruct (sim P d1 d2 _ _ (AA (u :: U)) (AA_prog d1 d2 (u :: U) HU) HF n) as [S1 _].
  destruct (S1 0 (vm_init P w) 0 [(0, 0)] _ A0 ltac:(constructor; [split; [exact A0|reflexivity] | constructor]) Hn ltac:(discriminate)) as (n2 & r2 & R1 & R2).
  exists n2. cbn [fst snd]. destruct r2 as [m|e w'|]; simpl in R2; try contradiction. destruct R2 as [<- <-]. exact R1.
Qed.
End links.

(** sizes *)
Lemma emit_len g (HG : forall s, length (g s) <= length s) G : forall code1 code2, length code2 <= length code1 ->
  length (fst (emit (mapg g G) code2)) <= length (fst (emit G code1)).
Proof.
  intros. rewrite !emit_eq. cbn [fst]. rewrite !app_length.
  assert (X : forall S1 S2 bid p1 p2, length (chunks S2 bid p2 (mapg g G)) <= length (chunks S1 bid p1 G)).
  { clear -HG. induction G as [|b r IH]; intros; simpl; auto. rewrite !app_length.
    apply Nat.add_le_mono; [|apply IH]. unfold chunk. rewrite !app_length. simpl. apply Nat.add_le_mono; [apply HG|].
    erewrite endcode_len. reflexivity. }
  specialize (X (layout 0 (length code1) G) (layout 0 (length code2) (mapg g G)) 0 (length code1) (length code2)). lia.
Qed.

Lemma link_funs_len g (HG : forall s, length (g s) <= length s) fs : forall code1 code2, length code2 <= length code1 ->
  length (fst (link_funs (mapg g) fs code2)) <= length (fst (link_funs (fun x => x) fs code1)).
Proof.
  induction fs as [|f fs IH]; intros code1 code2 H; [exact H|]. cbn [link_funs].
  pose proof (emit_len g HG (pf_code f) code1 code2 H) as E.
  destruct (emit (mapg g (pf_code f)) code2) as [c2 s2]. destruct (emit (pf_code f) code1) as [c1 s1]. cbn [fst] in E.
  specialize (IH c1 c2 E). destruct (link_funs (mapg g) fs c2), (link_funs (fun x => x) fs c1). exact IH.
Qed.
Lemma mapg_id G : mapg (fun s => s) G = G.
Proof. unfold mapg. rewrite <- (map_id G) at 2. apply map_ext. intros [c e]. reflexivity. Qed.
Lemma link_funs_ext o1 o2 (H : forall G, o1 G = o2 G) fs : forall code, link_funs o1 fs code = link_funs o2 fs code.
Proof. induction fs as [|f fs IH]; intro code; simpl; auto. rewrite H. destruct (emit _ _). now rewrite IH. Qed.
Lemma wf_ro g1 g2 (HG : forall s, ro (g1 s) (g2 s)) G : wf_graph (mapg g1 G) -> wf_graph (mapg g2 G).
Proof.
  intros W b Hb. unfold mapg in Hb. apply in_map_iff in Hb. destruct Hb as (b0 & <- & Hb). rewrite mapg_len.
  destruct (W (mapb g1 b0)) as [W1 W2]; [unfold mapg; now apply in_map|]. rewrite mapg_len in W2. simpl in *. split.
  - simpl. apply (ro_nojump _ _ (HG (bcode b0)) W1).
  - simpl. destruct (bend b0); auto. apply (ro_final _ _ (HG (bcode b0))). exact W2.
Qed.

Definition p1 (s : list op) := merge_store_pop_load s.
Definition p2 (s : list op) := merge_store_global_pop (p1 s).
Definition p3 (s : list op) := merge_pops (p2 s).
Lemma ro1 s : ro s (p1 s). Proof. apply (ro_load_pass (length s)). auto. Qed.
Lemma ro2 s : ro (p1 s) (p2 s). Proof. apply (ro_pop_pass (length (p1 s))). auto. Qed.
Lemma ro3 s : ro (p2 s) (p3 s). Proof. apply (ro_pops_pass (p2 s) 0). Qed.

Theorem optimize_sim (P : prims) main fs w r : wf_program main fs ->
  (Z.of_nat (length (fst (link false main fs))) < 2147483648)%Z ->
  runs_to P (strict_step P) (link false main fs) w r -> runs_to P (strict_step P) (link true main fs) w r.
Proof.
  intros (W1 & W2 & W3) L H.
  assert (E0 : link false main fs = linkw (fun s => s) main fs).
  { unfold link, linkw. rewrite mapg_id. apply link_funs_ext. intro. now rewrite mapg_id. }
  assert (E3 : link true main fs = linkw p3 main fs).
  { unfold link, linkw. apply link_funs_ext. reflexivity. }
  assert (LL : forall g, (forall s, length (g s) <= length s) -> (Z.of_nat (length (fst (linkw g main fs))) < 2147483648)%Z).
  { intros g Hg. unfold link in L. unfold linkw.
    pose proof (emit_len g Hg main [] [] (le_n _)) as X.
    pose proof (link_funs_len g Hg fs _ _ X). lia. }
  assert (N1 : forall s, length (p1 s) <= length s) by (intro; apply ro_len, ro1).
  assert (N2 : forall s, length (p2 s) <= length s) by (intro s; etransitivity; [apply ro_len, ro2 | apply N1]).
  assert (N3 : forall s, length (p3 s) <= length s) by (intro s; etransitivity; [apply ro_len, ro3 | apply N2]).
  assert (V0 : wf_graph (mapg (fun s => s) main)) by now rewrite mapg_id.
  assert (V1 : wf_graph (mapg p1 main)) by (eapply wf_ro; [|exact V0]; apply ro1).
  assert (V2 : wf_graph (mapg p2 main)) by (eapply wf_ro; [|exact V1]; apply ro2).
  assert (X0 : forall f, In f fs -> wf_pfun' (fun s => s) f) by (intros f Hf; unfold wf_pfun'; rewrite mapg_id; apply W3; auto).
  assert (X1 : forall f, In f fs -> wf_pfun' p1 f) by (intros f Hf; destruct (X0 f Hf) as [A B]; split; [eapply wf_ro; [|exact A]; apply ro1 | exact B]).
  assert (X2 : forall f, In f fs -> wf_pfun' p2 f) by (intros f Hf; destruct (X1 f Hf) as [A B]; split; [eapply wf_ro; [|exact A]; apply ro2 | exact B]).
  rewrite E3. rewrite E0 in H, L.
  apply (link_sim p2 p3 ro3); auto. apply (link_sim p1 p2 ro2); auto. apply (link_sim (fun s => s) p1 ro1); auto.
Qed.

(** the strict machine is the machine, whenever it does not panic *)
Lemma strict_plain P C F : forall n,
  (forall drop m r, run P C F (strict_step P) n drop m = Some r -> r <> VStuck P -> run P C F (step P) n drop m = Some r) /\
  (forall k m r, invoke P C F (strict_step P) n k m = Some r -> r <> IStuck P -> invoke P C F (step P) n k m = Some r) /\
  (forall t m r, run_tree P C F (strict_step P) n t m = Some r -> r <> TStuck P -> run_tree P C F (step P) n t m = Some r).
Proof.
  induction n as [|n [IH1 [IH2 IH3]]]; [repeat split; intros; discriminate|]. split; [|split].
  - intros drop m r H Hr. rewrite run_S in *. destruct (nth_error C (ip P m)) as [o|]; auto.
    unfold strict_step in H at 1. destruct (self_store P o _); [injection H as <-; congruence|].
    destruct (step P o _) as [m'|e w|m'|t m'|k m'|]; auto.
    + destruct (_ =? _); auto.
    + destruct (run_tree P C F (strict_step P) n t m') as [[m1 v|e w|]|] eqn:E; try discriminate.
      * rewrite (IH3 _ _ _ E) by discriminate. auto.
      * rewrite (IH3 _ _ _ E) by discriminate. auto.
      * injection H as <-. congruence.
    + destruct (invoke P C F (strict_step P) n k m') as [[m1|m1|e w|]|] eqn:E; try discriminate; try (injection H as <-; congruence);
      rewrite (IH2 _ _ _ E) by discriminate; auto.
  - intros k m r H Hr. rewrite invoke_S in *. destruct (call_of P F k m) as [r1|t m1]; auto.
    destruct (run_tree P C F (strict_step P) n t m1) as [[m2 v|e w|]|] eqn:E; try discriminate; try (injection H as <-; congruence);
      rewrite (IH3 _ _ _ E) by discriminate; auto.
  - intros t m r H Hr. rewrite tree_S in *. destruct t as [w v|w e|w f args k]; auto. cbv zeta in *.
    destruct (invoke P C F (strict_step P) n (length args) _) as [[m1|m1|e w1|]|] eqn:E; try discriminate; try (injection H as <-; congruence);
      rewrite (IH2 _ _ _ E) by discriminate; auto.
    + destruct (rev (stack P m1)); auto.
    + destruct (run P C F (strict_step P) n _ m1) as [[m2|e w1|]|] eqn:E2; try discriminate; try (injection H as <-; congruence);
      rewrite (IH1 _ _ _ E2) by discriminate; auto. destruct (rev (stack P m2)); auto.
Qed.
Lemma strict_runs P prog w r : runs_to P (strict_step P) prog w r -> runs_to P (step P) prog w r.
Proof. intros [n H]. exists n. apply (proj1 (strict_plain _ _ _ n)); [exact H | discriminate]. Qed.
