(** The graphs the compiler builds are well formed, as C40 requires. *)
From Verif Require Import Base Native Err Vm VmProofs Graph GraphSpec GraphProofs Peep PeepSpec PeepProofs Lang Compile CompGraph CompGraph2.
Local Open Scope nat_scope.

(** A graph under construction with at least [k] blocks, in which the blocks [Q] await a join. *)
Definition endok (g : graph) (Q : nat -> Prop) (i : nat) (e : blockend) : Prop :=
  match e with
  | EExit => S i = length g \/ Q i
  | ENext t => t < length g
  | EBranch ty d t => d < length g /\ t < length g /\ ty <> BrJump
  end.
Definition nojump (os : list op) : Prop := forall o, In o os -> is_jump o = false.
Definition wfp (k : nat) (g : graph) (Q : nat -> Prop) : Prop :=
  k <= length g /\ forall i b, nth_error g i = Some b -> nojump (bcode b) /\ endok g Q i (bend b).

Lemma wfp_weak k k' g (Q Q' : nat -> Prop) : wfp k g Q -> k' <= k -> (forall i, Q i -> Q' i) -> wfp k' g Q'.
Proof.
  intros [A B] L H. split; [lia|]. intros i b E. destruct (B i b E) as [C D]. split; auto.
  destruct (bend b); simpl in *; auto. destruct D; auto.
Qed.
Lemma upd_last_len g f : length (upd_last g f) = length g.
Proof.
  unfold upd_last. destruct (rev g) eqn:E; [apply (f_equal (@length _)) in E; rewrite rev_length in E; simpl in *; lia|].
  rewrite rev_length. simpl. apply (f_equal (@length _)) in E. rewrite rev_length in E. simpl in E. lia.
Qed.
Lemma upd_last_app g x f : upd_last (g ++ [x]) f = g ++ [f x].
Proof. unfold upd_last. rewrite rev_app_distr. simpl. now rewrite rev_involutive. Qed.
Lemma nojump_app a b : nojump a -> nojump b -> nojump (a ++ b).
Proof. intros A B o H. apply in_app_iff in H. destruct H; auto. Qed.
Lemma nojump_cons a b : is_jump a = false -> nojump b -> nojump (a :: b).
Proof. intros A B o [<-|H]; auto. Qed.
Lemma nojump_nil : nojump []. Proof. intros o []. Qed.
Lemma nojump_repeat o n : is_jump o = false -> nojump (repeat o n).
Proof. intros H x X. apply repeat_spec in X. now subst. Qed.
#[local] Hint Resolve nojump_app nojump_cons nojump_nil nojump_repeat : nj.

Lemma wfp_push o k g Q : is_jump o = false -> wfp k g Q -> wfp k (g_push o g) Q.
Proof.
  intros J [A B]. unfold g_push. split; [rewrite upd_last_len; auto|].
  destruct g as [|x g0] using rev_ind; [intros [|i] b E; discriminate|]. clear IHg0. rewrite upd_last_app.
  assert (LL : forall y, length (g0 ++ [y]) = length (g0 ++ [x])) by (intro; rewrite !app_length; reflexivity).
  intros i b E. destruct (Nat.lt_ge_cases i (length g0)) as [H|H].
  - rewrite nth_error_app1 in E by auto. specialize (B i b). rewrite nth_error_app1 in B by auto. destruct (B E) as [C D]. split; auto.
    unfold endok in *. rewrite LL. auto.
  - rewrite nth_error_app2 in E by auto. destruct (i - length g0) as [|[|?]] eqn:D; try discriminate. injection E as <-. simpl.
    specialize (B i x). rewrite nth_error_app2, D in B by auto. destruct (B eq_refl) as [U V]. split.
    + apply nojump_app; auto with nj.
    + unfold endok in *. rewrite LL. auto.
Qed.
Lemma wfp_pushes os : forall k g Q, nojump os -> wfp k g Q -> wfp k (g_pushes os g) Q.
Proof.
  unfold g_pushes. induction os as [|o os IH]; intros k g Q N H; simpl; auto.
  apply IH; [intros x X; apply N; simpl; auto|]. apply wfp_push; auto. apply N. simpl. auto.
Qed.
Lemma nth_snoc {A} (l : list A) x i y : nth_error (l ++ [x]) i = Some y -> (nth_error l i = Some y /\ i < length l) \/ (i = length l /\ x = y).
Proof.
  intro H. destruct (Nat.lt_ge_cases i (length l)) as [L|L].
  - rewrite nth_error_app1 in H by auto. auto.
  - rewrite nth_error_app2 in H by auto. destruct (i - length l) as [|[|?]] eqn:E; try discriminate. injection H as ->. right. split; auto. lia.
Qed.
Lemma wfp_new : wfp 1 g_new (fun _ => False).
Proof.
  split; [simpl; lia|]. intros [|[|i]] b E; try discriminate. injection E as <-. split; [apply nojump_nil|]. simpl. auto.
Qed.
(** [g] extended by a fresh block *)
Lemma snoc_end g Q (Q' : nat -> Prop) i e : endok g Q i e -> (S i = length g -> Q' i) -> (Q i -> Q' i) -> endok (g ++ [Block [] EExit]) Q' i e.
Proof.
  unfold endok. rewrite app_length. simpl. destruct e; intros A B C; [destruct A; auto | lia | destruct A as [? [? ?]]; repeat split; auto; lia].
Qed.
Lemma wfp_bf k g Q (Q' : nat -> Prop) : wfp k g Q -> Q' (length g - 1) -> (forall i, Q i -> Q' i) -> wfp k (fst (g_branch_forward g)) Q'.
Proof.
  intros [A B] H HQ. unfold g_branch_forward. simpl. split; [rewrite app_length; simpl; lia|]. intros i b E.
  apply nth_snoc in E. destruct E as [[E L]|[-> <-]].
  - destruct (B i b E) as [C D]. split; auto. eapply snoc_end; eauto. intro Z. now replace i with (length g - 1) by lia.
  - split; [apply nojump_nil|]. simpl. left. rewrite app_length. simpl. lia.
Qed.
Lemma wfp_end2 k g Q (Q' : nat -> Prop) g' : wfp k g Q -> length g' = length g ->
  (forall i b, nth_error g' i = Some b -> exists b0, nth_error g i = Some b0 /\ bcode b = bcode b0 /\
     ((bend b = bend b0 /\ (bend b0 = EExit -> S i <> length g /\ (Q i -> Q' i))) \/
      match bend b with EExit => False | ENext t => t <= length g | EBranch ty d t => d <= length g /\ t <= length g /\ ty <> BrJump end)) ->
  wfp k (g' ++ [Block [] EExit]) Q'.
Proof.
  intros [A B] L H. split; [rewrite app_length, L; simpl; lia|]. intros i b E. apply nth_snoc in E. destruct E as [[E Li]|[-> <-]].
  - destruct (H i b E) as [b0 [E0 [Ec Hb]]]. destruct (B i b0 E0) as [C D]. rewrite Ec. split; auto.
    unfold endok. rewrite app_length, L. simpl. destruct Hb as [[Eb X]|X].
    + rewrite Eb. unfold endok in D. destruct (bend b0); [|lia|destruct D as [? [? ?]]; repeat split; auto; lia].
      right. destruct (X eq_refl) as [Y Z]. destruct D; [contradiction|auto].
    + destruct (bend b); [contradiction|lia|destruct X as [? [? ?]]; repeat split; auto; lia].
  - split; [apply nojump_nil|]. simpl. left. rewrite app_length. simpl. lia.
Qed.
Lemma mk_branch_le ty d t n : d <= n -> t <= n ->
  match mk_branch ty d t with EExit => False | ENext t => t <= n | EBranch ty d t => d <= n /\ t <= n /\ ty <> BrJump end.
Proof. intros. destruct ty; simpl; auto; repeat split; auto; discriminate. Qed.
Lemma wfp_br k g Q : wfp k g Q -> wfp k (fst (g_branch_reverse g)) Q.
Proof.
  intros W. unfold g_branch_reverse. simpl. eapply wfp_end2; [exact W|apply len_g_end|].
  intros i b E. rewrite nth_g_end in E. destruct (nth_error g i) as [b0|] eqn:E0; [|discriminate]. injection E as <-. exists b0. split; auto.
  destruct (Nat.eqb_spec (length g - 1) i); simpl; split; auto. left. split; auto. intros _.
  assert (i < length g) by (apply nth_error_Some; congruence). split; auto. lia.
Qed.
Lemma wfp_br' k g Q : wfp k g Q -> wfp (S (length g)) (fst (g_branch_reverse g)) Q.
Proof. intro W. destruct (wfp_br k g Q W) as [_ B]. split; auto. rewrite br_len. lia. Qed.
Lemma wfp_jr k g Q s ty : wfp k g Q -> s < k -> wfp k (g_join_reverse g s ty) Q.
Proof.
  intros W L. unfold g_join_reverse. simpl. assert (Lk := proj1 W). eapply wfp_end2; [exact W|apply len_g_end|].
  intros i b E. rewrite nth_g_end in E. destruct (nth_error g i) as [b0|] eqn:E0; [|discriminate]. injection E as <-. exists b0. split; auto.
  destruct (Nat.eqb_spec (length g - 1) i); simpl; split; auto.
  - right. apply mk_branch_le; lia.
  - left. split; auto. intros _. assert (i < length g) by (apply nth_error_Some; congruence). split; auto. lia.
Qed.
Lemma wfp_jf k g Q (Q' : nat -> Prop) b ty : wfp k g Q -> (forall i, Q i -> i = b \/ Q' i) -> wfp k (g_join_forward g b ty) Q'.
Proof.
  intros W H. unfold g_join_forward. eapply wfp_end2; [exact W|rewrite !len_g_end; auto|].
  intros i x E. rewrite !nth_g_end in E. destruct (nth_error g i) as [b0|] eqn:E0; [|discriminate]. injection E as <-. exists b0. split; auto.
  assert (i < length g) by (apply nth_error_Some; congruence).
  destruct (Nat.eqb_spec b i) as [->|N].
  - simpl. split; [destruct (length g - 1 =? i); reflexivity|]. right. apply mk_branch_le; lia.
  - destruct (Nat.eqb_spec (length g - 1) i); simpl; split; auto. left. split; auto. intros _. split; [lia|].
    intro X. destruct (H i X); [congruence|auto].
Qed.
Lemma wfp_join_all bs : forall k g Q (Q' : nat -> Prop), wfp k g Q -> (forall i, Q i -> In i (map fst bs) \/ Q' i) -> wfp k (join_all g bs) Q'.
Proof.
  unfold join_all. induction bs as [|[b ty] bs IH]; intros k g Q Q' W H.
  - eapply wfp_weak; [exact W|lia|]. intros i X. destruct (H i X) as [[]|]; auto.
  - simpl. eapply (IH k _ (fun i => In i (map fst bs) \/ Q' i)); [|tauto].
    eapply wfp_jf; [exact W|]. intros i X. destruct (H i X) as [[<-|Y]|Y]; auto.
Qed.

Lemma nj_load x : is_jump (load_op x) = false. Proof. destruct x; reflexivity. Qed.
Lemma nj_store x : is_jump (store_op x) = false. Proof. destruct x; reflexivity. Qed.
Lemma nj_closure f cs : nojump (closure_ops f cs).
Proof.
  unfold closure_ops. apply nojump_cons; [reflexivity|]. destruct cs; [apply nojump_nil|]. apply nojump_cons; [reflexivity|].
  intros o H. apply in_map_iff in H. destruct H as [x [<- _]]. destruct x; reflexivity.
Qed.
Lemma nj_lifts sc l : forall i, nojump (lifts_from i sc l).
Proof.
  induction l as [|[d f] l IH]; intros i; simpl; [apply nojump_nil|]. apply nojump_app; auto.
  destruct (_ && _); auto with nj.
Qed.

Local Ltac psh := repeat first [apply wfp_push; [try reflexivity|] | apply wfp_pushes; [apply nj_closure|]].
Lemma expr_wf :
  (forall e k g Q, wfp k g Q -> wfp k (cexpr e g) Q) /\
  (forall a, (forall un k g Q, wfp k g Q -> wfp k (fst (cargs a un g)) Q) /\ (forall k g Q, wfp k g Q -> wfp k (cplain a g) Q) /\
             (forall acc k g Q, wfp k g Q -> wfp k (clit a acc g) Q)) /\
  (forall r k g bs (Q : nat -> Prop), wfp k g (fun i => In i (map fst bs) \/ Q i) -> wfp k (ccmps r bs g) Q).
Proof.
  apply expr_all; intros; cbn [cexpr cargs cplain ccmps clit].
  - psh; auto.
  - psh; auto.
  - apply wfp_push; [apply nj_load|auto].
  - psh; auto.
  - psh; auto.
  - destruct H0 as [H0 _]. specialize (H0 false k (cexpr f g) Q (H _ _ _ H1)). destruct (cargs args false (cexpr f g)). psh; auto.
  - psh; auto.
  - psh. apply H. auto.
  - psh; auto.
  - rewrite bf_eq. apply H1. eapply wfp_bf; [apply H0, H, H2| |]; simpl; auto.
  - psh. apply H. psh; auto.
  - rewrite bf_eq. apply wfp_jf with (fun i => i = length (cexpr a g) - 1 \/ Q i); auto.
    apply H0. psh. eapply wfp_bf; [apply H, H1| |]; simpl; auto.
  - rewrite bf_eq. apply wfp_jf with (fun i => i = length (cexpr a g) - 1 \/ Q i); auto.
    apply H0. psh. eapply wfp_bf; [apply H, H1| |]; simpl; auto.
  - rewrite bf_eq. rewrite (bf_eq (cexpr t _)).
    set (g1 := cexpr c g) in *. set (g2 := fst (g_branch_forward g1)) in *. set (g3 := cexpr t g2) in *. set (g4 := fst (g_branch_forward g3)) in *.
    apply wfp_jf with (fun i => i = length g3 - 1 \/ Q i); auto. apply H1.
    apply wfp_jf with (fun i => i = length g1 - 1 \/ i = length g3 - 1 \/ Q i); auto.
    unfold g4. eapply wfp_bf with (Q := fun i => i = length g1 - 1 \/ Q i); [|auto|intros; tauto]. apply H0.
    unfold g2. eapply wfp_bf; [apply H; eauto| |]; simpl; auto.
  - psh. apply H0. psh. auto.
  - assert (W : wfp k (cexpr rhs (g_push (OPeek PIndex) (cexpr idx (cexpr arr g)))) Q) by (apply H1; psh; auto).
    psh. destruct o; psh; auto.
  - apply wfp_push; [apply nj_store|auto].
  - split; [|split]; intros; auto. destruct (0 <? acc); psh; auto.
  - destruct H0 as [A [B D]]. split; [|split]; intros.
    + destruct spread; apply A; psh; auto.
    + auto.
    + destruct spread; [|auto]. cbv zeta. apply D. psh. apply H. destruct (0 <? acc); psh; auto.
  - eapply wfp_join_all; [psh; apply H; exact H0|]. auto.
  - rewrite bf_eq. apply H0. eapply wfp_bf; [apply H, H1| |]; simpl.
    + left. rewrite map_app, in_app_iff. simpl. auto.
    + intros i [I|I]; auto. left. rewrite map_app, in_app_iff. auto.
Qed.

(** statements *)
Definition wfc (k : nat) (c : cs) (Q : nat -> Prop) : Prop := wfp k (cg c) (fun i => In i (brk c) \/ Q i).
Definition lcok (lc : loopctx) (k : nat) : Prop := match lc with Some (s, _, _) => s < k | None => True end.
Lemma wfc_same k c c' Q : cg c' = cg c -> brk c' = brk c -> wfc k c Q -> wfc k c' Q.
Proof. unfold wfc. now intros -> ->. Qed.
Lemma wfc_push o k c Q : is_jump o = false -> wfc k c Q -> wfc k (cpush o c) Q.
Proof. apply wfp_push. Qed.
Lemma wfc_pushes os k c Q : nojump os -> wfc k c Q -> wfc k (on_g (g_pushes os) c) Q.
Proof. apply wfp_pushes. Qed.
Lemma wfc_dpop k c Q : wfc k c Q -> wfc k (dpop c) Q.
Proof. unfold dpop. intro H. destruct (delay c); auto. apply (wfp_push OPop); auto. Qed.
Lemma wfc_cex e k c Q : wfc k c Q -> wfc k (cex e c) Q.
Proof. intro H. apply (proj1 expr_wf). exact H. Qed.
Lemma wfc_lv l k c Q : wfc k c Q -> wfc k (with_lv l c) Q. Proof. intro H; exact H. Qed.
Lemma wfc_declare sd k c Q : wfc k c Q -> wfc k (declare_local sd c) Q. Proof. intro H; exact H. Qed.
Lemma wfc_mark l k c Q : wfc k c Q -> wfc k (mark l c) Q. Proof. intro H; exact H. Qed.
Lemma wfc_delay d k c Q : wfc k c Q -> wfc k (with_delay d c) Q. Proof. intro H; exact H. Qed.
Lemma wfc_init t sd k c Q : wfc k c Q -> wfc k (init_local t sd c) Q.
Proof. unfold init_local. intro H. destruct (_ && _); auto. now apply wfc_push. Qed.
Lemma wfc_pop_locals sc m p l k c Q : wfc k c Q -> wfc k (pop_locals sc m p l c) Q.
Proof.
  intro H. unfold pop_locals. cbv zeta.
  set (os := (if l then _ else _) ++ _). assert (N : nojump os).
  { unfold os. apply nojump_app; [destruct l; [apply nj_lifts|apply nojump_nil]|destruct p; auto with nj]. }
  destruct m; [apply wfc_lv|]; now apply wfc_pushes.
Qed.
Lemma wfc_in_block sd body k c Q : (forall c, wfc k c Q -> wfc k (body c) Q) -> wfc k c Q -> wfc k (in_block sd body c) Q.
Proof. intros A B. unfold in_block. apply wfc_pop_locals, A, wfc_dpop, B. Qed.
Lemma wfc_cmsg m k c Q : wfc k c Q -> wfc k (cmsg m c) Q.
Proof. intro H. destruct m; [now apply wfc_cex | now apply wfc_push]. Qed.
Lemma wfc_bf k c (Q Q' : nat -> Prop) : wfc k c Q -> Q' (length (cg c) - 1) -> (forall i, Q i -> Q' i) ->
  wfc k (on_g (fun _ => fst (g_branch_forward (cg c))) c) Q'.
Proof. intros A B C. unfold wfc. cbn [on_g cg brk]. eapply wfp_bf; [exact A|auto|]. simpl. intros i [X|X]; auto. Qed.
Lemma wfc_jf k c (Q Q' : nat -> Prop) b ty : wfc k c Q -> (forall i, Q i -> i = b \/ Q' i) -> wfc k (on_g (fun g => g_join_forward g b ty) c) Q'.
Proof.
  intros A B. unfold wfc. cbn [on_g cg brk]. eapply wfp_jf; [exact A|]. simpl. intros i [X|X]; auto. destruct (B i X); auto.
Qed.
Lemma wfc_jr k c Q s ty : wfc k c Q -> s < k -> wfc k (on_g (fun g => g_join_reverse g s ty) c) Q.
Proof. intros A B. now apply wfp_jr. Qed.
Lemma wfc_weak k k' c (Q Q' : nat -> Prop) : wfc k c Q -> k' <= k -> (forall i, Q i -> Q' i) -> wfc k' c Q'.
Proof. intros A B C. eapply wfp_weak; [exact A|auto|]. simpl. intros i [X|X]; auto. Qed.
(** a loop: its own list of breaks, joined at the end; those of the loop around wait in [Q] *)
Lemma wfc_begin k c Q : wfc k c Q ->
  wfc (S (length (cg c))) (CS (fst (g_branch_reverse (cg c))) (delay c) (lv c) []) (fun i => In i (brk c) \/ Q i).
Proof. intro H. unfold wfc. cbn [cg brk]. eapply wfp_weak; [eapply wfp_br'; exact H|lia|]. simpl. auto. Qed.
Lemma wfc_end k k' out c (Q : nat -> Prop) : wfc k c (fun i => In i out \/ Q i) -> k' <= k -> wfc k' (end_loop out c) Q.
Proof.
  intros H L. unfold wfc, end_loop. cbn [cg brk]. eapply wfp_weak; [|exact L|intros i X; exact X].
  eapply wfp_join_all; [exact H|]. simpl. intros i [X|X]; auto. left. rewrite map_map. simpl. now rewrite map_id.
Qed.

Local Ltac pc := repeat first [ assumption | apply wfc_push; [reflexivity|] | apply wfc_dpop | apply wfc_cex | apply wfc_init | apply wfc_declare
  | apply wfc_mark | apply wfc_delay | apply wfc_pop_locals | apply wfc_cmsg | apply wfc_pushes; [apply nj_closure|] ].
Lemma stmt_wf :
  (forall s top sd lc k c Q, lcok lc k -> wfc k c Q -> wfc k (cstmt top sd lc s c) Q) /\
  (forall b top sd lc k c Q, lcok lc k -> wfc k c Q -> wfc k (cstmts top sd lc b c) Q) /\
  (forall el top sd lc j k c Q, lcok lc k -> wfc k c (fun i => i = j \/ Q i) -> wfc k (celse top sd lc j el c) Q) /\
  (forall el top sd lc k c Q, lcok lc k -> wfc k c Q -> wfc k (copt top sd lc el c) Q).
Proof.
  apply stmt_all; intros; cbn [cstmt cstmts celse copt].
  1-6: pc.
  - cbv zeta. pc.
  - (* if *)
    rewrite bf_eq; cbv iota zeta beta. set (c1 := cex c (dpop c0)). assert (A : wfc k c1 Q) by (unfold c1; pc).
    apply H0; auto. apply wfc_dpop, wfc_in_block; [intros; now apply H|].
    eapply wfc_bf; [exact A| |]; simpl; auto.
  - (* while *)
    unfold begin_loop. rewrite br_eq. cbv iota zeta beta. assert (W0 : wfc k (dpop c0) Q) by pc.
    pose proof (wfc_begin _ _ _ W0) as W1. assert (Lk := proj1 W0).
    set (c1 := CS (fst (g_branch_reverse (cg (dpop c0)))) _ _ []) in *. set (start := length (cg (dpop c0))) in *.
    set (Q1 := fun i => In i (brk (dpop c0)) \/ Q i) in *.
    set (c2 := cex c c1). assert (W2 : wfc (S start) c2 Q1) by (unfold c2; pc). rewrite bf_eq; cbv iota zeta beta.
    eapply wfc_end; [|exact (le_S _ _ Lk)]. apply H0; [simpl; lia|].
    match goal with |- wfc _ (on_g (fun g => g_join_forward (@?f g) ?b ?t) ?x) _ => change (wfc (S start) (on_g (fun g => g_join_forward g b t) (on_g f x)) Q1) end.
    eapply wfc_jf with (Q := fun i => i = length (cg c2) - 1 \/ Q1 i); [|auto]. apply wfc_jr; [|lia].
    apply wfc_dpop, wfc_in_block; [intros; apply H; auto; simpl; lia|].
    eapply wfc_bf; [exact W2| |]; simpl; auto.
  - (* do *)
    unfold begin_loop. rewrite br_eq. cbv iota zeta beta.
    pose proof (wfc_begin _ _ _ H2) as W1. assert (Lk := proj1 H2).
    set (c1 := CS (fst (g_branch_reverse (cg c0))) _ _ []) in *. set (start := length (cg c0)) in *.
    set (Q1 := fun i => In i (brk c0) \/ Q i) in *.
    eapply wfc_end; [|exact (le_S _ _ Lk)]. apply H0; [simpl; lia|].
    assert (W3 : wfc (S start) (dpop (in_block sd (cstmts top (S sd) (Some (start, S sd, S sd)) b) c1)) Q1).
    { apply wfc_dpop, wfc_in_block; auto. intros; apply H; auto; simpl; lia. }
    destruct c as [e|]; auto. apply wfc_jr; [pc|lia].
  - (* loop *)
    unfold begin_loop. rewrite br_eq. cbv iota zeta beta. assert (W0 : wfc k (dpop c) Q) by pc.
    pose proof (wfc_begin _ _ _ W0) as W1. assert (Lk := proj1 W0).
    set (c1 := CS (fst (g_branch_reverse (cg (dpop c)))) _ _ []) in *. set (start := length (cg (dpop c))) in *.
    set (Q1 := fun i => In i (brk (dpop c)) \/ Q i) in *.
    eapply wfc_end; [|exact (le_S _ _ Lk)]. apply wfc_jr; [|lia].
    apply wfc_dpop, wfc_in_block; auto. intros; apply H; auto; simpl; lia.
  - (* for *)
    cbv zeta. set (x := length (lv (dpop c))).
    set (c1 := if named then cpush (OConst HNil) (declare_local (S sd) (dpop c)) else dpop c).
    assert (A1 : wfc k c1 Q) by (unfold c1; destruct named; pc).
    set (c3 := cpush (OPrim PInitIter) (declare_local (S sd) (cex e c1))). assert (W0 : wfc k c3 Q) by (unfold c3; pc).
    unfold begin_loop. rewrite br_eq. cbv iota zeta beta.
    pose proof (wfc_begin _ _ _ W0) as W1. assert (Lk := proj1 W0).
    set (c4 := CS (fst (g_branch_reverse (cg c3))) _ _ []) in *. set (start := length (cg c3)) in *.
    set (Q1 := fun i => In i (brk c3) \/ Q i) in *. rewrite bf_eq; cbv iota zeta beta.
    eapply wfc_end; [|exact (le_S _ _ Lk)]. apply H0; [simpl; lia|]. apply wfc_pop_locals.
    match goal with |- wfc _ (on_g (fun g => g_join_forward (@?f g) ?b ?t) ?x) _ => change (wfc (S start) (on_g (fun g => g_join_forward g b t) (on_g f x)) Q1) end.
    eapply wfc_jf with (Q := fun i => i = length (cg c4) - 1 \/ Q1 i); [|auto]. apply wfc_jr; [|lia].
    apply wfc_pop_locals, wfc_dpop, wfc_in_block; [intros; apply H; auto; simpl; lia|].
    assert (W5 : wfc (S start) (on_g (fun _ => fst (g_branch_forward (cg c4))) c4) (fun i => i = length (cg c4) - 1 \/ Q1 i))
      by (eapply wfc_bf; [exact W1| |]; simpl; auto).
    destruct named; repeat apply wfp_push; auto.
  - (* break *)
    cbv zeta. destruct lc as [[[start enc] inner]|]; [|pc]. rewrite bf_eq. cbv iota zeta beta.
    set (c1 := pop_locals enc false true true (dpop c)). assert (W1 : wfc k c1 Q) by (unfold c1; pc).
    unfold wfc. cbn [cg brk]. eapply wfp_bf; [exact W1| |]; simpl; [left; rewrite in_app_iff; simpl; auto|].
    intros i [X|X]; auto. left. rewrite in_app_iff. auto.
  - cbv zeta. destruct lc as [[[start enc] inner]|]; [|pc]. apply wfc_jr; [pc|exact H].
  - (* assert *)
    rewrite bf_eq; cbv iota zeta beta. set (c1 := cex e (dpop c)). assert (A : wfc k c1 Q) by (unfold c1; pc).
    match goal with |- wfc _ (on_g (fun g => g_join_forward (@?f g) ?b ?t) ?x) _ => change (wfc k (on_g (fun g => g_join_forward g b t) (on_g f x)) Q) end.
    eapply wfc_jf with (Q := fun i => i = length (cg c1) - 1 \/ Q i); [|auto]. apply wfc_push; [reflexivity|]. apply wfc_cmsg.
    eapply wfc_bf; [exact A| |]; simpl; auto.
  - cbv zeta. set (c1 := if swap then _ else _). assert (A : wfc k c1 Q) by (unfold c1; destruct swap; pc).
    rewrite bf_eq; cbv iota zeta beta.
    match goal with |- wfc _ (on_g (fun g => g_join_forward (@?f g) ?b ?t) ?x) _ => change (wfc k (on_g (fun g => g_join_forward g b t) (on_g f x)) Q) end.
    eapply wfc_jf with (Q := fun i => i = length (cg c1) - 1 \/ Q i); [|auto]. apply wfc_push; [reflexivity|]. apply wfc_cmsg.
    eapply wfc_bf; [exact A| |]; simpl; auto.
  - auto.
  - apply H0; auto.
  - eapply wfc_jf; [exact H0|]. auto.
  - (* else block *)
    rewrite bf_eq; cbv iota zeta beta. set (j2 := length (cg c) - 1).
    eapply wfc_jf with (Q := fun i => i = j2 \/ Q i); [|auto]. apply wfc_dpop, wfc_in_block; [intros; now apply H|].
    change (on_g (fun _ => g_join_forward (fst (g_branch_forward (cg c))) j BrFalsePop) c)
      with (on_g (fun g => g_join_forward g j BrFalsePop) (on_g (fun _ => fst (g_branch_forward (cg c))) c)).
    eapply wfc_jf with (Q := fun i => i = j \/ i = j2 \/ Q i); [|auto].
    eapply wfc_bf; [exact H1| |]; simpl; auto. intros; tauto.
  - (* elif *)
    rewrite bf_eq; cbv iota zeta beta. set (j2 := length (cg c0) - 1).
    change (on_g (fun _ => g_join_forward (fst (g_branch_forward (cg c0))) j BrFalsePop) c0)
      with (on_g (fun g => g_join_forward g j BrFalsePop) (on_g (fun _ => fst (g_branch_forward (cg c0))) c0)).
    set (c3 := on_g (fun g => g_join_forward g j BrFalsePop) _).
    assert (W3 : wfc k c3 (fun i => i = j2 \/ Q i)).
    { eapply wfc_jf with (Q := fun i => i = j \/ i = j2 \/ Q i); [|auto].
      eapply wfc_bf; [exact H2| |]; simpl; auto. intros; tauto. }
    set (c4 := cex c (dpop c3)). assert (W4 : wfc k c4 (fun i => i = j2 \/ Q i)) by (unfold c4; pc). rewrite bf_eq; cbv iota zeta beta.
    eapply wfc_jf with (Q := fun i => i = j2 \/ Q i); [|auto].
    apply H0; auto. apply wfc_dpop, wfc_in_block; [intros; now apply H|].
    eapply wfc_bf; [exact W4| |]; simpl; auto.
  - auto.
  - apply wfc_dpop, wfc_in_block; auto.
Qed.

(** outside loops there are no breaks *)
Lemma brk_dpop c : brk (dpop c) = brk c. Proof. unfold dpop. destruct (delay c); reflexivity. Qed.
Lemma brk_pop_locals a b d e c : brk (pop_locals a b d e c) = brk c. Proof. unfold pop_locals. destruct b; reflexivity. Qed.
Lemma brk_init a b c : brk (init_local a b c) = brk c. Proof. unfold init_local. destruct (_ && _); reflexivity. Qed.
Lemma brk_cmsg m c : brk (cmsg m c) = brk c. Proof. destruct m; reflexivity. Qed.
Lemma brk_on f c : brk (on_g f c) = brk c. Proof. reflexivity. Qed.
Lemma brk_push f c : brk (cpush f c) = brk c. Proof. reflexivity. Qed.
Lemma brk_cex f c : brk (cex f c) = brk c. Proof. reflexivity. Qed.
Lemma brk_decl f c : brk (declare_local f c) = brk c. Proof. reflexivity. Qed.
Lemma brk_mark f c : brk (mark f c) = brk c. Proof. reflexivity. Qed.
Lemma brk_delay f c : brk (with_delay f c) = brk c. Proof. reflexivity. Qed.
Lemma brk_end out c : brk (end_loop out c) = out. Proof. reflexivity. Qed.
Lemma brk_block sd b c : (forall c, brk (b c) = brk c) -> brk (in_block sd b c) = brk c.
Proof. intro H. unfold in_block. now rewrite brk_pop_locals, H, brk_dpop. Qed.
Local Ltac rb := repeat first [rewrite brk_dpop | rewrite brk_pop_locals | rewrite brk_init | rewrite brk_cmsg | rewrite brk_on | rewrite brk_push | rewrite brk_cex
  | rewrite brk_decl | rewrite brk_mark | rewrite brk_delay | rewrite brk_end]; try reflexivity.
Lemma stmt_brk :
  (forall s top sd c, brk (cstmt top sd None s c) = brk c) /\
  (forall b top sd c, brk (cstmts top sd None b c) = brk c) /\
  (forall el top sd j c, brk (celse top sd None j el c) = brk c) /\
  (forall (el : option_stmts), True).
Proof.
  apply stmt_all; intros; cbn [cstmt cstmts celse]; auto; cbv zeta; unfold begin_loop; rb.
  - destruct e; rb.
  - rewrite bf_eq; cbv iota zeta beta. rewrite H0. rb. rewrite brk_block by auto. rb.
  - destruct named; rb.
  - rewrite bf_eq; cbv iota zeta beta. rb.
  - rewrite bf_eq; cbv iota zeta beta. rb. destruct swap; rb.
  - now rewrite H0, H.
  - rewrite bf_eq; cbv iota zeta beta. rb. rewrite brk_block by auto. rb.
  - rewrite bf_eq; cbv iota zeta beta. rewrite bf_eq; cbv iota zeta beta. rb. rewrite H0. rb. rewrite brk_block by auto. rb.
Qed.

(** whole functions and programs *)
Lemma defs_wf ds : forall k g Q, wfp k g Q -> wfp k (fst (cdefs ds g)) Q /\ forall b, In b (snd (cdefs ds g)) -> b < length (fst (cdefs ds g)).
Proof.
  induction ds as [|d ds IH]; intros k g Q W; cbn [cdefs]; [split; [exact W|intros b []]|].
  rewrite br_eq. cbv iota zeta beta.
  assert (W1 : wfp (S (length (cexpr d g))) (fst (g_branch_reverse (cexpr d g))) Q) by (eapply wfp_br', (proj1 expr_wf), W).
  assert (Lk : k <= length (cexpr d g)) by (apply (proj1 expr_wf) with (e := d) in W; exact (proj1 W)).
  destruct (IH _ _ _ W1) as [A B]. destruct (cdefs ds (fst (g_branch_reverse (cexpr d g)))) as [g' bs]. simpl in *. split.
  - eapply wfp_weak; [exact A|lia|auto].
  - intros b [<-|I]; [exact (proj1 A)|auto].
Qed.
Lemma wf_close o k g Q : wfp k g Q -> isopen g -> (forall i, Q i -> False) -> is_jump o = false -> is_final o = true -> wf_graph (g_push o g).
Proof.
  intros W [gi [c ->]] N J F. pose proof (wfp_push o _ _ _ J W) as W'. rewrite push_open in *. destruct W' as [_ B].
  intros b I. apply In_nth_error in I. destruct I as [i E]. destruct (B i b E) as [X Y]. split; [exact X|].
  unfold endok in Y. destruct (bend b) eqn:Eb; auto. destruct Y as [Y|Y]; [|destruct (N i Y)].
  apply nth_snoc in E. destruct E as [[E L]|[-> <-]].
  - rewrite app_length in Y. simpl in Y. lia.
  - exists c, o. auto.
Qed.
Lemma push_ne o g : isopen g -> g_push o g <> [].
Proof. intros [gi [c ->]]. rewrite push_open. destruct gi; discriminate. Qed.
Lemma push_len o g : length (g_push o g) = length g. Proof. apply upd_last_len. Qed.
Lemma open_new : isopen g_new. Proof. exists [], []. reflexivity. Qed.
Lemma defs_open ds : forall g, isopen g -> isopen (fst (cdefs ds g)).
Proof.
  induction ds as [|d ds IH]; intros g O; cbn [cdefs]; auto. rewrite br_eq. cbv iota zeta beta.
  specialize (IH (fst (g_branch_reverse (cexpr d g)))). destruct (cdefs ds (fst (g_branch_reverse (cexpr d g)))) as [g' bs]. simpl in *.
  apply IH. eapply grow_open, grow_br. eapply grow_open, (proj1 expr_grow). exact O.
Qed.
Lemma cmain_wf b : wf_graph (cmain b) /\ cmain b <> [].
Proof.
  unfold cmain. cbv zeta. set (c0 := CS g_new false [] []).
  assert (W0 : wfc 1 c0 (fun _ => False)) by (eapply wfp_weak; [apply wfp_new|lia|auto]).
  set (c1 := pop_locals 0 true true true (dpop (cstmts true 0 None b c0))).
  assert (W1 : wfc 1 c1 (fun _ => False)) by (apply wfc_pop_locals, wfc_dpop, (proj1 (proj2 stmt_wf)); [exact I|exact W0]).
  assert (B : brk c1 = []) by (unfold c1; rewrite brk_pop_locals, brk_dpop, (proj1 (proj2 stmt_brk)); reflexivity).
  assert (O : isopen (cg c1)).
  { pose proof (proj1 (proj2 stmt_grow) b true 0 None c0 open_new) as A. pose proof (cgrow_dpop _ (cgrow_open _ _ A)) as D.
    eapply cgrow_open, cgrow_pop_locals, cgrow_open, D. }
  split; [|now apply push_ne]. eapply wf_close; [exact W1|exact O| |reflexivity|reflexivity]. rewrite B. simpl. tauto.
Qed.
Lemma cfun_wf f : wf_pfun (cfun f).
Proof.
  unfold cfun. destruct (defs_wf (sf_defs f) _ _ _ wfp_new) as [D1 D2]. pose proof (defs_open (sf_defs f) g_new open_new) as O0.
  destruct (cdefs (sf_defs f) g_new) as [g bs] eqn:E. cbn [fst snd] in *. cbv zeta.
  set (c0 := CS g false (repeat (1, false) (sf_args f)) []).
  assert (W0 : wfc (length g) c0 (fun _ => False)).
  { unfold wfc. cbn [cg brk c0]. split; [auto|]. intros i b X. destruct (proj2 D1 i b X) as [U V]. split; auto. unfold endok in *. destruct (bend b); auto.
    destruct V; auto. }
  set (c1 := match sf_body f with BodyBlock b => _ | BodyExpr e => _ end).
  assert (A1 : cgrow c0 c1 /\ wfc (length g) c1 (fun _ => False) /\ brk c1 = []).
  { unfold c1. destruct (sf_body f) as [b|e]; cbv zeta.
    - pose proof (proj1 (proj2 stmt_grow) b false 2 None c0 O0) as A.
      assert (W1 : wfc (length g) (cstmts false 2 None b c0) (fun _ => False)) by (apply (proj1 (proj2 stmt_wf)); [exact I|exact W0]).
      assert (B : brk (cstmts false 2 None b c0) = []) by (rewrite (proj1 (proj2 stmt_brk)); reflexivity).
      destruct (delay _); auto. split; [|split; auto].
      + eapply cgrow_trans; [exact A|]. apply cgrow_push. eapply cgrow_open; eauto.
      + now apply wfc_push.
    - split; [now apply cgrow_cex|]. split; [now apply wfc_cex|reflexivity]. }
  destruct A1 as [G1 [W1 B1]]. 
  set (c2 := pop_locals 1 true false true (pop_locals 2 true false true c1)).
  assert (W2 : wfc (length g) c2 (fun _ => False)) by (do 2 apply wfc_pop_locals; auto).
  assert (B2 : brk c2 = []) by (unfold c2; now rewrite !brk_pop_locals).
  assert (O : isopen (cg c2)) by (eapply cgrow_open, cgrow_pop_locals, cgrow_open, cgrow_pop_locals, cgrow_open, G1).
  split; [|split]; cbn [pf_code pf_defaults].
  - eapply wf_close; [exact W2|exact O| |reflexivity|reflexivity]. rewrite B2. simpl. tauto.
  - now apply push_ne.
  - intros b Ib. rewrite push_len. specialize (D2 b Ib). pose proof (proj1 W2). lia.
Qed.
Lemma compile_wf p : wf_program (cmain (pr_main p)) (map cfun (pr_funs p)).
Proof.
  destruct (cmain_wf (pr_main p)) as [A B]. split; [exact A|]. split; [exact B|].
  intros f I. apply in_map_iff in I. destruct I as [x [<- _]]. apply cfun_wf.
Qed.
