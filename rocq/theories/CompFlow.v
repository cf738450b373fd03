(** Where compiled code ends up, and how control flows through it. *)
From Verif Require Import Base Native Err Vm VmProofs Graph GraphSpec GraphProofs Peep PeepSpec Lang Compile ReplRun CompGraph CompGraph2.
Local Open Scope nat_scope.

(** ** [fits g G]: the final graph [G] continues the unfinished graph [g] *)
Definition fits (g G : graph) : Prop :=
  length g <= length G /\
  forall i b, nth_error g i = Some b -> exists b', nth_error G i = Some b' /\
    ((S i < length g /\ bcode b' = bcode b /\ (bend b = EExit \/ bend b' = bend b)) \/
     (S i = length g /\ exists x, bcode b' = bcode b ++ x)).
Lemma fits_self G : fits G G.
Proof.
  split; auto. intros i b H. exists b. split; auto.
  assert (i < length G) by (apply nth_error_Some; congruence).
  destruct (Nat.eq_dec (S i) (length G)); [right; split; auto; exists []; now rewrite app_nil_r | left; repeat split; auto; lia].
Qed.
Lemma fits_grow g g' G : grow g g' -> fits g' G -> fits g G.
Proof.
  intros GR [L F]. pose proof (grow_len _ _ GR) as GL. split; [lia|]. intros i b Hb.
  destruct GR as [gi [c [gi' [c' [Q1 [Q2 H]]]]]]. unfold opn in Q1, Q2. subst g g'.
  assert (i < length (gi ++ [Block c EExit])) by (apply nth_error_Some; congruence). rewrite app_length in *. simpl in *.
  destruct (Nat.eq_dec i (length gi)) as [->|N].
  - rewrite nth_error_app2, Nat.sub_diag in Hb by lia. simpl in Hb. injection Hb as <-.
    destruct H as [[-> [x ->]]|[x [e [r ->]]]].
    + destruct (F (length gi) (Block (c ++ x) EExit)) as [b' [B1 [B2|[B2 [y B3]]]]]; [now rewrite nth_error_app2, Nat.sub_diag by lia| |].
      * lia.
      * exists b'. split; auto. right. split; [lia|]. exists (x ++ y). simpl in *. now rewrite B3, app_assoc.
    + destruct (F (length gi) (Block (c ++ x) e)) as [b' [B1 [[B2 [B3 _]]|[B2 [y B3]]]]].
      * rewrite <- app_assoc. now rewrite nth_error_app2, Nat.sub_diag by lia.
      * exists b'. split; auto. right. split; [lia|]. exists x. exact B3.
      * rewrite app_length in B2. simpl in B2. lia.
  - rewrite nth_error_app1 in Hb by lia.
    assert (Hi : i < length gi) by lia.
    destruct H as [[-> [x ->]]|[x [e [r ->]]]].
    + destruct (F i b) as [b' [B1 [B2|[B2 B3]]]]; [now rewrite nth_error_app1 by lia| |lia].
      exists b'. split; auto.
    + destruct (F i b) as [b' [B1 [[B2 B3]|[B2 B3]]]]; [rewrite <- app_assoc; now rewrite nth_error_app1 by lia| |].
      * exists b'. split; auto. left. split; auto. lia.
      * rewrite app_length in B2. simpl in B2. lia.
Qed.
Lemma fits_jf g b ty G : isopen g -> pending g b -> fits (g_join_forward g b ty) G -> fits g G.
Proof.
  intros O [P1 [cb P2]] [L F]. rewrite jf_len in L. split; [lia|]. intros i x Hx.
  assert (Hi : i < length g) by (apply nth_error_Some; congruence).
  unfold g_join_forward in F. 
  destruct (F i (if b =? i then Block (bcode x) (mk_branch ty (S b) (length g)) else if length g - 1 =? i then Block (bcode x) (ENext (length g)) else x)) as [b' [B1 B2]].
  { rewrite nth_error_app1 by (rewrite !len_g_end; auto). rewrite !nth_g_end, Hx. 
    destruct (Nat.eqb_spec b i), (Nat.eqb_spec (length g - 1) i); try reflexivity. }
  rewrite app_length, !len_g_end in B2. simpl in B2. exists b'. split; auto.
  destruct B2 as [[B2 [B3 B4]]|[B2 _]]; [|lia].
  assert (Bc : bcode b' = bcode x) by (rewrite B3; destruct (b =? i), (length g - 1 =? i); reflexivity).
  destruct (Nat.eq_dec (S i) (length g)).
  - right. split; auto. exists []. now rewrite app_nil_r.
  - left. split; [lia|]. split; [auto|]. destruct (Nat.eqb_spec b i) as [->|]; [left; rewrite P2 in Hx; injection Hx as <-; reflexivity|].
    destruct (Nat.eqb_spec (length g - 1) i); [lia|auto].
Qed.
(** what a join says about the final graph *)
Lemma fits_jf_ends g b ty G : isopen g -> pending g b -> fits (g_join_forward g b ty) G ->
  S (length g) <= length G /\
  (exists x y, nth_error g b = Some x /\ nth_error G b = Some y /\ bcode y = bcode x /\ bend y = mk_branch ty (S b) (length g)) /\
  (exists x y, nth_error g (length g - 1) = Some x /\ nth_error G (length g - 1) = Some y /\ bcode y = bcode x /\ bend y = ENext (length g)).
Proof.
  intros O [P1 [cb P2]] [L F]. rewrite jf_len in L. split; [auto|]. unfold g_join_forward in F. split.
  - exists (Block cb EExit). destruct (F b (Block cb (mk_branch ty (S b) (length g)))) as [b' [B1 B2]].
    { rewrite nth_error_app1 by (rewrite !len_g_end; lia). rewrite !nth_g_end, P2, Nat.eqb_refl. destruct (Nat.eqb_spec (length g - 1) b); reflexivity. }
    rewrite app_length, !len_g_end in B2. simpl in B2. exists b'. destruct B2 as [[B2 [B3 B4]]|[B2 _]]; [|lia].
    repeat split; auto. destruct B4 as [B4|B4]; auto. destruct ty; discriminate.
  - destruct (nth_error g (length g - 1)) as [x|] eqn:X; [|apply nth_error_None in X; lia]. exists x.
    destruct (F (length g - 1) (Block (bcode x) (ENext (length g)))) as [b' [B1 B2]].
    { rewrite nth_error_app1 by (rewrite !len_g_end; lia). rewrite !nth_g_end, X, Nat.eqb_refl.
      replace (b =? length g - 1) with false by (symmetry; apply Nat.eqb_neq; lia). reflexivity. }
    rewrite app_length, !len_g_end in B2. simpl in B2. exists b'. destruct B2 as [[B2 [B3 B4]]|[B2 _]]; [|lia].
    repeat split; auto. destruct B4 as [B4|B4]; auto. discriminate.
Qed.
Lemma fits_end g e G : isopen g -> fits (g_end g (length g - 1) e ++ [Block [] EExit]) G -> e <> EExit ->
  S (length g) <= length G /\
  exists x y, nth_error g (length g - 1) = Some x /\ nth_error G (length g - 1) = Some y /\ bcode y = bcode x /\ bend y = e.
Proof.
  intros O [L F] NE. pose proof (open_pos _ O). rewrite app_length, len_g_end in L. simpl in L. split; [lia|].
  destruct (nth_error g (length g - 1)) as [x|] eqn:X; [|apply nth_error_None in X; lia]. exists x.
  destruct (F (length g - 1) (Block (bcode x) e)) as [b' [B1 B2]].
  { rewrite nth_error_app1 by (rewrite !len_g_end; lia). rewrite !nth_g_end, X, Nat.eqb_refl. reflexivity. }
  rewrite app_length, !len_g_end in B2. simpl in B2. exists b'. destruct B2 as [[B2 [B3 B4]]|[B2 _]]; [|lia].
  repeat split; auto. destruct B4 as [B4|B4]; auto. contradiction.
Qed.

Definition last_code (g : graph) : list op := bcode (last g (Block [] EExit)).
Lemma last_nth_error g x : nth_error g (length g - 1) = Some x -> last_code g = bcode x.
Proof.
  intro H. unfold last_code. destruct g as [|b g] using rev_ind; [discriminate|]. rewrite last_last.
  rewrite app_length in H. simpl in H. rewrite nth_error_app2 in H by lia. replace (length g + 1 - 1 - length g) with 0 in H by lia. simpl in H. congruence.
Qed.

Section flow.
Context (P : prims) (C : list op) (T : nat -> option func).
Local Notation run := (run P C T (strict_step P)).
Local Notation invoke := (invoke P C T (strict_step P)).
Local Notation run_tree := (run_tree P C T (strict_step P)).
Local Notation vm := (vm P).

Local Notation run_line := (run_line P C T (strict_step P)).
Lemma run_line_mono : forall n d m r n', run_line n d m = Some r -> n <= n' -> run_line n' d m = Some r.
Proof.
  induction n as [|n IH]; intros d m r n' H L; [discriminate|]. destruct n' as [|n']; [lia|]. cbn [ReplRun.run_line] in *.
  destruct (nth_error C (ip P m)) as [o|]; [|exact H]. destruct (strict_step P o (set_ip P (S (ip P m)) m)) as [m1|e w|m1|t m1|k m1|]; auto.
  - eapply IH; [exact H|lia].
  - destruct (length (frames P m1) =? d); auto. eapply IH; [exact H|lia].
  - destruct (run_tree n t m1) as [x|] eqn:E; [|discriminate]. rewrite (tree_mono _ _ _ _ _ n' _ _ _ E) by lia. destruct x; auto. eapply IH; [exact H|lia].
  - destruct (invoke n k m1) as [x|] eqn:E; [|discriminate]. rewrite (invoke_mono _ _ _ _ _ n' _ _ _ E) by lia. destruct x; auto; (eapply IH; [exact H|lia]).
Qed.
(** the two ways of running agree *)
Definition forget (r : line_end P) : vres P :=
  match r with LYield _ m => VErr P XYield (world P m) | LReturn _ m => VDone P m | LError _ e m => VErr P e (world P m) | LStuck _ => VStuck P end.
Lemma run_line_run : forall n d m r, run n d m = Some r -> exists x, run_line n d m = Some x /\ forget x = r.
Proof.
  induction n as [|n IH]; intros d m r H; [discriminate|]. rewrite run_S in H. cbn [ReplRun.run_line].
  destruct (nth_error C (ip P m)) as [o|]; [|injection H as <-; exists (LStuck P); auto].
  destruct (strict_step P o (set_ip P (S (ip P m)) m)) as [m1|e w|m1|t m1|k m1|] eqn:Es.
  - apply IH, H.
  - injection H as <-. destruct e; try (eexists; split; [reflexivity|reflexivity]). eexists. split; [reflexivity|]. cbn [forget]. f_equal.
    assert (Y : forall o m e w, strict_step P o m = Fail P e w -> e = XYield -> w = world P m).
    { clear. intros o m e w H E. subst e. unfold strict_step in H. destruct (self_store P o m); [discriminate|].
      destruct o; cbn [step] in H; unfold with_top, pop1, store_local, store_global, store_up in H;
      repeat (match type of H with context [match ?x with _ => _ end] => destruct x end; try discriminate H); try discriminate H; try (injection H as <-; reflexivity). }
    apply Y in Es; [|reflexivity]. rewrite Es. destruct m; reflexivity.
  - destruct (length (frames P m1) =? d); [|apply IH, H]. injection H as <-. eexists. split; reflexivity.
  - destruct (run_tree n t m1) as [[m2 v|e w|]|]; [apply IH, H| | |discriminate]; injection H as <-; eexists; (split; [reflexivity|reflexivity]).
  - destruct (invoke n k m1) as [[m2|m2|e w|]|]; [apply IH, H|apply IH, H| | |discriminate]; injection H as <-; eexists; (split; [reflexivity|reflexivity]).
  - injection H as <-. eexists. split; reflexivity.
Qed.

(** from [m] the machine gets to [m'], whatever happens after that *)
Definition reach (d : nat) (m m' : vm) : Prop := exists k, (forall n r, run n d m' = Some r -> run (k + n) d m = Some r) /\
  (forall n r, run_line n d m' = Some r -> run_line (k + n) d m = Some r).
Definition fails (d : nat) (m : vm) (e : verr (E P)) (w : W P) : Prop := exists n, run n d m = Some (VErr P e w).
Lemma reach_refl d m : reach d m m. Proof. exists 0. auto. Qed.
Lemma reach_trans d m1 m2 m3 : reach d m1 m2 -> reach d m2 m3 -> reach d m1 m3.
Proof. intros [k [A A']] [j [B B']]. exists (k + j). split; intros n r H; rewrite <- Nat.add_assoc; auto. Qed.
Lemma reach_fails d m1 m2 e w : reach d m1 m2 -> fails d m2 e w -> fails d m1 e w.
Proof. intros [k [A _]] [n H]. exists (k + n). auto. Qed.
Lemma reach_go d m o m' : nth_error C (ip P m) = Some o -> strict_step P o (set_ip P (S (ip P m)) m) = Go P m' -> reach d m m'.
Proof. intros A B. exists 1. split; intros n r H; cbn [Nat.add]; [rewrite run_S|cbn [ReplRun.run_line]]; rewrite A, B; exact H. Qed.
Lemma fails_go d m o e w : nth_error C (ip P m) = Some o -> strict_step P o (set_ip P (S (ip P m)) m) = Fail P e w -> fails d m e w.
Proof. intros A B. exists 1. rewrite run_S, A, B. reflexivity. Qed.
Lemma reach_run d m o t m1 N m2 v : nth_error C (ip P m) = Some o -> strict_step P o (set_ip P (S (ip P m)) m) = Run P t m1 ->
  run_tree N t m1 = Some (TVal P m2 v) -> reach d m (push P v m2).
Proof.
  intros A B H. exists (S N). split; intros n r R; cbn [Nat.add]; [rewrite run_S|cbn [ReplRun.run_line]]; rewrite A, B;
  rewrite (tree_mono _ _ _ _ _ (N + n) _ _ _ H) by lia; [eapply run_mono|eapply run_line_mono]; [exact R|lia|exact R|lia].
Qed.
Lemma fails_run d m o t m1 N e w : nth_error C (ip P m) = Some o -> strict_step P o (set_ip P (S (ip P m)) m) = Run P t m1 ->
  run_tree N t m1 = Some (TFail P e w) -> fails d m e w.
Proof. intros A B H. exists (S N). rewrite run_S, A, B, H. reflexivity. Qed.
Lemma reach_invoke d m o k m1 N m2 : nth_error C (ip P m) = Some o -> strict_step P o (set_ip P (S (ip P m)) m) = Invoke P k m1 ->
  (invoke N k m1 = Some (INative P m2) \/ invoke N k m1 = Some (IUser P m2)) -> reach d m m2.
Proof.
  intros A B H. exists (S N). split; intros n r R; cbn [Nat.add]; [rewrite run_S|cbn [ReplRun.run_line]]; rewrite A, B.
  - assert (X : run (N + n) d m2 = Some r) by (eapply run_mono; [exact R|lia]).
    destruct H as [H|H]; rewrite (invoke_mono _ _ _ _ _ (N + n) _ _ _ H) by lia; exact X.
  - assert (X : run_line (N + n) d m2 = Some r) by (eapply run_line_mono; [exact R|lia]).
    destruct H as [H|H]; rewrite (invoke_mono _ _ _ _ _ (N + n) _ _ _ H) by lia; exact X.
Qed.
Lemma fails_invoke d m o k m1 N e w : nth_error C (ip P m) = Some o -> strict_step P o (set_ip P (S (ip P m)) m) = Invoke P k m1 ->
  invoke N k m1 = Some (IErr P e w) -> fails d m e w.
Proof. intros A B H. exists (S N). rewrite run_S, A, B, H. reflexivity. Qed.
Lemma reach_ret d m m' : nth_error C (ip P m) = Some OReturn -> strict_step P OReturn (set_ip P (S (ip P m)) m) = Ret P m' ->
  length (frames P m') <> d -> reach d m m'.
Proof.
  intros A B H. exists 1. split; intros n r R; cbn [Nat.add]; [rewrite run_S|cbn [ReplRun.run_line]]; rewrite A, B;
  (destruct (Nat.eqb_spec (length (frames P m')) d); [contradiction|exact R]).
Qed.

(** unconditional flow *)
Definition goes (i j : nat) : Prop := forall d m, ip P m = i -> reach d m (set_ip P j m).
Lemma goes_refl i : goes i i.
Proof. intros d m <-. destruct m. apply reach_refl. Qed.
Lemma goes_trans i j k : goes i j -> goes j k -> goes i k.
Proof.
  intros A B d m H. eapply reach_trans; [now apply A|]. specialize (B d (set_ip P j m) eq_refl). destruct m. exact B.
Qed.
Lemma goes_jump i t : nth_error C i = Some (OJump (Z.of_nat t - Z.of_nat i - 1)) -> goes i t.
Proof.
  intros H d m E. rewrite <- E in H. eapply reach_go; [exact H|]. unfold strict_step. cbn [self_store step]. f_equal. unfold jump.
  destruct m as [i0 ? ? ? ? ? ? ? ? ?]. unfold set_ip. cbn [Vm.ip Vm.stack Vm.frames Vm.lits Vm.unrolls Vm.gcount Vm.opens Vm.cells Vm.envs Vm.world] in *. subst i0. f_equal. lia.
Qed.

Context (G : graph) (st : list nat) (HL : laid C G st).
Definition here (g : graph) : nat := nth (length g - 1) st 0 + length (last_code g).
(** the end of block [b] of the final graph *)
Definition tail (b : nat) : nat := nth b st 0 + length (match nth_error G b with Some x => bcode x | None => [] end).
(** a conditional branch at [i]: to [t], or on to [n] *)
Definition branches (ty : brtype) (i t n : nat) : Prop :=
  nth_error C i = Some (brop ty (Z.of_nat t - Z.of_nat i - 1)) /\ goes (S i) n.

Lemma flow_next b x n : nth_error G b = Some x -> bend x = ENext n -> n < length G -> goes (nth b st 0 + length (bcode x)) (nth n st 0).
Proof.
  intros A B L. destruct (l_next _ _ _ HL b x n A B L) as [[_ E]|[_ E]].
  - rewrite E. apply goes_refl.
  - now apply goes_jump.
Qed.
Lemma flow_branch b x ty d t : nth_error G b = Some x -> bend x = EBranch ty d t -> d < length G -> t < length G ->
  branches ty (nth b st 0 + length (bcode x)) (nth t st 0) (nth d st 0).
Proof.
  intros A B L1 L2. destruct (l_branch _ _ _ HL b x ty d t A B L1 L2) as [E [[_ E2]|[_ E2]]]; split; auto.
  - rewrite E2. apply goes_refl.
  - now apply goes_jump.
Qed.

Lemma at_push o g : isopen g -> fits (g_push o g) G -> nth_error C (here g) = Some o /\ here (g_push o g) = S (here g).
Proof.
  intros [gi [c ->]] F. rewrite push_open in *. unfold here, last_code. rewrite !last_last, !app_length. simpl. rewrite app_length. simpl. split; [|lia].
  destruct F as [_ F]. destruct (F (length gi) (Block (c ++ [o]) EExit)) as [b' [B1 B2]]; [now rewrite nth_error_app2, Nat.sub_diag by lia|].
  replace (length gi + 1 - 1) with (length gi) by lia. eapply (l_op _ _ _ HL); [exact B1|].
  rewrite app_length in B2. simpl in B2. destruct B2 as [[B2 _]|[_ [x B2]]]; [lia|]. rewrite B2, <- app_assoc. simpl.
  now rewrite nth_error_app2, Nat.sub_diag by lia.
Qed.
Lemma at_pushes os : forall g, isopen g -> fits (g_pushes os g) G ->
  (forall i o, nth_error os i = Some o -> nth_error C (here g + i) = Some o) /\ here (g_pushes os g) = here g + length os.
Proof.
  induction os as [|o os IH]; intros g O F; simpl.
  - split; [intros [|i]; discriminate|lia].
  - unfold g_pushes in *. simpl in *. pose proof (grow_push o g O) as GP. pose proof (grow_open _ _ GP) as O'.
    destruct (IH (g_push o g) O' F) as [A B].
    destruct (at_push o g O) as [A1 B1]; [eapply fits_grow; [apply (grow_pushes os); exact O'|exact F]|]. rewrite B, B1. split; [|lia].
    intros [|i] x Hx; simpl in Hx; [injection Hx as <-; now rewrite Nat.add_0_r|]. rewrite B1 in A. specialize (A i x Hx). rewrite <- A. f_equal. lia.
Qed.
Lemma here_bf g : isopen g -> here (fst (g_branch_forward g)) = nth (length g) st 0.
Proof.
  intros [gi [c ->]]. rewrite bf_open. unfold here, last_code. cbn [fst]. rewrite last_last. rewrite app_length. simpl. 
  rewrite Nat.add_0_r. f_equal. lia.
Qed.
Lemma tail_bf g : isopen g -> fits (fst (g_branch_forward g)) G -> tail (length g - 1) = here g.
Proof.
  intros [gi [c ->]] [_ F]. rewrite bf_open in F. cbn [fst] in F. unfold tail, here, last_code. rewrite last_last, app_length. simpl.
  replace (length gi + 1 - 1) with (length gi) by lia.
  destruct (F (length gi) (Block c EExit)) as [b' [B1 B2]].
  { rewrite <- app_assoc. now rewrite nth_error_app2, Nat.sub_diag by lia. }
  rewrite B1. destruct B2 as [[_ [B2 _]]|[B2 _]]; [now rewrite B2|]. rewrite !app_length in B2. simpl in B2. lia.
Qed.
Lemma here_new g e : isopen g -> here (g_end g (length g - 1) e ++ [Block [] EExit]) = nth (length g) st 0.
Proof.
  intros O. unfold here, last_code. rewrite last_last, app_length, len_g_end. simpl. rewrite Nat.add_0_r. f_equal. lia.
Qed.
Lemma here_tail g x : nth_error g (length g - 1) = Some x -> here g = nth (length g - 1) st 0 + length (bcode x).
Proof. intro H. unfold here. now rewrite (last_nth_error _ _ H). Qed.
Lemma at_br g : isopen g -> fits (fst (g_branch_reverse g)) G ->
  goes (here g) (here (fst (g_branch_reverse g))) /\ here (fst (g_branch_reverse g)) = nth (length g) st 0.
Proof.
  intros O F. unfold g_branch_reverse in *. cbn [fst] in *. rewrite here_new by auto. split; [|reflexivity].
  destruct (fits_end g _ G O F ltac:(discriminate)) as [L [x [y [X1 [X2 [X3 X4]]]]]].
  rewrite (here_tail _ _ X1), <- X3. eapply flow_next; eauto.
Qed.
Lemma at_jr_jump g b : isopen g -> fits (g_join_reverse g b BrJump) G -> b < length g -> goes (here g) (nth b st 0).
Proof.
  intros O F LB. unfold g_join_reverse in F.
  destruct (fits_end g _ G O F ltac:(discriminate)) as [L [x [y [X1 [X2 [X3 X4]]]]]].
  rewrite (here_tail _ _ X1), <- X3. eapply flow_next; eauto. lia.
Qed.
Lemma at_jr g b ty : isopen g -> fits (g_join_reverse g b ty) G -> b < length g -> ty <> BrJump ->
  branches ty (here g) (nth b st 0) (here (g_join_reverse g b ty)).
Proof.
  intros O F LB NJ. unfold g_join_reverse in *. rewrite here_new by auto.
  assert (E : mk_branch ty (length g) b = EBranch ty (length g) b) by (destruct ty; try reflexivity; contradiction).
  rewrite E in F.
  destruct (fits_end g _ G O F ltac:(discriminate)) as [L [x [y [X1 [X2 [X3 X4]]]]]].
  rewrite (here_tail _ _ X1), <- X3. eapply flow_branch; eauto. lia.
Qed.
Lemma here_jf g b ty : here (g_join_forward g b ty) = nth (length g) st 0.
Proof.
  unfold g_join_forward. unfold here, last_code. rewrite last_last, app_length, !len_g_end. simpl. rewrite Nat.add_0_r. f_equal. lia.
Qed.
Lemma at_jf g b ty : isopen g -> pending g b -> fits (g_join_forward g b ty) G -> goes (here g) (here (g_join_forward g b ty)).
Proof.
  intros O Pb F. rewrite here_jf. destruct (fits_jf_ends _ _ _ _ O Pb F) as [L [_ [x [y [X1 [X2 [X3 X4]]]]]]].
  rewrite (here_tail _ _ X1), <- X3. eapply flow_next; eauto.
Qed.
Lemma from_jf_jump g b : isopen g -> pending g b -> fits (g_join_forward g b BrJump) G -> goes (tail b) (here (g_join_forward g b BrJump)).
Proof.
  intros O Pb F. rewrite here_jf. destruct (fits_jf_ends _ _ _ _ O Pb F) as [L [[x [y [X1 [X2 [X3 X4]]]]] _]].
  unfold tail. rewrite X2. eapply flow_next; eauto.
Qed.
Lemma from_jf g b ty : isopen g -> pending g b -> fits (g_join_forward g b ty) G -> ty <> BrJump ->
  branches ty (tail b) (here (g_join_forward g b ty)) (nth (S b) st 0).
Proof.
  intros O Pb F NJ. rewrite here_jf. destruct (fits_jf_ends _ _ _ _ O Pb F) as [L [[x [y [X1 [X2 [X3 X4]]]]] _]].
  unfold tail. rewrite X2. assert (E : mk_branch ty (S b) (length g) = EBranch ty (S b) (length g)) by (destruct ty; try reflexivity; contradiction).
  rewrite E in X4. eapply flow_branch; eauto. destruct Pb. lia.
Qed.
(** branch forward at [g], compile up to [g'], join there *)
Lemma bf_branch g g' ty : isopen g -> grow (fst (g_branch_forward g)) g' -> fits (g_join_forward g' (length g - 1) ty) G -> ty <> BrJump ->
  branches ty (here g) (here (g_join_forward g' (length g - 1) ty)) (here (fst (g_branch_forward g))).
Proof.
  intros O GR F NJ. pose proof (pending_grow _ _ _ (pending_bf _ O) GR) as Pb.
  pose proof (grow_open _ _ GR) as O'. pose proof (fits_jf _ _ _ _ O' Pb F) as F'.
  pose proof (fits_grow _ _ _ GR F') as F0. rewrite <- (tail_bf g O F0), here_bf by auto.
  pose proof (from_jf _ _ _ O' Pb F NJ) as R. replace (S (length g - 1)) with (length g) in R; [exact R|]. pose proof (open_pos _ O). lia.
Qed.
Lemma bf_jump g g' : isopen g -> grow (fst (g_branch_forward g)) g' -> fits (g_join_forward g' (length g - 1) BrJump) G ->
  goes (here g) (here (g_join_forward g' (length g - 1) BrJump)).
Proof.
  intros O GR F. pose proof (pending_grow _ _ _ (pending_bf _ O) GR) as Pb.
  pose proof (grow_open _ _ GR) as O'. pose proof (fits_jf _ _ _ _ O' Pb F) as F'.
  pose proof (fits_grow _ _ _ GR F') as F0. rewrite <- (tail_bf g O F0).
  exact (from_jf_jump _ _ O' Pb F).
Qed.
(** several joins *)
Definition joinable (g : graph) (bs : list (nat * brtype)) : Prop := NoDup (map fst bs) /\ Forall (fun b => pending g (fst b)) bs.
Lemma joinable_in g0 g bs : brs_in g0 g bs -> joinable g bs.
Proof. intros [A B]. split; auto. eapply Forall_impl; [|exact B]. now intros b [X _]. Qed.
Lemma joinable_jf g b bs ty : joinable g ((b, ty) :: bs) -> joinable (g_join_forward g b ty) bs.
Proof.
  intros [A B]. inversion A; subst. inversion B; subst. split; auto. rewrite Forall_forall in *. intros x Hx.
  apply pending_jf; auto. simpl in *. intros ->. apply H1. now apply in_map.
Qed.
Lemma join_all_spec bs : forall g, isopen g -> joinable g bs -> fits (join_all g bs) G ->
  isopen (join_all g bs) /\ fits g G /\ goes (here g) (here (join_all g bs)) /\
  forall b ty, In (b, ty) bs -> if (match ty with BrJump => true | _ => false end) then goes (tail b) (here (join_all g bs))
     else exists t, branches ty (tail b) t (nth (S b) st 0) /\ goes t (here (join_all g bs)).
Proof.
  induction bs as [|[b ty] bs IH]; intros g O J F.
  - simpl. split; [auto|]. split; [exact F|]. split; [apply goes_refl|]. intros ? ? [].
  - pose proof J as [J1 J2]. inversion J2 as [|? ? J3 J4]; subst. simpl in J3.
    destruct (IH (g_join_forward g b ty)) as (A & B & D & H).
    + now apply jf_isopen.
    + now apply joinable_jf.
    + exact F.
    + split; [exact A|]. split; [eapply fits_jf; eauto|]. split.
      * eapply goes_trans; [apply at_jf; eauto|exact D].
      * intros b' ty' [E|I]; [|exact (H b' ty' I)]. injection E as <- <-.
        destruct ty; try (eexists; split; [apply from_jf; [exact O|exact J3|exact B|discriminate]|exact D]).
        eapply goes_trans; [apply (from_jf_jump g b); auto|exact D].
Qed.
End flow.
