(** Simulation vocabulary, and what each instruction does to related states. *)
From Verif Require Import Base Native Err Vm VmProofs Graph GraphSpec GraphProofs Peep PeepSpec PeepProofs Lang LangSpec Compile CompGraph CompGraph2 CompFlow CompInv.
Local Open Scope nat_scope.

Lemma below_app {A} (a b : list A) : below (a ++ b) (length b) = a.
Proof. unfold below. rewrite app_length. replace (length a + length b - length b) with (length a) by lia. now rewrite firstn_app, Nat.sub_diag, firstn_all, firstn_O, app_nil_r. Qed.
Lemma top_app {A} (a b : list A) : top (a ++ b) (length b) = b.
Proof. unfold top. rewrite app_length. replace (length a + length b - length b) with (length a) by lia. now rewrite skipn_app, Nat.sub_diag, skipn_all, skipn_O. Qed.

Local Arguments CompInv.mk : simpl never.
Section sim1.
Context (P : prims) (C : list op) (T : nat -> option func).
Local Notation reach := (reach P C T).
Local Notation fails := (fails P C T).
Local Notation goes := (goes P C T).
Local Notation branches := (branches P C T).
Local Notation inv := (inv P).
Local Notation glob := (glob P).
Local Notation mk := (mk P).
Local Notation sstep := (strict_step P).

Definition fpof (fs : list (nat * nat)) : nat := match fs with (_, q) :: _ => q | [] => 0 end.
Definition reaches (fs : list (nat * nat)) (m m' : vm P) : Prop := forall d, d < length fs -> reach d m m'.
Definition failing (fs : list (nat * nat)) (m : vm P) (e : verr (E P)) (w : W P) : Prop := forall d, d < length fs -> fails d m e w.
Lemma reaches_refl fs m : reaches fs m m. Proof. intros d _. apply reach_refl. Qed.
Lemma reaches_trans fs a b c : reaches fs a b -> reaches fs b c -> reaches fs a c.
Proof. intros A B d H. eapply reach_trans; eauto. Qed.
Lemma reaches_failing fs a b e w : reaches fs a b -> failing fs b e w -> failing fs a e w.
Proof. intros A B d H. eapply reach_fails; eauto. Qed.

(** the machine at [m0] does what [r] says *)
Definition esim {A} (fs : list (nat * nat)) (m0 : vm P) (r : M P A) (Q : A -> st P -> Prop) : Prop :=
  match r with None => True | Some (Er _ _ e w) => failing fs m0 e w | Some (Ok _ _ a s) => Q a s end.
Lemma esim_step {A} fs m0 m1 (r : M P A) (Q1 Q0 : A -> st P -> Prop) : reaches fs m0 m1 -> esim fs m1 r Q1 ->
  (forall a s, Q1 a s -> Q0 a s) -> esim fs m0 r Q0.
Proof. intros R H I. destruct r as [[a s|e w]|]; simpl in *; auto. eapply reaches_failing; eauto. Qed.
Lemma esim_bind {A B} fs m0 (r : M P A) (k : A -> st P -> M P B) Q Q' : esim fs m0 r Q -> (forall a s, Q a s -> esim fs m0 (k a s) Q') -> esim fs m0 (bind P r k) Q'.
Proof. intros H I. destruct r as [[a s|e w]|]; simpl in *; auto. Qed.

Record ext (s s' : st P) : Prop := { x_env : exists l, senvs P s' = senvs P s ++ l; x_glob : globals P s' = globals P s }.
Lemma ext_refl s : ext s s. Proof. split; auto. exists []. now rewrite app_nil_r. Qed.
Lemma ext_trans a b c : ext a b -> ext b c -> ext a c.
Proof. intros [[x A] B] [[y D] F]. split; [|congruence]. exists (x ++ y). rewrite D, A. now rewrite app_assoc. Qed.
Definition capgrow (F : nat) (L : list nat) (K : list slot) (h h' : hp) : Prop :=
  forall x, capd h' K x -> capd h K x \/ exists i, In i L /\ x = F + i.
Record post (F : nat) (L : list nat) (K : list slot) (s : st P) (h : hp) (s' : st P) (h' : hp) : Prop := {
  po_inv : inv s' K h'; po_ext : ext s s'; po_cap : capgrow F L K h h' }.
Record frel (fr : frame) (F : nat) (K : list slot) (s : st P) : Prop := {
  fr_loc : forall i l, nth_error (locals fr) i = Some (Some l) -> nth_error K (F + i) = Some (SVar l);
  fr_fp : forall b, F = S b -> exists v, nth_error K b = Some (STmp v);
  fr_up : up fr <> [] -> exists b f c, F = S b /\ nth_error K b = Some (STmp (HClosure f c)) /\ nth_error (senvs P s) c = Some (up fr) }.
Record pre (fr : frame) (F : nat) (fs : list (nat * nat)) (K : list slot) (s : st P) (h : hp) : Prop := {
  pr_inv : inv s K h; pr_glob : glob s K; pr_frel : frel fr F K s; pr_fp : fpof fs = F }.

Lemma capgrow_refl F K h : capgrow F [] K h h. Proof. intros x H. auto. Qed.
Lemma capgrow_incl F L L' K h h' : capgrow F L K h h' -> (forall i, In i L -> In i L') -> capgrow F L' K h h'.
Proof. intros H I x Hx. destruct (H x Hx) as [?|[i [? ?]]]; eauto. Qed.
Lemma capgrow_trans F L1 L2 K a b c : capgrow F L1 K a b -> capgrow F L2 K b c -> capgrow F (L1 ++ L2) K a c.
Proof.
  intros A B x H. destruct (B x H) as [H1|[i [H1 H2]]]; [|right; exists i; rewrite in_app_iff; auto].
  destruct (A x H1) as [?|[i [? ?]]]; [auto|]. right. exists i. rewrite in_app_iff. auto.
Qed.
Lemma capgrow_same F L K K' h h' : same_vars K K' -> capgrow F L K h h' -> capgrow F L K' h h'.
Proof.
  intros S A x H. destruct (A x) as [?|?]; auto.
  - eapply capd_same; [apply same_vars_sym|]; eauto.
  - left. eapply capd_same; eauto.
Qed.
Lemma post_refl F K s h : inv s K h -> post F [] K s h s h.
Proof. intro. split; auto using ext_refl, capgrow_refl. Qed.
Lemma post_trans F L1 L2 K s1 h1 s2 h2 s3 h3 : post F L1 K s1 h1 s2 h2 -> post F L2 K s2 h2 s3 h3 -> post F (L1 ++ L2) K s1 h1 s3 h3.
Proof. intros [A B D] [A' B' D']. split; eauto using ext_trans, capgrow_trans. Qed.
Lemma post_incl F L L' K s h s' h' : post F L K s h s' h' -> (forall i, In i L -> In i L') -> post F L' K s h s' h'.
Proof. intros [A B D] I. split; auto. eapply capgrow_incl; eauto. Qed.
Lemma post_same F L K K' s h s' h' : same_vars K K' -> post F L K s h s' h' -> post F L K' s h s' h'.
Proof. intros S [A B D]. split; auto. eapply inv_same; eauto. eapply capgrow_same; eauto. Qed.
Lemma post_untmps F L K vs s h s' h' : post F L (K ++ map STmp vs) s h s' h' -> post F L K s h s' h'.
Proof. apply post_same, same_vars_sym, tmps_same. Qed.
Lemma post_untmp F L K v s h s' h' : post F L (K ++ [STmp v]) s h s' h' -> post F L K s h s' h'.
Proof. apply (post_untmps F L K [v]). Qed.
Lemma post_world F K s h w : inv s K h -> post F [] K s h (with_world P w s) h.
Proof. intro. split; [now apply inv_with_world|split; auto; exists []; now rewrite app_nil_r|apply capgrow_refl]. Qed.
Lemma frel_more fr F K X s : frel fr F K s -> frel fr F (K ++ X) s.
Proof.
  intros [A B D]. assert (N : forall x y, nth_error K x = Some y -> nth_error (K ++ X) x = Some y).
  { intros x y H. rewrite nth_error_app1; auto. apply nth_error_Some. congruence. }
  split.
  - intros. apply N. eauto.
  - intros b E. destruct (B b E) as [v V]. exists v. auto.
  - intros E. destruct (D E) as (b & f & c & H1 & H2 & H3). exists b, f, c. auto.
Qed.
Lemma frel_ext fr F K s s' : ext s s' -> frel fr F K s -> frel fr F K s'.
Proof.
  intros [[l X] _] [A B D]. split; auto. intros E. destruct (D E) as (b & f & c & H1 & H2 & H3). exists b, f, c. repeat split; auto.
  rewrite X, nth_error_app1; auto. apply nth_error_Some. congruence.
Qed.
Lemma pre_tmps fr F fs K vs s h : pre fr F fs K s h -> pre fr F fs (K ++ map STmp vs) s h.
Proof.
  intros [A B D E]. pose proof (tmps_same K vs) as S. split; auto.
  - eapply inv_same; eauto. 
  - eapply glob_same; eauto.
  - now apply frel_more.
Qed.
Lemma pre_tmp fr F fs K v s h : pre fr F fs K s h -> pre fr F fs (K ++ [STmp v]) s h.
Proof. apply (pre_tmps fr F fs K [v]). Qed.
Lemma pre_post fr F fs K s h L s' h' : pre fr F fs K s h -> post F L K s h s' h' -> pre fr F fs K s' h'.
Proof.
  intros [A B D E] [A' B' D']. split; auto.
  - intros i l H. rewrite (x_glob _ _ B') in H. auto.
  - eapply frel_ext; eauto.
Qed.

(** ** Single instructions *)
Lemma step_go fs li un i s K h fs' li' un' i' s' K' h' o D : nth_error C i = Some o -> sstep o (mk fs li un (S i) s K h) = Go P (mk fs' li' un' i' s' K' h') ->
  reaches D (mk fs li un i s K h) (mk fs' li' un' i' s' K' h').
Proof. intros A B d _. eapply reach_go; [exact A|exact B]. Qed.
Lemma step_fail fs li un i s K h o D e w : nth_error C i = Some o -> sstep o (mk fs li un (S i) s K h) = Fail P e w ->
  failing D (mk fs li un i s K h) e w.
Proof. intros A B d _. eapply fails_go; [exact A|exact B]. Qed.
Lemma go_reaches fs li un i j s K h D : goes i j -> reaches D (mk fs li un i s K h) (mk fs li un j s K h).
Proof. intros A d _. exact (A d (mk fs li un i s K h) eq_refl). Qed.

Lemma push_mk v fs li un i s K h : push P v (mk fs li un i s K h) = mk fs li un i s (K ++ [STmp v]) h.
Proof. unfold push, set_stack, CompInv.mk. cbn [Vm.ip Vm.stack Vm.frames Vm.lits Vm.unrolls Vm.gcount Vm.opens Vm.cells Vm.envs Vm.world]. now rewrite render_app. Qed.
Lemma pushl_mk vs fs li un i s K h : set_stack P (stack P (mk fs li un i s K h) ++ vs) (mk fs li un i s K h) = mk fs li un i s (K ++ map STmp vs) h.
Proof. unfold set_stack, CompInv.mk. cbn [Vm.ip Vm.stack Vm.frames Vm.lits Vm.unrolls Vm.gcount Vm.opens Vm.cells Vm.envs Vm.world]. now rewrite render_app, render_tmps. Qed.
Lemma stack_mk fs li un i s K h : stack P (mk fs li un i s K h) = render (store P s) K. Proof. reflexivity. Qed.
Lemma slen_mk fs li un i s K h : length (stack P (mk fs li un i s K h)) = length K. Proof. apply render_len. Qed.
Lemma rev_snoc sto K y : rev (render sto (K ++ [y])) = sval sto y :: rev (render sto K).
Proof. rewrite render_app, rev_app_distr. reflexivity. Qed.
Lemma pop1_mk fs li un i s K y h k : pop1 P (mk fs li un i s (K ++ [y]) h) k = k (sval (store P s) y) (mk fs li un i s K h).
Proof. unfold pop1. rewrite stack_mk, rev_snoc, rev_involutive. reflexivity. Qed.
Lemma with_top_mk fs li un i s K y h k : with_top P (mk fs li un i s (K ++ [y]) h) k = k (sval (store P s) y).
Proof. unfold with_top. now rewrite stack_mk, rev_snoc. Qed.
Lemma pop1t_mk fs li un i s K v h k : pop1 P (mk fs li un i s (K ++ [STmp v]) h) k = k v (mk fs li un i s K h).
Proof. apply pop1_mk. Qed.
Lemma with_topt_mk fs li un i s K v h k : with_top P (mk fs li un i s (K ++ [STmp v]) h) k = k v.
Proof. apply with_top_mk. Qed.
Lemma jump_mk fs li un i s K h t : jump P (Z.of_nat t - Z.of_nat i - 1) (mk fs li un (S i) s K h) = mk fs li un t s K h.
Proof. unfold jump, set_ip, CompInv.mk. cbn [Vm.ip Vm.stack Vm.frames Vm.lits Vm.unrolls Vm.gcount Vm.opens Vm.cells Vm.envs Vm.world]. f_equal. lia. Qed.
Lemma fp_mk fs li un i s K h : fp P (mk fs li un i s K h) = fpof fs. Proof. reflexivity. Qed.
Lemma cells_mk fs li un i s K h : cells P (mk fs li un i s K h) = h_ce h. Proof. reflexivity. Qed.
Lemma gcount_mk fs li un i s K h : gcount P (mk fs li un i s K h) = length (globals P s). Proof. reflexivity. Qed.
Lemma world_mk fs li un i s K h : world P (mk fs li un i s K h) = sworld P s. Proof. reflexivity. Qed.
Lemma setw_mk fs li un i s K h w : set_world P w (mk fs li un i s K h) = mk fs li un i (with_world P w s) K h. Proof. reflexivity. Qed.
Lemma below_mk sto K vs : below (render sto (K ++ map STmp vs)) (length vs) = render sto K.
Proof. rewrite render_app, render_tmps. apply below_app. Qed.
Lemma top_mk sto K vs : top (render sto (K ++ map STmp vs)) (length vs) = vs.
Proof. rewrite render_app, render_tmps. apply top_app. Qed.
Lemma setst_mk fs li un i s K K' h : set_stack P (render (store P s) K') (mk fs li un i s K h) = mk fs li un i s K' h. Proof. reflexivity. Qed.

Ltac stp := unfold strict_step; cbn [self_store step].
Lemma s_const v fs li un i s K h : sstep (OConst v) (mk fs li un i s K h) = Go P (mk fs li un i s (K ++ [STmp v]) h).
Proof. stp. now rewrite push_mk. Qed.
Lemma s_pop fs li un i s K y h : sstep OPop (mk fs li un i s (K ++ [y]) h) = Go P (mk fs li un i s K h).
Proof. stp. now rewrite pop1_mk. Qed.
Lemma s_swap fs li un i s K a b h : sstep OSwap (mk fs li un i s ((K ++ [STmp a]) ++ [STmp b]) h) = Go P (mk fs li un i s ((K ++ [STmp b]) ++ [STmp a]) h).
Proof. stp. now rewrite pop1t_mk, pop1t_mk, !push_mk. Qed.
Lemma s_method f fs li un i s K v h : sstep (OGetMethod f) (mk fs li un i s (K ++ [STmp v]) h) = Go P (mk fs li un i s (K ++ [STmp (HPartial (HFun f) [v])]) h).
Proof. stp. now rewrite pop1t_mk, push_mk. Qed.

(** branches *)
Lemma b_false i t n fs li un s K v h D : branches BrFalse i t n ->
  reaches D (mk fs li un i s (K ++ [STmp v]) h) (mk fs li un (if p_bool P (sworld P s) v then n else t) s (K ++ [STmp v]) h).
Proof.
  intros [B1 B2]. simpl in B1. destruct (p_bool P (sworld P s) v) eqn:E.
  - eapply reaches_trans; [|apply go_reaches, B2]. eapply step_go; [exact B1|]. stp. rewrite with_topt_mk. now rewrite world_mk, E.
  - eapply step_go; [exact B1|]. stp. rewrite with_topt_mk. now rewrite world_mk, E, jump_mk.
Qed.
Lemma b_true i t n fs li un s K v h D : branches BrTrue i t n ->
  reaches D (mk fs li un i s (K ++ [STmp v]) h) (mk fs li un (if p_bool P (sworld P s) v then t else n) s (K ++ [STmp v]) h).
Proof.
  intros [B1 B2]. simpl in B1. destruct (p_bool P (sworld P s) v) eqn:E.
  - eapply step_go; [exact B1|]. stp. rewrite with_topt_mk. now rewrite world_mk, E, jump_mk.
  - eapply reaches_trans; [|apply go_reaches, B2]. eapply step_go; [exact B1|]. stp. rewrite with_topt_mk. now rewrite world_mk, E.
Qed.
Lemma b_falsepop i t n fs li un s K v h D : branches BrFalsePop i t n ->
  reaches D (mk fs li un i s (K ++ [STmp v]) h) (mk fs li un (if p_bool P (sworld P s) v then n else t) s K h).
Proof.
  intros [B1 B2]. simpl in B1. destruct (p_bool P (sworld P s) v) eqn:E.
  - eapply reaches_trans; [|apply go_reaches, B2]. eapply step_go; [exact B1|]. stp. rewrite pop1t_mk. now rewrite world_mk, E.
  - eapply step_go; [exact B1|]. stp. rewrite pop1t_mk. now rewrite world_mk, E, jump_mk.
Qed.
Lemma b_truepop i t n fs li un s K v h D : branches BrTruePop i t n ->
  reaches D (mk fs li un i s (K ++ [STmp v]) h) (mk fs li un (if p_bool P (sworld P s) v then t else n) s K h).
Proof.
  intros [B1 B2]. simpl in B1. destruct (p_bool P (sworld P s) v) eqn:E.
  - eapply step_go; [exact B1|]. stp. rewrite pop1t_mk. now rewrite world_mk, E, jump_mk.
  - eapply reaches_trans; [|apply go_reaches, B2]. eapply step_go; [exact B1|]. stp. rewrite pop1t_mk. now rewrite world_mk, E.
Qed.
Lemma b_compare c i t n fs li un s K a b h D : branches (BrCompare c) i t n ->
  reaches D (mk fs li un i s ((K ++ [STmp a]) ++ [STmp b]) h)
            (if p_compare P (sworld P s) c a b then mk fs li un n s (K ++ [STmp b]) h else mk fs li un t s (K ++ [STmp (HBool false)]) h).
Proof.
  intros [B1 B2]. simpl in B1. destruct (p_compare P (sworld P s) c a b) eqn:E.
  - eapply reaches_trans; [|apply go_reaches, B2]. eapply step_go; [exact B1|]. stp. rewrite pop1t_mk, pop1t_mk. now rewrite world_mk, E, push_mk.
  - eapply step_go; [exact B1|]. stp. rewrite pop1t_mk, pop1t_mk. now rewrite world_mk, E, push_mk, jump_mk.
Qed.
Lemma b_testiter i t n fs li un s K it h D : branches BrTestIter i t n ->
  reaches D (mk fs li un i s (K ++ [STmp it]) h)
    (let '(w, o) := p_next P it (sworld P s) in
     match o with
     | Some v => mk fs li un n (with_world P w s) ((K ++ [STmp it]) ++ [STmp v]) h
     | None => mk fs li un t (with_world P w s) (K ++ [STmp it]) h
     end).
Proof.
  intros [B1 B2]. simpl in B1. destruct (p_next P it (sworld P s)) as [w [v|]] eqn:E.
  - eapply reaches_trans; [|apply go_reaches, B2]. eapply step_go; [exact B1|]. stp. rewrite with_topt_mk. now rewrite world_mk, E, setw_mk, push_mk.
  - eapply step_go; [exact B1|]. stp. rewrite with_topt_mk. now rewrite world_mk, E, setw_mk, jump_mk.
Qed.
Lemma b_asserttest i t n fs li un s K v h D : branches BrAssertTest i t n ->
  reaches D (mk fs li un i s (K ++ [STmp v]) h)
    (if p_bool P (sworld P s) v then mk fs li un t s K h else mk fs li un n s (K ++ [STmp HNil]) h).
Proof.
  intros [B1 B2]. simpl in B1. destruct (p_bool P (sworld P s) v) eqn:E.
  - eapply step_go; [exact B1|]. stp. rewrite pop1t_mk. now rewrite world_mk, E, jump_mk.
  - eapply reaches_trans; [|apply go_reaches, B2]. eapply step_go; [exact B1|]. stp. rewrite pop1t_mk. now rewrite world_mk, E, push_mk.
Qed.
Lemma b_assertcompare c i t n fs li un s K a b h D : branches (BrAssertCompare c) i t n ->
  reaches D (mk fs li un i s ((K ++ [STmp a]) ++ [STmp b]) h)
    (if p_compare P (sworld P s) c a b then mk fs li un t s K h
     else let '(w, msg) := p_compare_msg P (sworld P s) c a b in mk fs li un n (with_world P w s) (K ++ [STmp msg]) h).
Proof.
  intros [B1 B2]. simpl in B1. destruct (p_compare P (sworld P s) c a b) eqn:E.
  - eapply step_go; [exact B1|]. stp. rewrite pop1t_mk, pop1t_mk. now rewrite world_mk, E, jump_mk.
  - destruct (p_compare_msg P (sworld P s) c a b) as [w msg] eqn:Em.
    eapply reaches_trans; [|apply go_reaches, B2]. eapply step_go; [exact B1|]. stp. rewrite pop1t_mk, pop1t_mk. now rewrite world_mk, E, Em, setw_mk, push_mk.
Qed.

(** variables *)
Lemma var_len x K l : nth_error K x = Some (SVar l) -> x < length K. Proof. intro. apply nth_error_Some. congruence. Qed.
Lemma up_cell_mk fr F fs li un i s K h j l : pre fr F fs K s h -> nth_error (up fr) j = Some (Some l) ->
  exists k, up_cell P j (mk fs li un i s K h) = Some k /\ nth_error (h_phi h) k = Some (Some l).
Proof.
  intros [I G [A B D] Efp] H.
  assert (NE : up fr <> []) by (intro E; rewrite E in H; destruct j; discriminate).
  destruct (D NE) as (b & f & c & E1 & E2 & E3). destruct (inv_up_ex _ _ _ _ _ _ I E3) as [e [E4 _]].
  destruct (inv_up _ _ _ _ _ _ _ _ _ I E3 E4 H) as [k [K1 K2]]. exists k. split; auto.
  unfold up_cell. rewrite fp_mk, Efp, E1, stack_mk, (render_nth _ _ _ _ E2). cbn [sval]. unfold CompInv.mk. cbn [Vm.envs]. now rewrite E4.
Qed.
Lemma up_cell_ex fr F fs li un i s K h j o : pre fr F fs K s h -> nth_error (up fr) j = Some o ->
  exists k, up_cell P j (mk fs li un i s K h) = Some k /\ enval (h_phi h) k o.
Proof.
  intros [I G [A B D] Efp] H.
  assert (NE : up fr <> []) by (intro E; rewrite E in H; destruct j; discriminate).
  destruct (D NE) as (b & f & c & E1 & E2 & E3). destruct (inv_up_ex _ _ _ _ _ _ I E3) as [e [E4 E5]].
  assert (X : exists k, nth_error e j = Some k /\ enval (h_phi h) k o).
  { clear - E5 H. revert j H. induction E5; intros [|j] H9; simpl in *; try discriminate; eauto. injection H9 as ->. eauto. }
  destruct X as [k [X1 X2]]. exists k. split; auto.
  unfold up_cell. rewrite fp_mk, Efp, E1, stack_mk, (render_nth _ _ _ _ E2). cbn [sval]. unfold CompInv.mk. cbn [Vm.envs]. now rewrite E4.
Qed.
Lemma nth_store (sto : list hval) l v : nth_error sto l = Some v -> nth l sto HNil = v.
Proof. intro H. now apply nth_error_nth. Qed.

(** reading a variable *)
Lemma s_load x fr F fs li un i s K h : pre fr F fs K s h ->
  match var_loc P fr x s with
  | None => True
  | Some (Er _ _ e w) => sstep (load_op x) (mk fs li un i s K h) = Fail P e w
  | Some (Ok _ _ l s') => s' = s /\ sstep (load_op x) (mk fs li un i s K h) = Go P (mk fs li un i s (K ++ [STmp (nth l (store P s) HNil)]) h)
  end.
Proof.
  intros Pr. pose proof Pr as [I G [A B D] Efp]. destruct x as [j|j|j]; cbn [var_loc load_op].
  - destruct (nth_error (locals fr) j) as [[l|]|] eqn:E; unfold ret; cbv iota beta; auto. split; auto. stp. rewrite fp_mk, Efp, stack_mk, (render_nth _ _ _ _ (A _ _ E)).
    now rewrite push_mk.
  - destruct (nth_error (globals P s) j) as [l|] eqn:E; unfold ret; cbv iota beta.
    + split; auto. stp. rewrite gcount_mk; replace (j <? length (globals P s)) with true by (symmetry; apply Nat.ltb_lt, nth_error_Some; congruence).
      rewrite stack_mk, (render_nth _ _ _ _ (G _ _ E)). now rewrite push_mk.
    + stp. rewrite ?gcount_mk; replace (j <? length (globals P s)) with false by (symmetry; apply Nat.ltb_ge; now apply nth_error_None). reflexivity.
  - destruct (nth_error (up fr) j) as [[l|]|] eqn:E; unfold ret; cbv iota beta; auto. split; auto. stp.
    destruct (up_cell_mk _ _ _ li un i _ _ _ _ _ Pr E) as [k [K1 K2]]. rewrite K1. rewrite cells_mk.
    destruct (i_cell _ _ _ _ I _ _ K2) as [Ll [[x [R1 [R2 R3]]]|[R1 R2]]].
    + rewrite R2, stack_mk, (render_nth _ _ _ _ R1). now rewrite push_mk.
    + rewrite R2. now rewrite push_mk.
Qed.
(** storing to a variable *)
Lemma var_lt x K l v (sto : list hval) : nth_error K x = Some (SVar l) -> S x =? length (render sto (K ++ [STmp v])) = false.
Proof. intro H. rewrite render_len, app_length. cbn [length]. pose proof (var_len _ _ _ H). apply Nat.eqb_neq. lia. Qed.
Lemma var_lt2 x K l v (sto : list hval) : nth_error K x = Some (SVar l) -> x <? length (render sto (K ++ [STmp v])) = true.
Proof. intro H. rewrite render_len, app_length. cbn [length]. pose proof (var_len _ _ _ H). apply Nat.ltb_lt. lia. Qed.
Lemma store_slot fs li un i s K h x l v : inv s K h -> nth_error K x = Some (SVar l) ->
  set_stack P (upd (render (store P s) (K ++ [STmp v])) x v) (mk fs li un i s (K ++ [STmp v]) h) = mk fs li un i (set_loc P l v s) (K ++ [STmp v]) h.
Proof.
  intros I H. rewrite render_app. rewrite upd_app1 by (rewrite render_len; eapply var_len; eauto).
  unfold set_stack, CompInv.mk. cbn [Vm.ip Vm.stack Vm.frames Vm.lits Vm.unrolls Vm.gcount Vm.opens Vm.cells Vm.envs Vm.world].
  rewrite render_app. cbn [set_loc store globals sworld]. now rewrite (render_set _ _ _ _ _ _ _ I H).
Qed.
Lemma s_store x fr F fs li un i s K v h : pre fr F fs K s h ->
  match var_loc P fr x s with
  | None => True
  | Some (Er _ _ e w) => sstep (store_op x) (mk fs li un i s (K ++ [STmp v]) h) = Fail P e w
  | Some (Ok _ _ l s') => s' = s /\ exists h', sstep (store_op x) (mk fs li un i s (K ++ [STmp v]) h) = Go P (mk fs li un i (set_loc P l v s) (K ++ [STmp v]) h') /\
      post F [] K s h (set_loc P l v s) h'
  end.
Proof.
  intros Pr. pose proof Pr as [I G [A B D] Efp].
  assert (PO : forall l h', inv (set_loc P l v s) K h' -> h_phi h' = h_phi h -> post F [] K s h (set_loc P l v s) h').
  { intros l h' I' E. split; auto. - split; auto. exists []. now rewrite app_nil_r. - intros x0 [k [l0 [H1 H2]]]. left. exists k, l0. rewrite <- E. auto. }
  destruct x as [j|j|j]; cbn [var_loc store_op].
  - destruct (nth_error (locals fr) j) as [[l|]|] eqn:E; unfold ret; cbv iota beta; auto. split; auto. exists h. pose proof (A _ _ E) as Hx. split; [|apply PO; auto; eapply inv_set; eauto].
    stp. rewrite fp_mk, Efp, stack_mk, (var_lt _ _ _ _ _ Hx). rewrite with_topt_mk. unfold store_local. rewrite fp_mk, Efp, stack_mk, (var_lt2 _ _ _ _ _ Hx).
    now rewrite (store_slot _ _ _ _ _ _ _ _ _ _ I Hx).
  - destruct (nth_error (globals P s) j) as [l|] eqn:E; unfold ret; cbv iota beta.
    + split; auto. exists h. pose proof (G _ _ E) as Hx. split; [|apply PO; auto; eapply inv_set; eauto].
      stp. rewrite stack_mk, (var_lt _ _ _ _ _ Hx), andb_false_r. rewrite with_topt_mk. unfold store_global.
      rewrite gcount_mk; replace (j <? length (globals P s)) with true by (symmetry; apply Nat.ltb_lt, nth_error_Some; congruence).
      rewrite stack_mk, (var_lt2 _ _ _ _ _ Hx). now rewrite (store_slot _ _ _ _ _ _ _ _ _ _ I Hx).
    + stp. rewrite ?gcount_mk; replace (j <? length (globals P s)) with false by (symmetry; apply Nat.ltb_ge; now apply nth_error_None). cbn [andb].
      rewrite with_topt_mk. unfold store_global. rewrite ?gcount_mk; replace (j <? length (globals P s)) with false by (symmetry; apply Nat.ltb_ge; now apply nth_error_None). reflexivity.
  - destruct (nth_error (up fr) j) as [[l|]|] eqn:E; unfold ret; cbv iota beta; auto. split; auto.
    destruct (up_cell_mk _ _ _ li un i _ _ _ _ _ (pre_tmp _ _ _ _ v _ _ Pr) E) as [k [K1 K2]].
    destruct (i_cell _ _ _ _ I _ _ K2) as [Ll [[x [R1 [R2 R3]]]|[R1 R2]]].
    + exists h. split; [|apply PO; auto; eapply inv_set; eauto]. stp. rewrite K1. rewrite cells_mk. rewrite R2.
      rewrite fp_mk, Efp, stack_mk, (var_lt _ _ _ _ _ R1). cbn [orb].
      assert (NF : S x =? F = false). { apply Nat.eqb_neq. intro Q. destruct (B x (eq_sym Q)) as [v' V]. congruence. }
      rewrite NF, with_topt_mk. unfold store_up. rewrite K1. rewrite cells_mk. rewrite R2.
      rewrite stack_mk, (var_lt2 _ _ _ _ _ R1). f_equal. exact (store_slot _ _ _ _ _ _ _ _ _ _ I R1).
    + destruct (inv_set_cell _ _ _ _ k l v I K2 ltac:(eauto)) as [I' Er]. exists (set_cell k v h). split; [|apply PO; auto].
      stp. rewrite K1. rewrite cells_mk. rewrite R2. rewrite with_topt_mk. unfold store_up.
      rewrite K1. rewrite cells_mk. rewrite R2. f_equal.
      unfold set_cells, CompInv.mk, set_cell. cbn [Vm.ip Vm.stack Vm.frames Vm.lits Vm.unrolls Vm.gcount Vm.opens Vm.cells Vm.envs Vm.world set_loc store globals sworld h_op h_ce h_en].
      rewrite !render_app, Er. reflexivity.
Qed.
End sim1.
