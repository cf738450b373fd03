(** Simulation of builtins and calls. *)
From Verif Require Import Base Native Err Vm VmProofs Graph GraphSpec GraphProofs Peep PeepSpec PeepProofs Lang LangSpec LangCheck Compile CompGraph CompGraph2 CompFlow CompInv CompUnf CompSim1 CompSim2 CompSim3.
Local Open Scope nat_scope.
Local Arguments CompInv.mk : simpl never.

Lemma cdefs_len ds : forall g, length (snd (cdefs ds g)) = length ds.
Proof. induction ds as [|d r IH]; intros g; cbn [cdefs]; auto. rewrite br_eq. specialize (IH (fst (g_branch_reverse (cexpr d g)))). destruct (cdefs r _). simpl in *. lia. Qed.
Lemma cdefs_eq ds g : cdefs ds g = (fst (cdefs ds g), snd (cdefs ds g)). Proof. now destruct (cdefs ds g). Qed.
Lemma cfun_defaults f : pf_defaults (cfun f) = snd (cdefs (sf_defs f) g_new).
Proof. unfold cfun. rewrite cdefs_eq. reflexivity. Qed.
Lemma last_nth_error' {A} (l : list A) d x : nth_error l (length l - 1) = Some x -> last l d = x.
Proof.
  induction l as [|a l IH]; simpl; [discriminate|]. destruct l as [|b l]; simpl in *; [congruence|]. rewrite Nat.sub_0_r in IH. auto.
Qed.

Section sim4.
Context (P : prims) (C : list op) (T : nat -> option func) (funs : nat -> option sfun).
Local Notation reaches := (reaches P C T).
Local Notation failing := (failing P C T).
Local Notation inv := (inv P).
Local Notation glob := (glob P).
Local Notation mk := (mk P).
Local Notation sstep := (strict_step P).
Local Notation post := (post P).
Local Notation P_tree := (P_tree P C T funs).
Local Notation P_scall := (P_scall P C T funs).
Local Notation invoke := (invoke P C T sstep).
Local Notation run_tree := (run_tree P C T sstep).
Local Notation run := (run P C T sstep).
Local Notation returns := (returns P C T).

Lemma returns_run fs li un i s K h m2 v : returns fs m2 (mk fs li un i s (K ++ [STmp v]) h) ->
  exists N, run N (length fs) m2 = Some (VDone P (mk fs li un i s (K ++ [STmp v]) h)).
Proof.
  intros [mr [R1 [R2 R3]]]. destruct (R1 (length fs) ltac:(lia)) as [k Hk]. exists (k + 1). apply Hk.
  rewrite run_S, R2, R3. unfold CompInv.mk at 1. cbn [Vm.frames]. now rewrite Nat.eqb_refl.
Qed.
Lemma pop_mk fs li un i s K v h : rev (stack P (mk fs li un i s (K ++ [STmp v]) h)) = v :: rev (render (store P s) K).
Proof. now rewrite stack_mk, rev_snoc. Qed.
Lemma step_tree n : P_tree n -> P_scall n -> P_tree (S n).
Proof.
  intros IT IS t s K h fs li un i I G. rewrite stree_S. destruct t as [w v|w e|w f args k]; unfold ret.
  - exists 1, h. split; [reflexivity|]. now apply post_world.
  - exists 1. reflexivity.
  - assert (I1 : inv (with_world P w s) K h) by now apply inv_with_world.
    specialize (IS f args (with_world P w s) K h fs li un i I1 G). cbv zeta in IS.
    assert (Em : set_stack P (stack P (mk fs li un i s K h) ++ f :: args) (set_world P w (mk fs li un i s K h)) =
      mk fs li un i (with_world P w s) ((K ++ [STmp f]) ++ map STmp args) h).
    { rewrite setw_mk. rewrite <- app_assoc. change ([STmp f] ++ map STmp args) with (map STmp (f :: args)). rewrite <- pushl_mk. reflexivity. }
    destruct (scall P funs n f args (with_world P w s)) as [[v s1|e w1]|]; cbn [bind]; auto.
    + destruct IS as [h1 [Po R]]. 
      assert (G1 : glob s1 K). { intros j l H. rewrite (x_glob _ _ _ (po_ext _ _ _ _ _ _ _ _ Po)) in H. auto. }
      assert (Po' : post 0 [] K s h s1 h1). { change (@nil nat) with ([] ++ @nil nat). eapply post_trans; [apply post_world; exact I|exact Po]. }
      specialize (IT (k (sworld P s1) v) s1 K h1 fs li un i (po_inv _ _ _ _ _ _ _ _ Po) G1).
      assert (CONT : exists N0, forall N r, run_tree N (k (sworld P s1) v) (mk fs li un i s1 K h1) = Some r -> run_tree (S (N0 + N)) (TCall w f args k) (mk fs li un i s K h) = Some r).
      { destruct R as [[N R]|[N [m2 [R [Lf R2]]]]].
        - exists N. intros N' r Hr. rewrite tree_S, Em. cbv zeta.
          rewrite (invoke_mono _ _ _ _ _ (N + N') _ _ _ R) by lia.
          rewrite pop_mk, rev_involutive. change (set_stack P (render (store P s1) K) (mk fs li un i s1 (K ++ [STmp v]) h1)) with (mk fs li un i s1 K h1).
          eapply tree_mono; [exact Hr|lia].
        - destruct (returns_run _ _ _ _ _ _ _ _ _ R2) as [N2 R3]. exists (N + N2). intros N' r Hr. rewrite tree_S, Em. cbv zeta.
          rewrite (invoke_mono _ _ _ _ _ (N + N2 + N') _ _ _ R) by lia.
          replace (length (frames P m2) - 1) with (length fs) by lia. rewrite (run_mono _ _ _ _ _ (N + N2 + N') _ _ _ R3) by lia.
          rewrite pop_mk, rev_involutive. change (set_stack P (render (store P s1) K) (mk fs li un i s1 (K ++ [STmp v]) h1)) with (mk fs li un i s1 K h1).
          eapply tree_mono; [exact Hr|lia]. }
      destruct CONT as [N0 CONT]. destruct (stree P funs n (k (sworld P s1) v) s1) as [[v2 s2|e w2]|]; auto.
      * destruct IT as [N [h2 [R2 Po2]]]. exists (S (N0 + N)), h2. split; [now apply CONT|]. change (@nil nat) with ([] ++ @nil nat). eapply post_trans; eauto.
      * destruct IT as [N R2]. exists (S (N0 + N)). now apply CONT.
    + destruct IS as [[N R]|[N [m2 [R [Lf R2]]]]].
      * exists (S N). rewrite tree_S, Em. cbv zeta. rewrite R. reflexivity.
      * destruct (R2 (length fs) ltac:(lia)) as [N2 R3]. exists (S (N + N2)). rewrite tree_S, Em. cbv zeta.
        rewrite (invoke_mono _ _ _ _ _ (N + N2) _ _ _ R) by lia. replace (length (frames P m2) - 1) with (length fs) by lia.
        rewrite (run_mono _ _ _ _ _ (N + N2) _ _ _ R3) by lia. reflexivity.
Qed.

(** ** Units: how each function was compiled *)
Record unit_ok (f : nat) (sf : sfun) (fu : func) (sta : list nat) : Prop := {
  u_ok : okF sf = true;
  u_T : T f = Some fu;
  u_laid : laid C (pf_code (cfun sf)) sta;
  u_head : fn_head fu = nth 0 sta 0;
  u_args : fn_args fu = sf_args sf;
  u_var : fn_variadic fu = sf_variadic sf;
  u_defs : Forall2 (fun d b => fn_head fu + d = nth b sta 0) (fn_defaults fu) (pf_defaults (cfun sf)) }.
Definition entry (sf : sfun) (sta : list nat) (k : nat) : nat := nth (nth k (0 :: pf_defaults (cfun sf)) 0) sta 0.
Lemma unit_dlen f sf fu sta : unit_ok f sf fu sta -> length (fn_defaults fu) = length (sf_defs sf).
Proof. intros U. rewrite (PeepProofs.Forall2_length _ _ _ (u_defs _ _ _ _ U)), cfun_defaults. apply cdefs_len. Qed.
Lemma unit_min f sf fu sta : unit_ok f sf fu sta -> min_args fu = required sf.
Proof. intros U. unfold min_args, required. now rewrite (u_args _ _ _ _ U), (unit_dlen _ _ _ _ U). Qed.
Lemma unit_range f sf fu sta n : unit_ok f sf fu sta -> in_range fu n = accepts sf n.
Proof. intros U. unfold in_range, accepts, max_args. now rewrite (unit_min _ _ _ _ U), (u_args _ _ _ _ U), (u_var _ _ _ _ U). Qed.
Lemma F2_nth {A B} (R : A -> B -> Prop) l l' : Forall2 R l l' -> forall i a, nth_error l i = Some a -> exists b, nth_error l' i = Some b /\ R a b.
Proof. induction 1; intros [|i] a H9; simpl in *; try discriminate; eauto. injection H9 as <-. eauto. Qed.
Lemma unit_entry f sf fu sta j d : unit_ok f sf fu sta -> nth_error (fn_defaults fu) j = Some d -> fn_head fu + d = entry sf sta (S j).
Proof.
  intros U H. destruct (F2_nth _ _ _ (u_defs _ _ _ _ U) _ _ H) as [b [B1 B2]]. unfold entry. cbn [nth]. rewrite B2. f_equal. symmetry. now apply nth_error_nth.
Qed.
Lemma okF_parts sf : okF sf = true -> length (sf_defs sf) <= sf_args sf /\ (sf_variadic sf = true -> 1 <= length (sf_defs sf)).
Proof.
  unfold okF. intro H. apply andb_true_iff in H. destruct H as [H _]. apply andb_true_iff in H. destruct H as [H1 H2].
  apply Nat.leb_le in H1. split; auto. intro E. rewrite E in H2. simpl in H2. destruct (length (sf_defs sf)); [discriminate|lia].
Qed.
Lemma unit_jump f sf fu sta n : unit_ok f sf fu sta -> accepts sf n = true -> jump_offset fu n = Some (entry sf sta (min n (sf_args sf) - required sf)).
Proof.
  intros U A. unfold accepts in A. apply andb_true_iff in A. destruct A as [A1 A2]. apply Nat.leb_le in A1.
  destruct (okF_parts _ (u_ok _ _ _ _ U)) as [D1 D2]. unfold jump_offset. rewrite (unit_min _ _ _ _ U). unfold max_args.
  rewrite (u_args _ _ _ _ U), (u_var _ _ _ _ U).
  assert (RQ : required sf + length (sf_defs sf) = sf_args sf) by (unfold required; lia).
  pose proof (unit_dlen _ _ _ _ U) as DL.
  destruct (Nat.eqb_spec n (required sf)) as [->|N].
  - replace (min (required sf) (sf_args sf) - required sf) with 0 by lia. now rewrite (u_head _ _ _ _ U).
  - destruct (sf_variadic sf && (sf_args sf <=? n)) eqn:V.
    + apply andb_true_iff in V. destruct V as [V1 V2]. apply Nat.leb_le in V2. specialize (D2 V1).
      replace (min n (sf_args sf) - required sf) with (S (length (fn_defaults fu) - 1)) by lia.
      destruct (nth_error (fn_defaults fu) (length (fn_defaults fu) - 1)) as [d|] eqn:E; [|apply nth_error_None in E; lia].
      rewrite <- (unit_entry _ _ _ _ _ _ U E). rewrite (last_nth_error' _ 0 _ E). destruct (fn_defaults fu); [simpl in *; lia|reflexivity].
    + assert (n <= sf_args sf). { destruct (sf_variadic sf); simpl in *; [apply Nat.leb_gt in V; lia|now apply Nat.leb_le]. }
      replace (min n (sf_args sf) - required sf) with (S (n - required sf - 1)) by lia.
      destruct (nth_error (fn_defaults fu) (n - required sf - 1)) as [d|] eqn:E; [|apply nth_error_None in E; lia].
      now rewrite <- (unit_entry _ _ _ _ _ _ U E).
Qed.

(** running a function from its entry point *)
Definition P_enter (n : nat) : Prop := forall f fv sf fu sta vals s K h fs li un i, unit_ok f sf fu sta ->
  (fv = HFun f \/ exists c, fv = HClosure f c) -> inv s K h -> glob s K -> required sf <= length vals <= sf_args sf ->
  let m2 := mk ((i, S (length K)) :: fs) li un (entry sf sta (length vals - required sf)) s ((K ++ [STmp fv]) ++ map STmp vals) h in
  match enter P funs n fv sf vals s with
  | None => True
  | Some (Er _ _ e w) => forall d, d < S (length fs) -> CompFlow.fails P C T d m2 e w
  | Some (Ok _ _ v s') => exists h', post 0 [] K s h s' h' /\ returns fs m2 (mk fs li un i s' (K ++ [STmp v]) h')
  end.

(** the stack of a call *)
Section call.
Context (fs : list (nat * nat)) (li : list (L P)) (un : list Z) (i : nat) (s : st P) (K : list slot) (h : hp) (fv : hval) (args : list hval).
Let m0 := mk fs li un i s ((K ++ [STmp fv]) ++ map STmp args) h.
Lemma c_len : length (stack P m0) = S (length K) + length args.
Proof. unfold m0. rewrite slen_mk, !app_length, map_length. simpl. lia. Qed.
Lemma c_nth : nth_error (stack P m0) (length (stack P m0) - 1 - length args) = Some fv.
Proof.
  rewrite c_len. replace (S (length K) + length args - 1 - length args) with (length K) by lia. unfold m0. rewrite stack_mk.
  rewrite (render_nth _ _ _ (STmp fv)); [reflexivity|]. rewrite <- app_assoc. apply mid_at.
Qed.
Lemma c_top : top (stack P m0) (length args) = args. Proof. unfold m0. rewrite stack_mk. apply top_mk. Qed.
Lemma c_below : below (stack P m0) (length args) = render (store P s) (K ++ [STmp fv]). Proof. unfold m0. rewrite stack_mk. apply below_mk. Qed.
Lemma c_belowS : below (stack P m0) (S (length args)) = render (store P s) K.
Proof.
  unfold m0. rewrite stack_mk, <- app_assoc. change ([STmp fv] ++ map STmp args) with (map STmp (fv :: args)). apply (below_mk _ _ (fv :: args)).
Qed.
End call.
Lemma setst_tmp fs li un i s K K0 h v : set_stack P (render (store P s) K ++ [v]) (mk fs li un i s K0 h) = mk fs li un i s (K ++ [STmp v]) h.
Proof. unfold set_stack, CompInv.mk. cbn [Vm.ip Vm.stack Vm.frames Vm.lits Vm.unrolls Vm.gcount Vm.opens Vm.cells Vm.envs Vm.world]. now rewrite render_app. Qed.

Context (HU : forall f sf, funs f = Some sf -> exists fu sta, unit_ok f sf fu sta).

Lemma call_fun_mk hd fs li un i s K h fv args : call_function P hd (length args) None (mk fs li un i s ((K ++ [STmp fv]) ++ map STmp args) h) =
  mk ((i, S (length K)) :: fs) li un hd s ((K ++ [STmp fv]) ++ map STmp args) h.
Proof.
  unfold call_function. rewrite c_len. replace (S (length K) + length args - length args) with (S (length K)) by lia. reflexivity.
Qed.
Lemma call_var_mk hd fs li un i s K h fv a b w v : p_vector P b (sworld P s) = (w, v) ->
  call_function P hd (length (a ++ b)) (Some (length b)) (mk fs li un i s ((K ++ [STmp fv]) ++ map STmp (a ++ b)) h) =
  mk ((i, S (length K)) :: fs) li un hd (with_world P w s) ((K ++ [STmp fv]) ++ map STmp (a ++ [v])) h.
Proof.
  intros E. unfold call_function. rewrite c_len. replace (S (length K) + length (a ++ b) - length (a ++ b)) with (S (length K)) by lia. cbv zeta.
  set (m1 := set_ip P hd _).
  assert (Es : m1 = mk ((i, S (length K)) :: fs) li un hd s (((K ++ [STmp fv]) ++ map STmp a) ++ map STmp b) h).
  { unfold m1. rewrite map_app, app_assoc. reflexivity. }
  clearbody m1. subst m1. rewrite stack_mk, top_mk, below_mk. rewrite world_mk, E, map_app. cbn [map].
  rewrite app_assoc. rewrite <- (push_mk P v). reflexivity.
Qed.
Lemma call_var_mk' hd fs li un i s K h fv a b w v args : a ++ b = args -> p_vector P b (sworld P s) = (w, v) ->
  call_function P hd (length args) (Some (length b)) (mk fs li un i s ((K ++ [STmp fv]) ++ map STmp args) h) =
  mk ((i, S (length K)) :: fs) li un hd (with_world P w s) ((K ++ [STmp fv]) ++ map STmp (a ++ [v])) h.
Proof. intros <-. apply call_var_mk. Qed.
(** arguments of a user function *)
Lemma user_call f fv sf fu sta n args s K h fs li un i : (fv = HFun f \/ exists c, fv = HClosure f c) -> unit_ok f sf fu sta -> P_enter n -> inv s K h -> glob s K ->
  accepts sf (length args) = true ->
  let m0 := mk fs li un i s ((K ++ [STmp fv]) ++ map STmp args) h in
  forall r, r = (if sf_variadic sf && (sf_args sf <=? length args) then
                let k := sf_args sf - 1 in
                let '(w, v) := p_vector P (skipn k args) (sworld P s) in
                enter P funs n fv sf (firstn k args ++ [v]) (with_world P w s)
              else enter P funs n fv sf args s) ->
  exists m2, call_function P (entry sf sta (min (length args) (sf_args sf) - required sf)) (length args) (num_var_args fu (length args)) m0 = m2 /\
   length (frames P m2) = S (length fs) /\
   match r with
   | None => True
   | Some (Er _ _ e w) => forall d, d < S (length fs) -> CompFlow.fails P C T d m2 e w
   | Some (Ok _ _ v s') => exists h', post 0 [] K s h s' h' /\ returns fs m2 (mk fs li un i s' (K ++ [STmp v]) h')
   end.
Proof.
  intros Hfv U IE I G A m0 r ->. destruct (okF_parts _ (u_ok _ _ _ _ U)) as [D1 D2].
  unfold accepts in A. apply andb_true_iff in A. destruct A as [A1 A2]. apply Nat.leb_le in A1.
  unfold num_var_args, max_args. rewrite (u_args _ _ _ _ U), (u_var _ _ _ _ U).
  destruct (sf_variadic sf && (sf_args sf <=? length args)) eqn:V.
  - apply andb_true_iff in V. destruct V as [V1 V2]. apply Nat.leb_le in V2. specialize (D2 V1). cbv zeta.
    set (k := sf_args sf - 1). destruct (p_vector P (skipn k args) (sworld P s)) as [w v] eqn:Ev.
    assert (La : length args + 1 - sf_args sf = length (skipn k args)) by (rewrite skipn_length; unfold k; lia).
    rewrite La. unfold m0. rewrite (call_var_mk' _ _ _ _ _ _ _ _ _ _ _ _ _ _ (firstn_skipn k args) Ev).
    eexists. split; [reflexivity|]. split; [reflexivity|].
    assert (Lv : length (firstn k args ++ [v]) = sf_args sf) by (rewrite app_length, firstn_length; simpl; unfold k; lia).
    pose proof (IE f fv sf fu sta (firstn k args ++ [v]) (with_world P w s) K h fs li un i U Hfv (inv_with_world _ _ _ _ _ I) G) as X. cbv zeta in X.
    rewrite Lv in X. unfold required in *.
    assert (X1 := X ltac:(lia)). clear X. rewrite Nat.min_r by lia.
    destruct (enter _ _ _ _ _ _ _) as [[v' s'|]|]; auto. destruct X1 as [h' [Po R]]. exists h'. split; [|exact R].
    change (@nil nat) with ([] ++ @nil nat). eapply post_trans; [apply post_world; exact I|exact Po].
  - assert (LE : length args <= sf_args sf). { destruct (sf_variadic sf); simpl in *; [apply Nat.leb_gt in V; lia|now apply Nat.leb_le]. }
    unfold m0. rewrite call_fun_mk. eexists. split; [reflexivity|]. split; [reflexivity|].
    rewrite Nat.min_l by auto. apply (IE f fv sf fu sta args s K h fs li un i U Hfv I G). lia.
Qed.
Lemma step_scall n : P_enter n -> P_tree n -> P_scall (S n).
Proof.
  intros IE IT fv args s K h fs li un i I G m0. rewrite scall_S.
  assert (KL : (length args <? length (stack P m0)) = true) by (unfold m0; rewrite c_len; apply Nat.ltb_lt; lia).
  assert (USER : forall f sf, (fv = HFun f \/ exists c, fv = HClosure f c) -> funs f = Some sf ->
     match (if length args <? required sf then ret P (match args with [] => fv | _ => HPartial fv args end) s
            else if accepts sf (length args) then
              if sf_variadic sf && (sf_args sf <=? length args) then
                let k := sf_args sf - 1 in
                let '(w, v) := p_vector P (skipn k args) (sworld P s) in
                enter P funs n fv sf (firstn k args ++ [v]) (with_world P w s)
              else enter P funs n fv sf args s
            else Some (Er P _ (XArgs f (length args)) (sworld P s))) with
     | None => True
     | Some (Er _ _ e w) => (exists N, invoke N (length args) m0 = Some (IErr P e w)) \/
         (exists N m2, invoke N (length args) m0 = Some (IUser P m2) /\ length (frames P m2) = S (length fs) /\ forall d, d < S (length fs) -> CompFlow.fails P C T d m2 e w)
     | Some (Ok _ _ v s') => exists h', post 0 [] K s h s' h' /\ let m' := mk fs li un i s' (K ++ [STmp v]) h' in
         ((exists N, invoke N (length args) m0 = Some (INative P m')) \/
          (exists N m2, invoke N (length args) m0 = Some (IUser P m2) /\ length (frames P m2) = S (length fs) /\ returns fs m2 m'))
     end).
  { intros f sf Hfv Hf. destruct (HU f sf Hf) as [fu [sta U]].
    assert (CO : call_of P T (length args) m0 = 
       if in_range fu (length args) then
         match jump_offset fu (length args) with
         | Some hd => CallDone P (IUser P (call_function P hd (length args) (num_var_args fu (length args)) m0))
         | None => CallDone P (IStuck P)
         end
       else if length args <? min_args fu then
         match length args with
         | O => CallDone P (INative P m0)
         | _ => CallDone P (INative P (set_stack P (below (stack P m0) (S (length args)) ++ [HPartial fv args]) m0))
         end
       else CallDone P (IErr P (XArgs f (length args)) (world P m0))).
    { unfold call_of. rewrite KL. unfold m0 at 1. rewrite c_nth. fold m0.
      assert (ET : top (stack P m0) (length args) = args) by (unfold m0; apply c_top).
      destruct Hfv as [->|[c ->]]; cbn [fun_of]; rewrite (u_T _ _ _ _ U), ET; reflexivity. }
    rewrite (unit_range _ _ _ _ _ U), (unit_min _ _ _ _ U) in CO.
    destruct (length args <? required sf) eqn:RQ.
    - assert (Acc : accepts sf (length args) = false). { unfold accepts. apply Nat.ltb_lt in RQ. replace (required sf <=? length args) with false by (symmetry; apply Nat.leb_gt; lia). reflexivity. }
      rewrite Acc in CO. cbn [ret]. exists h. split; [now apply post_refl|]. left. exists 1. rewrite invoke_S, CO.
      destruct args as [|a0 args]; cbn [length] in *.
      + unfold m0. cbn [map]. now rewrite app_nil_r.
      + do 2 f_equal. unfold m0. pose proof (c_belowS fs li un i s K h fv (a0 :: args)) as EB. cbn [length] in EB. rewrite EB. apply setst_tmp.
    - destruct (accepts sf (length args)) eqn:Acc.
      + rewrite (unit_jump _ _ _ _ _ U Acc) in CO.
        destruct (user_call f fv sf fu sta n args s K h fs li un i Hfv U IE I G Acc _ eq_refl) as [m2 [E2 [L2 R]]]. fold m0 in E2. rewrite E2 in CO.
        assert (IV : invoke 1 (length args) m0 = Some (IUser P m2)) by (rewrite invoke_S, CO; reflexivity).
        destruct (if sf_variadic sf && _ then _ else _) as [[v s'|e w]|]; auto.
        * destruct R as [h' [Po R]]. exists h'. split; auto. right. exists 1, m2. auto.
        * right. exists 1, m2. auto.
      + left. exists 1. rewrite invoke_S, CO. reflexivity. }
  assert (BUILTIN : match fv with HFun _ | HClosure _ _ | HPartial (HFun _) _ | HPartial (HClosure _ _) _ => False | _ => True end ->
    call_of P T (length args) m0 = CallBuiltin P (p_call P fv args (sworld P s)) (mk fs li un i s (K ++ [STmp fv]) h)).
  { intros NB. unfold call_of. rewrite KL. unfold m0 at 1. rewrite c_nth. unfold m0. rewrite c_top, c_below. destruct fv as [| | | |[]| | | |]; try contradiction; reflexivity. }
  assert (BU : match fv with HFun _ | HClosure _ _ | HPartial (HFun _) _ | HPartial (HClosure _ _) _ => False | _ => True end ->
     match stree P funs n (p_call P fv args (sworld P s)) s with
     | None => True
     | Some (Er _ _ e w) => (exists N, invoke N (length args) m0 = Some (IErr P e w)) \/
         (exists N m2, invoke N (length args) m0 = Some (IUser P m2) /\ length (frames P m2) = S (length fs) /\ forall d, d < S (length fs) -> CompFlow.fails P C T d m2 e w)
     | Some (Ok _ _ v s') => exists h', post 0 [] K s h s' h' /\ let m' := mk fs li un i s' (K ++ [STmp v]) h' in
         ((exists N, invoke N (length args) m0 = Some (INative P m')) \/
          (exists N m2, invoke N (length args) m0 = Some (IUser P m2) /\ length (frames P m2) = S (length fs) /\ returns fs m2 m'))
     end).
  { intros NB. specialize (BUILTIN NB). pose proof (tmp_same K fv) as SV.
    specialize (IT (p_call P fv args (sworld P s)) s (K ++ [STmp fv]) h fs li un i (inv_same _ _ _ _ _ SV I) (glob_same _ _ _ _ SV G)).
    destruct (stree _ _ _ _ _) as [[v s'|e w]|]; auto.
    - destruct IT as [N [h' [R Po]]]. exists h'. split; [eapply post_untmp; eauto|]. left. exists (S N). rewrite invoke_S, BUILTIN, R. do 2 f_equal.
      rewrite stack_mk. rewrite (below_mk _ K [fv]). apply setst_tmp.
    - destruct IT as [N R]. left. exists (S N). rewrite invoke_S, BUILTIN, R. reflexivity. }
  destruct fv as [|b|f|f c|pf pargs|nv|fi|ci|oi]; try (apply BU; exact Logic.I).
  - destruct (funs f) as [sf|] eqn:Ef; [|exact Logic.I]. apply USER; auto.
  - destruct (funs f) as [sf|] eqn:Ef; [|exact Logic.I]. apply USER; eauto.
  - (* partial *)
    clear USER BUILTIN.
    assert (PART : forall f sf, (pf = HFun f \/ exists c, pf = HClosure f c) -> funs f = Some sf ->
     match (let all := pargs ++ args in
            if length all <? required sf then ret P (HPartial pf all) s
            else if accepts sf (length all) then
              if sf_variadic sf && (sf_args sf <=? length all) then None else enter P funs n pf sf all s
            else Some (Er P _ (XArgs f (length all)) (sworld P s))) with
     | None => True
     | Some (Er _ _ e w) => (exists N, invoke N (length args) m0 = Some (IErr P e w)) \/
         (exists N m2, invoke N (length args) m0 = Some (IUser P m2) /\ length (frames P m2) = S (length fs) /\ forall d, d < S (length fs) -> CompFlow.fails P C T d m2 e w)
     | Some (Ok _ _ v s') => exists h', post 0 [] K s h s' h' /\ let m' := mk fs li un i s' (K ++ [STmp v]) h' in
         ((exists N, invoke N (length args) m0 = Some (INative P m')) \/
          (exists N m2, invoke N (length args) m0 = Some (IUser P m2) /\ length (frames P m2) = S (length fs) /\ returns fs m2 m'))
     end).
    { intros f sf Hfv Hf. destruct (HU f sf Hf) as [fu [sta U]]. cbv zeta.
      assert (CO : call_of P T (length args) m0 = 
         if length (pargs ++ args) <? required sf then CallDone P (INative P (mk fs li un i s (K ++ [STmp (HPartial pf (pargs ++ args))]) h))
         else if accepts sf (length (pargs ++ args)) then
           CallDone P (IUser P (call_function P (entry sf sta (min (length (pargs ++ args)) (sf_args sf) - required sf)) (length (pargs ++ args)) (num_var_args fu (length args)) (mk fs li un i s ((K ++ [STmp pf]) ++ map STmp (pargs ++ args)) h)))
         else CallDone P (IErr P (XArgs f (length (pargs ++ args))) (sworld P s))).
      { unfold call_of. rewrite KL. unfold m0 at 1. rewrite c_nth. fold m0.
        assert (ET : top (stack P m0) (length args) = args) by (unfold m0; apply c_top).
        assert (EB : below (stack P m0) (S (length args)) = render (store P s) K) by (unfold m0; apply c_belowS).
        assert (FO : fun_of T pf = Some (f, fu)) by (destruct Hfv as [->|[c ->]]; cbn [fun_of]; now rewrite (u_T _ _ _ _ U)).
        assert (E1 : set_stack P (render (store P s) K ++ [HPartial pf (pargs ++ args)]) m0 = mk fs li un i s (K ++ [STmp (HPartial pf (pargs ++ args))]) h) by apply setst_tmp.
        clear BU. destruct Hfv as [->|[c ->]]; cbv iota beta zeta;
        (rewrite FO, ET, EB, <- app_length, (unit_min _ _ _ _ U), (unit_range _ _ _ _ _ U);
        rewrite E1; destruct (length (pargs ++ args) <? required sf); [reflexivity|]; destruct (accepts sf (length (pargs ++ args))) eqn:Acc; [|reflexivity];
        rewrite (unit_jump _ _ _ _ _ U Acc); do 3 f_equal; unfold m0, set_stack, CompInv.mk;
        cbn [Vm.ip Vm.stack Vm.frames Vm.lits Vm.unrolls Vm.gcount Vm.opens Vm.cells Vm.envs Vm.world]; f_equal;
        rewrite !render_app, render_tmps; rewrite <- !app_assoc; reflexivity). }
      destruct (length (pargs ++ args) <? required sf).
      - cbn [ret]. exists h. split; [now apply post_refl|]. left. exists 1. rewrite invoke_S, CO. reflexivity.
      - destruct (accepts sf (length (pargs ++ args))) eqn:Acc.
        + destruct (sf_variadic sf && (sf_args sf <=? length (pargs ++ args))) eqn:V; [exact Logic.I|].
          assert (NV : num_var_args fu (length args) = None).
          { unfold num_var_args, max_args. rewrite (u_args _ _ _ _ U), (u_var _ _ _ _ U). destruct (sf_variadic sf); simpl in *; auto.
            apply Nat.leb_gt in V. rewrite app_length in V. replace (sf_args sf <=? length args) with false by (symmetry; apply Nat.leb_gt; lia). reflexivity. }
          destruct (user_call f pf sf fu sta n (pargs ++ args) s K h fs li un i Hfv U IE I G Acc _ eq_refl) as [m2 [E2 [L2 R]]].
          rewrite V in R.
          assert (NV2 : num_var_args fu (length (pargs ++ args)) = None). { unfold num_var_args, max_args. now rewrite (u_args _ _ _ _ U), (u_var _ _ _ _ U), V. }
          rewrite NV2 in E2. rewrite NV, E2 in CO.
          assert (IV : invoke 1 (length args) m0 = Some (IUser P m2)) by (rewrite invoke_S, CO; reflexivity).
          destruct (enter _ _ _ _ _ _ _) as [[v s'|e w]|]; auto.
          * destruct R as [h' [Po R]]. exists h'. split; auto. right. exists 1, m2. auto.
          * right. exists 1, m2. auto.
        + left. exists 1. rewrite invoke_S, CO. reflexivity. }
    destruct pf as [|b|f|f c|? ?|nv|fi|ci|oi]; try (apply BU; exact Logic.I).
    + destruct (funs f) as [sf|] eqn:Ef; [|exact Logic.I]. apply PART; auto.
    + destruct (funs f) as [sf|] eqn:Ef; [|exact Logic.I]. apply PART; eauto.
Qed.
End sim4.
