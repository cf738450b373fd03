(** C31 (call arity), C32 (partial application), C46 (return), C47 (globals): the machine. *)
From Verif Require Import Base Native Err Vm VmSpec VmProofs.
Local Open Scope nat_scope.


Lemma len_mid {A} (l : list A) x r : length (l ++ x :: r) - 1 - length r = length l.
Proof. rewrite app_length. simpl. lia. Qed.
Lemma nth_mid' {A} (l : list A) x r : nth_error (l ++ x :: r) (length l) = Some x.
Proof. rewrite nth_error_app2, Nat.sub_diag by lia. reflexivity. Qed.
Lemma top_mid {A} (l r : list A) k : length r = k -> top (l ++ r) k = r.
Proof. intros <-. unfold top. rewrite app_length. replace (length l + length r - length r) with (length l) by lia. rewrite skipn_app, skipn_all, Nat.sub_diag. reflexivity. Qed.
Lemma below_mid {A} (l r : list A) k : length r = k -> below (l ++ r) k = l.
Proof. intros <-. unfold below. rewrite app_length. replace (length l + length r - length r) with (length l) by lia. rewrite firstn_app, firstn_all, Nat.sub_diag. simpl. apply app_nil_r. Qed.

Lemma range_spec fn p d v n : declared fn p d v -> (in_range fn n = true <-> accepts p d v n).
Proof.
  intros [A B C _]. unfold in_range, accepts, min_args, max_args. rewrite A, B, C.
  rewrite Bool.andb_true_iff, Bool.orb_true_iff, !Nat.leb_le. replace (p + d - d) with p by lia. reflexivity.
Qed.
Lemma entry_spec fn p d v n : declared fn p d v -> accepts p d v n ->
  exists h, jump_offset fn n = Some h /\ entry_point fn p d n h.
Proof.
  intros [A B C D] [H1 H2]. unfold jump_offset, entry_point, min_args, max_args. rewrite A, B, C. replace (p + d - d) with p by lia.
  destruct (Nat.eqb_spec n p); [eexists; split; [reflexivity|]; left; auto|].
  destruct (v && (p + d <=? n)) eqn:E.
  - apply andb_prop in E. destruct E as [-> E]. apply Nat.leb_le in E. specialize (D eq_refl).
    destruct (fn_defaults fn) as [|a l] eqn:F; [simpl in B; lia|]. eexists. split; [reflexivity|]. right. split; [lia|].
    exists (last (a :: l) 0). split; [|reflexivity]. rewrite Nat.min_r by lia. replace (p + d - p - 1) with (length (a :: l) - 1) by (rewrite B; lia).
    assert (X : forall (k : list nat) x, nth_error (x :: k) (length (x :: k) - 1) = Some (last (x :: k) 0)).
    { clear. induction k as [|y k IH]; intro x; [reflexivity|]. specialize (IH y). simpl in *. rewrite Nat.sub_0_r in IH. exact IH. }
    apply X.
  - assert (n <= p + d). { destruct H2 as [H2|H2]; [rewrite H2 in E; simpl in E; apply Nat.leb_gt in E; lia | exact H2]. }
    destruct (nth_error (fn_defaults fn) (n - p - 1)) as [off|] eqn:F; [|apply nth_error_None in F; lia].
    eexists. split; [reflexivity|]. right. split; [lia|]. exists off. rewrite Nat.min_l by lia. auto.
Qed.

(** C31.  Calling any user function or closure value [fv] with arguments [args]. *)
Theorem C31_call_runs (P : prims) code funs stp n m base fv f fn args p d variadic :
  stack P m = base ++ fv :: args -> fun_of funs fv = Some (f, fn) -> declared fn p d variadic -> accepts p d variadic (length args) ->
  exists m' h, invoke P code funs stp (S n) (length args) m = Some (IUser P m') /\
    entry_point fn p d (length args) h /\ ip P m' = h /\
    frames P m' = (ip P m, S (length base)) :: frames P m /\ rest P m' = rest P m /\
    if collects p d variadic (length args)
    then let given := firstn (p + d - 1) args in
         let '(w, v) := p_vector P (skipn (p + d - 1) args) (world P m) in
         world P m' = w /\ stack P m' = base ++ fv :: given ++ [v]
    else world P m' = world P m /\ stack P m' = base ++ fv :: args.
Proof.
  intros Hs Hf Hd Ha. destruct (entry_spec fn p d variadic _ Hd Ha) as (h & J & En).
  rewrite invoke_S. unfold call_of. rewrite Hs.
  replace (length args <? length (base ++ fv :: args)) with true by (symmetry; apply Nat.ltb_lt; rewrite app_length; simpl; lia).
  rewrite len_mid, nth_mid'. apply (range_spec fn p d variadic _ Hd) in Ha.
  assert (K : exists m' : vm P, (match fun_of funs fv with
     | Some (f0, fn0) => if in_range fn0 (length args) then match jump_offset fn0 (length args) with
          | Some h0 => CallDone P (IUser P (call_function P h0 (length args) (num_var_args fn0 (length args)) m)) | None => CallDone P (IStuck P) end
        else CallDone P (IStuck P) | None => CallDone P (IStuck P) end) = CallDone P (IUser P m') /\
      m' = call_function P h (length args) (num_var_args fn (length args)) m).
  { rewrite Hf, Ha, J. eauto. }
  destruct K as (m' & _ & Em). exists m', h. split; [|split; [exact En|]].
  { rewrite Em. destruct fv; try discriminate; rewrite Hf, Ha, J; reflexivity. }
  subst m'. destruct Hd as [A B C D]. unfold call_function, num_var_args, collects, max_args. rewrite A, C.
  assert (EL : length (stack P m) - length args = S (length base)) by (rewrite Hs, app_length; simpl; lia).
  destruct (variadic && (p + d <=? length args)) eqn:V.
  - apply andb_prop in V. destruct V as [-> V]. apply Nat.leb_le in V. specialize (D eq_refl).
    assert (E : stack P m = (base ++ fv :: firstn (p + d - 1) args) ++ skipn (p + d - 1) args).
    { rewrite Hs, <- app_assoc. simpl. now rewrite firstn_skipn. }
    assert (L : length (skipn (p + d - 1) args) = length args + 1 - (p + d)) by (rewrite skipn_length; lia).
    destruct m as [ip0 st fr ls us gc ops cs es w]. cbn [stack] in *. unfold set_ip, set_frames. cbn [stack frames lits unrolls gcount opens cells envs world ip].
    assert (T1 : top st (length args + 1 - (p + d)) = skipn (p + d - 1) args) by (rewrite E; apply top_mid; exact L).
    assert (B1 : below st (length args + 1 - (p + d)) = base ++ fv :: firstn (p + d - 1) args) by (rewrite E; apply below_mid; exact L).
    rewrite T1. destruct (p_vector P (skipn (p + d - 1) args) w) as [w' v]. rewrite B1.
    unfold push, set_stack, set_world, rest. cbn [stack frames lits unrolls gcount opens cells envs world ip].
    rewrite EL. repeat (split; [reflexivity|]). rewrite <- app_assoc. split; reflexivity.
  - destruct m as [ip0 st fr ls us gc ops cs es w]. cbn in *. rewrite EL. repeat split. exact Hs.
Qed.
Print Assumptions C31_call_runs.

(** inside the called function, local [i] is argument [i] *)
Theorem C31_parameters (P : prims) code funs stp n m base fv f fn args p d variadic m' i a :
  stack P m = base ++ fv :: args -> fun_of funs fv = Some (f, fn) -> declared fn p d variadic -> accepts p d variadic (length args) ->
  invoke P code funs stp (S n) (length args) m = Some (IUser P m') ->
  nth_error args i = Some a -> (collects p d variadic (length args) = true -> i < p + d - 1) ->
  step P (OPushLocal i) m' = Go P (push P a m').
Proof.
  intros Hs Hf Hd Ha Hi Hn Hc. destruct (C31_call_runs P code funs stp n m base fv f fn args p d variadic Hs Hf Hd Ha) as (m2 & h & I & _ & _ & F & _ & S0).
  rewrite I in Hi. injection Hi as <-. cbn [step]. unfold fp. rewrite F.
  assert (E : nth_error (stack P m2) (S (length base) + i) = Some a).
  { destruct (collects p d variadic (length args)).
    - specialize (Hc eq_refl). simpl in S0. destruct (p_vector P _ _) as [w v]. destruct S0 as [_ ->].
      rewrite nth_error_app2 by lia. replace (S (length base) + i - length base) with (S i) by lia. simpl.
      assert (i < length args) by (apply nth_error_Some; congruence).
      rewrite nth_error_app1 by (rewrite firstn_length; lia).
      rewrite <- Hn. rewrite <- (firstn_skipn (p + d - 1) args) at 2. symmetry. apply nth_error_app1. rewrite firstn_length; lia.
    - destruct S0 as [_ ->]. rewrite nth_error_app2 by lia. replace (S (length base) + i - length base) with (S i) by lia. exact Hn. }
  rewrite E. reflexivity.
Qed.
Print Assumptions C31_parameters.

(** too few arguments: a partial function holding them (no argument at all: the function itself) *)
Theorem C31_call_too_few (P : prims) code funs stp n m base fv f fn args p d variadic :
  stack P m = base ++ fv :: args -> fun_of funs fv = Some (f, fn) -> declared fn p d variadic -> length args < p ->
  invoke P code funs stp (S n) (length args) m =
    Some (INative P (set_stack P (base ++ [match args with [] => fv | _ => HPartial fv args end]) m)).
Proof.
  intros Hs Hf Hd Ha. rewrite invoke_S. unfold call_of. rewrite Hs.
  replace (length args <? length (base ++ fv :: args)) with true by (symmetry; apply Nat.ltb_lt; rewrite app_length; simpl; lia).
  rewrite len_mid, nth_mid'.
  assert (Ra : in_range fn (length args) = false).
  { destruct (in_range fn (length args)) eqn:E; auto. apply (range_spec fn p d variadic _ Hd) in E. destruct E. lia. }
  assert (Mi : (length args <? min_args fn) = true).
  { destruct Hd as [A B C D]. apply Nat.ltb_lt. unfold min_args. lia. }
  replace (base ++ fv :: args) with (base ++ fv :: args) by reflexivity.
  assert (B0 : below (base ++ fv :: args) (S (length args)) = base) by (apply below_mid; reflexivity).
  assert (T0 : top (base ++ fv :: args) (length args) = args).
  { change (base ++ fv :: args) with (base ++ [fv] ++ args). rewrite app_assoc. apply top_mid. reflexivity. }
  assert (St : set_stack P (stack P m) m = m) by (destruct m; reflexivity).
  destruct fv; try discriminate; rewrite Hf, Ra, Mi; destruct args as [|a args]; cbn [length]; rewrite ?B0, ?T0; try reflexivity;
    destruct m; cbn in *; subst; rewrite ?B0, ?T0; reflexivity.
Qed.
Print Assumptions C31_call_too_few.

(** too many: an error, nothing has happened *)
Theorem C31_call_error (P : prims) code funs stp n m base fv f fn args p d variadic :
  stack P m = base ++ fv :: args -> fun_of funs fv = Some (f, fn) -> declared fn p d variadic ->
  p <= length args -> ~ accepts p d variadic (length args) ->
  invoke P code funs stp (S n) (length args) m = Some (IErr P (XArgs f (length args)) (world P m)).
Proof.
  intros Hs Hf Hd Hp Ha. rewrite invoke_S. unfold call_of. rewrite Hs.
  replace (length args <? length (base ++ fv :: args)) with true by (symmetry; apply Nat.ltb_lt; rewrite app_length; simpl; lia).
  rewrite len_mid, nth_mid'.
  assert (Ra : in_range fn (length args) = false).
  { destruct (in_range fn (length args)) eqn:E; auto. apply (range_spec fn p d variadic _ Hd) in E. contradiction. }
  assert (Mi : (length args <? min_args fn) = false).
  { destruct Hd as [A B C D]. apply Nat.ltb_ge. unfold min_args. lia. }
  destruct fv; try discriminate; rewrite Hf, Ra, Mi; reflexivity.
Qed.
Print Assumptions C31_call_error.

(** C32.  Calling a partial function is calling the function with all arguments, unless this
    reaches a variadic parameter. *)
Theorem C32_partial_application_partial (P : prims) code funs stp n m base fv f fn pargs args p d variadic :
  fun_of funs fv = Some (f, fn) -> declared fn p d variadic -> pargs <> [] ->
  collects p d variadic (length pargs + length args) = false ->
  stack P m = base ++ HPartial fv pargs :: args ->
  invoke P code funs stp (S n) (length args) m =
  invoke P code funs stp (S n) (length (pargs ++ args)) (set_stack P (base ++ fv :: pargs ++ args) m).
Proof.
  intros Hf Hd Hne Hc Hs.
  assert (E1 : length args <? length (base ++ HPartial fv pargs :: args) = true) by (apply Nat.ltb_lt; rewrite app_length; simpl; lia).
  assert (E2 : length (pargs ++ args) <? length (base ++ fv :: pargs ++ args) = true) by (apply Nat.ltb_lt; rewrite !app_length; simpl; rewrite app_length; lia).
  rewrite !invoke_S. unfold call_of. cbn [set_stack stack world]. rewrite Hs, E1, E2, !len_mid, !nth_mid', Hf.
  assert (B0 : below (base ++ HPartial fv pargs :: args) (S (length args)) = base) by (apply below_mid; reflexivity).
  assert (T0 : top (base ++ HPartial fv pargs :: args) (length args) = args).
  { change (base ++ HPartial fv pargs :: args) with (base ++ [HPartial fv pargs] ++ args). rewrite app_assoc. apply top_mid. reflexivity. }
  assert (B1 : below (base ++ fv :: pargs ++ args) (S (length (pargs ++ args))) = base) by (apply below_mid; reflexivity).
  assert (T1 : top (base ++ fv :: pargs ++ args) (length (pargs ++ args)) = pargs ++ args).
  { change (base ++ fv :: pargs ++ args) with (base ++ [fv] ++ pargs ++ args). rewrite app_assoc. apply top_mid. reflexivity. }
  rewrite B0, T0, B1, T1. rewrite <- (app_length pargs args) in *.
  assert (V : forall k, k <= length (pargs ++ args) -> num_var_args fn k = None).
  { intros k Hk. unfold num_var_args, max_args. destruct Hd as [A B C D]. rewrite A, C. unfold collects in Hc.
    destruct variadic; auto. simpl in *. apply Nat.leb_gt in Hc. replace (p + d <=? k) with false by (symmetry; apply Nat.leb_gt; lia). reflexivity. }
  rewrite (V (length args)) by (rewrite app_length; lia).
  assert (Pos : exists j, length (pargs ++ args) = S j) by (destruct pargs; [congruence|simpl; eauto]).
  assert (G : forall fv', fv = fv' -> (match fv with HFun _ => True | HClosure _ _ => True | _ => False end)) by (intros; destruct fv; auto; discriminate).
  specialize (G fv eq_refl). destruct Pos as [j Pos].
  destruct (length (pargs ++ args) <? min_args fn) eqn:Mi.
  - assert (Ra : in_range fn (length (pargs ++ args)) = false).
    { unfold in_range. apply Nat.ltb_lt in Mi. replace (min_args fn <=? _) with false by (symmetry; apply Nat.leb_gt; lia). reflexivity. }
    destruct fv; try contradiction; rewrite ?Hf, ?Ra, ?Mi, Pos; destruct m; reflexivity.
  - destruct (in_range fn (length (pargs ++ args))) eqn:Ra.
    + destruct fv; try contradiction; rewrite ?Hf, ?Ra, ?V by lia; destruct (jump_offset fn _); destruct m; reflexivity.
    + destruct fv; try contradiction; rewrite ?Hf, ?Ra, ?Mi; destruct m; reflexivity.
Qed.
Print Assumptions C32_partial_application_partial.

(** With a variadic parameter the claim is false of the code: vm/mod.rs:768 passes the number of
    new arguments, not the total, to num_var_args.  `fn f(a, b, *c)`: f(1)(2,3,4) is not f(1,2,3,4). *)
Theorem C32_variadic_refuted : ~ (forall (P : prims) code funs stp n m base fv f fn pargs args p d variadic,
  fun_of funs fv = Some (f, fn) -> declared fn p d variadic -> pargs <> [] -> length pargs < p ->
  stack P m = base ++ HPartial fv pargs :: args ->
  invoke P code funs stp (S n) (length args) m =
  invoke P code funs stp (S n) (length (pargs ++ args)) (set_stack P (base ++ fv :: pargs ++ args) m)).
Proof.
  intro H.
  set (P := {| W := unit; L := unit; E := unit; p_bool _ _ := true; p_compare _ _ _ _ := true; p_compare_msg w _ _ _ := (w, HNil);
    p_op _ _ w := TRet w HNil; p_call _ _ w := TRet w HNil; p_vector l w := (w, HObj (length l)); p_unroll _ w := (w, inr []);
    p_next _ w := (w, None); l_new _ _ := tt; l_acc l _ _ := l; l_unroll l _ w := (w, inr l); l_end l w := (w, HNil) |}).
  set (fn := Func 0 3 [5] true).
  specialize (H P [] (fun _ => Some fn) (step P) 0 (set_stack P [HPartial (HFun 0) [HConst 1]; HConst 2; HConst 3; HConst 4] (vm_init P tt))
     [] (HFun 0) 0 fn [HConst 1] [HConst 2; HConst 3; HConst 4] 2 1 true eq_refl).
  assert (D : declared fn 2 1 true) by (split; simpl; auto).
  specialize (H D ltac:(discriminate) ltac:(simpl; lia) eq_refl). vm_compute in H. discriminate H.
Qed.
Print Assumptions C32_variadic_refuted.

(** C46.  Return, from a call entered with [frame] as the callee's locals and temporaries. *)
Theorem C46_return_restores (P : prims) m base callee frame v ret fr :
  stack P m = base ++ callee :: frame ++ [v] -> frames P m = (ret, S (length base)) :: fr ->
  step P OReturn m = Ret P (set_stack P (base ++ [v]) (set_frames P fr (set_ip P ret m))).
Proof.
  intros Hs Hf. cbn [step]. rewrite Hf, Hs.
  replace (rev (base ++ callee :: frame ++ [v])) with (v :: rev (base ++ callee :: frame)).
  2: { replace (base ++ callee :: frame ++ [v]) with ((base ++ callee :: frame) ++ [v]) by now rewrite <- app_assoc. now rewrite (rev_app_distr _ [v]). }
  replace (length base <? _) with true by (symmetry; apply Nat.ltb_lt; rewrite app_length; simpl; rewrite app_length; simpl; lia).
  rewrite firstn_app, firstn_all, Nat.sub_diag. simpl. rewrite app_nil_r. destruct m. reflexivity.
Qed.
Print Assumptions C46_return_restores.

(** A call and its return: whatever the body did to the part of the stack above the callee, to the
    values below it (stores to captured variables and globals) and to everything else, the caller
    continues after the call, in its own frame, with callee and arguments replaced by the result. *)
Theorem C46_call_then_return (P : prims) code funs stp n m base fv f fn args p d variadic m1 m2 base2 callee frame v :
  stack P m = base ++ fv :: args -> fun_of funs fv = Some (f, fn) -> declared fn p d variadic -> accepts p d variadic (length args) ->
  invoke P code funs stp (S n) (length args) m = Some (IUser P m1) ->
  frames P m2 = frames P m1 -> stack P m2 = base2 ++ callee :: frame ++ [v] -> length base2 = length base ->
  exists m3, step P OReturn m2 = Ret P m3 /\ ip P m3 = ip P m /\ frames P m3 = frames P m /\
    stack P m3 = base2 ++ [v] /\ world P m3 = world P m2 /\ rest P m3 = rest P m2.
Proof.
  intros Hs Hf Hd Ha Hi Hfr Hst Hl.
  destruct (C31_call_runs P code funs stp n m base fv f fn args p d variadic Hs Hf Hd Ha) as (m' & h & I & _ & _ & F & _).
  rewrite I in Hi. injection Hi as <-. rewrite F, <- Hl in Hfr.
  rewrite (C46_return_restores P m2 base2 callee frame v _ _ Hst Hfr). eexists. split; [reflexivity|]. destruct m2. cbn in *. repeat split.
Qed.
Print Assumptions C46_call_then_return.

(** C47. *)
Theorem C47_undeclared (P : prims) i m : gcount P m <= i ->
  step P (OPushGlobal i) m = Fail P (XUndeclared i) (world P m) /\
  (forall pop v s, stack P m = s ++ [v] -> step P (OStoreGlobal i pop) m = Fail P (XUndeclared i) (world P m)).
Proof.
  intro H. assert (E : (i <? gcount P m) = false) by (apply Nat.ltb_ge; lia). split.
  - cbn [step]. rewrite E. reflexivity.
  - intros pop v s Hs. cbn [step]. unfold pop1, with_top, store_global. rewrite Hs, rev_app_distr. simpl rev. cbn [app].
    destruct pop; destruct m; cbn in *; rewrite E; reflexivity.
Qed.
Print Assumptions C47_undeclared.

Lemma upd_firstn {A} (l : list A) i x : i < length l -> upd l i x = firstn i l ++ x :: skipn (S i) l.
Proof. revert i. induction l as [|a l IH]; intros [|i] H; simpl in *; try lia; auto. f_equal. apply IH. lia. Qed.

(** For every history of declarations, reads and writes. *)
Theorem C47_history (P : prims) : forall h m, gcount P m = length (stack P m) -> gexec P m h = Some (gspec (stack P m) h).
Proof.
  induction h as [|a h IH]; intros m Hg; [reflexivity|].
  destruct m as [ip0 st fr ls us gc ops cs es w]. cbn [gcount stack] in Hg. destruct a as [v|i|i v]; cbn [gexec gops exec step gspec].
  - rewrite IH; [reflexivity|]. cbn. rewrite app_length. simpl. lia.
  - cbn [gcount stack]. destruct (Nat.ltb_spec i gc).
    + destruct (nth_error st i) as [v|] eqn:E; [|apply nth_error_None in E; lia]. cbn [push set_stack stack]. rewrite rev_app_distr. simpl rev. cbn [app].
      unfold set_stack at 1. cbn. rewrite rev_involutive. rewrite IH by auto. cbn [stack]. destruct (gspec st h) as [l|[l j]]; reflexivity.
    + replace (nth_error st i) with (@None hval) by (symmetry; apply nth_error_None; lia). reflexivity.
  - unfold push, set_stack, pop1. cbn [stack frames lits unrolls gcount opens cells envs world ip]. rewrite rev_app_distr. simpl rev. cbn [app].
    unfold store_global, set_stack. cbn [stack frames lits unrolls gcount opens cells envs world ip]. rewrite rev_involutive.
    destruct (Nat.ltb_spec i gc).
    + replace (i <? length st) with true by (symmetry; apply Nat.ltb_lt; lia). rewrite IH; cbn [stack gcount].
      * rewrite upd_firstn by lia. reflexivity.
      * assert (X : forall (l : list hval) i x, length (upd l i x) = length l) by (induction l; intros [|?] ?; simpl; auto). rewrite X. auto.
    + replace (i <? length st) with false by (symmetry; apply Nat.ltb_ge; lia). reflexivity.
Qed.
Print Assumptions C47_history.
Theorem C47_from_start (P : prims) w h : gexec P (vm_init P w) h = Some (gspec [] h).
Proof. apply (C47_history P h (vm_init P w) eq_refl). Qed.
Print Assumptions C47_from_start.

(** ** Examples *)
Example decl_ex : declared (Func 10 4 [2; 5; 7] true) 1 3 true.
Proof. split; auto; simpl; lia. Qed.
Example accepts_ex : accepts 1 3 true 9 /\ accepts 1 3 false 3 /\ ~ accepts 1 3 false 5.
Proof. unfold accepts. repeat split; try lia; auto. Qed.
Example entry_ex : entry_point (Func 10 4 [2; 5; 7] true) 1 3 9 17 /\ entry_point (Func 10 4 [2; 5; 7] true) 1 3 2 12.
Proof. split; right; (split; [lia|]); eexists; split; reflexivity. Qed.
Example gspec_ex : gspec [] [GDeclare HNil; GWrite 0 (HConst 4); GDeclare (HConst 5); GRead 0; GRead 1; GRead 2] = inr ([HConst 4; HConst 5], 2).
Proof. reflexivity. Qed.
