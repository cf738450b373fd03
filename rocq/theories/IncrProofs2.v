(** Proofs about incremental compilation: functions and types. *)
From Coq Require Import String.
From Verif Require Import Base Seq SeqProofs Incr IncrSpec IncrProofs.
Local Open Scope nat_scope.

Section P.
Context {Op Loc Pat Body Locals : Type} (emit_ops : Body -> list Op) (emit_locs : Body -> list Loc) (empty : Body) (no_locals : Locals).
Notation params := (params Op Loc Pat Locals).
Notation parser := (parser Op Loc Pat Body Locals).
Notation emit := (emit_function emit_ops emit_locs).
Lemma fold_emit_at l (p : params) id ops : function_at p id ops -> ~ In id (map fst l) -> function_at (fold_left emit l p) id ops.
Proof.
  revert p. induction l as [|f l IH]; intros p FA N; [exact FA|]. cbn in N |- *. apply IH; [|tauto].
  destruct FA as (h & t & E & C & L). exists h, t. split; [|split; [|exact L]].
  - unfold emit_function. cbn. rewrite update_spec. destruct (Nat.eqb_spec (fst f) id); [tauto|]. exact E.
  - unfold emit_function. cbn. destruct ops as [|o ops]; [reflexivity|]. rewrite skipn_app, firstn_app.
    assert (length (skipn h (code p)) >= length (o :: ops)). { pose proof (f_equal (@length Op) C) as X. rewrite firstn_length in X. lia. }
    replace (length (o :: ops) - length (skipn h (code p))) with 0 by lia. now rewrite firstn_O, app_nil_r.
Qed.
Lemma fold_emit l (p : params) : NoDup (map fst l) -> (forall f, In f l -> fst f < length (constants p)) -> forall id b, In (id, b) l -> function_at (fold_left emit l p) id (emit_ops b).
Proof.
  revert p. induction l as [|f l IH]; intros p ND LT id b I; [destruct I|]. cbn in ND |- *. inversion ND as [|? ? N ND']; subst. destruct I as [->|I].
  - cbn in N. apply fold_emit_at; [|exact N]. exists (length (code p)). eexists. unfold emit_function. cbn. split; [|split].
    + rewrite update_spec, Nat.eqb_refl. specialize (LT _ (or_introl eq_refl)). cbn in LT. apply Nat.ltb_lt in LT. rewrite LT. reflexivity.
    + rewrite skipn_app, skipn_all, Nat.sub_diag. cbn. apply firstn_all.
    + intro NE. rewrite app_length. destruct (emit_ops b); [congruence|]. cbn. lia.
  - apply IH; [assumption| |assumption]. intros g J. unfold emit_function. cbn. rewrite update_length. apply LT. right. exact J.
Qed.
(** functions declared so far *)
Definition finv (done : list (action Pat Body Locals)) (q : parser) : Prop :=
  NoDup (map fst (pending q)) /\ (forall f, In f (pending q) -> fst f < length (constants (shared q))) /\ forall b, In (AFunction b) done -> In b (map snd (pending q)).
Lemma const_grow v (p : params) : length (constants p) <= length (constants (fst (declare_const v p))).
Proof. unfold declare_const. destruct (position v (constants p)); cbn; [lia|]. rewrite app_length. lia. Qed.
Lemma finv_same done a (q q' : parser) : finv done q -> pending q' = pending q -> length (constants (shared q)) <= length (constants (shared q')) -> (forall b, a <> AFunction b) -> finv (done ++ [a]) q'.
Proof.
  intros (N & L & F) E LE NA. unfold finv. rewrite E. split; [exact N|]. split; [intros f I; specialize (L f I); lia|].
  intros b I. apply in_app_or in I as [I|[->|[]]]; [now apply F|]. exfalso. eapply NA. reflexivity.
Qed.
Lemma act_finv done a q : (forall i b, a <> AEdit i b) -> finv done q -> finv (done ++ [a]) (act a q).
Proof.
  intros NE FI. destruct a; try (apply (finv_same done _ q); [exact FI|reflexivity|cbn; reflexivity|discriminate]).
  - apply (finv_same done _ q); [exact FI|reflexivity| |discriminate]. cbn. apply const_grow.
  - destruct FI as (N & L & F). split; [|split]; cbn.
    + rewrite map_app. cbn. assert (X : ~ In (length (constants (shared q))) (map fst (pending q))).
      { intro I. apply in_map_iff in I as (f & E & I). specialize (L f I). lia. }
      rewrite <- (rev_involutive (map fst (pending q) ++ _)), rev_app_distr. apply NoDup_rev. cbn. constructor; [now rewrite <- in_rev|]. now apply NoDup_rev.
    + intros f I. rewrite app_length. cbn. apply in_app_or in I as [I|[<-|[]]]; [specialize (L f I); lia|cbn; lia].
    + intros b' I. rewrite map_app. apply in_or_app. apply in_app_or in I as [I|[E|[]]]; [left; now apply F|]. injection E as <-. right. left. reflexivity.
  - apply (finv_same done _ q); [exact FI| | |discriminate]; cbn; destruct (nth_error (my_types q) t); reflexivity.
  - apply (finv_same done _ q); [exact FI| | |discriminate]; cbn; (destruct (match instance with None => _ | Some i => _ end); [|reflexivity]); (destruct (nth_error (my_types q) constructor); [|reflexivity]); cbn; [reflexivity|]. apply const_grow.
  - apply (finv_same done _ q); [exact FI|reflexivity| |discriminate]. cbn. unfold declare_native. destruct (name_position _ _); reflexivity.
  - exfalso. eapply NE. reflexivity.
Qed.
Lemma acts_finv l : forall done q, (forall i b, ~ In (AEdit i b) l) -> finv done q -> finv (done ++ l) (fold_left (fun q a => act a q) l q).
Proof.
  induction l as [|a l IH]; intros done q NE FI; [now rewrite app_nil_r|]. cbn. replace (done ++ a :: l) with ((done ++ [a]) ++ l) by now rewrite <- app_assoc.
  apply IH; [intros i b I; apply (NE i b); right; exact I|]. apply act_finv; [|exact FI]. intros i b ->. apply (NE i b). left. reflexivity.
Qed.
Lemma pending_ids (p0 : params) x : Forall (fun f => length (constants p0) <= fst f) (pending (fold_left (fun q a => act a q) (actions x) (Parser p0 [] [] empty [] []))).
Proof.
  assert (I : inv p0 (Parser p0 [] [] empty [] [])) by (apply inv_intro; cbn; [apply grows_refl|constructor|constructor]).
  revert I. generalize (@Parser Op Loc Pat Body Locals p0 [] [] empty [] []). induction (actions x) as [|a l IH]; intros q I; [apply I|]. cbn. apply IH. now apply act_inv.
Qed.
Lemma functions_defined (x : parse Pat Body Locals) (p p' : params) b :
  incremental_compile emit_ops emit_locs empty [] x p = (p', Success) -> final_bodies x -> In (AFunction b) (actions x) ->
  exists id, length (constants p) <= id /\ function_at p' id (emit_ops b).
Proof.
  unfold incremental_compile, try_incremental_compile, parse_incremental. intros E (LT & NE) I.
  pose proof (pending_ids p x) as GE.
  destruct (acts_finv (actions x) [] (Parser p [] [] empty [] []) NE) as (N & L & F); [repeat split; cbn; [constructor|intros ? []|intros ? []]|].
  cbn [app] in F. set (q := fold_left _ _ _) in *. clearbody q.
  assert (p' = shared (teardown emit_ops emit_locs x q)) as ->. { destruct (verdict true _); injection E as <-; congruence. }
  specialize (F b I). apply in_map_iff in F as ([id b'] & <- & J). exists id. split; [rewrite Forall_forall in GE; exact (GE _ J)|].
  assert (X : function_at (add_patterns (pats q) (fold_left emit (pending q) (add_code emit_ops emit_locs (output q) (shared q)))) id (emit_ops b')).
  { assert (Y : function_at (fold_left emit (pending q) (add_code emit_ops emit_locs (output q) (shared q))) id (emit_ops b')) by (apply fold_emit; auto). exact Y. }
  unfold teardown. rewrite LT. cbn [fold_left]. destruct (trailing x); exact X.
Qed.

(** types *)
Definition types_ok (p : params) : Prop := forall t c, In (KType (Some t) c) (constants p) -> t < types (pfields p).
Definition tinv (t0 : nat) (done : list (action Pat Body Locals)) (q : parser) : Prop :=
  my_types q = seq t0 (length (my_types q)) /\ types (pfields (shared q)) = t0 + length (my_types q) /\
  forall t c, In (KType (Some t) c) (constants (shared q)) -> t < t0 \/ exists i c', In (AModule (Some i) c') done /\ nth_error (my_types q) i = Some t.
Lemma tinv_same t0 done a (q q' : parser) : tinv t0 done q -> my_types q' = my_types q -> types (pfields (shared q')) = types (pfields (shared q)) ->
  (forall t c, In (KType (Some t) c) (constants (shared q')) -> In (KType (Some t) c) (constants (shared q))) -> tinv t0 (done ++ [a]) q'.
Proof.
  intros (S0 & T & K) E1 E2 E3. unfold tinv. rewrite E1, E2. split; [exact S0|]. split; [exact T|].
  intros t c I. destruct (K t c (E3 t c I)) as [L|(i & c' & J & M)]; [auto|]. right. exists i, c'. split; [apply in_or_app; auto|exact M].
Qed.
Lemma const_in v (p : params) x : In x (constants (fst (declare_const v p))) -> In x (constants p) \/ x = v.
Proof. unfold declare_const. destruct (position v (constants p)); cbn; [auto|]. intro I. apply in_app_or in I as [I|[->|[]]]; auto. Qed.
Lemma act_tinv t0 done a q : tinv t0 done q -> tinv t0 (done ++ [a]) (act a q).
Proof.
  intro TI. destruct a; try (apply (tinv_same t0 done _ q); [exact TI|reflexivity|reflexivity|cbn; auto]; fail).
  - apply (tinv_same t0 done _ q); [exact TI|reflexivity|cbn; unfold declare_const; destruct (position _ _); reflexivity|]. cbn. intros t c I. apply const_in in I as [I|]; [exact I|discriminate].
  - apply (tinv_same t0 done _ q); [exact TI|reflexivity|reflexivity|]. cbn. intros t c I. apply in_app_or in I as [I|[E|[]]]; [exact I|discriminate].
  - destruct TI as (S0 & T & K). cbn. unfold tinv. cbn. rewrite app_length. cbn. split; [|split].
    + rewrite Nat.add_1_r, seq_S, <- S0, T. reflexivity.
    + lia.
    + intros t c I. destruct (K t c I) as [L|(i & c' & J & M)]; [auto|]. right. exists i, c'. split; [apply in_or_app; auto|]. rewrite nth_error_app1; [exact M|]. apply nth_error_Some. congruence.
  - cbn. destruct (nth_error (my_types q) t) eqn:E; apply (tinv_same t0 done _ q); auto.
  - apply (tinv_same t0 done _ q); [exact TI|reflexivity| |auto]. cbn. unfold resolve_field. destruct (get _ _ _); reflexivity.
  - cbn. destruct instance as [i|].
    + destruct (nth_error (my_types q) i) as [ti|] eqn:Ei; cbn; [|apply (tinv_same t0 done _ q); auto]. destruct (nth_error (my_types q) constructor) as [tc|] eqn:Ec; [|apply (tinv_same t0 done _ q); auto].
      destruct TI as (S0 & T & K). unfold tinv. cbn. split; [exact S0|]. split; [unfold declare_const; destruct (position _ _); exact T|].
      intros t c I. apply const_in in I as [I|E].
      * destruct (K t c I) as [L|(i' & c' & J & M)]; [auto|]. right. exists i', c'. split; [apply in_or_app; auto|exact M].
      * injection E as -> ->. right. exists i, constructor. split; [apply in_or_app; right; left; reflexivity|exact Ei].
    + destruct (nth_error (my_types q) constructor) as [tc|] eqn:Ec; cbn; [|apply (tinv_same t0 done _ q); auto].
      apply (tinv_same t0 done _ q); [exact TI|reflexivity|cbn; unfold declare_const; destruct (position _ _); reflexivity|]. cbn. intros t c I. apply const_in in I as [I|]; [exact I|discriminate].
  - apply (tinv_same t0 done _ q); [exact TI|reflexivity|cbn; unfold declare_native; destruct (name_position _ _); reflexivity|]. cbn. unfold declare_native. destruct (name_position _ _); auto.
Qed.
Lemma acts_tinv t0 l : forall done q, tinv t0 done q -> tinv t0 (done ++ l) (fold_left (fun q a => act a q) l q).
Proof.
  induction l as [|a l IH]; intros done q TI; [now rewrite app_nil_r|]. cbn. replace (done ++ a :: l) with ((done ++ [a]) ++ l) by now rewrite <- app_assoc.
  apply IH. now apply act_tinv.
Qed.
Lemma after_tinv (p : params) l : types_ok p -> tinv (types (pfields p)) l (after empty p l).
Proof.
  intro OK. apply (acts_tinv _ l []). split; [reflexivity|]. split; [cbn; lia|]. cbn. intros t c I. left. eapply OK, I.
Qed.
Lemma emit_types l (p : params) t c : In (KType (Some t) c) (constants (fold_left emit l p)) -> In (KType (Some t) c) (constants p).
Proof.
  revert p. induction l as [|f l IH]; intros p I; [exact I|]. cbn in I. apply IH in I. unfold emit_function in I. cbn in I.
  apply In_nth_error in I as (j & J). rewrite update_spec in J. destruct (_ && _); [discriminate|]. eapply nth_error_In, J.
Qed.
Lemma parse_types x (p : params) : types_ok p -> types_ok (fst (parse_incremental emit_ops emit_locs empty x p)).
Proof.
  intros OK t c I. pose proof (after_tinv p (actions x) OK) as (S0 & T & K). unfold parse_incremental in *. fold (@after Op Loc Pat Body Locals empty p (actions x)) in *.
  set (q := after _ _ _) in *. clearbody q. cbn [fst] in *. rewrite teardown_fields, T.
  assert (J : In (KType (Some t) c) (constants (shared q))).
  { unfold teardown in I. destruct (trailing x); cbn in I; apply emit_types in I; exact I. }
  destruct (K t c J) as [L|(i & c' & _ & M)]; [lia|]. rewrite S0 in M. apply nth_error_In, in_seq in M. lia.
Qed.
Lemma step_types (p : params) e : types_ok p -> types_ok (fst (step emit_ops emit_locs empty no_locals p e)).
Proof.
  intro W. assert (T : forall scan (x : parse Pat Body Locals) b (p : params), types_ok p -> types_ok (fst (try_incremental_compile emit_ops emit_locs empty scan x b p))).
  { intros scan x b p' W'. unfold try_incremental_compile. destruct scan; [|exact W']. pose proof (parse_types x p' W') as X. destruct (parse_incremental emit_ops emit_locs empty x p'). exact X. }
  destruct e as [scan x|scan x].
  - destruct (incremental_compile emit_ops emit_locs empty scan x p) as [p' r] eqn:E. cbn [step]. rewrite E. cbn. destruct r; [|rewrite (failed_line _ _ _ _ _ _ _ _ E); [exact W|discriminate]..].
    unfold incremental_compile in E. pose proof (T scan x true p W) as G. destruct (try_incremental_compile _ _ _ _ _ _ _) as [q s]. destruct s; [|discriminate..]. injection E as <-. exact G.
  - cbn. unfold eval_compile. pose proof (T scan x false (set_locals no_locals p) W) as G. destruct (try_incremental_compile _ _ _ _ _ _ _) as [q s]. exact G.
Qed.
Lemma run_types l (p : params) : types_ok p -> types_ok (run emit_ops emit_locs empty no_locals p l).
Proof. revert p. induction l as [|e l IH]; intros p W; [exact W|]. cbn. apply IH. now apply step_types. Qed.
Lemma position_none v l : (forall x, In x l -> const_eqb x v = false) -> position v l = None.
Proof. induction l as [|y l IH]; intro F; [reflexivity|]. cbn. rewrite (F y (or_introl eq_refl)), IH; [reflexivity|]. intros; apply F; now right. Qed.
Lemma types_declared (l : list (event Op Loc Pat Body Locals)) l0 (a : list (action Pat Body Locals)) i c ti tc :
  let q := after empty (run emit_ops emit_locs empty no_locals (initial l0) l) a in
  (forall c', ~ In (AModule (Some i) c') a) -> nth_error (my_types q) i = Some ti -> nth_error (my_types q) c = Some tc ->
  declared (Some ti) tc (shared q) = Some (KType (Some ti) tc).
Proof.
  intros q NA Ei Ec. destruct (after_tinv (run emit_ops emit_locs empty no_locals (initial l0) l) a) as (S0 & T & K); [apply run_types; intros ? ? []|]. fold q in S0, T, K. clearbody q.
  set (t0 := types _) in *. clearbody t0. assert (GE : forall j t, nth_error (my_types q) j = Some t -> t = t0 + j).
  { intros j t J. assert (LT : j < length (my_types q)) by (apply nth_error_Some; congruence). rewrite S0 in J. rewrite (nth_error_nth' _ 0) in J by now rewrite seq_length. rewrite seq_nth in J by exact LT. now injection J. }
  unfold declared, declare_const. rewrite position_none; [|].
  - cbn. rewrite nth_error_app2, Nat.sub_diag by lia. reflexivity.
  - intros x I. destruct x as [| | |[t|] c']; try reflexivity. cbn. apply Nat.eqb_neq. intros ->. destruct (K ti c' I) as [L|(i' & c2 & J & M)].
    + apply GE in Ei. lia.
    + apply GE in M, Ei. assert (i' = i) by lia. subst i'. exact (NA _ J).
Qed.
End P.
