(** Proofs about incremental compilation. *)
From Coq Require Import String.
From Verif Require Import Base Seq SeqProofs Incr IncrSpec.
Local Open Scope nat_scope.

Definition ext {A} (l l' : list A) : Prop := exists m, l' = l ++ m.
Lemma ext_refl {A} (l : list A) : ext l l. Proof. exists []. now rewrite app_nil_r. Qed.
Lemma ext_app {A} (l l' m : list A) : ext l l' -> ext l (l' ++ m). Proof. intros (k & ->). exists (k ++ m). now rewrite app_assoc. Qed.
Lemma ext_keeps {A} (l l' : list A) : ext l l' -> keeps l l'.
Proof. intros (m & ->) i x E. rewrite nth_error_app1; [exact E|]. apply nth_error_Some. congruence. Qed.
Lemma ext_firstn {A} (l l' : list A) : ext l l' -> firstn (length l) l' = l.
Proof. intros (m & ->). rewrite firstn_app, Nat.sub_diag, firstn_O, app_nil_r. apply firstn_all. Qed.
Lemma ext_update {A} (l l' : list A) i x : ext l l' -> length l <= i -> ext l (update l' i x).
Proof.
  intros (m & ->) L. exists (update m (i - length l) x). revert i L. induction l as [|y l IH]; intros i L; [now rewrite Nat.sub_0_r|].
  cbn in L. destruct i as [|i]; [lia|]. cbn. f_equal. apply IH. lia.
Qed.
Lemma ext_trans {A} (a b c : list A) : ext a b -> ext b c -> ext a c.
Proof. intros (m & ->) (k & ->). exists (m ++ k). now rewrite app_assoc. Qed.

Lemma get_put {K V} (eqb : K -> K -> bool) (eqb_eq : forall a b, eqb a b = true <-> a = b) k v k' (l : list (K * V)) :
  get eqb k' (put eqb k v l) = if eqb k k' then Some v else get eqb k' l.
Proof.
  induction l as [|[a w] l IH]; cbn; [reflexivity|]. destruct (eqb a k) eqn:E; cbn.
  - apply eqb_eq in E as ->. destruct (eqb k k'); reflexivity.
  - rewrite IH. destruct (eqb a k') eqn:E'; [|reflexivity]. apply eqb_eq in E' as ->. destruct (eqb k k') eqn:E2; [|reflexivity].
    apply eqb_eq in E2 as ->. rewrite (proj2 (eqb_eq k' k') eq_refl) in E. discriminate.
Qed.
Lemma pair_eqb_eq a b : pair_eqb a b = true <-> a = b.
Proof. destruct a, b. unfold pair_eqb. cbn. rewrite andb_true_iff, !Nat.eqb_eq. split; [intros [-> ->]; reflexivity|intro E; injection E; auto]. Qed.
Definition gp := @get_put string fieldref String.eqb String.eqb_eq.
Definition gp2 := @get_put (nat * nat) nat pair_eqb pair_eqb_eq.

Lemma keeps_fields_refl f : keeps_fields f f.
Proof. split; [lia|]. split; [intros n r E; exists r; auto|auto]. Qed.
Lemma keeps_fields_trans f g h : keeps_fields f g -> keeps_fields g h -> keeps_fields f h.
Proof.
  intros (A & B & C) (A' & B' & C'). split; [lia|]. split.
  - intros n r E. destruct (B n r E) as (r1 & E1 & I1 & U1). destruct (B' n r1 E1) as (r2 & E2 & I2 & U2). exists r2. repeat split; [exact E2|congruence|auto].
  - intros t i L. rewrite C' by lia. apply C, L.
Qed.
Lemma keeps_offset f0 n t o f : keeps_fields f0 f -> types f0 <= t -> keeps_fields f0 (declare_field_offset n t o f).
Proof.
  intros (A & B & C) L. unfold declare_field_offset. split; [exact A|]. cbn [names lookup types]. split.
  - intros m r E. destruct (B m r E) as (r1 & E1 & I1 & U1). rewrite gp. destruct (String.eqb n m) eqn:EN.
    + apply String.eqb_eq in EN as ->. rewrite E1. eexists. split; [reflexivity|]. split; [exact I1|discriminate].
    + exists r1. auto.
  - intros t' i L'. unfold get_offset. cbn [lookup]. rewrite gp2. unfold pair_eqb at 1. cbn. destruct (Nat.eqb_spec t t'); [lia|]. cbn. apply C, L'.
Qed.
Lemma keeps_resolve f0 n b f : keeps_fields f0 f -> keeps_fields f0 (resolve_field n b f).
Proof.
  intros (A & B & C). unfold resolve_field. destruct (get String.eqb n (names f)) eqn:EG; [repeat split; auto|]. split; [exact A|]. cbn [names lookup types]. split; [|exact C].
  intros m r E. destruct (B m r E) as (r1 & E1 & I1 & U1). rewrite gp. destruct (String.eqb n m) eqn:EN.
  - apply String.eqb_eq in EN as ->. congruence.
  - exists r1. auto.
Qed.
Lemma keeps_type f0 f : keeps_fields f0 f -> keeps_fields f0 (fst (declare_type f)).
Proof. intros (A & B & C). split; cbn; [lia|]. split; [exact B|exact C]. Qed.

Section P.
Context {Op Loc Pat Body Locals : Type} (emit_ops : Body -> list Op) (emit_locs : Body -> list Loc) (empty : Body) (no_locals : Locals).
Notation params := (params Op Loc Pat Locals).
Notation parser := (parser Op Loc Pat Body Locals).
Definition grows (p p' : params) : Prop :=
  ext (code p) (code p') /\ ext (constants p) (constants p') /\ ext (patterns p) (patterns p') /\ ext (globals p) (globals p') /\
  ext (locations p) (locations p') /\ keeps_fields (pfields p) (pfields p') /\ ext (modules p) (modules p') /\ ext (methods p) (methods p').
Ltac gr := unfold grows; cbn; match goal with |- _ => idtac end; (split; [|split; [|split; [|split; [|split; [|split; [|split]]]]]]); first [assumption | apply ext_app; assumption | apply ext_refl | apply keeps_fields_refl | idtac].
Lemma grows_refl p : grows p p.
Proof. gr. Qed.
Lemma grows_trans p q r : grows p q -> grows q r -> grows p r.
Proof. intros (A & B & C & D & E & F & G & H) (A' & B' & C' & D' & E' & F' & G' & H'). gr; first [eapply ext_trans; eassumption|eapply keeps_fields_trans; eassumption]. Qed.
Lemma grows_keeps p q : grows p q -> keeps_all p q.
Proof. intros (A & B & C & D & E & F & G & H). split; [now apply ext_keeps|]. split; [now apply ext_keeps|]. split; [now apply ext_keeps|]. split; [now apply ext_keeps|]. split; [now apply ext_keeps|]. split; [exact F|]. split; now apply ext_keeps. Qed.
Lemma grows_const p p0 v : grows p0 p -> grows p0 (fst (declare_const v p)).
Proof.
  intros (A & B & C & D & E & F & G & H). unfold declare_const. destruct (position v (constants p)); gr.
Qed.
Lemma grows_set_constants p p0 c : grows p0 p -> ext (constants p0) c -> grows p0 (set_constants c p).
Proof. intros (A & B & C & D & E & F & G & H) X. gr. Qed.
Lemma grows_fields p p0 f : grows p0 p -> keeps_fields (pfields p0) f -> grows p0 (set_fields f p).
Proof. intros (A & B & C & D & E & F & G & H) X. gr. Qed.
Lemma grows_native p p0 m n : grows p0 p -> grows p0 (declare_native m n p).
Proof.
  intros (A & B & C & D & E & F & G & H). unfold declare_native. destruct (name_position m (modules p)); gr.
Qed.
Lemma grows_code p p0 b : grows p0 p -> grows p0 (add_code emit_ops emit_locs b p).
Proof. intros (A & B & C & D & E & F & G & H). gr. Qed.

Definition inv (p0 : params) (q : parser) : Prop :=
  grows p0 (shared q) /\ Forall (fun f => length (constants p0) <= fst f) (pending q) /\ Forall (fun t => types (pfields p0) <= t) (my_types q).
Lemma edit_pending (P : nat -> Prop) i (b : Body) l : Forall (fun f => P (fst f)) l -> Forall (fun f => P (fst f)) (edit i b l).
Proof.
  intro F. unfold edit. destruct (nth_error l i) as [[id b']|] eqn:E; [|exact F]. rewrite Forall_forall in *. intros f I.
  apply In_nth_error in I as (j & J). rewrite update_spec in J. destruct ((i =? j) && (i <? length l)).
  - injection J as <-. cbn. exact (F _ (nth_error_In _ _ E)).
  - exact (F _ (nth_error_In _ _ J)).
Qed.
Lemma inv_intro p0 q : grows p0 (shared q) -> Forall (fun f => length (constants p0) <= fst f) (pending q) -> Forall (fun t => types (pfields p0) <= t) (my_types q) -> inv p0 q.
Proof. intros. split; [assumption|]. now split. Qed.
Lemma act_inv p0 a q : inv p0 q -> inv p0 (act a q).
Proof.
  intros (G & F & T). destruct a; cbn; try (now apply inv_intro).
  - apply inv_intro; cbn; auto; now apply grows_const.
  - apply inv_intro; cbn; auto.
    + apply grows_set_constants; [exact G|]. apply ext_app, G.
    + apply Forall_app. split; [exact F|]. constructor; [|constructor]. cbn. destruct (proj1 (proj2 G)) as (m & ->). rewrite app_length. lia.
  - apply inv_intro; cbn; auto. destruct G as (A & B & C & D & E & K & L & M). gr.
  - apply inv_intro; cbn; auto.
    + apply grows_fields; [exact G|]. apply (keeps_type _ _ (proj1 (proj2 (proj2 (proj2 (proj2 (proj2 G))))))).
    + apply Forall_app. split; [exact T|]. constructor; [|constructor]. apply (proj1 (proj2 (proj2 (proj2 (proj2 (proj2 G)))))).
  - destruct (nth_error (my_types q) t) as [t'|] eqn:E; [|now apply inv_intro]. apply inv_intro; cbn; auto.
    apply grows_fields; [exact G|]. apply keeps_offset; [apply G|]. rewrite Forall_forall in T. apply T. eapply nth_error_In, E.
  - apply inv_intro; cbn; auto. apply grows_fields; [exact G|]. apply keeps_resolve, G.
  - destruct (match instance with None => _ | Some i => _ end); [|now apply inv_intro]. destruct (nth_error (my_types q) constructor); [|now apply inv_intro].
    apply inv_intro; cbn; auto. now apply grows_const.
  - apply inv_intro; cbn; auto. now apply grows_native.
  - apply inv_intro; cbn; auto. now apply edit_pending.
Qed.
Lemma emit_functions_grow p0 l p : Forall (fun f : nat * Body => length (constants p0) <= fst f) l -> grows p0 p -> grows p0 (fold_left (emit_function emit_ops emit_locs) l p).
Proof.
  revert p. induction l as [|f l IH]; intros p F G; [exact G|]. inversion F; subst. cbn. apply IH; [assumption|]. unfold emit_function.
  apply grows_set_constants; [now apply grows_code|]. cbn. apply ext_update; [apply G|assumption].
Qed.
Lemma teardown_grows p0 x q : inv p0 q -> grows p0 (shared (teardown emit_ops emit_locs x q)).
Proof.
  intros (G & F & T). unfold teardown.
  assert (F' : Forall (fun f => length (constants p0) <= fst f) (fold_left (fun l e => edit (fst e) (snd e) l) (late x) (pending q))).
  { generalize (pending q) F. induction (late x) as [|e l IH]; intros k K; [exact K|]. cbn. apply IH. now apply edit_pending. }
  assert (G' : grows p0 (add_patterns (pats q) (fold_left (emit_function emit_ops emit_locs) (fold_left (fun l e => edit (fst e) (snd e) l) (late x) (pending q)) (add_code emit_ops emit_locs (output q) (shared q))))).
  { destruct (emit_functions_grow p0 _ _ F' (grows_code _ _ (output q) G)) as (A & B & C & D & E & K & L & M). gr. }
  destruct (trailing x); exact G'.
Qed.
Lemma parse_grows x p : grows p (fst (parse_incremental emit_ops emit_locs empty x p)).
Proof.
  unfold parse_incremental. cbn. apply teardown_grows.
  assert (I : inv p (Parser p [] [] empty [] [])) by (apply inv_intro; cbn; [apply grows_refl|constructor|constructor]).
  revert I. generalize (@Parser Op Loc Pat Body Locals p [] [] empty [] []). induction (actions x) as [|a l IH]; intros q I; [exact I|]. cbn. apply IH. now apply act_inv.
Qed.
Lemma try_grows scan x b p : grows p (fst (try_incremental_compile emit_ops emit_locs empty scan x b p)).
Proof.
  unfold try_incremental_compile. destruct scan; [|apply grows_refl]. pose proof (parse_grows x p) as G. destruct (parse_incremental emit_ops emit_locs empty x p). exact G.
Qed.
Lemma restore_grown p p' : grows p p' -> restore (save p) p' = p.
Proof.
  intros (A & B & C & D & E & F & G & H). unfold restore, save. cbn. rewrite !ext_firstn by assumption. now destruct p.
Qed.
Lemma set_locals_grows l p q : grows (set_locals l p) q -> grows p (set_locals (locals p) q).
Proof. intros (A & B & C & D & E & F & G & H). cbn in *. gr. Qed.
Lemma failed_line scan (x : parse Pat Body Locals) (p p' : params) r : incremental_compile emit_ops emit_locs empty scan x p = (p', r) -> r <> Success -> p' = p.
Proof.
  unfold incremental_compile. pose proof (try_grows scan x true p) as G. destruct (try_incremental_compile _ _ _ _ _ _ _) as [q s]. intros E N.
  assert (p' = restore (save p) q) as -> by (destruct s; injection E as <- <-; congruence). now apply restore_grown.
Qed.
Lemma step_grows p e : grows p (fst (step emit_ops emit_locs empty no_locals p e)).
Proof.
  destruct e as [scan x|scan x]; cbn.
  - unfold incremental_compile. pose proof (try_grows scan x true p) as G. destruct (try_incremental_compile _ _ _ _ _ _ _) as [q s]. destruct s; cbn; [exact G|..]; rewrite restore_grown by exact G; apply grows_refl.
  - unfold eval_compile. pose proof (try_grows scan x false (set_locals no_locals p)) as G. destruct (try_incremental_compile _ _ _ _ _ _ _) as [q s]. cbn. now apply set_locals_grows in G.
Qed.
Lemma run_grows l (p : params) : grows p (run emit_ops emit_locs empty no_locals p l).
Proof. revert p. induction l as [|e l IH]; intro p; [apply grows_refl|]. cbn. eapply grows_trans; [apply step_grows|apply IH]. Qed.
Lemma eval_locals scan (x : parse Pat Body Locals) (p : params) : locals (fst (eval_compile emit_ops emit_locs empty no_locals scan x p)) = locals p.
Proof. unfold eval_compile. destruct (try_incremental_compile _ _ _ _ _ _ _). reflexivity. Qed.

(** indices of fields *)
Definition wf (f : fields) : Prop := NoDup (map fst (names f)) /\ map (fun e => field_index (snd e)) (names f) = seq 0 (length (names f)).
Lemma get_in n (l : list (string * fieldref)) : get String.eqb n l = None -> ~ In n (map fst l).
Proof. induction l as [|[a r] l IH]; cbn; [auto|]. destruct (String.eqb_spec a n); [discriminate|]. intros E [->|I]; [contradiction|]. now apply IH. Qed.
Lemma put_new n r (l : list (string * fieldref)) : get String.eqb n l = None -> put String.eqb n r l = l ++ [(n, r)].
Proof. induction l as [|[a w] l IH]; cbn; [auto|]. destruct (String.eqb a n); [discriminate|]. intro E. now rewrite IH. Qed.
Lemma put_old n r r' (l : list (string * fieldref)) : get String.eqb n l = Some r -> field_index r' = field_index r ->
  map fst (put String.eqb n r' l) = map fst l /\ map (fun e => field_index (snd e)) (put String.eqb n r' l) = map (fun e => field_index (snd e)) l.
Proof.
  intros E I. induction l as [|[a w] l IH]; [discriminate|]. cbn in E |- *. destruct (String.eqb a n).
  - injection E as ->. cbn. now rewrite I.
  - destruct (IH E) as [A B]. cbn. now rewrite A, B.
Qed.
Lemma put_wf f n r : wf f -> field_index r = match get String.eqb n (names f) with Some r => field_index r | None => length (names f) end ->
  forall lk t, wf (Fields (put String.eqb n r (names f)) lk t).
Proof.
  intros (N & I) E lk t. destruct (get String.eqb n (names f)) as [r0|] eqn:G.
  - destruct (put_old n r0 r (names f) G E) as [A B]. split; cbn.
    + now rewrite A.
    + rewrite B, I. f_equal. rewrite <- (map_length fst), <- A, map_length. reflexivity.
  - rewrite (put_new n r _ G). split; cbn.
    + rewrite map_app. apply get_in in G. cbn. rewrite <- (rev_involutive (map fst (names f) ++ [n])), rev_app_distr. apply NoDup_rev. cbn. constructor; [now rewrite <- in_rev|]. now apply NoDup_rev.
    + rewrite map_app, I, app_length. cbn. rewrite E, Nat.add_comm. cbn [Nat.add]. rewrite seq_S. reflexivity.
Qed.
Lemma wf_act a (q : parser) : wf (pfields (shared q)) -> wf (pfields (shared (act a q))).
Proof.
  intro W. destruct a; cbn; auto.
  - unfold declare_const. destruct (position _ _); exact W.
  - destruct (nth_error (my_types q) t); [|exact W]. cbn. unfold declare_field_offset. now apply put_wf.
  - unfold resolve_field. destruct (get String.eqb n (names (pfields (shared q)))) eqn:G; [exact W|]. apply put_wf; [exact W|]. now rewrite G.
  - destruct (match instance with None => _ | Some i => _ end); [|exact W]. destruct (nth_error (my_types q) constructor); [|exact W]. cbn.
    unfold declare_const. destruct (position _ _); exact W.
  - unfold declare_native. destruct (name_position _ _); exact W.
Qed.
Lemma fold_fields l (p : params) : pfields (fold_left (emit_function emit_ops emit_locs) l p) = pfields p.
Proof. revert p. induction l as [|f l IH]; intro p; [reflexivity|]. cbn. rewrite IH. reflexivity. Qed.
Lemma teardown_fields x (q : parser) : pfields (shared (teardown emit_ops emit_locs x q)) = pfields (shared q).
Proof. unfold teardown. destruct (trailing x); cbn; now rewrite fold_fields. Qed.
Lemma acts_wf l (q : parser) : wf (pfields (shared q)) -> wf (pfields (shared (fold_left (fun q a => act a q) l q))).
Proof. revert q. induction l as [|a l IH]; intros q W; [exact W|]. cbn. apply IH. now apply wf_act. Qed.
Lemma parse_wf (x : parse Pat Body Locals) (p : params) : wf (pfields p) -> wf (pfields (fst (parse_incremental emit_ops emit_locs empty x p))).
Proof. intro W. unfold parse_incremental. cbn. rewrite teardown_fields. now apply acts_wf. Qed.
Lemma step_wf (p : params) e : wf (pfields p) -> wf (pfields (fst (step emit_ops emit_locs empty no_locals p e))).
Proof.
  intro W. assert (T : forall scan (x : parse Pat Body Locals) b (p : params), wf (pfields p) -> wf (pfields (fst (try_incremental_compile emit_ops emit_locs empty scan x b p)))).
  { intros scan x b p' W'. unfold try_incremental_compile. destruct scan; [|exact W']. pose proof (parse_wf x p' W') as X. destruct (parse_incremental emit_ops emit_locs empty x p'). exact X. }
  destruct e as [scan x|scan x]; cbn.
  - unfold incremental_compile. pose proof (T scan x true p W) as G. destruct (try_incremental_compile _ _ _ _ _ _ _) as [q s]. destruct s; cbn in *; assumption.
  - unfold eval_compile. pose proof (T scan x false (set_locals no_locals p) W) as G. destruct (try_incremental_compile _ _ _ _ _ _ _) as [q s]. exact G.
Qed.
Lemma run_wf l (p : params) : wf (pfields p) -> wf (pfields (run emit_ops emit_locs empty no_locals p l)).
Proof. revert p. induction l as [|e l IH]; intros p W; [exact W|]. cbn. apply IH. now apply step_wf. Qed.
Lemma get_nth n r (l : list (string * fieldref)) : get String.eqb n l = Some r -> exists i, nth_error l i = Some (n, r).
Proof. induction l as [|[a w] l IH]; cbn; [discriminate|]. destruct (String.eqb_spec a n); [intro E; injection E as ->; subst; now exists 0|]. intro E. destruct (IH E) as (i & J). now exists (S i). Qed.
Lemma wf_inj f n m r s : wf f -> get String.eqb n (names f) = Some r -> get String.eqb m (names f) = Some s -> field_index r = field_index s -> n = m.
Proof.
  intros (N & I) A B E. apply get_nth in A as (i & A). apply get_nth in B as (j & B).
  assert (X : forall k e, nth_error (names f) k = Some e -> field_index (snd e) = k).
  { intros k e K. pose proof (map_nth_error (fun e => field_index (snd e)) _ _ K) as Y. rewrite I in Y. assert (k < length (names f)) by (apply nth_error_Some; congruence).
    rewrite (nth_error_nth' _ 0) in Y by now rewrite seq_length. rewrite seq_nth in Y by assumption. now injection Y. }
  pose proof (X _ _ A) as A'. pose proof (X _ _ B) as B'. cbn in A', B'. assert (IJ : i = j) by congruence. rewrite IJ, B in A. now injection A.
Qed.

(** an undeclared field stays undeclared until it is declared *)
Definition bad (n : string) (f : fields) : Prop := exists r, get String.eqb n (names f) = Some r /\ undeclared r = true.
Lemma act_bad n a (q : parser) : (forall t o, a <> AField t n o) -> bad n (pfields (shared q)) -> bad n (pfields (shared (act a q))).
Proof.
  intros NA (r & E & U). assert (W : bad n (pfields (shared q))) by (now exists r). destruct a; cbn; auto.
  - unfold declare_const. destruct (position _ _); exact W.
  - destruct (nth_error (my_types q) t); [|exact W]. cbn. unfold bad, declare_field_offset. cbn. exists r. rewrite gp. destruct (String.eqb_spec n0 n) as [->|]; [exfalso; eapply NA; reflexivity|]. auto.
  - unfold resolve_field. destruct (get String.eqb n0 (names (pfields (shared q)))) eqn:G; [exact W|]. exists r. cbn. rewrite gp. destruct (String.eqb_spec n0 n) as [->|]; [congruence|]. auto.
  - destruct (match instance with None => _ | Some i => _ end); [|exact W]. destruct (nth_error (my_types q) constructor); [|exact W]. cbn.
    unfold declare_const. destruct (position _ _); exact W.
  - unfold declare_native. destruct (name_position _ _); exact W.
Qed.
Lemma acts_bad n l (q : parser) : (forall t o, ~ In (AField t n o) l) -> bad n (pfields (shared q)) -> bad n (pfields (shared (fold_left (fun q a => act a q) l q))).
Proof.
  revert q. induction l as [|a l IH]; intros q NA B; [exact B|]. cbn. apply IH; [intros t o I; apply (NA t o); right; exact I|]. apply act_bad; [|exact B].
  intros t o ->. apply (NA t o). left. reflexivity.
Qed.
Lemma bad_errors n (x : parse Pat Body Locals) (p : params) : ~ declares n x -> bad n (pfields p) -> snd (parse_incremental emit_ops emit_locs empty x p) <> [].
Proof.
  intros ND B. unfold parse_incremental. cbn [snd].
  destruct (acts_bad n (actions x) (Parser p [] [] empty [] [])) as (r & E & U); [intros t o I; apply ND; exists t, o; exact I|exact B|].
  set (q := fold_left _ _ _) in *. clearbody q. unfold teardown.
  assert (F : field_errors (pfields (shared q)) <> []).
  { unfold field_errors. intro Z. apply map_eq_nil in Z. apply get_nth in E as (i & E). apply nth_error_In in E. assert (I : In (n, r) (filter (fun e => undeclared (snd e)) (names (pfields (shared q))))) by (apply filter_In; auto). rewrite Z in I. exact I. }
  destruct (trailing x); cbn; intro Z; apply app_eq_nil in Z as [Z Z2]; try discriminate; apply app_eq_nil in Z2 as [_ Z2]; contradiction.
Qed.
End P.
