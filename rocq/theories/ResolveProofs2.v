(** Proofs about scoping, continued: histories of captures; leaving blocks and functions. *)
From Coq Require Import String.
From Verif Require Import Base Seq SeqProofs Resolve ResolveSpec ResolveProofs.
Local Open Scope nat_scope.

Lemma is_global_spec l : is_global l = true <-> ldepth l = 0 /\ lscope l = 0.
Proof. unfold is_global. rewrite andb_true_iff, !Nat.eqb_eq. reflexivity. Qed.
Lemma free_of s l k : sound (frames s) -> ~ already_captured s k (slot l) -> free (slot l) (frames s) k.
Proof.
  intros S N i L. destruct (owner (frames s) (Datatypes.S k) i) as [w|] eqn:O; [|exfalso; exact (S k i L O)]. exists w. split; [reflexivity|]. intros ->. apply N. now exists i.
Qed.
Lemma fresh_of n s : sound (frames s) -> fresh n s -> unshared s n.
Proof. intros S F l I G k K. apply free_of; [exact S|]. apply (F l I); [|exact K]. intro X. apply is_global_spec in X. congruence. Qed.
Lemma near_fresh n s l : innermost n s = Some l -> ldepth l = 0 /\ lscope l = 0 \/ function_depth s <= S (ldepth l) -> unshared s n.
Proof. intros I H l' I' G k K. rewrite I in I'. injection I' as <-. destruct H as [H|H]; [apply is_global_spec in H; congruence|lia]. Qed.

(** upvalues of the frames *)
Lemma pop_ups n : forall min f, exists k, fups (pop_locals n min f) = firstn k (fups f).
Proof.
  induction n as [|i IH]; intros min f; cbn; [exists (length (fups f)); now rewrite firstn_all|].
  match goal with |- context [pop_locals i min ?g] => destruct (IH min g) as (k & K); assert (G : exists k, fups g = firstn k (fups f)) end.
  { destruct (nth_error (flocals f) i) as [l|]; [|exists (length (fups f)); now rewrite firstn_all]. destruct (min <=? lscope l); [|exists (length (fups f)); now rewrite firstn_all]. cbn.
    assert (R : forall m : list (bool * nat), exists k, removelast m = firstn k m).
    { intro m. destruct m as [|x m] using rev_ind; [now exists 0|]. exists (length m). rewrite removelast_app1. replace (length m) with (length m + 0) by lia. rewrite firstn_app_2. cbn. now rewrite app_nil_r. }
    destruct (last (fups f) (false, 0)) as [[] j]; [destruct (j =? i); [apply R|]|]; (exists (length (fups f)); now rewrite firstn_all). }
  destruct G as (k' & G). rewrite K, G. exists (Nat.min k k'). now rewrite firstn_firstn.
Qed.
Lemma pop_locals_filter n : forall min f, length (flocals f) = n -> sorted f -> flocals (pop_locals n min f) = filter (fun a => lscope a <? min) (flocals f).
Proof.
  induction n as [|i IH]; intros min f L S; [destruct (flocals f) eqn:E; [cbn; now rewrite E|discriminate]|].
  cbn [pop_locals]. destruct (nth_error (flocals f) i) as [l|] eqn:E; [|apply nth_error_None in E; lia]. destruct (min <=? lscope l) eqn:M.
  - set (g := Frame (removelast (flocals f)) _).
    destruct (flocals f) as [|y m] eqn:FL using rev_ind; [discriminate|]. clear IHm. rewrite app_length in L. cbn in L. assert (i = length m) as -> by lia. rewrite nth_error_app2, Nat.sub_diag in E by lia. injection E as ->.
    assert (GL : flocals g = m) by (subst g; cbn; apply removelast_app1).
    rewrite IH; [|now rewrite GL|].
    + rewrite GL, filter_app. cbn [filter]. apply Nat.leb_le in M. replace (lscope l <? min) with false by (symmetry; apply Nat.ltb_ge; lia). now rewrite app_nil_r.
    + intros a b x z LE A B. rewrite GL in A, B. apply (S a b x z LE); rewrite FL; (rewrite nth_error_app1; [assumption|apply nth_error_Some; congruence]).
  - assert (ALL : forall a, In a (flocals f) -> lscope a < min).
    { intros a I. apply In_nth_error in I as (j & A). assert (j <= i) by (assert (j < length (flocals f)) by (apply nth_error_Some; congruence); lia). pose proof (S j i a l H A E). apply Nat.leb_gt in M. lia. }
    assert (NOP : forall m, pop_locals m min f = f).
    { induction m as [|m IHm]; [reflexivity|]. cbn. destruct (nth_error (flocals f) m) as [a|] eqn:A; [|exact IHm]. apply nth_error_In, ALL, Nat.leb_gt in A. now rewrite A. }
    rewrite NOP. clear - ALL. induction (flocals f) as [|x l IH]; [reflexivity|]. cbn [filter]. replace (lscope x <? min) with true by (symmetry; apply Nat.ltb_lt, ALL; now left). f_equal. apply IH. intros; apply ALL; now right.
Qed.
Lemma sound_cut pre cur cur' k : fups cur' = firstn k (fups cur) -> sound (pre ++ [cur]) -> sound (pre ++ [cur']).
Proof.
  intros E S d i L.
  assert (U : forall e, e < length pre -> ups (pre ++ [cur']) e = ups (pre ++ [cur]) e) by (intros e LE; unfold ups; now rewrite !nth_error_app1 by assumption).
  destruct (Nat.ltb_spec d (length pre)) as [LD|LD].
  - rewrite (owner_low (pre ++ [cur])) by (intros e LE; apply U; lia). apply S. now rewrite <- U.
  - destruct (Nat.eq_dec d (length pre)) as [->|ND].
    + assert (X : ups (pre ++ [cur']) (length pre) = firstn k (fups cur)) by (unfold ups; rewrite nth_error_app2, Nat.sub_diag by lia; exact E).
      assert (Y : ups (pre ++ [cur]) (length pre) = fups cur) by (unfold ups; rewrite nth_error_app2, Nat.sub_diag by lia; reflexivity).
      rewrite X in L. specialize (S (length pre) i). rewrite Y in S. assert (LF : i < length (fups cur)) by (rewrite firstn_length in L; lia). specialize (S LF).
      cbn in *. rewrite X. rewrite Y in S. destruct (nth_error (firstn k (fups cur)) i) as [e|] eqn:N; [|apply nth_error_None in N; lia]. apply firstn_nth in N. rewrite N in S.
      destruct e as [[] j]; [exact S|]. now rewrite (owner_low (pre ++ [cur])) by (intros e LE; apply U; lia).
    + exfalso. unfold ups in L. rewrite nth_error_app2 in L by lia. destruct (d - length pre) as [|m] eqn:Z; [lia|]. cbn in L. destruct m; cbn in L; lia.
Qed.
Lemma tame_history b s : tame b s -> history b s.
Proof. induction 1; [constructor|econstructor; eauto]. Qed.
Lemma tame_sound b s : tame b s -> sound (frames s).
Proof.
  induction 1 as [|b s a b' s' T IH B F A]; [intros [|[|k]] i L; cbn in L; lia|]. pose proof (tame_history b s T) as H. pose proof (history_inv b s H) as (pre & cur & E & SD & _ & C & _).
  pose proof (current_of s pre cur E) as CU. pose proof (depth_of s pre cur E) as FD. destruct a; cbn in A.
  - unfold declare_local in A. rewrite CU in A. destruct (existsb _ _); [discriminate|]. injection A as <-. cbn. rewrite E, removelast_app1. rewrite E in IH. eapply (sound_cut pre cur _ (length (fups cur))); [cbn; now rewrite firstn_all|exact IH].
  - injection A as <-. unfold init_local. rewrite CU. destruct (nth_error _ _); [|exact IH]. cbn. rewrite E, removelast_app1. rewrite E in IH. eapply (sound_cut pre cur _ (length (fups cur))); [cbn; now rewrite firstn_all|exact IH].
  - injection A as <-. exact IH.
  - destruct (scope_depth s); [discriminate|]. injection A as <-. cbn. rewrite CU, E, removelast_app1. rewrite E in IH. destruct (pop_ups (length (flocals cur)) (S n) cur) as (k & K). eapply sound_cut; eassumption.
  - injection A as <-. cbn. intros k i L.
    assert (U : forall e, ups (frames s ++ [empty_frame]) e = ups (frames s) e).
    { intro e. unfold ups. destruct (Nat.ltb_spec e (length (frames s))); [now rewrite nth_error_app1|]. rewrite nth_error_app2 by assumption. rewrite (proj2 (nth_error_None (frames s) e)) by assumption.
      destruct (e - length (frames s)) as [|[|q]]; reflexivity. }
    rewrite (owner_ups (frames s)) by exact U. apply IH. now rewrite <- U.
  - destruct (function_depth s); [discriminate|]. destruct (scope_depth s); [discriminate|]. injection A as <-. cbn. rewrite E, removelast_app1. rewrite E in IH. intros k i L.
    assert (LK : k < length pre). { destruct (Nat.ltb_spec k (length pre)); [assumption|]. unfold ups in L. rewrite (proj2 (nth_error_None pre k)) in L by assumption. cbn in L. lia. }
    assert (U : forall e, e < length pre -> ups pre e = ups (pre ++ [cur]) e) by (intros e LE; unfold ups; now rewrite nth_error_app1 by assumption).
    rewrite (owner_low (pre ++ [cur])) by (intros e LE; apply U; lia). apply IH. now rewrite <- U.
  - injection A as <-. pose proof (resolve_spec b s n H (fresh_of n s IH (F n eq_refl))) as R. destruct (resolve_reference n s) as [s' r]. now apply R.
Qed.

(** while a function is open *)
Lemma bubble_ups ds : forall i fs k, exists m, ups (fst (bubble ds i fs)) k = ups fs k ++ m.
Proof.
  assert (A : forall d e fs k, exists m, ups (add_up d e fs) k = ups fs k ++ m).
  { intros d e fs k. destruct (Nat.ltb_spec d (length fs)); [now apply ups_grow|]. unfold add_up. rewrite (proj2 (nth_error_None fs d)) by assumption. exists []. now rewrite app_nil_r. }
  induction ds as [|d ds IH]; intros i fs k; [exists []; cbn; now rewrite app_nil_r|]. cbn. destruct (find_up false i (ups fs d)); [apply IH|].
  destruct (IH (length (ups fs d)) (add_up d (false, i) fs) k) as (m & ->). destruct (A d (false, i) fs k) as (m' & ->). rewrite <- app_assoc. eauto.
Qed.
Lemma resolve_ups n s k : exists m, ups (frames (fst (resolve_reference n s))) k = ups (frames s) k ++ m.
Proof.
  unfold resolve_reference. destruct (find _ _); [exists []; now rewrite app_nil_r|]. destruct (enclosing _ _ _) as [[d l]|].
  - unfold resolve_upvalue. set (t := mark_captured d (lindex l) s). pose proof (mark_ups d (lindex l) s k) as M. fold t in M.
    assert (G : exists m q i, fst (let '(fs, index) := match find_up true (lindex l) (ups (frames t) d) with Some i => (frames t, i) | None => (add_up d (true, lindex l) (frames t), length (ups (frames t) d)) end in bubble (seq (S d) (function_depth t - S d)) index fs) = fst (bubble (seq (S d) (function_depth t - S d)) i q) /\ ups q k = ups (frames t) k ++ m).
    { destruct (find_up true (lindex l) (ups (frames t) d)) as [i|]; [exists [], (frames t), i; now rewrite app_nil_r|].
      destruct (Nat.ltb_spec d (length (frames t))) as [L|L].
      - destruct (ups_grow d (true, lindex l) (frames t) k L) as (m & X). exists m. eauto.
      - exists []. eexists _, _. split; [reflexivity|]. unfold add_up. rewrite (proj2 (nth_error_None _ d)) by assumption. now rewrite app_nil_r. }
    destruct G as (m & q & i & G1 & G2). destruct (match find_up true (lindex l) (ups (frames t) d) with Some i => _ | None => _ end) as [fs index].
    destruct (bubble_ups (seq (S d) (function_depth t - S d)) i q k) as (m' & B). rewrite <- G1, G2, M in B. destruct (bubble _ index fs) as [fs' index']. cbn in B |- *. rewrite B, <- app_assoc. eauto.
  - destruct (0 <? function_depth s); [destruct (find _ _)|]; (exists []; now rewrite app_nil_r).
Qed.
Lemma set_nth s f k : k < length (frames s) - 1 -> nth_error (frames (set_current f s)) k = nth_error (frames s) k.
Proof.
  intro L. unfold set_current. cbn. destruct (frames s) as [|x l] using rev_ind; [cbn in L; lia|]. rewrite removelast_app1. rewrite app_length in L. cbn in L. rewrite !nth_error_app1 by lia. reflexivity.
Qed.
Lemma set_length s f : frames s <> [] -> length (frames (set_current f s)) = length (frames s).
Proof. intro N. unfold set_current. cbn. destruct (frames s) as [|x l] using rev_ind; [congruence|]. rewrite removelast_app1, !app_length. reflexivity. Qed.
Lemma act_below d s a s' : frames s <> [] -> d < length (frames s) -> act a s = Some s' -> d < length (frames s') ->
  frames s' <> [] /\ forall k, k < d -> (exists m, ups (frames s') k = ups (frames s) k ++ m) /\ forall f, nth_error (frames s) k = Some f -> exists g, nth_error (frames s') k = Some g /\ simf f g.
Proof.
  intros NE L A L'. split; [intro Z; rewrite Z in L'; cbn in L'; lia|]. intros k K.
  assert (SAME : nth_error (frames s') k = nth_error (frames s) k -> (exists m, ups (frames s') k = ups (frames s) k ++ m) /\ forall f, nth_error (frames s) k = Some f -> exists g, nth_error (frames s') k = Some g /\ simf f g).
  { intro E. split; [exists []; unfold ups; now rewrite E, app_nil_r|]. intros f F. exists f. split; [now rewrite E|apply simf_refl]. }
  destruct a; cbn in A.
  - unfold declare_local in A. destruct (existsb _ _); [discriminate|]. injection A as <-. apply SAME, set_nth. lia.
  - injection A as <-. apply SAME. unfold init_local. destruct (nth_error (flocals (current s)) i); [|reflexivity]. apply set_nth. lia.
  - injection A as <-. apply SAME. reflexivity.
  - destruct (scope_depth s); [discriminate|]. injection A as <-. apply SAME. unfold pop_scope. apply (set_nth s). lia.
  - injection A as <-. apply SAME. cbn. apply nth_error_app1. lia.
  - destruct (function_depth s); [discriminate|]. destruct (scope_depth s); [discriminate|]. injection A as <-. apply SAME. cbn in *. destruct (frames s) as [|x l] using rev_ind; [congruence|]. rewrite removelast_app1 in *. rewrite nth_error_app1 by lia. reflexivity.
  - injection A as <-. split; [apply resolve_ups|]. intros f F. destruct (resolve_simf n s) as [R _]. destruct (F2_nth' _ _ _ R k f F) as (g & G & SG). eauto.
Qed.
Lemma continues_below d s s' : continues d s s' -> frames s <> [] -> d < length (frames s) ->
  frames s' <> [] /\ d < length (frames s') /\ forall k, k < d -> (exists m, ups (frames s') k = ups (frames s) k ++ m) /\ forall f, nth_error (frames s) k = Some f -> exists g, nth_error (frames s') k = Some g /\ simf f g.
Proof.
  induction 1 as [s|s a s' s'' A L' C IH]; intros NE L.
  - split; [exact NE|]. split; [exact L|]. intros k K. split; [exists []; now rewrite app_nil_r|]. intros f F. exists f. split; [exact F|apply simf_refl].
  - destruct (act_below d s a s' NE L A L') as [NE' B]. destruct (IH NE' L') as (I1 & I2 & I3). split; [exact I1|]. split; [exact I2|]. intros k K. destruct (B k K) as [(m & B1) B2]. destruct (I3 k K) as [(m' & C1) C2].
    split; [rewrite C1, B1, <- app_assoc; eauto|]. intros f F. destruct (B2 f F) as (g & G1 & G2). destruct (C2 g G1) as (h & H1 & H2). exists h. split; [exact H1|].
    assert (T : Forall2 simf [f] [h]) by (eapply F2_simf_trans; repeat constructor; eassumption). now inversion T.
Qed.
Lemma owner_below fs d : forall i v, owner fs d i = Some v -> fst v < d.
Proof.
  induction d as [|d IH]; intros i v O; [discriminate|]. cbn in O. destruct (nth_error (ups fs d) i) as [[[] j]|]; [injection O as <-; cbn; lia| |discriminate]. specialize (IH _ _ O). lia.
Qed.
Lemma history_nonempty b s : history b s -> frames s <> [].
Proof. intros H E. destruct (history_inv b s H) as (pre & cur & X & _). rewrite E in X. now destruct pre. Qed.
Lemma continues_owner b d s s' i v : history b s -> d = function_depth s -> continues d s s' -> owner (frames s) d i = Some v ->
  owner (frames s') d i = Some v /\ forall x, name_of s v = Some x -> name_of s' v = Some x.
Proof.
  intros H -> C O. pose proof (history_nonempty b s H) as NE. assert (L : function_depth s < length (frames s)) by (unfold function_depth; destruct (frames s); [congruence|cbn; lia]).
  destruct (continues_below _ s s' C NE L) as (_ & _ & B). split.
  - revert O. apply owner_ext. intros k K. now apply B.
  - intros x X. pose proof (owner_below _ _ _ _ O) as LT. destruct (B (fst v) LT) as [_ B2]. unfold name_of in *. destruct (nth_error (frames s) (fst v)) as [f|] eqn:F; [|discriminate].
    destruct (B2 f eq_refl) as (g & G & SG). rewrite G. destruct (nth_error (flocals f) (snd v)) as [l|] eqn:N; [|discriminate]. destruct (F2_nth' _ _ _ SG _ _ N) as (l' & N' & SL). rewrite N'. cbn in *. destruct SL as (SL & _). congruence.
Qed.
Lemma end_function s s' i v : frames s <> [] -> act AEndFunction s = Some s' -> owner (frames s) (function_depth s) i = Some v ->
  exists e, nth_error (closed_locals s') i = Some e /\
    match e with (true, j) => v = (function_depth s', j) | (false, j) => owner (frames s') (function_depth s') j = Some v end.
Proof.
  intros NE A O. cbn in A. destruct (function_depth s) as [|k] eqn:FD; [discriminate|]. destruct (scope_depth s); [discriminate|]. injection A as <-.
  assert (SH : exists l y x, frames s = (l ++ [y]) ++ [x]).
  { destruct (exists_last NE) as (l & x & E). unfold function_depth in FD. rewrite E, app_length in FD. cbn in FD. assert (NL : l <> []) by (intros ->; cbn in FD; lia). destruct (exists_last NL) as (l' & y & ->). eauto. }
  destruct SH as (l & y & x & E). unfold function_depth in FD. rewrite E in *. rewrite !app_length in FD. cbn in FD. assert (K : k = length l) by lia. subst k. rewrite removelast_app1.
  assert (U : ups ((l ++ [y]) ++ [x]) (length l) = fups y). { unfold ups. rewrite nth_error_app1 by (rewrite app_length; cbn; lia). rewrite nth_error_app2, Nat.sub_diag by lia. reflexivity. }
  cbn [owner] in O. rewrite U in O. unfold closed_locals, current, function_depth. cbn [frames]. rewrite last_app. destruct (nth_error (fups y) i) as [e|]; [|discriminate]. exists e. split; [reflexivity|].
  rewrite app_length. cbn [length]. replace (length l + 1 - 1) with (length l) by lia. destruct e as [[] j]; [now injection O as <-|]. rewrite (owner_low ((l ++ [y]) ++ [x])); [exact O|].
  intros e LE. unfold ups. rewrite (nth_error_app1 (l ++ [y]) [x]) by (rewrite app_length; lia). reflexivity.
Qed.

(** inside a block or a function *)
Definition fns (b : list bracket) : nat := length (lower b).
Lemma inv_length b s : inv b s -> length (frames s) = S (fns b) /\ scope_depth s = length b.
Proof. intros (pre & cur & E & SD & F & _). rewrite E, app_length. apply F2_length in F. rewrite rev_length in F. cbn. unfold fns. split; [lia|exact SD]. Qed.
(** the frames [fs] kept: those before the last as they were, the last with more variables of deeper scopes *)
Definition keeps (c : nat) (fs : list frame) (s : scopes) : Prop :=
  exists pre cur pre2 cur2 rest m ext, fs = pre ++ [cur] /\ frames s = pre2 ++ cur2 :: rest /\ Forall2 simf pre pre2 /\
    flocals cur2 = m ++ ext /\ Forall2 sim (flocals cur) m /\ (forall a, In a m -> lscope a <= c) /\ (forall a, In a ext -> c < lscope a).
Lemma F2_trans {A} (R : A -> A -> Prop) : (forall a b c, R a b -> R b c -> R a c) -> forall l m n, Forall2 R l m -> Forall2 R m n -> Forall2 R l n.
Proof. intros T l m n H. revert n. induction H; intros n H'; inversion H'; subst; constructor; eauto. Qed.
Lemma sim_trans a b c : sim a b -> sim b c -> sim a c.
Proof. unfold sim. intuition congruence. Qed.
Lemma F2_sim_refl l : Forall2 sim l l. Proof. induction l; constructor; auto using sim_refl. Qed.
Lemma sim_all (P : nat -> Prop) l m : Forall2 sim l m -> (forall a, In a l -> P (lscope a)) -> forall a, In a m -> P (lscope a).
Proof. intros H X a I. apply In_nth_error in I as (i & I). destruct (F2_nth _ _ _ H i a I) as (a' & I' & SA). destruct SA as (_ & _ & <- & _). apply X. eapply nth_error_In, I'. Qed.
Lemma keeps_sim c fs s fs' k : keeps c fs s -> Forall2 simf (frames s) fs' -> keeps c fs (Scopes fs' k).
Proof.
  intros (pre & cur & pre2 & cur2 & rest & m & ext & E & E2 & P & L & M & Y & X) S. rewrite E2 in S. apply Forall2_app_inv_l in S as (p & q & S1 & S2 & ->). inversion S2 as [|? cur3 ? rest' S3 S4]; subst.
  unfold simf in S3. rewrite L in S3. apply Forall2_app_inv_l in S3 as (m' & ext' & S5 & S6 & S7).
  exists pre, cur, p, cur3, rest', m', ext'. split; [reflexivity|]. split; [reflexivity|]. split; [eapply F2_simf_trans; eassumption|]. split; [exact S7|]. split; [eapply F2_trans; eauto using sim_trans|].
  split; [exact (sim_all (fun x => x <= c) m m' S5 Y)|exact (sim_all (fun x => c < x) ext ext' S6 X)].
Qed.
Lemma keeps_set c fs s f k : keeps c fs s ->
  (exists l, flocals f = flocals (current s) ++ l /\ forall a, In a l -> c < lscope a) \/
  (exists min, c < min /\ flocals f = filter (fun a => lscope a <? min) (flocals (current s))) -> keeps c fs (Scopes (frames (set_current f s)) k).
Proof.
  intros (pre & cur & pre2 & cur2 & rest & m & ext & E & E2 & P & L & M & Y & X) H. unfold set_current. cbn [frames]. rewrite E2. unfold current in H. rewrite E2 in H. destruct rest as [|z rest].
  - rewrite removelast_app1. rewrite last_app, L in H. destruct H as [(l & F & HL)|(min & LM & F)].
    + exists pre, cur, pre2, f, [], m, (ext ++ l). rewrite F, app_assoc. repeat (split; [first [reflexivity|assumption]|]). intros a I. apply in_app_or in I as [I|I]; auto.
    + exists pre, cur, pre2, f, [], m, (filter (fun a => lscope a <? min) ext). rewrite F, filter_app. split; [exact E|]. split; [reflexivity|]. split; [exact P|]. split.
      * f_equal. clear - Y LM. induction m as [|x m IH]; [reflexivity|]. cbn [filter]. replace (lscope x <? min) with true by (symmetry; apply Nat.ltb_lt; pose proof (Y x (or_introl eq_refl)); lia). f_equal. apply IH. intros; apply Y; now right.
      * split; [exact M|]. split; [exact Y|]. intros a I. apply filter_In in I as [I _]. auto.
  - assert (NR : z :: rest <> []) by discriminate. destruct (exists_last NR) as (r & x & ->). exists pre, cur, pre2, cur2, (r ++ [f]), m, ext.
    replace (pre2 ++ cur2 :: r ++ [x]) with ((pre2 ++ cur2 :: r) ++ [x]) by (rewrite <- app_assoc; reflexivity). rewrite removelast_app1, <- app_assoc. repeat (split; [first [reflexivity|assumption]|]). exact X.
Qed.
Lemma lower_app b c : length (lower (b ++ c)) = length (lower b) + length (lower c).
Proof. induction b as [|[] b IH]; cbn; [reflexivity|exact IH|lia]. Qed.
Lemma keeps_act base b s a b' s' fs : base <> [] -> inv (b ++ base) s -> brackets a (b ++ base) (b' ++ base) -> act a s = Some s' ->
  length fs <= S (fns base) -> keeps (length base - 1) fs s -> keeps (length base - 1) fs s'.
Proof.
  intros NB IV BR A LF KP. destruct (inv_length _ _ IV) as [LN SD]. pose proof (act_inv _ _ _ _ _ IV BR A) as IV'. destruct (inv_length _ _ IV') as [LN' SD'].
  assert (POS : 0 < length base) by (destruct base; [congruence|cbn; lia]). unfold fns in *. rewrite lower_app in LN, LN'. rewrite app_length in SD, SD'.
  destruct IV as (pre0 & cur0 & E0 & _ & _ & C0 & _). pose proof (current_of s pre0 cur0 E0) as CU. destruct a; cbn in A.
  - unfold declare_local in A. destruct (existsb _ _); [discriminate|]. injection A as <-. apply keeps_set; [exact KP|]. left. eexists. split; [reflexivity|]. intros a [<-|[]]. cbn. lia.
  - injection A as <-. unfold init_local. destruct (nth_error (flocals (current s)) i) as [l|] eqn:N; [|exact KP]. apply (keeps_sim _ _ s); [exact KP|]. rewrite E0 at 1. cbn. rewrite E0, removelast_app1. apply Forall2_app; [apply F2_simf_refl|]. constructor; [|constructor].
    rewrite CU in *. apply (update_sim _ i l _ N). repeat split.
  - injection A as <-. apply (keeps_sim _ _ s); [exact KP|apply F2_simf_refl].
  - cbn in BR. assert (LB : length b = S (length b')). { apply (f_equal (@length _)) in BR. cbn in BR. rewrite !app_length in BR. lia. }
    rewrite SD in A. rewrite LB in A. cbn in A. injection A as <-. unfold pop_scope. apply (keeps_set _ _ s); [exact KP|]. right. exists (S (length b' + length base)). split; [lia|]. apply pop_locals_filter; [reflexivity|]. rewrite CU. apply C0.
  - injection A as <-. destruct KP as (pre & cur & pre2 & cur2 & rest & m & ext & E & E2 & P & L & M & Y & X). exists pre, cur, pre2, cur2, (rest ++ [empty_frame]), m, ext. cbn. rewrite E2, <- app_assoc. repeat (split; [first [reflexivity|assumption]|]). exact X.
  - destruct (function_depth s); [discriminate|]. destruct (scope_depth s); [discriminate|]. injection A as <-. cbn [frames] in *.
    destruct KP as (pre & cur & pre2 & cur2 & rest & m & ext & E & E2 & P & L & M & Y & X). rewrite E2 in *. destruct rest as [|z rest].
    + exfalso. rewrite removelast_app1 in LN'. apply F2_length in P. rewrite app_length in LN. cbn in LN. rewrite E, app_length in LF. cbn in LF. lia.
    + assert (NR : z :: rest <> []) by discriminate. destruct (exists_last NR) as (r & x & ->). exists pre, cur, pre2, cur2, r, m, ext. cbn [frames].
      replace (pre2 ++ cur2 :: r ++ [x]) with ((pre2 ++ cur2 :: r) ++ [x]) by (rewrite <- app_assoc; reflexivity). rewrite removelast_app1. repeat (split; [first [reflexivity|assumption]|]). exact X.
  - injection A as <-. destruct (resolve_simf n s) as [R1 _]. pose proof (keeps_sim _ _ _ _ (scope_depth (fst (resolve_reference n s))) KP R1) as K. now destruct (fst (resolve_reference n s)).
Qed.
Lemma keeps_inside base b s b' s' fs : inside base b s b' s' -> base <> [] -> inv (b ++ base) s -> length fs <= S (fns base) -> keeps (length base - 1) fs s -> keeps (length base - 1) fs s' /\ inv (b' ++ base) s'.
Proof. induction 1 as [|b s a b' s' b'' s'' B A I IH]; intros NB IV LF K; [auto|]. apply IH; [exact NB|eapply act_inv; eauto|exact LF|eapply keeps_act; eauto]. Qed.
Lemma sim_declaration l m : Forall2 sim l m -> map declaration m = map declaration l.
Proof. induction 1 as [|a b l m S F IH]; [reflexivity|]. cbn. rewrite IH. f_equal. unfold declaration. destruct S as (-> & -> & -> & ->). reflexivity. Qed.
Lemma simf_variables fs gs : Forall2 simf fs gs -> Forall2 sim (flat_map flocals fs) (flat_map flocals gs).
Proof. induction 1; cbn; [constructor|]. now apply Forall2_app. Qed.
Lemma inside_inv base b s b' s' : inside base b s b' s' -> inv (b ++ base) s -> inv (b' ++ base) s'.
Proof. induction 1 as [|b s a b' s' b'' s'' B A I IH]; intro IV; [exact IV|]. apply IH. eapply act_inv; eauto. Qed.
Lemma inside_continues base b s b' s' : inside base b s b' s' -> inv (b ++ base) s -> continues (fns base) s s'.
Proof.
  induction 1 as [|b s a b' s' b'' s'' B A I IH]; intro IV; [constructor|]. pose proof (act_inv _ _ _ _ _ IV B A) as IV'. econstructor; [exact A| |exact (IH IV')].
  destruct (inv_length _ _ IV') as [LN _]. unfold fns in *. rewrite lower_app in LN. lia.
Qed.
Lemma F2_of_nth {A B} (R : A -> B -> Prop) l : forall m, length l = length m -> (forall i a, nth_error l i = Some a -> exists b, nth_error m i = Some b /\ R a b) -> Forall2 R l m.
Proof.
  induction l as [|x l IH]; intros [|y m] L H; try discriminate; constructor; [destruct (H 0 x eq_refl) as (z & Z & Q); injection Z as ->; exact Q|].
  apply IH; [now injection L|]. intros i a E. exact (H (S i) a E).
Qed.
Lemma block_variables k b s s1 s2 s3 o c : history b s ->
  (o, c) = match k with Block => (AEnter, ALeave) | Function => (AFunction, AEndFunction) end ->
  act o s = Some s1 -> inside (k :: b) [] s1 [] s2 -> act c s2 = Some s3 -> map declaration (variables s3) = map declaration (variables s).
Proof.
  intros H EK A1 IN A3. pose proof (history_inv b s H) as IV. assert (B1 : brackets o b (k :: b)) by (destruct k; injection EK as -> ->; reflexivity). pose proof (act_inv _ _ _ _ _ IV B1 A1) as IV1.
  destruct (inv_length _ _ IV) as [LN _]. pose proof IV as (pre & cur & E & SD & F & C & P).
  assert (K0 : keeps (length (k :: b) - 1) (frames s) s1).
  { exists pre, cur, pre, cur, (match k with Block => [] | Function => [empty_frame] end), (flocals cur), []. split; [exact E|]. cbn [length]. rewrite Nat.sub_succ, Nat.sub_0_r.
    destruct C as (_ & CP & _). destruct k; injection EK as -> ->; cbn in A1; injection A1 as <-; cbn; (split; [now rewrite E, <- ?app_assoc|]; split; [apply F2_simf_refl|]; split; [now rewrite app_nil_r|]; split; [apply F2_sim_refl|]; split; [exact CP|intros ? []]). }
  destruct (keeps_inside (k :: b) [] s1 [] s2 (frames s) IN) as [K2 IV2]; [discriminate|exact IV1| |exact K0|].
  { unfold fns in *. destruct k; cbn; lia. }
  destruct (inv_length _ _ IV2) as [LN2 SD2]. destruct K2 as (pre' & cur' & pre2 & cur2 & rest & m & ext & E' & E2 & P2 & L & M & Y & X). cbn [app] in *. pose proof (F2_length _ _ _ P2) as LP2. unfold variables.
  rewrite E'. rewrite E' in LN. rewrite app_length in LN. cbn in LN. rewrite E2, app_length in LN2. cbn [length] in *. unfold fns in *.
  assert (FIN : forall f, Forall2 sim (flocals cur') (flocals f) -> map declaration (flat_map flocals (pre2 ++ [f])) = map declaration (flat_map flocals (pre' ++ [cur']))).
  { intros f S. apply sim_declaration, simf_variables, Forall2_app; [exact P2|]. constructor; [exact S|constructor]. }
  destruct k; injection EK as -> ->; cbn [lower length] in LN2; cbn in A3.
  - assert (rest = []) as -> by (destruct rest; [reflexivity|cbn in LN2; lia]). rewrite SD2 in A3. cbn in A3. injection A3 as <-. unfold pop_scope, current. cbn [frames set_current]. rewrite E2, last_app, removelast_app1. apply FIN.
    assert (SO : sorted cur2). { destruct IV2 as (q & c2 & Q1 & _ & _ & (Q2 & _) & _). rewrite E2 in Q1. apply app_inj_tail in Q1 as [_ ->]. exact Q2. }
    rewrite pop_locals_filter by (auto; reflexivity). rewrite L, filter_app. cbn [length] in *.
    replace (filter (fun a => lscope a <? S (length b)) ext) with (@nil local).
    + rewrite app_nil_r. replace (filter (fun a => lscope a <? S (length b)) m) with m; [exact M|]. clear - Y. induction m as [|x m IH]; [reflexivity|]. cbn [filter].
      replace (lscope x <? S (length b)) with true by (symmetry; apply Nat.ltb_lt; pose proof (Y x (or_introl eq_refl)); lia). f_equal. apply IH. intros; apply Y; now right.
    + clear - X. induction ext as [|x m IH]; [reflexivity|]. cbn [filter]. replace (lscope x <? S (length b)) with false by (symmetry; apply Nat.ltb_ge; pose proof (X x (or_introl eq_refl)); lia). apply IH. intros; apply X; now right.
  - rewrite <- E'. clear K0 E' E2 P2 L M Y X LP2 FIN LN LN2. destruct (inv_length _ _ IV) as [LN _]. destruct (inv_length _ _ IV1) as [LN1 _]. destruct (inv_length _ _ IV2) as [LN2 _]. unfold fns in *. cbn in LN1, LN2.
    pose proof (inside_continues _ _ _ _ _ IN IV1) as CO. cbn in A1. injection A1 as <-. cbn [frames] in *. destruct (continues_below _ _ _ CO) as (_ & _ & B).
    { cbn. intro Z. now destruct (frames s). }
    { unfold fns. cbn. rewrite app_length. cbn. lia. }
    destruct (function_depth s2); [discriminate|]. rewrite SD2 in A3. injection A3 as <-. cbn [frames]. assert (N2 : frames s2 <> []) by (intro Z; rewrite Z in LN2; discriminate). destruct (exists_last N2) as (r & x & E2). rewrite E2 in *. rewrite removelast_app1.
    rewrite app_length in LN2. cbn in LN2. apply sim_declaration, simf_variables, F2_of_nth; [lia|]. intros i a N. assert (LI : i < length (frames s)) by (apply nth_error_Some; congruence).
    destruct (B i) as [_ B2]; [unfold fns; cbn; lia|]. destruct (B2 a) as (g & G & SG); [cbn; rewrite nth_error_app1; assumption|]. exists g. split; [|exact SG]. rewrite nth_error_app1 in G by lia. exact G.
Qed.
