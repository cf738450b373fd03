(** Proofs about scoping. *)
From Coq Require Import String.
From Verif Require Import Base Seq SeqProofs Resolve ResolveSpec.
Local Open Scope nat_scope.

Lemma last_app {A} (l : list A) x d : last (l ++ [x]) d = x.
Proof. induction l as [|y l IH]; [reflexivity|]. cbn. destruct (l ++ [x]) eqn:E; [now destruct l|exact IH]. Qed.
Lemma removelast_app1 {A} (l : list A) x : removelast (l ++ [x]) = l.
Proof. rewrite removelast_app by discriminate. cbn. apply app_nil_r. Qed.

Lemma F2_length {A B} (R : A -> B -> Prop) l m : Forall2 R l m -> length l = length m.
Proof. induction 1; cbn; congruence. Qed.
(** one frame *)
Definition sorted (f : frame) : Prop := forall i j a b, i <= j -> nth_error (flocals f) i = Some a -> nth_error (flocals f) j = Some b -> lscope a <= lscope b.
Definition capped (c : nat) (f : frame) : Prop := forall a, In a (flocals f) -> lscope a <= c.
Definition distinct (f : frame) : Prop := forall i j a b, nth_error (flocals f) i = Some a -> nth_error (flocals f) j = Some b -> lscope a = lscope b -> lname a = lname b -> i = j.
Definition placed (d : nat) (f : frame) : Prop := forall i a, nth_error (flocals f) i = Some a -> lindex a = i /\ ldepth a = d.
Definition okf (f : frame) (c : nat) : Prop := sorted f /\ capped c f /\ distinct f.
Fixpoint lower (b : list bracket) : list nat :=
  match b with [] => [] | Function :: r => length r :: lower r | Block :: r => lower r end.
Definition inv (b : list bracket) (s : scopes) : Prop :=
  exists pre cur, frames s = pre ++ [cur] /\ scope_depth s = length b /\ Forall2 okf pre (rev (lower b)) /\ okf cur (length b) /\
    forall d f, nth_error (frames s) d = Some f -> placed d f.

(** the same variables, up to flags *)
Definition sim (a b : local) : Prop := lname a = lname b /\ lindex a = lindex b /\ lscope a = lscope b /\ ldepth a = ldepth b.
Definition simf (f g : frame) : Prop := Forall2 sim (flocals f) (flocals g).
Lemma sim_refl a : sim a a. Proof. repeat split. Qed.
Lemma simf_refl f : simf f f. Proof. unfold simf. induction (flocals f); constructor; auto using sim_refl. Qed.
Lemma F2_nth {A B} (R : A -> B -> Prop) l m : Forall2 R l m -> forall i b, nth_error m i = Some b -> exists a, nth_error l i = Some a /\ R a b.
Proof. induction 1 as [|p q l m r h IH]; intros [|i] z E; cbn in *; try discriminate; [injection E as <-; eauto|eauto]. Qed.
Lemma F2_nth' {A B} (R : A -> B -> Prop) l m : Forall2 R l m -> forall i a, nth_error l i = Some a -> exists b, nth_error m i = Some b /\ R a b.
Proof. induction 1 as [|p q l m r h IH]; intros [|i] z E; cbn in *; try discriminate; [injection E as <-; eauto|eauto]. Qed.
Lemma simf_okf f g c : simf f g -> okf f c -> okf g c.
Proof.
  intros S (O & C & D). split; [|split].
  - intros i j a b L A B. destruct (F2_nth _ _ _ S i a A) as (a' & A' & SA). destruct (F2_nth _ _ _ S j b B) as (b' & B' & SB).
    pose proof (O i j a' b' L A' B'). destruct SA as (? & ? & ? & ?), SB as (? & ? & ? & ?). lia.
  - intros a I. apply In_nth_error in I as (i & A). destruct (F2_nth _ _ _ S i a A) as (a' & A' & SA). pose proof (C a' (nth_error_In _ _ A')). destruct SA as (? & ? & ? & ?). lia.
  - intros i j a b A B E N. destruct (F2_nth _ _ _ S i a A) as (a' & A' & SA). destruct (F2_nth _ _ _ S j b B) as (b' & B' & SB).
    destruct SA as (? & ? & ? & ?), SB as (? & ? & ? & ?). apply (D i j a' b' A' B'); congruence.
Qed.
Lemma simf_placed f g d : simf f g -> placed d f -> placed d g.
Proof. intros S P i a A. destruct (F2_nth _ _ _ S i a A) as (a' & A' & SA). destruct (P i a' A'). destruct SA as (? & ? & ? & ?). split; congruence. Qed.
Lemma update_sim l i a b : nth_error l i = Some a -> sim a b -> Forall2 sim l (update l i b).
Proof.
  revert i. induction l as [|x l IH]; intros [|i] E S; cbn in *; try discriminate.
  - injection E as ->. constructor; [exact S|]. clear. induction l; constructor; auto using sim_refl.
  - constructor; [apply sim_refl|eauto].
Qed.
(** frames with the same variables *)
Lemma inv_sim b s fs : inv b s -> Forall2 simf (frames s) fs -> inv b (Scopes fs (scope_depth s)).
Proof.
  intros (pre & cur & E & SD & F & C & P) S. rewrite E in S. apply Forall2_app_inv_l in S as (pre' & c' & S1 & S2 & ->). inversion S2 as [|? cur' ? l' S3 S4]; subst. inversion S4; subst.
  exists pre', cur'. split; [reflexivity|]. split; [exact SD|]. split; [|split].
  - clear - F S1. revert pre' S1. induction F; intros pre' S1; inversion S1; subst; constructor; eauto using simf_okf.
  - eauto using simf_okf.
  - intros d f N. cbn in N. assert (S : Forall2 simf (frames s) (pre' ++ [cur'])) by (rewrite E; apply Forall2_app; auto).
    destruct (F2_nth _ _ _ S d f N) as (g & G & SG). eapply simf_placed; eauto.
Qed.
Lemma F2_simf_refl fs : Forall2 simf fs fs. Proof. induction fs; constructor; auto using simf_refl. Qed.
Lemma F2_simf_trans a b c : Forall2 simf a b -> Forall2 simf b c -> Forall2 simf a c.
Proof.
  assert (T : forall l m n, Forall2 sim l m -> Forall2 sim m n -> Forall2 sim l n).
  { intros l m n H. revert n. induction H; intros n H'; inversion H'; subst; constructor; eauto. unfold sim in *. intuition congruence. }
  intro H. revert c. induction H; intros c' H'; inversion H'; subst; constructor; eauto. unfold simf in *. eauto.
Qed.
Lemma update_simf fs d f g : nth_error fs d = Some f -> simf f g -> Forall2 simf fs (update fs d g).
Proof.
  revert d. induction fs as [|x l IH]; intros [|i] E S; cbn in *; try discriminate.
  - injection E as ->. constructor; [exact S|apply F2_simf_refl].
  - constructor; [apply simf_refl|eauto].
Qed.
Lemma add_up_simf d e fs : Forall2 simf fs (add_up d e fs).
Proof. unfold add_up. destruct (nth_error fs d) as [f|] eqn:E; [|apply F2_simf_refl]. apply (update_simf fs d f); [exact E|]. exact (simf_refl f). Qed.
Lemma bubble_simf ds : forall i fs, Forall2 simf fs (fst (bubble ds i fs)).
Proof.
  induction ds as [|d ds IH]; intros i fs; [apply F2_simf_refl|]. cbn. destruct (find_up false i (ups fs d)); [apply IH|].
  eapply F2_simf_trans; [apply add_up_simf|apply IH].
Qed.
Lemma resolve_up_simf d i s : Forall2 simf (frames s) (frames (fst (resolve_upvalue d i s))) /\ scope_depth (fst (resolve_upvalue d i s)) = scope_depth s.
Proof.
  unfold resolve_upvalue. destruct (find_up true i (ups (frames s) d)) as [k|].
  - pose proof (bubble_simf (seq (S d) (function_depth s - S d)) k (frames s)) as B. destruct (bubble _ _ _). now split.
  - pose proof (bubble_simf (seq (S d) (function_depth s - S d)) (length (ups (frames s) d)) (add_up d (true, i) (frames s))) as B. destruct (bubble _ _ _). split; [|reflexivity].
    eapply F2_simf_trans; [apply add_up_simf|exact B].
Qed.
Lemma mark_simf d i s : Forall2 simf (frames s) (frames (mark_captured d i s)) /\ scope_depth (mark_captured d i s) = scope_depth s.
Proof.
  unfold mark_captured. destruct (nth_error (frames s) d) as [f|] eqn:E; [|split; [apply F2_simf_refl|reflexivity]]. destruct (nth_error (flocals f) i) as [l|] eqn:E2; [|split; [apply F2_simf_refl|reflexivity]].
  split; [|reflexivity]. apply (update_simf _ d f _ E). apply (update_sim _ i l _ E2). repeat split.
Qed.
Lemma resolve_simf n s : Forall2 simf (frames s) (frames (fst (resolve_reference n s))) /\ scope_depth (fst (resolve_reference n s)) = scope_depth s.
Proof.
  unfold resolve_reference. destruct (find _ _); [split; [apply F2_simf_refl|reflexivity]|]. destruct (enclosing _ _ _) as [[d l]|].
  - destruct (mark_simf d (lindex l) s) as [M1 M2]. destruct (resolve_up_simf d (lindex l) (mark_captured d (lindex l) s)) as [R1 R2].
    destruct (resolve_upvalue _ _ _). cbn in *. split; [eapply F2_simf_trans; eassumption|congruence].
  - destruct (0 <? function_depth s); [destruct (find _ _)|]; (split; [apply F2_simf_refl|reflexivity]).
Qed.

(** leaving a block *)
Lemma nth_removelast {A} (l : list A) i x : nth_error (removelast l) i = Some x -> nth_error l i = Some x.
Proof.
  destruct l as [|y l] using rev_ind; [now destruct i|]. rewrite removelast_app1. intro E. rewrite nth_error_app1; [exact E|]. apply nth_error_Some. congruence.
Qed.
Lemma pop_prefix n : forall min f, length (flocals f) = n -> sorted f ->
  exists k, flocals (pop_locals n min f) = firstn k (flocals f) /\ forall a, In a (flocals (pop_locals n min f)) -> lscope a < min.
Proof.
  induction n as [|i IH]; intros min f L S.
  - exists 0. destruct (flocals f) eqn:E; [|discriminate]. cbn. rewrite E. split; [reflexivity|intros ? []].
  - cbn. destruct (nth_error (flocals f) i) as [l|] eqn:E; [|apply nth_error_None in E; lia]. destruct (min <=? lscope l) eqn:M.
    + set (g := Frame (removelast (flocals f)) _). destruct (IH min g) as (k & K1 & K2).
      * cbn. destruct (flocals f) as [|y m] using rev_ind; [discriminate|]. rewrite removelast_app1. rewrite app_length in L. cbn in L. lia.
      * intros a b x y LE A B. cbn in A, B. apply nth_removelast in A, B. eapply S; eauto.
      * exists (Nat.min k i). rewrite K1. split; [|intros; apply K2; now rewrite K1]. cbn. rewrite <- firstn_firstn. f_equal.
        destruct (flocals f) as [|y m] using rev_ind; [discriminate|]. rewrite removelast_app1. rewrite app_length in L. cbn in L. replace i with (length m + 0) by lia. rewrite firstn_app_2. cbn. now rewrite app_nil_r.
    + assert (ALL : forall j a, nth_error (flocals f) j = Some a -> lscope a < min).
      { intros j a A. assert (j <= i) by (assert (j < length (flocals f)) by (apply nth_error_Some; congruence); lia). pose proof (S j i a l H A E). apply Nat.leb_gt in M. lia. }
      assert (NOP : forall m, pop_locals m min f = f).
      { induction m as [|m IHm]; [reflexivity|]. cbn. destruct (nth_error (flocals f) m) as [a|] eqn:A; [|exact IHm]. apply ALL in A. apply Nat.leb_gt in A. now rewrite A. }
      rewrite NOP. exists (length (flocals f)). rewrite firstn_all. split; [reflexivity|]. intros a I. apply In_nth_error in I as (j & A). eauto.
Qed.
Lemma firstn_nth {A} k (l : list A) i x : nth_error (firstn k l) i = Some x -> nth_error l i = Some x.
Proof. revert l i. induction k as [|k IH]; intros [|y l] [|i] E; cbn in *; try discriminate; auto. Qed.
Lemma prefix_okf f g k c c' : flocals g = firstn k (flocals f) -> okf f c -> (forall a, In a (flocals g) -> lscope a <= c') -> okf g c'.
Proof.
  intros E (S & C & D) L. split; [|split].
  - intros i j a b LE A B. rewrite E in A, B. apply firstn_nth in A, B. eauto.
  - exact L.
  - intros i j a b A B. rewrite E in A, B. apply firstn_nth in A, B. eauto.
Qed.
Lemma prefix_placed f g k d : flocals g = firstn k (flocals f) -> placed d f -> placed d g.
Proof. intros E P i a A. rewrite E in A. apply firstn_nth in A. eauto. Qed.

Lemma placed_app pre cur : (forall d f, nth_error (pre ++ [cur]) d = Some f -> placed d f) <-> (forall d f, nth_error pre d = Some f -> placed d f) /\ placed (length pre) cur.
Proof.
  split.
  - intro H. split; [intros d f N; apply H; rewrite nth_error_app1; [exact N|apply nth_error_Some; congruence]|]. apply H. rewrite nth_error_app2, Nat.sub_diag by lia. reflexivity.
  - intros [H1 H2] d f N. destruct (Nat.ltb_spec d (length pre)); [rewrite nth_error_app1 in N by assumption; auto|]. rewrite nth_error_app2 in N by assumption.
    destruct (d - length pre) eqn:Z; cbn in N; [|destruct n; discriminate]. injection N as <-. replace d with (length pre) by lia. exact H2.
Qed.
Lemma depth_of s pre cur : frames s = pre ++ [cur] -> function_depth s = length pre.
Proof. intro E. unfold function_depth. rewrite E, app_length. cbn. lia. Qed.
Lemma current_of s pre cur : frames s = pre ++ [cur] -> current s = cur.
Proof. intro E. unfold current. rewrite E. apply last_app. Qed.
Lemma act_inv b s a b' s' : inv b s -> brackets a b b' -> act a s = Some s' -> inv b' s'.
Proof.
  intros IV BR AC. pose proof IV as IV0. destruct IV as (pre & cur & E & SD & F & C & P). pose proof (current_of s pre cur E) as CU. pose proof (depth_of s pre cur E) as FD.
  rewrite E in P. apply placed_app in P as [P1 P2]. destruct a; cbn in BR, AC.
  - subst b'. unfold declare_local in AC. rewrite CU in AC. destruct (existsb _ _) eqn:EX; [discriminate|]. injection AC as <-. unfold set_current. rewrite E, removelast_app1, SD, FD.
    set (l := Local n _ _ _ _ _). exists pre, (Frame (flocals cur ++ [l]) (fups cur)). split; [reflexivity|]. split; [reflexivity|]. split; [exact F|].
    assert (LAST : forall i a, nth_error (flocals cur ++ [l]) i = Some a -> nth_error (flocals cur) i = Some a \/ (i = length (flocals cur) /\ a = l)).
    { intros i a A. destruct (Nat.ltb_spec i (length (flocals cur))); [left; now rewrite nth_error_app1 in A by assumption|]. right. rewrite nth_error_app2 in A by assumption.
      destruct (i - length (flocals cur)) eqn:Z; cbn in A; [|destruct n0; discriminate]. injection A as <-. split; [lia|reflexivity]. }
    destruct C as (S & CP & D). split; [split; [|split]|].
    + intros i j a a' LE A A'. cbn in A, A'. apply LAST in A, A'. destruct A as [A|[-> ->]], A' as [A'|[-> ->]]; [eauto| |exfalso; assert (j < length (flocals cur)) by (apply nth_error_Some; congruence); lia|lia].
      cbn. apply CP. eapply nth_error_In, A.
    + intros a I. cbn in I. apply in_app_or in I as [I|[<-|[]]]; [now apply CP|cbn; lia].
    + assert (NEW : forall j a, nth_error (flocals cur) j = Some a -> lscope a = lscope l -> lname a = lname l -> False).
      { intros j a A E1 E2. assert (existsb (fun l0 => (lscope l0 =? scope_depth s) && String.eqb (lname l0) n) (flocals cur) = true); [|congruence].
        apply existsb_exists. exists a. split; [eapply nth_error_In, A|]. cbn in E1, E2. rewrite E1, E2, SD. rewrite Nat.eqb_refl, String.eqb_refl. reflexivity. }
      intros i j a a' A A' E1 E2. cbn in A, A'. apply LAST in A, A'. destruct A as [A|[-> ->]], A' as [A'|[-> ->]]; [eauto|exfalso; eauto|exfalso; symmetry in E1, E2; eauto|reflexivity].
    + cbn. apply placed_app. split; [exact P1|]. intros i a A. cbn in A. apply LAST in A as [A|[-> ->]]; [now apply P2|]. split; reflexivity.
  - subst b'. injection AC as <-. unfold init_local. rewrite CU. destruct (nth_error (flocals cur) i) as [l|] eqn:N; [|exact IV0]. unfold set_current. rewrite E, removelast_app1.
    apply (inv_sim b s); [exact IV0|]. rewrite E. apply Forall2_app; [apply F2_simf_refl|]. constructor; [|constructor]. apply (update_sim _ i l _ N). repeat split.
  - subst b'. injection AC as <-. exists pre, cur. cbn. split; [exact E|]. split; [lia|]. split; [exact F|]. destruct C as (S & CP & D). split; [|rewrite E; apply placed_app; auto].
    split; [exact S|]. split; [|exact D]. intros a I. specialize (CP a I). lia.
  - subst b. rewrite SD in AC. cbn in AC. unfold pop_scope in AC. rewrite CU in AC. injection AC as <-. unfold set_current. rewrite E, removelast_app1.
    destruct (pop_prefix _ (S (length b')) cur eq_refl (proj1 C)) as (k & K1 & K2). set (g := pop_locals _ _ cur) in *. exists pre, g. cbn [frames scope_depth].
    split; [reflexivity|]. split; [reflexivity|]. split; [exact F|]. split; [|apply placed_app; split; [exact P1|now apply (prefix_placed cur g k)]].
    apply (prefix_okf cur g k (S (length b'))); [exact K1|exact C|]. intros a I. specialize (K2 a I). lia.
  - subst b'. injection AC as <-. exists (pre ++ [cur]), empty_frame. cbn. split; [now rewrite E|]. split; [lia|]. split; [apply Forall2_app; [exact F|constructor; [exact C|constructor]]|]. split.
    + split; [|split]; [intros [|i] [|j] ? ? ? A; discriminate A|intros ? []|intros [|i] [|j] ? ? A; discriminate A].
    + rewrite E. apply placed_app. split; [now apply placed_app|]. intros [|i] a A; discriminate A.
  - subst b. rewrite SD, FD in AC. cbn in AC. destruct pre as [|f0 pre0] eqn:EP; [discriminate|]. rewrite <- EP in *. clear f0 pre0 EP. destruct (length pre) eqn:LP; [discriminate|]. injection AC as <-.
    cbn in F. rewrite E, removelast_app1. apply Forall2_app_inv_r in F as (pre' & l & F1 & F2 & ->). inversion F2 as [|g ? ? l2 G1 G2]; subst. inversion G2; subst.
    exists pre', g. cbn. split; [reflexivity|]. split; [reflexivity|]. split; [exact F1|]. split; [exact G1|exact P1].
  - subst b'. injection AC as <-. destruct (resolve_simf n s) as [R1 R2]. pose proof (inv_sim b s _ IV0 R1) as X. rewrite <- R2 in X. now destruct (fst (resolve_reference n s)).
Qed.
Lemma history_inv b s : history b s -> inv b s.
Proof.
  induction 1 as [|b s a b' s' H IH B A].
  - exists [], empty_frame. cbn. split; [reflexivity|]. split; [reflexivity|]. split; [constructor|]. split.
    + split; [|split]; [intros [|i] [|j] ? ? ? A; discriminate A|intros ? []|intros [|i] [|j] ? ? A; discriminate A].
    + intros [|[|d]] f N; try discriminate. injection N as <-. intros [|i] a A; discriminate A.
  - eapply act_inv; eauto.
Qed.

(** which declaration is found *)
Lemma find_app {A} (p : A -> bool) l m : find p (l ++ m) = match find p l with Some x => Some x | None => find p m end.
Proof. induction l as [|x l IH]; [reflexivity|]. cbn. destruct (p x); [reflexivity|exact IH]. Qed.
Lemma find_none_sub {A} (p q : A -> bool) l : (forall x, In x l -> q x = true -> p x = true) -> find p l = None -> find q l = None.
Proof.
  intros H. induction l as [|x l IH]; [reflexivity|]. cbn. destruct (p x) eqn:EP; [discriminate|]. intro E. destruct (q x) eqn:EQ; [rewrite (H x (or_introl eq_refl) EQ) in EP; discriminate|].
  apply IH; [intros; apply H; [now right|assumption]|exact E].
Qed.
Lemma find_ext {A} (p q : A -> bool) l : (forall x, In x l -> p x = q x) -> find p l = find q l.
Proof. intro H. induction l as [|x l IH]; [reflexivity|]. cbn. rewrite <- (H x (or_introl eq_refl)), IH by (intros; apply H; now right). reflexivity. Qed.
Notation pr n := (fun l => String.eqb (lname l) n && linit l).
Lemma enclosing_spec n fs b : (forall d f, nth_error fs d = Some f -> placed d f) -> (forall f, nth_error fs 0 = Some f -> okf f b) ->
  forall d, d <= length fs ->
  match find (pr n) (rev (flat_map flocals (firstn d fs))) with
  | None => enclosing n fs d = None
  | Some l => if is_global l then enclosing n fs d = None else enclosing n fs d = Some (ldepth l, l)
  end.
Proof.
  intros P O. induction d as [|d IH]; intro L; [reflexivity|]. cbn [enclosing]. destruct (nth_error fs d) as [f|] eqn:E; [|apply nth_error_None in E; lia].
  assert (SP : firstn (S d) fs = firstn d fs ++ [f]). { clear - E. revert fs E. induction d as [|d IH]; intros [|x fs] E; cbn in *; try discriminate; [now injection E as ->|]. rewrite <- IH; auto. }
  rewrite SP, flat_map_app, rev_app_distr, find_app. cbn [flat_map]. rewrite app_nil_r. specialize (IH ltac:(lia)).
  specialize (P d f E). destruct d as [|d].
  - (* the outermost frame: globals before others *)
    destruct (find (pr n) (rev (flocals f))) as [l|] eqn:FL.
    + destruct (O f E) as (S & _). clear IH SP.
      assert (G : forall m, (forall i j a c, i <= j -> nth_error m i = Some a -> nth_error m j = Some c -> lscope a <= lscope c) -> (forall x, In x m -> ldepth x = 0) -> find (pr n) (rev m) = Some l ->
        find (fun x => String.eqb (lname x) n && linit x && negb (is_global x)) (rev m) = if is_global l then None else Some l).
      { clear. intros m. induction m as [|x m IH] using rev_ind; intros S D FL; [discriminate|]. rewrite rev_app_distr in *. cbn in FL |- *.
        assert (S' : forall i j a c, i <= j -> nth_error m i = Some a -> nth_error m j = Some c -> lscope a <= lscope c).
        { intros i j a c LE A B. apply (S i j a c LE); (rewrite nth_error_app1; [assumption|apply nth_error_Some; congruence]). }
        destruct (String.eqb (lname x) n && linit x) eqn:PX.
        - injection FL as <-. cbn. destruct (is_global x) eqn:GX; [|reflexivity]. cbn.
          apply find_none_sub with (p := fun x => negb (is_global x)); [intros y _ Q; now apply andb_true_iff in Q as [_ Q]|].
          assert (ALL : forall y, In y (rev m) -> is_global y = true).
          { intros y I. rewrite <- in_rev in I. unfold is_global in *. rewrite (D y) by (apply in_or_app; auto). apply In_nth_error in I as (i & I).
            assert (lscope y <= lscope x). { apply (S i (length m)); [assert (i < length m) by (apply nth_error_Some; congruence); lia|rewrite nth_error_app1; [exact I|apply nth_error_Some; congruence]|rewrite nth_error_app2, Nat.sub_diag by lia; reflexivity]. }
            apply andb_true_iff in GX as [_ GX]. apply Nat.eqb_eq in GX. cbn. apply Nat.eqb_eq. lia. }
          clear - ALL. induction (rev m) as [|y r IH]; [reflexivity|]. cbn. rewrite (ALL y (or_introl eq_refl)). cbn. apply IH. intros; apply ALL; now right.
        - cbn. apply IH; [exact S'|intros; apply D, in_or_app; auto|exact FL]. }
      change (fun l => String.eqb (lname l) n && linit l && negb (is_global l)) with (fun x => String.eqb (lname x) n && linit x && negb (is_global x)).
      rewrite (G (flocals f) S); [|intros x I; apply In_nth_error in I as (i & I); exact (proj2 (P i x I))|exact FL].
      destruct (is_global l); [reflexivity|]. f_equal. f_equal. apply find_some in FL as [I _]. rewrite <- in_rev in I. apply In_nth_error in I as (i & I). now destruct (P i l I).
    + rewrite (find_none_sub (pr n) (fun x => String.eqb (lname x) n && linit x && negb (is_global x))); [|intros x _ Q; apply andb_true_iff in Q as [Q _]; exact Q|exact FL]. cbn. reflexivity.
  - change (fun l => String.eqb (lname l) n && linit l && negb (is_global l)) with (fun x => String.eqb (lname x) n && linit x && negb (is_global x)).
    assert (NG : forall x, In x (flocals f) -> is_global x = false). { intros x I. apply In_nth_error in I as (i & I). destruct (P i x I) as [_ X]. unfold is_global. now rewrite X. }
    rewrite (find_ext (fun x => String.eqb (lname x) n && linit x && negb (is_global x)) (pr n)); [|intros x I; rewrite <- in_rev in I; rewrite (NG x I); cbn; now rewrite andb_true_r].
    destruct (find (pr n) (rev (flocals f))) as [l|] eqn:FL; [|exact IH]. apply find_some in FL as [I _]. rewrite <- in_rev in I. rewrite (NG l I). f_equal. f_equal.
    apply In_nth_error in I as (i & I). now destruct (P i l I).
Qed.

(** captured variables *)
Lemma ups_add d e fs k : d < length fs -> ups (add_up d e fs) k = if d =? k then ups fs k ++ [e] else ups fs k.
Proof.
  intro L. unfold ups, add_up. destruct (nth_error fs d) as [f|] eqn:E; [|apply nth_error_None in E; lia]. rewrite update_spec. apply Nat.ltb_lt in L. rewrite L, andb_true_r.
  destruct (Nat.eqb_spec d k) as [<-|]; [now rewrite E|reflexivity].
Qed.
Lemma add_up_length d e fs : length (add_up d e fs) = length fs.
Proof. unfold add_up. destruct (nth_error fs d); [apply update_length|reflexivity]. Qed.
Lemma find_up_spec b i l k : find_up b i l = Some k -> nth_error l k = Some (b, i).
Proof.
  revert k. induction l as [|[c j] l IH]; intros k E; [discriminate|]. cbn in E. destruct (Bool.eqb b c && (j =? i)) eqn:X.
  - injection E as <-. apply andb_true_iff in X as [X Y]. apply Bool.eqb_prop in X as ->. apply Nat.eqb_eq in Y as ->. reflexivity.
  - destruct (find_up b i l); [|discriminate]. injection E as <-. cbn. auto.
Qed.
Lemma owner_ext fs fs' d : (forall k, k < d -> exists m, ups fs' k = ups fs k ++ m) -> forall i v, owner fs d i = Some v -> owner fs' d i = Some v.
Proof.
  induction d as [|d IH]; intros X i v E; [discriminate|]. cbn in *. destruct (X d ltac:(lia)) as (m & ->).
  destruct (nth_error (ups fs d) i) as [e|] eqn:N; [|discriminate]. rewrite nth_error_app1 by (apply nth_error_Some; congruence). rewrite N. destruct e as [[] j]; [exact E|]. apply IH; [|exact E]. intros k L. apply X. lia.
Qed.
Lemma owner_low fs fs' d : (forall k, k < d -> ups fs' k = ups fs k) -> forall i, owner fs' d i = owner fs d i.
Proof.
  induction d as [|d IH]; intros X i; [reflexivity|]. cbn. rewrite (X d ltac:(lia)). destruct (nth_error (ups fs d) i) as [[[] j]|]; try reflexivity. apply IH. intros k L. apply X. lia.
Qed.
Definition sound (fs : list frame) : Prop := forall k i, i < length (ups fs k) -> owner fs (S k) i <> None.
Definition free (v : nat * nat) (fs : list frame) (k : nat) : Prop := forall i, i < length (ups fs k) -> exists w, owner fs (S k) i = Some w /\ w <> v.
Lemma owner_top fs d i v : owner fs (S d) i = Some v -> i < length (ups fs d).
Proof. cbn. intro E. apply nth_error_Some. intro N. now rewrite N in E. Qed.
Lemma ups_grow d e fs k : d < length fs -> exists m, ups (add_up d e fs) k = ups fs k ++ m.
Proof. intro L. rewrite ups_add by assumption. destruct (d =? k); [eauto|exists []; now rewrite app_nil_r]. Qed.
Lemma owner_add d e fs : d < length fs -> forall k i v, owner fs k i = Some v -> owner (add_up d e fs) k i = Some v.
Proof. intros L k i v. apply owner_ext. intros j _. now apply ups_grow. Qed.
Lemma owner_new d e fs : d < length fs -> owner (add_up d e fs) (S d) (length (ups fs d)) = match e with (true, j) => Some (d, j) | (false, j) => owner fs d j end.
Proof.
  intro L. cbn. rewrite ups_add, Nat.eqb_refl by lia. rewrite nth_error_app2, Nat.sub_diag by lia. cbn. destruct e as [[] j]; [reflexivity|]. apply owner_low.
  intros k K. rewrite ups_add by lia. destruct (Nat.eqb_spec d k); [lia|reflexivity].
Qed.
Lemma sound_add d e fs : d < length fs -> sound fs -> owner (add_up d e fs) (S d) (length (ups fs d)) <> None -> sound (add_up d e fs).
Proof.
  intros L S N k i LT. destruct (Nat.eq_dec k d) as [->|NE].
  - rewrite ups_add, Nat.eqb_refl, app_length in LT by lia. cbn [length] in LT. destruct (Nat.eq_dec i (length (ups fs d))) as [->|]; [exact N|].
    destruct (owner fs (Datatypes.S d) i) as [v|] eqn:O; [|exfalso; apply (S d i); [lia|exact O]]. rewrite (owner_add d e fs L _ _ _ O). discriminate.
  - rewrite ups_add in LT by lia. destruct (Nat.eqb_spec d k); [lia|]. destruct (owner fs (Datatypes.S k) i) as [v|] eqn:O; [|exfalso; apply (S k i); [lia|exact O]]. rewrite (owner_add d e fs L _ _ _ O). discriminate.
Qed.
Lemma bubble_spec v m : forall d index fs, d + m <= length fs -> owner fs d index = Some v ->
  (forall k, d <= k < d + m -> free v fs k) ->
  owner (fst (bubble (seq d m) index fs)) (d + m) (snd (bubble (seq d m) index fs)) = Some v /\
  length (fst (bubble (seq d m) index fs)) = length fs /\ (sound fs -> sound (fst (bubble (seq d m) index fs))).
Proof.
  induction m as [|m IH]; intros d index fs L O N; [cbn; now rewrite Nat.add_0_r|]. cbn [seq bubble]. destruct (find_up false index (ups fs d)) as [k|] eqn:F.
  - exfalso. apply find_up_spec in F. destruct (N d ltac:(lia) k) as (w & W & NW); [apply nth_error_Some; congruence|]. cbn in W. rewrite F in W. congruence.
  - replace (d + S m) with (S d + m) by lia. destruct (IH (S d) (length (ups fs d)) (add_up d (false, index) fs)) as (I1 & I2 & I3).
    + rewrite add_up_length. lia.
    + rewrite owner_new by lia. exact O.
    + intros k K i LT. rewrite ups_add in LT by lia. destruct (Nat.eqb_spec d k); [lia|]. destruct (N k ltac:(lia) i LT) as (w & W & NW). exists w. split; [|exact NW]. now apply owner_add; [lia|].
    + split; [exact I1|]. split; [rewrite I2; apply add_up_length|]. intro S0. apply I3, sound_add; [lia|exact S0|]. rewrite owner_new by lia. rewrite O. discriminate.
Qed.
Lemma resolve_upvalue_spec d i s : d < function_depth s ->
  (forall k, d < k < function_depth s -> free (d, i) (frames s) k) ->
  owner (frames (fst (resolve_upvalue d i s))) (function_depth s) (snd (resolve_upvalue d i s)) = Some (d, i) /\
  (sound (frames s) -> sound (frames (fst (resolve_upvalue d i s)))).
Proof.
  intros LT N. assert (LF : d < length (frames s)) by (unfold function_depth in LT; lia). unfold resolve_upvalue.
  set (p := match find_up true i (ups (frames s) d) with Some k => (frames s, k) | None => (add_up d (true, i) (frames s), length (ups (frames s) d)) end).
  assert (P : length (fst p) = length (frames s) /\ owner (fst p) (S d) (snd p) = Some (d, i) /\ (forall k, d < k < function_depth s -> free (d, i) (fst p) k) /\ (sound (frames s) -> sound (fst p))).
  { subst p. destruct (find_up true i (ups (frames s) d)) as [k|] eqn:F; cbn [fst snd].
    - split; [reflexivity|]. split; [apply find_up_spec in F; cbn; now rewrite F|auto].
    - split; [apply add_up_length|]. split; [now apply owner_new|]. split; [|intro S0; apply sound_add; [exact LF|exact S0|]; rewrite owner_new by assumption; discriminate].
      intros k K j LJ. rewrite ups_add in LJ by lia. destruct (Nat.eqb_spec d k); [lia|]. destruct (N k K j LJ) as (w & W & NW). exists w. split; [now apply owner_add|exact NW]. }
  clearbody p. destruct p as [fs index]. cbn [fst snd] in P. destruct P as (P1 & P2 & P3 & P4).
  destruct (bubble_spec (d, i) (function_depth s - S d) (S d) index fs) as (B1 & B2 & B3).
  - rewrite P1. unfold function_depth in *. lia.
  - exact P2.
  - intros k K. apply P3. lia.
  - destruct (bubble (seq (S d) (function_depth s - S d)) index fs) as [fs' index']. cbn [fst snd frames] in *. replace (S d + (function_depth s - S d)) with (function_depth s) in B1 by lia. auto.
Qed.
Lemma owner_ups fs fs' : (forall k, ups fs' k = ups fs k) -> forall d i, owner fs' d i = owner fs d i.
Proof. intros H d i. apply owner_low. auto. Qed.
Lemma sound_ups fs fs' : (forall k, ups fs' k = ups fs k) -> sound fs -> sound fs'.
Proof. intros H S k i L. rewrite (owner_ups _ _ H). apply S. now rewrite <- H. Qed.
Lemma mark_ups d i s k : ups (frames (mark_captured d i s)) k = ups (frames s) k.
Proof.
  unfold mark_captured. destruct (nth_error (frames s) d) as [f|] eqn:E; [|reflexivity]. destruct (nth_error (flocals f) i); [|reflexivity]. cbn. unfold ups. rewrite update_spec.
  destruct (Nat.eqb_spec d k) as [<-|]; [|reflexivity]. rewrite andb_true_l. destruct (d <? length (frames s)); [|reflexivity]. now rewrite E.
Qed.
Lemma mark_depth d i s : function_depth (mark_captured d i s) = function_depth s.
Proof. unfold function_depth. destruct (mark_simf d i s) as [M _]. apply F2_length in M. lia. Qed.

Lemma innermost_split n s pre cur : frames s = pre ++ [cur] ->
  innermost n s = match find (pr n) (rev (flocals cur)) with Some l => Some l | None => find (pr n) (rev (flat_map flocals pre)) end.
Proof. intro E. unfold innermost, variables. rewrite E, flat_map_app, rev_app_distr, find_app. cbn. now rewrite app_nil_r. Qed.
(** what a reference resolves to *)
Definition unshared (s : scopes) (n : string) : Prop := forall l, innermost n s = Some l -> is_global l = false -> forall k, ldepth l < k < function_depth s -> free (slot l) (frames s) k.
Lemma resolve_spec b s n : history b s -> unshared s n ->
  let '(s', r) := resolve_reference n s in
  match innermost n s with
  | Some l => denotes s' r = Some (slot l)
  | None => r = if function_depth s =? 0 then RUndeclared else RLate
  end /\ (sound (frames s) -> sound (frames s')).
Proof.
  intros H FR. pose proof (history_inv b s H) as IV. destruct IV as (pre & cur & E & SD & F & C & P). pose proof (current_of s pre cur E) as CU. pose proof (depth_of s pre cur E) as FD.
  pose proof (innermost_split n s pre cur E) as IN. unfold resolve_reference. rewrite CU.
  assert (PL : placed (length pre) cur) by (apply P; rewrite E, nth_error_app2, Nat.sub_diag by lia; reflexivity).
  destruct (find (pr n) (rev (flocals cur))) as [l|] eqn:FL.
  - rewrite IN. split; [|auto]. apply find_some in FL as [I _]. rewrite <- in_rev in I. apply In_nth_error in I as (i & I). destruct (PL i l I) as [X Y]. unfold as_reference, slot. destruct (is_global l) eqn:G; cbn.
    + unfold is_global in G. apply andb_true_iff in G as [G _]. apply Nat.eqb_eq in G. now rewrite G.
    + rewrite FD, Y. reflexivity.
  - assert (O0 : exists c, forall f, nth_error (frames s) 0 = Some f -> okf f c).
    { rewrite E. destruct pre as [|f0 pre0]; cbn; [exists (length b); intros f X; now injection X as <-|]. inversion F as [|? c0 ? ? F1 F2]; subst. exists c0. intros f X. now injection X as <-. }
    destruct O0 as (c0 & O0). assert (LE : function_depth s <= length (frames s)) by (unfold function_depth; lia).
    pose proof (enclosing_spec n (frames s) c0 P O0 (function_depth s) LE) as ES.
    assert (FP : firstn (function_depth s) (frames s) = pre) by (rewrite FD, E; replace (length pre) with (length pre + 0) by lia; rewrite firstn_app_2; cbn; apply app_nil_r).
    rewrite FP in ES. destruct (find (pr n) (rev (flat_map flocals pre))) as [l|] eqn:FE.
    + apply find_some in FE as FI. destruct FI as [I PN]. rewrite <- in_rev in I. apply in_flat_map in I as (f & I1 & I2). apply In_nth_error in I1 as (d & I1). apply In_nth_error in I2 as (i & I2).
      assert (LD : d < length pre) by (apply nth_error_Some; congruence).
      assert (I1' : nth_error (frames s) d = Some f) by (rewrite E, nth_error_app1; assumption). destruct (P d f I1' i l I2) as [LI LDP].
      destruct (is_global l) eqn:G.
      * rewrite ES, IN. rewrite FD. replace (0 <? length pre) with true by (symmetry; apply Nat.ltb_lt; lia).
        assert (D0 : d = 0). { unfold is_global in G. apply andb_true_iff in G as [G _]. apply Nat.eqb_eq in G. congruence. }
        assert (X : find (fun x => String.eqb (lname x) n && linit x && is_global x) (rev (flocals (nth 0 (frames s) empty_frame))) = Some l).
        { rewrite D0 in I1'. rewrite (nth_error_nth _ _ _ I1'). 
          (* no inner function has one: the first found in all is in the outermost *)
          assert (FO : find (pr n) (rev (flocals f)) = Some l).
          { rewrite D0 in I1. destruct pre as [|f0 pre0]; [discriminate|]. injection I1 as ->. cbn in FE. rewrite rev_app_distr, find_app in FE.
            destruct (find (pr n) (rev (flat_map flocals pre0))) as [l'|] eqn:FQ; [|exact FE]. exfalso. injection FE as ->. apply find_some in FQ as [FQ _]. rewrite <- in_rev in FQ.
            apply in_flat_map in FQ as (g & G1 & G2). apply In_nth_error in G1 as (e & G1). apply In_nth_error in G2 as (i' & G2). assert (G1' : nth_error (frames s) (S e) = Some g).
            { rewrite E. cbn. rewrite nth_error_app1; [exact G1|]. apply nth_error_Some. congruence. }
            destruct (P (S e) g G1' i' l G2) as [_ Z]. rewrite LDP, D0 in Z. discriminate. }
          clear - FO G. revert FO. induction (rev (flocals f)) as [|x r IH]; [discriminate|]. cbn. destruct (String.eqb (lname x) n && linit x) eqn:X; [|exact IH]. intro Y. injection Y as ->. now rewrite G. }
        change (fun l => String.eqb (lname l) n && linit l && is_global l) with (fun x => String.eqb (lname x) n && linit x && is_global x). rewrite X. split; [|auto]. cbn. unfold slot. now rewrite LDP, D0.
      * rewrite ES, IN. rewrite LDP. rewrite LI.
        assert (SL : slot l = (d, i)) by (unfold slot; congruence).
        destruct (resolve_upvalue_spec d i (mark_captured d i s)) as [R1 R2].
        -- rewrite mark_depth. lia.
        -- rewrite mark_depth. intros k K. assert (FK : free (slot l) (frames s) k). { apply (FR l); [now rewrite IN|exact G|]. rewrite LDP. exact K. }
           rewrite SL in FK. intros j LJ. rewrite mark_ups in LJ. destruct (FK j LJ) as (w & W & NW). exists w. split; [|exact NW]. rewrite (owner_ups (frames s)) by (intro; apply mark_ups). exact W.
        -- destruct (resolve_upvalue d i (mark_captured d i s)) as [s' j] eqn:RU. cbn [fst snd] in *. split; [|intro S0; apply R2; eapply sound_ups; [intro; apply mark_ups|exact S0]].
           cbn. assert (FD' : function_depth s' = function_depth s). { destruct (resolve_up_simf d i (mark_captured d i s)) as [Q _]. rewrite RU in Q. apply F2_length in Q. cbn in Q. pose proof (mark_depth d i s) as MD. unfold function_depth in *. lia. }
           rewrite FD'. rewrite mark_depth in R1. rewrite R1. now rewrite SL.
    + rewrite ES, IN. rewrite FD. destruct pre as [|f0 pre0]; [cbn; split; [reflexivity|auto]|]. cbn [length Nat.ltb Nat.leb Nat.eqb].
      assert (X : find (fun l => String.eqb (lname l) n && linit l && is_global l) (rev (flocals (nth 0 (frames s) empty_frame))) = None).
      { rewrite E. cbn. cbn in FE. rewrite rev_app_distr, find_app in FE. destruct (find _ (rev (flat_map flocals pre0))); [discriminate|].
        apply (find_none_sub (pr n)); [intros x _ Q; apply andb_true_iff in Q as [Q _]; exact Q|exact FE]. }
      rewrite X. split; [reflexivity|auto].
Qed.
