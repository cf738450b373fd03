(** Proofs for C73: declarations. *)
From Coq Require Import String Lia Arith.
From Verif Require Import Base Seq SeqProofs Incr Struct StructSpec StructProofs.
Local Open Scope nat_scope.

Definition und (f : fields) (n : string) : option bool := option_map undeclared (get String.eqb n (names f)).
(** what a part of a program, with uses [u] and members [m], does to the table *)
Record U (f f' : fields) (u m : string -> Prop) : Prop := MkU {
  u_false : forall n, und f n = Some false -> und f' n = Some false;
  u_there : forall n, und f n <> None -> und f' n <> None;
  u_member : forall n, m n -> und f' n = Some false;
  u_used : forall n, u n -> und f' n <> None;
  u_true : forall n, und f' n = Some true -> und f n = Some true \/ u n;
  u_false' : forall n, und f' n = Some false -> und f n = Some false \/ m n;
  u_keep : keep f f';
  u_nodup : NoDup (map fst (names f)) -> NoDup (map fst (names f')) }.
Lemma U_refl f : U f f (fun _ => False) (fun _ => False).
Proof. split; auto; try contradiction. apply keep_refl. Qed.
Lemma U_trans f g h u1 m1 u2 m2 (u m : string -> Prop) : U f g u1 m1 -> U g h u2 m2 -> (forall n, u n <-> u1 n \/ u2 n) -> (forall n, m n <-> m1 n \/ m2 n) -> U f h u m.
Proof.
  intros [A1 A2 A3 A4 A5 A6 A7 A8] [B1 B2 B3 B4 B5 B6 B7 B8] EU EM. split; auto.
  - intros n H. apply EM in H. destruct H; auto.
  - intros n H. apply EU in H. destruct H; auto.
  - intros n H. destruct (B5 n H) as [Q|Q]; [destruct (A5 n Q); auto; right; apply EU; auto|right; apply EU; auto].
  - intros n H. destruct (B6 n H) as [Q|Q]; [destruct (A6 n Q); auto; right; apply EM; auto|right; apply EM; auto].
  - eapply keep_trans; eassumption.
Qed.
Lemma in_put {V} k (v : V) l x : In x (map fst (put String.eqb k v l)) -> x = k \/ In x (map fst l).
Proof. induction l as [|[a w] l IH]; cbn; [intuition|]. destruct (String.eqb_spec a k); cbn; intros [H|H]; auto. apply IH in H. tauto. Qed.
Lemma put_nodup {V} k (v : V) l : NoDup (map fst l) -> NoDup (map fst (put String.eqb k v l)).
Proof.
  induction l as [|[a w] l IH]; cbn [put map fst]; intro H; [repeat constructor; intros []|]. inversion H; subst. destruct (String.eqb_spec a k) as [->|N]; cbn [map fst]; [exact H|]. constructor; [|apply IH; assumption]. intro Q. apply in_put in Q. destruct Q; [congruence|contradiction].
Qed.
Lemma U_declare name t o f : U f (declare_field_offset name t o f) (fun _ => False) (fun n => n = name).
Proof.
  assert (E : forall n, und (declare_field_offset name t o f) n = if String.eqb name n then Some false else und f n) by (intro n; unfold und, declare_field_offset; cbn [names]; rewrite get_put; destruct (String.eqb name n); reflexivity).
  split.
  - intros n H. rewrite E. destruct (String.eqb name n); [reflexivity|exact H].
  - intros n H. rewrite E. destruct (String.eqb name n); [discriminate|exact H].
  - intros n ->. rewrite E, str_refl. reflexivity.
  - contradiction.
  - intros n H. rewrite E in H. destruct (String.eqb name n); [discriminate|auto].
  - intros n H. rewrite E in H. destruct (String.eqb_spec name n); [subst; auto|auto].
  - apply keep_declare.
  - unfold declare_field_offset. cbn [names]. apply put_nodup.
Qed.
Lemma U_resolve name f : U f (resolve_field name true f) (fun n => n = name) (fun _ => False).
Proof.
  assert (E : forall n, und (resolve_field name true f) n = if String.eqb name n then match und f name with Some b => Some b | None => Some true end else und f n).
  { intro n. unfold und, resolve_field. destruct (get String.eqb name (names f)) as [r|] eqn:G; cbn [names].
    - destruct (String.eqb_spec name n) as [Q|]; [subst n; rewrite G; reflexivity|reflexivity].
    - rewrite get_put. destruct (String.eqb name n); reflexivity. }
  split.
  - intros n H. rewrite E. destruct (String.eqb_spec name n) as [Q|]; [subst n; rewrite H; reflexivity|exact H].
  - intros n H. rewrite E. destruct (String.eqb_spec name n) as [Q|]; [subst n; destruct (und f name); discriminate|exact H].
  - contradiction.
  - intros n ->. rewrite E, str_refl. destruct (und f name); discriminate.
  - intros n H. rewrite E in H. destruct (String.eqb_spec name n) as [Q|]; [subst n|]; auto.
  - intros n H. rewrite E in H. destruct (String.eqb_spec name n) as [Q|]; [subst n|]; auto. destruct (und f name) as [b|]; [auto|discriminate].
  - intros n i H. rewrite idx_resolve. destruct (String.eqb_spec name n) as [Q|]; [subst n; rewrite H; reflexivity|exact H].
  - unfold resolve_field. destruct (get String.eqb name (names f)); [auto|]. cbn [names]. apply put_nodup.
Qed.
Lemma U_type f : U f (fst (declare_type f)) (fun _ => False) (fun _ => False).
Proof. split; auto; try contradiction. intros n i H. exact H. Qed.
Lemma U_use l : forall f, U f (use_all l f) (fun n => In n l) (fun _ => False).
Proof.
  induction l as [|x l IH]; intro f; [apply U_refl|]. unfold use_all. cbn [fold_left]. eapply U_trans; [apply (U_resolve x f)|apply IH|intro n; cbn; intuition|intro n; cbn; intuition].
Qed.
Lemma U_fields it l : forall f fs b f' fs', fold_left (fun x n => declare_field it n x) l (f, fs, b) = (f', fs', true) -> U f f' (fun _ => False) (fun n => In n l).
Proof.
  induction l as [|n l IH]; intros f fs b f' fs' E; cbn [fold_left] in E; [injection E as <- _ _; apply U_refl|]. unfold declare_field at 2 in E. destruct (has n fs) eqn:Hn.
  - exfalso. clear - E. revert E. generalize f fs. induction l as [|m l IH]; intros f0 fs0 E; cbn [fold_left] in E; [discriminate|]. unfold declare_field at 2 in E. destruct (has m fs0); eapply IH; exact E.
  - eapply U_trans; [apply (U_declare n it (length fs) f)|eapply IH; exact E|intro k; cbn; intuition|intro k; cbn; intuition].
Qed.

(** methods *)
Fixpoint mtable (nc : nat) (l : list mdecl) : list (string * method) := match l with [] => [] | m :: r => (mname m, Method nc (mself m)) :: mtable (nc + 1 + mconsts m) r end.
Fixpoint mcount (l : list mdecl) : nat := match l with [] => 0 | m :: r => 1 + mconsts m + mcount r end.
Lemma put_fresh {V} k (v : V) l : ~ In k (map fst l) -> put String.eqb k v l = l ++ [(k, v)].
Proof. induction l as [|[a w] l IH]; cbn; intro H; [reflexivity|]. destruct (String.eqb_spec a k); [exfalso; apply H; auto|]. rewrite IH; [reflexivity|]. intro Q. apply H. auto. Qed.
Definition muses_all (l : list mdecl) (n : string) : Prop := exists m, In m l /\ (In n (muses_params m) \/ In n (muses m)).
Lemma methods_loop ct fs l : forall f ms nc b, inv f -> ct < types f -> (b = true -> NoDup (map fst ms) /\ forall m, off f ct m = pos m (map fst ms)) -> exists f' ms' b',
  fold_left (fun x m => declare_method ct fs m x) l (f, ms, nc, b) = (f', ms', nc + mcount l, b') /\ inv f' /\ types f' = types f /\ U f f' (muses_all l) (fun n => In n (map mname l)) /\
  (forall t m, t <> ct -> off f' t m = off f t m) /\
  (b' = true -> b = true /\ ms' = ms ++ mtable nc l /\ NoDup (map fst ms') /\ (forall m, off f' ct m = pos m (map fst ms')) /\ (forall n, In n (map mname l) -> ~ In n fs)) /\
  (b = true -> NoDup (map fst ms ++ map mname l) -> (forall n, In n (map mname l) -> ~ In n fs) -> b' = true).
Proof.
  induction l as [|m l IH]; intros f ms nc b I T O; cbn [fold_left].
  - exists f, ms, b. cbn [mcount mtable map]. rewrite Nat.add_0_r, app_nil_r. split; [reflexivity|]. split; [exact I|]. split; [reflexivity|]. split; [|split; [auto|split; [|auto]]].
    + destruct (U_refl f) as [A1 A2 A3 A4 A5 A6 A7 A8]. split; auto; try (intros n []; fail); try (intros n (? & [] & _)). all: intros n H; try (destruct (A5 n H)); try (destruct (A6 n H)); auto; contradiction.
    + intro B. destruct (O B). parts; auto.
  - unfold declare_method at 2. destruct (use_all_facts (muses_params m) f I) as (I1 & T1 & F1 & K1 & _). set (f1 := use_all (muses_params m) f) in *.
    assert (T1' : ct < types f1) by lia. pose proof (inv_declare (mname m) ct (length ms) f1 I1 T1') as I2. set (f2 := declare_field_offset (mname m) ct (length ms) f1) in *.
    destruct (use_all_facts (muses m) f2 I2) as (I3 & T3 & F3 & K3 & _). set (f3 := use_all (muses m) f2) in *.
    assert (U3 : U f f3 (fun n => In n (muses_params m) \/ In n (muses m)) (fun n => n = mname m)).
    { eapply U_trans; [apply (U_use (muses_params m) f)| |intro n; apply iff_refl|intro n; instantiate (1 := fun n => n = mname m); intuition]. fold f1. eapply U_trans; [apply (U_declare (mname m) ct (length ms) f1)|apply (U_use (muses m) f2)|intro n; cbn; intuition|intro n; cbn; intuition]. }
    set (bad := has (mname m) fs || has (mname m) (map fst ms)) in *.
    assert (BAD : bad = false <-> ~ In (mname m) fs /\ ~ In (mname m) (map fst ms)). { unfold bad. rewrite Bool.orb_false_iff, <- !has_in. destruct (has (mname m) fs), (has (mname m) (map fst ms)); intuition congruence. }
    destruct (IH f3 (put String.eqb (mname m) (Method nc (mself m)) ms) (nc + 1 + mconsts m) (if bad then false else b)) as (f' & ms' & b' & E & X1 & X2 & X3 & X4 & X5 & X6).
    + exact I3.
    + rewrite T3. exact T1'.
    + destruct bad eqn:BB; [discriminate|]. intro B. destruct BAD as [BAD _]. destruct (BAD eq_refl) as [N1 N2]. destruct (O B) as [ND OO]. rewrite (put_fresh _ _ _ N2). rewrite map_app. cbn [map fst]. split; [apply NoDup_app_snoc_or; assumption|].
      intro k. rewrite F3. unfold f2. rewrite off_declare by exact I1. rewrite F1, Nat.eqb_refl, OO, pos_app. cbn [andb pos]. destruct (String.eqb_spec (mname m) k) as [<-|N].
      * apply pos_none in N2. rewrite N2. cbn. rewrite map_length, Nat.add_0_r. reflexivity.
      * cbn. destruct (pos k (map fst ms)); reflexivity.
    + exists f', ms', b'. split; [|split; [exact X1|split; [rewrite X2, T3; exact T1|split; [|split; [|split]]]]].
      * rewrite E. cbn [mcount]. f_equal. f_equal. lia.
      * eapply U_trans; [exact U3|exact X3| |].
        -- intro n. unfold muses_all. split; [intros (d & [<-|D] & Q); [left; exact Q|right; eauto]|intros [Q|(d & D & Q)]; [exists m; cbn; auto|exists d; cbn; auto]].
        -- intro n. cbn. intuition.
      * intros t k N. rewrite X4 by exact N. rewrite F3. unfold f2. rewrite off_declare by exact I1. rewrite F1. destruct (Nat.eqb_spec ct t); [congruence|reflexivity].
      * intro B. destruct (X5 B) as (B1 & B2 & B3 & B4 & B5). destruct bad eqn:BB; [discriminate|]. destruct BAD as [BAD _]. destruct (BAD eq_refl) as [N1 N2]. rewrite (put_fresh _ _ _ N2), <- app_assoc in B2. cbn [mtable app] in *. parts; auto.
        intros n [<-|Q]; auto.
      * intros B ND DJ. apply X6.
        -- destruct bad eqn:BB; [|exact B]. exfalso. cbn [map] in ND. assert (Q : true = false); [|discriminate]. apply BAD. split; [apply DJ; left; reflexivity|]. intro Q. apply NoDup_remove_2 in ND. apply ND. apply in_or_app. auto.
        -- assert (N2 : ~ In (mname m) (map fst ms)) by (intro Q; cbn [map] in ND; apply NoDup_remove_2 in ND; apply ND; apply in_or_app; auto). rewrite (put_fresh _ _ _ N2), map_app, <- app_assoc. exact ND.
        -- intros n Q. apply DJ. right. exact Q.
Qed.

(** whole programs *)
Definition shape (x : item) (t : stype) : Prop :=
  match x with
  | IUse _ => False
  | IStruct module name _ ms => tname t = name /\ is_module t = module /\ tfields t = fields_of_decl x /\ map fst (tmethods t) = map mname ms /\ map (fun e => instance (snd e)) (tmethods t) = map mself ms
  end.
Definition ids (t : stype) : list nat := map (fun e => function_id (snd e)) (tmethods t).
Record good (l : list item) (s : st) : Prop := Good {
  g_inv : inv (fields_of s);
  g_types : types (fields_of s) = 2 * length (types_of s);
  g_number : forall k t, nth_error (types_of s) k = Some t -> instance_type t = 2 * k /\ constructor_type t = 2 * k + 1;
  g_shape : ok s = true -> Forall2 shape (filter is_decl l) (types_of s);
  g_off : ok s = true -> forall t, In t (types_of s) -> NoDup (tfields t ++ map fst (tmethods t)) /\ forall m, off (fields_of s) (instance_type t) m = pos m (tfields t) /\ off (fields_of s) (constructor_type t) m = pos m (map fst (tmethods t));
  g_ids : ok s = true -> NoDup (flat_map ids (types_of s)) /\ forall i, In i (flat_map ids (types_of s)) -> i < nconst s;
  g_ok : ok s = true <-> (forall x, In x l -> distinct_members x);
  g_u : ok s = true -> U (Fields [] [] 0) (fields_of s) (fun n => exists x, In x l /\ uses_item n x) (fun n => exists x, In x l /\ member n x) }.
Lemma good_start : good [] start.
Proof.
  split; cbn; auto.
  - exact inv_start.
  - intros [|k] t H; discriminate.
  - contradiction.
  - intros _. split; [constructor|intros i []].
  - split; [intros _ x []|auto].
  - intros _. destruct (U_refl (Fields [] [] 0)) as [A1 A2 A3 A4 A5 A6 A7 A8]. split; auto; intros n (x & [] & _).
Qed.
Lemma mtable_names nc l : map fst (mtable nc l) = map mname l.
Proof. revert nc. induction l as [|m l IH]; intro nc; cbn; [reflexivity|]. rewrite IH. reflexivity. Qed.
Lemma mtable_self nc l : map (fun e => instance (snd e)) (mtable nc l) = map mself l.
Proof. revert nc. induction l as [|m l IH]; intro nc; cbn; [reflexivity|]. rewrite IH. reflexivity. Qed.
Lemma mtable_ids nc l : NoDup (map (fun e => function_id (snd e)) (mtable nc l)) /\ forall i, In i (map (fun e => function_id (snd e)) (mtable nc l)) -> nc <= i < nc + mcount l.
Proof.
  revert nc. induction l as [|m l IH]; intro nc; cbn [mtable map mcount]; [split; [constructor|intros i []]|]. destruct (IH (nc + 1 + mconsts m)) as [A B]. cbn [snd function_id]. split.
  - constructor; [|exact A]. intro Q. apply B in Q. lia.
  - intros i [<-|Q]; [lia|]. apply B in Q. lia.
Qed.
Lemma NoDup_app_of {A} (l r : list A) : NoDup l -> NoDup r -> (forall x, In x l -> ~ In x r) -> NoDup (l ++ r).
Proof. induction l as [|x l IH]; intros L R D; [exact R|]. inversion L; subst. cbn. constructor; [intro Q; apply in_app_or in Q; destruct Q as [Q|Q]; [contradiction|apply (D x); cbn; auto]|apply IH; auto; intros y Y; apply D; cbn; auto]. Qed.
Lemma NoDup_app_inv {A} (l r : list A) : NoDup (l ++ r) -> NoDup l /\ NoDup r /\ (forall x, In x l -> ~ In x r).
Proof. induction l as [|x l IH]; cbn; intro H; [repeat split; auto; constructor|]. inversion H; subst. destruct (IH H3) as (A1 & A2 & A3). split; [constructor; [intro Q; apply H2; apply in_or_app; auto|exact A1]|]. split; [exact A2|]. intros y [<-|Y]; [intro Q; apply H2; apply in_or_app; auto|apply A3; exact Y]. Qed.
Lemma good_step l s x : good l s -> good (l ++ [x]) (declare x s).
Proof.
  intro G. destruct G as [G1 G2 G3 G4 G5 G6 G7 G8]. destruct x as [n|module name fs ms].
  - cbn [declare]. split; cbn [fields_of types_of nconst ok].
    + apply inv_resolve. exact G1.
    + rewrite types_resolve. exact G2.
    + exact G3.
    + intro B. rewrite filter_app. cbn. rewrite app_nil_r. auto.
    + intros B t Ht. destruct (G5 B t Ht) as [N O]. split; [exact N|]. intro m. rewrite !off_resolve by exact G1. apply O.
    + exact G6.
    + rewrite G7. split; intros H y Y; [|apply H; apply in_or_app; auto]. apply in_app_or in Y. destruct Y as [Y|[<-|[]]]; [auto|]. cbn. constructor.
    + intro B. eapply U_trans; [apply (G8 B)|apply (U_resolve n (fields_of s))| |].
      * intro k. split; [intros (y & Y & Q); apply in_app_or in Y; destruct Y as [Y|[<-|[]]]; [left; eauto|right; cbn in Q; congruence]|intros [(y & Y & Q) | -> ]; [exists y; split; [apply in_or_app; auto|exact Q]|exists (IUse n); split; [apply in_or_app; cbn; auto|reflexivity]]].
      * intro k. split; [intros (y & Y & Q); apply in_app_or in Y; destruct Y as [Y|[<-|[]]]; [left; eauto|destruct Q]|intros [ (y & Y & Q) | [] ]; exists y; split; [apply in_or_app; auto|exact Q]].
  - cbn [declare]. unfold declare_type at 1. cbv iota beta. pose proof (inv_type _ G1) as I1. pose proof (inv_type _ I1) as I2. unfold declare_type in I1, I2 |- *. cbn [fst names lookup types] in I1, I2 |- *. set (f2 := Fields (names (fields_of s)) (lookup (fields_of s)) (S (S (types (fields_of s))))) in *. set (it := types (fields_of s)) in *.
    assert (OF2 : forall t m, off f2 t m = off (fields_of s) t m) by reflexivity.
    assert (U2 : U (fields_of s) f2 (fun _ => False) (fun _ => False)) by (destruct (U_refl (fields_of s)) as [A1 A2 A3 A4 A5 A6 A7 A8]; split; auto; try contradiction).
    assert (FL : exists f3 fs3 b3, (if module then (f2, [], ok s) else fold_left (fun x n => declare_field it n x) fs (f2, [], ok s)) = (f3, fs3, b3) /\ inv f3 /\ types f3 = S (S it) /\ (forall m, off f3 it m = pos m fs3) /\ (forall t m, t <> it -> off f3 t m = off (fields_of s) t m) /\
      (b3 = true <-> ok s = true /\ NoDup (fields_of_decl (IStruct module name fs ms))) /\ (b3 = true -> fs3 = fields_of_decl (IStruct module name fs ms) /\ U (fields_of s) f3 (fun _ => False) (fun n => module = false /\ In n fs))).
    { destruct module.
      - exists f2, [], (ok s). split; [reflexivity|]. split; [exact I2|]. split; [reflexivity|]. split; [intro m; rewrite OF2; apply off_new; [exact G1|unfold it; lia]|]. split; [intros; apply OF2|]. split; [split; [intro B; split; [exact B|constructor]|tauto]|]. intros _. split; [reflexivity|]. destruct U2 as [A1 A2 A3 A4 A5 A6 A7 A8]. split; auto; intros n [H _]; discriminate.
      - destruct (fields_loop it fs f2 [] (ok s)) as (f3 & fs3 & b3 & E & X1 & X2 & X3 & X4 & X5 & X6 & X7 & X8); [exact I2|cbn; lia|intro m; rewrite OF2; apply off_new; [exact G1|unfold it; lia]|constructor|]. cbn [app] in *. exists f3, fs3, b3. split; [exact E|]. split; [exact X1|]. split; [exact X2|]. split; [exact X4|]. split; [intros t m N; rewrite X5 by exact N; apply OF2|]. cbn [fields_of_decl]. split; [split; [exact X7|intros [B ND]; destruct (X6 ND) as [_ ->]; exact B]|].
        intro B. split; [destruct (X7 B) as [_ ND]; apply X6; exact ND|]. subst b3. eapply U_trans; [exact U2|eapply U_fields; exact E|intro; tauto|intro; tauto]. }
    destruct FL as (f3 & fs3 & b3 & E3 & I3 & T3 & O3 & P3 & B3 & C3). rewrite E3.
    destruct (methods_loop (S it) fs3 ms f3 [] (nconst s) b3 I3) as (f4 & ms4 & b4 & E4 & I4 & T4 & U4 & P4 & B4 & C4).
    { rewrite T3. lia. }
    { intros _. split; [constructor|]. intro m. rewrite P3 by lia. cbn. apply off_new; [exact G1|unfold it; lia]. }
    rewrite E4. cbn [app] in *.
    assert (OKB : b4 = true <-> ok s = true /\ distinct_members (IStruct module name fs ms)).
    { unfold distinct_members. cbn [methods_of_decl]. split.
      - intro B. destruct (B4 B) as (Q1 & Q2 & Q3 & Q4 & Q5). pose proof (proj1 B3 Q1) as [R1 R2]. destruct (C3 Q1) as [-> _]. split; [exact R1|]. apply NoDup_app_of; [exact R2|rewrite Q2, mtable_names in Q3; exact Q3|]. intros n N1 N2. exact (Q5 n N2 N1).
      - intros [O ND]. apply NoDup_app_inv in ND. destruct ND as (N1 & N2 & N3). assert (Q1 : b3 = true) by (apply B3; auto). apply C4; [exact Q1|exact N2|]. intros n A B. destruct (C3 Q1) as [R _]. rewrite R in B. exact (N3 n B A). }
    assert (OLD : forall t m, t < it -> off f4 t m = off (fields_of s) t m) by (intros t m L; rewrite P4 by lia; apply P3; lia).
    split; cbn [fields_of types_of nconst ok].
    + exact I4.
    + rewrite T4, T3, app_length. cbn. unfold it. lia.
    + intros k t H. destruct (Nat.lt_ge_cases k (length (types_of s))) as [L|L]; [rewrite nth_error_app1 in H by lia; apply G3; exact H|]. rewrite nth_error_app2 in H by lia. destruct (k - length (types_of s)) as [|j] eqn:J; [|destruct j; discriminate]. cbn in H. injection H as <-. cbn. unfold it. lia.
    + intro B. rewrite filter_app. cbn. apply Forall2_app; [apply G4; apply OKB; exact B|]. constructor; [|constructor]. destruct (B4 B) as (Q1 & -> & _). destruct (C3 Q1) as [-> _]. cbn. rewrite mtable_names, mtable_self. auto.
    + intros B t Ht. destruct (B4 B) as (Q1 & Q2 & Q3 & Q4 & Q5). apply in_app_or in Ht. destruct Ht as [Ht|[<-|[]]].
      * destruct (G5 (proj1 (proj1 OKB B)) t Ht) as [N O]. split; [exact N|]. intro m. destruct (In_nth_error _ _ Ht) as [k K]. destruct (G3 k t K) as [A1 A2]. assert (k < length (types_of s)) by (apply nth_error_Some; congruence). rewrite !OLD by (unfold it; lia). apply O.
      * cbn [tfields tmethods instance_type constructor_type]. split; [|intro m; split; [rewrite P4 by lia; apply O3|apply Q4]]. rewrite Q2, mtable_names. destruct (C3 Q1) as [-> _]. exact (proj2 (proj1 OKB B)).
    + intro B. destruct (B4 B) as (Q1 & -> & _). destruct (G6 (proj1 (proj1 OKB B))) as [N L]. rewrite flat_map_app. cbn [flat_map]. rewrite app_nil_r. unfold ids at 2 4. cbn [tmethods]. destruct (mtable_ids (nconst s) ms) as [M1 M2]. split.
      * apply NoDup_app_of; [exact N|exact M1|]. intros i A C. apply L in A. apply M2 in C. lia.
      * intros i A. apply in_app_or in A. destruct A as [A|A]; [apply L in A; lia|apply M2 in A; lia].
    + rewrite OKB, G7. split; [intros [A1 A2] y Y; apply in_app_or in Y; destruct Y as [Y|[<-|[]]]; auto|]. intro H. split; [intros y Y; apply H; apply in_or_app; auto|apply H; apply in_or_app; cbn; auto].
    + intro B. destruct (B4 B) as (Q1 & _). destruct (C3 Q1) as [_ U3]. eapply U_trans; [eapply U_trans; [apply (G8 (proj1 (proj1 OKB B)))|exact U3|intro; apply iff_refl|intro; apply iff_refl]|exact U4| |]; cbn beta.
      * intro k. split; [intros (y & Y & Q); apply in_app_or in Y; destruct Y as [Y|[<-|[]]]; [left; left; eauto|right; exact Q]|intros [ [ (y & Y & Q) | [] ] | Q]; [exists y; split; [apply in_or_app; auto|exact Q]|exists (IStruct module name fs ms); split; [apply in_or_app; cbn; auto|exact Q]]].
      * intro k. split; [intros (y & Y & Q); apply in_app_or in Y; destruct Y as [Y|[<-|[]]]; [left; left; eauto|destruct Q as [Q|Q]; [left; right; exact Q|right; exact Q]]|].
        intros [ [ (y & Y & Q) | Q ] | Q ]; [exists y; split; [apply in_or_app; auto|exact Q]| |]; exists (IStruct module name fs ms); (split; [apply in_or_app; cbn; auto|]); cbn; auto.
Qed.
Lemma good_all l : good l (declare_all l start).
Proof.
  assert (H : forall l2 l1 s, good l1 s -> good (l1 ++ l2) (declare_all l2 s)).
  { induction l2 as [|x l2 IH]; intros l1 s G; [rewrite app_nil_r; exact G|]. cbn [declare_all fold_left]. replace (l1 ++ x :: l2) with ((l1 ++ [x]) ++ l2) by (rewrite <- app_assoc; reflexivity). apply IH. apply good_step. exact G. }
  exact (H l [] start good_start).
Qed.
