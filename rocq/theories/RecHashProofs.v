(** Proofs for C52. *)
From Verif Require Import Base Seq RecHash RecHashSpec.
Local Open Scope nat_scope.
Section H.
Context (H : heap) (b : nat).
Local Notation hash := (hash H b).
Local Notation equal := (equal H b).
Local Notation contains := (contains H b).
Local Notation ends := (ends H b).
Definition collection : Prop := match nth_error H b with Some (NSet _) | Some (NDict _) => True | _ => False end.

Lemma contains_obj a n : nth_error H a = Some n -> a <> b -> (contains (Obj a) <-> exists c, In c (contents n) /\ contains c).
Proof.
  intros E N. split.
  - inversion 1; subst; [now destruct N|]. match goal with K : part _ _ _ |- _ => destruct K as (n' & E' & I) end. rewrite E in E'. injection E' as <-. eauto.
  - intros (c & I & C). apply (contains_part _ _ a c); [exists n; auto|exact C].
Qed.
Lemma seq_flag f l t g : (forall r t g, f r = Some (t, g) -> g = true <-> contains r) -> hash_seq f l = Some (t, g) -> g = true <-> exists c, In c l /\ contains c.
Proof.
  intro F. revert t g. induction l as [|x l IH]; intros t g E; cbn in E.
  - injection E as <- <-. split; [discriminate|intros (c & [] & _)].
  - destruct (f x) as [[t1 g1]|] eqn:E1; [|discriminate]. destruct (hash_seq f l) as [[t2 g2]|] eqn:E2; [|discriminate]. injection E as <- <-.
    rewrite orb_true_iff, (F _ _ _ E1), (IH _ _ eq_refl). split.
    + intros [C|(c & I & C)]; [exists x; cbn; auto|exists c; cbn; auto].
    + intros (c & [<-|I] & C); eauto.
Qed.
Lemma prefix_inv p o t g : with_prefix p o = Some (t, g) -> exists t', o = Some (t', g).
Proof. destruct o as [[t' g']|]; cbn; [|discriminate]. intro E. injection E as <- <-. eauto. Qed.
Lemma hash_flag : collection -> forall n r t g, hash n r = Some (t, g) -> g = true <-> contains r.
Proof.
  intro C. induction n as [|n IH]; intros r t g E; [discriminate|]. cbn in E. destruct r as [z|a].
  - injection E as <- <-. split; [discriminate|inversion 1].
  - destruct (Nat.eq_dec a b) as [->|N].
    + unfold collection in C. destruct (nth_error H b) as [[]|]; try contradiction; rewrite Nat.eqb_refl in E; injection E as <- <-; split; auto; constructor.
    + destruct (nth_error H a) as [nd|] eqn:E1; [|discriminate]. rewrite (contains_obj a nd E1 N). apply Nat.eqb_neq in N. rewrite N in E.
      destruct nd; try (apply prefix_inv in E as [t' E]); try (now apply (seq_flag _ _ _ _ IH E)).
      apply IH in E. rewrite E. cbn. split; [eauto|]. intros (c & [<-|[]] & K). auto.
Qed.

Lemma seq_ends (l : list ref) : (forall c, In c l -> exists n o, forall m, n <= m -> hash m c = Some o) -> exists n o, forall m, n <= m -> hash_seq (hash m) l = Some o.
Proof.
  induction l as [|x l IH]; intro F; [exists 0, ([], false); reflexivity|].
  destruct (F x (or_introl eq_refl)) as (n1 & [t1 g1] & E1). destruct IH as (n2 & [t2 g2] & E2); [intros; apply F; right; auto|].
  exists (Nat.max n1 n2), (t1 ++ t2, g1 || g2). intros m L. cbn. rewrite E1, E2 by lia. reflexivity.
Qed.
Lemma prefix_ends p (f : nat -> option (list tok * bool)) : (exists n o, forall m, n <= m -> f m = Some o) -> exists n o, forall m, n <= m -> with_prefix p (f m) = Some o.
Proof. intros (n & [t g] & E). exists n, (p ++ t, g). intros m L. now rewrite E. Qed.
Lemma part_valid a n c : closed H -> nth_error H a = Some n -> In c (contents n) -> valid H c.
Proof. intros CL E I. destruct c as [|k]; [exact Logic.I|]. apply (CL a (Obj k) k); [exists n; auto|reflexivity]. Qed.
Lemma hash_ends : collection -> closed H -> forall r, ends r -> valid H r -> exists n o, forall m, n <= m -> hash m r = Some o.
Proof.
  intros COL CL r E. induction E as [t|a K IH]; intro V.
  - exists 1, ([TWord t], false). intros [|m] L; [lia|reflexivity].
  - cbn in V. destruct (nth_error H a) as [nd|] eqn:E; [|apply nth_error_None in E; lia].
    enough (exists n o, forall m, n <= m -> hash (S m) (Obj a) = Some o) as (n & o & P). { exists (S n), o. intros [|m] L; [lia|]. apply P. lia. }
    cbn. rewrite E. destruct (Nat.eq_dec a b) as [->|N].
    + unfold collection in COL. rewrite E in COL. rewrite Nat.eqb_refl. destruct nd; try contradiction; exists 0; eexists; reflexivity.
    + assert (F : forall c, In c (contents nd) -> exists n o, forall m, n <= m -> hash m c = Some o).
      { intros c I. apply (IH N c); [exists nd; auto|now apply (part_valid a nd)]. }
      apply Nat.eqb_neq in N. rewrite N. destruct nd; try (apply prefix_ends); try (now apply seq_ends). apply F. left. reflexivity.
Qed.
(** conversely *)
Lemma seq_parts f l o : hash_seq f l = Some o -> forall c, In c l -> exists o', f c = Some o'.
Proof.
  revert o. induction l as [|x l IH]; intros o E c []; cbn in E.
  - subst. destruct (f c) as [[]|]; [eauto|discriminate].
  - destruct (f x) as [[]|]; [|discriminate]. destruct (hash_seq f l) as [[]|] eqn:E2; [|discriminate]. eapply IH; eauto.
Qed.
Lemma hash_ends_conv n : forall r o, hash n r = Some o -> ends r.
Proof.
  induction n as [|n IH]; intros r o E; [discriminate|]. destruct r as [t|a]; [constructor|]. constructor. intros N c (nd & E1 & I). cbn in E. rewrite E1 in E.
  apply Nat.eqb_neq in N. rewrite N in E. destruct o as [t g].
  destruct nd; try (apply prefix_inv in E as [t' E]); try (destruct (seq_parts _ _ _ E c I) as [o' E']; eapply IH; exact E').
  destruct I as [<-|[]]. eapply IH; exact E.
Qed.

(** ** Equality *)
Definition settles {A} (f : nat -> answer A) : Prop := exists n c, forall m, n <= m -> f m = Ans c false.
Lemma all2_settles l r : (forall x y, In x l -> In y r -> settles (fun m => equal m x y)) -> settles (fun m => all2 (equal m) l r).
Proof.
  revert r. induction l as [|x l IH]; intros r F; [exists 0, true; reflexivity|]. destruct r as [|y r]; [exists 0, true; reflexivity|].
  destruct (F x y) as (n1 & c1 & E1); [left; auto..|]. destruct (IH r) as (n2 & c2 & E2); [intros; apply F; right; auto|].
  destruct c1; [exists (Nat.max n1 n2), c2|exists n1, false]; intros m L; cbn; rewrite E1 by lia; [|reflexivity]. rewrite E2 by lia. reflexivity.
Qed.
Lemma find_settles {A} (key : A -> ref) h x l : (forall e, In e (map snd l) -> settles (fun m => equal m x (key e))) ->
  exists n o, (forall m, n <= m -> find_entry (equal m) key h x l = Ans o false) /\
    match o with
    | Some e => exists l1 h' l2, l = l1 ++ (h', e) :: l2 /\ toks_eqb h h' = true /\ (forall m, n <= m -> equal m x (key e) = Ans true false) /\
        (forall h'' e', In (h'', e') l1 -> toks_eqb h h'' = true -> forall m, n <= m -> equal m x (key e') = Ans false false)
    | None => forall h' e, In (h', e) l -> toks_eqb h h' = true -> forall m, n <= m -> equal m x (key e) = Ans false false
    end.
Proof.
  induction l as [|[h' e] l IH]; intro F; [exists 0, None; split; [reflexivity|intros ? ? []]|].
  destruct IH as (n2 & o & E2 & I2); [intros; apply F; right; auto|]. cbn. destruct (toks_eqb h h') eqn:T.
  - destruct (F e (or_introl eq_refl)) as (n1 & c & E1). destruct c.
    + exists n1, (Some e). split; [intros m L; now rewrite E1|]. exists [], h', l. repeat split; auto. intros ? ? [].
    + exists (Nat.max n1 n2), o. split; [intros m L; rewrite E1, E2 by lia; reflexivity|]. destruct o as [e'|].
      * destruct I2 as (l1 & h2 & l2 & -> & T2 & Q & R). exists ((h', e) :: l1), h2, l2. split; [reflexivity|]. split; [exact T2|]. split; [intros; apply Q; lia|].
        intros h'' e'' [J|J] T'' m L; [injection J as <- <-; apply E1; lia|apply (R h'' e'' J T''); lia].
      * intros h'' e'' [J|J] T'' m L; [injection J as <- <-; apply E1; lia|apply (I2 h'' e'' J T''); lia].
  - exists n2, o. split; [exact E2|]. destruct o as [e'|].
    + destruct I2 as (l1 & h2 & l2 & -> & T2 & Q & R). exists ((h', e) :: l1), h2, l2. split; [reflexivity|]. split; [exact T2|]. split; [exact Q|].
      intros h'' e'' [J|J] T'' m L; [injection J as <- <-; congruence|now apply (R h'' e'' J T'')].
    + intros h'' e'' [J|J] T'' m L; [injection J as <- <-; congruence|now apply (I2 h'' e'' J T'')].
Qed.
Lemma equal_settles : collection -> closed H -> forall x, ends x -> valid H x -> ~ contains x -> forall y, ends y -> valid H y -> ~ contains y -> settles (fun m => equal m x y).
Proof.
  intros COL CL x E. induction E as [t|a K IH]; intros V NC y Ey Vy NCy.
  - exists 1. destruct y as [u|k]; eexists; (intros [|m] L; [lia|reflexivity]).
  - enough (settles (fun m => equal (S m) (Obj a) y)) as (n & c & P). { exists (S n), c. intros [|m] L; [lia|]. apply P. lia. }
    destruct y as [u|k]; [exists 0; eexists; reflexivity|].
    assert (N : a <> b) by (intros ->; apply NC; constructor). assert (N' : k <> b) by (intros ->; apply NCy; constructor).
    cbn in V, Vy. destruct (nth_error H a) as [nd|] eqn:E1; [|apply nth_error_None in E1; lia]. destruct (nth_error H k) as [nk|] eqn:E2; [|apply nth_error_None in E2; lia].
    assert (C : forall x y, In x (contents nd) -> In y (contents nk) -> settles (fun m => equal m x y)).
    { intros x y I J. apply (IH N x); [exists nd; auto|now apply (part_valid a nd)|intro X; apply NC, (contains_obj a nd E1 N); eauto| |now apply (part_valid k nk)|intro X; apply NCy, (contains_obj k nk E2 N'); eauto].
      inversion Ey; subst. match goal with X : k <> b -> _ |- _ => apply (X N') end. exists nk; auto. }
    assert (HA : forall x, In x (contents nd) -> exists n t, forall m, n <= m -> hash m x = Some (t, false)).
    { intros x I. destruct (hash_ends COL CL x) as (n & [t g] & P); [apply (K N); exists nd; auto|now apply (part_valid a nd)|]. exists n, t. intros m L. rewrite (P m L). f_equal. f_equal.
      destruct g; [|reflexivity]. exfalso. apply NC, (contains_obj a nd E1 N). exists x. split; [exact I|]. now apply (hash_flag COL n x t true (P n (le_n n))). }
    apply Nat.eqb_neq in N, N'. cbn. rewrite E1, E2, N, N'. cbn [orb].
    assert (SQ : forall l r, (forall x y, In x l -> In y r -> settles (fun m => equal m x y)) -> settles (fun m => if length l =? length r then all2 (equal m) l r else Ans false false)).
    { intros l r F. destruct (length l =? length r); [now apply all2_settles|exists 0; eexists; reflexivity]. }
    assert (FALSE : settles (fun _ : nat => Ans false false)) by (exists 0; eexists; reflexivity).
    destruct nd as [l|l|l|l|o l|l|l], nk as [r|r|r|r|p r|r|r]; try exact FALSE; try (now apply SQ).
    + apply C; left; reflexivity.
    + destruct (o =? p)%Z; [now apply SQ|exact FALSE].
    + destruct (length l =? length r); [|exact FALSE]. cbn [contents] in C, HA. clear - C HA. revert C HA.
      induction l as [|[h0 e] l IHl]; intros C HA; [exists 0, true; reflexivity|].
      destruct IHl as (n3 & c3 & E3); [intros; apply C; cbn; auto|intros; apply HA; cbn; auto|].
      destruct (HA e (or_introl eq_refl)) as (n1 & t & E1). destruct (find_settles (fun e : ref => e) t e r) as (n2 & o & E2 & _); [intros; apply C; cbn; auto|].
      destruct o as [e'|].
      * exists (Nat.max n1 (Nat.max n2 n3)), c3. intros m L. rewrite E1, E2, E3 by lia. reflexivity.
      * exists (Nat.max n1 n2), false. intros m L. rewrite E1, E2 by lia. reflexivity.
    + destruct (length l =? length r); [|exact FALSE]. cbn [contents] in C, HA. clear - C HA. revert C HA.
      assert (IN1 : forall (e : ref * ref) l, In e (map snd l) -> In (fst e) (flat_map (fun e : list tok * (ref * ref) => [fst (snd e); snd (snd e)]) l) /\ In (snd e) (flat_map (fun e : list tok * (ref * ref) => [fst (snd e); snd (snd e)]) l)).
      { intros e l0 I. apply in_map_iff in I as (q & <- & I). split; apply in_flat_map; exists q; (split; [exact I|cbn; auto]). }
      induction l as [|[h0 [k v]] l IHl]; intros C HA; [exists 0, true; reflexivity|].
      destruct IHl as (n3 & c3 & E3); [intros; apply C; [right; right; assumption|assumption]|intros; apply HA; right; right; assumption|].
      destruct (HA k (or_introl eq_refl)) as (n1 & t & E1). destruct (find_settles (@fst ref ref) t k r) as (n2 & o & E2 & I2); [intros e I; apply C; [left; reflexivity|now apply IN1]|].
      destruct o as [[k' v']|].
      * destruct (C v v') as (n4 & c4 & E4); [right; left; reflexivity|apply (IN1 (k', v')); destruct I2 as (l1 & h1 & l2 & -> & _); rewrite map_app; apply in_or_app; right; left; reflexivity|].
        destruct c4; [exists (Nat.max n1 (Nat.max n2 (Nat.max n3 n4))), c3|exists (Nat.max n1 (Nat.max n2 n4)), false]; intros m L; rewrite E1, E2, E4 by lia; [rewrite E3 by lia|]; reflexivity.
      * exists (Nat.max n1 n2), false. intros m L. rewrite E1, E2 by lia. reflexivity.
Qed.
End H.
Lemma toks_eqb_eq a b : toks_eqb a b = true <-> a = b.
Proof.
  revert b. induction a as [|x a IH]; intros [|y b]; cbn; try (split; congruence).
  rewrite andb_true_iff, IH. destruct x as [x|x], y as [y|y]; cbn; rewrite ?Z.eqb_eq, ?Nat.eqb_eq; split; try (intros [? ->]; congruence); try (intro E; injection E; auto); try discriminate; intros [? _]; discriminate.
Qed.
