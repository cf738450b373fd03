(** C52: inserting structures that contain themselves. *)
From Verif Require Import Base Seq SeqProofs RecHash RecHashSpec RecHashProofs.
Local Open Scope nat_scope.

(** Adding to a set [b] a value that contains [b], in any heap: it never succeeds. *)
Theorem C52_detects_set : forall fuel s b x l, is_set (objects s) b l -> contains (objects s) b x ->
  forall s', push fuel s b x <> Returned s'.
Proof.
  intros fuel [H f] b x l (e & E & _) C s'. cbn [objects] in *. unfold push, guard, insert_set. cbn [objects flag]. rewrite E.
  destruct (hash H b fuel x) as [[h g]|] eqn:EH; [|discriminate].
  assert (g = true) as -> by (apply (hash_flag H b ltac:(unfold collection; now rewrite E) fuel x h g EH); exact C).
  destruct (find_entry _ _ _ _ _) as [[]| |]; discriminate.
Qed.
Print Assumptions C52_detects_set.
(** The same for the keys of a dict. *)
Theorem C52_detects_dict : forall fuel s b k v l, is_dict (objects s) b l -> contains (objects s) b k ->
  forall s', insert fuel s b k v <> Returned s'.
Proof.
  intros fuel [H f] b x v l (e & E & _) C s'. cbn [objects] in *. unfold insert, guard, insert_dict. cbn [objects flag]. rewrite E.
  destruct (hash H b fuel x) as [[h g]|] eqn:EH; [|discriminate].
  assert (g = true) as -> by (apply (hash_flag H b ltac:(unfold collection; now rewrite E) fuel x h g EH); exact C).
  destruct (find_entry _ _ _ _ _) as [[]| |]; discriminate.
Qed.
Print Assumptions C52_detects_dict.

(** ... and it is the error, not a crash, if the set or dict is empty and no chain of parts is infinite
    without passing through [b]. *)
Theorem C52_reports : forall s b x, closed (objects s) -> valid (objects s) x -> ends (objects s) b x -> contains (objects s) b x ->
  (is_set (objects s) b [] -> exists n, forall fuel, n <= fuel -> exists s', push fuel s b x = RecursiveHash s') /\
  (is_dict (objects s) b [] -> forall v, exists n, forall fuel, n <= fuel -> exists s', insert fuel s b x v = RecursiveHash s').
Proof.
  intros [H f] b x CL V EN C. cbn [objects] in *. split.
  - intros (e & E & M). destruct e; [|discriminate]. assert (COL : collection H b) by (unfold collection; now rewrite E).
    destruct (hash_ends H b COL CL x EN V) as (n & [h g] & P). exists n. intros fuel L. unfold push, guard, insert_set. cbn [objects flag]. rewrite E, (P fuel L). cbn.
    assert (g = true) as -> by (apply (hash_flag H b COL n x h g (P n (le_n n))); exact C). cbn. eauto.
  - intros (e & E & M) v. destruct e; [|discriminate]. assert (COL : collection H b) by (unfold collection; now rewrite E).
    destruct (hash_ends H b COL CL x EN V) as (n & [h g] & P). exists n. intros fuel L. unfold insert, guard, insert_dict. cbn [objects flag]. rewrite E, (P fuel L). cbn.
    assert (g = true) as -> by (apply (hash_flag H b COL n x h g (P n (le_n n))); exact C). cbn. eauto.
Qed.
Print Assumptions C52_reports.

Lemma update_same_but H b n : b < length H -> same_but b H (update H b n) /\ nth_error (update H b n) b = Some n.
Proof.
  intro L. split; [split|].
  - apply update_length.
  - intros a N. rewrite update_spec. destruct (Nat.eqb_spec b a); [subst; contradiction|reflexivity].
  - rewrite update_spec, Nat.eqb_refl. apply Nat.ltb_lt in L. now rewrite L.
Qed.
(** No false alarm: if neither the new value nor an element of the set contains the set, then it is added,
    unless an equal element is there already; nothing else changes, whatever happened before. *)
Theorem C52_no_false_alarm_set : forall s b x e, closed (objects s) -> nth_error (objects s) b = Some (NSet e) ->
  (forall y, y = x \/ In y (map snd e) -> valid (objects s) y /\ ends (objects s) b y /\ ~ contains (objects s) b y) ->
  exists n s', (forall fuel, n <= fuel -> push fuel s b x = Returned s') /\ same_but b (objects s) (objects s') /\
    ((exists h y, In (h, y) e /\ found (objects s) b x h y) -> is_set (objects s') b (map snd e)) /\
    (~ (exists h y, In (h, y) e /\ found (objects s) b x h y) -> is_set (objects s') b (map snd e ++ [x])).
Proof.
  intros [H f] b x e CL E OK. cbn [objects] in *. assert (COL : collection H b) by (unfold collection; now rewrite E).
  destruct (OK x (or_introl eq_refl)) as (V & EN & NC). destruct (hash_ends H b COL CL x EN V) as (n1 & [h g] & P1).
  assert (g = false) as ->. { destruct g; [|reflexivity]. exfalso. apply NC. now apply (hash_flag H b COL n1 x h true (P1 n1 (le_n n1))). }
  destruct (find_settles H b (fun e : ref => e) h x e) as (n2 & o & P2 & Q).
  { intros y I. destruct (OK y (or_intror I)) as (Vy & ENy & NCy). now apply equal_settles. }
  assert (LT : b < length H) by (apply nth_error_Some; now rewrite E).
  exists (Nat.max n1 n2). destruct o as [y|].
  - exists (State H false). split; [intros fuel L; unfold push, guard, insert_set; cbn [objects flag]; rewrite E, P1, P2 by lia; reflexivity|]. cbn [objects].
    split; [split; auto|]. split; [intros _; exists e; auto|]. intro NF. exfalso. apply NF. destruct Q as (l1 & h' & l2 & -> & T & Q & _). apply toks_eqb_eq in T as <-.
    exists h, y. split; [apply in_or_app; right; left; reflexivity|]. split; [exists n2; exact Q|exists n1; exact P1].
  - exists (State (update H b (NSet (e ++ [(h, x)]))) false). split; [intros fuel L; unfold push, guard, insert_set; cbn [objects flag]; rewrite E, P1, P2 by lia; reflexivity|]. cbn [objects].
    destruct (update_same_but H b (NSet (e ++ [(h, x)])) LT) as [A B]. split; [exact A|]. split.
    + intros (h' & y & I & (m1 & S1) & (m2 & S2)). exfalso. pose proof (S2 (Nat.max n1 m2) ltac:(lia)) as X. rewrite P1 in X by lia. injection X as ->.
      pose proof (Q h' y I (proj2 (toks_eqb_eq _ _) eq_refl) (Nat.max n2 m1) ltac:(lia)) as Y. cbn in Y. rewrite S1 in Y by lia. discriminate.
    + intros _. exists (e ++ [(h, x)]). split; [exact B|]. now rewrite map_app.
Qed.
Print Assumptions C52_no_false_alarm_set.
Lemma replace_split eq h k v l1 h' k' v' l2 : toks_eqb h h' = true -> (exists f, eq k k' = Ans true f) -> (forall h'' e', In (h'', e') l1 -> toks_eqb h h'' = true -> eq k (fst e') = Ans false false) ->
  replace_value eq h k v (l1 ++ (h', (k', v')) :: l2) = l1 ++ (h', (k', v)) :: l2.
Proof.
  intros T (f & E) N. induction l1 as [|[h1 [k1 v1]] l1 IH]; cbn; [now rewrite T, E|].
  rewrite IH by (intros; eapply N; [right|]; eassumption). destruct (toks_eqb h h1) eqn:T1; cbn; [|reflexivity].
  pose proof (N h1 (k1, v1) (or_introl eq_refl) T1) as X. cbn in X. now rewrite X.
Qed.
(** For dicts only the keys matter: values may contain the dict.  An equal key gets the new value in its
    place; the first of them, should mutation have made several keys equal. *)
Theorem C52_no_false_alarm_dict : forall s b k v e, closed (objects s) -> nth_error (objects s) b = Some (NDict e) ->
  (forall y, y = k \/ In y (map fst (map snd e)) -> valid (objects s) y /\ ends (objects s) b y /\ ~ contains (objects s) b y) ->
  exists n s', (forall fuel, n <= fuel -> insert fuel s b k v = Returned s') /\ same_but b (objects s) (objects s') /\
    ((exists h k' v', In (h, (k', v')) e /\ found (objects s) b k h k') ->
       exists l1 h k' v' l2, e = l1 ++ (h, (k', v')) :: l2 /\ found (objects s) b k h k' /\
         ~ (exists k'' v'', In (h, (k'', v'')) l1 /\ found (objects s) b k h k'') /\
         is_dict (objects s') b (map snd l1 ++ (k', v) :: map snd l2)) /\
    (~ (exists h k' v', In (h, (k', v')) e /\ found (objects s) b k h k') -> is_dict (objects s') b (map snd e ++ [(k, v)])).
Proof.
  intros [H f] b x v e CL E OK. cbn [objects] in *. assert (COL : collection H b) by (unfold collection; now rewrite E).
  destruct (OK x (or_introl eq_refl)) as (V & EN & NC). destruct (hash_ends H b COL CL x EN V) as (n1 & [h g] & P1).
  assert (g = false) as ->. { destruct g; [|reflexivity]. exfalso. apply NC. now apply (hash_flag H b COL n1 x h true (P1 n1 (le_n n1))). }
  assert (SE : forall y, In y (map snd e) -> settles (fun m => equal H b m x (fst y))).
  { intros y I. destruct (OK (fst y) (or_intror (in_map fst _ _ I))) as (Vy & ENy & NCy). now apply equal_settles. }
  destruct (find_settles H b (@fst ref ref) h x e SE) as (n2 & o & P2 & Q).
  assert (LT : b < length H) by (apply nth_error_Some; now rewrite E).
  exists (Nat.max n1 n2). destruct o as [[k' v']|].
  - destruct Q as (l1 & h' & l2 & -> & T & Q & R). cbn [fst] in Q.
    exists (State (update H b (NDict (l1 ++ (h', (k', v)) :: l2))) false).
    split; [intros fuel L; unfold insert, guard, insert_dict; cbn [objects flag]; rewrite E, P1, P2 by lia; rewrite replace_split; [reflexivity|exact T|exists false; apply Q; lia|intros h'' e'' I T''; apply (R h'' e'' I T''); lia]|]. cbn [objects].
    destruct (update_same_but H b (NDict (l1 ++ (h', (k', v)) :: l2)) LT) as [A B]. apply toks_eqb_eq in T as <-.
    assert (FD : found H b x h k') by (split; [exists n2; exact Q|exists n1; exact P1]).
    split; [exact A|]. split.
    + intros _. exists l1, h, k', v', l2. split; [reflexivity|]. split; [exact FD|]. split.
      * intros (k2 & v2 & I & (m1 & S1) & _). pose proof (R h (k2, v2) I (proj2 (toks_eqb_eq _ _) eq_refl) (Nat.max n2 m1) ltac:(lia)) as Y. cbn in Y. rewrite S1 in Y by lia. discriminate.
      * exists (l1 ++ (h, (k', v)) :: l2). split; [exact B|]. now rewrite map_app.
    + intro NF. exfalso. apply NF. exists h, k', v'. split; [apply in_or_app; right; left; reflexivity|exact FD].
  - exists (State (update H b (NDict (e ++ [(h, (x, v))]))) false). split; [intros fuel L; unfold insert, guard, insert_dict; cbn [objects flag]; rewrite E, P1, P2 by lia; reflexivity|]. cbn [objects].
    destruct (update_same_but H b (NDict (e ++ [(h, (x, v))])) LT) as [A B]. split; [exact A|]. split.
    + intros (h' & y & w & I & (m1 & S1) & (m2 & S2)). exfalso. pose proof (S2 (Nat.max n1 m2) ltac:(lia)) as X. rewrite P1 in X by lia. injection X as ->.
      pose proof (Q h' (y, w) I (proj2 (toks_eqb_eq _ _) eq_refl) (Nat.max n2 m1) ltac:(lia)) as Y. cbn in Y. rewrite S1 in Y by lia. discriminate.
    + intros _. eexists. split; [exact B|]. now rewrite map_app.
Qed.
Print Assumptions C52_no_false_alarm_dict.

(** The guard left by earlier operations, failed or not, has no influence on any later history. *)
Theorem C52_guard_clean : forall fuel H l f g, session fuel (State H f) l = session fuel (State H g) l.
Proof.
  intros fuel H l. revert H. induction l as [|o l IH]; intros H f g; [reflexivity|]. cbn [session].
  assert (K : forall A B, A = B \/ (exists H' f' g', A = Returned (State H' f') /\ B = Returned (State H' g')) ->
    seen A :: match A with Returned s' | RecursiveHash s' => session fuel s' l | Crashed => [] end = seen B :: match B with Returned s' | RecursiveHash s' => session fuel s' l | Crashed => [] end).
  { intros A B [->|(H' & f' & g' & -> & ->)]; [reflexivity|]. cbn. f_equal. apply IH. }
  apply K. clear K. destruct o as [a x|a k v|a k v|a x]; cbn [perform].
  - left. reflexivity.
  - left. reflexivity.
  - unfold insert_default. cbn [objects flag]. destruct (nth_error H a) as [[]|]; auto. destruct (hash H a fuel k) as [[h f0]|]; auto. destruct (find_entry _ _ _ _ _) as [[]| |]; auto; right; eauto.
  - unfold remove. cbn [objects flag]. destruct (hash H a fuel x) as [[h f0]|]; auto. destruct (nth_error H a) as [[]|]; auto; destruct (find_entry _ _ _ _ _) as [[]| |]; auto; right; eauto.
Qed.
Print Assumptions C52_guard_clean.

(** Examples: `let x = set(); let y = [1, x]; x.push(y)` is an error, adding y to another set is not;
    `let d = dict(); d[1] = d` is not, `d[d] = 1` is. *)
Definition h1 : heap := [NSet []; NList [Leaf 1; Obj 0]; NSet [([TWord 5], Leaf 5)]; NDict []].
Example C52_ex : (exists s, push 5 (State h1 true) 0 (Obj 1) = RecursiveHash s) /\
  (exists s, push 5 (State h1 true) 2 (Obj 1) = Returned s /\ is_set (objects s) 2 [Leaf 5; Obj 1]) /\
  (exists s, insert 5 (State h1 true) 3 (Leaf 1) (Obj 3) = Returned s /\ is_dict (objects s) 3 [(Leaf 1, Obj 3)]) /\
  (exists s, insert 5 (State h1 true) 3 (Obj 3) (Leaf 1) = RecursiveHash s).
Proof. repeat split; eexists; try split; try (vm_compute; reflexivity); eexists; split; vm_compute; reflexivity. Qed.
Example C52_ex_hyps : closed h1 /\ is_set h1 0 [] /\ contains h1 0 (Obj 1) /\ ends h1 0 (Obj 1) /\ ends h1 2 (Obj 1) /\ ~ contains h1 2 (Obj 1) /\ ~ contains h1 2 (Leaf 5).
Proof.
  assert (P0 : forall a c, part h1 a c -> (a = 1 /\ (c = Leaf 1 \/ c = Obj 0)) \/ (a = 2 /\ c = Leaf 5)).
  { intros a c (n & E & I). destruct a as [|[|[|[|a]]]]; cbn in E; try (injection E as <-; cbn in I); [destruct I|left; destruct I as [<-|[<-|[]]]; auto|right; destruct I as [<-|[]]; auto|destruct I|destruct a; discriminate]. }
  split; [|split; [|split; [|split; [|split; [|split]]]]].
  - intros a c b P ->. apply P0 in P as [[_ [P|P]]|[_ P]]; try discriminate. injection P as ->. cbn. lia.
  - exists []. split; reflexivity.
  - apply (contains_part _ _ 1 (Obj 0)); [eexists; split; [reflexivity|right; left; reflexivity]|constructor].
  - constructor. intros _ c P. apply P0 in P as [[_ [->| ->]]|[E _]]; [constructor|constructor; intro N; now destruct N|discriminate].
  - constructor. intros _ c P. apply P0 in P as [[_ [->| ->]]|[E _]]; [constructor| |discriminate]. constructor. intros _ c P. apply P0 in P as [[E _]|[E _]]; discriminate.
  - intro K. inversion K as [|a c P C]; subst. apply P0 in P as [[_ [->| ->]]|[E _]]; [inversion C| |discriminate]. inversion C as [|a c P C']; subst. apply P0 in P as [[E _]|[E _]]; discriminate.
  - intro K. inversion K.
Qed.

(** `let x = set(); x.push(set()); x.push(x)` crashes the interpreter: hashing x gives the hash of the
    empty set, and comparing x with it borrows x again. *)
Definition h2 : heap := [NSet [([], Obj 1)]; NSet []].
Theorem C52_crash_refuted : exists H0 H b x l, (exists s, push 5 (State H0 false) b (Obj 1) = Returned s /\ objects s = H) /\ closed H /\ is_set H b l /\ contains H b x /\ ends H b x /\
  forall fuel f, push fuel (State H f) b x = Crashed.
Proof.
  exists [NSet []; NSet []], h2, 0, (Obj 0), [Obj 1]. split; [eexists; split; vm_compute; reflexivity|].
  split; [|split; [|split; [|split]]].
  - intros a c b (n & E & I) ->. destruct a as [|[|a]]; cbn in E; try (injection E as <-; cbn in I); [destruct I as [I|[]]; injection I as <-; cbn; lia|destruct I|destruct a; discriminate].
  - eexists. split; reflexivity.
  - constructor.
  - constructor. intro N. now destruct N.
  - intros [|fuel] f; [reflexivity|]. vm_compute. reflexivity.
Qed.
Print Assumptions C52_crash_refuted.
(** The element is inserted in spite of the error, and a later insertion of an unrelated value crashes:
    `x.push(x)` (an error), then `x.push(set())`. *)
Theorem C52_later_refuted : exists H, closed H /\ is_set H 0 [] /\ ~ contains H 0 (Obj 1) /\
  forall fuel, 1 <= fuel -> exists H', is_set H' 0 [Obj 0] /\ session fuel (State H false) [OpPush 0 (Obj 0); OpPush 0 (Obj 1)] = [Some (H', true); None].
Proof.
  exists [NSet []; NSet []]. split; [|split; [|split]].
  - intros a c b (n & E & I) ->. destruct a as [|[|a]]; cbn in E; try (injection E as <-; cbn in I; destruct I). destruct a; discriminate.
  - eexists. split; reflexivity.
  - inversion 1 as [|a c (n & E & I) C]; subst. cbn in E. injection E as <-. destruct I.
  - intros [|fuel] L; [lia|]. exists [NSet [([], Obj 0)]; NSet []]. split; [eexists; split; reflexivity|]. vm_compute. reflexivity.
Qed.
Print Assumptions C52_later_refuted.
(** A list that contains itself cannot be put in a set: hashing it overflows the stack. *)
Theorem C52_list_refuted : exists H b x l, closed H /\ is_set H b l /\ contains H 1 (Obj 1) /\ (exists c, part H 1 c /\ c = x) /\ forall fuel f, push fuel (State H f) b x = Crashed.
Proof.
  exists [NSet []; NList [Obj 1]], 0, (Obj 1), []. split; [|split; [|split; [|split]]].
  - intros a c b (n & E & I) ->. destruct a as [|[|a]]; cbn in E; try (injection E as <-; cbn in I); [destruct I|destruct I as [I|[]]; injection I as <-; cbn; lia|destruct a; discriminate].
  - eexists. split; reflexivity.
  - constructor.
  - exists (Obj 1). split; [|reflexivity]. eexists. split; [reflexivity|left; reflexivity].
  - intros fuel f. unfold push, guard, insert_set. cbn [objects nth_error].
    assert (N : forall n, hash [NSet []; NList [Obj 1]] 0 n (Obj 1) = None).
    { induction n as [|n IH]; [reflexivity|]. cbn. now rewrite IH. }
    now rewrite N.
Qed.
Print Assumptions C52_list_refuted.
