(** Proofs about ranges and iterators (Iter.v). *)
From Verif Require Import Base BaseProofs Ptr Native Value Iter IterSpec.
Local Open Scope Z_scope.

Lemma int63_bounds x : is_int63 x <-> -4611686018427387904 <= x <= 4611686018427387903.
Proof. unfold is_int63, MIN_INT, MAX_INT. change (2^62) with 4611686018427387904. lia. Qed.
Lemma i64_bounds x : is_i64 x <-> -9223372036854775808 <= x < 9223372036854775808.
Proof. unfold is_i64. change (2^63) with 9223372036854775808. lia. Qed.

Lemma progression_cons a b s l : s <> 0 -> before s a b ->
  progression (a + s) b s l -> progression a b s (a :: l).
Proof.
  intros Hs Hb Hp k x. destruct k as [|k]; cbn [nth_error].
  - split; [intros [= <-]; split; [lia|exact Hb] | intros [-> _]; f_equal; lia].
  - rewrite (Hp k x). replace (a + s + Z.of_nat k * s) with (a + Z.of_nat (S k) * s) by lia. tauto.
Qed.

Lemma progression_nil a b s : s <> 0 -> ~ before s a b -> progression a b s [].
Proof.
  intros Hs Hb k x. split; [destruct k; discriminate|].
  intros [-> H]. exfalso. apply Hb. unfold before in *.
  destruct (s >? 0) eqn:E; nia.
Qed.

Lemma progression_unique a b s l l' : progression a b s l -> progression a b s l' -> l = l'.
Proof.
  intros H H'. assert (E : forall k, nth_error l k = nth_error l' k).
  { intros k. destruct (nth_error l k) as [x|] eqn:E.
    - symmetry. apply H', H, E.
    - destruct (nth_error l' k) as [x|] eqn:E'; [|reflexivity].
      apply H', H in E'. congruence. }
  clear H H'. revert l' E. induction l as [|x l IH]; intros [|y l'] E; try reflexivity.
  - specialize (E O); discriminate.
  - specialize (E O); discriminate.
  - pose proof (E O) as E0. injection E0 as ->. f_equal. apply IH. intros k. exact (E (S k)).
Qed.

Lemma stopped_range n cur r : cur = r_stop r \/ r_step r = 0 -> stopped iter_next n (ItRange cur r).
Proof.
  intros H. induction n as [|n IH]; [exact I|]. cbn [stopped].
  assert (E : iter_next (ItRange cur r) = (None, ItRange cur r)).
  { cbn [iter_next]. unfold range_next.
    replace ((cur =? r_stop r) || (r_step r =? 0)) with true by (symmetry; destruct H as [-> | ->]; lia).
    reflexivity. }
  rewrite E. split; [reflexivity|exact IH].
Qed.

Lemma range_yields_pos : forall m a0 b s cur, is_int63 b -> is_int63 s -> is_int63 cur ->
  0 < s -> cur <= b -> (Z.to_nat (b - cur) <= m)%nat ->
  exists l, yields iter_next (ItRange cur (Range a0 b s)) (map VInt l) /\ progression cur b s l.
Proof.
  induction m as [|m IH]; intros a0 b s cur Hb Hs Hc Hpos Hle Hm.
  - assert (cur = b) by lia. subst. exists []. split.
    + apply y_nil. intros n. apply stopped_range. left. reflexivity.
    + apply progression_nil; [lia|]. unfold before. destruct (s >? 0) eqn:E; lia.
  - destruct (Z.eq_dec cur b) as [->|Hne].
    + exists []. split.
      * apply y_nil. intros n. apply stopped_range. left. reflexivity.
      * apply progression_nil; [lia|]. unfold before. destruct (s >? 0) eqn:E; lia.
    + rewrite int63_bounds in Hb, Hs, Hc.
      set (c := if (cur + s) >? b then b else cur + s).
      assert (Hc' : cur < c <= b) by (unfold c; destruct (cur + s >? b) eqn:E; lia).
      destruct (IH a0 b s c) as (l & Hy & Hp); try (apply int63_bounds; lia); try lia.
      assert (Hstep : iter_next (ItRange cur (Range a0 b s)) = (Some (VInt cur), ItRange c (Range a0 b s))).
      { cbn [iter_next]. unfold range_next. cbn [r_stop r_step].
        replace ((cur =? b) || (s =? 0)) with false by lia.
        replace (s >? 0) with true by lia.
        rewrite (i64_id (cur + s)) by (apply i64_bounds; lia).
        rewrite wrap63_id by (apply int63_bounds; lia). reflexivity. }
      exists (cur :: l). split.
      * cbn [map]. eapply y_cons; eauto.
      * unfold c in Hp. destruct (cur + s >? b) eqn:E.
        -- assert (l = []) as ->.
           { destruct l as [|x l]; [reflexivity|]. destruct (Hp O x) as [H _].
             destruct (H eq_refl) as [-> Hbf]. unfold before in Hbf. destruct (s >? 0) eqn:E2; lia. }
           apply progression_cons; [lia|unfold before; replace (s >? 0) with true by lia; lia|].
           apply progression_nil; [lia|]. unfold before. destruct (s >? 0) eqn:E2; lia.
        -- apply progression_cons; [lia|unfold before; replace (s >? 0) with true by lia; lia|exact Hp].
Qed.

Lemma range_yields_neg : forall m a0 b s cur, is_int63 b -> is_int63 s -> is_int63 cur ->
  s < 0 -> b <= cur -> (Z.to_nat (cur - b) <= m)%nat ->
  exists l, yields iter_next (ItRange cur (Range a0 b s)) (map VInt l) /\ progression cur b s l.
Proof.
  induction m as [|m IH]; intros a0 b s cur Hb Hs Hc Hneg Hle Hm.
  - assert (cur = b) by lia. subst. exists []. split.
    + apply y_nil. intros n. apply stopped_range. left. reflexivity.
    + apply progression_nil; [lia|]. unfold before. destruct (s >? 0) eqn:E; lia.
  - destruct (Z.eq_dec cur b) as [->|Hne].
    + exists []. split.
      * apply y_nil. intros n. apply stopped_range. left. reflexivity.
      * apply progression_nil; [lia|]. unfold before. destruct (s >? 0) eqn:E; lia.
    + rewrite int63_bounds in Hb, Hs, Hc.
      set (c := if (cur + s) <? b then b else cur + s).
      assert (Hc' : b <= c < cur) by (unfold c; destruct (cur + s <? b) eqn:E; lia).
      destruct (IH a0 b s c) as (l & Hy & Hp); try (apply int63_bounds; lia); try lia.
      assert (Hstep : iter_next (ItRange cur (Range a0 b s)) = (Some (VInt cur), ItRange c (Range a0 b s))).
      { cbn [iter_next]. unfold range_next. cbn [r_stop r_step].
        replace ((cur =? b) || (s =? 0)) with false by lia.
        replace (s >? 0) with false by lia.
        rewrite (i64_id (cur + s)) by (apply i64_bounds; lia).
        rewrite wrap63_id by (apply int63_bounds; lia). reflexivity. }
      exists (cur :: l). split.
      * cbn [map]. eapply y_cons; eauto.
      * unfold c in Hp. destruct (cur + s <? b) eqn:E.
        -- assert (l = []) as ->.
           { destruct l as [|x l]; [reflexivity|]. destruct (Hp O x) as [H _].
             destruct (H eq_refl) as [-> Hbf]. unfold before in Hbf. destruct (s >? 0) eqn:E2; lia. }
           apply progression_cons; [lia|unfold before; replace (s >? 0) with false by lia; lia|].
           apply progression_nil; [lia|]. unfold before. destruct (s >? 0) eqn:E2; lia.
        -- apply progression_cons; [lia|unfold before; replace (s >? 0) with false by lia; lia|exact Hp].
Qed.

Lemma range_iterates a b s : is_int63 a -> is_int63 b -> is_int63 s -> s <> 0 ->
  exists r l, range_from a b s = Some r /\ yields iter_next (ItRange (r_start r) r) (map VInt l) /\ progression a b s l.
Proof.
  intros Ha Hb Hs Hn. unfold range_from. replace (s =? 0) with false by lia.
  destruct (((b >? a) && (s >? 0)) || ((b <? a) && (s <? 0))) eqn:E.
  - exists (Range a b s). cbn [r_start].
    destruct (Z_lt_le_dec 0 s) as [Hp|Hp].
    + destruct (range_yields_pos (Z.to_nat (b - a)) a b s a) as (l & H); try assumption; try lia.
      exists l. tauto.
    + destruct (range_yields_neg (Z.to_nat (a - b)) a b s a) as (l & H); try assumption; try lia.
      exists l. tauto.
  - exists (Range 0 0 0), []. split; [reflexivity|]. split.
    + apply y_nil. intros n. apply stopped_range. right. reflexivity.
    + apply progression_nil; [lia|]. unfold before. destruct (s >? 0) eqn:E2; lia.
Qed.

Lemma range_zero_step a b : range_from a b 0 = None.
Proof. reflexivity. Qed.

(** membership *)
Lemma progression_In a b s l x : progression a b s l ->
  (In x l <-> exists k, 0 <= k /\ x = a + k * s /\ before s x b).
Proof.
  intros Hp. split.
  - intros H. apply In_nth_error in H. destruct H as [k H]. apply Hp in H. exists (Z.of_nat k). split; [lia|tauto].
  - intros (k & Hk & Hx & Hb). apply nth_error_In with (n := Z.to_nat k). apply Hp.
    rewrite Z2Nat.id by lia. tauto.
Qed.


Lemma rem_abs_le x y : y <> 0 -> Z.abs (Z.rem x y) <= Z.abs x.
Proof.
  intros Hy. rewrite <- Z.rem_abs by exact Hy. apply Z.rem_le; lia.
Qed.
Lemma rem64_zero x y : is_i64 x -> x <> - 9223372036854775808 -> y <> 0 -> (rem64 x y =? 0) = true <-> (y | x).
Proof.
  intros Hx Hm Hy. unfold rem64. rewrite i64_id.
  - rewrite Z.eqb_eq. rewrite Z.rem_divide by exact Hy. tauto.
  - rewrite i64_bounds in *. pose proof (rem_abs_le x y Hy). lia.
Qed.

Lemma range_contains_spec a b s r l x : is_int63 a -> is_int63 b -> is_int63 s -> is_int63 x ->
  range_from a b s = Some r -> progression a b s l ->
  (range_contains r x = true <-> In x l).
Proof.
  intros Ha Hb Hs Hx Hr Hp. rewrite (progression_In _ _ _ _ _ Hp).
  rewrite int63_bounds in *.
  unfold range_from in Hr. destruct (s =? 0) eqn:Es; [discriminate|].
  destruct (((b >? a) && (s >? 0)) || ((b <? a) && (s <? 0))) eqn:E; injection Hr as <-.
  - unfold range_contains. cbn [r_step r_start r_stop].
    destruct (Z.compare_spec s 0) as [H0|H0|H0]; [lia| |].
    + rewrite (i64_id (a - x)) by (apply i64_bounds; lia).
      rewrite !andb_true_iff. rewrite rem64_zero by (try apply i64_bounds; lia).
      unfold before. replace (s >? 0) with false by lia. split.
      * intros [[H1 H2] [k Hk]]. exists (- k). split; [nia|]. lia.
      * intros (k & Hk & Hx' & Hb'). split; [nia|]. exists (- k). lia.
    + rewrite (i64_id (x - a)) by (apply i64_bounds; lia).
      rewrite !andb_true_iff. rewrite rem64_zero by (try apply i64_bounds; lia).
      unfold before. replace (s >? 0) with true by lia. split.
      * intros [[H1 H2] [k Hk]]. exists k. split; [nia|]. lia.
      * intros (k & Hk & Hx' & Hb'). split; [nia|]. exists k. lia.
  - cbn. split; [discriminate|]. intros (k & Hk & Hx' & Hb'). exfalso.
    unfold before in Hb'. destruct (s >? 0) eqn:E2; nia.
Qed.

(** length *)
Lemma progression_length a b s l : s <> 0 -> progression a b s l ->
  (if s >? 0 then Z.of_nat (length l) = Z.max 0 ((b - a + s - 1) / s)
   else Z.of_nat (length l) = Z.max 0 ((a - b - s - 1) / - s)).
Proof.
  intros Hs Hp.
  assert (Hin : forall k, (k < length l)%nat <-> before s (a + Z.of_nat k * s) b).
  { intros k. split.
    - intros H. destruct (nth_error l k) as [x|] eqn:E.
      + apply Hp in E. destruct E as [<- ?]. assumption.
      + apply nth_error_None in E. lia.
    - intros H. apply nth_error_Some. rewrite (proj2 (Hp k _) (conj eq_refl H)). discriminate. }
  pose proof (Hin (length l)) as H1.
  pose proof (Hin (pred (length l))) as H2.
  unfold before in *. destruct (s >? 0) eqn:E.
  - assert (Hdm := Z.div_mod (b - a + s - 1) s ltac:(lia)).
    assert (Hmb := Z.mod_pos_bound (b - a + s - 1) s ltac:(lia)).
    set (q := (b - a + s - 1) / s) in *. set (n := length l) in *.
    assert (Hge : a + Z.of_nat n * s >= b) by lia.
    destruct n as [|n'] eqn:En.
    + cbn in Hge. assert (q <= 0) by nia. lia.
    + assert (a + Z.of_nat n' * s < b) by (apply H2; cbn; lia).
      assert (q = Z.of_nat (S n')) by nia. lia.
  - assert (Hdm := Z.div_mod (a - b - s - 1) (- s) ltac:(lia)).
    assert (Hmb := Z.mod_pos_bound (a - b - s - 1) (- s) ltac:(lia)).
    set (q := (a - b - s - 1) / - s) in *. set (n := length l) in *.
    assert (Hge : a + Z.of_nat n * s <= b) by lia.
    destruct n as [|n'] eqn:En.
    + cbn in Hge. assert (q <= 0) by nia. lia.
    + assert (a + Z.of_nat n' * s > b) by (apply H2; cbn; lia).
      assert (q = Z.of_nat (S n')) by nia. lia.
Qed.

Lemma range_len_spec a b s r l : range_from a b s = Some r -> progression a b s l ->
  (range_len r = Z.of_nat (length l) <-> l = [] \/ (s | b - a)) /\
  (Z.of_nat (length l) = range_len r \/ Z.of_nat (length l) = range_len r + 1).
Proof.
  intros Hr Hp. unfold range_from in Hr. destruct (s =? 0) eqn:Es; [discriminate|].
  assert (Hs : s <> 0) by lia.
  pose proof (progression_length _ _ _ _ Hs Hp) as HL.
  assert (Hnil : l = [] <-> Z.of_nat (length l) = 0).
  { destruct l; cbn [length]; split; try reflexivity; try discriminate; lia. }
  rewrite Hnil. clear Hnil Hp.
  destruct (((b >? a) && (s >? 0)) || ((b <? a) && (s <? 0))) eqn:E; injection Hr as <-.
  - unfold range_len. cbn [r_step r_start r_stop]. rewrite Es.
    set (n := Z.of_nat (length l)) in *. clearbody n.
    destruct (s >? 0) eqn:E2.
    + replace (Z.abs (a - b)) with (b - a) by lia. replace (Z.abs s) with s by lia.
      assert (H1 := Z.div_mod (b - a + s - 1) s ltac:(lia)).
      assert (H2 := Z.mod_pos_bound (b - a + s - 1) s ltac:(lia)).
      assert (H3 := Z.div_mod (b - a) s ltac:(lia)).
      assert (H4 := Z.mod_pos_bound (b - a) s ltac:(lia)).
      rewrite <- Z.mod_divide by lia.
      set (q := (b - a + s - 1) / s) in *. set (p := (b - a) / s) in *.
      set (m1 := (b - a + s - 1) mod s) in *. set (m2 := (b - a) mod s) in *.
      clearbody q p m1 m2.
      assert (q = p \/ q = p + 1) by nia.
      assert (q >= 1) by nia. assert (n = q) by lia. subst n.
      split; [|lia]. split; [intros ->; right; nia | intros [?|?]; [lia|nia]].
    + replace (Z.abs (a - b)) with (a - b) by lia. replace (Z.abs s) with (- s) by lia.
      assert (H1 := Z.div_mod (a - b - s - 1) (- s) ltac:(lia)).
      assert (H2 := Z.mod_pos_bound (a - b - s - 1) (- s) ltac:(lia)).
      assert (H3 := Z.div_mod (a - b) (- s) ltac:(lia)).
      assert (H4 := Z.mod_pos_bound (a - b) (- s) ltac:(lia)).
      assert (Hd : (s | b - a) <-> (a - b) mod (- s) = 0).
      { rewrite Z.mod_divide by lia. rewrite Z.divide_opp_l. replace (a - b) with (- (b - a)) by ring.
        rewrite Z.divide_opp_r. tauto. }
      rewrite Hd. clear Hd.
      set (q := (a - b - s - 1) / - s) in *. set (p := (a - b) / - s) in *.
      set (m1 := (a - b - s - 1) mod - s) in *. set (m2 := (a - b) mod - s) in *.
      clearbody q p m1 m2.
      assert (q = p \/ q = p + 1) by nia.
      assert (q >= 1) by nia. assert (n = q) by lia. subst n.
      split; [|lia]. split; [intros ->; right; nia | intros [?|?]; [lia|nia]].
  - cbn [range_len r_step]. replace (0 =? 0) with true by reflexivity.
    assert (Z.of_nat (length l) = 0).
    { destruct (s >? 0) eqn:E2.
      - assert ((b - a + s - 1) / s < 1) by (apply Z.div_lt_upper_bound; lia). lia.
      - assert ((a - b - s - 1) / - s < 1) by (apply Z.div_lt_upper_bound; lia). lia. }
    cbn. split; [split; lia|lia].
Qed.

(** collections, strings, enumerate *)
Lemma stopped_coll n : forall i l, (length l <= i)%nat -> stopped iter_next n (ItColl i l).
Proof.
  induction n as [|n IH]; intros i l H; [exact I|]. cbn. split; [apply nth_error_None; exact H|].
  apply IH. lia.
Qed.
Lemma yields_coll : forall l pre, yields iter_next (ItColl (length pre) (pre ++ l)) l.
Proof.
  induction l as [|x l IH]; intros pre.
  - apply y_nil. intros n. apply stopped_coll. rewrite app_length. cbn. lia.
  - eapply y_cons.
    + cbn [iter_next]. rewrite nth_error_app2, Nat.sub_diag by lia. reflexivity.
    + specialize (IH (pre ++ [x])). rewrite app_length, <- app_assoc in IH. cbn in IH.
      replace (S (length pre)) with (length pre + 1)%nat by lia. exact IH.
Qed.
Lemma stopped_str n m : stopped iter_next n (ItStr [] m).
Proof. induction n; cbn; auto. Qed.
Lemma yields_str : forall s m, yields iter_next (ItStr s m) (map (fun c => VStr [c]) s).
Proof.
  induction s as [|c s IH]; intros m.
  - apply y_nil. intros n. apply stopped_str.
  - eapply y_cons; [reflexivity|]. apply IH.
Qed.
Lemma stopped_enum n : forall i it, stopped iter_next n it -> stopped iter_next n (ItEnum i it).
Proof.
  induction n as [|n IH]; intros i it H; [exact I|]. cbn [stopped iter_next] in *.
  destruct (iter_next it) as [o it'] eqn:E. cbn [fst snd] in *. destruct H as [-> H].
  split; [reflexivity|]. apply IH, H.
Qed.
Lemma yields_enum it l : yields iter_next it l -> forall i,
  yields iter_next (ItEnum i it) (map (fun p => VVector [VInt (wrap63 (i64 (Z.of_nat (fst p)))); snd p]) (combine (seq i (length l)) l)).
Proof.
  induction 1 as [it Hs|it it' x l Hn Hy IH]; intros i.
  - cbn. apply y_nil. intros n. apply stopped_enum, Hs.
  - cbn [length seq combine map]. eapply y_cons.
    + cbn [iter_next]. rewrite Hn. reflexivity.
    + apply IH.
Qed.

(** what an iterator yields is determined *)
Lemma yields_det next it l : yields next it l -> forall l', yields next it l' -> l = l'.
Proof.
  induction 1 as [it Hs|it it' x l Hn Hy IH]; intros l' H'; inversion H'; subst.
  - reflexivity.
  - specialize (Hs 1%nat). cbn in Hs. rewrite H in Hs. destruct Hs as [Hs _]. discriminate.
  - specialize (H 1%nat). cbn in H. rewrite Hn in H. destruct H as [H _]. discriminate.
  - rewrite Hn in H. injection H as <- <-. f_equal. apply IH, H0.
Qed.

(** reversal *)
Lemma stopped_rev_coll n l : stopped iter_rev_next n (ItColl 0 l).
Proof. induction n; cbn; auto. Qed.
Lemma yields_rev_coll : forall n l, (n <= length l)%nat -> yields iter_rev_next (ItColl n l) (rev (firstn n l)).
Proof.
  induction n as [|n IH]; intros l H.
  - cbn. apply y_nil. intros n. apply stopped_rev_coll.
  - destruct (nth_error l n) as [x|] eqn:E; [|apply nth_error_None in E; lia].
    assert (Hf : firstn (S n) l = firstn n l ++ [x]).
    { clear H IH. revert l E. induction n as [|n IH]; intros [|y l] E; try discriminate.
      - cbn in E. injection E as ->. reflexivity.
      - cbn [firstn app] in *. rewrite <- (IH l E). reflexivity. }
    rewrite Hf, rev_app_distr. cbn [rev app]. eapply y_cons.
    + cbn [iter_rev_next]. rewrite E. reflexivity.
    + apply IH. lia.
Qed.
Lemma stopped_rev_str n m : stopped iter_rev_next n (ItStr [] m).
Proof. induction n; cbn; auto. Qed.
Lemma yields_rev_str : forall s m, yields iter_rev_next (ItStr (rev s) m) (map (fun c => VStr [c]) s).
Proof.
  induction s as [|c s IH]; intros m.
  - apply y_nil. intros n. apply stopped_rev_str.
  - eapply y_cons.
    + cbn [iter_rev_next]. rewrite rev_involutive. reflexivity.
    + apply IH.
Qed.

Lemma to_iter_yields : forall v it, to_iter v = Some it ->
  match v with
  | VStr s => yields iter_next it (map (fun c => VStr [c]) s)
  | VList l | VVector l | VSet l | VHeap l => yields iter_next it l
  | VDict l => yields iter_next it (map (fun p => VVector [fst p; snd p]) l)
  | VRange _ _ _ | VEnumerate _ => True
  | _ => False
  end.
Proof.
  intros v it H. destruct v; cbn in H; try discriminate; try (injection H as <-); try exact I.
  - apply yields_str.
  - apply (yields_coll l []).
  - apply (yields_coll l []).
  - apply (yields_coll l []).
  - apply (yields_coll _ []).
  - apply (yields_coll l []).
Qed.

Lemma rev_yields : forall v it l, to_iter v = Some it -> yields iter_next it l ->
  match v with VRange _ _ _ | VEnumerate _ => False | _ => True end ->
  yields iter_rev_next (iter_reverse it) (rev l) /\ iter_len (iter_reverse it) = Z.of_nat (length l).
Proof.
  intros v it l H Hy Hv.
  assert (HC : forall l0, it = ItColl 0 l0 -> yields iter_rev_next (iter_reverse it) (rev l) /\ iter_len (iter_reverse it) = Z.of_nat (length l)).
  { intros l0 ->. assert (l0 = l) as ->.
    { eapply yields_det; [apply (yields_coll l0 [])|exact Hy]. }
    cbn [iter_reverse iter_len]. split; [|reflexivity].
    pose proof (yields_rev_coll (length l) l (le_n _)) as HR. rewrite firstn_all in HR. exact HR. }
  destruct v; cbn in H; try discriminate; try contradiction; injection H as <-; try (eapply HC; reflexivity).
  assert (l = map (fun c => VStr [c]) s) as -> by (eapply yields_det; [exact Hy|apply yields_str]).
  cbn [iter_reverse iter_len]. rewrite map_length. split; [|reflexivity].
  rewrite <- map_rev. pose proof (yields_rev_str (rev s) (length s)) as HR. rewrite rev_involutive in HR. exact HR.
Qed.

Lemma position_spec x : forall l, match position x l with
  | Some i => exists y, nth_error l i = Some y /\ value_eq y x = true /\
                (forall j z, (j < i)%nat -> nth_error l j = Some z -> value_eq z x = false)
  | None => forall y, In y l -> value_eq y x = false
  end.
Proof.
  induction l as [|y l IH]; cbn [position]; [intros y []|].
  destruct (value_eq y x) eqn:E.
  - exists y. split; [reflexivity|]. split; [exact E|]. intros j z Hj. lia.
  - destruct (position x l) as [i|].
    + destruct IH as (z & H1 & H2 & H3). exists z. split; [exact H1|]. split; [exact H2|].
      intros [|j] w Hj Hw; [injection Hw as <-; exact E|]. apply (H3 j); [lia|exact Hw].
    + intros z [<-|Hz]; [exact E|apply IH, Hz].
Qed.

Lemma left_index_spec x l :
  (left_index x l = -1 /\ forall y, In y l -> value_eq y x = false) \/
  (exists k y, left_index x l = Z.of_nat k /\ nth_error l k = Some y /\ value_eq y x = true /\
     forall j z, (j < k)%nat -> nth_error l j = Some z -> value_eq z x = false).
Proof.
  unfold left_index. pose proof (position_spec x l) as H. destruct (position x l) as [i|].
  - right. destruct H as (y & H). exists i, y. tauto.
  - left. auto.
Qed.

Lemma nth_error_rev {A} (l : list A) k x : (k < length l)%nat ->
  nth_error (rev l) k = Some x <-> nth_error l (length l - 1 - k) = Some x.
Proof.
  intros H. destruct (nth_error l (length l - 1 - k)) as [y|] eqn:E; [|apply nth_error_None in E; lia].
  assert (nth_error (rev l) k = Some y) as ->; [|tauto].
  destruct l as [|d l0]; [cbn in H; lia|]. set (l := d :: l0) in *.
  rewrite (nth_error_nth' _ d) by (rewrite rev_length; exact H).
  rewrite rev_nth by exact H. f_equal.
  replace (length l - S k)%nat with (length l - 1 - k)%nat by lia.
  apply nth_error_nth with (d := d) in E. exact E.
Qed.

Lemma right_index_spec x l : Z.of_nat (length l) < 2 ^ 62 ->
  let r := right_index x (rev l) (Z.of_nat (length l)) in
  (r = -1 /\ forall y, In y l -> value_eq y x = false) \/
  (exists k y, r = Z.of_nat k /\ nth_error l k = Some y /\ value_eq y x = true /\
     forall j z, (k < j)%nat -> nth_error l j = Some z -> value_eq z x = false).
Proof.
  intros Hl. cbn zeta. change (2 ^ 62) with 4611686018427387904 in Hl.
  unfold right_index. pose proof (position_spec x (rev l)) as H. destruct (position x (rev l)) as [i|].
  - right. destruct H as (y & H1 & H2 & H3).
    assert (Hi : (i < length l)%nat).
    { rewrite <- rev_length. apply nth_error_Some. congruence. }
    exists (length l - 1 - i)%nat, y.
    rewrite i64_id by (apply i64_bounds; lia). split; [lia|].
    split; [apply nth_error_rev; assumption|]. split; [exact H2|].
    intros j z Hj Hz. assert (Hjl : (j < length l)%nat) by (apply nth_error_Some; congruence).
    apply (H3 (length l - 1 - j)%nat z); [lia|]. apply nth_error_rev; [lia|].
    replace (length l - 1 - (length l - 1 - j))%nat with j by lia. exact Hz.
  - left. split; [reflexivity|]. intros y Hy. apply H. apply in_rev in Hy. exact Hy.
Qed.

Lemma right_find_spec v it l x : to_iter v = Some it -> yields iter_next it l ->
  match v with VRange _ _ _ | VEnumerate _ => False | _ => True end ->
  Z.of_nat (length l) < 2 ^ 62 ->
  exists lr, yields iter_rev_next (iter_reverse it) lr /\
  let r := right_find_index x it lr in
  (r = -1 /\ forall y, In y l -> value_eq y x = false) \/
  (exists k y, r = Z.of_nat k /\ nth_error l k = Some y /\ value_eq y x = true /\
     forall j z, (k < j)%nat -> nth_error l j = Some z -> value_eq z x = false).
Proof.
  intros H Hy Hv Hl. destruct (rev_yields v it l H Hy Hv) as [HR HL].
  exists (rev l). split; [exact HR|]. unfold right_find_index. rewrite HL. apply right_index_spec, Hl.
Qed.

Lemma rev_range_bad :
  yields iter_next (ItRange 0 (Range 0 5 1)) [VInt 0; VInt 1; VInt 2; VInt 3; VInt 4] /\
  yields iter_rev_next (iter_reverse (ItRange 0 (Range 0 5 1))) [VInt 5; VInt 4; VInt 3; VInt 2].
Proof.
  split.
  - do 5 (eapply y_cons; [reflexivity|]). apply y_nil. intros n. apply stopped_range. left. reflexivity.
  - cbn. do 4 (eapply y_cons; [reflexivity|]). apply y_nil.
    induction n as [|n IH]; [exact I|]. cbn. split; [reflexivity|exact IH].
Qed.

Lemma rev_enum_bad a b :
  yields iter_next (ItEnum 0 (ItColl 0 [a; b])) [VVector [VInt 0; a]; VVector [VInt 1; b]] /\
  yields iter_rev_next (iter_reverse (ItEnum 0 (ItColl 0 [a; b]))) [].
Proof.
  split.
  - apply (yields_enum (ItColl 0 [a; b]) [a; b] (yields_coll [a; b] []) 0%nat).
  - cbn. apply y_nil. intros n.
    assert (HG : forall i j, (2 <= j)%nat -> stopped iter_rev_next n (ItEnum i (ItColl j [a; b]))).
    { induction n as [|n IH]; intros i j Hj; [exact I|].
      cbn [stopped]. assert (E : nth_error [a; b] j = None) by (apply nth_error_None; exact Hj).
      cbn [iter_rev_next iter_next]. rewrite E. split; [reflexivity|]. cbn [snd]. apply IH. lia. }
    apply HG. lia.
Qed.
