(** Proofs about indexing and slicing (Seq.v). *)
From Verif Require Import Base BaseProofs Ptr Native Value Err Iter IterSpec IterProofs Seq SeqSpec.
Local Open Scope Z_scope.

Lemma u64_id x : 0 <= x < 18446744073709551616 -> u64 x = x.
Proof. intros H. unfold u64, uwrap. change (2 ^ 64) with 18446744073709551616. apply Z.mod_small; lia. Qed.
Lemma u64_neg x : - 9223372036854775808 <= x < 0 -> u64 x = x + 18446744073709551616.
Proof. intros H. unfold u64, uwrap. change (2 ^ 64) with 18446744073709551616.
  symmetry. apply Z.mod_unique with (q := -1); lia. Qed.

Definition small (n : Z) : Prop := 0 <= n < 4611686018427387904.

Lemma to_index_val n i : small n -> is_int63 i -> to_index n i = if i <? 0 then n + i else i.
Proof.
  unfold small, to_index. rewrite int63_bounds. intros Hn Hi.
  destruct (i >=? 0) eqn:E; destruct (i <? 0) eqn:E2; try lia. apply i64_id, i64_bounds. lia.
Qed.

Lemma check_index_spec n i : small n -> is_int63 i ->
  check_index n (VInt i) =
  if (0 <=? i) && (i <? n) then Ok (Z.to_nat i)
  else if (- n <=? i) && (i <? 0) then Ok (Z.to_nat (n + i))
  else Err (ValueErrorIndexOutOfBounds i n).
Proof.
  intros Hn Hi. unfold check_index. cbn [as_int_checked as_int_opt bind].
  rewrite to_index_val by assumption. rewrite int63_bounds in Hi. unfold small in Hn.
  destruct (i <? 0) eqn:E.
  - replace ((0 <=? i) && (i <? n)) with false by lia.
    destruct (Z_lt_le_dec (n + i) 0) as [H|H].
    + rewrite u64_neg by lia. replace ((- n <=? i) && true) with false by lia.
      replace (n + i + 18446744073709551616 <? n) with false by lia. reflexivity.
    + rewrite u64_id by lia. replace ((- n <=? i) && true) with true by lia.
      replace (n + i <? n) with true by lia. reflexivity.
  - rewrite u64_id by lia. replace (0 <=? i) with true by lia. rewrite andb_false_r. cbn [andb].
    destruct (i <? n); reflexivity.
Qed.

Lemma check_index_element {A} (l : list A) i : small (Z.of_nat (length l)) -> is_int63 i ->
  match check_index (Z.of_nat (length l)) (VInt i) with
  | Ok k => exists x, nth_error l k = Some x /\ element l i = Some x
  | Err e => element l i = None /\ e = ValueErrorIndexOutOfBounds i (Z.of_nat (length l))
  | Panic => False
  end.
Proof.
  intros Hn Hi. rewrite check_index_spec by assumption. unfold element.
  set (n := Z.of_nat (length l)) in *.
  destruct ((0 <=? i) && (i <? n)) eqn:E1; [|destruct ((- n <=? i) && (i <? 0)) eqn:E2].
  - destruct (nth_error l (Z.to_nat i)) as [x|] eqn:E; [exists x; auto|].
    apply nth_error_None in E. lia.
  - destruct (nth_error l (Z.to_nat (n + i))) as [x|] eqn:E; [exists x; auto|].
    apply nth_error_None in E. lia.
  - auto.
Qed.

Lemma get_index_list l i : small (Z.of_nat (length l)) -> is_int63 i ->
  get_index (VList l) (VInt i) =
    match element l i with Some x => Ok x | None => Err (ValueErrorIndexOutOfBounds i (Z.of_nat (length l))) end
  /\ get_index (VVector l) (VInt i) =
    match element l i with Some x => Ok x | None => Err (ValueErrorIndexOutOfBounds i (Z.of_nat (length l))) end.
Proof.
  intros Hn Hi. pose proof (check_index_element l i Hn Hi) as H.
  unfold get_index. cbn [index_len].
  destruct (check_index (Z.of_nat (length l)) (VInt i)) as [k|e|]; cbn [bind].
  - destruct H as (x & -> & ->). auto.
  - destruct H as [-> ->]. auto.
  - contradiction.
Qed.

Lemma update_spec {A} (l : list A) : forall i x j,
  nth_error (update l i x) j = if (i =? j)%nat && (i <? length l)%nat then Some x else nth_error l j.
Proof.
  induction l as [|y l IH]; intros i x j.
  - cbn. rewrite andb_false_r. destruct i; reflexivity.
  - destruct i, j; cbn [update nth_error Nat.eqb length Nat.ltb Nat.leb]; try reflexivity. apply IH.
Qed.
Lemma update_length {A} (l : list A) : forall i x, length (update l i x) = length l.
Proof. induction l; intros [|i] x; cbn; auto. Qed.

(** set_index *)
Lemma set_index_list l i x : small (Z.of_nat (length l)) -> is_int63 i ->
  match element l i with
  | None => set_index (VList l) (VInt i) x = Err (ValueErrorIndexOutOfBounds i (Z.of_nat (length l)))
            /\ set_index (VVector l) (VInt i) x = Err (ValueErrorIndexOutOfBounds i (Z.of_nat (length l)))
  | Some _ => exists l', set_index (VList l) (VInt i) x = Ok (VList l') /\ set_index (VVector l) (VInt i) x = Ok (VVector l') /\
      length l' = length l /\ element l' i = Some x /\
      (forall j, - Z.of_nat (length l) <= j < Z.of_nat (length l) ->
         j <> i -> j <> i + Z.of_nat (length l) -> j <> i - Z.of_nat (length l) -> element l' j = element l j)
  end.
Proof.
  intros Hn Hi. pose proof (check_index_spec (Z.of_nat (length l)) i Hn Hi) as H.
  unfold set_index. cbn [index_len]. rewrite H. clear H.
  assert (HU : forall k, (k < length l)%nat -> (Z.of_nat k = i \/ Z.of_nat k = i + Z.of_nat (length l)) -> - Z.of_nat (length l) <= i < Z.of_nat (length l) ->
     element (update l k x) i = Some x /\
      (forall j, - Z.of_nat (length l) <= j < Z.of_nat (length l) ->
         j <> i -> j <> i + Z.of_nat (length l) -> j <> i - Z.of_nat (length l) -> element (update l k x) j = element l j)).
  { intros k Hk Hik Hib. unfold element. rewrite update_length. set (n := Z.of_nat (length l)) in *. split.
    - destruct ((0 <=? i) && (i <? n)) eqn:E1; [|destruct ((- n <=? i) && (i <? 0)) eqn:E2; [|lia]].
      + rewrite update_spec. replace (k =? Z.to_nat i)%nat with true by lia. replace (k <? length l)%nat with true by lia. reflexivity.
      + rewrite update_spec. replace (k =? Z.to_nat (n + i))%nat with true by lia. replace (k <? length l)%nat with true by lia. reflexivity.
    - intros j Hj H1 H2 H3.
      destruct ((0 <=? j) && (j <? n)) eqn:E1; [|destruct ((- n <=? j) && (j <? 0)) eqn:E2; [|reflexivity]].
      + rewrite update_spec. replace (k =? Z.to_nat j)%nat with false by lia. reflexivity.
      + rewrite update_spec. replace (k =? Z.to_nat (n + j))%nat with false by lia. reflexivity. }
  unfold element at 1.
  set (n := Z.of_nat (length l)) in *.
  destruct ((0 <=? i) && (i <? n)) eqn:E1; [|destruct ((- n <=? i) && (i <? 0)) eqn:E2]; cbn [bind].
  - destruct (nth_error l (Z.to_nat i)) as [y|] eqn:E; [|apply nth_error_None in E; lia].
    exists (update l (Z.to_nat i) x). replace (Z.to_nat i <? length l)%nat with true by lia.
    split; [reflexivity|]. split; [reflexivity|]. split; [apply update_length|]. apply HU; lia.
  - destruct (nth_error l (Z.to_nat (n + i))) as [y|] eqn:E; [|apply nth_error_None in E; lia].
    exists (update l (Z.to_nat (n + i)) x). replace (Z.to_nat (n + i) <? length l)%nat with true by lia.
    split; [reflexivity|]. split; [reflexivity|]. split; [apply update_length|]. apply HU; lia.
  - auto.
Qed.

(** ASCII strings *)
Lemma ascii_byte_len s : ascii s -> byte_len s = Z.of_nat (length s).
Proof.
  intros H. unfold byte_len. f_equal. unfold utf8. induction H as [|c s Hc Hs IH]; [reflexivity|].
  cbn [flat_map]. rewrite app_length, IH. unfold utf8_char. replace (c <? 128) with true by lia. reflexivity.
Qed.
Lemma get_index_ascii s i : ascii s -> small (Z.of_nat (length s)) -> is_int63 i ->
  get_index (VStr s) (VInt i) =
    match element s i with Some c => Ok (VStr [c]) | None => Err (ValueErrorIndexOutOfBounds i (Z.of_nat (length s))) end.
Proof.
  intros Ha Hn Hi. pose proof (check_index_element s i Hn Hi) as H.
  unfold get_index. cbn [index_len]. rewrite ascii_byte_len by exact Ha.
  destruct (check_index (Z.of_nat (length s)) (VInt i)) as [k|e|]; cbn [bind].
  - destruct H as (x & -> & ->). auto.
  - destruct H as [-> ->]. auto.
  - contradiction.
Qed.

(** slices *)
Lemma step_range_progression : forall fuel a b s, 0 < s -> b - a <= Z.of_nat fuel ->
  progression a b s (step_range fuel a b s).
Proof.
  induction fuel as [|f IH]; intros a b s Hs Hf; cbn [step_range].
  - apply progression_nil; [lia|]. unfold before. replace (s >? 0) with true by lia. lia.
  - destruct (a <? b) eqn:E.
    + apply progression_cons; [lia|unfold before; replace (s >? 0) with true by lia; lia|]. apply IH; lia.
    + apply progression_nil; [lia|]. unfold before. replace (s >? 0) with true by lia. lia.
Qed.
Lemma rev_range_progression : forall fuel a b s, 0 < s <= 4611686018427387904 ->
  - 4611686018427387904 <= b -> a <= 9223372036854775807 -> a - b <= Z.of_nat fuel ->
  progression a b (- s) (rev_range fuel a b s).
Proof.
  induction fuel as [|f IH]; intros a b s Hs Hb Ha Hf; cbn [rev_range].
  - apply progression_nil; [lia|]. unfold before. replace (- s >? 0) with false by lia. lia.
  - destruct (a <=? b) eqn:E.
    + apply progression_nil; [lia|]. unfold before. replace (- s >? 0) with false by lia. lia.
    + rewrite (i64_id (a - s)) by (apply i64_bounds; lia).
      replace (a - s + s) with a by ring. rewrite (i64_id a) by (apply i64_bounds; lia).
      apply progression_cons; [lia|unfold before; replace (- s >? 0) with false by lia; lia|].
      apply IH; lia.
Qed.

Lemma accept_all_select {A} (l : list A) : forall idx,
  accept_all (Z.of_nat (length l)) l idx = Ok (select l idx).
Proof.
  induction idx as [|i idx IH]; [reflexivity|]. cbn [accept_all]. unfold select. cbn [flat_map]. unfold pick at 1.
  destruct (i >=? 0) eqn:E1; cbn [andb].
  - replace (i <? 0) with false by lia. destruct (i <? Z.of_nat (length l)) eqn:E2.
    + destruct (nth_error l (Z.to_nat i)) as [x|] eqn:E; [|apply nth_error_None in E; lia].
      rewrite IH. reflexivity.
    + assert (nth_error l (Z.to_nat i) = None) as -> by (apply nth_error_None; lia). exact IH.
  - replace (i <? 0) with true by lia. exact IH.
Qed.

Lemma slice_arg_opt o d : slice_arg (opt_int o) d = Ok (match o with Some i => i | None => d end).
Proof. destruct o; reflexivity. Qed.

Lemma slice_indices n lo hi step : small n -> opt_int63 lo -> opt_int63 hi -> is_int63 step -> step <> 0 ->
  let low := match lo with Some i => i | None => if step >? 0 then 0 else -1 end in
  let high := match hi with Some i => i | None => if step >? 0 then n else i64 (- n - 1) end in
  let a := to_index n low in let b := to_index n high in
  let idx := if step >? 0 then step_range (Z.to_nat (b - a)) a b (Z.abs step)
             else rev_range (Z.to_nat (a - b)) a b (Z.abs step) in
  progression (bound n lo (if step >? 0 then 0 else n - 1)) (bound n hi (if step >? 0 then n else -1)) step idx.
Proof.
  intros Hn Hlo Hhi Hst Hs low high a b idx.
  assert (Ha : a = bound n lo (if step >? 0 then 0 else n - 1)).
  { unfold a, low, bound. destruct lo as [i|].
    - apply to_index_val; [exact Hn|exact Hlo].
    - destruct (step >? 0); rewrite to_index_val by (try assumption; apply int63_bounds; lia); cbn; unfold small in Hn; lia. }
  assert (Hb : b = bound n hi (if step >? 0 then n else -1)).
  { unfold b, high, bound. destruct hi as [i|].
    - apply to_index_val; [exact Hn|exact Hhi].
    - unfold small in Hn. destruct (step >? 0).
      + rewrite to_index_val by (try assumption; apply int63_bounds; lia). destruct (n <? 0) eqn:E; lia.
      + rewrite (i64_id (- n - 1)) by (apply i64_bounds; lia). unfold to_index.
        replace (- n - 1 >=? 0) with false by lia. rewrite i64_id by (apply i64_bounds; lia). lia. }
  rewrite <- Ha, <- Hb. rewrite int63_bounds in Hst.
  assert (Hal : a <= 9223372036854775807).
  { rewrite Ha. unfold bound, small in *. destruct lo as [i|]; [cbn in Hlo; rewrite int63_bounds in Hlo|]; destruct (step >? 0); try destruct (i <? 0) eqn:?; lia. }
  assert (Hbl : - 4611686018427387904 <= b).
  { rewrite Hb. unfold bound, small in *. destruct hi as [i|]; [cbn in Hhi; rewrite int63_bounds in Hhi|]; destruct (step >? 0); try destruct (i <? 0) eqn:?; lia. }
  unfold idx. clearbody a b. destruct (step >? 0) eqn:E.
  - rewrite Z.abs_eq by lia. apply step_range_progression; lia.
  - rewrite Z.abs_neq by lia. replace step with (- - step) at 1 by ring. apply rev_range_progression; lia.
Qed.

Lemma get_slice_list l lo hi step : small (Z.of_nat (length l)) -> opt_int63 lo -> opt_int63 hi -> opt_int63 step ->
  (step = Some 0 -> get_slice (VList l) (opt_int lo) (opt_int hi) (opt_int step) = Err ValueErrorStepCannotBeZero
                 /\ get_slice (VVector l) (opt_int lo) (opt_int hi) (opt_int step) = Err ValueErrorStepCannotBeZero) /\
  (step <> Some 0 -> exists out,
     get_slice (VList l) (opt_int lo) (opt_int hi) (opt_int step) = Ok (VList out) /\
     get_slice (VVector l) (opt_int lo) (opt_int hi) (opt_int step) = Ok (VVector out) /\
     is_slice l lo hi (match step with Some s => s | None => 1 end) out).
Proof.
  intros Hn Hlo Hhi Hst. split.
  - intros ->. split; reflexivity.
  - intros Hs0. set (st := match step with Some s => s | None => 1 end).
    assert (Hst' : is_int63 st) by (unfold st; destruct step; [exact Hst|apply int63_bounds; lia]).
    assert (Hne : st <> 0) by (unfold st; destruct step; [congruence|lia]).
    pose proof (slice_indices (Z.of_nat (length l)) lo hi st Hn Hlo Hhi Hst' Hne) as HP. cbn zeta in HP.
    unfold get_slice. cbn [index_len]. rewrite (slice_arg_opt step). fold st. cbn [bind].
    replace (st =? 0) with false by lia. rewrite !slice_arg_opt. cbn [bind].
    rewrite !accept_all_select. cbn [bind]. eexists. split; [reflexivity|]. split; [reflexivity|].
    eexists. split; [exact HP|reflexivity].
Qed.

Lemma get_slice_ascii l lo hi step : ascii l -> small (Z.of_nat (length l)) -> opt_int63 lo -> opt_int63 hi -> opt_int63 step ->
  (step = Some 0 -> get_slice (VStr l) (opt_int lo) (opt_int hi) (opt_int step) = Err ValueErrorStepCannotBeZero) /\
  (step <> Some 0 -> exists out,
     get_slice (VStr l) (opt_int lo) (opt_int hi) (opt_int step) = Ok (VStr out) /\
     is_slice l lo hi (match step with Some s => s | None => 1 end) out).
Proof.
  intros Ha Hn Hlo Hhi Hst. split.
  - intros ->. reflexivity.
  - intros Hs0. set (st := match step with Some s => s | None => 1 end).
    assert (Hst' : is_int63 st) by (unfold st; destruct step; [exact Hst|apply int63_bounds; lia]).
    assert (Hne : st <> 0) by (unfold st; destruct step; [congruence|lia]).
    pose proof (slice_indices (Z.of_nat (length l)) lo hi st Hn Hlo Hhi Hst' Hne) as HP. cbn zeta in HP.
    unfold get_slice. cbn [index_len]. rewrite (slice_arg_opt step). fold st. cbn [bind].
    replace (st =? 0) with false by lia. rewrite !slice_arg_opt. cbn [bind].
    rewrite !(ascii_byte_len l Ha). rewrite !accept_all_select. cbn [bind]. eexists. split; [reflexivity|].
    eexists. split; [exact HP|reflexivity].
Qed.

(** is_slice determines its output, and the usual laws follow *)
Lemma is_slice_unique {A} (l : list A) lo hi s o1 o2 : is_slice l lo hi s o1 -> is_slice l lo hi s o2 -> o1 = o2.
Proof.
  intros (i1 & H1 & ->) (i2 & H2 & ->). rewrite (progression_unique _ _ _ _ _ H1 H2). reflexivity.
Qed.

Fixpoint zseq (a : Z) (n : nat) : list Z := match n with O => [] | S n' => a :: zseq (a + 1) n' end.
Lemma zseq_length n : forall a, length (zseq a n) = n.
Proof. induction n; intros a; cbn; auto. Qed.
Lemma zseq_nth n : forall a k, (k < n)%nat -> nth_error (zseq a n) k = Some (a + Z.of_nat k).
Proof.
  induction n as [|n IH]; intros a k Hk; [lia|]. destruct k; cbn [zseq nth_error]; [f_equal; lia|].
  rewrite IH by lia. f_equal. lia.
Qed.
Lemma zseq_progression a b n : Z.of_nat n = Z.max 0 (b - a) -> progression a b 1 (zseq a n).
Proof.
  intros Hn k x. unfold before. replace (1 >? 0) with true by reflexivity.
  destruct (Nat.lt_ge_cases k n) as [H|H].
  - rewrite zseq_nth by exact H. split; [intros [= <-]; split; lia|]. intros [-> ?]. f_equal. lia.
  - rewrite (proj2 (nth_error_None _ _)) by (rewrite zseq_length; exact H). split; [discriminate|]. lia.
Qed.
Lemma zseq_app m : forall n a, zseq a (m + n) = zseq a m ++ zseq (a + Z.of_nat m) n.
Proof.
  induction m as [|m IH]; intros n a; [cbn; f_equal; lia|]. cbn [Nat.add zseq app]. f_equal.
  rewrite IH. f_equal. f_equal. lia.
Qed.
Lemma select_app {A} (l : list A) i j : select l (i ++ j) = select l i ++ select l j.
Proof. apply flat_map_app. Qed.
Lemma select_shift {A} (x : A) l : forall n a, 0 <= a -> select (x :: l) (zseq (a + 1) n) = select l (zseq a n).
Proof.
  induction n as [|n IH]; intros a Ha; [reflexivity|]. cbn [zseq]. unfold select in *. cbn [flat_map].
  rewrite (IH (a + 1)) by lia. f_equal. unfold pick. replace (a + 1 <? 0) with false by lia. replace (a <? 0) with false by lia.
  replace (Z.to_nat (a + 1)) with (S (Z.to_nat a)) by lia. reflexivity.
Qed.
Lemma select_all {A} (l : list A) : select l (zseq 0 (length l)) = l.
Proof.
  induction l as [|x l IH]; [reflexivity|]. cbn [length zseq]. unfold select. cbn [flat_map]. cbn. f_equal.
  pose proof (select_shift x l (length l) 0 ltac:(lia)) as E. unfold select in *. cbn in E. rewrite E. exact IH.
Qed.
Lemma select_out {A} (l : list A) : forall n a, (a + Z.of_nat n <= 0 \/ Z.of_nat (length l) <= a) -> select l (zseq a n) = [].
Proof.
  induction n as [|n IH]; intros a Ha; [reflexivity|]. cbn [zseq]. unfold select in *. cbn [flat_map].
  rewrite IH by lia. rewrite app_nil_r. unfold pick. destruct (a <? 0) eqn:E; [reflexivity|].
  rewrite (proj2 (nth_error_None _ _)) by lia. reflexivity.
Qed.

Lemma is_slice_full {A} (l : list A) : is_slice l None None 1 l.
Proof.
  exists (zseq 0 (length l)). split; [|symmetry; apply select_all].
  apply zseq_progression. cbn. lia.
Qed.

Lemma is_slice_split {A} (l : list A) k o1 o2 :
  is_slice l None (Some k) 1 o1 -> is_slice l (Some k) None 1 o2 -> o1 ++ o2 = l.
Proof.
  unfold is_slice. replace (1 >? 0) with true by reflexivity. cbn [bound].
  set (n := Z.of_nat (length l)). set (k' := if k <? 0 then n + k else k).
  intros (i1 & H1 & ->) (i2 & H2 & ->).
  assert (E1 : i1 = zseq 0 (Z.to_nat k')).
  { eapply progression_unique; [exact H1|]. apply zseq_progression. lia. }
  assert (E2 : i2 = zseq k' (Z.to_nat (n - k'))).
  { eapply progression_unique; [exact H2|]. apply zseq_progression. lia. }
  subst i1 i2. destruct (Z_lt_le_dec k' 0) as [Hk|Hk].
  - replace (Z.to_nat k') with O by lia. cbn [zseq select flat_map app].
    replace (Z.to_nat (n - k')) with (Z.to_nat (- k') + length l)%nat by lia.
    rewrite zseq_app, select_app, (select_out _ (Z.to_nat (- k'))) by lia. cbn [app].
    replace (k' + Z.of_nat (Z.to_nat (- k'))) with 0 by lia. apply select_all.
  - destruct (Z_lt_le_dec n k') as [Hk2|Hk2].
    + replace (Z.to_nat (n - k')) with O by lia. cbn [zseq select flat_map]. rewrite app_nil_r.
      replace (Z.to_nat k') with (length l + Z.to_nat (k' - n))%nat by lia.
      rewrite zseq_app. change (flat_map (pick l)) with (select l).
      rewrite select_app, select_all, (select_out _ (Z.to_nat (k' - n))) by lia. apply app_nil_r.
    + rewrite <- select_app. replace k' with (0 + Z.of_nat (Z.to_nat k')) at 2 by lia.
      rewrite <- zseq_app. replace (Z.to_nat k' + Z.to_nat (n - k'))%nat with (length l) by lia. apply select_all.
Qed.

Lemma progression_rev_full n : progression (Z.of_nat n - 1) (-1) (-1) (rev (zseq 0 n)).
Proof.
  intros k x. unfold before. replace (-1 >? 0) with false by reflexivity.
  destruct (Nat.lt_ge_cases k n) as [H|H].
  - rewrite nth_error_rev by (rewrite zseq_length; exact H). rewrite zseq_length, zseq_nth by lia.
    split; [intros [= <-]; split; lia|]. intros [-> ?]. f_equal. lia.
  - rewrite (proj2 (nth_error_None _ _)) by (rewrite rev_length, zseq_length; exact H). split; [discriminate|]. lia.
Qed.
Lemma select_rev {A} (l : list A) : forall idx, select l (rev idx) = rev (select l idx).
Proof.
  induction idx as [|i idx IH]; [reflexivity|]. cbn [rev]. rewrite select_app, IH. unfold select at 2 3. cbn [flat_map].
  rewrite rev_app_distr, app_nil_r. f_equal. unfold pick. destruct (i <? 0); [reflexivity|]. destruct (nth_error l (Z.to_nat i)); reflexivity.
Qed.
Lemma is_slice_reverse {A} (l : list A) : is_slice l None None (-1) (rev l).
Proof.
  exists (rev (zseq 0 (length l))). split; [apply progression_rev_full|]. rewrite select_rev, select_all. reflexivity.
Qed.
