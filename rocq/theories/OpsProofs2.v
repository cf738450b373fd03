(** Proofs about operators (Ops.v): complex, rational, sets, vectors, membership. *)
From Verif Require Import Base BaseProofs Ptr Native Value ValueSpec ValueProofs Err Iter IterSpec IterProofs Seq SeqProofs Ops OpsSpec OpsProofs.
From Coq Require Import QArith_base Qreduction QArith Znumtheory.
Local Open Scope Z_scope.

(** complex *)
Lemma complex_operand_to v re im : complex_operand v re im -> to_complex v = Some (re, im) /\ is_i64 re /\ is_i64 im.
Proof.
  intros [[H ->]|[-> H]].
  - pose proof (int_value_opt _ _ H) as [E I]. split; [|split; [apply int63_i64, I|apply i64_bounds; lia]].
    destruct H as [[-> _]|[[-> ->]|[-> ->]]]; cbn in *; congruence.
  - cbn. tauto.
Qed.
Lemma of_complex_spec re im : is_complex_value (of_complex (i64 re, i64 im)) re im.
Proof.
  unfold of_complex. cbn [fst snd]. destruct (i64 im =? 0) eqn:E; cbn.
  - split.
    + destruct (i64_cong im) as [k Hk]. exists (- k). lia.
    + apply wraps_to_unique. apply wrap63_i64.
  - split; [apply i64_range|]. split; [apply i64_range|]. split; [lia|].
    split; [apply i64_cong|apply i64_cong].
Qed.
Lemma complex_of_int x m : m = x -> is_complex_value (VInt (wrap63 m)) x 0.
Proof. intros ->. cbn. split; [exists 0; lia|]. apply wraps_to_wrap63. Qed.

Lemma i64_i64_add a b : i64 (i64 a + i64 b) = i64 (a + b).
Proof. destruct (i64_cong a) as [k ->], (i64_cong b) as [j ->]. apply (i64_eqm _ _ (k + j)). ring. Qed.
Lemma i64_i64_sub a b : i64 (i64 a - i64 b) = i64 (a - b).
Proof. destruct (i64_cong a) as [k ->], (i64_cong b) as [j ->]. apply (i64_eqm _ _ (k - j)). ring. Qed.
Lemma i64_mul_l a b : i64 (i64 a * b) = i64 (a * b).
Proof. destruct (i64_cong a) as [k ->]. apply (i64_eqm _ _ (k * b)). ring. Qed.
Lemma i64_mul_r a b : i64 (a * i64 b) = i64 (a * b).
Proof. destruct (i64_cong b) as [k ->]. apply (i64_eqm _ _ (a * k)). ring. Qed.

Lemma numeric_complex fi fc fq a b r1 i1 r2 i2 re im :
  complex_operand a r1 i1 -> complex_operand b r2 i2 ->
  fc (r1, i1) (r2, i2) = (i64 re, i64 im) -> (i1 = 0 -> i2 = 0 -> fi r1 r2 = re /\ im = 0) ->
  exists v, numeric fi fc fq a b = Some (Ok v) /\ is_complex_value v re im.
Proof.
  intros Ha Hb Hc Hi. pose proof (complex_operand_to _ _ _ Ha) as [Ea _]. pose proof (complex_operand_to _ _ _ Hb) as [Eb _].
  destruct Ha as [[Ha Hi1]|[-> Ha]].
  - destruct Hb as [[Hb Hi2]|[-> Hb]].
    + rewrite (numeric_int _ _ _ _ _ _ _ Ha Hb). eexists. split; [reflexivity|].
      destruct (Hi Hi1 Hi2) as [HH ->]. rewrite HH. apply complex_of_int. reflexivity.
    + unfold numeric. rewrite Ea, Eb, Hc. pose proof (int_value_opt _ _ Ha) as [-> _]. cbn [as_int_opt].
      eexists. split; [reflexivity|]. apply of_complex_spec.
  - unfold numeric. rewrite Ea, Eb, Hc. cbn [as_int_opt].
    eexists. split; [reflexivity|]. apply of_complex_spec.
Qed.

Lemma add_complex ts fm a b r1 i1 r2 i2 : complex_operand a r1 i1 -> complex_operand b r2 i2 ->
  exists v, binary_op ts fm BAdd a b = Ok v /\ is_complex_value v (r1 + r2) (i1 + i2).
Proof.
  intros Ha Hb. destruct (numeric_complex Z.add c_add Qplus a b r1 i1 r2 i2 (r1 + r2) (i1 + i2) Ha Hb) as (v & Hv & H); [reflexivity|lia|].
  exists v. split; [|exact H]. apply lift2_base. unfold add_base. rewrite Hv. reflexivity.
Qed.
Lemma sub_complex ts fm a b r1 i1 r2 i2 : complex_operand a r1 i1 -> complex_operand b r2 i2 ->
  exists v, binary_op ts fm BSub a b = Ok v /\ is_complex_value v (r1 - r2) (i1 - i2).
Proof.
  intros Ha Hb. destruct (numeric_complex Z.sub c_sub Qminus a b r1 i1 r2 i2 (r1 - r2) (i1 - i2) Ha Hb) as (v & Hv & H); [reflexivity|lia|].
  exists v. split; [|exact H]. apply lift2_base. unfold sub_base. rewrite Hv. reflexivity.
Qed.
Lemma c_mul_val r1 i1 r2 i2 : c_mul (r1, i1) (r2, i2) = (i64 (r1 * r2 - i1 * i2), i64 (r1 * i2 + i1 * r2)).
Proof. unfold c_mul. cbn [fst snd]. rewrite i64_i64_sub, i64_i64_add. reflexivity. Qed.
Lemma mul_complex ts fm a b r1 i1 r2 i2 : complex_operand a r1 i1 -> complex_operand b r2 i2 ->
  exists v, binary_op ts fm BMul a b = Ok v /\ is_complex_value v (r1 * r2 - i1 * i2) (r1 * i2 + i1 * r2).
Proof.
  intros Ha Hb. destruct (numeric_complex Z.mul c_mul Qmult a b r1 i1 r2 i2 (r1 * r2 - i1 * i2) (r1 * i2 + i1 * r2) Ha Hb) as (v & Hv & H);
    [apply c_mul_val|intros -> ->; lia|].
  exists v. split; [|exact H]. apply lift2_base. unfold mul_base. rewrite Hv. reflexivity.
Qed.
Lemma neg_complex a r i : complex_operand a r i -> exists v, unary_op UNeg a = Ok v /\ is_complex_value v (- r) (- i).
Proof.
  intros [[H ->]|[-> H]].
  - rewrite (neg_int _ _ H). eexists. split; [reflexivity|]. apply complex_of_int. lia.
  - eexists. split; [reflexivity|]. apply of_complex_spec.
Qed.
Lemma conj_complex r i : is_i64 r -> is_i64 i -> i <> 0 ->
  exists v, unary_op UNot (VComplex r i) = Ok v /\ is_complex_value v r (- i).
Proof.
  intros Hr Hi Hn. eexists. split; [reflexivity|]. cbn [c_conj fst snd]. unfold c_conj. cbn [fst snd].
  rewrite <- (i64_id r Hr) at 1. apply of_complex_spec.
Qed.

(** Gaussian integer power *)
Lemma c_pow_val r i n : c_pow (r, i) n = (i64 (fst (gpow r i n)), i64 (snd (gpow r i n))).
Proof.
  induction n as [|n IH]; [reflexivity|]. change (c_pow (r, i) (S n)) with (c_mul (r, i) (c_pow (r, i) n)). rewrite IH.
  cbn [gpow]. destruct (gpow r i n) as [a b]. cbn [fst snd]. rewrite c_mul_val. f_equal.
  - rewrite <- i64_i64_sub, !i64_mul_r, i64_i64_sub. reflexivity.
  - rewrite <- i64_i64_add, !i64_mul_r, i64_i64_add. reflexivity.
Qed.
Lemma pow_complex ts fm r i b n : is_i64 r -> is_i64 i -> i <> 0 -> is_int_value b n ->
  (n < 0 -> binary_op ts fm BPow (VComplex r i) b = Err (ValueErrorPowerByNegative n)) /\
  (0 <= n < 2 ^ 32 -> exists v, binary_op ts fm BPow (VComplex r i) b = Ok v /\
     is_complex_value v (fst (gpow r i (Z.to_nat n))) (snd (gpow r i (Z.to_nat n)))).
Proof.
  intros Hr Hi Hn Hb. pose proof (int_value_opt _ _ Hb) as [Eb _]. split; intros H.
  - apply lift2_base. unfold pow_base. cbn [as_int_opt]. rewrite Eb. replace (n >=? 0) with false by lia. reflexivity.
  - eexists. split; [apply lift2_base; unfold pow_base; cbn [as_int_opt]; rewrite Eb;
      replace (n >=? 0) with true by lia; rewrite u32_id by exact H; reflexivity|].
    rewrite c_pow_val. apply of_complex_spec.
Qed.

(** division on components that cannot overflow *)
Lemma div_complex ts fm a b r1 i1 r2 i2 : complex_operand a r1 i1 -> complex_operand b r2 i2 ->
  tiny r1 -> tiny i1 -> tiny r2 -> tiny i2 ->
  let n := r2 * r2 + i2 * i2 in
  (r2 = 0 -> i2 = 0 -> binary_op ts fm BDiv a b = Err ValueErrorDivideByZero) /\
  ((r2 <> 0 \/ i2 <> 0) -> exists v, binary_op ts fm BDiv a b = Ok v /\
     is_complex_value v ((r1 * r2 + i1 * i2) / n) ((i1 * r2 - r1 * i2) / n)).
Proof.
  intros Ha Hb T1 T2 T3 T4 n. unfold tiny in T1, T2, T3, T4. change (2 ^ 30) with 1073741824 in *.
  assert (B : forall x y, Z.abs x <= 1073741824 -> Z.abs y <= 1073741824 -> Z.abs (x * y) <= 1152921504606846976).
  { intros p q Hp Hq. rewrite Z.abs_mul. nia. }
  assert (Hn : 0 <= n <= 2305843009213693952) by (unfold n; pose proof (B r2 r2 T3 T3); pose proof (B i2 i2 T4 T4); nia).
  assert (Hnorm : c_norm (r2, i2) = n).
  { unfold c_norm. cbn [fst snd]. rewrite i64_i64_add. fold n. apply i64_id, i64_bounds. lia. }
  pose proof (B _ _ T1 T3) as B1. pose proof (B _ _ T2 T4) as B2. pose proof (B _ _ T2 T3) as B3. pose proof (B _ _ T1 T4) as B4.
  pose proof (complex_operand_to _ _ _ Ha) as [Ea _]. pose proof (complex_operand_to _ _ _ Hb) as [Eb _].
  split.
  - intros -> ->. apply lift2_base. unfold div_base. rewrite Ea, Eb, Hnorm.
    destruct (as_int_opt a) as [x|] eqn:Ea1; [destruct (as_int_opt b) as [y|] eqn:Eb1|].
    + destruct Hb as [[Hb _]|[-> Hb]]; [|cbn in Eb1; discriminate].
      pose proof (int_value_opt _ _ Hb) as [E _]. rewrite E in Eb1. injection Eb1 as <-. reflexivity.
    + reflexivity.
    + reflexivity.
  - intros Hnz. assert (H : 0 < n) by (unfold n in *; nia).
    assert (Hcd : c_div_floor (r1, i1) (r2, i2) = Ok (i64 ((r1 * r2 + i1 * i2) / n), i64 ((i1 * r2 - r1 * i2) / n))).
    { unfold c_div_floor. rewrite Hnorm. cbn [fst snd]. rewrite i64_i64_add, i64_i64_sub.
      clear Hnorm Ea Eb. clearbody n. clear Ha Hb Hnz.
      rewrite (i64_id (r1 * r2 + i1 * i2)) by (apply i64_bounds; clear - B1 B2; lia).
      rewrite (i64_id (i1 * r2 - r1 * i2)) by (apply i64_bounds; clear - B3 B4; lia).
      revert B1 B2 B3 B4. generalize (r1*r2) (i1*i2) (i1*r2) (r1*i2). clear - Hn H. intros. rewrite !div_floor_ok; try (apply i64_bounds; lia); try lia. reflexivity. }
    assert (Hcplx : exists v, (let? q := c_div_floor (r1, i1) (r2, i2) in Ok (of_complex q)) = Ok v /\
       is_complex_value v ((r1 * r2 + i1 * i2) / n) ((i1 * r2 - r1 * i2) / n)).
    { rewrite Hcd. eexists. split; [reflexivity|]. apply of_complex_spec. }
    destruct Ha as [[Ha ->]|[-> Ha]]; [destruct Hb as [[Hb ->]|[-> Hb]]|].
    + rewrite (div_int ts fm a b r1 r2 Ha Hb). replace (r2 =? 0) with false by lia.
      eexists. split; [reflexivity|].
      replace (0 * r2 - r1 * 0) with 0 by ring. rewrite Z.div_0_l by lia.
      apply complex_of_int. unfold n. replace (r1 * r2 + 0 * 0) with (r1 * r2) by ring.
      replace (r2 * r2 + 0 * 0) with (r2 * r2) by ring. symmetry. apply Z.div_mul_cancel_r; lia.
    + destruct Hcplx as (v & Hv & H'). exists v. split; [|exact H']. apply lift2_base. unfold div_base.
      rewrite Ea, Eb, Hnorm. pose proof (int_value_opt _ _ Ha) as [-> _]. cbn [as_int_opt].
      replace (n =? 0) with false by (clear - H; clearbody n; lia). rewrite Hv. reflexivity.
    + destruct Hcplx as (v & Hv & H'). exists v. split; [|exact H']. apply lift2_base. unfold div_base.
      rewrite Ea, Eb, Hnorm. cbn [as_int_opt].
      replace (n =? 0) with false by (clear - H; clearbody n; lia). rewrite Hv. reflexivity.
Qed.

(** rationals *)
Lemma Qred_reduced q : Z.gcd (Qnum (Qred q)) (Zpos (Qden (Qred q))) = 1.
Proof.
  destruct q as [n d]. unfold Qred.
  pose proof (Z.ggcd_gcd n (Zpos d)) as Hg. pose proof (Z.ggcd_correct_divisors n (Zpos d)) as Hd.
  destruct (Z.ggcd n (Zpos d)) as [g [r1 r2]]. cbn [fst snd] in *. destruct Hd as [H1 H2].
  assert (Hg0 : 0 < g).
  { pose proof (Z.gcd_nonneg n (Zpos d)) as Hgn. rewrite <- Hg in Hgn. destruct (Z.eq_dec g 0) as [->|]; [cbn in H2; discriminate|lia]. }
  cbn [Qnum Qden]. assert (0 < r2) by nia. rewrite Z2Pos.id by assumption.
  assert (E : Z.gcd (g * r1) (g * r2) = g * Z.gcd r1 r2) by (apply Z.gcd_mul_mono_l_nonneg; lia).
  rewrite <- H1, <- H2 in E. rewrite <- Hg in E. nia.
Qed.
Lemma of_rational_spec q : exists n d, of_rational q = VRational n d /\ ((n # d) == q)%Q /\ Z.gcd n (Zpos d) = 1.
Proof.
  unfold of_rational. eexists _, _. split; [reflexivity|]. split; [|apply Qred_reduced].
  rewrite <- (Qred_correct q) at 3. destruct (Qred q). reflexivity.
Qed.
Lemma rational_operand_to v q : rational_operand v q -> to_rational v = Some q.
Proof.
  intros [(x & H & ->)|(n & d & -> & ->)]; [|reflexivity].
  destruct H as [[-> _]|[[-> ->]|[-> ->]]]; reflexivity.
Qed.
Lemma numeric_rational fi fc fq a b p q : rational_operand a p -> rational_operand b q -> has_rational a b ->
  numeric fi fc fq a b = Some (Ok (of_rational (fq p q))).
Proof.
  intros Ha Hb Hr. pose proof (rational_operand_to _ _ Ha) as Ea. pose proof (rational_operand_to _ _ Hb) as Eb.
  unfold numeric. rewrite Ea, Eb.
  destruct Hr as [(n & d & ->)|(n & d & ->)]; cbn [as_int_opt to_complex].
  - reflexivity.
  - destruct (as_int_opt a) eqn:E; destruct (to_complex a); reflexivity.
Qed.

Lemma arith_rational ts fm a b p q : rational_operand a p -> rational_operand b q -> has_rational a b ->
  binary_op ts fm BAdd a b = Ok (of_rational (p + q)) /\
  binary_op ts fm BSub a b = Ok (of_rational (p - q)) /\
  binary_op ts fm BMul a b = Ok (of_rational (p * q)) /\
  (Qnum q = 0 -> binary_op ts fm BDiv a b = Err ValueErrorDivideByZero) /\
  (Qnum q <> 0 -> binary_op ts fm BDiv a b = Ok (of_rational (p / q))).
Proof.
  intros Ha Hb Hr.
  split; [|split; [|split]].
  - apply lift2_base. unfold add_base. rewrite (numeric_rational _ _ _ _ _ _ _ Ha Hb Hr). reflexivity.
  - apply lift2_base. unfold sub_base. rewrite (numeric_rational _ _ _ _ _ _ _ Ha Hb Hr). reflexivity.
  - apply lift2_base. unfold mul_base. rewrite (numeric_rational _ _ _ _ _ _ _ Ha Hb Hr). reflexivity.
  - pose proof (rational_operand_to _ _ Ha) as Ea. pose proof (rational_operand_to _ _ Hb) as Eb.
    assert (E : div_base a b = Some (if Qnum q =? 0 then Err ValueErrorDivideByZero else Ok (of_rational (p / q)))).
    { unfold div_base. rewrite Ea, Eb.
      destruct Hr as [(n & d & ->)|(n & d & ->)]; cbn [as_int_opt to_complex].
      - reflexivity.
      - destruct (as_int_opt a) eqn:E; destruct (to_complex a); reflexivity. }
    split; intros H; apply lift2_base; rewrite E; destruct (Qnum q =? 0) eqn:EE; try reflexivity; lia.
Qed.

(** sets *)
Lemma set_mem_spec x l : set_mem x l = true <-> mem x l.
Proof. unfold set_mem, mem. rewrite existsb_exists. tauto. Qed.
Lemma key_match_refl x : wf x -> key_match x x = true.
Proof. intros H. unfold key_match. rewrite same_hash_refl, value_eq_refl; auto. Qed.

Lemma sublist_refl {A} (l : list A) : sublist l l.
Proof. induction l; constructor; assumption. Qed.
Lemma sublist_filter {A} f (l : list A) : sublist (filter f l) l.
Proof. induction l as [|x l IH]; cbn; [constructor|]. destruct (f x); constructor; exact IH. Qed.
Lemma sublist_in {A} (l l' : list A) x : sublist l' l -> In x l' -> In x l.
Proof. induction 1; cbn; tauto. Qed.
Lemma sublist_distinct R l l' : sublist l' l -> distinct R l -> distinct R l'.
Proof.
  induction 1 as [|x l l' H IH|x l l' H IH]; intros D; [exact I| |]; cbn in *; destruct D as [D1 D2].
  - apply IH, D2.
  - split; [|apply IH, D2]. intros y Hy. apply D1. eapply sublist_in; eassumption.
Qed.
Lemma distinct_app R l r : distinct R (l ++ r) <-> distinct R l /\ distinct R r /\ (forall x y, In x l -> In y r -> R x y = false).
Proof.
  induction l as [|a l IH]; cbn.
  - split; [intros H; split; [exact I|split; [exact H|contradiction]]|tauto].
  - rewrite IH. split.
    + intros (H1 & H2 & H3 & H4). split; [split|split]; try assumption.
      * intros y Hy. apply H1, in_or_app. left; exact Hy.
      * intros x y [<-|Hx] Hy; [apply H1, in_or_app; right; exact Hy|apply H4; assumption].
    + intros ((H1 & H2) & H3 & H4). split; [|split; [|split]]; try assumption.
      * intros y Hy. apply in_app_or in Hy. destruct Hy; [apply H1; assumption|apply H4; auto].
      * intros x y Hx. apply H4. right; exact Hx.
Qed.
Definition all_wf (l : list value) : Prop := forall x, In x l -> wf x.

Lemma to_set_acc : forall l acc, all_wf (acc ++ l) -> distinct key_match (acc ++ l) ->
  fold_left (fun s x => set_insert x s) l acc = acc ++ l.
Proof.
  induction l as [|x l IH]; intros acc Hw Hd; cbn [fold_left]; [symmetry; apply app_nil_r|].
  assert (E : set_insert x acc = acc ++ [x]).
  { unfold set_insert. destruct (set_mem x acc) eqn:E; [|reflexivity]. exfalso.
    apply set_mem_spec in E. destruct E as (y & Hy & Hk).
    apply distinct_app in Hd. destruct Hd as (_ & _ & Hd). specialize (Hd y x Hy (or_introl eq_refl)).
    rewrite key_match_sym in Hk; [congruence| |]; apply Hw, in_or_app; [right; left; reflexivity|left; exact Hy]. }
  rewrite E, IH; rewrite <- app_assoc; cbn [app]; auto.
Qed.
Lemma to_set_id l : all_wf l -> distinct key_match l -> to_set l = l.
Proof. intros Hw Hd. apply (to_set_acc l []); assumption. Qed.

Lemma mem_compat x y l : all_wf l -> wf x -> wf y -> key_match x y = true -> mem x l -> mem y l.
Proof.
  intros Hl Hx Hy H (z & Hz & Hk). exists z. split; [exact Hz|].
  apply (key_match_trans y x z); auto. rewrite key_match_sym; auto.
Qed.
Lemma mem_app x l r : mem x (l ++ r) <-> mem x l \/ mem x r.
Proof.
  unfold mem. split.
  - intros (y & Hy & Hk). apply in_app_or in Hy. destruct Hy; [left|right]; exists y; auto.
  - intros [(y & Hy & Hk)|(y & Hy & Hk)]; exists y; rewrite in_app_iff; auto.
Qed.
Lemma mem_difference l r x : all_wf l -> all_wf r -> wf x -> (mem x (set_difference l r) <-> mem x l /\ ~ mem x r).
Proof.
  intros Hl Hr Hx. unfold set_difference. split.
  - intros (y & Hy & Hk). apply filter_In in Hy. destruct Hy as [Hy Hn]. split; [exists y; auto|].
    intros Hm. assert (mem y r) by (eapply mem_compat; [exact Hr|exact Hx|apply Hl, Hy|exact Hk|exact Hm]).
    apply set_mem_spec in H. rewrite H in Hn. discriminate.
  - intros [(y & Hy & Hk) Hn]. exists y. split; [|exact Hk]. apply filter_In. split; [exact Hy|].
    destruct (set_mem y r) eqn:E; [|reflexivity]. exfalso. apply Hn. apply set_mem_spec in E.
    eapply mem_compat; [exact Hr|apply Hl, Hy|exact Hx| |exact E]. rewrite key_match_sym; auto.
Qed.
Lemma mem_intersection l r x : all_wf l -> all_wf r -> wf x -> (mem x (set_intersection l r) <-> mem x l /\ mem x r).
Proof.
  intros Hl Hr Hx. unfold set_intersection. split.
  - intros (y & Hy & Hk). apply filter_In in Hy. destruct Hy as [Hy Hn]. split; [exists y; auto|].
    apply set_mem_spec in Hn. eapply mem_compat; [exact Hr|apply Hl, Hy|exact Hx| |exact Hn]. rewrite key_match_sym; auto.
  - intros [(y & Hy & Hk) Hm]. exists y. split; [|exact Hk]. apply filter_In. split; [exact Hy|].
    apply set_mem_spec. eapply mem_compat; [exact Hr|exact Hx|apply Hl, Hy|exact Hk|exact Hm].
Qed.

Lemma set_wf l : wf (VSet l) -> all_wf l /\ distinct key_match l.
Proof. inversion 1; subst. split; assumption. Qed.

Lemma mem_dec x l : mem x l \/ ~ mem x l.
Proof. destruct (set_mem x l) eqn:E; [left; apply set_mem_spec, E|right]. intros H. apply set_mem_spec in H. congruence. Qed.

Lemma diff_disjoint l r : all_wf l -> all_wf r -> forall x y, In x (set_difference l r) -> In y r -> key_match x y = false.
Proof.
  intros Hl Hr x y Hx Hy. unfold set_difference in Hx. apply filter_In in Hx. destruct Hx as [Hx Hn].
  destruct (key_match x y) eqn:E; [|reflexivity]. assert (H : mem x r) by (exists y; auto).
  apply set_mem_spec in H. rewrite H in Hn. discriminate.
Qed.

Lemma all_wf_app l r : all_wf l -> all_wf r -> all_wf (l ++ r).
Proof. intros Hl Hr x Hx. apply in_app_or in Hx. destruct Hx; auto. Qed.
Lemma all_wf_filter f l : all_wf l -> all_wf (filter f l).
Proof. intros Hl x Hx. apply filter_In in Hx. apply Hl. tauto. Qed.

Lemma set_ops ts fm l r : wf (VSet l) -> wf (VSet r) ->
  (exists o, binary_op ts fm BSub (VSet l) (VSet r) = Ok (VSet o) /\ wf (VSet o) /\ sublist o l /\
     forall x, wf x -> (mem x o <-> mem x l /\ ~ mem x r)) /\
  (exists o, binary_op ts fm BAnd (VSet l) (VSet r) = Ok (VSet o) /\ wf (VSet o) /\ sublist o l /\
     forall x, wf x -> (mem x o <-> mem x l /\ mem x r)) /\
  (exists o, binary_op ts fm BOr (VSet l) (VSet r) = Ok (VSet o) /\ wf (VSet o) /\ (exists r', o = l ++ r' /\ sublist r' r) /\
     forall x, wf x -> (mem x o <-> mem x l \/ mem x r)) /\
  (exists o, binary_op ts fm BXor (VSet l) (VSet r) = Ok (VSet o) /\ wf (VSet o) /\ (exists l' r', o = l' ++ r' /\ sublist l' l /\ sublist r' r) /\
     forall x, wf x -> (mem x o <-> (mem x l /\ ~ mem x r) \/ (mem x r /\ ~ mem x l))).
Proof.
  intros Wl Wr. destruct (set_wf _ Wl) as [Al Dl]. destruct (set_wf _ Wr) as [Ar Dr].
  assert (S1 : forall f l, all_wf l -> distinct key_match l -> all_wf (filter f l) /\ distinct key_match (filter f l)).
  { intros f l0 A D. split; [apply all_wf_filter, A|]. eapply sublist_distinct; [apply sublist_filter|exact D]. }
  destruct (S1 (fun x => negb (set_mem x r)) l Al Dl) as [A1 D1].
  destruct (S1 (fun x => negb (set_mem x l)) r Ar Dr) as [A3 D3].
  destruct (S1 (fun x => set_mem x r) l Al Dl) as [A2 D2].
  assert (DU : distinct key_match (set_union l r)).
  { apply distinct_app. split; [exact Dl|]. split; [exact D3|]. intros x y Hx Hy.
    rewrite key_match_sym; [apply (diff_disjoint r l Ar Al y x Hy Hx)|apply Al, Hx|apply A3, Hy]. }
  assert (DX : distinct key_match (set_symdiff l r)).
  { apply distinct_app. split; [exact D1|]. split; [exact D3|]. intros x y Hx Hy.
    apply (diff_disjoint l r Al Ar x y Hx). apply filter_In in Hy. tauto. }
  split; [|split; [|split]].
  - exists (set_difference l r). split; [|split; [|split]].
    + apply lift2_base. cbn. rewrite to_set_id by assumption. reflexivity.
    + constructor; assumption.
    + apply sublist_filter.
    + intros x Hx. apply mem_difference; assumption.
  - exists (set_intersection l r). split; [|split; [|split]].
    + apply lift2_base. cbn. rewrite to_set_id by assumption. reflexivity.
    + constructor; assumption.
    + apply sublist_filter.
    + intros x Hx. apply mem_intersection; assumption.
  - exists (set_union l r). assert (AU : all_wf (set_union l r)) by (apply all_wf_app; assumption). split; [|split; [|split]].
    + apply lift2_base. cbn. rewrite to_set_id by assumption. reflexivity.
    + constructor; assumption.
    + exists (set_difference r l). split; [reflexivity|apply sublist_filter].
    + intros x Hx. unfold set_union. rewrite mem_app, mem_difference by assumption. destruct (mem_dec x l); tauto.
  - exists (set_symdiff l r). assert (AU : all_wf (set_symdiff l r)) by (apply all_wf_app; assumption). split; [|split; [|split]].
    + apply lift2_base. cbn. rewrite to_set_id by assumption. reflexivity.
    + constructor; assumption.
    + exists (set_difference l r), (set_difference r l). split; [reflexivity|split; apply sublist_filter].
    + intros x Hx. unfold set_symdiff. rewrite mem_app, !mem_difference by assumption. tauto.
Qed.

(** vectors *)
Definition op_base (ts : value -> list Z) (fm : list Z -> value -> result value) (o : binop) : value -> value -> option (result value) :=
  match o with
  | BMul => mul_base | BDiv => div_base | BPow => pow_base | BMod => mod_base fm | BAdd => add_base ts | BSub => sub_base
  | BLeftShift => shift_base false | BRightShift => shift_base true
  | BAnd => bitwise_base andb Z.land set_intersection | BOr => bitwise_base orb Z.lor set_union
  | BXor => bitwise_base xorb Z.lxor set_symdiff
  | _ => fun _ _ => None
  end.
Lemma vector_op_lift ts fm o a b : vector_op o = true -> binary_op ts fm o a b = lift2 (op_base ts fm o) o a b.
Proof. destruct o; intros H; try discriminate; reflexivity. Qed.
Lemma base_vv ts fm o l r : op_base ts fm o (VVector l) (VVector r) = None.
Proof. destruct o; reflexivity. Qed.
Lemma base_vs ts fm o l b : not_str b -> op_base ts fm o (VVector l) b = None.
Proof. intros H. destruct o, b; try reflexivity; try contradiction. Qed.
Lemma base_sv ts fm o a r : not_str a -> op_base ts fm o a (VVector r) = None.
Proof. intros H. destruct o, a; try reflexivity; try contradiction. Qed.



Lemma collected_cons (f : nat -> result value) n (r rest : result (list value)) :
  (r = (let? z := f O in let? zs := rest in Ok (z :: zs))) ->
  collected (fun i => f (S i)) n (let? zs := rest in Ok (VVector zs)) ->
  collected f (S n) (let? zs := r in Ok (VVector zs)).
Proof.
  intros -> [(z & Hz & Hl & H)|(i & Hi & Hj & H)].
  - destruct rest as [zs|e|]; cbn in Hz; try discriminate. injection Hz as ->.
    destruct (f O) as [y|e|] eqn:E; cbn.
    + left. exists (y :: z). split; [reflexivity|]. split; [cbn; lia|].
      intros [|i] Hi; [exists y; auto|]. apply H. lia.
    + right. exists O. split; [lia|]. split; [intros; lia|]. left. exists e. auto.
    + right. exists O. split; [lia|]. split; [intros; lia|]. right. auto.
  - destruct (f O) as [y|e|] eqn:E; cbn.
    + right. exists (S i). split; [lia|]. split.
      * intros [|j] Hlt; [exists y; exact E|]. apply Hj. lia.
      * destruct H as [(e & H1 & H2)|(H1 & H2)]; [left; exists e; split; [exact H1|]|right; split; [exact H1|]];
          destruct rest; cbn in *; congruence.
    + right. exists O. split; [lia|]. split; [intros; lia|]. left. exists e. auto.
    + right. exists O. split; [lia|]. split; [intros; lia|]. right. auto.
Qed.
Lemma collected_nil f : collected f 0 (Ok (VVector [])).
Proof. left. exists []. split; [reflexivity|]. split; [reflexivity|]. intros; lia. Qed.
Lemma collected_ext f g n r : (forall i, (i < n)%nat -> f i = g i) -> collected f n r -> collected g n r.
Proof.
  intros E [(z & H1 & H2 & H3)|(i & H1 & H2 & H3)].
  - left. exists z. split; [exact H1|]. split; [exact H2|]. intros i Hi. rewrite <- E by exact Hi. apply H3, Hi.
  - right. exists i. split; [exact H1|]. split; [intros j Hj; rewrite <- E by lia; apply H2, Hj|]. rewrite <- E by exact H1. exact H3.
Qed.

Lemma vec_vec ts fm o l r : vector_op o = true ->
  collected (fun i => binary_op ts fm o (nth i l VNil) (nth i r VNil)) (Nat.min (length l) (length r))
    (binary_op ts fm o (VVector l) (VVector r)).
Proof.
  intros Ho. rewrite vector_op_lift by exact Ho. cbn [lift2]. rewrite base_vv.
  revert r. induction l as [|x l IH]; intros r; [cbn; apply collected_nil|].
  destruct r as [|y r]; [cbn; apply collected_nil|]. cbn [length Nat.min].
  eapply collected_cons; [cbn [nth]; rewrite (vector_op_lift ts fm o x y Ho); reflexivity|].
  apply IH.
Qed.
Lemma vec_scalar ts fm o l b : vector_op o = true -> not_vector b -> not_str b ->
  collected (fun i => binary_op ts fm o (nth i l VNil) b) (length l) (binary_op ts fm o (VVector l) b).
Proof.
  intros Ho Hv Hs. rewrite vector_op_lift by exact Ho.
  assert (E : lift2 (op_base ts fm o) o (VVector l) b =
    let? z := (fix go (l : list value) : result (list value) :=
                 match l with
                 | x :: l' => let? z := lift2 (op_base ts fm o) o x b in let? zs := go l' in Ok (z :: zs)
                 | [] => Ok []
                 end) l in Ok (VVector z)).
  { pose proof (base_vs ts fm o l b Hs) as Hb. destruct b; cbn [lift2]; rewrite Hb; try reflexivity. contradiction. }
  rewrite E. clear E. induction l as [|x l IH]; [cbn; apply collected_nil|]. cbn [length].
  eapply collected_cons; [cbn [nth]; rewrite (vector_op_lift ts fm o x b Ho); reflexivity|]. apply IH.
Qed.
Lemma scalar_vec ts fm o a r : vector_op o = true -> not_vector a -> not_str a ->
  collected (fun i => binary_op ts fm o a (nth i r VNil)) (length r) (binary_op ts fm o a (VVector r)).
Proof.
  intros Ho Hv Hs. rewrite vector_op_lift by exact Ho.
  assert (E : lift2 (op_base ts fm o) o a (VVector r) =
    let? z := (fix go (r : list value) : result (list value) :=
                 match r with
                 | y :: r' => let? z := lift2 (op_base ts fm o) o a y in let? zs := go r' in Ok (z :: zs)
                 | [] => Ok []
                 end) r in Ok (VVector z)).
  { pose proof (base_sv ts fm o a r Hs) as Hb. destruct a; cbn [lift2]; rewrite Hb; try reflexivity; try contradiction. }
  rewrite E. clear E. induction r as [|y r IH]; [cbn; apply collected_nil|]. cbn [length].
  eapply collected_cons; [cbn [nth]; rewrite (vector_op_lift ts fm o a y Ho); reflexivity|]. apply IH.
Qed.

(** membership *)
Lemma is_prefix_spec p : forall s, is_prefix p s = true <-> exists t, s = p ++ t.
Proof.
  induction p as [|x p IH]; intros s; cbn.
  - split; [exists s; reflexivity|reflexivity].
  - destruct s as [|y s]; [split; [discriminate|intros (t & H); discriminate]|].
    rewrite andb_true_iff, Z.eqb_eq, IH. split.
    + intros [-> (t & ->)]. exists t. reflexivity.
    + intros (t & H). injection H as -> ->. split; [reflexivity|exists t; reflexivity].
Qed.
Lemma str_contains_spec n : forall h, str_contains h n = true <-> exists p t, h = p ++ n ++ t.
Proof.
  induction h as [|c h IH].
  - cbn [str_contains]. rewrite orb_false_r, is_prefix_spec. split.
    + intros (t & H). exists [], t. exact H.
    + intros (p & t & H). destruct p; [|discriminate]. exists t. exact H.
  - cbn [str_contains]. rewrite orb_true_iff, is_prefix_spec, IH. split.
    + intros [(t & H)|(p & t & H)]; [exists [], t; exact H|exists (c :: p), t; cbn; rewrite H; reflexivity].
    + intros (p & t & H). destruct p as [|d p]; [left; exists t; exact H|].
      right. injection H as -> H. exists p, t. exact H.
Qed.

(** repetition *)
Lemma repeat_str_spec s n : repeat_str s n = concat (repeat s n).
Proof. induction n; cbn; congruence. Qed.
Lemma concat_repeat_length {A} (l : list A) n : length (concat (repeat l n)) = (n * length l)%nat.
Proof. induction n; cbn; [reflexivity|]. rewrite app_length, IHn. reflexivity. Qed.
Lemma concat_repeat_nth (l : list value) d : forall n k, (k < n * length l)%nat ->
  nth k (concat (repeat l n)) d = nth (k mod length l) l d.
Proof.
  induction n as [|n IH]; intros k Hk; [lia|]. cbn [repeat concat].
  assert (length l <> 0)%nat by (intros E; rewrite E in Hk; lia).
  destruct (Nat.lt_ge_cases k (length l)) as [H1|H1].
  - rewrite app_nth1 by exact H1. rewrite Nat.mod_small by exact H1. reflexivity.
  - rewrite app_nth2 by exact H1. rewrite IH by (cbn in Hk; lia). f_equal.
    replace k with ((k - length l) + 1 * length l)%nat at 2 by lia. rewrite Nat.mod_add by assumption. reflexivity.
Qed.
Lemma cycle_take_spec l n : cycle_take l (n * length l) = concat (repeat l n).
Proof.
  unfold cycle_take. destruct l as [|d l].
  - clear. induction n; cbn; auto.
  - set (l0 := d :: l). apply nth_ext with (d := d) (d' := d).
    + rewrite map_length, seq_length, concat_repeat_length. reflexivity.
    + rewrite map_length, seq_length. intros k Hk.
      rewrite (nth_indep _ d ((fun k => nth (k mod length l0) l0 d) O)) by (rewrite map_length, seq_length; exact Hk).
      etransitivity; [apply (map_nth (fun k => nth (k mod length l0) l0 d))|].
      rewrite seq_nth by exact Hk. cbn [Nat.add]. symmetry. apply concat_repeat_nth, Hk.
Qed.
Lemma list_repeat l i deep : is_int63 i -> i * Z.of_nat (length l) < 2 ^ 64 ->
  binary_list_repeat l i deep =
  if i <? 0 then Err (ValueErrorBinaryOpMustNotBeNegative (VList l) (if deep then BPow else BMul) i)
  else Ok (VList (concat (repeat l (Z.to_nat i)))).
Proof.
  intros Hi Hs. change (2 ^ 64) with 18446744073709551616 in Hs. unfold binary_list_repeat. destruct (i <? 0) eqn:E; [reflexivity|].
  do 2 f_equal. rewrite u64_id by nia. rewrite Z2Nat.inj_mul by lia. rewrite Nat2Z.id. apply cycle_take_spec.
Qed.
