(** Proofs about operators (Ops.v): integers. *)
From Verif Require Import Base BaseProofs Ptr Native Value ValueSpec Err Iter IterProofs Seq SeqProofs Ops OpsSpec.
From Coq Require Import QArith_base.
Local Open Scope Z_scope.

Lemma wraps_to_wrap63 m : wraps_to (wrap63 m) m.
Proof. split; [apply wrap63_range|]. apply wrap63_cong. Qed.
Lemma wraps_to_unique z m : wraps_to z m <-> z = wrap63 m.
Proof.
  split; [|intros ->; apply wraps_to_wrap63]. intros [Hz [k Hk]]. symmetry. apply (wrap63_unique m z k); assumption.
Qed.
Lemma int_value_opt v x : is_int_value v x -> as_int_opt v = Some x /\ is_int63 x.
Proof.
  intros [[-> H]|[[-> ->]|[-> ->]]]; (split; [reflexivity|]); try exact H; apply int63_bounds; lia.
Qed.
Lemma int_value_not_vector v x : is_int_value v x -> not_vector v.
Proof. intros [[-> _]|[[-> _]|[-> _]]]; exact I. Qed.

Lemma lift2_base base op a b r : base a b = Some r -> lift2 base op a b = r.
Proof. intros H. destruct a; destruct b; cbn [lift2]; rewrite H; reflexivity. Qed.
Lemma lift1_base base op a r : base a = Some r -> lift1 base op a = r.
Proof. intros H. destruct a; cbn [lift1]; rewrite H; reflexivity. Qed.

Lemma numeric_int fi fc fq a b x y : is_int_value a x -> is_int_value b y ->
  numeric fi fc fq a b = Some (Ok (VInt (wrap63 (fi x y)))).
Proof.
  intros Ha Hb. apply int_value_opt in Ha, Hb. unfold numeric.
  rewrite (proj1 Ha), (proj1 Hb). unfold of_int. rewrite wrap63_i64. reflexivity.
Qed.

Lemma add_int ts fm a b x y : is_int_value a x -> is_int_value b y ->
  binary_op ts fm BAdd a b = Ok (VInt (wrap63 (x + y))).
Proof. intros Ha Hb. apply lift2_base. unfold add_base. rewrite (numeric_int _ _ _ _ _ _ _ Ha Hb). reflexivity. Qed.
Lemma sub_int ts fm a b x y : is_int_value a x -> is_int_value b y ->
  binary_op ts fm BSub a b = Ok (VInt (wrap63 (x - y))).
Proof. intros Ha Hb. apply lift2_base. unfold sub_base. rewrite (numeric_int _ _ _ _ _ _ _ Ha Hb). reflexivity. Qed.
Lemma mul_int ts fm a b x y : is_int_value a x -> is_int_value b y ->
  binary_op ts fm BMul a b = Ok (VInt (wrap63 (x * y))).
Proof. intros Ha Hb. apply lift2_base. unfold mul_base. rewrite (numeric_int _ _ _ _ _ _ _ Ha Hb). reflexivity. Qed.
Lemma neg_int a x : is_int_value a x -> unary_op UNeg a = Ok (VInt (wrap63 (- x))).
Proof.
  intros Ha. apply lift1_base. pose proof (int_value_opt _ _ Ha) as [E _].
  destruct Ha as [[-> _]|[[-> ->]|[-> ->]]]; cbn [unary_sub_base as_int_opt]; unfold of_int; rewrite wrap63_i64; reflexivity.
Qed.

(** division *)
Ltac zify_div := Z.div_mod_to_equations.

Lemma quot_rem_floor x y : y <> 0 ->
  (if adjust (Z.rem x y) y then Z.quot x y - 1 else Z.quot x y) = x / y /\
  (if adjust (Z.rem x y) y then Z.rem x y + y else Z.rem x y) = x mod y.
Proof.
  intros Hy. pose proof (Z.quot_rem x y Hy) as HQ.
  pose proof (Z.rem_bound_abs x y Hy) as HB.
  set (q := Z.quot x y) in *. set (r := Z.rem x y) in *. clearbody q r.
  unfold adjust.
  destruct (((r >? 0) && (y <? 0)) || ((r <? 0) && (y >? 0))) eqn:E.
  - split; [apply Z.div_unique with (r := r + y) | apply Z.mod_unique with (q := q - 1)]; lia.
  - split; [apply Z.div_unique with (r := r) | apply Z.mod_unique with (q := q)]; lia.
Qed.

Lemma quot_bound x y : y <> 0 -> Z.abs (Z.quot x y) <= Z.abs x.
Proof.
  intros Hy. rewrite <- Z.quot_abs by exact Hy. apply Z.quot_le_upper_bound; nia.
Qed.

Lemma div_floor_ok x y : is_i64 x -> y <> 0 -> ~ (x = i64_min /\ y = -1) ->
  div_floor x y = Ok (i64 (x / y)).
Proof.
  intros Hx Hy Hm. rewrite i64_bounds in Hx. unfold div_floor.
  assert (Hi : i64_min = - 9223372036854775808) by reflexivity. rewrite Hi in *.
  replace ((y =? 0) || ((x =? -9223372036854775808) && (y =? -1))) with false by lia.
  destruct (quot_rem_floor x y Hy) as [H _]. rewrite <- H.
  destruct (adjust (Z.rem x y) y); [reflexivity|]. rewrite i64_id; [reflexivity|]. apply i64_bounds.
  pose proof (Z.quot_rem x y Hy) as HQ. pose proof (quot_bound x y Hy) as HB.
  destruct (Z.eq_dec x (-9223372036854775808)) as [->|Hne]; [|lia].
  assert (Z.quot (-9223372036854775808) y <> 9223372036854775808); [|lia].
  intros E. rewrite E in HQ. pose proof (Z.rem_bound_abs (-9223372036854775808) y Hy). nia.
Qed.
Lemma div_floor_int63 x y : is_int63 x -> is_int63 y -> y <> 0 -> div_floor x y = Ok (x / y).
Proof.
  intros Hx Hy Hn. rewrite int63_bounds in *. rewrite div_floor_ok.
  - f_equal. apply i64_id, i64_bounds.
    pose proof (Z.div_mod x y Hn). pose proof (Z.mod_bound_or x y Hn). nia.
  - apply i64_bounds; lia.
  - exact Hn.
  - unfold i64_min. change (2 ^ 63) with 9223372036854775808. lia.
Qed.
Lemma mod_floor_ok x y : is_i64 x -> is_i64 y -> y <> 0 -> ~ (x = i64_min /\ y = -1) ->
  mod_floor x y = Ok (x mod y).
Proof.
  intros Hx Hyb Hy Hm. rewrite i64_bounds in *. unfold mod_floor.
  assert (Hi : i64_min = - 9223372036854775808) by reflexivity. rewrite Hi in *.
  replace ((y =? 0) || ((x =? -9223372036854775808) && (y =? -1))) with false by lia.
  destruct (quot_rem_floor x y Hy) as [_ H]. rewrite <- H.
  destruct (adjust (Z.rem x y) y); [|reflexivity]. rewrite i64_id; [reflexivity|]. apply i64_bounds.
  rewrite H. pose proof (Z.mod_bound_or x y Hy). lia.
Qed.

Lemma div_int ts fm a b x y : is_int_value a x -> is_int_value b y ->
  binary_op ts fm BDiv a b = if y =? 0 then Err ValueErrorDivideByZero else Ok (VInt (wrap63 (x / y))).
Proof.
  intros Ha Hb. apply int_value_opt in Ha, Hb. apply lift2_base. unfold div_base.
  rewrite (proj1 Ha), (proj1 Hb). destruct (y =? 0) eqn:E; [reflexivity|].
  rewrite div_floor_int63 by (try tauto; lia). reflexivity.
Qed.
Lemma mod_int ts fm a b x y : is_int_value a x -> is_int_value b y ->
  binary_op ts fm BMod a b = if y =? 0 then Err ValueErrorModuloByZero else Ok (VInt (x mod y)).
Proof.
  intros Ha Hb. apply int_value_opt in Ha, Hb. apply lift2_base. unfold mod_base.
  rewrite (proj1 Ha), (proj1 Hb). destruct (y =? 0) eqn:E; [reflexivity|].
  destruct Ha as [_ Ha], Hb as [_ Hb]. rewrite int63_bounds in *.
  rewrite mod_floor_ok; try (apply i64_bounds; lia); try lia.
  - cbn [bind]. unfold of_int. rewrite wrap63_id; [reflexivity|]. apply int63_bounds.
    pose proof (Z.mod_bound_or x y ltac:(lia)). lia.
  - unfold i64_min. change (2 ^ 63) with 9223372036854775808. lia.
Qed.
Lemma div_in_range x y : is_int63 x -> is_int63 y -> y <> 0 -> ~ (x = MIN_INT /\ y = -1) -> is_int63 (x / y).
Proof.
  unfold MIN_INT. change (2 ^ 62) with 4611686018427387904. rewrite !int63_bounds. intros Hx Hy Hn Hm.
  pose proof (Z.div_mod x y Hn). pose proof (Z.mod_bound_or x y Hn).
  destruct (Z.eq_dec y (-1)) as [->|]; [|nia]. assert (x mod -1 = 0) by lia. nia.
Qed.

(** power and shifts *)
Lemma u32_id n : 0 <= n < 2 ^ 32 -> u32 n = n.
Proof. intros H. unfold u32, uwrap. apply Z.mod_small, H. Qed.
Lemma pow_int ts fm a b x y : is_int_value a x -> is_int_value b y ->
  (y < 0 -> binary_op ts fm BPow a b = Err (ValueErrorPowerByNegative y)) /\
  (0 <= y < 2 ^ 32 -> binary_op ts fm BPow a b = Ok (VInt (wrap63 (x ^ y)))).
Proof.
  intros Ha Hb. apply int_value_opt in Ha, Hb. split; intros H; apply lift2_base; unfold pow_base;
    rewrite (proj1 Ha), (proj1 Hb).
  - replace (y >=? 0) with false by lia. reflexivity.
  - replace (y >=? 0) with true by lia. rewrite u32_id by exact H. unfold of_int, pow_i64. rewrite wrap63_i64. reflexivity.
Qed.

Lemma shift_left x n : 0 <= n < 64 -> i64_left_shift x n = i64 (x * 2 ^ n).
Proof.
  intros H. unfold i64_left_shift. replace (n >=? 0) with true by lia. unfold shl_i64.
  rewrite Z.mod_small by lia. rewrite Z.shiftl_mul_pow2 by lia. reflexivity.
Qed.
Lemma shift_right x n : 0 < n < 64 -> i64_left_shift x (- n) = x / 2 ^ n.
Proof.
  intros H. unfold i64_left_shift. replace (- n >=? 0) with false by lia. unfold shr_i64.
  rewrite Z.opp_involutive, i64_id by (apply i64_bounds; lia).
  rewrite Z.mod_small by lia. apply Z.shiftr_div_pow2. lia.
Qed.
Lemma shift_int ts fm a b x n : is_int_value a x -> is_int_value b n -> -64 < n < 64 ->
  (0 <= n -> binary_op ts fm BLeftShift a b = Ok (VInt (wrap63 (x * 2 ^ n))) /\
             binary_op ts fm BRightShift a b = Ok (VInt (x / 2 ^ n))) /\
  (n < 0 -> binary_op ts fm BLeftShift a b = Ok (VInt (x / 2 ^ (- n))) /\
            binary_op ts fm BRightShift a b = Ok (VInt (wrap63 (x * 2 ^ (- n))))).
Proof.
  intros Ha Hb Hn. apply int_value_opt in Ha, Hb.
  assert (Hdiv : forall m, 0 <= m -> wrap63 (x / 2 ^ m) = x / 2 ^ m).
  { intros m Hm. apply wrap63_id. destruct Ha as [_ Ha]. rewrite int63_bounds in *.
    assert (0 < 2 ^ m) by (apply Z.pow_pos_nonneg; lia).
    pose proof (Z.div_mod x (2 ^ m) ltac:(lia)). pose proof (Z.mod_pos_bound x (2 ^ m) ltac:(lia)). nia. }
  assert (Hb' : is_i64 (- n)) by (apply i64_bounds; lia).
  assert (EL : binary_op ts fm BLeftShift a b = Ok (of_int (i64_left_shift x n))).
  { apply lift2_base. unfold shift_base. rewrite (proj1 Ha), (proj1 Hb). reflexivity. }
  assert (ER : binary_op ts fm BRightShift a b = Ok (of_int (i64_left_shift x (- n)))).
  { apply lift2_base. unfold shift_base. rewrite (proj1 Ha), (proj1 Hb), i64_id by exact Hb'. reflexivity. }
  rewrite EL, ER. unfold of_int. split; intros H.
  - rewrite shift_left by lia. rewrite wrap63_i64. split; [reflexivity|].
    destruct (Z.eq_dec n 0) as [->|].
    + rewrite shift_left by lia. rewrite wrap63_i64. rewrite Z.pow_0_r, Z.mul_1_r, Z.div_1_r.
      rewrite wrap63_id by tauto. reflexivity.
    + rewrite shift_right by lia. rewrite Hdiv by lia. reflexivity.
  - split.
    + replace n with (- - n) at 1 by ring. rewrite shift_right by lia. rewrite Hdiv by lia. reflexivity.
    + rewrite shift_left by lia. rewrite wrap63_i64. reflexivity.
Qed.

(** bitwise *)
Definition agrees_above (x : Z) : Prop := forall n, 62 <= n -> Z.testbit x n = (x <? 0).
Lemma testbit_high_nonneg x n : 0 <= x < 2 ^ 62 -> 62 <= n -> Z.testbit x n = false.
Proof.
  intros Hx Hn. destruct (Z.eq_dec x 0) as [->|Hz]; [apply Z.testbit_0_l|].
  apply Z.bits_above_log2; [lia|]. apply Z.lt_le_trans with 62; [|lia]. apply Z.log2_lt_pow2; lia.
Qed.
Lemma int63_agrees x : is_int63 x -> agrees_above x.
Proof.
  unfold is_int63, MIN_INT, MAX_INT. intros Hx n Hn. destruct (x <? 0) eqn:E.
  - replace x with (- (- x - 1) - 1) by ring.
    pose proof (Z.bits_opp (- x) n ltac:(lia)) as HB.
    replace (- (- x - 1) - 1) with (- (- x)) by ring. rewrite HB.
    rewrite <- Z.sub_1_r. rewrite (testbit_high_nonneg (- x - 1) n) by lia. reflexivity.
  - apply testbit_high_nonneg; lia.
Qed.
Lemma sign_bits x s : (forall n, 62 <= n -> Z.testbit x n = s) -> is_int63 x.
Proof.
  intros H. unfold is_int63, MIN_INT, MAX_INT.
  destruct s.
  - assert (Hneg : x < 0). { apply Z.bits_iff_neg_ex. exists 62. intros m Hm. apply H. lia. }
    assert (- x - 1 < 2 ^ 62); [|lia].
    destruct (Z.eq_dec (- x - 1) 0) as [->|Hz]; [lia|].
    apply Z.log2_lt_cancel. rewrite Z.log2_pow2 by lia.
    destruct (Z_lt_le_dec (Z.log2 (- x - 1)) 62) as [?|Hl]; [assumption|exfalso].
    pose proof (Z.bit_log2 (- x - 1) ltac:(lia)) as HB.
    specialize (H (Z.log2 (- x - 1)) Hl).
    pose proof (Z.bits_opp (- x) (Z.log2 (- x - 1)) ltac:(lia)) as HO.
    rewrite Z.opp_involutive, <- Z.sub_1_r, HB, H in HO. discriminate.
  - assert (Hpos : 0 <= x). { apply Z.bits_iff_nonneg_ex. exists 62. intros m Hm. apply H. lia. }
    assert (x < 2 ^ 62); [|lia].
    destruct (Z.eq_dec x 0) as [->|Hz]; [lia|].
    apply Z.log2_lt_cancel. rewrite Z.log2_pow2 by lia.
    destruct (Z_lt_le_dec (Z.log2 x) 62) as [?|Hl]; [assumption|exfalso].
    pose proof (Z.bit_log2 x ltac:(lia)) as HB. rewrite (H _ Hl) in HB. discriminate.
Qed.
Lemma land_int63 x y : is_int63 x -> is_int63 y -> is_int63 (Z.land x y).
Proof. intros Hx Hy. apply (sign_bits _ ((x <? 0) && (y <? 0))). intros n Hn.
  rewrite Z.land_spec, (int63_agrees x Hx n Hn), (int63_agrees y Hy n Hn). reflexivity. Qed.
Lemma lor_int63 x y : is_int63 x -> is_int63 y -> is_int63 (Z.lor x y).
Proof. intros Hx Hy. apply (sign_bits _ ((x <? 0) || (y <? 0))). intros n Hn.
  rewrite Z.lor_spec, (int63_agrees x Hx n Hn), (int63_agrees y Hy n Hn). reflexivity. Qed.
Lemma lxor_int63 x y : is_int63 x -> is_int63 y -> is_int63 (Z.lxor x y).
Proof. intros Hx Hy. apply (sign_bits _ (xorb (x <? 0) (y <? 0))). intros n Hn.
  rewrite Z.lxor_spec, (int63_agrees x Hx n Hn), (int63_agrees y Hy n Hn). reflexivity. Qed.
Lemma lnot_int63 x : is_int63 x -> is_int63 (Z.lnot x).
Proof. rewrite !int63_bounds. unfold Z.lnot. lia. Qed.

Lemma bitwise_int fb fi fs a b x y : is_int_value a x -> is_int_value b y ->
  (forall p q, a = VBool p -> b = VBool q -> False) ->
  bitwise_base fb fi fs a b = Some (Ok (VInt (wrap63 (fi x y)))).
Proof.
  intros Ha Hb Hbb. pose proof (int_value_opt _ _ Ha) as [Ea _]. pose proof (int_value_opt _ _ Hb) as [Eb _].
  unfold bitwise_base. destruct Ha as [[-> _]|[[-> ->]|[-> ->]]]; cbn in Ea; try rewrite Eb; unfold of_int; cbn [as_int_opt];
  destruct Hb as [[-> _]|[[-> ->]|[-> ->]]]; try reflexivity; exfalso; eapply Hbb; reflexivity.
Qed.

Definition bit_op (o : binop) : option ((bool -> bool -> bool) * (Z -> Z -> Z)) :=
  match o with BAnd => Some (andb, Z.land) | BOr => Some (orb, Z.lor) | BXor => Some (xorb, Z.lxor) | _ => None end.

Lemma bitwise_spec ts fm o fb a b x y : is_int_value a x -> is_int_value b y ->
  (o = BAnd /\ fb = andb \/ o = BOr /\ fb = orb \/ o = BXor /\ fb = xorb) ->
  (forall p q, a = VBool p -> b = VBool q -> binary_op ts fm o a b = Ok (VBool (fb p q))) /\
  ((forall p q, a = VBool p -> b = VBool q -> False) ->
   exists z, binary_op ts fm o a b = Ok (VInt z) /\ is_int63 z /\
     forall n, 0 <= n -> Z.testbit z n = fb (Z.testbit x n) (Z.testbit y n)).
Proof.
  intros Ha Hb Ho. pose proof (int_value_opt _ _ Ha) as [_ Ia]. pose proof (int_value_opt _ _ Hb) as [_ Ib]. split.
  - intros p q -> ->. destruct Ho as [[-> ->]|[[-> ->]|[-> ->]]]; apply lift2_base; reflexivity.
  - intros Hbb. destruct Ho as [[-> ->]|[[-> ->]|[-> ->]]]; eexists; split;
      [apply lift2_base; apply bitwise_int; eassumption| |apply lift2_base; apply bitwise_int; eassumption| |apply lift2_base; apply bitwise_int; eassumption|].
    + rewrite wrap63_id by (apply land_int63; assumption). split; [apply land_int63; assumption|]. intros; apply Z.land_spec.
    + rewrite wrap63_id by (apply lor_int63; assumption). split; [apply lor_int63; assumption|]. intros; apply Z.lor_spec.
    + rewrite wrap63_id by (apply lxor_int63; assumption). split; [apply lxor_int63; assumption|]. intros; apply Z.lxor_spec.
Qed.
Lemma not_spec a x : is_int63 x -> a = VInt x -> exists z, unary_op UNot a = Ok (VInt z) /\ is_int63 z /\
  forall n, 0 <= n -> Z.testbit z n = negb (Z.testbit x n).
Proof.
  intros Hx ->. exists (Z.lnot x). cbn. unfold of_int. rewrite wrap63_id by (apply lnot_int63, Hx).
  split; [reflexivity|]. split; [apply lnot_int63, Hx|]. intros n Hn. apply Z.lnot_spec, Hn.
Qed.
