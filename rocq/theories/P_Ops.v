(** C11-C15 arithmetic, C21 set algebra, C53 vectors, C55 rationals, C56 closure and crashes,
    C57 membership, C58 repetition, C59 max and min. *)
From Verif Require Import Base BaseProofs Ptr Native Value Err Iter IterSpec IterProofs Seq Ops ValueSpec ValueProofs OrderProofs
  OpsSpec OpsProofs OpsProofs2 OpsProofs3.
From Coq Require Import QArith_base Qreduction.
Local Open Scope Z_scope.

Ltac solve_int63 := apply int63_bounds; lia.
(** the parameters used in the examples *)
Definition ts0 : value -> list Z := fun _ => [].
Definition fm0 : list Z -> value -> result value := fun s _ => Ok (VStr s).

(** C11 *)
Theorem C11_arith : forall ts fm a b x y, is_int_value a x -> is_int_value b y ->
  (exists z, binary_op ts fm BAdd a b = Ok (VInt z) /\ wraps_to z (x + y)) /\
  (exists z, binary_op ts fm BSub a b = Ok (VInt z) /\ wraps_to z (x - y)) /\
  (exists z, binary_op ts fm BMul a b = Ok (VInt z) /\ wraps_to z (x * y)) /\
  (exists z, unary_op UNeg a = Ok (VInt z) /\ wraps_to z (- x)).
Proof.
  intros ts fm a b x y Ha Hb. rewrite (add_int _ _ _ _ _ _ Ha Hb), (sub_int _ _ _ _ _ _ Ha Hb), (mul_int _ _ _ _ _ _ Ha Hb), (neg_int _ _ Ha).
  repeat split; eexists; (split; [reflexivity|apply wraps_to_wrap63]).
Qed.
Print Assumptions C11_arith.
Theorem C11_exact : forall z m, is_int63 m -> (wraps_to z m <-> z = m).
Proof. intros z m Hm. rewrite wraps_to_unique. rewrite wrap63_id by exact Hm. tauto. Qed.
Print Assumptions C11_exact.
Example C11_ex : binary_op ts0 fm0 BMul (VInt (2 ^ 61)) (VInt 6) = Ok (VInt (-4611686018427387904))
  /\ binary_op ts0 fm0 BAdd (VInt (2 ^ 62 - 1)) (VBool true) = Ok (VInt (- 2 ^ 62))
  /\ unary_op UNeg (VInt (- 2 ^ 62)) = Ok (VInt (- 2 ^ 62)).
Proof. repeat split; reflexivity. Qed.

Theorem C11_laws : forall ts fm a b c x y z, is_int_value a x -> is_int_value b y -> is_int_value c z ->
  let add := binary_op ts fm BAdd in let mul := binary_op ts fm BMul in let sub := binary_op ts fm BSub in
  add a b = add b a /\ mul a b = mul b a /\
  (let? s := add a b in add s c) = (let? s := add b c in add a s) /\
  (let? s := mul a b in mul s c) = (let? s := mul b c in mul a s) /\
  (let? s := add b c in mul a s) = (let? p := mul a b in let? q := mul a c in add p q) /\
  (let? n := unary_op UNeg b in add a n) = sub a b /\
  (let? s := add a b in sub s b) = add a (VInt 0).
Proof.
  intros ts fm a b c x y z Ha Hb Hc add mul sub.
  assert (W : forall m, is_int_value (VInt (wrap63 m)) (wrap63 m)) by (intros m; left; split; [reflexivity|apply (proj1 (wraps_to_wrap63 m))]).
  assert (E : forall m m', (exists k, m = m' + k * 2 ^ 63) -> Ok (VInt (wrap63 m)) = Ok (VInt (wrap63 m'))).
  { intros m m' (k & Hk). do 2 f_equal. apply wraps_to_unique. destruct (wraps_to_wrap63 m) as [H1 (j & Hj)]. split; [exact H1|].
    exists (j + k). rewrite Hj, Hk. ring. }
  assert (K : forall m, exists k, wrap63 m = m + k * 2 ^ 63) by (intros m; apply (proj2 (wraps_to_wrap63 m))).
  unfold add, mul, sub.
  rewrite (add_int _ _ a b x y Ha Hb), (add_int _ _ b a y x Hb Ha), (add_int _ _ b c y z Hb Hc), (mul_int _ _ a b x y Ha Hb), (mul_int _ _ b a y x Hb Ha),
    (mul_int _ _ b c y z Hb Hc), (mul_int _ _ a c x z Ha Hc), (neg_int _ _ Hb), (sub_int _ _ a b x y Ha Hb).
  cbn [bind].
  rewrite (add_int _ _ _ _ _ _ (W (x + y)) Hc), (add_int _ _ _ _ _ _ Ha (W (y + z))), (mul_int _ _ _ _ _ _ (W (x * y)) Hc), (mul_int _ _ _ _ _ _ Ha (W (y * z))),
    (mul_int _ _ _ _ _ _ Ha (W (y + z))), (add_int _ _ _ _ _ _ (W (x * y)) (W (x * z))), (add_int _ _ _ _ _ _ Ha (W (- y))), (sub_int _ _ _ _ _ _ (W (x + y)) Hb),
    (add_int _ _ a (VInt 0) x 0 Ha) by (left; split; [reflexivity|solve_int63]).
  destruct (K (x + y)) as (k1 & E1), (K (y + z)) as (k2 & E2), (K (x * y)) as (k3 & E3), (K (y * z)) as (k4 & E4), (K (x * z)) as (k5 & E5), (K (- y)) as (k6 & E6).
  split; [do 3 f_equal; ring|]. split; [do 3 f_equal; ring|].
  rewrite E2, E4, E5, E6. rewrite ?E1, ?E3.
  split; [apply E; exists (k1 - k2); ring|]. split; [apply E; exists (k3 * z - k4 * x); ring|].
  split; [apply E; exists (x * k2 - k3 - k5); ring|]. split; [apply E; exists k6; ring|].
  apply E. exists k1. ring.
Qed.
Print Assumptions C11_laws.
Example C11_laws_ex : is_int_value (VInt 5) 5 /\ is_int_value (VBool true) 1 /\ is_int_value (VInt (- 2 ^ 62)) (- 2 ^ 62).
Proof. repeat split; unfold is_int_value; [left|right; left|left]; (split; [reflexivity|]); try reflexivity; apply int63_bounds; cbv; split; congruence. Qed.

(** C12 *)
Theorem C12_division : forall ts fm a b x y, is_int_value a x -> is_int_value b y ->
  (y = 0 -> binary_op ts fm BDiv a b = Err ValueErrorDivideByZero /\ binary_op ts fm BMod a b = Err ValueErrorModuloByZero) /\
  (y <> 0 -> exists q r, binary_op ts fm BDiv a b = Ok (VInt q) /\ binary_op ts fm BMod a b = Ok (VInt r) /\
     wraps_to x (q * y + r) /\
     (0 < y -> 0 <= r < y) /\ (y < 0 -> y < r <= 0) /\
     (~ (x = - 2 ^ 62 /\ y = -1) -> q * y + r = x)).
Proof.
  intros ts fm a b x y Ha Hb. rewrite (div_int ts fm a b x y Ha Hb), (mod_int ts fm a b x y Ha Hb).
  pose proof (int_value_opt _ _ Ha) as [_ Hx]. pose proof (int_value_opt _ _ Hb) as [_ Hy]. split.
  - intros ->. split; reflexivity.
  - intros Hn. replace (y =? 0) with false by lia. exists (wrap63 (x / y)), (x mod y). split; [reflexivity|]. split; [reflexivity|].
    pose proof (Z.div_mod x y Hn) as HD. split; [|split; [|split]].
    + split; [exact Hx|]. destruct (wraps_to_wrap63 (x / y)) as [_ (k & Hk)]. exists (- k * y). rewrite Hk. rewrite HD at 1. ring.
    + intros Hp. apply Z.mod_pos_bound. exact Hp.
    + intros Hp. apply Z.mod_neg_bound. exact Hp.
    + intros Hm. rewrite wrap63_id; [rewrite HD at 3; ring|]. apply div_in_range; [assumption..|]. exact Hm.
Qed.
Print Assumptions C12_division.
Example C12_ex : binary_op ts0 fm0 BDiv (VInt (-7)) (VInt 2) = Ok (VInt (-4)) /\ binary_op ts0 fm0 BMod (VInt (-7)) (VInt 2) = Ok (VInt 1)
  /\ binary_op ts0 fm0 BMod (VInt 7) (VInt (-2)) = Ok (VInt (-1)) /\ binary_op ts0 fm0 BDiv (VInt (- 2 ^ 62)) (VInt (-1)) = Ok (VInt (- 2 ^ 62)).
Proof. repeat split; reflexivity. Qed.

(** C13 *)
Theorem C13_pow_partial : forall ts fm a b x n, is_int_value a x -> is_int_value b n ->
  (n < 0 -> binary_op ts fm BPow a b = Err (ValueErrorPowerByNegative n)) /\
  (0 <= n < 2 ^ 32 -> exists z, binary_op ts fm BPow a b = Ok (VInt z) /\ wraps_to z (x ^ n)).
Proof.
  intros ts fm a b x n Ha Hb. destruct (pow_int ts fm a b x n Ha Hb) as [H1 H2]. split; [exact H1|].
  intros H. rewrite (H2 H). eexists. split; [reflexivity|apply wraps_to_wrap63].
Qed.
Print Assumptions C13_pow_partial.
Example C13_pow_ex : binary_op ts0 fm0 BPow (VInt 3) (VInt 5) = Ok (VInt 243) /\ binary_op ts0 fm0 BPow (VInt 2) (VInt 62) = Ok (VInt (- 2 ^ 62)).
Proof. split; reflexivity. Qed.
Theorem C13_shift_partial : forall ts fm a b x n, is_int_value a x -> is_int_value b n -> -64 < n < 64 ->
  let left := binary_op ts fm BLeftShift a b in let right := binary_op ts fm BRightShift a b in
  (0 <= n -> (exists z, left = Ok (VInt z) /\ wraps_to z (x * 2 ^ n)) /\ right = Ok (VInt (x / 2 ^ n))) /\
  (n < 0 -> left = Ok (VInt (x / 2 ^ (- n))) /\ (exists z, right = Ok (VInt z) /\ wraps_to z (x * 2 ^ (- n)))).
Proof.
  intros ts fm a b x n Ha Hb Hn l r. destruct (shift_int ts fm a b x n Ha Hb Hn) as [H1 H2]. unfold l, r. split; intros H.
  - destruct (H1 H) as [-> ->]. split; [eexists; split; [reflexivity|apply wraps_to_wrap63]|reflexivity].
  - destruct (H2 H) as [-> ->]. split; [reflexivity|eexists; split; [reflexivity|apply wraps_to_wrap63]].
Qed.
Print Assumptions C13_shift_partial.
Example C13_shift_ex : binary_op ts0 fm0 BLeftShift (VInt 3) (VInt 61) = Ok (VInt (-2305843009213693952)) /\
  binary_op ts0 fm0 BRightShift (VInt (-5)) (VInt 1) = Ok (VInt (-3)) /\ binary_op ts0 fm0 BLeftShift (VInt (-5)) (VInt (-1)) = Ok (VInt (-3)).
Proof. repeat split; reflexivity. Qed.
Lemma pow2_even n : 0 < n -> exists m, 2 ^ n = 2 * m.
Proof. intros H. exists (2 ^ (n - 1)). rewrite <- Z.pow_succ_r by lia. f_equal. lia. Qed.
(** the exponent is truncated to 32 bits: 2 ** 2^32 is 1 *)
Theorem C13_pow_refuted : ~ (forall ts fm x n, is_int63 x -> is_int63 n -> 0 <= n ->
   exists z, binary_op ts fm BPow (VInt x) (VInt n) = Ok (VInt z) /\ wraps_to z (x ^ n)).
Proof.
  intros H. destruct (H ts0 fm0 2 (2 ^ 32)) as (z & E & [_ (k & Hk)]); [solve_int63|apply int63_bounds; vm_compute; split; congruence|discriminate|].
  vm_compute in E. injection E as <-.
  destruct (pow2_even (2 ^ 32) ltac:(reflexivity)) as (m & Hm). rewrite Hm in Hk. clear Hm. change (2 ^ 63) with (2 * 2 ^ 62) in Hk. lia.
Qed.
Print Assumptions C13_pow_refuted.
(** the shift amount is masked to 6 bits: 1 << 64 is 1 *)
Theorem C13_shift_refuted : ~ (forall ts fm x n, is_int63 x -> is_int63 n -> 0 <= n ->
   exists z, binary_op ts fm BLeftShift (VInt x) (VInt n) = Ok (VInt z) /\ wraps_to z (x * 2 ^ n)).
Proof.
  intros H. destruct (H ts0 fm0 1 64) as (z & E & [_ (k & Hk)]); [solve_int63|solve_int63|lia|].
  vm_compute in E. injection E as <-. change (2 ^ 64) with (2 * 2 ^ 63) in Hk. change (2 ^ 63) with (2 * 2 ^ 62) in Hk. lia.
Qed.
Print Assumptions C13_shift_refuted.
(** and 5 >> 64 is 5, not 0 *)
Theorem C13_right_shift_refuted : ~ (forall ts fm x n, is_int63 x -> is_int63 n -> 0 <= n ->
   binary_op ts fm BRightShift (VInt x) (VInt n) = Ok (VInt (x / 2 ^ n))).
Proof. intros H. specialize (H ts0 fm0 5 64). vm_compute in H. assert (X : is_int63 5) by solve_int63. assert (Y : is_int63 64) by solve_int63.
  specialize (H X Y ltac:(discriminate)). discriminate. Qed.
Print Assumptions C13_right_shift_refuted.

(** C14 *)
Theorem C14_bitwise : forall ts fm o fb a b x y, is_int_value a x -> is_int_value b y ->
  (o = BAnd /\ fb = andb \/ o = BOr /\ fb = orb \/ o = BXor /\ fb = xorb) ->
  (forall p q, a = VBool p -> b = VBool q -> binary_op ts fm o a b = Ok (VBool (fb p q))) /\
  ((forall p q, a = VBool p -> b = VBool q -> False) ->
   exists z, binary_op ts fm o a b = Ok (VInt z) /\ is_int63 z /\
     forall n, 0 <= n -> Z.testbit z n = fb (Z.testbit x n) (Z.testbit y n)).
Proof. exact bitwise_spec. Qed.
Print Assumptions C14_bitwise.
Theorem C14_not : (forall x, is_int63 x -> exists z, unary_op UNot (VInt x) = Ok (VInt z) /\ is_int63 z /\
    forall n, 0 <= n -> Z.testbit z n = negb (Z.testbit x n)) /\
  (forall b, unary_op UNot (VBool b) = Ok (VBool (negb b))).
Proof. split; [intros x Hx; exact (not_spec (VInt x) x Hx eq_refl)|reflexivity]. Qed.
Print Assumptions C14_not.
Theorem C14_de_morgan : forall ts fm x y, is_int63 x -> is_int63 y ->
  (let? z := binary_op ts fm BAnd (VInt x) (VInt y) in unary_op UNot z) =
  (let? p := unary_op UNot (VInt x) in let? q := unary_op UNot (VInt y) in binary_op ts fm BOr p q) /\
  (let? z := binary_op ts fm BOr (VInt x) (VInt y) in unary_op UNot z) =
  (let? p := unary_op UNot (VInt x) in let? q := unary_op UNot (VInt y) in binary_op ts fm BAnd p q) /\
  (let? p := unary_op UNot (VInt x) in unary_op UNot p) = Ok (VInt x).
Proof.
  intros ts fm x y Hx Hy.
  assert (I : forall z, is_int63 z -> is_int_value (VInt z) z) by (intros z Hz; left; split; [reflexivity|exact Hz]).
  assert (B : forall (p q : bool) (c d : Z), VInt c = VBool p -> VInt d = VBool q -> False) by discriminate.
  destruct (proj1 C14_not x Hx) as (nx & Ex & Hnx & Bx). destruct (proj1 C14_not y Hy) as (ny & Ey & Hny & By).
  destruct (proj2 (C14_bitwise ts fm BAnd andb _ _ _ _ (I x Hx) (I y Hy) ltac:(tauto)) ltac:(discriminate)) as (w & Ew & Hw & Bw).
  destruct (proj2 (C14_bitwise ts fm BOr orb _ _ _ _ (I x Hx) (I y Hy) ltac:(tauto)) ltac:(discriminate)) as (o & Eo & Ho & Bo).
  destruct (proj2 (C14_bitwise ts fm BAnd andb _ _ _ _ (I nx Hnx) (I ny Hny) ltac:(tauto)) ltac:(discriminate)) as (w' & Ew' & Hw' & Bw').
  destruct (proj2 (C14_bitwise ts fm BOr orb _ _ _ _ (I nx Hnx) (I ny Hny) ltac:(tauto)) ltac:(discriminate)) as (o' & Eo' & Ho' & Bo').
  destruct (proj1 C14_not w Hw) as (nw & Enw & _ & Bnw). destruct (proj1 C14_not o Ho) as (no & Eno & _ & Bno).
  destruct (proj1 C14_not nx Hnx) as (nnx & Ennx & _ & Bnnx).
  rewrite Ew, Eo, Ex, Ey. cbn [bind]. rewrite Enw, Eno, Ew', Eo', Ennx.
  assert (X : forall p q, (forall n, 0 <= n -> Z.testbit p n = Z.testbit q n) -> Ok (VInt p) = Ok (VInt q)).
  { intros p q H. do 2 f_equal. apply Z.bits_inj'. exact H. }
  repeat split; apply X; intros n Hn.
  - rewrite Bnw, Bw, Bo', Bx, By by exact Hn. apply negb_andb.
  - rewrite Bno, Bo, Bw', Bx, By by exact Hn. apply negb_orb.
  - rewrite Bnnx, Bx by exact Hn. apply negb_involutive.
Qed.
Print Assumptions C14_de_morgan.
Example C14_ex : binary_op ts0 fm0 BXor (VInt (-1)) (VInt 5) = Ok (VInt (-6)) /\ binary_op ts0 fm0 BAnd (VBool true) (VInt 3) = Ok (VInt 1)
  /\ binary_op ts0 fm0 BOr (VBool true) (VBool false) = Ok (VBool true).
Proof. repeat split; reflexivity. Qed.

(** C15 *)
Theorem C15_ring : forall ts fm a b r1 i1 r2 i2, complex_operand a r1 i1 -> complex_operand b r2 i2 ->
  (exists v, binary_op ts fm BAdd a b = Ok v /\ is_complex_value v (r1 + r2) (i1 + i2)) /\
  (exists v, binary_op ts fm BSub a b = Ok v /\ is_complex_value v (r1 - r2) (i1 - i2)) /\
  (exists v, binary_op ts fm BMul a b = Ok v /\ is_complex_value v (r1 * r2 - i1 * i2) (r1 * i2 + i1 * r2)) /\
  (exists v, unary_op UNeg a = Ok v /\ is_complex_value v (- r1) (- i1)) /\
  (i1 <> 0 -> exists v, unary_op UNot a = Ok v /\ is_complex_value v r1 (- i1)).
Proof.
  intros ts fm a b r1 i1 r2 i2 Ha Hb. split; [apply add_complex; assumption|]. split; [apply sub_complex; assumption|].
  split; [apply mul_complex; assumption|]. split; [apply neg_complex; assumption|].
  intros H. destruct Ha as [[_ ->]|[-> (H1 & H2 & H3)]]; [contradiction|]. apply conj_complex; assumption.
Qed.
Print Assumptions C15_ring.
Theorem C15_pow_partial : forall ts fm r i b n, is_i64 r -> is_i64 i -> i <> 0 -> is_int_value b n ->
  (n < 0 -> binary_op ts fm BPow (VComplex r i) b = Err (ValueErrorPowerByNegative n)) /\
  (0 <= n < 2 ^ 32 -> exists v, binary_op ts fm BPow (VComplex r i) b = Ok v /\
     is_complex_value v (fst (gpow r i (Z.to_nat n))) (snd (gpow r i (Z.to_nat n)))).
Proof. exact pow_complex. Qed.
Print Assumptions C15_pow_partial.
Theorem C15_division_partial : forall ts fm a b r1 i1 r2 i2, complex_operand a r1 i1 -> complex_operand b r2 i2 ->
  tiny r1 -> tiny i1 -> tiny r2 -> tiny i2 ->
  let n := r2 * r2 + i2 * i2 in
  (r2 = 0 -> i2 = 0 -> binary_op ts fm BDiv a b = Err ValueErrorDivideByZero) /\
  ((r2 <> 0 \/ i2 <> 0) -> exists v, binary_op ts fm BDiv a b = Ok v /\
     is_complex_value v ((r1 * r2 + i1 * i2) / n) ((i1 * r2 - r1 * i2) / n)).
Proof. exact div_complex. Qed.
Print Assumptions C15_division_partial.
Example C15_ex : binary_op ts0 fm0 BMul (VComplex 1 2) (VComplex 1 (-2)) = Ok (VInt 5) /\ binary_op ts0 fm0 BPow (VComplex 0 1) (VInt 2) = Ok (VInt (-1))
  /\ binary_op ts0 fm0 BDiv (VComplex 7 3) (VComplex 1 1) = Ok (VComplex 5 (-2)) /\ complex_operand (VComplex 7 3) 7 3 /\ tiny 7.
Proof. repeat split; try reflexivity; try (right; split; [reflexivity|]; repeat split; try (apply i64_bounds; lia); lia); unfold tiny; lia. Qed.
(** (1i) / (2^32 i): the norm 2^64 wraps to 0 and a "division by zero" error is reported *)
Theorem C15_division_refuted : ~ (forall ts fm a b r1 i1 r2 i2, complex_operand a r1 i1 -> complex_operand b r2 i2 ->
  (r2 <> 0 \/ i2 <> 0) -> exists v, binary_op ts fm BDiv a b = Ok v).
Proof.
  intros H. destruct (H ts0 fm0 (VComplex 0 1) (VComplex 0 4294967296) 0 1 0 4294967296) as (v & E).
  - right. split; [reflexivity|]. repeat split; try (apply i64_bounds; lia); lia.
  - right. split; [reflexivity|]. repeat split; try (apply i64_bounds; lia); lia.
  - lia.
  - vm_compute in E. discriminate.
Qed.
Print Assumptions C15_division_refuted.

(** C21: the operators *)
Theorem C21_operators : forall ts fm l r, wf (VSet l) -> wf (VSet r) ->
  (exists o, binary_op ts fm BSub (VSet l) (VSet r) = Ok (VSet o) /\ wf (VSet o) /\ sublist o l /\
     forall x, wf x -> (mem x o <-> mem x l /\ ~ mem x r)) /\
  (exists o, binary_op ts fm BAnd (VSet l) (VSet r) = Ok (VSet o) /\ wf (VSet o) /\ sublist o l /\
     forall x, wf x -> (mem x o <-> mem x l /\ mem x r)) /\
  (exists o, binary_op ts fm BOr (VSet l) (VSet r) = Ok (VSet o) /\ wf (VSet o) /\ (exists r', o = l ++ r' /\ sublist r' r) /\
     forall x, wf x -> (mem x o <-> mem x l \/ mem x r)) /\
  (exists o, binary_op ts fm BXor (VSet l) (VSet r) = Ok (VSet o) /\ wf (VSet o) /\ (exists l' r', o = l' ++ r' /\ sublist l' l /\ sublist r' r) /\
     forall x, wf x -> (mem x o <-> (mem x l /\ ~ mem x r) \/ (mem x r /\ ~ mem x l))).
Proof. exact set_ops. Qed.
Print Assumptions C21_operators.
Example C21_ex : binary_op ts0 fm0 BXor (VSet [VInt 1; VInt 2; VInt 3]) (VSet [VInt 4; VInt 3]) = Ok (VSet [VInt 1; VInt 2; VInt 4]).
Proof. vm_compute. reflexivity. Qed.

(** C53.  [collected f n r]: r is the vector of f 0 .. f (n-1), or the first error among them *)
Theorem C53_elementwise : forall ts fm o l r, vector_op o = true ->
  collected (fun i => binary_op ts fm o (nth i l VNil) (nth i r VNil)) (Nat.min (length l) (length r))
    (binary_op ts fm o (VVector l) (VVector r)).
Proof. exact vec_vec. Qed.
Print Assumptions C53_elementwise.
Theorem C53_broadcast : forall ts fm o l b, vector_op o = true -> not_vector b -> not_str b ->
  collected (fun i => binary_op ts fm o (nth i l VNil) b) (length l) (binary_op ts fm o (VVector l) b) /\
  collected (fun i => binary_op ts fm o b (nth i l VNil)) (length l) (binary_op ts fm o b (VVector l)).
Proof. intros. split; [apply vec_scalar|apply scalar_vec]; assumption. Qed.
Print Assumptions C53_broadcast.
Example C53_ex : binary_op ts0 fm0 BMul (VVector [VInt 2; VVector [VInt 3; VInt 4]]) (VVector [VInt 10; VVector [VInt 5; VInt 6]])
   = Ok (VVector [VInt 20; VVector [VInt 15; VInt 24]])
  /\ binary_op ts0 fm0 BDiv (VInt 12) (VVector [VInt 3; VInt 0; VNil]) = Err ValueErrorDivideByZero.
Proof. split; reflexivity. Qed.

(** C55 *)
Theorem C55_rational : forall ts fm a b p q, rational_operand a p -> rational_operand b q -> has_rational a b ->
  let exact o r := exists n d, binary_op ts fm o a b = Ok (VRational n d) /\ (n # d == r)%Q /\ Z.gcd n (Zpos d) = 1 in
  exact BAdd (p + q)%Q /\ exact BSub (p - q)%Q /\ exact BMul (p * q)%Q /\
  (q == 0 -> binary_op ts fm BDiv a b = Err ValueErrorDivideByZero)%Q /\
  (~ q == 0 -> exact BDiv (p / q))%Q.
Proof.
  intros ts fm a b p q Ha Hb Hr ex. destruct (arith_rational ts fm a b p q Ha Hb Hr) as (H1 & H2 & H3 & H4 & H5).
  assert (E : forall o r, binary_op ts fm o a b = Ok (of_rational r) -> ex o r).
  { intros o r Ho. destruct (of_rational_spec r) as (n & d & E & Hv & Hg). exists n, d. rewrite Ho, E. auto. }
  assert (Z0 : (q == 0)%Q <-> Qnum q = 0) by (unfold Qeq; cbn; lia).
  split; [apply E, H1|]. split; [apply E, H2|]. split; [apply E, H3|]. split.
  - intros Hz. apply H4, Z0, Hz.
  - intros Hz. apply E, H5. rewrite <- Z0. exact Hz.
Qed.
Print Assumptions C55_rational.
Example C55_ex : binary_op ts0 fm0 BAdd (VRational 1 6) (VRational 1 3) = Ok (VRational 1 2) /\ binary_op ts0 fm0 BMul (VRational 1 2) (VInt 2) = Ok (VRational 1 1).
Proof. split; reflexivity. Qed.

(** C56 *)
Theorem C56_well_formed : forall ts fm, (forall v c, wf v -> In c (ts v) -> is_char c) ->
  (forall s v x, wf (VStr s) -> wf v -> fm s v = Ok x -> wf x) ->
  (forall o a b v, wf a -> wf b -> binary_op ts fm o a b = Ok v -> wf v) /\
  (forall o a v, wf a -> unary_op o a = Ok v -> wf v).
Proof.
  intros ts fm Hts Hfm. split.
  - intros o a b v Ha Hb E. pose proof (binary_good True ts fm o a b Hts) as H. rewrite E in H. apply H; auto.
    intros s x H1 H2. destruct (fm s x) eqn:E2; cbn; auto. eapply Hfm; eassumption.
  - intros o a v Ha E. pose proof (unary_good True o a Ha) as H. rewrite E in H. exact H.
Qed.
Print Assumptions C56_well_formed.
Theorem C56_no_crash_partial : forall ts fm, (forall v c, wf v -> In c (ts v) -> is_char c) ->
  (forall s v, wf (VStr s) -> wf v -> fm s v <> Panic /\ forall x, fm s v = Ok x -> wf x) ->
  (forall o a b, wf a -> wf b -> tame a -> binary_op ts fm o a b <> Panic) /\
  (forall o a, wf a -> unary_op o a <> Panic).
Proof.
  intros ts fm Hts Hfm. split.
  - intros o a b Ha Hb Ht E. pose proof (binary_good False ts fm o a b Hts) as H. rewrite E in H. apply H; auto.
    intros s x H1 H2. destruct (Hfm s x H1 H2) as [H3 H4]. destruct (fm s x) eqn:E2; cbn; auto.
  - intros o a Ha E. pose proof (unary_good False o a Ha) as H. rewrite E in H. exact H.
Qed.
Print Assumptions C56_no_crash_partial.
Example C56_ex : wf (VVector [VComplex 1 2; VInt 3]) /\ tame (VVector [VComplex 1 2; VInt 3]).
Proof.
  split.
  - apply wf_vector. intros x [<-|[<-|[]]]; [apply wf_complex; try (apply i64_bounds; lia); lia|apply wf_int; solve_int63].
  - apply tame_vector. intros x [<-|[<-|[]]]; [apply tame_complex; lia|apply tame_other; exact I].
Qed.
(** the complex number with real part -2^63 (reachable: 2^62 * 2i wraps) modulo -1; rational zero to a negative power *)
Theorem C56_no_crash_refuted :
  (exists a b, wf a /\ wf b /\ forall ts fm, binary_op ts fm BMod a b = Panic) /\
  (exists a b, wf a /\ wf b /\ forall ts fm, binary_op ts fm BPow a b = Panic).
Proof.
  split.
  - exists (VComplex (- 2 ^ 63) 1), (VInt (-1)).
    split; [apply wf_complex; try (apply i64_bounds; change (2 ^ 63) with 9223372036854775808; lia); lia|].
    split; [apply wf_int; solve_int63|]. intros ts fm. vm_compute. reflexivity.
  - exists (VRational 0 1), (VInt (-1)). split; [apply wf_rational; reflexivity|]. split; [apply wf_int; solve_int63|].
    intros ts fm. vm_compute. reflexivity.
Qed.
Print Assumptions C56_no_crash_refuted.

(** C57 *)
Theorem C57_in : forall ts fm a b, let isin P := (binary_op ts fm BIn a b = Ok (VBool true) <-> P) /\ (binary_op ts fm BNotIn a b = Ok (VBool true) <-> ~ P)
     /\ exists c, binary_op ts fm BIn a b = Ok (VBool c) /\ binary_op ts fm BNotIn a b = Ok (VBool (negb c)) in
  (forall l, b = VList l \/ b = VVector l \/ b = VHeap l -> isin (exists x, In x l /\ value_eq x a = true)) /\
  (forall l, b = VSet l -> isin (mem a l)) /\
  (forall l, b = VDict l -> isin (mem a (map fst l))) /\
  (forall n h, a = VStr n -> b = VStr h -> isin (exists p t, h = p ++ n ++ t)).
Proof.
  intros ts fm a b isin.
  assert (G : forall (c : bool) (P : Prop), binary_op ts fm BIn a b = Ok (VBool (negb (Bool.eqb c false))) ->
     binary_op ts fm BNotIn a b = Ok (VBool (negb (Bool.eqb c true))) -> (c = true <-> P) -> isin P).
  { intros c P H1 H2 H3. unfold isin. rewrite H1, H2. destruct c; cbn.
    - assert (HP : P) by tauto. split; [tauto|]. split; [|exists true; auto]. split; [discriminate|]. intros Hn. contradiction.
    - assert (HP : ~ P) by (intros HP; apply H3 in HP; discriminate).
      split; [split; [discriminate|intros Hq; contradiction]|]. split; [tauto|exists false; auto]. }
  assert (EX : forall (f : value -> bool) l, existsb f l = true <-> exists x, In x l /\ f x = true) by (intros; apply existsb_exists).
  split; [|split; [|split]].
  - intros l H. apply (G (existsb (fun e => value_eq e a) l)); [| |apply EX];
      destruct H as [->|[->| ->]]; destruct a; reflexivity.
  - intros l ->. apply (G (set_mem a l)); [destruct a; reflexivity..|apply set_mem_spec].
  - intros l ->. apply (G (existsb (fun p => key_match a (fst p)) l)); [destruct a; reflexivity..|].
    rewrite existsb_exists. unfold mem. split.
    + intros (p & Hp & Hk). exists (fst p). split; [apply in_map, Hp|exact Hk].
    + intros (y & Hy & Hk). apply in_map_iff in Hy. destruct Hy as (p & <- & Hp). exists p. auto.
  - intros n h -> ->. apply (G (str_contains h n)); [reflexivity..|apply str_contains_spec].
Qed.
Print Assumptions C57_in.
Example C57_ex : binary_op ts0 fm0 BIn (VStr [98; 99]) (VStr [97; 98; 99]) = Ok (VBool true)
  /\ binary_op ts0 fm0 BNotIn (VInt 3) (VSet [VInt 1; VInt 3]) = Ok (VBool false)
  /\ binary_op ts0 fm0 BIn (VRational 3 1) (VList [VInt 1; VInt 3]) = Ok (VBool true).
Proof. vm_compute. repeat split. Qed.

(** C58 *)
Theorem C58_str_repeat : forall ts fm s i, is_int63 i ->
  binary_op ts fm BMul (VStr s) (VInt i) = binary_op ts fm BMul (VInt i) (VStr s) /\
  binary_op ts fm BMul (VStr s) (VInt i) =
    if i <? 0 then Err (ValueErrorBinaryOpMustNotBeNegative (VStr s) BMul i) else Ok (VStr (concat (repeat s (Z.to_nat i)))).
Proof. intros ts fm s i Hi. split; [reflexivity|]. cbn. unfold binary_str_repeat. rewrite repeat_str_spec. reflexivity. Qed.
Print Assumptions C58_str_repeat.
Theorem C58_list_repeat_partial : forall ts fm l i, is_int63 i -> i * Z.of_nat (length l) < 2 ^ 64 ->
  binary_op ts fm BMul (VList l) (VInt i) = binary_op ts fm BMul (VInt i) (VList l) /\
  binary_op ts fm BMul (VList l) (VInt i) =
    if i <? 0 then Err (ValueErrorBinaryOpMustNotBeNegative (VList l) BMul i) else Ok (VList (concat (repeat l (Z.to_nat i)))).
Proof. intros ts fm l i Hi Hs. split; [reflexivity|]. exact (list_repeat l i false Hi Hs). Qed.
Print Assumptions C58_list_repeat_partial.
Example C58_ex : binary_op ts0 fm0 BMul (VInt 3) (VList [VInt 1; VNil]) = Ok (VList [VInt 1; VNil; VInt 1; VNil; VInt 1; VNil]).
Proof. reflexivity. Qed.
(** the element count is computed modulo 2^64: eight elements times 2^61 is the empty list *)
Theorem C58_list_repeat_refuted : ~ (forall ts fm l i, is_int63 i -> 0 <= i ->
  exists l', binary_op ts fm BMul (VList l) (VInt i) = Ok (VList l') /\ Z.of_nat (length l') = i * Z.of_nat (length l)).
Proof.
  intros H. destruct (H ts0 fm0 (repeat VNil 8) (2 ^ 61)) as (l' & E & Hl); [apply int63_bounds; vm_compute; split; congruence|lia|].
  vm_compute in E. injection E as <-. cbn in Hl. lia.
Qed.
Print Assumptions C58_list_repeat_refuted.

(** C59 *)
Theorem C59_max_min : forall ts fm a b, 
  binary_op ts fm BMax a b = Ok (if vgt a b then a else b) /\ binary_op ts fm BMin a b = Ok (if vgt a b then b else a).
Proof. intros ts fm a b. unfold vgt. cbn. destruct (value_cmp a b); split; reflexivity. Qed.
Print Assumptions C59_max_min.
Theorem C59_max_min_bounds : forall ts fm k a b, wf a /\ of_kind k a -> wf b /\ of_kind k b ->
  exists m n, binary_op ts fm BMax a b = Ok m /\ binary_op ts fm BMin a b = Ok n /\ (m = a /\ n = b \/ m = b /\ n = a) /\
    vle a m = true /\ vle b m = true /\ vle n a = true /\ vle n b = true.
Proof.
  intros ts fm k a b Ha Hb. destruct (C59_max_min ts fm a b) as [-> ->]. eexists _, _. split; [reflexivity|]. split; [reflexivity|].
  destruct (kind_order k a b b Ha Hb Hb) as (_ & Hba & _). destruct (kind_order k a a b Ha Ha Hb) as (Ea & _). destruct (kind_order k b b b Hb Hb Hb) as (Eb & _).
  assert (Ra : vle a a = true) by (unfold vle; rewrite (proj2 Ea); [reflexivity|apply value_eq_refl, Ha]).
  assert (Rb : vle b b = true) by (unfold vle; rewrite (proj2 Eb); [reflexivity|apply value_eq_refl, Hb]).
  unfold vgt. destruct (value_cmp a b) eqn:E; cbn in Hba; (split; [tauto|]); repeat split; try assumption; unfold vle; rewrite ?E, ?Hba; reflexivity.
Qed.
Print Assumptions C59_max_min_bounds.
Example C59_ex : binary_op ts0 fm0 BMax (VInt 1) (VBool true) = Ok (VInt 1) /\ binary_op ts0 fm0 BMin (VStr [97]) (VStr [98]) = Ok (VStr [97]).
Proof. split; reflexivity. Qed.
