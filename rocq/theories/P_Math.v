(** C62, C63, C64, C65: mathematical builtins. *)
From Verif Require Import Base BaseProofs Native Value Err Ops OpsSpec IterProofs OpsProofs OpsProofs2 Str Math.
From Coq Require Import QArith_base QArith.Qabs Qreduction Qround Znumtheory.
From Coq Require Qcanon.
Local Open Scope Z_scope.

(** ** C62: gcd and lcm *)
(** [g] is the greatest common divisor of the integers [xs], in the order of divisibility *)
Definition is_gcd (g : Z) (xs : list Z) : Prop :=
  0 <= g /\ (forall x, In x xs -> (g | x)) /\ (forall d, (forall x, In x xs -> (d | x)) -> (d | g)).
(** [m] is the least common multiple of [xs] *)
Definition is_lcm (m : Z) (xs : list Z) : Prop :=
  0 <= m /\ (forall x, In x xs -> (x | m)) /\ (forall k, (forall x, In x xs -> (x | k)) -> (m | k)).

Lemma gcd_app_def g xs x : is_gcd g xs -> is_gcd (Z.gcd g x) (xs ++ [x]).
Proof.
  intros (A & B & C). split; [apply Z.gcd_nonneg|]. split.
  - intros y Hy. apply in_app_or in Hy. destruct Hy as [Hy|[<-|[]]].
    + eapply Z.divide_trans; [apply Z.gcd_divide_l|auto].
    + apply Z.gcd_divide_r.
  - intros d H. apply Z.gcd_greatest; [apply C; intros; apply H, in_or_app; auto|apply H, in_or_app; cbn; auto].
Qed.
Lemma lcm_app_def m xs x : is_lcm m xs -> is_lcm (Z.lcm m x) (xs ++ [x]).
Proof.
  intros (A & B & C). split; [apply Z.lcm_nonneg|]. split.
  - intros y Hy. apply in_app_or in Hy. destruct Hy as [Hy|[<-|[]]].
    + eapply Z.divide_trans; [apply B, Hy|apply Z.divide_lcm_l].
    + apply Z.divide_lcm_r.
  - intros d H. apply Z.lcm_least; [apply C; intros; apply H, in_or_app; auto|apply H, in_or_app; cbn; auto].
Qed.
Lemma gcd_unique g g' xs : is_gcd g xs -> is_gcd g' xs -> g = g'.
Proof. intros (A & B & C) (A' & B' & C'). apply Z.divide_antisym_nonneg; auto. Qed.
Lemma lcm_unique g g' xs : is_lcm g xs -> is_lcm g' xs -> g = g'.
Proof. intros (A & B & C) (A' & B' & C'). apply Z.divide_antisym_nonneg; auto. Qed.
Lemma int_value_checked v x : is_int_value v x -> as_int_checked v = Ok x.
Proof. intros [[-> _]|[[-> ->]|[-> ->]]]; reflexivity. Qed.
Lemma int_value_63 v x : is_int_value v x -> is_int63 x.
Proof. unfold is_int63, MIN_INT, MAX_INT. intros [[_ H]|[[_ ->]|[_ ->]]]; [exact H|lia..]. Qed.
Local Notation go f := (fix go (l : list value) (acc : Z) : result Z :=
         match l with [] => Ok acc | x :: r => let? i := as_int_checked x in go r (f acc i) end).
Lemma go_gcd l xs : Forall2 is_int_value l xs -> forall ys g, is_gcd g ys -> 0 <= g <= 2 ^ 62 ->
  exists g', go gcd64 l g = Ok g' /\ is_gcd g' (ys ++ xs) /\ 0 <= g' <= 2 ^ 62.
Proof.
  induction 1 as [|v x l xs Hv _ IH]; intros ys g G B.
  - exists g. rewrite app_nil_r. auto.
  - cbn. rewrite (int_value_checked v x Hv). cbn. pose proof (int_value_63 _ _ Hv) as X. unfold is_int63, MIN_INT, MAX_INT in X.
    assert (0 <= Z.gcd g x <= 2 ^ 62).
    { split; [apply Z.gcd_nonneg|]. destruct (Z.eq_dec g 0) as [->|N].
      - rewrite Z.gcd_0_l. lia.
      - pose proof (Z.divide_pos_le (Z.gcd g x) g ltac:(lia) (Z.gcd_divide_l g x)). lia. }
    unfold gcd64. rewrite i64_id by (apply i64_bounds; lia).
    destruct (IH (ys ++ [x]) (Z.gcd g x) (gcd_app_def _ _ _ G) H) as (g' & E & G' & B'). exists g'. rewrite <- app_assoc in G'. auto.
Qed.

(** gcd of two or more integers: the greatest common divisor, wrapped to 63 bits (it is
    out of range only if all arguments are 0 or -2^62) *)
Theorem C62_gcd : forall l xs g, Forall2 is_int_value l xs -> (2 <= length l)%nat -> is_gcd g xs ->
  exists z, gcd_all l = Ok (VInt z) /\ wraps_to z g.
Proof.
  intros l xs g F L G. destruct F as [|v x l xs Hv F]; [cbn in L; lia|]. destruct F as [|v2 y l xs Hv2 F]; [cbn in L; lia|].
  unfold gcd_all, fold_ints. rewrite (int_value_checked v x Hv). cbn [bind].
  pose proof (int_value_63 _ _ Hv) as X. pose proof (int_value_63 _ _ Hv2) as Y. unfold is_int63, MIN_INT, MAX_INT in X, Y.
  rewrite (int_value_checked v2 y Hv2). cbn [bind].
  assert (H : 0 <= Z.gcd x y <= 2 ^ 62).
  { split; [apply Z.gcd_nonneg|]. destruct (Z.eq_dec x 0) as [->|N].
    - rewrite Z.gcd_0_l. lia.
    - assert ((Z.gcd x y | Z.abs x)) as D by (apply Z.divide_abs_r, Z.gcd_divide_l). apply Z.divide_pos_le in D; lia. }
  unfold gcd64 at 2. rewrite i64_id by (apply i64_bounds; lia).
  destruct (go_gcd l xs F [x; y] (Z.gcd x y)) as (g' & E & G' & B); [|exact H|].
  { split; [apply Z.gcd_nonneg|]. split; [intros z [<-|[<-|[]]]; [apply Z.gcd_divide_l|apply Z.gcd_divide_r]|].
    intros d D. apply Z.gcd_greatest; apply D; cbn; auto. }
  rewrite E. cbn [bind]. exists (wrap63 g'). split; [reflexivity|]. rewrite (gcd_unique g g' (x :: y :: xs)); auto. apply wraps_to_wrap63.
Qed.
Print Assumptions C62_gcd.
Example C62_gcd_ex : gcd_all [VInt 12; VInt (-18); VBool false] = Ok (VInt 6) /\ is_gcd 6 [12; -18; 0].
Proof.
  split; [reflexivity|]. change 6 with (Z.gcd (Z.gcd 12 (-18)) 0). change [12; -18; 0] with (([12] ++ [-18]) ++ [0]). do 2 apply gcd_app_def.
  split; [lia|]. split; [intros x [<-|[]]; reflexivity|intros d H; apply H; left; reflexivity].
Qed.
(** one integer is returned as it is, whatever its sign; no argument, or an argument that is
    not an integer, is an error naming the first such argument *)
Theorem C62_arguments : forall f, f = gcd_all \/ f = lcm_all ->
  (forall v x, is_int_value v x -> f [v] = Ok (VInt x)) /\
  (f [] = Err (ValueErrorArgMustBeNonEmpty NF_Gcd) \/ f [] = Err (ValueErrorArgMustBeNonEmpty NF_Lcm)) /\
  (forall l v r, (forall u, In u l -> exists x, is_int_value u x) -> (forall b, v <> VBool b) -> (forall n, v <> VInt n) ->
     f (l ++ v :: r) = Err (TypeErrorArgMustBeInt v)).
Proof.
  assert (K : forall g name, (forall v x, is_int_value v x -> fold_ints g name [v] = Ok (VInt x)) /\
    forall l v r, (forall u, In u l -> exists x, is_int_value u x) -> (forall b, v <> VBool b) -> (forall n, v <> VInt n) -> fold_ints g name (l ++ v :: r) = Err (TypeErrorArgMustBeInt v)).
  { intros g name. split.
    - intros v x H. unfold fold_ints. rewrite (int_value_checked v x H). cbn. unfold of_int. now rewrite (wrap63_id x (int_value_63 _ _ H)).
    - intros l v r L N NI. assert (as_int_checked v = Err (TypeErrorArgMustBeInt v)) as E.
      { destruct v as [|b|n| | | | | | | | | | | | | | | | | | |]; try reflexivity.
        - now destruct (N b).
        - now destruct (NI n). }
      assert (forall l a, (forall u, In u l -> exists x, is_int_value u x) -> go g (l ++ v :: r) a = Err (TypeErrorArgMustBeInt v)) as G.
      { clear L l. induction l as [|u l IH]; intros a L; [cbn; now rewrite E|]. destruct (L u (or_introl eq_refl)) as [x X].
        cbn. rewrite (int_value_checked u x X). cbn. apply IH. intros; apply L; right; auto. }
      destruct l as [|u l]; unfold fold_ints; cbn [app]; [now rewrite E|]. destruct (L u (or_introl eq_refl)) as [x X]. rewrite (int_value_checked u x X). cbn [bind].
      rewrite G; [reflexivity|]. intros; apply L; right; auto. }
  intros f [->| ->]; unfold gcd_all, lcm_all; destruct (K gcd64 NF_Gcd) as [A B], (K lcm64 NF_Lcm) as [C D]; auto.
Qed.
Print Assumptions C62_arguments.
Example C62_arguments_ex : gcd_all [VInt (-4)] = Ok (VInt (-4)) /\ lcm_all [VInt 2; VNil; VStr []] = Err (TypeErrorArgMustBeInt VNil).
Proof. split; reflexivity. Qed.

Lemma lcm_zero_l xs : In 0 xs -> forall l, Forall2 is_int_value l xs -> forall a, go lcm64 l a = Ok 0.
Proof.
  assert (Z0 : forall l xs, Forall2 is_int_value l xs -> go lcm64 l 0 = Ok 0).
  { induction 1 as [|v x l ys Hv _ IH]; [reflexivity|]. cbn. rewrite (int_value_checked v x Hv). cbn.
    replace (lcm64 0 x) with 0; [exact IH|]. unfold lcm64. destruct (x =? 0); reflexivity. }
  intros H l F. induction F as [|v x l ys Hv F IH]; [destruct H|]. intro a. cbn. rewrite (int_value_checked v x Hv). cbn.
  destruct H as [->|H]; [|apply IH, H].
  replace (lcm64 a 0) with 0; [now apply (Z0 l ys)|]. unfold lcm64. destruct (a =? 0); [reflexivity|]. cbn [andb]. change (Z.quot 0 (gcd64 a 0)) with 0. rewrite Z.mul_0_r. reflexivity.
Qed.

Lemma lcm_small a b : a <> 0 -> b <> 0 -> Z.lcm a b <= MAX_INT -> Z.abs a <= MAX_INT -> lcm64 a b = Z.lcm a b.
Proof.
  intros A B L AB. unfold lcm64. destruct (Z.eqb_spec a 0) as [|_]; [contradiction|]. cbn [andb]. unfold MAX_INT in *. change (2 ^ 62) with 4611686018427387904 in *.
  assert (0 < Z.gcd a b) as GP. { pose proof (Z.gcd_nonneg a b). assert (Z.gcd a b <> 0) by (intro E; apply Z.gcd_eq_0_l in E; contradiction). lia. }
  assert (Z.gcd a b <= Z.abs a) as GA. { assert ((Z.gcd a b | Z.abs a)) as D by (apply Z.divide_abs_r, Z.gcd_divide_l). apply Z.divide_pos_le in D; lia. }
  unfold gcd64. rewrite (i64_id (Z.gcd a b)) by (apply i64_bounds; lia).
  destruct (Z.gcd_divide_r a b) as [k K]. assert (Z.quot b (Z.gcd a b) = k) as ->. { rewrite K at 1. apply Z.quot_mul. lia. }
  assert (Z.lcm a b = Z.abs (a * k)) as E. { unfold Z.lcm. f_equal. f_equal. rewrite K at 1. apply Z.div_mul. lia. }
  rewrite E in *. unfold abs64. rewrite (i64_id (a * k)) by (apply i64_bounds; lia). apply i64_id. apply i64_bounds. lia.
Qed.
Lemma go_lcm l xs : Forall2 is_int_value l xs -> ~ In 0 xs -> forall ys a m, is_lcm a ys -> 0 < a -> is_lcm m (ys ++ xs) -> 0 < m <= MAX_INT ->
  go lcm64 l a = Ok m.
Proof.
  induction 1 as [|v x l xs Hv _ IH]; intros N ys a m G A M B.
  - rewrite app_nil_r in M. cbn. now rewrite (lcm_unique _ _ ys G M).
  - cbn. rewrite (int_value_checked v x Hv). cbn.
    assert (x <> 0) as X by (intro E; apply N; left; auto).
    pose proof (lcm_app_def _ _ x G) as G'.
    assert ((Z.lcm a x | m)) as D. { apply G'. intros y Hy. apply M. apply in_app_or in Hy. apply in_or_app. destruct Hy as [|[<-|[]]]; [auto|right; left; auto]. }
    apply Z.divide_pos_le in D; [|lia].
    assert (0 < Z.lcm a x) as P. { pose proof (Z.lcm_nonneg a x). assert (Z.lcm a x <> 0) by (intro E; apply Z.lcm_eq_0 in E; lia). lia. }
    assert (a <= Z.lcm a x) as AB by (apply Z.divide_pos_le; [exact P|apply Z.divide_lcm_l]).
    rewrite lcm_small by lia. apply (IH ltac:(intro; apply N; right; auto) (ys ++ [x]) (Z.lcm a x) m); auto. now rewrite <- app_assoc.
Qed.
(** lcm of two or more integers: the least common multiple, whenever it is an int (at most 2^62 - 1) *)
Theorem C62_lcm : forall l xs m, Forall2 is_int_value l xs -> (2 <= length l)%nat -> is_lcm m xs -> m <= MAX_INT -> lcm_all l = Ok (VInt m).
Proof.
  intros l xs m F L M B. destruct F as [|v x l xs Hv F]; [cbn in L; lia|]. destruct F as [|v2 y l xs Hv2 F]; [cbn in L; lia|].
  unfold lcm_all, fold_ints. rewrite (int_value_checked v x Hv). cbn [bind].
  destruct (in_dec Z.eq_dec 0 (x :: y :: xs)) as [I|I].
  - assert (m = 0) as ->. { destruct M as (_ & M & _). destruct (M 0 I) as [k K]. lia. }
    destruct I as [->|I].
    + rewrite (int_value_checked v2 y Hv2). cbn [bind]. replace (lcm64 0 y) with 0 by (unfold lcm64; destruct (y =? 0); reflexivity).
      assert (Z0 : forall l xs, Forall2 is_int_value l xs -> go lcm64 l 0 = Ok 0).
      { induction 1 as [|v' z l' ys Hv' _ IH]; [reflexivity|]. cbn. rewrite (int_value_checked v' z Hv'). cbn.
        replace (lcm64 0 z) with 0; [exact IH|]. unfold lcm64. destruct (z =? 0); reflexivity. }
      rewrite (Z0 l xs F). reflexivity.
    + change (let? z := go lcm64 (v2 :: l) x in Ok (of_int z)) with (let? z := go lcm64 (v2 :: l) x in Ok (of_int z)).
      pose proof (lcm_zero_l (y :: xs) I (v2 :: l) (Forall2_cons _ _ Hv2 F) x) as E. cbn in E |- *. rewrite E. reflexivity.
  - rewrite (int_value_checked v2 y Hv2). cbn [bind].
    assert (x <> 0 /\ y <> 0) as [X Y] by (split; intro E; apply I; rewrite E; cbn; auto).
    assert (is_lcm (Z.lcm x y) [x; y]) as G.
    { split; [apply Z.lcm_nonneg|]. split; [intros z [<-|[<-|[]]]; [apply Z.divide_lcm_l|apply Z.divide_lcm_r]|]. intros d D. apply Z.lcm_least; apply D; cbn; auto. }
    assert (0 < m) as MP.
    { destruct M as (M0 & M1 & M2). destruct (Z.eq_dec m 0) as [->|]; [exfalso|lia].
      assert (forall zs, ~ In 0 zs -> exists k, k <> 0 /\ forall z, In z zs -> (z | k)) as PR.
      { induction zs as [|z zs IH]; intro N; [exists 1; split; [lia|intros ? []]|]. destruct IH as (k & K & H); [intro; apply N; right; auto|].
        exists (z * k). split; [apply Z.neq_mul_0; split; [intro; apply N; left; auto|auto]|]. intros w [<-|W]; [apply Z.divide_factor_l|apply Z.divide_mul_r, H, W]. }
      destruct (PR _ I) as (k & K & H). apply M2 in H. apply Z.divide_0_l in H. contradiction. }
    assert ((Z.lcm x y | m)) as D. { apply G. intros z Hz. apply M. destruct Hz as [<-|[<-|[]]]; cbn; auto. }
    apply Z.divide_pos_le in D; [|exact MP].
    assert (0 < Z.lcm x y) as P. { pose proof (Z.lcm_nonneg x y). assert (Z.lcm x y <> 0) by (intro E; apply Z.lcm_eq_0 in E; lia). lia. }
    assert (Z.abs x <= Z.lcm x y) as AB by (apply Z.divide_pos_le; [exact P|apply Z.divide_abs_l, Z.divide_lcm_l]).
    rewrite lcm_small by lia.
    rewrite (go_lcm l xs F ltac:(intro; apply I; cbn; auto) [x; y] (Z.lcm x y) m G P M ltac:(lia)). cbn [bind]. unfold of_int. rewrite wrap63_id; [reflexivity|].
    unfold is_int63, MIN_INT, MAX_INT in *. change (2 ^ 62) with 4611686018427387904 in *. lia.
Qed.
Print Assumptions C62_lcm.
Example C62_lcm_ex : lcm_all [VInt 4; VInt (-6); VBool true] = Ok (VInt 12) /\ is_lcm 12 [4; -6; 1].
Proof.
  split; [reflexivity|]. change 12 with (Z.lcm (Z.lcm 4 (-6)) 1). change [4; -6; 1] with (([4] ++ [-6]) ++ [1]). do 2 apply lcm_app_def.
  split; [lia|]. split; [intros x [<-|[]]; reflexivity|intros d H; apply H; left; reflexivity].
Qed.

(** ** C63: square roots *)
(** sqrt of an integer rounds down; of the square of a rational it is that rational; of a
    negative number it is an error *)
Theorem C63_sqrt_int : forall v n, is_int_value v n ->
  (n < 0 -> square_root v = Err (ValueErrorValueMustBeNonNegative v)) /\
  (0 <= n -> exists r, square_root v = Ok (VInt r) /\ 0 <= r /\ r * r <= n < (r + 1) * (r + 1)).
Proof.
  intros v n H. assert (K : 0 <= n -> exists r, Ok (of_int (Z.sqrt n)) = Ok (VInt r) /\ 0 <= r /\ r * r <= n < (r + 1) * (r + 1)).
  { intro P. exists (Z.sqrt n). pose proof (Z.sqrt_spec n P). pose proof (Z.sqrt_nonneg n).
    split; [|split; [auto|unfold Z.succ in *; lia]]. unfold of_int. rewrite wrap63_id; [reflexivity|].
    apply int_value_63 in H. pose proof (Z.sqrt_le_lin n P). unfold is_int63, MIN_INT, MAX_INT in *. change (2 ^ 62) with 4611686018427387904 in *. lia. }
  destruct H as [[-> H]|[[-> ->]|[-> ->]]]; cbn [square_root].
  - split; intro P.
    + apply Z.ltb_lt in P. now rewrite P.
    + apply Z.ltb_ge in P as E. rewrite E. auto.
  - split; [lia|]. exact K.
  - split; [lia|]. exact K.
Qed.
Print Assumptions C63_sqrt_int.
Theorem C63_sqrt_rational : forall n d, Z.gcd n (Zpos d) = 1 ->
  (n < 0 -> square_root (VRational n d) = Err (ValueErrorValueMustBeNonNegative (VRational n d))) /\
  (forall a b, (n # d == (a # b) * (a # b))%Q -> 0 <= a -> exists n' d', square_root (VRational n d) = Ok (VRational n' d') /\ (n' # d' == a # b)%Q /\ Z.gcd n' (Zpos d') = 1).
Proof.
  intros n d R0. pose proof (Qcanon.Qred_identity (n # d) R0) as R. split.
  - intro P. cbn. apply Z.ltb_lt in P. now rewrite P.
  - intros a b E A.
    assert (exists a' b', Qred (a # b) = (a' # b')%Q /\ 0 <= a' /\ Z.gcd a' (Zpos b') = 1) as (a' & b' & Q & A' & G).
    { exists (Qnum (Qred (a # b))), (Qden (Qred (a # b))). split; [now destruct (Qred (a # b))|].
      pose proof (Qred_correct (a # b)) as C. pose proof (Qred_reduced (a # b)) as I. unfold Qeq in C. cbn [Qnum Qden] in C. split; [|exact I].
      assert (0 <= a * Zpos (Qden (Qred (a # b)))) by (apply Z.mul_nonneg_nonneg; lia). destruct (Z.lt_ge_cases (Qnum (Qred (a # b))) 0) as [X|X]; [|exact X].
      pose proof (Z.mul_neg_pos _ (Zpos b) X eq_refl). rewrite C in *. lia. }
    assert (n = a' * a' /\ d = (b' * b')%positive) as [-> ->].
    { assert (Qred ((a' * a') # (b' * b')) = ((a' * a') # (b' * b'))%Q) as S.
      { apply Qcanon.Qred_identity. cbn [Qnum Qden]. rewrite Pos2Z.inj_mul. apply Zgcd_1_rel_prime.
        apply rel_prime_sym, rel_prime_mult; apply rel_prime_sym, rel_prime_mult; now apply Zgcd_1_rel_prime. }
      assert (n # d == (a' * a') # (b' * b'))%Q as T.
      { rewrite E. change ((a' * a') # (b' * b'))%Q with ((a' # b') * (a' # b'))%Q. rewrite <- Q. rewrite Qred_correct. reflexivity. }
      apply Qred_complete in T. rewrite R, S in T. now injection T as -> ->. }
    assert (Z.sqrt (a' * a') = a') as SA by (apply Z.sqrt_square; auto).
    assert (Pos.sqrt (b' * b') = b') as SB. { assert (Z.sqrt (Zpos (b' * b')) = Zpos b') as S by (rewrite Pos2Z.inj_mul; now apply Z.sqrt_square). cbn in S. now injection S. }
    cbn [square_root]. destruct (Z.ltb_spec (a' * a') 0); [nia|]. rewrite SA, SB. unfold of_rational.
    exists (Qnum (Qred (a' # b'))), (Qden (Qred (a' # b'))). split; [reflexivity|].
    split; [|apply Qred_reduced]. replace (Qnum (Qred (a' # b')) # Qden (Qred (a' # b')))%Q with (Qred (a' # b')) by now destruct (Qred (a' # b')).
    rewrite Qred_correct. rewrite <- Q. apply Qred_correct.
Qed.
Print Assumptions C63_sqrt_rational.
Example C63_ex : square_root (VInt 4611686018427387903) = Ok (VInt 2147483647) /\ square_root (VRational 9 4) = Ok (VRational 3 2) /\
  square_root (VInt (-1)) = Err (ValueErrorValueMustBeNonNegative (VInt (-1))).
Proof. repeat split; vm_compute; reflexivity. Qed.
(** for a rational that is not a square, the roots of numerator and denominator are rounded separately:
    sqrt(1/2) is 1, which is too large *)
Theorem C63_rounding_refuted : ~ forall n d, 0 <= n -> Z.gcd n (Zpos d) = 1 ->
  exists n' d', square_root (VRational n d) = Ok (VRational n' d') /\ ((n' # d') * (n' # d') <= n # d)%Q.
Proof. intro H. destruct (H 1 2%positive ltac:(lia) eq_refl) as (n' & d' & E & L). vm_compute in E. injection E as <- <-. vm_compute in L. auto. Qed.
Print Assumptions C63_rounding_refuted.

(** ** C64: abs, real and imag, counting bits *)
(** abs: of an int, |x| wrapped to 63 bits; of a rational, |q|; of a complex number, both
    components; elementwise on vectors, as far as the first failing element *)
Theorem C64_abs : (forall v x, is_int_value v x -> exists z, absolute v = Ok (VInt z) /\ wraps_to z (Z.abs x)) /\
  (forall n d, Z.gcd n (Zpos d) = 1 -> absolute (VRational n d) = Ok (VRational (Z.abs n) d)) /\
  (forall re im, is_i64 re -> is_i64 im -> im <> 0 -> exists v, absolute (VComplex re im) = Ok v /\ is_complex_value v (Z.abs re) (Z.abs im)) /\
  (forall l, collected (fun i => absolute (nth i l VNil)) (length l) (absolute (VVector l))).
Proof.
  split; [|split; [|split]].
  - intros v x H. assert (absolute v = Ok (of_int (abs64 x))) as ->. { destruct H as [[-> _]|[[-> ->]|[-> ->]]]; reflexivity. }
    exists (wrap63 (abs64 x)). split; [reflexivity|]. apply int_value_63 in H. unfold abs64. rewrite i64_id; [apply wraps_to_wrap63|].
    apply i64_bounds. unfold is_int63, MIN_INT, MAX_INT in *. change (2 ^ 62) with 4611686018427387904 in *. lia.
  - intros n d G. cbn. unfold of_rational. rewrite Qcanon.Qred_identity; [reflexivity|]. cbn. now rewrite Z.gcd_abs_l.
  - intros re im R I N. cbn [absolute]. eexists. split; [reflexivity|]. unfold of_complex. cbn [fst snd].
    assert (forall x, is_i64 x -> abs64 x = 0 <-> x = 0) as A0.
    { intros x X. unfold abs64, i64, swrap. pose proof (proj1 (i64_bounds x) X) as X'. clear X. change (2 ^ 64) with 18446744073709551616. change (2 ^ (64 - 1)) with 9223372036854775808.
      destruct (Z.eq_dec x (-9223372036854775808)) as [->|]; [vm_compute; split; discriminate|]. rewrite Z.mod_small by lia. lia. }
    assert (forall x, is_i64 (abs64 x) /\ exists k, abs64 x = Z.abs x + k * 2 ^ 64) as A1.
    { intro x. split; [apply i64_bounds; unfold abs64, i64, swrap; change (2 ^ 64) with 18446744073709551616; change (2 ^ (64 - 1)) with 9223372036854775808;
        pose proof (Z.mod_pos_bound (Z.abs x + 9223372036854775808) 18446744073709551616 ltac:(lia)); lia|].
      unfold abs64, i64, swrap. exists (- ((Z.abs x + 2 ^ (64 - 1)) / 2 ^ 64)). change (2 ^ 64) with 18446744073709551616. change (2 ^ (64 - 1)) with 9223372036854775808.
      pose proof (Z.div_mod (Z.abs x + 9223372036854775808) 18446744073709551616 ltac:(lia)). lia. }
    destruct (Z.eqb_spec (abs64 im) 0) as [E|E]; [now apply (A0 im I) in E|].
    cbn. destruct (A1 re), (A1 im). auto.
  - intro l. cbn [absolute].
    set (g := fix go (l : list value) : result (list value) := match l with [] => Ok [] | x :: r => let? y := absolute x in let? ys := go r in Ok (y :: ys) end).
    assert (K : (exists z, g l = Ok z /\ length z = length l /\ forall i, (i < length l)%nat -> exists x, nth_error z i = Some x /\ absolute (nth i l VNil) = Ok x) \/
      (exists i, (i < length l)%nat /\ (forall j, (j < i)%nat -> exists x, absolute (nth j l VNil) = Ok x) /\
        ((exists e, absolute (nth i l VNil) = Err e /\ g l = Err e) \/ (absolute (nth i l VNil) = Panic /\ g l = Panic)))).
    { induction l as [|a l IH]; [left; exists []; cbn; repeat split; intros; lia|]. change (g (a :: l)) with (let? y := absolute a in let? ys := g l in Ok (y :: ys)).
      destruct (absolute a) as [y|e|] eqn:E.
      - destruct IH as [(z & G & L & H)|(i & L & H & [[e [X G]]|[X G]])]; cbn [bind]; rewrite G; cbn [bind].
        + left. exists (y :: z). split; [reflexivity|]. split; [cbn; lia|]. intros [|i] I; [exists y; auto|]. apply H. cbn in I. lia.
        + right. exists (S i). split; [cbn; lia|]. split; [intros [|j] J; [exists y; auto|apply H; lia]|]. left. exists e. auto.
        + right. exists (S i). split; [cbn; lia|]. split; [intros [|j] J; [exists y; auto|apply H; lia]|]. right. auto.
      - right. exists 0%nat. split; [cbn; lia|]. split; [intros; lia|]. left. exists e. cbn [nth]. rewrite E. auto.
      - right. exists 0%nat. split; [cbn; lia|]. split; [intros; lia|]. right. cbn [nth]. rewrite E. auto. }
    destruct K as [(z & G & L & H)|(i & L & H & [[e [X G]]|[X G]])]; rewrite G; cbn [bind].
    + left. exists z. auto.
    + right. exists i. split; [auto|]. split; [auto|]. left. eauto.
    + right. exists i. split; [auto|]. split; [auto|]. right. auto.
Qed.
Print Assumptions C64_abs.
(** the least int has no absolute value among the ints: it is its own *)
Theorem C64_abs_refuted : ~ forall x, is_int63 x -> exists z, absolute (VInt x) = Ok (VInt z) /\ 0 <= z.
Proof. intro H. destruct (H MIN_INT) as (z & E & P); [vm_compute; split; discriminate|]. vm_compute in E. injection E as <-. lia. Qed.
Print Assumptions C64_abs_refuted.

(** count_ones is the number of ones in the 64-bit two's complement, count_zeros that of the
    zeros; together 64 *)
Theorem C64_count : forall v x, is_int_value v x ->
  let bits := map (fun i => Z.testbit x (Z.of_nat i)) (seq 0 64) in
  count_ones v = Ok (VInt (Z.of_nat (length (filter (fun b => b) bits)))) /\
  count_zeros v = Ok (VInt (Z.of_nat (length (filter negb bits)))).
Proof.
  intros v x H bits.
  assert (K : forall n, ones n x = Z.of_nat (length (filter (fun b => b) (map (fun i => Z.testbit x (Z.of_nat i)) (seq 0 n)))) /\
    Z.of_nat n - ones n x = Z.of_nat (length (filter negb (map (fun i => Z.testbit x (Z.of_nat i)) (seq 0 n)))) /\ 0 <= ones n x <= Z.of_nat n).
  { induction n as [|n (A & B & C)]; [cbn; lia|]. rewrite seq_S, map_app, !filter_app, !app_length. cbn [ones plus map filter].
    destruct (Z.testbit x (Z.of_nat n)); cbn [negb filter length]; lia. }
  destruct (K 64%nat) as (A & B & C). fold bits in A, B. unfold count_ones, count_zeros. rewrite (int_value_checked v x H). cbn [bind].
  unfold popcount, of_int. rewrite !wrap63_id by (unfold is_int63, MIN_INT, MAX_INT; change (2 ^ 62) with 4611686018427387904; change (Z.of_nat 64) with 64 in *; lia).
  change (Z.of_nat 64) with 64 in *. rewrite <- A, <- B. auto.
Qed.
Print Assumptions C64_count.
Example C64_count_ex : count_ones (VInt (-1)) = Ok (VInt 64) /\ count_zeros (VInt 5) = Ok (VInt 62). Proof. split; vm_compute; reflexivity. Qed.

(** the parts of a complex number (or int), wrapped to 63 bits *)
Theorem C64_parts : forall v re im, complex_operand v re im ->
  (exists z, get_real v = Ok (VInt z) /\ wraps_to z re) /\ (exists z, get_imag v = Ok (VInt z) /\ wraps_to z im).
Proof.
  intros v re im [[H ->]|(-> & _)].
  - assert (get_real v = Ok (of_int re) /\ get_imag v = Ok (of_int 0)) as [-> ->] by (destruct H as [[-> _]|[[-> ->]|[-> ->]]]; split; reflexivity).
    split; eexists; (split; [reflexivity|apply wraps_to_wrap63]).
  - split; eexists; (split; [reflexivity|apply wraps_to_wrap63]).
Qed.
Print Assumptions C64_parts.
(** a part that is not a 63-bit int is lost: the real part of 2^62 + 1i is negative *)
Theorem C64_parts_refuted : ~ forall re im, is_i64 re -> is_i64 im -> im <> 0 -> get_real (VComplex re im) = Ok (VInt re).
Proof.
  intro H. assert (E : get_real (VComplex (2 ^ 62) 1) = Ok (VInt (2 ^ 62))) by (apply H; try (apply i64_bounds; change (2 ^ 62) with 4611686018427387904; lia); lia).
  vm_compute in E. discriminate.
Qed.
Print Assumptions C64_parts_refuted.

(** ** C65: conversions between ints and rationals *)
(** rational(a, b) is a / b in lowest terms, for rationals, ints and bools; an error exactly if b is 0 *)
Theorem C65_rational : forall parse a b p q, rational_operand a p -> rational_operand b q ->
  ((q == 0)%Q -> to_rat parse a (Some b) = Err ValueErrorDivideByZero) /\
  (~ (q == 0)%Q -> exists n d, to_rat parse a (Some b) = Ok (VRational n d) /\ (n # d == p / q)%Q /\ Z.gcd n (Zpos d) = 1) /\
  (exists n d, to_rat parse a None = Ok (VRational n d) /\ (n # d == p)%Q /\ Z.gcd n (Zpos d) = 1).
Proof.
  intros parse a b p q A B.
  assert (T : forall v q, rational_operand v q -> to_rational v = Some q /\ match v with VStr _ => False | _ => True end).
  { intros v r [(x & H & ->)|(n & d & -> & ->)]; [destruct H as [[-> _]|[[-> ->]|[-> ->]]]|]; split; auto; reflexivity. }
  destruct (T a p A) as [Ta Sa], (T b q B) as [Tb _].
  assert (to_rat parse a None = Ok (of_rational p) /\ to_rat parse a (Some b) = if Qnum q =? 0 then Err ValueErrorDivideByZero else Ok (of_rational (p / q))) as [-> ->].
  { destruct a; try contradiction; unfold to_rat; rewrite Ta, ?Tb; auto. }
  assert (O : forall r, exists n d, Ok (of_rational r) = Ok (VRational n d) /\ (n # d == r)%Q /\ Z.gcd n (Zpos d) = 1).
  { intro r. exists (Qnum (Qred r)), (Qden (Qred r)). split; [reflexivity|]. split; [|apply Qred_reduced]. rewrite <- (Qred_correct r) at 3. now destruct (Qred r). }
  split; [|split].
  - intro Z0. unfold Qeq in Z0. cbn in Z0. destruct (Z.eqb_spec (Qnum q) 0); [reflexivity|lia].
  - intro NZ. destruct (Z.eqb_spec (Qnum q) 0) as [E|]; [|apply O]. exfalso. apply NZ. unfold Qeq. cbn. lia.
  - apply O.
Qed.
Print Assumptions C65_rational.
(** numer and denom: v = numer / denom, in lowest terms, denominator positive; both are rationals *)
Theorem C65_parts : forall v q, rational_operand v q -> Z.gcd (Qnum q) (Zpos (Qden q)) = 1 ->
  get_numer v = Ok (VRational (Qnum q) 1) /\ get_denom v = Ok (VRational (Zpos (Qden q)) 1).
Proof.
  intros v q H G.
  assert (to_rational v = Some q) as T by (destruct H as [(x & H & ->)|(n & d & -> & ->)]; [destruct H as [[-> _]|[[-> ->]|[-> ->]]]|]; reflexivity).
  unfold get_numer, get_denom. rewrite T. unfold of_rational. rewrite !Qcanon.Qred_identity; [split; reflexivity|cbn [Qnum Qden]; apply Z.gcd_1_r..].
Qed.
Print Assumptions C65_parts.
(** int(q) succeeds exactly on whole numbers that are ints, giving that number; so
    int(rational(n)) = n *)
Theorem C65_int : forall n d def, Z.gcd n (Zpos d) = 1 ->
  (forall z, to_int (VRational n d) def = Ok (VInt z) <-> (n # d == z # 1)%Q /\ is_int63 z) /\
  (forall parse z, is_int63 z -> exists v, to_rat parse (VInt z) None = Ok v /\ to_int v None = Ok (VInt z)).
Proof.
  intros n d def G. split.
  - intro z. cbn [to_int]. unfold Qeq, is_int63. cbn [Qnum Qden]. destruct (Pos.eqb_spec d 1) as [->|D].
    + destruct (Z.leb_spec MIN_INT n), (Z.leb_spec n MAX_INT); cbn [andb]; split; try discriminate; try (intros [E [L U]]; exfalso; lia).
      * intro E. injection E as <-. lia.
      * intros [E _]. f_equal. f_equal. lia.
    + split; [discriminate|]. intros [E _]. exfalso. apply D.
      assert ((Zpos d | n)) as X by (exists z; lia). apply Z.divide_gcd_iff in X; [|lia]. rewrite Z.gcd_comm in X. lia.
  - intros parse z H. eexists. split; [reflexivity|]. unfold of_rational. rewrite Qcanon.Qred_identity by (cbn [Qnum Qden]; apply Z.gcd_1_r). cbn [to_int Qnum Qden Pos.eqb].
    destruct H as [L U]. apply Z.leb_le in L, U. now rewrite L, U.
Qed.
Print Assumptions C65_int.
(** int(s, d) of a text is d exactly where int(s) is an error; otherwise it is int(s).  nil, bools and ints
    are converted whatever the default *)
Theorem C65_default : forall s d,
  (forall v, to_int (VStr s) None = Ok v -> to_int (VStr s) (Some d) = Ok v) /\
  (forall e, to_int (VStr s) None = Err e -> to_int (VStr s) (Some d) = Ok d) /\
  (forall def v x, is_int_value v x -> to_int v def = Ok (VInt x)) /\ (forall def, to_int VNil def = Ok (VInt 0)).
Proof.
  intros s d. cbn [to_int]. split; [|split; [|split]].
  - destruct (from_str_radix 10 s); [auto|discriminate].
  - destruct (from_str_radix 10 s); [discriminate|auto].
  - intros def v x [[-> _]|[[-> ->]|[-> ->]]]; reflexivity.
  - reflexivity.
Qed.
Print Assumptions C65_default.
Example C65_ex : to_rat (fun _ => Panic) (VInt 6) (Some (VInt (-4))) = Ok (VRational (-3) 2) /\ get_denom (VRational (-3) 2) = Ok (VRational 2 1) /\
  to_int (VRational 7 1) None = Ok (VInt 7) /\ to_int (VRational 7 2) None = Err (ValueErrorCannotConvertRationalToIntNotAnInteger (VRational 7 2)) /\
  to_int (VStr [45; 52]) (Some VNil) = Ok (VInt (-4)) /\ to_int (VStr [45]) (Some VNil) = Ok VNil.
Proof. repeat split; vm_compute; reflexivity. Qed.
