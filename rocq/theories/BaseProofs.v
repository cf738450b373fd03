(** Lemmas about the machine arithmetic of Base.v. *)
From Verif Require Import Base.
Local Open Scope Z_scope.
Ltac Zify.zify_post_hook ::= Z.div_mod_to_equations.

Lemma swrap_range n x : 0 < n -> - 2 ^ (n - 1) <= swrap n x < 2 ^ (n - 1).
Proof.
  intros Hn. unfold swrap.
  assert (H2 : 2 ^ n = 2 * 2 ^ (n - 1)) by (rewrite <- Z.pow_succ_r by lia; f_equal; lia).
  assert (0 < 2 ^ (n - 1)) by (apply Z.pow_pos_nonneg; lia).
  pose proof (Z.mod_pos_bound (x + 2 ^ (n - 1)) (2 ^ n) ltac:(lia)). lia.
Qed.

Lemma swrap_id n x : 0 < n -> - 2 ^ (n - 1) <= x < 2 ^ (n - 1) -> swrap n x = x.
Proof.
  intros Hn Hx. unfold swrap.
  assert (H2 : 2 ^ n = 2 * 2 ^ (n - 1)) by (rewrite <- Z.pow_succ_r by lia; f_equal; lia).
  rewrite Z.mod_small; lia.
Qed.

Lemma swrap_cong n x : 0 < n -> exists k, swrap n x = x + k * 2 ^ n.
Proof.
  intros Hn. unfold swrap.
  assert (0 < 2 ^ n) by (apply Z.pow_pos_nonneg; lia).
  exists (- ((x + 2 ^ (n - 1)) / 2 ^ n)).
  pose proof (Z.div_mod (x + 2 ^ (n - 1)) (2 ^ n) ltac:(lia)). lia.
Qed.

Lemma swrap_eqm n x y k : 0 < n -> y = x + k * 2 ^ n -> swrap n y = swrap n x.
Proof.
  intros Hn ->. unfold swrap. f_equal.
  replace (x + k * 2 ^ n + 2 ^ (n - 1)) with (x + 2 ^ (n - 1) + k * 2 ^ n) by ring.
  apply Z_mod_plus_full.
Qed.

(** wrapping an already wider-wrapped value is wrapping the value *)
Lemma swrap_swrap n m x : 0 < n <= m -> swrap n (swrap m x) = swrap n x.
Proof.
  intros Hn. destruct (swrap_cong m x ltac:(lia)) as [k Hk].
  apply (swrap_eqm n _ _ (k * 2 ^ (m - n))); [lia|].
  rewrite Hk. rewrite <- Z.mul_assoc, <- Z.pow_add_r by lia. do 3 f_equal. lia.
Qed.

Lemma wrap63_i64 x : wrap63 (i64 x) = wrap63 x.
Proof. apply swrap_swrap; lia. Qed.

Lemma wrap63_range x : is_int63 (wrap63 x).
Proof. pose proof (swrap_range 63 x ltac:(lia)). unfold is_int63, wrap63, MIN_INT, MAX_INT.
  change (63 - 1) with 62 in H. lia. Qed.

Lemma wrap63_id x : is_int63 x -> wrap63 x = x.
Proof. unfold is_int63, MIN_INT, MAX_INT. intros H. apply swrap_id; change (63 - 1) with 62; lia. Qed.

Lemma wrap63_eqm x y k : y = x + k * 2 ^ 63 -> wrap63 y = wrap63 x.
Proof. apply (swrap_eqm 63); lia. Qed.

Lemma wrap63_cong x : exists k, wrap63 x = x + k * 2 ^ 63.
Proof. apply swrap_cong; lia. Qed.

Lemma i64_range x : is_i64 (i64 x).
Proof. apply (swrap_range 64); lia. Qed.

Lemma i64_id x : is_i64 x -> i64 x = x.
Proof. intros H. apply (swrap_id 64); [lia| exact H]. Qed.

Lemma i64_cong x : exists k, i64 x = x + k * 2 ^ 64.
Proof. apply swrap_cong; lia. Qed.

Lemma i64_eqm x y k : y = x + k * 2 ^ 64 -> i64 y = i64 x.
Proof. apply swrap_eqm; lia. Qed.

Lemma int63_i64 x : is_int63 x -> is_i64 x.
Proof. unfold is_int63, is_i64, MIN_INT, MAX_INT.
  change (2^62) with 4611686018427387904. change (2^63) with 9223372036854775808. lia. Qed.

Lemma wrap63_idem x : wrap63 (wrap63 x) = wrap63 x.
Proof. apply swrap_swrap; lia. Qed.

(** [wrap63] is the unique int63 representative of a residue class mod 2^63 *)
Lemma wrap63_unique x y k : is_int63 y -> y = x + k * 2 ^ 63 -> wrap63 x = y.
Proof. intros Hy He. rewrite <- (wrap63_id y Hy). symmetry. eapply wrap63_eqm; eauto. Qed.

Lemma wrap63_add x y : wrap63 (wrap63 x + wrap63 y) = wrap63 (x + y).
Proof. destruct (wrap63_cong x) as [a ->], (wrap63_cong y) as [b ->].
  apply (wrap63_eqm _ _ (a + b)). ring. Qed.
Lemma wrap63_add_l x y : wrap63 (wrap63 x + y) = wrap63 (x + y).
Proof. destruct (wrap63_cong x) as [a ->]. apply (wrap63_eqm _ _ a). ring. Qed.
Lemma wrap63_add_r x y : wrap63 (x + wrap63 y) = wrap63 (x + y).
Proof. destruct (wrap63_cong y) as [a ->]. apply (wrap63_eqm _ _ a). ring. Qed.
Lemma wrap63_mul_l x y : wrap63 (wrap63 x * y) = wrap63 (x * y).
Proof. destruct (wrap63_cong x) as [a ->]. apply (wrap63_eqm _ _ (a * y)). ring. Qed.
Lemma wrap63_mul_r x y : wrap63 (x * wrap63 y) = wrap63 (x * y).
Proof. rewrite Z.mul_comm, wrap63_mul_l. f_equal. ring. Qed.
