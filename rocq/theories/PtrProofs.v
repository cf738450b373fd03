From Verif Require Import Base BaseProofs Ptr PtrSpec.
Local Open Scope Z_scope.
Ltac Zify.zify_post_hook ::= Z.div_mod_to_equations.

Lemma land_31 w : Z.land w 31 = w mod 32.
Proof. change 31 with (Z.ones 5). rewrite Z.land_ones by lia. reflexivity. Qed.
Lemma land_3 w : Z.land w 3 = w mod 4.
Proof. change 3 with (Z.ones 2). rewrite Z.land_ones by lia. reflexivity. Qed.
Lemma land_1 w : Z.land w 1 = w mod 2.
Proof. change 1 with (Z.ones 1) at 1. rewrite Z.land_ones by lia. reflexivity. Qed.
Lemma land_255 w : Z.land w 255 = w mod 256.
Proof. change 255 with (Z.ones 8). rewrite Z.land_ones by lia. reflexivity. Qed.

Lemma lor_disjoint t x k : 0 <= k -> 0 <= t < 2 ^ k -> Z.lor t (x * 2 ^ k) = t + x * 2 ^ k.
Proof.
  intros Hk Ht.
  assert (H : Z.land t (x * 2 ^ k) = 0).
  { apply Z.bits_inj'. intros n Hn. rewrite Z.land_spec, Z.bits_0.
    destruct (Z.ltb_spec n k).
    - rewrite Z.mul_pow2_bits_low by lia. apply andb_false_r.
    - replace (Z.testbit t n) with false; [reflexivity|].
      symmetry. destruct (Z.eq_dec t 0) as [->|]; [apply Z.bits_0|].
      apply Z.bits_above_log2; [lia|].
      assert (Z.log2 t < k) by (apply Z.log2_lt_pow2; lia). lia. }
  rewrite Z.add_nocarry_lxor, Z.lxor_lor by exact H. reflexivity.
Qed.

Lemma ty_mod w : ty w =
  if w mod 4 =? 1 then
    (if w mod 32 =? 1 then TNil else if w mod 32 =? 5 then TBool else if w mod 32 =? 9 then TNative
     else if w mod 32 =? 13 then TField else if w mod 32 =? 17 then TShortStr else TNever)
  else if w mod 4 =? 3 then TPtr else TInt.
Proof. unfold ty, MASK_PTR, MASK_TAG5, TAG_NIL, TAG_BOOL, TAG_NATIVE, TAG_FIELD, TAG_STR, TAG_PTR.
  rewrite !land_31, !land_3. reflexivity. Qed.

(** integers *)
Lemma from_i64_eq v : is_i64 v -> from_i64 v = (2 * v) mod 2 ^ 64.
Proof.
  intros Hv. unfold from_i64, TAG_INT. rewrite Z.lor_0_l, Z.shiftl_mul_pow2 by lia.
  unfold u64, uwrap. destruct (i64_cong (v * 2 ^ 1)) as [k ->].
  rewrite Z_mod_plus_full. f_equal. lia.
Qed.

Lemma as_precise_from v : is_i64 v -> as_precise_int (from_i64 v) = wrap63 v.
Proof.
  intros Hv. rewrite from_i64_eq by assumption. unfold as_precise_int.
  rewrite Z.shiftr_div_pow2 by lia. change (2 ^ 1) with 2.
  unfold i64, wrap63, swrap, is_i64 in *.
  change (2 ^ (64 - 1)) with 9223372036854775808. change (2 ^ 64) with 18446744073709551616.
  change (2 ^ (63 - 1)) with 4611686018427387904. change (2 ^ 63) with 9223372036854775808 in *.
  lia.
Qed.

Lemma ty_from_i64 v : is_i64 v -> ty (from_i64 v) = TInt.
Proof.
  intros Hv. rewrite from_i64_eq, ty_mod by assumption. change (2 ^ 64) with 18446744073709551616.
  destruct (Z.eqb_spec ((2 * v) mod 18446744073709551616 mod 4) 1); [lia|].
  destruct (Z.eqb_spec ((2 * v) mod 18446744073709551616 mod 4) 3); [lia|reflexivity].
Qed.

(** tagged payloads *)
Lemma payload_eq t p : 0 <= t < 64 -> 0 <= p < 2 ^ 32 -> Z.lor t (u64 (Z.shiftl p 6)) = t + p * 64.
Proof.
  intros Ht Hp. rewrite Z.shiftl_mul_pow2 by lia. unfold u64, uwrap.
  rewrite Z.mod_small by (change (2^64) with 18446744073709551616; change (2^32) with 4294967296 in Hp; change (2^6) with 64; lia).
  rewrite lor_disjoint by (change (2^6) with 64; lia). reflexivity.
Qed.

Lemma from_native_eq f : 0 <= f < 256 -> from_native f = 9 + f * 64.
Proof. intros. apply (payload_eq 9); lia. Qed.
Lemma from_field_eq f : 0 <= f < 2 ^ 32 -> from_field f = 13 + f * 64.
Proof. intros. apply (payload_eq 13); lia. Qed.
Lemma as_native_from f : 0 <= f < 256 -> as_native (from_native f) = f.
Proof. intros H. rewrite from_native_eq by lia. unfold as_native, uwrap.
  rewrite Z.shiftr_div_pow2 by lia. change (2^6) with 64. change (2^8) with 256. lia. Qed.
Lemma as_field_from f : 0 <= f < 2 ^ 32 -> as_field (from_field f) = f.
Proof. intros H. rewrite from_field_eq by lia. unfold as_field, uwrap.
  rewrite Z.shiftr_div_pow2 by lia. change (2^6) with 64. change (2^32) with 4294967296 in *. lia. Qed.

Ltac tymod := rewrite ty_mod; repeat (match goal with |- context [?a =? ?b] => destruct (Z.eqb_spec a b); try lia end); reflexivity.

Lemma ty_native f : 0 <= f < 256 -> ty (from_native f) = TNative.
Proof. intros H. rewrite from_native_eq by lia. tymod. Qed.
Lemma ty_field f : 0 <= f < 2 ^ 32 -> ty (from_field f) = TField.
Proof. intros H. rewrite from_field_eq by lia. clear H. tymod. Qed.

(** pointers: addresses are multiples of 4 below 2^64 *)
Lemma from_shared_eq a : a mod 4 = 0 -> from_shared a = 3 + a.
Proof. intros H. unfold from_shared, TAG_PTR.
  replace a with (a / 4 * 2 ^ 2) by (change (2^2) with 4; lia).
  rewrite lor_disjoint by (change (2^2) with 4; lia). reflexivity. Qed.
Lemma ty_shared a : a mod 4 = 0 -> ty (from_shared a) = TPtr.
Proof. intros H. rewrite from_shared_eq by lia. tymod. Qed.
Lemma as_ptr_from a : 0 <= a < 2 ^ 64 -> a mod 4 = 0 -> as_ptr (from_shared a) = a.
Proof.
  intros Ha H. rewrite from_shared_eq by lia. unfold as_ptr, PTR_MASK.
  change (2 ^ 64 - 4) with (Z.shiftl (Z.ones 62) 2).
  replace (Z.land (3 + a) (Z.shiftl (Z.ones 62) 2)) with (Z.shiftl (Z.land (Z.shiftr (3 + a) 2) (Z.ones 62)) 2).
  - rewrite Z.land_ones, Z.shiftr_div_pow2, Z.shiftl_mul_pow2 by lia.
    change (2 ^ 62) with 4611686018427387904. change (2 ^ 2) with 4.
    change (2 ^ 64) with 18446744073709551616 in Ha. lia.
  - apply Z.bits_inj'. intros n Hn. rewrite Z.shiftl_spec, !Z.land_spec, Z.shiftl_spec by lia.
    destruct (Z.ltb_spec (n - 2) 0).
    + rewrite !(Z.testbit_neg_r _ (n - 2)) by lia. rewrite !andb_false_r. reflexivity.
    + rewrite Z.shiftr_spec by lia. do 2 f_equal. lia.
Qed.

(** short strings *)
Definition is_byte (b : Z) : Prop := 0 <= b < 256.
Lemma le_bytes_range bs : Forall is_byte bs -> 0 <= le_bytes bs < 256 ^ Z.of_nat (length bs).
Proof.
  induction 1 as [|b r Hb Hr IH]; cbn [le_bytes length]; [lia|].
  rewrite Nat2Z.inj_succ, Z.pow_succ_r by lia. unfold is_byte in Hb. lia.
Qed.

Lemma le_bytes_nth bs i : Forall is_byte bs -> byte_at (le_bytes bs) (Z.of_nat i) = nth i bs 0.
Proof.
  unfold byte_at. intros H. revert i. induction H as [|b r Hb Hr IH]; intros i.
  - cbn [le_bytes]. rewrite Z.shiftr_0_l, Z.land_0_l. destruct i; reflexivity.
  - cbn [le_bytes]. destruct i as [|i]; cbn [nth].
    + rewrite land_255. change (8 * Z.of_nat 0) with 0. rewrite Z.shiftr_0_r. unfold is_byte in Hb. lia.
    + rewrite <- IH. f_equal. replace (8 * Z.of_nat (S i)) with (8 + 8 * Z.of_nat i) by lia.
      rewrite <- Z.shiftr_shiftr by lia. f_equal.
      rewrite Z.shiftr_div_pow2 by lia. change (2 ^ 8) with 256. unfold is_byte in Hb. lia.
Qed.

Definition str_tag (n : nat) : Z := 17 + Z.of_nat n * 32.
Lemma str_tag_eq n : Z.lor (Z.shiftl (Z.of_nat n) STR_TAG_BYTES) TAG_STR = str_tag n.
Proof.
  unfold STR_TAG_BYTES, TAG_STR, str_tag. rewrite Z.lor_comm, Z.shiftl_mul_pow2 by lia.
  rewrite lor_disjoint by (change (2^5) with 32; lia). reflexivity.
Qed.

Lemma from_small_eq bs : from_small_str bs = le_bytes (str_tag (length bs) :: bs ++ repeat 0 (7 - length bs)).
Proof. unfold from_small_str. rewrite str_tag_eq. reflexivity. Qed.

Lemma small_bytes_ok bs : Forall is_byte bs -> (length bs <= 7)%nat ->
  Forall is_byte (str_tag (length bs) :: bs ++ repeat 0 (7 - length bs)).
Proof.
  intros H Hl. constructor; [unfold is_byte, str_tag; lia|].
  apply Forall_app; split; [assumption|]. apply Forall_forall. intros x Hx.
  apply repeat_spec in Hx. subst. unfold is_byte; lia.
Qed.

Lemma ty_small bs : Forall is_byte bs -> (length bs <= 7)%nat -> ty (from_small_str bs) = TShortStr.
Proof.
  intros H Hl. rewrite from_small_eq. cbn [le_bytes]. set (r := le_bytes _). clearbody r.
  unfold str_tag. set (n := Z.of_nat _). clearbody n. tymod.
Qed.

Lemma small_len w n : (n <= 7)%nat -> w mod 256 = str_tag n ->
  Z.shiftr (Z.land w STR_LEN_MASK) STR_TAG_BYTES = Z.of_nat n.
Proof.
  intros Hn Hw. unfold STR_LEN_MASK, STR_TAG_BYTES.
  rewrite Z.shiftr_land. change (Z.shiftr 224 5) with (Z.ones 3).
  rewrite Z.land_ones, Z.shiftr_div_pow2 by lia. change (2^5) with 32. change (2^3) with 8.
  unfold str_tag in Hw. lia.
Qed.

Lemma map_nth_seq (l : list Z) d k : map (fun i => nth (S i) (d :: l) 0) (seq k (length l - k)) = skipn k l.
Proof.
  revert k. induction l as [|a l IH]; intros k; cbn [length].
  - destruct k; reflexivity.
  - destruct k as [|k]; cbn [skipn].
    + cbn [Nat.sub seq map nth]. f_equal. rewrite <- seq_shift, map_map.
      specialize (IH 0%nat). rewrite Nat.sub_0_r in IH. cbn [skipn] in IH. rewrite <- IH at 2.
      apply map_ext. intros i. reflexivity.
    + cbn [Nat.sub]. rewrite <- seq_shift, map_map. rewrite <- IH. apply map_ext. intros i. reflexivity.
Qed.

Lemma as_short_from bs : Forall is_byte bs -> (length bs <= 7)%nat -> as_short_str (from_small_str bs) = bs.
Proof.
  intros H Hl. unfold as_short_str.
  pose proof (small_bytes_ok bs H Hl) as Hb.
  rewrite (small_len _ (length bs)); [|assumption|].
  2:{ rewrite from_small_eq. cbn [le_bytes]. unfold str_tag. set (r := le_bytes _). clearbody r. lia. }
  rewrite Nat2Z.id. rewrite from_small_eq.
  erewrite map_ext; [|intros k; apply le_bytes_nth; exact Hb].
  rewrite <- seq_shift, map_map.
  rewrite <- (map_ext_in (fun i => nth (S i) (0 :: bs) 0)).
  - pose proof (map_nth_seq bs 0 0) as E. rewrite Nat.sub_0_r in E. exact E.
  - intros i Hi. apply in_seq in Hi. cbn [nth]. rewrite app_nth1 by lia. reflexivity.
Qed.

Lemma from_small_range bs : Forall is_byte bs -> (length bs <= 7)%nat -> 0 <= from_small_str bs < 2 ^ 64.
Proof.
  intros H Hl. rewrite from_small_eq. pose proof (le_bytes_range _ (small_bytes_ok bs H Hl)) as R.
  cbn [length] in R. rewrite app_length, repeat_length in R.
  replace (S (length bs + (7 - length bs))) with 8%nat in R by lia. change (256 ^ Z.of_nat 8) with (2 ^ 64) in R. exact R.
Qed.

Lemma bytes_ok_forall bs : (forall b, In b bs -> 0 <= b < 256) -> Forall is_byte bs.
Proof. intros H. apply Forall_forall. exact H. Qed.

Lemma ty_store v : inline_ok v -> ty (store v) = kind v.
Proof.
  destruct v as [| b | n | f | f | bs | a]; cbn [inline_ok store kind]; intros H.
  - reflexivity.
  - destruct b; reflexivity.
  - apply ty_from_i64, int63_i64, H.
  - apply ty_native, H.
  - apply ty_field, H.
  - destruct H. apply ty_small; [apply bytes_ok_forall|]; assumption.
  - apply ty_shared, H.
Qed.

Lemma load_store v : inline_ok v -> load (store v) = Some v.
Proof.
  intros H. unfold load. rewrite ty_store by assumption.
  destruct v as [| b | n | f | f | bs | a]; cbn [inline_ok store kind] in *.
  - reflexivity.
  - destruct b; reflexivity.
  - rewrite as_precise_from by (apply int63_i64, H). rewrite wrap63_id by assumption. reflexivity.
  - rewrite as_native_from by assumption. reflexivity.
  - rewrite as_field_from by assumption. reflexivity.
  - destruct H. rewrite as_short_from; [reflexivity|apply bytes_ok_forall|]; assumption.
  - destruct H. rewrite as_ptr_from by assumption. reflexivity.
Qed.

Lemma store_inj v w : inline_ok v -> inline_ok w -> (store v = store w <-> v = w).
Proof.
  intros Hv Hw. split; [|intros ->; reflexivity].
  intros E. pose proof (load_store v Hv) as A. pose proof (load_store w Hw) as B. congruence.
Qed.

Lemma store_word v : inline_ok v -> 0 <= store v < 2 ^ 64.
Proof.
  destruct v as [| b | n | f | f | bs | a]; cbn [inline_ok store]; intros H.
  - cbv; split; congruence.
  - destruct b; cbv; split; congruence.
  - rewrite from_i64_eq by (apply int63_i64, H). apply Z.mod_pos_bound. reflexivity.
  - rewrite from_native_eq by lia. change (2^64) with 18446744073709551616. lia.
  - rewrite from_field_eq by lia. change (2^64) with 18446744073709551616. change (2^32) with 4294967296 in H. lia.
  - destruct H. apply from_small_range; [apply bytes_ok_forall|]; assumption.
  - destruct H as [H1 H2]. rewrite from_shared_eq by assumption. change (2^64) with 18446744073709551616 in *. lia.
Qed.

Lemma tests_mod w : tests w =
  [w mod 32 =? 1; w mod 32 =? 5; w mod 2 =? 0; w mod 32 =? 9; w mod 32 =? 13; w mod 32 =? 17; w mod 4 =? 3].
Proof. unfold tests, is_nil, is_bool, is_precise_int, is_native, is_field, is_short_str, is_ptr,
  MASK_PTR, MASK_TAG5, MASK_INT, TAG_INT, TAG_NIL, TAG_BOOL, TAG_NATIVE, TAG_FIELD, TAG_STR, TAG_PTR.
  rewrite !land_31, land_3, land_1. reflexivity. Qed.

Lemma ty_tests w : match ty w with
  | TNil => w mod 32 = 1 | TBool => w mod 32 = 5 | TInt => w mod 2 = 0 | TNative => w mod 32 = 9
  | TField => w mod 32 = 13 | TShortStr => w mod 32 = 17 | TPtr => w mod 4 = 3 | TNever => True end.
Proof. rewrite ty_mod. repeat (match goal with |- context [?a =? ?b] => destruct (Z.eqb_spec a b) end); try lia. Qed.

Lemma tests_store v : inline_ok v -> tests (store v) = expected_tests v.
Proof.
  intros H. rewrite tests_mod. pose proof (ty_tests (store v)) as T. rewrite ty_store in T by assumption.
  set (w := store v) in *. clearbody w.
  destruct v; cbn [kind expected_tests] in *; repeat f_equal; lia.
Qed.

Lemma int_store_load : forall v : Z, - 2 ^ 63 <= v < 2 ^ 63 ->
  let r := as_precise_int (from_i64 v) in
  (- 2 ^ 62 <= r <= 2 ^ 62 - 1) /\
  (exists k, v = r + k * 2 ^ 63) /\
  (forall r' k, - 2 ^ 62 <= r' <= 2 ^ 62 - 1 -> v = r' + k * 2 ^ 63 -> r' = r) /\
  (- 2 ^ 62 <= v <= 2 ^ 62 - 1 -> r = v) /\
  ty (from_i64 v) = TInt /\ is_int (from_i64 v) = true /\ as_int (from_i64 v) = r.
Proof.
  intros v Hv r.
  assert (Hr : r = wrap63 v) by (apply as_precise_from; exact Hv).
  assert (T : ty (from_i64 v) = TInt) by (apply ty_from_i64; exact Hv).
  assert (Hp : is_precise_int (from_i64 v) = true).
  { unfold is_precise_int, MASK_INT, TAG_INT. rewrite land_1. rewrite from_i64_eq by exact Hv.
    change (2 ^ 64) with 18446744073709551616. lia. }
  repeat split.
  - rewrite Hr. unfold wrap63, swrap. change (2 ^ (63 - 1)) with 4611686018427387904.
    change (2 ^ 63) with 9223372036854775808. change (2 ^ 62) with 4611686018427387904. lia.
  - rewrite Hr. unfold wrap63, swrap. change (2 ^ (63 - 1)) with 4611686018427387904.
    change (2 ^ 63) with 9223372036854775808. change (2 ^ 62) with 4611686018427387904. lia.
  - exists ((v + 2 ^ 62) / 2 ^ 63). rewrite Hr. unfold wrap63, swrap. change (2 ^ (63 - 1)) with 4611686018427387904.
    change (2 ^ 63) with 9223372036854775808. change (2 ^ 62) with 4611686018427387904. lia.
  - intros r' k Hr' E. rewrite Hr. unfold wrap63, swrap. change (2 ^ (63 - 1)) with 4611686018427387904.
    change (2 ^ 63) with 9223372036854775808 in *. change (2 ^ 62) with 4611686018427387904 in *.
    rewrite E. replace (r' + k * 9223372036854775808 + 4611686018427387904) with (r' + 4611686018427387904 + k * 9223372036854775808) by lia.
    rewrite Z_mod_plus_full, Z.mod_small by lia. lia.
  - intros Hv'. rewrite Hr. apply wrap63_id. unfold is_int63, MIN_INT, MAX_INT. exact Hv'.
  - exact T.
  - unfold is_int. rewrite Hp. reflexivity.
  - unfold as_int. rewrite Hp. reflexivity.
Qed.

Lemma inline_faithful : forall v w : inline, inline_ok v -> inline_ok w ->
  0 <= store v < 2 ^ 64 /\ ty (store v) = kind v /\ load (store v) = Some v /\
  tests (store v) = expected_tests v /\ (store v = store w <-> v = w).
Proof.
  intros v w Hv Hw. split; [apply store_word, Hv|]. split; [apply ty_store, Hv|]. split; [apply load_store, Hv|].
  split; [apply tests_store, Hv|]. apply store_inj; assumption.
Qed.

Lemma bool_as_int : forall b : bool,
  is_int (from_bool b) = true /\ as_int (from_bool b) = (if b then 1 else 0) /\ as_bool (from_bool b) = b.
Proof. intros []; repeat split. Qed.
