(** C01, C02: inline values. *)
From Verif Require Import Base BaseProofs Ptr PtrSpec PtrProofs.
Local Open Scope Z_scope.

(** C01.  Reading back a stored 64-bit integer gives the unique integer of
    [-2^62, 2^62-1] congruent to it modulo 2^63, hence the same integer whenever it
    already lies there; and the stored word is an int again. *)
Theorem C01_int_store_load : forall v : Z, - 2 ^ 63 <= v < 2 ^ 63 ->
  let r := as_precise_int (from_i64 v) in
  (- 2 ^ 62 <= r <= 2 ^ 62 - 1) /\
  (exists k, v = r + k * 2 ^ 63) /\
  (forall r' k, - 2 ^ 62 <= r' <= 2 ^ 62 - 1 -> v = r' + k * 2 ^ 63 -> r' = r) /\
  (- 2 ^ 62 <= v <= 2 ^ 62 - 1 -> r = v) /\
  ty (from_i64 v) = TInt /\ is_int (from_i64 v) = true /\ as_int (from_i64 v) = r.
Proof. exact int_store_load. Qed.
Print Assumptions C01_int_store_load.

Example C01_in_range : as_precise_int (from_i64 (-5)) = -5 /\ as_precise_int (from_i64 (2 ^ 62 - 1)) = 2 ^ 62 - 1.
Proof. vm_compute. split; reflexivity. Qed.
Example C01_wraps : as_precise_int (from_i64 (2 ^ 62)) = - 2 ^ 62.
Proof. vm_compute. reflexivity. Qed.

(** C02.  For every inline value: the word fits 64 bits, the reported type is the
    constructor's, the payload reads back, each of the seven type tests answers
    exactly "is it this constructor", and words of two inline values are equal exactly
    when the values are. *)
Theorem C02_inline_faithful : forall v w : inline, inline_ok v -> inline_ok w ->
  0 <= store v < 2 ^ 64 /\
  ty (store v) = kind v /\
  load (store v) = Some v /\
  tests (store v) = expected_tests v /\
  (store v = store w <-> v = w).
Proof. exact inline_faithful. Qed.
Print Assumptions C02_inline_faithful.

Example C02_hypotheses : inline_ok (IStr [104; 105]) /\ inline_ok (IPtr 140737488355320) /\ inline_ok (IInt (- 2 ^ 62)) /\
  inline_ok (INative 123) /\ inline_ok (IField 4294967295).
Proof. cbn. unfold is_int63, MIN_INT, MAX_INT. repeat split; try lia; intros; intuition lia. Qed.

(** Where truth of a boolean matters as an integer: `as_int` of true is 1 and of
    false is 0 (used by arithmetic on booleans). *)
Theorem C02_bool_as_int : forall b : bool,
  is_int (from_bool b) = true /\ as_int (from_bool b) = (if b then 1 else 0) /\ as_bool (from_bool b) = b.
Proof. exact bool_as_int. Qed.
Print Assumptions C02_bool_as_int.
