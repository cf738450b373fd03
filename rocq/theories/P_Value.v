(** C16 - C19: equality, ordering and hashing of values. *)
From Verif Require Import Base BaseProofs Ptr Native Value ValueSpec ValueProofs OrderProofs HashProofs.
Local Open Scope Z_scope.

(** C16: == is an equivalence relation on all (well-formed) values of any nesting. *)
Theorem C16_equality_equivalence : forall a b c : value, wf a -> wf b -> wf c ->
  value_eq a a = true /\
  value_eq a b = value_eq b a /\
  (value_eq a b = true -> value_eq b c = true -> value_eq a c = true).
Proof. exact equality_equivalence. Qed.
Print Assumptions C16_equality_equivalence.

(** C16: values of different types are unequal, except an int and a rational. *)
Theorem C16_equality_kinds : forall a b : value, value_eq a b = true ->
  vty a = vty b \/ (vty a = YInt /\ vty b = YRational) \/ (vty a = YRational /\ vty b = YInt).
Proof. exact equality_kinds. Qed.
Print Assumptions C16_equality_kinds.

(** C16: and what equality means for each structured type: equal length and
    elementwise equal for lists and vectors; for dicts, equal size and every key of
    one looked up in the other gives an equal value. *)
Theorem C16_equality_list : forall l r : list value,
  value_eq (VList l) (VList r) = true <-> Forall2 (fun x y => value_eq x y = true) l r.
Proof. exact equality_list. Qed.
Print Assumptions C16_equality_list.
Theorem C16_equality_dict : forall l r : list (value * value), wf (VDict l) -> wf (VDict r) ->
  (value_eq (VDict l) (VDict r) = true <->
   length l = length r /\ forall k x, In (k, x) l -> exists y, dict_get r k = Some y /\ value_eq x y = true).
Proof. exact equality_dict. Qed.
Print Assumptions C16_equality_dict.

Example C16_hypotheses : let v := VDict [(VStr [97], VSet [VInt 1; VComplex 1 2]); (VInt 2, VList [VRational 1 2; VNil])] in
  wf v /\ value_eq v (VDict [(VInt 2, VList [VRational 1 2; VNil]); (VStr [97], VSet [VComplex 1 2; VInt 1])]) = true.
Proof.
  split; [|vm_compute; reflexivity].
  assert (I : forall n, (n = 1 \/ n = 2) -> wf (VInt n)) by (intros n H; constructor; unfold is_int63, MIN_INT, MAX_INT; destruct H; subst; lia).
  constructor.
  - cbn. intros k x [E|[E|[]]]; inversion E; subst; split.
    + constructor. cbn. intros c [<-|[]]. unfold is_char. lia.
    + constructor; [|cbn; repeat split; intros y H; intuition; subst; reflexivity].
      cbn. intros y [<-|[<-|[]]]; [apply I; auto|]. constructor; unfold is_i64; lia.
    + apply I; auto.
    + constructor. cbn. intros y [<-|[<-|[]]]; constructor. reflexivity.
  - cbn. repeat split; intros y H; intuition; subst; reflexivity.
Qed.

(** C17: on each ordered kind, of every nesting depth, comparison is a total order
    whose equality is ==. *)
Theorem C17_total_order : forall (k : okind) (a b c : value),
  wf a /\ of_kind k a -> wf b /\ of_kind k b -> wf c /\ of_kind k c ->
  (value_cmp a b = Eq <-> value_eq a b = true) /\
  value_cmp b a = CompOpp (value_cmp a b) /\
  (vlt a b = true -> vlt b c = true -> vlt a c = true) /\
  (vle a b = true -> vle b c = true -> vle a c = true).
Proof. exact kind_order. Qed.
Print Assumptions C17_total_order.

Theorem C17_trichotomy : forall (k : okind) (a b : value),
  wf a /\ of_kind k a -> wf b /\ of_kind k b ->
  (vlt a b = true /\ value_eq a b = false /\ vlt b a = false) \/
  (vlt a b = false /\ value_eq a b = true /\ vlt b a = false) \/
  (vlt a b = false /\ value_eq a b = false /\ vlt b a = true).
Proof. exact kind_trichotomy. Qed.
Print Assumptions C17_trichotomy.

(** C17: strings are ordered by code points, ints numerically, lists lexicographically. *)
Theorem C17_string_order : forall s t : list Z,
  (forall c, In c s -> is_char c) -> (forall c, In c t -> is_char c) ->
  value_cmp (VStr s) (VStr t) = lex_cmp Z.compare s t.
Proof. exact utf8_order. Qed.
Print Assumptions C17_string_order.
Theorem C17_int_order : forall m n : Z, vlt (VInt m) (VInt n) = (m <? n).
Proof. exact int_order. Qed.
Print Assumptions C17_int_order.

(** The four comparison operators are mutually consistent on *all* values, ordered
    or not. *)
Theorem C17_operators_consistent : forall a b : value,
  vgt a b = vlt b a /\ vle a b = negb (vgt a b) /\ vge a b = negb (vlt a b).
Proof. exact derived_ops. Qed.
Print Assumptions C17_operators_consistent.

Example C17_hypotheses : (wf (VList [VInt 1; VComplex 2 3; VNil; VBool true]) /\
   of_kind (KList KReal) (VList [VInt 1; VComplex 2 3; VNil; VBool true])).
Proof.
  split; constructor; cbn; intros x [<-|[<-|[<-|[<-|[]]]]]; constructor; unfold is_int63, is_i64, MIN_INT, MAX_INT; lia.
Qed.

(** C18 is false of the code: <= is not transitive across types (all other pairs of
    types compare as "equal"), so sorting mixed data is not meaningful. *)
Theorem C18_mixed_order_refuted : exists a b c : value, wf a /\ wf b /\ wf c /\
  vle a b = true /\ vle b c = true /\ vle a c = false.
Proof. exact mixed_order_refuted. Qed.
Print Assumptions C18_mixed_order_refuted.
(** ... and even among numbers, once nil or booleans meet rationals: *)
Theorem C18_bool_rational_refuted : exists a b c : value, wf a /\ wf b /\ wf c /\
  value_cmp a b = Eq /\ value_cmp b c = Eq /\ value_cmp a c <> Eq.
Proof. exact bool_rational_refuted. Qed.
Print Assumptions C18_bool_rational_refuted.

(** C19 is false of the code: two equal sets with different (fx) hashes; and an int
    equal to a rational that hashes other data. *)
Theorem C19_equal_hash_refuted : exists a b : value, wf a /\ wf b /\ value_eq a b = true /\
  exists h h', fx_hash a = Some h /\ fx_hash b = Some h' /\ h <> h'.
Proof. exact equal_hash_refuted. Qed.
Print Assumptions C19_equal_hash_refuted.
Theorem C19_int_rational_refuted : exists a b : value, wf a /\ wf b /\ value_eq a b = true /\ hwords a <> hwords b.
Proof. exact int_rational_hash_refuted. Qed.
Print Assumptions C19_int_rational_refuted.
(** What does hold: values free of sets/dicts with two or more entries and of
    rationals with denominator 1 feed the same data to the hasher whenever equal. *)
Theorem C19_equal_hash_partial : forall a b : value, hash_stable a -> hash_stable b ->
  value_eq a b = true -> hwords a = hwords b.
Proof. exact hash_eq. Qed.
Print Assumptions C19_equal_hash_partial.
Example C19_hypotheses : hash_stable (VList [VSet [VInt 1]; VStr [97]; VRational 1 2; VComplex 0 1]).
Proof. cbn. repeat split; try lia. Qed.
