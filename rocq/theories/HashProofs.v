From Verif Require Import Base BaseProofs Ptr Native Value ValueSpec ValueProofs.
Local Open Scope Z_scope.

Lemma stable_in x l : fold_right (fun x P => hash_stable x /\ P) True l -> In x l -> hash_stable x.
Proof. induction l as [|y l IH]; cbn; [tauto|]. intros [H1 H2] [->|H]; auto. Qed.

Lemma hwords_list_eq l : forall r, (forall x y, In x l -> In y r -> value_eq x y = true -> hwords x = hwords y) ->
  list_eqb value_eq l r = true -> length l = length r /\ flat_map hwords l = flat_map hwords r.
Proof.
  induction l as [|x l IH]; intros [|y r] H; cbn [list_eqb]; try discriminate; [auto|].
  intros E. apply andb_prop in E. destruct E as [E1 E2].
  destruct (IH r) as [L F]; [intros; apply H; auto using in_cons|exact E2|].
  cbn [length flat_map]. rewrite L, F. rewrite (H x y); auto using in_eq.
Qed.

Lemma hash_eq_n n : forall a b, (size a < n)%nat -> hash_stable a -> hash_stable b -> value_eq a b = true -> hwords a = hwords b.
Proof.
  induction n as [|n IH]; intros a b Hn Sa Sb E; [lia|].
  assert (HL : forall l r, (list_sum (map size l) < n)%nat ->
     fold_right (fun x P => hash_stable x /\ P) True l -> fold_right (fun x P => hash_stable x /\ P) True r ->
     list_eqb value_eq l r = true -> length l = length r /\ flat_map hwords l = flat_map hwords r).
  { intros l r Hl Pl Pr. apply hwords_list_eq. intros x y Hx Hy. pose proof (size_in x l Hx).
    apply IH; [lia|exact (stable_in x l Pl Hx)|exact (stable_in y r Pr Hy)]. }
  destruct a, b; try discriminate E; cbn [size hash_stable] in Hn, Sa, Sb.
  - reflexivity.
  - cbn [value_eq] in E. apply eqb_prop in E. subst. reflexivity.
  - cbn [value_eq] in E. apply Z.eqb_eq in E. congruence.
  - cbn [value_eq] in E. apply andb_prop in E. destruct E as [E1 E2]. apply Z.eqb_eq in E2. congruence.
  - cbn [value_eq] in E. apply andb_prop in E. destruct E as [E1 E2]. apply Z.eqb_eq in E1, E2. congruence.
  - cbn [value_eq] in E. apply andb_prop in E. destruct E as [E1 E2]. apply Z.eqb_eq in E2. congruence.
  - cbn [value_eq] in E. apply andb_prop in E. destruct E as [E1 E2]. apply Z.eqb_eq in E1, E2. congruence.
  - cbn [value_eq] in E. apply (list_eqb_spec Z.eqb Z.eqb_eq) in E. congruence.
  - rewrite veq_list in E. apply HL in E; [|lia|assumption|assumption]. cbn [hwords]. destruct E as [-> ->]. reflexivity.
  - rewrite veq_vector in E. apply HL in E; [|lia|assumption|assumption]. cbn [hwords]. destruct E as [-> ->]. reflexivity.
  - rewrite veq_set in E. apply andb_prop in E. destruct E as [E1 E2]. apply Nat.eqb_eq in E1.
    destruct Sa as [La Sa], Sb as [Lb Sb].
    destruct l as [|x [|]], l0 as [|y [|]]; cbn [length] in *; try lia; [reflexivity|].
    cbn [forallb existsb] in E2. rewrite orb_false_r, andb_true_r in E2. unfold key_match in E2. apply andb_prop in E2.
    apply same_hash_spec. cbn [hwords flat_map]. unfold same_hash. cbn [hwords flat_map]. rewrite !app_nil_r. apply E2.
  - rewrite veq_dict in E. apply andb_prop in E. destruct E as [E1 E2]. apply Nat.eqb_eq in E1.
    destruct Sa as [La Sa], Sb as [Lb Sb].
    destruct l as [|[k x] [|]], l0 as [|[k' x'] [|]]; cbn [length] in *; try lia; [reflexivity|].
    cbn [forallb] in E2. rewrite andb_true_r in E2. unfold dict_get in E2. cbn [find fst snd] in E2.
    destruct (key_match k k') eqn:K; [|discriminate]. cbn [snd] in E2.
    unfold key_match in K. apply andb_prop in K. destruct K as [K1 K2]. apply same_hash_spec in K1.
    cbn in Sa, Sb. cbn [hwords]. rewrite K1. rewrite (IH x x'); try tauto. lia.
  - rewrite veq_heap in E. apply HL in E; [|lia|assumption|assumption]. cbn [hwords]. destruct E as [_ ->]. reflexivity.
  - rewrite veq_struct in E. apply andb_prop in E. destruct E as [E1 E]. apply Z.eqb_eq in E1.
    apply HL in E; [|lia|assumption|assumption]. cbn [hwords]. destruct E as [-> ->]. congruence.
  - cbn [value_eq] in E. apply Z.eqb_eq in E. congruence.
  - cbn [value_eq] in E. apply andb_prop in E. destruct E as [E E3]. apply andb_prop in E. destruct E as [E1 E2].
    apply Z.eqb_eq in E1, E2, E3. congruence.
  - cbn [value_eq hwords] in *. apply IH; auto. lia.
  - cbn [value_eq hwords] in *. apply andb_prop in E. destruct E as [E E3]. apply andb_prop in E. destruct E as [E1 E2].
    rewrite (IH a1 b1), (IH a2 b2), (IH a3 b3); try tauto; lia.
  - cbn [value_eq] in E. apply native_eqb_spec in E. congruence.
  - cbn [value_eq] in E. apply native_eqb_spec in E. cbn [hwords]. congruence.
  - cbn [value_eq] in E. apply Z.eqb_eq in E. congruence.
  - cbn [value_eq] in E. apply Z.eqb_eq in E. congruence.
  - cbn [value_eq] in E. apply Z.eqb_eq in E. cbn [hwords]. congruence.
  - cbn [value_eq hwords] in *. apply IH; auto. lia.
Qed.
Lemma hash_eq a b : hash_stable a -> hash_stable b -> value_eq a b = true -> hwords a = hwords b.
Proof. apply (hash_eq_n (S (size a))). lia. Qed.

Lemma equality_equivalence : forall a b c : value, wf a -> wf b -> wf c ->
  value_eq a a = true /\ value_eq a b = value_eq b a /\
  (value_eq a b = true -> value_eq b c = true -> value_eq a c = true).
Proof. intros a b c Ha Hb Hc. split; [apply value_eq_refl, Ha|]. split; [apply value_eq_sym; assumption|]. apply value_eq_trans; assumption. Qed.
Lemma equality_kinds : forall a b : value, value_eq a b = true ->
  vty a = vty b \/ (vty a = YInt /\ vty b = YRational) \/ (vty a = YRational /\ vty b = YInt).
Proof. intros a b; destruct a, b; cbn [vty]; try discriminate; auto. Qed.
Lemma equality_list : forall l r : list value,
  value_eq (VList l) (VList r) = true <-> Forall2 (fun x y => value_eq x y = true) l r.
Proof.
  intros l r. rewrite veq_list. revert r. induction l as [|x l IH]; intros [|y r]; cbn [list_eqb]; split; intros H;
    try discriminate; try constructor; try (inversion H; fail).
  - apply andb_prop in H. apply H.
  - apply IH. apply andb_prop in H. apply H.
  - inversion H; subst. rewrite H3. apply IH. assumption.
Qed.
Lemma equality_dict : forall l r : list (value * value), wf (VDict l) -> wf (VDict r) ->
  (value_eq (VDict l) (VDict r) = true <->
   length l = length r /\ forall k x, In (k, x) l -> exists y, dict_get r k = Some y /\ value_eq x y = true).
Proof.
  intros l r Wl Wr. rewrite veq_dict, andb_true_iff, Nat.eqb_eq, forallb_forall. split; intros [H1 H2]; split; auto.
  - intros k x Hin. specialize (H2 _ Hin). cbn [fst snd] in H2. destruct (dict_get r k) as [y|]; [eauto|discriminate].
  - intros [k x] Hin. destruct (H2 k x Hin) as [y [E1 E2]]. cbn [fst snd]. rewrite E1. exact E2.
Qed.
Lemma int_order : forall m n : Z, vlt (VInt m) (VInt n) = (m <? n).
Proof. intros m n. unfold vlt. cbn [value_cmp real_key]. unfold Z.ltb. destruct (m ?= n); reflexivity. Qed.

Lemma wf_int_small n : -100 <= n <= 100 -> wf (VInt n).
Proof. constructor. unfold is_int63, MIN_INT, MAX_INT. lia. Qed.
Lemma mixed_order_refuted : exists a b c : value, wf a /\ wf b /\ wf c /\
  vle a b = true /\ vle b c = true /\ vle a c = false.
Proof.
  exists (VInt 2), (VList []), (VInt 1). repeat split; try reflexivity; try (apply wf_int_small; lia).
  constructor. intros x [].
Qed.
Lemma bool_rational_refuted : exists a b c : value, wf a /\ wf b /\ wf c /\
  value_cmp a b = Eq /\ value_cmp b c = Eq /\ value_cmp a c <> Eq.
Proof.
  exists (VBool true), (VRational 1 1), (VInt 1). repeat split; try reflexivity; try (apply wf_int_small; lia);
    try constructor; try reflexivity. vm_compute. discriminate.
Qed.
Lemma equal_hash_refuted : exists a b : value, wf a /\ wf b /\ value_eq a b = true /\
  exists h h', fx_hash a = Some h /\ fx_hash b = Some h' /\ h <> h'.
Proof.
  exists (VSet [VInt 1; VInt 2]), (VSet [VInt 2; VInt 1]).
  split; [constructor; cbn; [intros x [<-|[<-|[]]]; apply wf_int_small; lia|repeat split; intros y H; intuition; subst; reflexivity]|].
  split; [constructor; cbn; [intros x [<-|[<-|[]]]; apply wf_int_small; lia|repeat split; intros y H; intuition; subst; reflexivity]|].
  split; [vm_compute; reflexivity|].
  eexists. eexists. split; [vm_compute; reflexivity|]. split; [vm_compute; reflexivity|]. vm_compute. discriminate.
Qed.
Lemma int_rational_hash_refuted : exists a b : value, wf a /\ wf b /\ value_eq a b = true /\ hwords a <> hwords b.
Proof.
  exists (VInt 2), (VRational 2 1). split; [apply wf_int_small; lia|]. split; [constructor; reflexivity|].
  split; [reflexivity|]. vm_compute. discriminate.
Qed.
