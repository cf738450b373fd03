(** The operators that have no swapped form give the same answer both ways round. *)
From Verif Require Import Base BaseProofs Ptr Native Value ValueSpec Err Iter Seq Ops OpsSpec ValueProofs OpsProofs OpsProofs2 OpsProofs3 Disp DispSpec.
From Coq Require Import QArith_base Qreduction.
Local Open Scope Z_scope.

Lemma same_sets l r : wf (VSet l) -> wf (VSet r) -> (forall x, wf x -> mem x l <-> mem x r) -> value_eq (VSet l) (VSet r) = true.
Proof.
  intros Wl Wr H. destruct (set_wf _ Wl) as [Al Dl]. destruct (set_wf _ Wr) as [Ar Dr].
  assert (P : forall a b, all_wf a -> all_wf b -> distinct key_match a -> (forall x, In x a -> mem x b) -> (length a <= length b)%nat).
  { intros a b Wa Wb Da Hs. destruct (pigeon key_match a b) as [L _]; [|  |exact L].
    - intros x Hx. destruct (Hs x Hx) as (y & Hy & E). eauto.
    - apply (distinct_impl key_match); [|exact Da]. intros x y Hx Hy E. apply existsb_exists in E.
      destruct E as [z [Hz E]]. apply andb_prop in E. destruct E as [E1 E2].
      apply (key_match_trans x z y); auto. rewrite key_match_sym by auto. exact E2. }
  assert (S : forall a x, all_wf a -> In x a -> mem x a).
  { intros a x Wa Hx. exists x. split; [exact Hx|apply key_match_refl; auto]. }
  rewrite veq_set. apply andb_true_intro. split.
  - apply Nat.eqb_eq. apply Nat.le_antisymm; apply P; auto; intros x Hx; [apply (proj1 (H x (Al x Hx)))|apply (proj2 (H x (Ar x Hx)))]; auto.
  - apply forallb_forall. intros x Hx. apply existsb_exists. destruct (proj1 (H x (Al x Hx)) (S l x Al Hx)) as (y & Hy & E). eauto.
Qed.

Lemma same_refl r : good False r -> same_answer r r.
Proof. destruct r; cbn; auto. apply value_eq_refl. Qed.

Definition same_opt (x y : option (result value)) : Prop :=
  match x, y with Some a, Some b => same_answer a b | None, None => True | _, _ => False end.
Definition same_answers (x y : result (list value)) : Prop :=
  match x, y with
  | Ok a, Ok b => list_eqb value_eq a b = true
  | Err _, Err _ => True
  | _, _ => False
  end.
Lemma same_cons r r' rs rs' : same_answer r r' -> same_answers rs rs' ->
  same_answers (let? z := r in let? zs := rs in Ok (z :: zs)) (let? z := r' in let? zs := rs' in Ok (z :: zs)).
Proof.
  destruct r, r'; cbn; auto; try contradiction. destruct rs, rs'; cbn; auto; try contradiction.
  intros -> ->. reflexivity.
Qed.
Lemma same_vector rs rs' : same_answers rs rs' -> same_answer (let? z := rs in Ok (VVector z)) (let? z := rs' in Ok (VVector z)).
Proof. destruct rs, rs'; cbn [bind same_answers same_answer]; auto. intros H. rewrite veq_vector. exact H. Qed.

Lemma lift2_same base o :
  (forall a b, wf a -> wf b -> same_opt (base a b) (base b a)) ->
  forall a b, wf a -> wf b -> same_answer (lift2 base o a b) (lift2 base o b a).
Proof.
  intros HB. induction a as [a IHa] using vector_ind. induction b as [b IHb] using vector_ind.
  intros Ha Hb. pose proof (HB a b Ha Hb) as HS. unfold same_opt in HS.
  destruct (base a b) as [r|] eqn:E; destruct (base b a) as [r'|] eqn:E'; try contradiction.
  { rewrite (lift2_base _ _ _ _ _ E), (lift2_base _ _ _ _ _ E'). exact HS. }
  clear HS.
  destruct a as [| | | | | | |l| | | | | | | | | | | | | | ]; try (
    destruct b as [| | | | | | |r| | | | | | | | | | | | | | ]; cbn [lift2]; rewrite ?E, ?E'; try exact I;
    apply same_vector; specialize (IHb r eq_refl); pose proof (wf_vec _ Hb) as Hr; clear E E' Hb;
    induction r as [|y r IHr]; [reflexivity|];
    apply same_cons; [apply IHb; [left; reflexivity|exact Ha|apply Hr; left; reflexivity]
                     |apply IHr; [intros; apply IHb; auto; right; assumption|intros; apply Hr; right; assumption]]).
  specialize (IHa l eq_refl). pose proof (wf_vec _ Ha) as Hl.
  destruct b as [| | | | | | |r| | | | | | | | | | | | | | ]; cbn [lift2]; rewrite ?E, ?E'; try (
    apply same_vector; clear E E' Ha IHb;
    induction l as [|y l IHl]; [reflexivity|];
    apply same_cons; [apply IHa; [left; reflexivity|apply Hl; left; reflexivity|exact Hb]
                     |apply IHl; [intros; apply IHa; auto; right; assumption|intros; apply Hl; right; assumption]]).
  apply same_vector. pose proof (wf_vec _ Hb) as Hr. clear E E' Ha Hb IHb. revert r Hr.
  induction l as [|x l IHl]; intros r Hr; [destruct r; reflexivity|].
  destruct r as [|y r]; [reflexivity|].
  apply same_cons; [apply IHa; [left; reflexivity|apply Hl; left; reflexivity|apply Hr; left; reflexivity]|].
  apply IHl; [intros; apply IHa; auto; right; assumption|intros; apply Hl; right; assumption|intros; apply Hr; right; assumption].
Qed.

Lemma c_mul_comm x y : c_mul x y = c_mul y x.
Proof. destruct x as [a b], y as [c d]. rewrite !c_mul_val. f_equal; f_equal; ring. Qed.
Lemma of_rational_mul p q : of_rational (Qmult p q) = of_rational (Qmult q p).
Proof. unfold of_rational. assert (E : (p * q == q * p)%Q) by (unfold Qeq; destruct p, q; cbn; rewrite Pos.mul_comm; ring). apply Qred_complete in E. rewrite E. reflexivity. Qed.
Lemma numeric_mul_comm a b : numeric Z.mul c_mul Qmult a b = numeric Z.mul c_mul Qmult b a.
Proof.
  unfold numeric. destruct (as_int_opt a) as [x|] eqn:A, (as_int_opt b) as [y|] eqn:B.
  1: rewrite Z.mul_comm; reflexivity.
  all: destruct (to_complex a) as [u|], (to_complex b) as [v|]; try (rewrite (c_mul_comm u v); reflexivity).
  all: destruct (to_rational a) as [p|], (to_rational b) as [q|]; try reflexivity; try (rewrite (of_rational_mul p q); reflexivity).
Qed.
Lemma same_mul a b : wf a -> wf b -> same_opt (mul_base a b) (mul_base b a).
Proof.
  intros Ha Hb.
  assert (E : mul_base a b = mul_base b a).
  { unfold mul_base. rewrite numeric_mul_comm. destruct (numeric _ _ _ b a); [reflexivity|]. destruct a, b; reflexivity. }
  rewrite <- E. destruct (mul_base a b) as [r|] eqn:F; [|exact I]. cbn [same_opt]. apply same_refl. apply (mul_good False a b); auto.
Qed.
Lemma same_bitwise o fb fi fs ts fm a b : (forall x y, fb x y = fb y x) -> (forall x y, fi x y = fi y x) ->
  (forall l r, wf (VSet l) -> wf (VSet r) -> exists p q, binary_op ts fm o (VSet l) (VSet r) = Ok (VSet p) /\ binary_op ts fm o (VSet r) (VSet l) = Ok (VSet q) /\ value_eq (VSet p) (VSet q) = true) ->
  (forall a b, binary_op ts fm o a b = lift2 (bitwise_base fb fi fs) o a b) ->
  wf a -> wf b -> same_opt (bitwise_base fb fi fs a b) (bitwise_base fb fi fs b a).
Proof.
  intros H1 H2 H3 H4 Ha Hb.
  assert (G : forall x y, same_opt (Some (Ok (of_int (fi x y)))) (Some (Ok (of_int (fi y x))))).
  { intros. cbn [same_opt same_answer]. rewrite H2. apply value_eq_refl. apply wf_of_int. }
  destruct a, b; cbn [bitwise_base as_int_opt]; try exact I; try apply G.
  - cbn. rewrite H1. apply Bool.eqb_reflx.
  - destruct (H3 _ _ Ha Hb) as (p & q & E1 & E2 & E3). rewrite H4 in E1, E2.
    rewrite (lift2_base _ _ _ _ (Ok (VSet (to_set (fs l l0))))) in E1 by reflexivity.
    rewrite (lift2_base _ _ _ _ (Ok (VSet (to_set (fs l0 l))))) in E2 by reflexivity.
    injection E1 as <-. injection E2 as <-. cbn [same_opt same_answer]. exact E3.
Qed.

Lemma symmetric_ops ts fm o a b : In o [BMul; BAnd; BOr; BXor; BEqual; BNotEqual] -> wf a -> wf b ->
  same_answer (binary_op ts fm o a b) (binary_op ts fm o b a).
Proof.
  intros Ho Ha Hb.
  assert (SA : forall l r, wf (VSet l) -> wf (VSet r) -> exists p q, binary_op ts fm BAnd (VSet l) (VSet r) = Ok (VSet p) /\ binary_op ts fm BAnd (VSet r) (VSet l) = Ok (VSet q) /\ value_eq (VSet p) (VSet q) = true).
  { intros l r Wl Wr. destruct (set_ops ts fm l r Wl Wr) as (_ & (p & E1 & W1 & _ & M1) & _ & _).
    destruct (set_ops ts fm r l Wr Wl) as (_ & (q & E2 & W2 & _ & M2) & _ & _). exists p, q. split; [exact E1|]. split; [exact E2|].
    apply same_sets; auto. intros x Hx. rewrite M1, M2 by auto. tauto. }
  assert (SO : forall l r, wf (VSet l) -> wf (VSet r) -> exists p q, binary_op ts fm BOr (VSet l) (VSet r) = Ok (VSet p) /\ binary_op ts fm BOr (VSet r) (VSet l) = Ok (VSet q) /\ value_eq (VSet p) (VSet q) = true).
  { intros l r Wl Wr. destruct (set_ops ts fm l r Wl Wr) as (_ & _ & (p & E1 & W1 & _ & M1) & _).
    destruct (set_ops ts fm r l Wr Wl) as (_ & _ & (q & E2 & W2 & _ & M2) & _). exists p, q. split; [exact E1|]. split; [exact E2|].
    apply same_sets; auto. intros x Hx. rewrite M1, M2 by auto. tauto. }
  assert (SX : forall l r, wf (VSet l) -> wf (VSet r) -> exists p q, binary_op ts fm BXor (VSet l) (VSet r) = Ok (VSet p) /\ binary_op ts fm BXor (VSet r) (VSet l) = Ok (VSet q) /\ value_eq (VSet p) (VSet q) = true).
  { intros l r Wl Wr. destruct (set_ops ts fm l r Wl Wr) as (_ & _ & _ & (p & E1 & W1 & _ & M1)).
    destruct (set_ops ts fm r l Wr Wl) as (_ & _ & _ & (q & E2 & W2 & _ & M2)). exists p, q. split; [exact E1|]. split; [exact E2|].
    apply same_sets; auto. intros x Hx. rewrite M1, M2 by auto. tauto. }
  cbn in Ho. destruct Ho as [<-|[<-|[<-|[<-|[<-|[<-|[]]]]]]].
  - apply lift2_same; auto. exact same_mul.
  - apply lift2_same; auto. intros x y Hx Hy. apply (same_bitwise BAnd _ _ _ ts fm); auto; intros; [apply andb_comm|apply Z.land_comm].
  - apply lift2_same; auto. intros x y Hx Hy. apply (same_bitwise BOr _ _ _ ts fm); auto; intros; [apply orb_comm|apply Z.lor_comm].
  - apply lift2_same; auto. intros x y Hx Hy. apply (same_bitwise BXor _ _ _ ts fm); auto; intros; [apply xorb_comm|apply Z.lxor_comm].
  - cbn. rewrite (value_eq_sym a b) by auto. apply Bool.eqb_reflx.
  - cbn. rewrite (value_eq_sym a b) by auto. apply Bool.eqb_reflx.
Qed.
