(** Operators keep values well-formed; when they can crash. *)
From Verif Require Import Base BaseProofs Ptr Native Value Err Iter IterProofs Seq Ops ValueSpec ValueProofs OpsSpec OpsProofs OpsProofs2.
From Coq Require Import QArith_base Qreduction.
Local Open Scope Z_scope.

Lemma vector_ind (P : value -> Prop) :
  (forall v, (forall l, v = VVector l -> forall x, In x l -> P x) -> P v) -> forall v, P v.
Proof.
  intros H. fix IH 1. intros v. apply H. destruct v; intros l0 E; try discriminate E. injection E as <-.
  induction l as [|y l IHl]; intros x Hx; [destruct Hx|].
  destruct Hx as [<-|Hx]; [apply IH|apply IHl, Hx].
Qed.

Definition good (pn : Prop) (r : result value) : Prop := match r with Ok v => wf v | Err _ => True | Panic => pn end.
Definition goodl (pn : Prop) (r : result (list value)) : Prop := match r with Ok l => all_wf l | Err _ => True | Panic => pn end.

Lemma good_cons pn r rs : good pn r -> goodl pn rs -> goodl pn (let? z := r in let? zs := rs in Ok (z :: zs)).
Proof.
  destruct r as [x|e|]; cbn; auto. destruct rs as [l|e|]; cbn; auto.
  intros Hx Hl y [<-|Hy]; [exact Hx|apply Hl, Hy].
Qed.
Lemma good_vector pn rs : goodl pn rs -> good pn (let? z := rs in Ok (VVector z)).
Proof. destruct rs; cbn; auto. intros H. apply wf_vector. exact H. Qed.

Section Lift.
  Variable W1 W2 : value -> Prop.
  Variable pn : Prop.
  Hypothesis W1v : forall l, W1 (VVector l) -> forall x, In x l -> W1 x.
  Hypothesis W2v : forall l, W2 (VVector l) -> forall x, In x l -> W2 x.
  Lemma lift2_good base o :
    (forall a b r, W1 a -> W2 b -> base a b = Some r -> good pn r) ->
    forall a b, W1 a -> W2 b -> good pn (lift2 base o a b).
  Proof.
    intros HB. induction a as [a IHa] using vector_ind. induction b as [b IHb] using vector_ind.
    intros Ha Hb. destruct (base a b) as [r|] eqn:E.
    { rewrite (lift2_base _ _ _ _ _ E). eapply HB; eassumption. }
    destruct a as [| | | | | | |l| | | | | | | | | | | | | | ]; try (
      destruct b as [| | | | | | |r| | | | | | | | | | | | | | ]; cbn [lift2]; rewrite E; try exact I;
      apply good_vector; specialize (IHb r eq_refl); pose proof (W2v _ Hb) as Hr; clear E Hb;
      induction r as [|y r IHr]; [intros ? []|];
      apply good_cons; [apply IHb; [left; reflexivity|exact Ha|apply Hr; left; reflexivity]
                       |apply IHr; [intros; apply IHb; auto; right; assumption|intros; apply Hr; right; assumption]]).
    specialize (IHa l eq_refl). pose proof (W1v _ Ha) as Hl.
    destruct b as [| | | | | | |r| | | | | | | | | | | | | | ]; cbn [lift2]; rewrite E; try (
      apply good_vector; clear E Ha IHb;
      induction l as [|y l IHl]; [intros ? []|];
      apply good_cons; [apply IHa; [left; reflexivity|apply Hl; left; reflexivity|exact Hb]
                       |apply IHl; [intros; apply IHa; auto; right; assumption|intros; apply Hl; right; assumption]]).
    apply good_vector. pose proof (W2v _ Hb) as Hr. clear E Ha Hb IHb. revert r Hr.
    induction l as [|x l IHl]; intros r Hr; [intros ? []|].
    destruct r as [|y r]; [intros ? []|].
    apply good_cons; [apply IHa; [left; reflexivity|apply Hl; left; reflexivity|apply Hr; left; reflexivity]|].
    apply IHl; [intros; apply IHa; auto; right; assumption|intros; apply Hl; right; assumption|intros; apply Hr; right; assumption].
  Qed.
  Lemma lift1_good base o :
    (forall a r, W1 a -> base a = Some r -> good pn r) -> forall a, W1 a -> good pn (lift1 base o a).
  Proof.
    intros HB. induction a as [a IHa] using vector_ind. intros Ha. destruct (base a) as [r|] eqn:E.
    { rewrite (lift1_base _ _ _ _ E). eapply HB; eassumption. }
    destruct a as [| | | | | | |l| | | | | | | | | | | | | | ]; cbn [lift1]; rewrite E; try exact I.
    apply good_vector. specialize (IHa l eq_refl). pose proof (W1v _ Ha) as Hl. clear E Ha.
    induction l as [|y l IHl]; [intros ? []|].
    apply good_cons; [apply IHa; [left; reflexivity|apply Hl; left; reflexivity]
                     |apply IHl; [intros; apply IHa; auto; right; assumption|intros; apply Hl; right; assumption]].
  Qed.
End Lift.

Lemma wf_of_int z : wf (of_int z).
Proof. apply wf_int. apply (proj1 (wraps_to_wrap63 z)). Qed.
Lemma wf_of_complex c : is_i64 (fst c) -> is_i64 (snd c) -> wf (of_complex c).
Proof.
  intros H1 H2. unfold of_complex. destruct (snd c =? 0) eqn:E; [apply wf_of_int|]. apply wf_complex; [assumption..|lia].
Qed.
Lemma wf_of_rational q : wf (of_rational q).
Proof. destruct (of_rational_spec q) as (n & d & -> & _ & H). apply wf_rational, H. Qed.
Lemma wf_c_add a b : wf (of_complex (c_add a b)). Proof. apply wf_of_complex; apply i64_range. Qed.
Lemma wf_c_sub a b : wf (of_complex (c_sub a b)). Proof. apply wf_of_complex; apply i64_range. Qed.
Lemma wf_c_mul a b : wf (of_complex (c_mul a b)). Proof. apply wf_of_complex; apply i64_range. Qed.

Lemma numeric_good pn fi fc fq a b r : (forall x y, wf (of_complex (fc x y))) -> numeric fi fc fq a b = Some r -> good pn r.
Proof.
  intros Hc. unfold numeric.
  destruct (as_int_opt a), (as_int_opt b), (to_complex a), (to_complex b), (to_rational a), (to_rational b);
    intros E; inversion E; subst; cbn [good]; first [apply wf_of_int|apply Hc|apply wf_of_rational].
Qed.

Lemma wf_str_app s t : wf (VStr s) -> (forall c, In c t -> is_char c) -> wf (VStr (s ++ t)).
Proof. intros H Ht. inversion H; subst. apply wf_str. intros c Hc. apply in_app_or in Hc. destruct Hc; auto. Qed.
Lemma wf_concat_repeat l n : all_wf l -> all_wf (concat (repeat l n)).
Proof. intros H x Hx. apply in_concat in Hx. destruct Hx as (l' & Hl & Hx). apply repeat_spec in Hl. subst. auto. Qed.
Lemma wf_cycle l n : all_wf l -> all_wf (cycle_take l n).
Proof.
  intros H x Hx. unfold cycle_take in Hx. destruct l as [|d l]; [destruct Hx|]. apply in_map_iff in Hx.
  destruct Hx as (k & <- & _). apply H. apply nth_In. apply Nat.mod_upper_bound. discriminate.
Qed.
Lemma str_repeat_good pn s i : wf (VStr s) -> good pn (binary_str_repeat s i).
Proof.
  intros H. unfold binary_str_repeat. destruct (i <? 0); [exact I|]. inversion H; subst. apply wf_str.
  intros c Hc. rewrite repeat_str_spec in Hc. apply in_concat in Hc. destruct Hc as (l' & Hl & Hx). apply repeat_spec in Hl. subst. auto.
Qed.
Lemma list_repeat_good pn l i d : wf (VList l) -> good pn (binary_list_repeat l i d).
Proof.
  intros H. unfold binary_list_repeat. destruct (i <? 0); [exact I|]. inversion H; subst. apply wf_list. apply wf_cycle. assumption.
Qed.

Lemma mul_good pn a b r : wf a -> wf b -> mul_base a b = Some r -> good pn r.
Proof.
  intros Ha Hb. unfold mul_base. destruct (numeric Z.mul c_mul Qmult a b) as [r0|] eqn:E.
  - intros H. injection H as <-. eapply numeric_good; [apply wf_c_mul|exact E].
  - destruct a, b; intros H; inversion H; subst; first [apply str_repeat_good; assumption|apply list_repeat_good; assumption].
Qed.
Lemma add_good pn ts a b r : (forall v c, wf v -> In c (ts v) -> is_char c) -> wf a -> wf b -> add_base ts a b = Some r -> good pn r.
Proof.
  intros Hts Ha Hb. unfold add_base. destruct (numeric Z.add c_add Qplus a b) as [r0|] eqn:E.
  - intros H. injection H as <-. eapply numeric_good; [apply wf_c_add|exact E].
  - assert (HL : forall s, a = VStr s -> wf (VStr (s ++ ts b))) by (intros s ->; apply wf_str_app; [exact Ha|intros c; apply Hts, Hb]).
    assert (HR : forall s, b = VStr s -> wf (VStr (ts a ++ s))).
    { intros s ->. inversion Hb; subst. apply wf_str. intros c Hc. apply in_app_or in Hc. destruct Hc as [Hc|Hc]; [exact (Hts a c Ha Hc)|auto]. }
    destruct a, b; intros H; inversion H; subst; cbn [good]; try (apply HL; reflexivity); try (apply HR; reflexivity).
    inversion Ha; inversion Hb; subst. apply wf_list. intros x Hx. apply in_app_or in Hx. destruct Hx; auto.
Qed.
Lemma sub_good pn a b r : wf a -> wf b -> sub_base a b = Some r -> good pn r.
Proof.
  intros Ha Hb. unfold sub_base. destruct (numeric Z.sub c_sub Qminus a b) as [r0|] eqn:E.
  - intros H. injection H as <-. eapply numeric_good; [apply wf_c_sub|exact E].
  - destruct a, b; intros H; inversion H; subst.
    destruct (set_ops (fun _ => []) (fun _ _ => Panic) l l0 Ha Hb) as ((o & Ho & Hw & _) & _).
    cbn in Ho. injection Ho as <-. exact Hw.
Qed.
Lemma shift_good pn n a b r : shift_base n a b = Some r -> good pn r.
Proof. unfold shift_base. destruct (as_int_opt a), (as_int_opt b); intros H; inversion H; subst. apply wf_of_int. Qed.
Lemma bitwise_good pn fb fi fs a b r : (forall l r, wf (VSet l) -> wf (VSet r) -> wf (VSet (to_set (fs l r)))) ->
  wf a -> wf b -> bitwise_base fb fi fs a b = Some r -> good pn r.
Proof.
  intros Hs Ha Hb. unfold bitwise_base.
  destruct a, b; cbn [as_int_opt]; intros H; inversion H; subst; cbn [good]; first [apply wf_of_int|apply wf_bool|apply Hs; assumption].
Qed.
Lemma and_sets l r : wf (VSet l) -> wf (VSet r) -> wf (VSet (to_set (set_intersection l r))).
Proof. intros Ha Hb. destruct (set_ops (fun _ => []) (fun _ _ => Panic) l r Ha Hb) as (_ & (o & Ho & Hw & _) & _). cbn in Ho. injection Ho as <-. exact Hw. Qed.
Lemma or_sets l r : wf (VSet l) -> wf (VSet r) -> wf (VSet (to_set (set_union l r))).
Proof. intros Ha Hb. destruct (set_ops (fun _ => []) (fun _ _ => Panic) l r Ha Hb) as (_ & _ & (o & Ho & Hw & _) & _). cbn in Ho. injection Ho as <-. exact Hw. Qed.
Lemma xor_sets l r : wf (VSet l) -> wf (VSet r) -> wf (VSet (to_set (set_symdiff l r))).
Proof. intros Ha Hb. destruct (set_ops (fun _ => []) (fun _ _ => Panic) l r Ha Hb) as (_ & _ & _ & (o & Ho & Hw & _)). cbn in Ho. injection Ho as <-. exact Hw. Qed.

(** squares sum: never 3 modulo 4 *)
Lemma norm_not_minus_one c : c_norm c <> -1.
Proof.
  unfold c_norm. rewrite i64_i64_add. destruct (i64_cong (fst c * fst c + snd c * snd c)) as [k Hk]. rewrite Hk.
  change (2 ^ 64) with 18446744073709551616. intros H.
  generalize dependent (fst c). generalize dependent (snd c). intros y x _ H.
  assert (Hx : exists q, x * x = 4 * q \/ x * x = 4 * q + 1).
  { destruct (Z.Even_or_Odd x) as [[m ->]|[m ->]]; [exists (m * m)|exists (m * m + m)]; lia. }
  assert (Hy : exists q, y * y = 4 * q \/ y * y = 4 * q + 1).
  { destruct (Z.Even_or_Odd y) as [[m ->]|[m ->]]; [exists (m * m)|exists (m * m + m)]; lia. }
  destruct Hx as (p & Hx), Hy as (q & Hy). lia.
Qed.
Lemma div_floor_cases x y : is_i64 x -> y <> 0 -> y <> -1 -> exists z, div_floor x y = Ok z /\ is_i64 z.
Proof. intros Hx H1 H2. rewrite div_floor_ok by (try assumption; lia). eexists. split; [reflexivity|apply i64_range]. Qed.

Lemma wf_int_opt v x : wf v -> as_int_opt v = Some x -> is_int63 x.
Proof. intros Hv E. destruct Hv; cbn in E; try discriminate; injection E as <-; [destruct b; apply int63_bounds; lia|assumption]. Qed.
Lemma wf_to_complex v c : wf v -> to_complex v = Some c -> is_i64 (fst c) /\ is_i64 (snd c).
Proof.
  intros Hv E. destruct Hv; cbn in E; try discriminate; injection E as <-; cbn [fst snd]; auto.
  - destruct b; split; apply i64_bounds; lia.
  - split; [apply int63_i64; assumption|apply i64_bounds; lia].
Qed.

Lemma div_good pn a b r : wf a -> wf b -> div_base a b = Some r -> good pn r.
Proof.
  intros Ha Hb. unfold div_base.
  assert (HI : forall x y, as_int_opt a = Some x -> as_int_opt b = Some y ->
     good pn (if y =? 0 then Err ValueErrorDivideByZero else let? q := div_floor x y in Ok (of_int q))).
  { intros x y Ex Ey. destruct (y =? 0) eqn:E; [exact I|].
    rewrite (div_floor_int63 x y (wf_int_opt _ _ Ha Ex) (wf_int_opt _ _ Hb Ey)) by lia. apply wf_of_int. }
  assert (HC : forall x y, to_complex a = Some x -> to_complex b = Some y ->
     good pn (if c_norm y =? 0 then Err ValueErrorDivideByZero else let? q := c_div_floor x y in Ok (of_complex q))).
  { intros x y Ex Ey. destruct (c_norm y =? 0) eqn:E; [exact I|]. unfold c_div_floor.
    pose proof (norm_not_minus_one y) as Hn.
    destruct (div_floor_cases (i64 (i64 (fst x * fst y) + i64 (snd x * snd y))) (c_norm y)) as (p & -> & Hp); [apply i64_range|lia|exact Hn|].
    destruct (div_floor_cases (i64 (i64 (snd x * fst y) - i64 (fst x * snd y))) (c_norm y)) as (q & -> & Hq); [apply i64_range|lia|exact Hn|].
    cbn. apply wf_of_complex; assumption. }
  destruct (as_int_opt a) as [x|] eqn:E1; [destruct (as_int_opt b) as [y|] eqn:E2|].
  - intros H. injection H as <-. apply HI; reflexivity.
  - destruct (to_complex a) as [c|] eqn:E3; [destruct (to_complex b) as [e|] eqn:E4|].
    + intros H. injection H as <-. apply HC; reflexivity.
    + destruct (to_rational a), (to_rational b); intros H; inversion H; subst. destruct (Qnum q0 =? 0); [exact I|apply wf_of_rational].
    + destruct (to_rational a), (to_rational b); intros H; inversion H; subst. destruct (Qnum q0 =? 0); [exact I|apply wf_of_rational].
  - destruct (to_complex a) as [c|] eqn:E3; [destruct (to_complex b) as [e|] eqn:E4|].
    + intros H. injection H as <-. apply HC; reflexivity.
    + destruct (to_rational a), (to_rational b); intros H; inversion H; subst. destruct (Qnum q0 =? 0); [exact I|apply wf_of_rational].
    + destruct (to_rational a), (to_rational b); intros H; inversion H; subst. destruct (Qnum q0 =? 0); [exact I|apply wf_of_rational].
Qed.

(** the two operators that can crash, under [tame] left operands *)
Lemma mod_floor_i64 x y z : is_i64 x -> is_i64 y -> mod_floor x y = Ok z -> is_i64 z.
Proof.
  intros Hx Hy E.
  assert (H1 : y <> 0) by (intros ->; discriminate E).
  assert (H2 : ~ (x = i64_min /\ y = -1)) by (intros [-> ->]; discriminate E).
  rewrite (mod_floor_ok x y Hx Hy H1 H2) in E. injection E as <-. rewrite i64_bounds in *.
  pose proof (Z.mod_bound_or x y H1). lia.
Qed.
Lemma mod_good (pn : Prop) fm a b r : (forall s v, wf (VStr s) -> wf v -> good pn (fm s v)) ->
  wf a -> wf b -> (pn \/ tame a) -> mod_base fm a b = Some r -> good pn r.
Proof.
  intros Hfm Ha Hb Ht. unfold mod_base.
  assert (HI : forall x y, as_int_opt a = Some x -> as_int_opt b = Some y ->
     good pn (if y =? 0 then Err ValueErrorModuloByZero else let? q := mod_floor x y in Ok (of_int q))).
  { intros x y Ex Ey. destruct (y =? 0) eqn:E; [exact I|].
    pose proof (wf_int_opt _ _ Ha Ex) as H1. pose proof (wf_int_opt _ _ Hb Ey) as H2. rewrite int63_bounds in H1, H2.
    assert (Hx : is_i64 x) by (apply i64_bounds; lia). assert (Hy : is_i64 y) by (apply i64_bounds; lia).
    rewrite (mod_floor_ok x y Hx Hy); [apply wf_of_int|lia|]. unfold i64_min. change (2 ^ 63) with 9223372036854775808. lia. }
  destruct (as_int_opt a) as [x|] eqn:E1; [destruct (as_int_opt b) as [y|] eqn:E2|].
  - intros H. injection H as <-. apply HI; reflexivity.
  - destruct a; intros H; inversion H; subst; discriminate.
  - destruct a as [| | |re im| |s| | | | | | | | | | | | | | | | ]; intros H; inversion H; subst.
    + destruct (as_int_opt b) as [y|] eqn:E2; inversion H; subst. destruct (y =? 0) eqn:E; [exact I|].
      inversion Ha; subst. pose proof (wf_int_opt _ _ Hb E2) as Hy. rewrite int63_bounds in Hy.
      assert (Hy' : is_i64 y) by (apply i64_bounds; lia).
      destruct (mod_floor re y) as [p| |] eqn:Ep; cbn [good bind].
      2:{ unfold mod_floor in Ep. destruct ((y =? 0) || ((re =? i64_min) && (y =? -1))); discriminate. }
      * destruct (mod_floor im y) as [q| |] eqn:Eq; cbn [good bind].
        -- apply wf_of_complex; cbn [fst snd]; [apply (mod_floor_i64 re y p)|apply (mod_floor_i64 im y q)]; assumption.
        -- exact I.
        -- destruct Ht as [Ht|Ht]; [exact Ht|]. inversion Ht; subst; [|contradiction].
           rewrite (mod_floor_ok im y) in Eq; [discriminate|assumption..|lia|]. unfold i64_min. tauto.
      * destruct Ht as [Ht|Ht]; [exact Ht|]. inversion Ht; subst; [|contradiction].
        rewrite (mod_floor_ok re y) in Ep; [discriminate|assumption..|lia|]. unfold i64_min. tauto.
    + apply Hfm; assumption.
Qed.
Lemma c_pow_i64 c n : is_i64 (fst (c_pow c n)) /\ is_i64 (snd (c_pow c n)).
Proof. destruct c as [r i]. rewrite c_pow_val. split; apply i64_range. Qed.
Lemma pow_good (pn : Prop) a b r : wf a -> wf b -> (pn \/ tame a) -> pow_base a b = Some r -> good pn r.
Proof.
  intros Ha Hb Ht. unfold pow_base.
  destruct (as_int_opt a) as [x|] eqn:E1; [destruct (as_int_opt b) as [y|] eqn:E2|].
  - intros H. injection H as <-. destruct (y >=? 0); [apply wf_of_int|exact I].
  - destruct a, b; intros H; inversion H; subst; try discriminate; apply list_repeat_good; assumption.
  - destruct a; intros H; try discriminate H; try discriminate E1.
    + destruct (as_int_opt b) as [y|] eqn:E2; [|discriminate H]. injection H as <-. destruct (y >=? 0); [|exact I].
      apply wf_of_complex; apply c_pow_i64.
    + destruct (as_int_opt b) as [y|] eqn:E2; [|discriminate H]. injection H as <-.
      match goal with |- good _ (if ?c then _ else _) => destruct c end; [|exact I].
      destruct ((y <? 0) && (num =? 0)) eqn:E.
      * destruct Ht as [Ht|Ht]; [exact Ht|]. inversion Ht; subst; [lia|contradiction].
      * apply wf_of_rational.
    + destruct b; inversion H; subst. apply list_repeat_good; assumption.
Qed.

Lemma wf_vec l : wf (VVector l) -> forall x, In x l -> wf x.
Proof. intros H. inversion H; subst. assumption. Qed.
Lemma tame_vec l : tame (VVector l) -> forall x, In x l -> tame x.
Proof. intros H. inversion H; subst; [assumption|contradiction]. Qed.

Lemma is_good pn a b i : good pn (binary_is a b i).
Proof. destruct b; cbn; try exact I; try apply wf_bool. destruct f; cbn; try exact I; apply wf_bool. Qed.
Lemma in_good pn a b i : good pn (binary_in a b i).
Proof. destruct a, b; cbn; try exact I; apply wf_bool. Qed.

Lemma binary_good (pn : Prop) ts fm o a b :
  (forall v c, wf v -> In c (ts v) -> is_char c) -> (forall s v, wf (VStr s) -> wf v -> good pn (fm s v)) ->
  wf a -> wf b -> (pn \/ tame a) -> good pn (binary_op ts fm o a b).
Proof.
  intros Hts Hfm Ha Hb Ht.
  assert (HV : forall l, (wf (VVector l) /\ (pn \/ tame (VVector l))) -> forall x, In x l -> wf x /\ (pn \/ tame x)).
  { intros l [H1 H2] x Hx. split; [exact (wf_vec l H1 x Hx)|]. destruct H2 as [H2|H2]; [left; exact H2|right; exact (tame_vec l H2 x Hx)]. }
  destruct o; cbn [binary_op]; try (cbn [good]; apply wf_bool); try apply is_good; try apply in_good;
    try (cbn [good]; destruct (value_cmp a b); assumption);
    apply (lift2_good (fun v => wf v /\ (pn \/ tame v)) wf pn HV wf_vec); try assumption; try (split; assumption);
    intros x y r [Hx Htx] Hy.
  - apply mul_good; assumption.
  - apply div_good; assumption.
  - apply pow_good; assumption.
  - apply mod_good; assumption.
  - apply add_good; assumption.
  - apply sub_good; assumption.
  - apply shift_good.
  - apply shift_good.
  - apply bitwise_good; try assumption. apply and_sets.
  - apply bitwise_good; try assumption. apply or_sets.
  - apply bitwise_good; try assumption. apply xor_sets.
Qed.
Lemma unary_good pn o a : wf a -> good pn (unary_op o a).
Proof.
  intros Ha. destruct o; cbn [unary_op].
  - apply (lift1_good wf pn wf_vec); [|exact Ha]. intros x r Hx.
    destruct x; cbn; intros H; inversion H; subst; cbn [good];
      first [apply wf_of_int|apply wf_of_rational|apply wf_of_complex; apply i64_range].
  - apply (lift1_good wf pn wf_vec); [|exact Ha]. intros x r Hx.
    destruct x; cbn; intros H; inversion H; subst; cbn [good];
      first [apply wf_of_int|apply wf_bool|idtac].
    inversion Hx; subst. apply wf_of_complex; [assumption|apply i64_range].
  - apply wf_bool.
Qed.
