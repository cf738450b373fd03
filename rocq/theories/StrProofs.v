From Verif Require Import Base BaseProofs Ptr Native Value Err Iter IterSpec IterProofs Ops StrSpec Str.
Local Open Scope Z_scope.

(** ** digits *)
Lemma digit_of_char : forall d, 0 <= d <= 35 -> digit_of (digit_char d) d.
Proof. intros d Hd. unfold digit_of, digit_char. destruct (d <? 10) eqn:E; [apply Z.ltb_lt in E|apply Z.ltb_ge in E]; lia. Qed.
Lemma digit_char_of : forall c d, digit_of c d -> c = digit_char d /\ 0 <= d <= 35.
Proof. intros c d H. unfold digit_of, digit_char in *. destruct (d <? 10) eqn:E; [apply Z.ltb_lt in E|apply Z.ltb_ge in E]; lia. Qed.
Lemma digits_chars : forall s ds, Forall2 digit_of s ds -> s = map digit_char ds /\ Forall (fun d => 0 <= d <= 35) ds.
Proof.
  induction 1 as [|c d s ds H _ [-> IH]]; [auto|]. destruct (digit_char_of _ _ H) as [-> Hd]. split; [reflexivity|constructor; auto].
Qed.
Lemma chars_digits : forall ds, Forall (fun d => 0 <= d <= 35) ds -> Forall2 digit_of (map digit_char ds) ds.
Proof. induction 1; constructor; [apply digit_of_char; assumption|assumption]. Qed.

Lemma number_app : forall r a d, number r (a ++ [d]) = number r a * r + d.
Proof. intros. unfold number. rewrite fold_left_app. reflexivity. Qed.
Lemma fold_nonneg : forall r ds a, 0 <= r -> 0 <= a -> Forall (fun d => 0 <= d) ds -> a <= fold_left (fun a d => a * r + d) ds a \/ r = 0.
Proof.
  intros r ds. induction ds as [|d ds IH]; intros a Hr Ha Hf; [left; reflexivity|]. inversion Hf; subst. cbn [fold_left].
  destruct (Z.eq_dec r 0) as [->|Hr0]; [auto|]. left. destruct (IH (a * r + d)) as [H|H]; try lia; try assumption; nia.
Qed.
Lemma number_pos : forall r d ds, 1 <= r -> 0 < d -> Forall (fun d => 0 <= d) ds -> 0 < number r (d :: ds).
Proof.
  intros r d ds Hr Hd Hf. unfold number. cbn [fold_left]. destruct (fold_nonneg r ds (0 * r + d)) as [H|H]; try lia. assumption.
Qed.

Lemma digits_from_ok : forall radix, 2 <= radix -> forall ds d r, ds = d :: r -> d <> 0 ->
  Forall (fun d => 0 <= d < radix) ds -> forall fuel acc, number radix ds < 2 ^ Z.of_nat fuel ->
  digits_from fuel radix (number radix ds) acc = map digit_char ds ++ acc.
Proof.
  intros radix Hr ds. induction ds as [|d0 ds IH] using rev_ind; intros d r Heq Hd Hf fuel acc Hn; [discriminate|].
  apply Forall_app in Hf. destruct Hf as [Hf H0]. inversion H0; subst. clear H0 H3.
  rewrite number_app in *. destruct ds as [|d1 ds'].
  - cbn in Heq. inversion Heq; subst. change (number radix []) with 0 in *. cbn [Z.mul] in *. rewrite Z.add_0_l in *.
    destruct fuel as [|f]; [cbn in Hn; lia|]. cbn [digits_from]. replace (d <? radix) with true by (symmetry; apply Z.ltb_lt; lia). reflexivity.
  - cbn in Heq. injection Heq as -> Hr'. subst r.
    assert (Hpos : 0 < number radix (d :: ds')).
    { inversion Hf as [|? ? Hf1 Hf2]; subst. apply number_pos; [lia|lia|]. eapply Forall_impl; [|exact Hf2]. cbn. intros; lia. }
    set (m := number radix (d :: ds')) in *.
    assert (Hmr : radix <= m * radix) by nia.
    destruct fuel as [|f]; [change (2 ^ Z.of_nat 0) with 1 in Hn; lia|]. rewrite Nat2Z.inj_succ, Z.pow_succ_r in Hn by lia.
    cbn [digits_from]. replace (m * radix + d0 <? radix) with false by (symmetry; apply Z.ltb_ge; nia).
    replace ((m * radix + d0) / radix) with m by (apply (Z.div_unique _ _ m d0); [lia|ring]).
    replace ((m * radix + d0) mod radix) with d0 by (apply (Z.mod_unique _ _ m d0); [lia|ring]).
    unfold m. rewrite (IH d ds' eq_refl Hd Hf); [|fold m; nia]. rewrite map_app, <- app_assoc. reflexivity.
Qed.
Lemma pow_log2 : forall n, 0 <= n -> n < 2 ^ Z.of_nat (S (Z.to_nat (Z.log2 n))).
Proof.
  intros n Hn. rewrite Nat2Z.inj_succ, Z2Nat.id by apply Z.log2_nonneg. destruct (Z.eq_dec n 0) as [->|Hn0]; [reflexivity|].
  apply Z.log2_spec. lia.
Qed.
Lemma Forall_both {A} : forall (P Q : A -> Prop) l, Forall P l -> Forall Q l -> Forall (fun x => P x /\ Q x) l.
Proof. intros P Q l H1 H2. rewrite Forall_forall in *. auto. Qed.
Lemma numeral_unique : forall radix n s, 2 <= radix -> 0 <= n -> numeral radix n s -> s = digits radix n.
Proof.
  intros radix n s Hr Hn (ds & H1 & H2 & H3 & H4). destruct (digits_chars s ds H1) as [-> Hd].
  destruct H4 as [->|(d & r & -> & Hd0)].
  - cbn in H3. subst n. unfold digits. cbn. destruct radix; try lia; reflexivity.
  - unfold digits. subst n. rewrite (digits_from_ok radix Hr _ _ _ eq_refl Hd0); [rewrite app_nil_r; reflexivity| |].
    + pose proof (Forall_both _ _ _ Hd H2) as Hb. eapply Forall_impl; [|exact Hb]. cbn. intros; lia.
    + apply pow_log2. exact Hn.
Qed.
Lemma digits_exist : forall radix, 2 <= radix -> forall n, 0 <= n -> exists ds, Forall (fun d => 0 <= d < radix) ds /\ number radix ds = n /\ (ds = [0] \/ exists d r, ds = d :: r /\ d <> 0).
Proof.
  intros radix Hr n Hn. revert Hn. pattern n. apply (well_founded_induction (Z.lt_wf 0)). clear n. intros n IH Hn.
  destruct (Z_lt_dec n radix) as [Hlt|Hge].
  - exists [n]. split; [constructor; [lia|constructor]|]. split; [unfold number; cbn; lia|].
    destruct (Z.eq_dec n 0) as [->|H0]; [left; reflexivity|right; eauto].
  - assert (0 <= n / radix < n). { split; [apply Z.div_pos; lia|apply Z.div_lt; lia]. }
    destruct (IH (n / radix)) as (ds & Hf & Hnum & Hl); try lia. exists (ds ++ [n mod radix]). split; [|split].
    + apply Forall_app. split; [exact Hf|]. constructor; [apply Z.mod_pos_bound; lia|constructor].
    + rewrite number_app, Hnum. rewrite Z.mul_comm. symmetry. apply Z.div_mod. lia.
    + right. destruct Hl as [->|(d & r & -> & Hd)].
      * exfalso. unfold number in Hnum. cbn in Hnum. assert (1 <= n / radix) by (apply Z.div_le_lower_bound; lia). lia.
      * exists d, (r ++ [n mod radix]). auto.
Qed.
Lemma digits_numeral : forall radix n, 2 <= radix <= 36 -> 0 <= n -> numeral radix n (digits radix n).
Proof.
  intros radix n Hr Hn. destruct (digits_exist radix ltac:(lia) n Hn) as (ds & Hf & Hnum & Hl).
  assert (Hnumr : numeral radix n (map digit_char ds)).
  { exists ds. split; [apply chars_digits; eapply Forall_impl; [|exact Hf]; cbn; intros; lia|]. split; [eapply Forall_impl; [|exact Hf]; cbn; intros; lia|]. auto. }
  rewrite <- (numeral_unique radix n _ ltac:(lia) Hn Hnumr). exact Hnumr.
Qed.

(** ** reading numbers *)
Lemma char_digit_spec : forall radix c d, radix <= 36 -> char_digit radix c = Some d <-> reads_digit c d /\ d < radix.
Proof.
  intros radix c d Hr. unfold char_digit, reads_digit.
  destruct ((48 <=? c) && (c <=? 57)) eqn:E1; [apply andb_prop in E1; destruct E1 as [A B]; apply Z.leb_le in A, B|].
  { destruct (c - 48 <? radix) eqn:E; [apply Z.ltb_lt in E|apply Z.ltb_ge in E]; split; intros H; try discriminate; [inversion H; subst; lia|f_equal; lia|lia]. }
  destruct ((97 <=? c) && (c <=? 122)) eqn:E2; [apply andb_prop in E2; destruct E2 as [A B]; apply Z.leb_le in A, B|].
  { destruct (c - 87 <? radix) eqn:E; [apply Z.ltb_lt in E|apply Z.ltb_ge in E]; split; intros H; try discriminate; [inversion H; subst; lia|f_equal; lia|lia]. }
  destruct ((65 <=? c) && (c <=? 90)) eqn:E3; [apply andb_prop in E3; destruct E3 as [A B]; apply Z.leb_le in A, B|].
  { destruct (c - 55 <? radix) eqn:E; [apply Z.ltb_lt in E|apply Z.ltb_ge in E]; split; intros H; try discriminate; [inversion H; subst; lia|f_equal; lia|lia]. }
  replace (99 <? radix) with false by (symmetry; apply Z.ltb_ge; lia). split; [discriminate|]. intros H. exfalso.
  apply andb_false_iff in E1, E2, E3. rewrite !Z.leb_gt in *. lia.
Qed.
Lemma in_i64_spec : forall x, in_i64 x = true <-> is_i64 x.
Proof. intros x. unfold in_i64. rewrite i64_bounds. rewrite andb_true_iff, !Z.leb_le. lia. Qed.
Lemma parse_digits_spec : forall radix sign, 2 <= radix <= 36 -> (sign = 1 \/ sign = -1) -> forall s a n, 0 <= a ->
  parse_digits radix sign (sign * a) s = Some n <->
  exists ds, Forall2 (fun c d => reads_digit c d /\ d < radix) s ds /\ n = sign * fold_left (fun a d => a * radix + d) ds a /\ (s = [] \/ is_i64 n).
Proof.
  intros radix sign Hr Hs s. induction s as [|c s IH]; intros a n Ha; cbn [parse_digits].
  - split.
    + intros H. inversion H; subst. exists []. split; [constructor|]. auto.
    + intros (ds & H & -> & _). inversion H; subst. reflexivity.
  - destruct (char_digit radix c) as [d|] eqn:Hc.
    + apply char_digit_spec in Hc; [|lia]. destruct Hc as [Hc Hdr].
      assert (Hd : 0 <= d) by (unfold reads_digit in Hc; lia).
      replace (sign * a * radix + sign * d) with (sign * (a * radix + d)) by ring.
      assert (Ha' : 0 <= a * radix + d) by nia.
      assert (Hrd : forall c d d', reads_digit c d -> reads_digit c d' -> d = d') by (unfold reads_digit; intros; lia).
      destruct (in_i64 (sign * a * radix) && in_i64 (sign * (a * radix + d))) eqn:E.
      * apply andb_prop in E. destruct E as [_ E]. apply in_i64_spec in E. rewrite (IH (a * radix + d) n Ha'). split.
        -- intros (ds & H1 & H2 & H3). exists (d :: ds). split; [constructor; auto|]. split; [exact H2|].
           right. destruct H3 as [->|H3]; [|exact H3]. inversion H1; subst. exact E.
        -- intros (ds & H1 & H2 & H3). inversion H1 as [|? d' ? ds' [Hx _] Hrest]; subst. pose proof (Hrd _ _ _ Hc Hx); subst d'.
           exists ds'. split; [exact Hrest|]. split; [reflexivity|]. destruct H3 as [H3|H3]; [discriminate|]. auto.
      * split; [discriminate|]. intros (ds & H1 & H2 & H3). exfalso. inversion H1 as [|? d' ? ds' [Hx _] Hrest]; subst. pose proof (Hrd _ _ _ Hc Hx); subst d'.
        destruct H3 as [H3|H3]; [discriminate|]. cbn [fold_left] in H3.
        assert (Hnn : Forall (fun d => 0 <= d) ds'). { clear - Hrest. induction Hrest as [|? ? ? ? [Hx _]]; constructor; auto. unfold reads_digit in Hx. lia. }
        destruct (fold_nonneg radix ds' (a * radix + d) ltac:(lia) Ha' Hnn) as [Hle|Hz]; [|lia].
        set (F := fold_left (fun a d => a * radix + d) ds' (a * radix + d)) in *. clearbody F.
        rewrite i64_bounds in H3. apply andb_false_iff in E. unfold in_i64 in E. rewrite !andb_false_iff, !Z.leb_gt in E.
        destruct Hs as [->| ->]; destruct E as [[E|E]|[E|E]]; nia.
    + split; [discriminate|]. intros (ds & H1 & _). inversion H1 as [|? d' ? ds' [Hx Hlt] Hrest]; subst.
      assert (char_digit radix c = Some d') by (apply char_digit_spec; [lia|auto]). congruence.
Qed.
Lemma from_str_radix_spec : forall radix s n, 2 <= radix <= 36 ->
  from_str_radix radix s = Some n <->
  exists sign body ds k, s = sign ++ body /\ ((sign = [] /\ k = 1) \/ (sign = [43] /\ k = 1) \/ (sign = [45] /\ k = -1)) /\ body <> [] /\
    Forall2 (fun c d => reads_digit c d /\ d < radix) body ds /\ n = k * number radix ds /\ is_i64 n.
Proof.
  intros radix s n Hr.
  assert (Hbody : forall k body, (k = 1 \/ k = -1) -> body <> [] -> parse_digits radix k 0 body = Some n <->
    exists ds, Forall2 (fun c d => reads_digit c d /\ d < radix) body ds /\ n = k * number radix ds /\ is_i64 n).
  { intros k body Hk Hb. replace 0 with (k * 0) at 1 by lia. rewrite (parse_digits_spec radix k Hr Hk body 0 n ltac:(lia)).
    split; intros (ds & H1 & H2 & H3); exists ds; (split; [exact H1|]; split; [exact H2|]); [destruct H3; [contradiction|assumption]|auto]. }
  assert (Hsign : forall c d, reads_digit c d -> c <> 43 /\ c <> 45) by (unfold reads_digit; intros; lia).
  destruct s as [|c r].
  - cbn [from_str_radix]. split; [discriminate|]. intros (sign & body & ds & k & H1 & _ & H3 & _). destruct sign; [|discriminate]. cbn in H1. subst. contradiction.
  - assert (Hgen : from_str_radix radix (c :: r) = if (c =? 43) || (c =? 45) then match r with [] => None | _ => if c =? 43 then parse_digits radix 1 0 r else parse_digits radix (-1) 0 r end else parse_digits radix 1 0 (c :: r)).
    { cbn [from_str_radix]. destruct r as [|c' r']; [reflexivity|]. destruct (c =? 43) eqn:E1; cbn [orb]; [reflexivity|]. destruct (c =? 45); reflexivity. }
    rewrite Hgen. destruct ((c =? 43) || (c =? 45)) eqn:E.
    + destruct r as [|c' r'].
      * split; [discriminate|]. intros (sign & body & ds & k & H1 & H2 & H3 & H4 & _). exfalso.
        destruct H2 as [[-> _]|[[-> _]|[-> _]]]; cbn in H1; [|inversion H1; subst; contradiction..]. subst body. inversion H4 as [|? d' ? ds' [Hx _] Hrest]; subst.
        destruct (Hsign _ _ Hx). apply orb_prop in E. destruct E as [E|E]; apply Z.eqb_eq in E; lia.
      * destruct (c =? 43) eqn:E1.
        -- apply Z.eqb_eq in E1. subst c. rewrite (Hbody 1 (c' :: r') ltac:(auto) ltac:(discriminate)). split.
           ++ intros (ds & H1 & H2 & H3). exists [43], (c' :: r'), ds, 1. split; [reflexivity|]. split; [auto|]. split; [discriminate|]. auto.
           ++ intros (sign & body & ds & k & H1 & H2 & H3 & H4 & H5 & H6). destruct H2 as [[-> _]|[[-> ->]|[-> _]]]; cbn in H1.
              ** subst body. exfalso. inversion H4 as [|? d' ? ds' [Hx _] Hrest]; subst. destruct (Hsign _ _ Hx). lia.
              ** inversion H1; subst. eauto.
              ** discriminate.
        -- cbn [orb] in E. apply Z.eqb_eq in E. subst c. rewrite (Hbody (-1) (c' :: r') ltac:(auto) ltac:(discriminate)). split.
           ++ intros (ds & H1 & H2 & H3). exists [45], (c' :: r'), ds, (-1). split; [reflexivity|]. split; [auto|]. split; [discriminate|]. auto.
           ++ intros (sign & body & ds & k & H1 & H2 & H3 & H4 & H5 & H6). destruct H2 as [[-> _]|[[-> _]|[-> ->]]]; cbn in H1.
              ** subst body. exfalso. inversion H4 as [|? d' ? ds' [Hx _] Hrest]; subst. destruct (Hsign _ _ Hx). lia.
              ** discriminate.
              ** inversion H1; subst. eauto.
    + apply orb_false_iff in E. destruct E as [E1 E2]. apply Z.eqb_neq in E1, E2.
      rewrite (Hbody 1 (c :: r) ltac:(auto) ltac:(discriminate)). split.
      * intros (ds & H1 & H2 & H3). exists [], (c :: r), ds, 1. split; [reflexivity|]. split; [auto|]. split; [discriminate|]. auto.
      * intros (sign & body & ds & k & H1 & H2 & H3 & H4 & H5 & H6). destruct H2 as [[-> ->]|[[-> _]|[-> _]]]; cbn in H1; [subst body; eauto|congruence..].
Qed.
Lemma digit_of_reads : forall c d, digit_of c d -> reads_digit c d.
Proof. unfold digit_of, reads_digit. intros. lia. Qed.
Lemma numeral_reads : forall radix n s, 2 <= radix <= 36 -> 0 <= n -> is_i64 n -> numeral radix n s -> from_str_radix radix s = Some n.
Proof.
  intros radix n s Hr Hn Hi (ds & H1 & H2 & H3 & H4). apply from_str_radix_spec; [exact Hr|]. exists [], s, ds, 1. split; [reflexivity|]. split; [auto|].
  split; [|split; [|split; [lia|exact Hi]]].
  - destruct H4 as [->|(d & r & -> & _)]; inversion H1; discriminate.
  - clear - H1 H2. revert H2. induction H1 as [|c d s ds H H1 IH]; intros H2; [constructor|]. inversion H2; subst. constructor; [split; [apply digit_of_reads|]; assumption|auto].
Qed.
Lemma numeral_reads_neg : forall radix n s, 2 <= radix <= 36 -> n < 0 -> is_i64 n -> numeral radix (- n) s -> from_str_radix radix (45 :: s) = Some n.
Proof.
  intros radix n s Hr Hn Hi (ds & H1 & H2 & H3 & H4). apply from_str_radix_spec; [exact Hr|]. exists [45], s, ds, (-1). split; [reflexivity|]. split; [auto|].
  split; [|split; [|split; [lia|exact Hi]]].
  - destruct H4 as [->|(d & r & -> & _)]; inversion H1; discriminate.
  - clear - H1 H2. revert H2. induction H1 as [|c d s ds H H1 IH]; intros H2; [constructor|]. inversion H2; subst. constructor; [split; [apply digit_of_reads|]; assumption|auto].
Qed.
