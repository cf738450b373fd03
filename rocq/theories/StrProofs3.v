From Verif Require Import Base BaseProofs Ptr Native Value Err Iter IterSpec IterProofs Ops StrSpec Str StrProofs StrProofs2.
Local Open Scope Z_scope.

Lemma spelling_spec : forall radix s n, 2 <= radix <= 36 -> from_str_radix radix s = Some n <-> spelling radix n s.
Proof.
  intros radix s n Hr. rewrite from_str_radix_spec by exact Hr. unfold spelling. split.
  - intros (sign & body & ds & k & -> & Hs & Hb & Hf & -> & Hi). exists sign, k, body, ds. split; [reflexivity|].
    split; [destruct Hs as [[-> ->]|[[-> ->]|[-> ->]]]; constructor|]. split; [exact Hb|].
    split; [clear - Hf; induction Hf as [|? ? ? ? [? ?]]; constructor; assumption|].
    split; [clear - Hf; induction Hf as [|? ? ? ? [? ?]]; constructor; assumption|]. split; [reflexivity|]. revert Hi. generalize (k * number radix ds). intros z Hi. clear - Hi. apply (proj1 (i64_bounds z)) in Hi. idtac. lia.
  - intros (sign & k & body & ds & -> & Hs & Hb & Hf & Hd & -> & Hi). exists sign, body, ds, k. split; [reflexivity|].
    split; [inversion Hs; subst; auto|]. split; [exact Hb|]. split; [|split; [reflexivity|revert Hi; generalize (k * number radix ds); intros z Hi; apply i64_bounds; lia]].
    clear - Hf Hd. revert Hd. induction Hf; intros Hd; constructor; inversion Hd; subst; auto.
Qed.
Lemma int63_i64 : forall n, is_int63 n -> is_i64 n.
Proof. intros n H. apply i64_bounds. unfold is_int63, MIN_INT, MAX_INT in H. change (2 ^ 62) with 4611686018427387904 in H. lia. Qed.
Lemma show_dec_reads : forall n, is_int63 n -> from_str_radix 10 (show_dec n) = Some n.
Proof.
  intros n Hn. apply int63_i64 in Hn. unfold show_dec. destruct (n <? 0) eqn:E; [apply Z.ltb_lt in E|apply Z.ltb_ge in E].
  - apply numeral_reads_neg; [lia|exact E|exact Hn|]. apply digits_numeral; lia.
  - apply numeral_reads; [lia|exact E|exact Hn|]. apply digits_numeral; lia.
Qed.
Lemma show_radix_reads : forall radix n, 2 <= radix <= 36 -> is_int63 n -> 0 <= n -> from_str_radix radix (show_radix radix n) = Some n.
Proof.
  intros radix n Hr Hn H0. apply int63_i64 in Hn. unfold show_radix, u64, uwrap.
  rewrite Z.mod_small by (apply (proj1 (i64_bounds _)) in Hn; change (2 ^ 64) with 18446744073709551616; lia).
  apply numeral_reads; [lia|exact H0|exact Hn|]. apply digits_numeral; lia.
Qed.
Lemma in_radix_round : forall radix n, 2 <= radix <= 36 -> is_int63 n -> 0 <= n ->
  exists s, in_radix radix (VInt n) = Ok (VStr s) /\ numeral radix n s /\ in_radix radix (VStr s) = Ok (VInt n).
Proof.
  intros radix n Hr Hn H0. exists (show_radix radix n). split; [reflexivity|]. split.
  - assert (Hi := int63_i64 n Hn). unfold show_radix, u64, uwrap. rewrite Z.mod_small by (apply (proj1 (i64_bounds _)) in Hi; change (2 ^ 64) with 18446744073709551616; lia).
    apply digits_numeral; lia.
  - unfold in_radix. rewrite show_radix_reads by assumption. unfold of_int. rewrite wrap63_id by exact Hn. reflexivity.
Qed.
Lemma in_radix_reads : forall radix s, 2 <= radix <= 36 ->
  (forall n, spelling radix n s -> in_radix radix (VStr s) = Ok (VInt (wrap63 n))) /\
  ((forall n, ~ spelling radix n s) -> in_radix radix (VStr s) = Err (TypeErrorCannotConvertToInt (VStr s))).
Proof.
  intros radix s Hr. unfold in_radix. split.
  - intros n H. apply spelling_spec in H; [|exact Hr]. rewrite H. reflexivity.
  - intros H. destruct (from_str_radix radix s) as [n|] eqn:E; [|reflexivity]. exfalso. apply (H n). apply spelling_spec; assumption.
Qed.
Lemma chr_spec : forall n, is_int63 n ->
  (0 < n < 2 ^ 32 -> scalar n -> chr (VInt n) = Ok (VStr [n])) /\
  (n < 2 ^ 32 -> n <= 0 \/ ~ scalar n -> chr (VInt n) = Err (ValueErrorInvalidCharacterOrdinal n)).
Proof.
  intros n Hn. unfold chr, as_int_checked. cbn [as_int_opt bind]. change (2 ^ 32) with 4294967296. unfold uwrap, char_from_u32, scalar. change (2 ^ 32) with 4294967296. split.
  - intros H [A B]. replace (n <=? 0) with false by (symmetry; apply Z.leb_gt; lia). rewrite Z.mod_small by lia.
    replace (n <? 1114112) with true by (symmetry; apply Z.ltb_lt; lia).
    destruct ((55296 <=? n) && (n <=? 57343)) eqn:E; [|reflexivity]. apply andb_prop in E. rewrite !Z.leb_le in E. contradiction.
  - intros H Hs. destruct (n <=? 0) eqn:E; [reflexivity|]. apply Z.leb_gt in E. rewrite Z.mod_small by lia.
    destruct (n <? 1114112) eqn:E1; [|reflexivity]. apply Z.ltb_lt in E1. destruct ((55296 <=? n) && (n <=? 57343)) eqn:E2; [reflexivity|].
    apply andb_false_iff in E2. rewrite !Z.leb_gt in E2. exfalso. destruct Hs as [Hs|Hs]; [lia|]. apply Hs. lia.
Qed.
Lemma ord_ascii : forall c, 0 <= c < 128 -> ord (VStr [c]) = Ok (VInt c).
Proof.
  intros c Hc. unfold ord, utf8. cbn [flat_map]. unfold utf8_char. replace (c <? 128) with true by (symmetry; apply Z.ltb_lt; lia). cbn [app].
  unfold of_int. rewrite wrap63_id; [reflexivity|]. unfold is_int63, MIN_INT, MAX_INT. change (2 ^ 62) with 4611686018427387904. lia.
Qed.
Lemma ord_only_ascii : forall s n, (forall c, In c s -> 0 <= c) -> ord (VStr s) = Ok (VInt n) -> s = [n] /\ n < 128.
Proof.
  intros s n Hs H. unfold ord in H. destruct s as [|c s]; [discriminate|].
  assert (Hb : forall c, exists b r, utf8_char c = b :: r /\ (128 <= c -> r <> [])).
  { intros d. unfold utf8_char. destruct (Z.ltb_spec d 128); [eexists _, _; split; [reflexivity|lia]|]. destruct (d <? 2048); [|destruct (d <? 65536)]; eexists _, _; (split; [reflexivity|discriminate]). }
  unfold utf8 in H. cbn [flat_map] in H. destruct (Hb c) as (b & r & E & Hc). rewrite E in H. cbn [app] in H.
  destruct r as [|b' r]; [|discriminate]. cbn [app] in H. destruct s as [|d s].
  - cbn [flat_map] in H. destruct (Z_lt_dec c 128) as [Hlt|Hge]; [|exfalso; apply Hc; [lia|reflexivity]].
    unfold of_int in H. inversion H. assert (wrap63 c = c).
    { apply wrap63_id. unfold is_int63, MIN_INT, MAX_INT. change (2 ^ 62) with 4611686018427387904. specialize (Hs c (or_introl eq_refl)). lia. }
    split; [congruence|lia].
  - exfalso. cbn [flat_map] in H. destruct (Hb d) as (b1 & r1 & E1 & _). rewrite E1 in H. discriminate.
Qed.

Lemma format_args_spec : forall v l, arguments v l <-> l = format_args v.
Proof.
  intros v l. split.
  - intros H. inversion H as [l0|l0|v0 H1 H2]; subst; try reflexivity. destruct v; try reflexivity; exfalso; [eapply H1|eapply H2]; reflexivity.
  - intros ->. destruct v; constructor; discriminate.
Qed.
Lemma format_exact : forall show s v args, arguments v args ->
  (forall out, format_string show s v = Ok (VStr out) <-> exists ps, s = spell ps /\ Forall piece_ok ps /\ renders show ps args out) /\
  (forall r, format_string show s v = Ok r -> exists out, r = VStr out).
Proof.
  intros show s v args H. apply format_args_spec in H. subst args. unfold format_string. split.
  - intros out. split.
    + intros H. destruct (format_inv show _ _ _ _ _ H) as (ps & text & -> & Hok & Hr & E). cbn in E. inversion E; subst. eauto.
    + intros (ps & -> & Hok & Hr). rewrite (format_renders show ps _ _ Hr Hok); [reflexivity|lia].
  - intros r H. destruct (format_inv show _ _ _ _ _ H) as (ps & text & _ & _ & _ & ->). eauto.
Qed.
Lemma format_wrong_count : forall show ps v args, arguments v args -> Forall piece_ok ps -> length args <> directives ps ->
  forall r, format_string show (spell ps) v <> Ok r.
Proof.
  intros show ps v args Ha Hok Hc r H. apply format_args_spec in Ha. subst args. unfold format_string in H.
  destruct (format_inv show _ _ _ _ _ H) as (ps' & text & Hs & Hok' & Hr & _). apply spell_inj in Hs; [|assumption|assumption]. subst ps'.
  apply renders_count in Hr. lia.
Qed.
Lemma shows_enough : forall show zero w v k out, shows show zero w v k out -> (w <= length out)%nat.
Proof.
  intros show zero w v k out H. destruct H as [n ds out _ _ H|n ds out _ _ H|n ds out _ _ H|]; try (apply filled_keeps in H; tauto).
  rewrite app_length, repeat_length. lia.
Qed.
Lemma format_no_panic : forall show ps v, Forall piece_ok ps -> format_string show (spell ps) v <> Panic.
Proof.
  intros show ps v Hok. unfold format_string. generalize (format_args v). intros args. generalize (@nil Z) as out. revert args.
  assert (Hf : (length (spell ps) < S (length (spell ps)))%nat) by lia. revert Hf. generalize (S (length (spell ps))) as fuel.
  induction Hok as [|p ps Hp Hok IH]; intros fuel Hf args out; (destruct fuel as [|f]; [lia|]).
  - cbn. destruct args; discriminate.
  - unfold spell in *. cbn [flat_map] in *. fold (spell ps) in *. rewrite app_length in Hf. destruct p as [c| |zero w k]; cbn [piece_text app length] in *.
    + cbn [run_format]. replace (c =? 37) with false by (symmetry; apply Z.eqb_neq; exact Hp). cbn [negb]. apply IH. lia.
    + cbn [run_format]. change (negb (37 =? 37)) with false. change (37 =? 37) with true. cbv iota. apply IH. lia.
    + repeat rewrite <- app_assoc. cbn [app]. rewrite directive_step by exact Hp. destruct args as [|a args]; [discriminate|].
      destruct (directive show (letter_of k) zero (Z.to_nat (decimal w)) a) eqn:E; cbn [bind]; [|discriminate|].
      * apply IH. rewrite !app_length in Hf. cbn [length] in Hf. lia.
      * exfalso. exact (directive_no_panic _ _ _ _ _ E).
Qed.

Lemma blank_spec : forall c, is_whitespace c = true <-> blank c.
Proof.
  intros c. unfold is_whitespace, blank. cbn [In]. rewrite !orb_true_iff, !andb_true_iff, !Z.leb_le, !Z.eqb_eq. lia.
Qed.
Lemma trim_blank : forall s, exists a b, s = a ++ trim s ++ b /\ Forall blank a /\ Forall blank b /\
  (forall c r, trim s = c :: r -> ~ blank c) /\ (forall c r, trim s = r ++ [c] -> ~ blank c).
Proof.
  intros s. destruct (trim_spec s) as (a & b & H1 & H2 & H3 & H4). apply Forall_app in H2. destruct H2 as [Ha Hb].
  exists a, b. split; [exact H1|]. split; [|split; [|split]].
  - eapply Forall_impl; [|exact Ha]. intros c. apply blank_spec.
  - eapply Forall_impl; [|exact Hb]. intros c. apply blank_spec.
  - intros c r E B. apply blank_spec in B. rewrite (H3 c r E) in B. discriminate.
  - intros c r E B. apply blank_spec in B. rewrite (H4 c r E) in B. discriminate.
Qed.
Lemma split_any : forall text ms, in_order 0 ms (length text) ->
  interleave (split_matches text 0 ms) (matched text ms) = text /\ length (split_matches text 0 ms) = S (length ms).
Proof. intros text ms H. split; [apply (interleave_split ms text 0 (length text) eq_refl H)|apply split_length]. Qed.
