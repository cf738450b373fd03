From Verif Require Import Base BaseProofs Ptr Native Value Err Iter IterSpec IterProofs Ops StrSpec Str StrProofs.
Local Open Scope Z_scope.

(** ** widths *)
Definition dec (c : Z) : Prop := 48 <= c <= 57.
Definition width_text (w : list Z) : Prop := Forall dec w /\ (w = [] \/ exists c r, w = c :: r /\ c <> 48).
Lemma decimal_number : forall w ds, Forall2 digit_of w ds -> Forall (fun d => d < 10) ds -> decimal w = number 10 ds.
Proof.
  intros w ds H Hd. unfold decimal, number. generalize 0. revert Hd. induction H as [|c d w ds Hc H IH]; intros Hd a; [reflexivity|].
  inversion Hd; subst. cbn [fold_left]. replace (c - 48) with d by (unfold digit_of in Hc; lia). apply IH. assumption.
Qed.
Lemma numeral_width : forall n w, 0 < n -> numeral 10 n w -> width_text w /\ w <> [] /\ decimal w = n.
Proof.
  intros n w Hn (ds & H1 & H2 & H3 & H4). split; [|split].
  - split.
    + clear H3 H4 Hn. revert H2. induction H1 as [|c d w ds Hc H IH]; intros H2; [constructor|]. inversion H2; subst. constructor; [|auto]. unfold digit_of, dec in *. lia.
    + right. destruct H4 as [->|(d & r & -> & Hd)]; [cbn in H3; lia|]. inversion H1; subst. eexists _, _. split; [reflexivity|]. unfold digit_of in *. lia.
  - destruct H4 as [->|(d & r & -> & _)]; inversion H1; discriminate.
  - rewrite <- H3. apply decimal_number; assumption.
Qed.
Lemma width_numeral : forall w, width_text w -> w <> [] -> numeral 10 (decimal w) w /\ 0 < decimal w.
Proof.
  intros w [Hf Hz] Hw. destruct Hz as [->|(c & r & -> & Hc)]; [contradiction|].
  assert (Hd : Forall2 digit_of (c :: r) (map (fun c => c - 48) (c :: r))).
  { clear Hc Hw. induction Hf; constructor; [|assumption]. unfold digit_of, dec in *. lia. }
  assert (Hlt : Forall (fun d => d < 10) (map (fun c => c - 48) (c :: r))).
  { clear Hc Hw Hd. induction Hf; constructor; [|assumption]. unfold dec in *. lia. }
  assert (Hnn : Forall (fun d => 0 <= d) (map (fun c => c - 48) r)).
  { inversion Hf; subst. clear - H2. induction H2; constructor; [|assumption]. unfold dec in *. lia. }
  split.
  - exists (map (fun c => c - 48) (c :: r)). split; [exact Hd|]. split; [exact Hlt|]. split; [symmetry; apply decimal_number; assumption|].
    right. cbn. eexists _, _. split; [reflexivity|]. lia.
  - rewrite (decimal_number _ _ Hd Hlt). cbn [map]. apply number_pos; [lia| |exact Hnn]. inversion Hf; subst. unfold dec in *. lia.
Qed.
Lemma width_chars_ok : forall w buf k r, (buf <> [] \/ w = [] \/ exists c x, w = c :: x /\ c <> 48) -> Forall dec w -> ~ dec k ->
  width_chars buf (w ++ k :: r) = Some (buf ++ w, k :: r).
Proof.
  induction w as [|c w IH]; intros buf k r Hz Hf Hk.
  - cbn [app width_chars]. unfold dec in Hk. replace ((49 <=? k) && (k <=? 57)) with false by (symmetry; apply andb_false_iff; rewrite !Z.leb_gt; lia).
    replace (k =? 48) with false by (symmetry; apply Z.eqb_neq; lia). rewrite app_nil_r. reflexivity.
  - inversion Hf; subst. cbn [app width_chars]. unfold dec in H1.
    assert (Hnext : width_chars (buf ++ [c]) (w ++ k :: r) = Some (buf ++ c :: w, k :: r)).
    { rewrite IH; [rewrite <- app_assoc; reflexivity| |assumption|assumption]. left. destruct buf; discriminate. }
    destruct ((49 <=? c) && (c <=? 57)) eqn:E; [exact Hnext|]. apply andb_false_iff in E. rewrite !Z.leb_gt in E.
    assert (c = 48) by lia. subst c. cbn [Z.eqb Pos.eqb]. destruct buf as [|b buf].
    + exfalso. destruct Hz as [Hz|[Hz|(c & x & Hz & Hc)]]; [contradiction|discriminate|inversion Hz; subst; lia].
    + exact Hnext.
Qed.
Lemma width_chars_inv : forall s buf buf' rest, width_chars buf s = Some (buf', rest) ->
  exists w, s = w ++ rest /\ buf' = buf ++ w /\ Forall dec w /\ (buf <> [] \/ w = [] \/ exists c x, w = c :: x /\ c <> 48) /\ match rest with k :: _ => ~ dec k | [] => True end.
Proof.
  induction s as [|c s IH]; intros buf buf' rest H; cbn [width_chars] in H.
  - inversion H; subst. exists []. split; [reflexivity|]. split; [rewrite app_nil_r; reflexivity|]. split; [constructor|]. split; [auto|exact I].
  - destruct ((49 <=? c) && (c <=? 57)) eqn:E.
    + apply andb_prop in E. destruct E as [A B]. apply Z.leb_le in A, B. destruct (IH _ _ _ H) as (w & -> & -> & Hf & _ & Hk).
      exists (c :: w). rewrite <- app_assoc. split; [reflexivity|]. split; [reflexivity|]. split; [constructor; [unfold dec; lia|exact Hf]|].
      split; [|exact Hk]. right. right. exists c, w. split; [reflexivity|]. lia.
    + destruct (c =? 48) eqn:E0.
      * apply Z.eqb_eq in E0. subst c. destruct buf as [|b buf]; [discriminate|]. destruct (IH _ _ _ H) as (w & -> & -> & Hf & _ & Hk).
        exists (48 :: w). rewrite <- app_assoc. split; [reflexivity|]. split; [reflexivity|]. split; [constructor; [unfold dec; lia|exact Hf]|].
        split; [|exact Hk]. left. discriminate.
      * inversion H; subst. exists []. rewrite app_nil_r. apply Z.eqb_neq in E0. apply andb_false_iff in E. rewrite !Z.leb_gt in E.
        split; [reflexivity|]. split; [reflexivity|]. split; [constructor|]. split; [auto|]. unfold dec. lia.
Qed.

(** ** directives *)
Section Fmt.
  Variable show : value -> list Z.
  Definition kind_of (k : Z) : kind := if k =? 100 then AsDecimal else if k =? 120 then AsHex else if k =? 98 then AsBinary else AsText.
  Lemma kind_letter : forall k, kind_of (letter_of k) = k.
  Proof. intros []; reflexivity. Qed.
  Lemma letter_kind : forall c, is_directive c = true -> letter_of (kind_of c) = c.
  Proof.
    intros c H. unfold is_directive, kind_of in *. destruct (c =? 100) eqn:A; [apply Z.eqb_eq in A; subst; reflexivity|].
    destruct (c =? 120) eqn:B; [apply Z.eqb_eq in B; subst; reflexivity|]. destruct (c =? 98) eqn:C; [apply Z.eqb_eq in C; subst; reflexivity|].
    cbn in H. apply Z.eqb_eq in H. subst. reflexivity.
  Qed.
  Lemma letter_facts : forall k, is_directive (letter_of k) = true /\ ~ dec (letter_of k) /\ letter_of k <> 37 /\ letter_of k <> 48.
  Proof. intros []; cbn; unfold dec; repeat split; try lia. Qed.
  Lemma int_of_opt : forall v n, int_of v n <-> as_int_opt v = Some n.
  Proof. intros v n. split; [intros []; try reflexivity; destruct b; reflexivity|]. destruct v; cbn; intros H; inversion H; subst; constructor. Qed.
  Lemma filled_pad : forall zero w sign ds out, filled zero w sign ds out <-> out = pad_integral zero w sign ds.
  Proof. intros. unfold filled, pad_integral. rewrite app_length. split; [intros (k & -> & ->); reflexivity|intros ->; eauto]. Qed.
  Lemma u64_range : forall n, 0 <= u64 n < 2 ^ 64.
  Proof. intros. unfold u64, uwrap. apply Z.mod_pos_bound. reflexivity. Qed.
  Lemma directive_spec : forall k zero w v text, directive show (letter_of k) zero w v = Ok text <-> shows show zero w v k text.
  Proof.
    intros k zero w v text. unfold directive, as_int_checked.
    destruct k; cbn [letter_of]; cbn [Z.eqb Pos.eqb].
    - destruct (as_int_opt v) as [n|] eqn:E; cbn [bind].
      + split.
        * intros H. inversion H; subst. eapply shows_dec; [apply int_of_opt; exact E|apply digits_numeral; [lia|apply Z.abs_nonneg]|apply filled_pad; reflexivity].
        * intros H. inversion H; subst. apply int_of_opt in H0. rewrite E in H0. inversion H0; subst. f_equal. apply filled_pad in H2. subst.
          rewrite (numeral_unique 10 _ _ ltac:(lia) (Z.abs_nonneg _) H1). reflexivity.
      + split; [discriminate|]. intros H. inversion H; subst. apply int_of_opt in H0. congruence.
    - destruct (as_int_opt v) as [n|] eqn:E; cbn [bind].
      + split.
        * intros H. inversion H; subst. eapply shows_hex; [apply int_of_opt; exact E|apply digits_numeral; [lia|apply (u64_range n)]|apply filled_pad; reflexivity].
        * intros H. inversion H; subst. apply int_of_opt in H0. rewrite E in H0. inversion H0; subst. f_equal. apply filled_pad in H2. subst.
          rewrite (numeral_unique 16 _ _ ltac:(lia) (proj1 (u64_range n0)) H1). reflexivity.
      + split; [discriminate|]. intros H. inversion H; subst. apply int_of_opt in H0. congruence.
    - destruct (as_int_opt v) as [n|] eqn:E; cbn [bind].
      + split.
        * intros H. inversion H; subst. eapply shows_bin; [apply int_of_opt; exact E|apply digits_numeral; [lia|apply (u64_range n)]|apply filled_pad; reflexivity].
        * intros H. inversion H; subst. apply int_of_opt in H0. rewrite E in H0. inversion H0; subst. f_equal. apply filled_pad in H2. subst.
          rewrite (numeral_unique 2 _ _ ltac:(lia) (proj1 (u64_range n0)) H1). reflexivity.
      + split; [discriminate|]. intros H. inversion H; subst. apply int_of_opt in H0. congruence.
    - split; [intros H; inversion H; constructor|intros H; inversion H; reflexivity].
  Qed.
  Lemma directive_no_panic : forall k zero w v, directive show k zero w v <> Panic.
  Proof. intros. unfold directive, as_int_checked. repeat match goal with |- context [Z.eqb ?a ?b] => destruct (Z.eqb a b) end; destruct (as_int_opt v); discriminate. Qed.

  (** reading a directive *)
  Lemma directive_step : forall f (zero : bool) w k rest args out, (w = [] \/ exists n, 0 < n < 2 ^ 64 /\ numeral 10 n w) ->
    run_format show (S f) (37 :: (if zero then [48] else []) ++ w ++ letter_of k :: rest) args out =
    match args with
    | [] => Err ValueErrorMissingRequiredArgumentInStringFormatting
    | v :: args' => let? text := directive show (letter_of k) zero (Z.to_nat (decimal w)) v in run_format show f rest args' (out ++ text)
    end.
  Proof.
    intros f zero w k rest args out Hw. destruct (letter_facts k) as (K1 & K2 & K3 & K4).
    assert (Hwt : width_text w /\ decimal w < 18446744073709551616).
    { destruct Hw as [->|(n & Hn & Hnum)]; [split; [split; [constructor|auto]|cbn; lia]|].
      destruct (numeral_width n w ltac:(lia) Hnum) as (H1 & _ & H2). split; [exact H1|]. rewrite H2. change (2 ^ 64) with 18446744073709551616 in Hn. lia. }
    destruct Hwt as [[Hf Hz] Hlt].
    assert (Hwc : width_chars [] (w ++ letter_of k :: rest) = Some (w, letter_of k :: rest)). { apply (width_chars_ok w []); auto. }
    cbn [run_format]. change (negb (37 =? 37)) with false. cbv iota.
    destruct zero; cbn [app].
    - change (48 =? 37) with false. change (48 =? 48) with true. cbv iota. cbv zeta. rewrite Hwc.
      replace (18446744073709551616 <=? decimal w) with false by (symmetry; apply Z.leb_gt; lia). rewrite K1. cbn [negb]. reflexivity.
    - destruct (w ++ letter_of k :: rest) as [|d r'] eqn:Hd; [destruct w; discriminate|].
      assert (d <> 37 /\ d <> 48).
      { destruct w as [|c w']; cbn in Hd; inversion Hd; subst; [auto|]. inversion Hf; subst. unfold dec in *.
        destruct Hz as [Hz|(c & x & Hz & Hc)]; [discriminate|]. inversion Hz; subst. lia. }
      replace (d =? 37) with false by (symmetry; apply Z.eqb_neq; tauto). replace (d =? 48) with false by (symmetry; apply Z.eqb_neq; tauto).
      cbv iota. cbv zeta. cbv iota. rewrite Hwc. replace (18446744073709551616 <=? decimal w) with false by (symmetry; apply Z.leb_gt; lia). rewrite K1. cbn [negb]. reflexivity.
  Qed.
  Lemma width_is_decimal : forall w n, (w = [] \/ exists n, 0 < n < 2 ^ 64 /\ numeral 10 n w) -> width_is w n -> n = Z.to_nat (decimal w).
  Proof.
    intros w n Hw H. inversion H; subst; [reflexivity|]. f_equal. destruct H0 as (ds & H1 & H2 & <- & _). symmetry. apply decimal_number; assumption.
  Qed.
  Lemma spell_length : forall ps, (length (spell ps) >= length ps)%nat.
  Proof. induction ps as [|p ps IH]; [cbn; lia|]. unfold spell in *. cbn [flat_map length]. rewrite app_length. destruct p; cbn [piece_text length]; lia. Qed.
  Lemma format_renders : forall ps args text, renders show ps args text -> Forall piece_ok ps -> forall fuel out, (length (spell ps) < fuel)%nat ->
    run_format show fuel (spell ps) args out = Ok (VStr (out ++ text)).
  Proof.
    intros ps args text H. induction H as [|c ps args text H IH|ps args text H IH|zero w n k ps v args t text Hw Hs H IH]; intros Hok fuel out Hf;
      (destruct fuel as [|f]; [lia|]).
    - cbn. rewrite app_nil_r. reflexivity.
    - inversion Hok; subst. cbn [piece_ok] in *. unfold spell in *. cbn [flat_map piece_text app run_format] in *.
      replace (c =? 37) with false by (symmetry; apply Z.eqb_neq; assumption). cbn [negb]. rewrite IH; [rewrite <- app_assoc; reflexivity|assumption|cbn [length] in Hf; lia].
    - inversion Hok; subst. unfold spell in *. cbn [flat_map piece_text app] in *. cbn [run_format]. change (negb (37 =? 37)) with false. change (37 =? 37) with true. cbv iota.
      rewrite IH; [rewrite <- app_assoc; reflexivity|assumption|cbn [length] in Hf; lia].
    - inversion Hok; subst. cbn [piece_ok] in *. unfold spell in *. cbn [flat_map piece_text] in *. rewrite <- app_comm_cons in *. rewrite <- !app_assoc in *. cbn [app] in *.
      rewrite directive_step by assumption. apply directive_spec in Hs. rewrite <- (width_is_decimal w n); [|assumption|assumption]. rewrite Hs. cbn [bind].
      rewrite IH; [rewrite <- app_assoc; reflexivity|assumption|]. cbn [length] in Hf. rewrite !app_length in Hf. cbn [length] in Hf. lia.
  Qed.
  Lemma format_inv : forall fuel s args out v, run_format show fuel s args out = Ok v ->
    exists ps text, s = spell ps /\ Forall piece_ok ps /\ renders show ps args text /\ v = VStr (out ++ text).
  Proof.
    induction fuel as [|f IH]; intros s args out v H; [discriminate|]. cbn [run_format] in H. destruct s as [|c r].
    - destruct args; [|discriminate]. inversion H; subst. exists [], []. split; [reflexivity|]. split; [constructor|]. split; [constructor|]. rewrite app_nil_r. reflexivity.
    - destruct (c =? 37) eqn:Ec; cbn [negb] in H.
      + apply Z.eqb_eq in Ec. subst c. destruct r as [|d r']; [discriminate|]. destruct (d =? 37) eqn:Ed.
        * apply Z.eqb_eq in Ed. subst d. destruct (IH _ _ _ _ H) as (ps & text & -> & Hok & Hr & ->). exists (Percent :: ps), (37 :: text).
          split; [reflexivity|]. split; [constructor; [exact I|assumption]|]. split; [constructor; assumption|]. rewrite <- app_assoc. reflexivity.
        * cbv zeta in H. set (zero := d =? 48) in *.
          destruct (width_chars [] (if zero then r' else d :: r')) as [[buf rest]|] eqn:Hw; [|discriminate].
          destruct (18446744073709551616 <=? decimal buf) eqn:Hb; [discriminate|]. apply Z.leb_gt in Hb.
          destruct rest as [|k rest]; [discriminate|]. destruct (is_directive k) eqn:Hk; [|discriminate]. cbn [negb] in H.
          destruct args as [|a args]; [discriminate|]. destruct (directive show k zero (Z.to_nat (decimal buf)) a) as [t| |] eqn:Hd; cbn [bind] in H; [|discriminate|discriminate].
          destruct (IH _ _ _ _ H) as (ps & text & -> & Hok & Hr & ->).
          destruct (width_chars_inv _ _ _ _ Hw) as (w & Hs & Hbuf & Hf & Hz & Hkd). cbn [app] in Hbuf. subst buf.
          assert (Hwt : width_text w). { split; [exact Hf|]. destruct Hz as [Hz|Hz]; [contradiction|exact Hz]. }
          exists (Directive zero w (kind_of k) :: ps), (t ++ text). split; [|split; [|split]].
          -- unfold spell. cbn [flat_map piece_text]. fold (spell ps). rewrite (letter_kind k Hk). rewrite <- app_comm_cons, <- !app_assoc. cbn [app]. f_equal.
             unfold zero in *. destruct (d =? 48) eqn:E0; [apply Z.eqb_eq in E0; subst d; rewrite Hs; reflexivity|exact Hs].
          -- constructor; [|assumption]. cbn [piece_ok]. destruct w as [|c0 w0]; [left; reflexivity|right].
             destruct (width_numeral (c0 :: w0) Hwt ltac:(discriminate)) as [Hn Hp]. eexists. split; [|exact Hn]. change (2 ^ 64) with 18446744073709551616. lia.
          -- rewrite <- (letter_kind k Hk) in Hd. apply directive_spec in Hd. eapply renders_directive; [|exact Hd|assumption].
             destruct w as [|c0 w0]; [constructor|]. constructor. apply (width_numeral (c0 :: w0) Hwt ltac:(discriminate)).
          -- rewrite <- app_assoc. reflexivity.
      + apply Z.eqb_neq in Ec. destruct (IH _ _ _ _ H) as (ps & text & -> & Hok & Hr & ->). exists (Plain c :: ps), (c :: text).
        split; [reflexivity|]. split; [constructor; assumption|]. split; [constructor; assumption|]. rewrite <- app_assoc. reflexivity.
  Qed.
  Lemma spell_inj : forall ps ps', Forall piece_ok ps -> Forall piece_ok ps' -> spell ps = spell ps' -> ps = ps'.
  Proof.
    assert (Hdir : forall (zero : bool) w k rest, piece_ok (Directive zero w k) -> exists d r, (if zero then [48] else []) ++ w ++ letter_of k :: rest = d :: r /\ d <> 37 /\ (d =? 48) = zero
      /\ width_chars [] (if zero then r else d :: r) = Some (w, letter_of k :: rest)).
    { intros zero w k rest Hw. cbn [piece_ok] in Hw. destruct (letter_facts k) as (K1 & K2 & K3 & K4).
      assert (Hwt : width_text w). { destruct Hw as [->|(n & Hn & Hnum)]; [split; [constructor|auto]|]. apply (numeral_width n w); [lia|exact Hnum]. }
      destruct Hwt as [Hf Hz]. assert (Hwc : width_chars [] (w ++ letter_of k :: rest) = Some (w, letter_of k :: rest)). { apply (width_chars_ok w []); auto. }
      destruct zero; cbn [app]; [exists 48, (w ++ letter_of k :: rest); split; [reflexivity|]; split; [lia|]; auto|].
      destruct (w ++ letter_of k :: rest) as [|d r'] eqn:Hd; [destruct w; discriminate|]. exists d, r'. split; [reflexivity|].
      assert (d <> 37 /\ d <> 48).
      { destruct w as [|c w']; cbn in Hd; inversion Hd; subst; [auto|]. inversion Hf; subst. unfold dec in *.
        destruct Hz as [Hz|(c & x & Hz & Hc)]; [discriminate|]. inversion Hz; subst. lia. }
      split; [tauto|]. split; [apply Z.eqb_neq; tauto|]. exact Hwc. }
    induction ps as [|p ps IH]; intros ps' H1 H2 E.
    - destruct ps' as [|p' ps']; [reflexivity|]. destruct p'; discriminate E.
    - destruct ps' as [|p' ps']; [destruct p; discriminate E|]. inversion H1 as [|? ? Hp Hps]; subst. inversion H2 as [|? ? Hp' Hps']; subst.
      unfold spell in E. cbn [flat_map] in E. fold (spell ps) in E. fold (spell ps') in E.
      destruct p as [c| |zero w k]; destruct p' as [c'| |zero' w' k']; cbn [piece_text] in E.
      + inversion E; subst. f_equal. apply IH; assumption.
      + inversion E; subst. exfalso. apply Hp. reflexivity.
      + cbn in E. inversion E; subst. exfalso. apply Hp. reflexivity.
      + inversion E; subst. exfalso. apply Hp'. reflexivity.
      + inversion E; subst. f_equal. apply IH; assumption.
      + cbn [app] in E; repeat rewrite <- app_assoc in E; cbn [app] in E. destruct (Hdir zero' w' k' (spell ps') Hp') as (d & r & E' & Hd & _).
        rewrite E' in E. inversion E. subst. contradiction.
      + inversion E; subst. exfalso. apply Hp'. reflexivity.
      + cbn [app] in E; repeat rewrite <- app_assoc in E; cbn [app] in E. destruct (Hdir zero w k (spell ps) Hp) as (d & r & E' & Hd & _).
        rewrite E' in E. inversion E. subst. contradiction.
      + cbn [app] in E; repeat rewrite <- app_assoc in E; cbn [app] in E.
        destruct (Hdir zero w k (spell ps) Hp) as (d & r & E1 & Hd & Hz & Hw). destruct (Hdir zero' w' k' (spell ps') Hp') as (d' & r' & E2 & Hd' & Hz' & Hw').
        rewrite E1, E2 in E. inversion E; subst d' r'. rewrite Hz in Hz'. subst zero'. rewrite Hw in Hw'. inversion Hw'; subst.
        assert (k = k') by (destruct k, k'; try reflexivity; discriminate). subst. f_equal. apply IH; assumption.
  Qed.
  Lemma format_panic : forall fuel s args out, run_format show fuel s args out = Panic -> (length s < fuel)%nat ->
    exists a w b, s = a ++ w ++ b /\ Forall dec w /\ 2 ^ 64 <= decimal w.
  Proof.
    induction fuel as [|f IH]; intros s args out H Hl; [lia|]. cbn [run_format] in H. destruct s as [|c r].
    - destruct args; discriminate.
    - cbn [length] in Hl. destruct (c =? 37) eqn:Ec; cbn [negb] in H.
      + destruct r as [|d r']; [discriminate|]. cbn [length] in Hl. destruct (d =? 37) eqn:Ed.
        * destruct (IH _ _ _ H) as (a & w & b & -> & Hw); [lia|]. exists (c :: d :: a), w, b. split; [reflexivity|exact Hw].
        * cbv zeta in H. set (zero := d =? 48) in *.
          destruct (width_chars [] (if zero then r' else d :: r')) as [[buf rest]|] eqn:Hw; [|discriminate].
          destruct (width_chars_inv _ _ _ _ Hw) as (w & Hs & Hbuf & Hf & Hz & Hkd). cbn [app] in Hbuf. subst buf.
          assert (Hsplit : c :: d :: r' = (c :: if zero then [d] else []) ++ w ++ rest).
          { destruct zero; cbn [app]; rewrite <- Hs; reflexivity. }
          destruct (18446744073709551616 <=? decimal w) eqn:Hb.
          { apply Z.leb_le in Hb. exists (c :: if zero then [d] else []), w, rest. split; [exact Hsplit|]. split; [exact Hf|]. change (2 ^ 64) with 18446744073709551616. lia. }
          destruct rest as [|k rest]; [discriminate|]. destruct (is_directive k) eqn:Hk; [|discriminate]. cbn [negb] in H.
          destruct args as [|a args]; [discriminate|]. destruct (directive show k zero (Z.to_nat (decimal w)) a) as [t| |] eqn:Hd; cbn [bind] in H; [|discriminate|].
          -- destruct (IH _ _ _ H) as (a0 & w0 & b0 & -> & Hw0).
             ++ apply (f_equal (@length Z)) in Hsplit. cbn [length] in Hsplit. rewrite !app_length in Hsplit. cbn [length] in Hsplit. lia.
             ++ exists ((c :: if zero then [d] else []) ++ w ++ k :: a0), w0, b0. split; [|exact Hw0]. rewrite Hsplit. rewrite <- !app_assoc. reflexivity.
          -- exfalso. exact (directive_no_panic _ _ _ _ Hd).
      + destruct (IH _ _ _ H) as (a & w & b & -> & Hw); [lia|]. exists (c :: a), w, b. split; [reflexivity|exact Hw].
  Qed.
  Lemma renders_count : forall ps args out, renders show ps args out -> directives ps = length args.
  Proof. intros ps args out H. unfold directives. induction H; cbn [filter length]; auto. Qed.
  Lemma filled_keeps : forall (zero : bool) w sign ds out, filled zero w sign ds out -> (w <= length out)%nat /\ (length sign + length ds <= length out)%nat /\
    exists a b, out = a ++ ds /\ a = (if zero : bool then sign ++ b else b ++ sign) /\ Forall (fun c => c = if zero then 48 else 32) b.
  Proof.
    intros zero w sign ds out (k & Hk & ->).
    assert (Hrep : forall c : Z, Forall (fun x => x = c) (repeat c k)). { intros c. apply Forall_forall. intros x Hx. apply repeat_spec in Hx. exact Hx. }
    destruct zero; rewrite !app_length, repeat_length; (split; [lia|]; split; [lia|]).
    - exists (sign ++ repeat 48 k), (repeat 48 k). rewrite <- app_assoc. auto.
    - exists (repeat 32 k ++ sign), (repeat 32 k). rewrite <- app_assoc. auto.
  Qed.
End Fmt.

(** ** split and join *)
Lemma skipn_skipn : forall {A} (x y : nat) (l : list A), skipn x (skipn y l) = skipn (x + y) l.
Proof. intros A x y. revert x. induction y as [|y IH]; intros x l; [rewrite Nat.add_0_r; reflexivity|]. rewrite Nat.add_succ_r. destruct l; [rewrite !skipn_nil; reflexivity|]. cbn. apply IH. Qed.
Lemma starts_with_spec : forall p s, starts_with p s = true <-> exists b, s = p ++ b.
Proof.
  induction p as [|x p IH]; intros s; cbn [starts_with]; [split; [intros _; exists s; reflexivity|reflexivity]|].
  destruct s as [|y s]; [split; [discriminate|intros [b H]; discriminate]|]. rewrite andb_true_iff, Z.eqb_eq, IH. split.
  - intros [-> [b ->]]. exists b. reflexivity.
  - intros [b H]. inversion H; subst. eauto.
Qed.
Lemma interleave_split : forall ms text last n, n = length text -> in_order last ms n ->
  interleave (split_matches text last ms) (matched text ms) = skipn last text.
Proof.
  induction ms as [|[a b] ms IH]; intros text last n Hn Ho; [reflexivity|]. cbn [in_order] in Ho. destruct Ho as [Hab Ho].
  cbn [split_matches matched map fst snd interleave]. unfold matched in IH. rewrite (IH text b n Hn Ho).
  transitivity (firstn (a - last) (skipn last text) ++ skipn (a - last) (skipn last text)); [|apply firstn_skipn]. f_equal.
  rewrite skipn_skipn. replace (a - last + last)%nat with a by lia.
  transitivity (firstn (b - a) (skipn a text) ++ skipn (b - a) (skipn a text)); [|apply firstn_skipn]. f_equal.
  rewrite skipn_skipn. replace (b - a + a)%nat with b by lia. reflexivity.
Qed.
Lemma join_interleave : forall sep pieces seps, Forall (fun s => s = sep) seps -> length pieces = S (length seps) -> join sep pieces = interleave pieces seps.
Proof.
  intros sep pieces. assert (Hrest : forall pieces seps, Forall (fun s => s = sep) seps -> length pieces = S (length seps) ->
    forall p r, pieces = p :: r -> p ++ join_rest sep r = interleave pieces seps).
  { clear pieces. induction pieces as [|p0 pieces IH]; intros seps Hs Hl p r Heq; [discriminate|]. inversion Heq; subst p0 pieces. destruct seps as [|s seps].
    - destruct r; [|discriminate]. cbn. apply app_nil_r.
    - inversion Hs; subst. destruct r as [|p1 r]; [discriminate|]. cbn [join_rest interleave]. f_equal. f_equal. apply (IH seps); auto. }
  intros seps Hs Hl. destruct pieces as [|p r]; [discriminate|]. cbn [join]. apply (Hrest (p :: r)); auto.
Qed.
Lemma split_length : forall ms text last, length (split_matches text last ms) = S (length ms).
Proof. induction ms as [|[a b] ms IH]; intros; [reflexivity|]. cbn [split_matches length]. rewrite IH. reflexivity. Qed.

Section Find.
  Variable sep text : list Z.
  Hypothesis Hsep : sep <> [].
  Lemma sep_pos : (0 < length sep)%nat. Proof. destruct sep; [contradiction|cbn; lia]. Qed.
  Definition at_pos (pos : nat) (s : list Z) : Prop := exists pre, text = pre ++ s /\ length pre = pos.
  Lemma at_skipn : forall pos s, at_pos pos s -> skipn pos text = s /\ (pos + length s = length text)%nat.
  Proof. intros pos s (pre & -> & <-). rewrite skipn_app, skipn_all, Nat.sub_diag, app_length. auto. Qed.
  Lemma at_next : forall pos c s, at_pos pos (c :: s) -> at_pos (S pos) s.
  Proof. intros pos c s (pre & H & <-). exists (pre ++ [c]). rewrite <- app_assoc, app_length. cbn. split; [exact H|lia]. Qed.

  Lemma find_in_order : forall s pos skip last, at_pos pos s -> (skip <= length s)%nat -> last = (pos + skip)%nat \/ (skip = O /\ (last <= pos)%nat) ->
    in_order last (find_literal sep s pos skip) (length text) /\ Forall (fun m => firstn (snd m - fst m) (skipn (fst m) text) = sep) (find_literal sep s pos skip).
  Proof.
    pose proof sep_pos as Hp. induction s as [|c s IH]; intros pos skip last Ha Hsk Hl; cbn [find_literal].
    - destruct (at_skipn _ _ Ha) as [_ Hlen]. cbn [length] in *. split; [cbn; lia|constructor].
    - pose proof (at_next _ _ _ Ha) as Hn. destruct (at_skipn _ _ Ha) as [Hs Hlen]. cbn [length] in *. destruct skip as [|k].
      + destruct (starts_with sep (c :: s)) eqn:E.
        * apply starts_with_spec in E. destruct E as [b E]. assert (Hlb : S (length s) = (length sep + length b)%nat) by (rewrite <- app_length, <- E; reflexivity).
          destruct (IH (S pos) (length sep - 1)%nat (pos + length sep)%nat Hn) as [H1 H2]; [lia|left; lia|]. split.
          -- cbn [in_order]. split; [lia|exact H1].
          -- constructor; [|exact H2]. cbn [fst snd]. rewrite Hs, E. replace (pos + length sep - pos)%nat with (length sep) by lia.
             rewrite firstn_app, Nat.sub_diag, firstn_all. cbn. apply app_nil_r.
        * apply (IH (S pos) O last Hn); [lia|]. right. lia.
      + apply (IH (S pos) k last Hn); [lia|]. destruct Hl as [->|[Hl _]]; [left; lia|discriminate].
  Qed.
  Lemma occurs_at : forall p s, occurs p s -> exists j, (j + length p <= length s)%nat /\ starts_with p (skipn j s) = true.
  Proof.
    intros p s (a & b & ->). exists (length a). rewrite !app_length. split; [lia|]. apply starts_with_spec. exists b. rewrite skipn_app, skipn_all, Nat.sub_diag. reflexivity.
  Qed.
  Lemma starts_firstn : forall p n l, starts_with p (firstn n l) = true -> starts_with p l = true.
  Proof. intros p n l H. apply starts_with_spec in H. destruct H as [b H]. apply starts_with_spec. exists (b ++ skipn n l). rewrite app_assoc, <- H. symmetry. apply firstn_skipn. Qed.
  Lemma find_no_sep : forall s pos skip last, at_pos pos s -> (skip <= length s)%nat -> last = (pos + skip)%nat \/ (skip = O /\ (last <= pos)%nat) ->
    (forall i, (last <= i < pos)%nat -> starts_with sep (skipn i text) = false) ->
    Forall (fun p => ~ occurs sep p) (split_matches text last (find_literal sep s pos skip)).
  Proof.
    pose proof sep_pos as Hp. induction s as [|c s IH]; intros pos skip last Ha Hsk Hl Hno; cbn [find_literal].
    - destruct (at_skipn _ _ Ha) as [_ Hlen]. cbn [length] in *. constructor; [|constructor]. intros Ho. apply occurs_at in Ho. destruct Ho as (j & Hj & Hst).
      rewrite skipn_length in Hj. rewrite skipn_skipn in Hst. rewrite (Hno (j + last)%nat) in Hst by lia. discriminate.
    - pose proof (at_next _ _ _ Ha) as Hn. destruct (at_skipn _ _ Ha) as [Hs Hlen]. cbn [length] in *. destruct skip as [|k].
      + destruct (starts_with sep (c :: s)) eqn:E.
        * assert (E' := E). apply starts_with_spec in E. destruct E as [b E]. assert (Hlb : S (length s) = (length sep + length b)%nat) by (rewrite <- app_length, <- E; reflexivity).
          cbn [split_matches]. constructor.
          -- intros Ho. apply occurs_at in Ho. destruct Ho as (j & Hj & Hst). rewrite firstn_length, skipn_length in Hj.
             rewrite skipn_firstn_comm in Hst. apply starts_firstn in Hst. rewrite skipn_skipn in Hst. rewrite (Hno (j + last)%nat) in Hst by lia. discriminate.
          -- apply (IH (S pos) (length sep - 1)%nat (pos + length sep)%nat Hn); [lia|left; lia|]. intros i Hi. lia.
        * apply (IH (S pos) O last Hn); [lia|right; lia|]. intros i Hi. destruct (Nat.eq_dec i pos) as [->|Hne]; [rewrite Hs; exact E|]. apply Hno. lia.
      + apply (IH (S pos) k last Hn); [lia|destruct Hl as [->|[Hl _]]; [left; lia|discriminate]|]. intros i Hi. destruct Hl as [->|[Hl _]]; [lia|discriminate].
  Qed.
End Find.

Lemma split_join : forall sep text, sep <> [] -> join sep (split sep text) = text /\ Forall (fun p => ~ occurs sep p) (split sep text).
Proof.
  intros sep text Hsep. unfold split. destruct sep as [|x sep']; [contradiction|]. set (sep := x :: sep') in *.
  assert (Ha : at_pos text 0 text) by (exists []; auto).
  destruct (find_in_order sep text Hsep text 0 0 0 Ha) as [H1 H2]; [lia|left; lia|]. split.
  - rewrite (join_interleave sep _ (matched text (find_literal sep text 0 0))).
    + apply (interleave_split _ text 0 (length text) eq_refl H1).
    + unfold matched. rewrite Forall_map. exact H2.
    + unfold matched. rewrite split_length, map_length. reflexivity.
  - apply (find_no_sep sep text Hsep text 0 0 0 Ha); [lia|left; lia|]. intros; lia.
Qed.
Lemma join_chars : forall text, join [] (map (fun c => [c]) text) = text.
Proof.
  intros [|c text]; [reflexivity|]. cbn. f_equal. induction text as [|d text IH]; [reflexivity|]. cbn. f_equal. exact IH.
Qed.

(** ** trim *)
Lemma trim_start_spec : forall s, exists a, s = a ++ trim_start s /\ Forall (fun c => is_whitespace c = true) a /\ match trim_start s with [] => True | c :: _ => is_whitespace c = false end.
Proof.
  induction s as [|c s (a & Hs & Ha & Hh)]; [exists []; cbn; auto|]. cbn [trim_start]. destruct (is_whitespace c) eqn:E.
  - exists (c :: a). cbn. rewrite <- Hs. auto.
  - exists []. cbn. auto.
Qed.
Lemma trim_spec : forall s, exists a b, s = a ++ trim s ++ b /\ Forall (fun c => is_whitespace c = true) (a ++ b) /\
  (forall c r, trim s = c :: r -> is_whitespace c = false) /\ (forall c r, trim s = r ++ [c] -> is_whitespace c = false).
Proof.
  intros s. destruct (trim_start_spec s) as (a & Hs & Ha & Hh). set (t := trim_start s) in *.
  destruct (trim_start_spec (rev t)) as (b & Ht & Hb & Hh'). set (u := trim_start (rev t)) in *.
  assert (Heq : trim s = rev u) by reflexivity.
  assert (Htt : t = rev u ++ rev b). { rewrite <- rev_app_distr, <- Ht. symmetry. apply rev_involutive. }
  exists a, (rev b). rewrite Heq. split; [rewrite <- Htt; exact Hs|]. split; [apply Forall_app; split; [exact Ha|apply Forall_rev; exact Hb]|]. split.
  - intros c r Hc. rewrite Htt, Hc in Hh. exact Hh.
  - intros c r Hc. apply (f_equal (@rev Z)) in Hc. rewrite rev_involutive, rev_app_distr in Hc. cbn in Hc. rewrite Hc in Hh'. exact Hh'.
Qed.
