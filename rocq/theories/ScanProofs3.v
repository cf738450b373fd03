From Verif Require Import Base Scan ScanSpec ScanProofs ScanProofs2.
From Coq Require Import String List.
Local Open Scope Z_scope.

(** ** the scanner always ends, and has cut the text into pieces *)
Lemma spelled_nonempty t w : spelled t w -> w <> [].
Proof.
  intro H. destruct H as [t w H|t w H|w H| w v H|c H|w v c H| q b s H]; try discriminate.
  - unfold symbols in H. cbn [In] in H. repeat (destruct H as [H|H]; [injection H as <- <-; discriminate|]). destruct H.
  - unfold reserved in H. cbn [In] in H. repeat (destruct H as [H|H]; [injection H as <- <-; discriminate|]). destruct H.
  - destruct H as (c & r & -> & _). discriminate.
  - destruct H; discriminate.
  - destruct w; discriminate.
Qed.
Lemma piece_nonempty p q : piece_ok p q -> piece_text p <> [].
Proof.
  intro H. destruct H as [t w rest H| | | | | | |w v i rest H _ _|w i rest H _| |]; cbn [piece_text]; try discriminate.
  - eapply spelled_nonempty; exact H.
  - destruct H; discriminate.
  - destruct H; discriminate.
Qed.
Lemma reads_shorter ps s s' : ps <> [] -> reads ps s s' -> (length (chars s') < length (chars s))%nat.
Proof.
  intros N (C & P & _). destruct ps as [|p ps]; [contradiction|]. destruct P as [P _]. apply piece_nonempty in P. rewrite C. cbn [map concat]. rewrite !app_length.
  destruct (piece_text p); [contradiction|cbn [length]; lia].
Qed.
Lemma bad_string_last ps q : pieces_then ps q -> In UnterminatedStringLiteral (bad ps) -> q = [].
Proof.
  induction ps as [|p ps IH]; intros P H; [destruct H|]. destruct P as [P1 P2]. unfold bad in H. cbn [flat_map] in H. apply in_app_or in H. destruct H as [H|H]; [|apply IH; auto].
  destruct p as [| | | |e w]; try contradiction. destruct H as [->|[]]. inversion P1; subst. match goal with H : [] = _ ++ _ |- _ => symmetry in H; apply app_eq_nil in H; tauto end.
Qed.
Lemma scan_reads : forall n s, (length (chars s) < n)%nat -> exists s' ps, scan_loop n s = Some s' /\ reads ps s s' /\ chars s' = [].
Proof.
  induction n as [|n IH]; intros s L; [lia|]. cbn [scan_loop]. destruct (chars s) as [|c r] eqn:C.
  - rewrite (advance_nil _ C). exists s, []. split; auto. split; auto. apply reads_nil.
  - rewrite (advance_cons _ _ _ C). destruct (step_reads s c r C) as (ps & N & R). assert (L' := reads_shorter _ _ _ N R). rewrite C in L'. cbn [length] in L, L'.
    destruct (IH (scan_char c (eat [c] r s))) as (s' & ps' & E & R' & C'); [lia|]. exists s', (ps ++ ps'). split; auto. split; auto.
    apply (reads_app _ _ _ _ _ R R'). destruct (in_dec (fun a b : scan_error => ltac:(decide equality; solve [apply Z.eq_dec|apply bool_dec])) UnterminatedStringLiteral (bad ps)) as [I|I]; auto.
    left. destruct R as (_ & P & _). apply (bad_string_last _ _ P) in I. destruct R' as (CC & P' & _). rewrite I in CC. symmetry in CC. apply app_eq_nil in CC. destruct CC as [CC _].
    destruct ps' as [|p' ps']; auto. destruct P' as [P' _]. apply piece_nonempty in P'. cbn [map concat] in CC. apply app_eq_nil in CC. tauto.
Qed.
Lemma scan_loop_more : forall n m s x, scan_loop n s = Some x -> (n <= m)%nat -> scan_loop m s = Some x.
Proof.
  induction n as [|n IH]; intros m s x E L; [discriminate|]. destruct m as [|m]; [lia|]. cbn [scan_loop] in *. destruct (advance s) as [[c|] s']; auto. apply IH; auto. lia.
Qed.

(** ** a proper spelling is read as that token *)
Definition begin (t : list Z) : scanner := Scanner t 0 [] [].
Lemma begin_token (t : token) w s : scan_char (hd 0 w) (eat [hd 0 w] (tl w) (begin w)) = s -> w <> [] -> chars s = [] -> scan w = Some s.
Proof.
  intros E N C. unfold scan. destruct w as [|c r]; [contradiction|]. fold (begin (c :: r)). cbn [hd tl length] in *. cbn [scan_loop]. rewrite (advance_cons (begin (c :: r)) c r) by reflexivity.
  rewrite E. destruct r; cbn [length scan_loop]; rewrite (advance_nil _ C); reflexivity.
Qed.
Lemma all_prefix (P : Z -> bool) p q : Forall (fun c => P c = true) (p ++ q) -> next_not P q -> q = [].
Proof. intros F N. destruct q as [|c q]; auto. apply Forall_app in F. destruct F as [_ F]. inversion F; subst. cbn in N. congruence. Qed.
Lemma letter_not_space c : is_letter c = true -> ((c =? 32) || (c =? 9) || (c =? 13) || (c =? 10)) = false.
Proof. rewrite letter_ok. unfold letter. lia. Qed.
Definition placed_token (w : list Z) (t : token) : scanner := push (Z.of_nat (length w)) t (eat w [] (begin w)).

Lemma word_scan w : word w -> scan w = Some (placed_token w (find_keyword keywords w)).
Proof.
  intros (c & r & -> & L & F). apply letter_ok in L. apply (begin_token (find_keyword keywords (c :: r))); try discriminate; [|reflexivity]. cbn [hd tl].
  unfold scan_char. rewrite (letter_not_space c L), L. change (chars (eat [c] r (begin (c :: r)))) with r.
  destruct (word_loop_eat (S (length r)) [c] (eat [c] r (begin (c :: r)))) as (p & q & E & Fp & N & ->); [cbn [eat chars]; lia|]. cbn [eat chars] in E.
  assert (q = []) by (apply (all_prefix is_word p); auto; rewrite <- E; eapply Forall_impl; [|exact F]; intros a; apply word_ok). subst q. rewrite app_nil_r in E. subst r. rewrite eat_eat. reflexivity.
Qed.

(** digits all the way, then perhaps i *)
Definition int_of (radix : Z) (buf : list Z) (w i : list Z) (cx : bool) (s : scanner) : scanner :=
  int_result (w ++ i) (match buf with [] => true | _ => false end) (number radix (map digit_value buf)) cx s.
Lemma number_scan radix dg pre buf p i s : radix_digit radix dg -> 2 <= radix -> radix <= 16 -> Forall (fun c => 0 <= digit_value c) buf ->
  Z.of_nat (length pre) = Z.of_nat (length buf) + (if radix =? 10 then 0 else 2) ->
  Forall (fun c => (dg c || (c =? 95)) = true) p -> i = [] \/ (exists c, i = [c] /\ imaginary c) -> chars s = pre ++ p ++ i ->
  (let '(buffer, extra_len, s) := digit_loop dg (S (length (p ++ i))) buf 0 (eat pre (p ++ i) s) in screen_int buffer radix extra_len s) =
  int_of radix (buf ++ filter dg p) (pre ++ p) i (match i with [] => false | _ => true end) (eat ((pre ++ p) ++ i) [] s).
Proof.
  intros R R2 R16 Hb Hl F I C. destruct (digit_loop_eat dg (radix_under _ _ R) (S (length (p ++ i))) buf 0 (eat pre (p ++ i) s)) as (p' & q & E & F' & NX & ->); [cbn [eat chars]; lia|].
  cbn [eat chars] in E. assert (EQ : p' = p /\ q = i).
  { assert (NI : forall c, imaginary c -> dg c || (c =? 95) = false).
    { intros c Hc. destruct (dg c) eqn:D; [|unfold imaginary in Hc; cbn [orb]; lia]. exfalso. apply R in D. destruct D as (d & D & _). unfold digit, imaginary in *. lia. }
    clear - E F F' NX I NI. revert p F E. induction p' as [|c p' IH]; intros p F E.
    - destruct p as [|d p]; cbn [app] in *; auto. subst q. inversion F; subst. cbn [next_not] in NX. congruence.
    - inversion F' as [|? ? Hc F'']; subst. destruct p as [|d p]; cbn [app] in *.
      + destruct I as [->|(x & -> & Hx)]; [discriminate|]. injection E as <- _. rewrite NI in Hc by auto. discriminate.
      + injection E as <- E. inversion F; subst. destruct (IH F'' p) as [-> ->]; auto. }
  destruct EQ as [-> ->]. rewrite eat_eat.
  destruct (screen_int_ok radix (buf ++ filter dg p) (0 + Z.of_nat (length p) - Z.of_nat (length (filter dg p))) (eat (pre ++ p) i s) (pre ++ p)) as (i' & I' & ->); auto.
  { apply Forall_app. split; auto. apply (filter_values _ _ _ R). }
  { rewrite !app_length. lia. }
  cbn [eat chars] in *. fold (eat (pre ++ p) i s). rewrite eat_eat. unfold int_of. destruct I' as [[-> NI]|(c & r & -> & Ic & Q)].
  - destruct I as [->|(x & -> & Hx)]; [reflexivity|]. cbn [next_not] in NI. apply i_ok in Hx. congruence.
  - subst i. destruct I as [?|(x & Q & Hx)]; [discriminate|]. injection Q as -> ->. reflexivity.
Qed.
Lemma int_of_ok radix buf w i cx s v : number radix (map digit_value buf) = v -> buf <> [] -> int_of radix buf w i cx s = int_result (w ++ i) false v cx s.
Proof. intros <- N. unfold int_of. destruct buf; [contradiction|]. reflexivity. Qed.
Lemma int_result_chars w e v cx s : chars (int_result w e v cx s) = chars s.
Proof. unfold int_result. destruct e; [reflexivity|]. destruct (v <? 2 ^ 63); reflexivity. Qed.

Lemma numeral_scan0 w v i : numeral w v -> (i = [] \/ (exists c, i = [c] /\ imaginary c) /\ w <> [48]) ->
  scan (w ++ i) = Some (int_result (w ++ i) false v (match i with [] => false | _ => true end) (eat (w ++ i) [] (begin (w ++ i)))).
Proof.
  intros N I.
  assert (I' : i = [] \/ (exists c, i = [c] /\ imaginary c)) by tauto.
  destruct N as [|c d w ds D Dl DS|w ds DS NE|w ds DS NE].
  - destruct I as [->|[_ N]]; [|contradiction]. reflexivity.
  - assert (Hc : 49 <= c <= 57) by (destruct D as [[? ->]|[[? ->]|[? ->]]]; lia).
    apply (begin_token NewLine); try discriminate; [|rewrite int_result_chars; reflexivity]. cbn [hd tl app].
    unfold scan_char. replace ((c =? 32) || (c =? 9) || (c =? 13) || (c =? 10)) with false by lia.
    replace (is_letter c) with false by (symmetry; destruct (is_letter c) eqn:Q; auto; apply letter_ok in Q; unfold letter in Q; lia).
    replace (c =? 48) with false by lia. replace (in_range 49 57 c) with true by (unfold in_range; lia). cbn iota.
    destruct (digits_dec 10 is_digit radix_10 _ _ DS) as [F M]. destruct (value_det _ _ D) as [V _].
    change (chars (eat [c] (w ++ i) (begin (c :: w ++ i)))) with (w ++ i).
    rewrite (number_scan 10 is_digit [c] [c] w i (begin (c :: w ++ i)) radix_10); auto; try lia; [|constructor; [rewrite V; lia|constructor]].
    rewrite (int_of_ok 10 _ _ _ _ _ (number 10 (d :: ds))); auto; [cbn [app map]; rewrite V, M; reflexivity|discriminate].
  - destruct (digits_dec 16 is_hex radix_16 _ _ DS) as [F M].
    assert (NF : filter is_hex w <> []) by (intro Q; rewrite Q in M; cbn in M; congruence).
    apply (begin_token NewLine); try discriminate; [|rewrite int_result_chars; reflexivity]. cbn [hd tl app]. unfold scan_char.
    change ((48 =? 32) || (48 =? 9) || (48 =? 13) || (48 =? 10)) with false. change (is_letter 48) with false. change (48 =? 48) with true. cbn iota.
    change (peek (eat [48] (120 :: w ++ i) (begin (48 :: 120 :: w ++ i)))) with (Some 120). change (120 =? 120) with true. cbn iota.
    rewrite skip_eat. cbn [app]. change (chars (eat [48] (120 :: w ++ i) (begin (48 :: 120 :: w ++ i)))) with (120 :: w ++ i).
    assert (G : forall m1 m2 b k s1, (length (chars s1) <= m1)%nat -> (length (chars s1) <= m2)%nat -> digit_loop is_hex m1 b k s1 = digit_loop is_hex m2 b k s1).
    { clear. induction m1 as [|m1 IH]; intros [|m2] b k s1 L1 L2; cbn [digit_loop]; auto; unfold peek; destruct (chars s1) as [|x l] eqn:E; cbn [length] in *; auto; try lia.
      destruct (is_hex x); [|destruct (x =? 95)]; auto; rewrite !(skip_cons _ _ _ E); apply IH; cbn [eat chars]; lia. }
    rewrite (G _ (S (length (w ++ i)))) by (cbn [eat chars length]; lia).
    rewrite (number_scan 16 is_hex [48; 120] [] w i (begin (48 :: 120 :: w ++ i)) radix_16); auto; try lia.
    rewrite (int_of_ok 16 _ _ _ _ _ (number 16 ds)); auto; cbn [app map]; rewrite M; reflexivity.
  - destruct (digits_dec 2 is_bin radix_2 _ _ DS) as [F M].
    assert (NF : filter is_bin w <> []) by (intro Q; rewrite Q in M; cbn in M; congruence).
    apply (begin_token NewLine); try discriminate; [|rewrite int_result_chars; reflexivity]. cbn [hd tl app]. unfold scan_char.
    change ((48 =? 32) || (48 =? 9) || (48 =? 13) || (48 =? 10)) with false. change (is_letter 48) with false. change (48 =? 48) with true. cbn iota.
    change (peek (eat [48] (98 :: w ++ i) (begin (48 :: 98 :: w ++ i)))) with (Some 98). change (98 =? 120) with false. change (98 =? 98) with true. cbn iota.
    rewrite skip_eat. cbn [app]. change (chars (eat [48] (98 :: w ++ i) (begin (48 :: 98 :: w ++ i)))) with (98 :: w ++ i).
    assert (G : forall m1 m2 b k s1, (length (chars s1) <= m1)%nat -> (length (chars s1) <= m2)%nat -> digit_loop is_bin m1 b k s1 = digit_loop is_bin m2 b k s1).
    { clear. induction m1 as [|m1 IH]; intros [|m2] b k s1 L1 L2; cbn [digit_loop]; auto; unfold peek; destruct (chars s1) as [|x l] eqn:E; cbn [length] in *; auto; try lia.
      destruct (is_bin x); [|destruct (x =? 95)]; auto; rewrite !(skip_cons _ _ _ E); apply IH; cbn [eat chars]; lia. }
    rewrite (G _ (S (length (w ++ i)))) by (cbn [eat chars length]; lia).
    rewrite (number_scan 2 is_bin [48; 98] [] w i (begin (48 :: 98 :: w ++ i)) radix_2); auto; try lia.
    rewrite (int_of_ok 2 _ _ _ _ _ (number 2 ds)); auto; cbn [app map]; rewrite M; reflexivity.
Qed.
Lemma numeral_scan w v i : numeral w v -> v < 2 ^ 63 -> (i = [] \/ (exists c, i = [c] /\ imaginary c) /\ w <> [48]) ->
  scan (w ++ i) = Some (placed_token (w ++ i) (match i with [] => IntLiteral v | _ => ComplexLiteral v end)).
Proof.
  intros N L I. rewrite (numeral_scan0 w v i N I). unfold int_result. destruct (Z.ltb_spec v (2 ^ 63)); [|lia]. destruct i; reflexivity.
Qed.

(** strings *)
Lemma string_crs q start buf r : forall crs n s, Forall (eq 13) crs -> chars s = crs ++ r -> string_loop (length crs + n) q start true buf s = string_loop n q start true buf (eat crs r s).
Proof.
  induction crs as [|c crs IH]; intros n s F C; cbn [length Nat.add app] in *; [rewrite (eat_nil_eq _ _ C); reflexivity|]. inversion F; subst.
  cbn [string_loop]. rewrite (advance_cons _ _ _ C). cbn [Z.eqb Pos.eqb orb andb]. rewrite (IH n) by auto. rewrite eat_eat. reflexivity.
Qed.
Lemma string_decodes q start : quote q -> forall b t, decodes q b t -> forall n buf s r, chars s = b ++ q :: r -> (length b < n)%nat ->
  string_loop n q start false buf s = (buf ++ t, eat (b ++ [q]) r s).
Proof.
  intros Hq. induction 1 as [|b t D IH|c b t N1 N2 N3 D IH|crs c d b t F E D IH|crs c b t F E N D IH]; intros n buf s r C L; cbn [app] in C.
  - destruct n as [|n]; [lia|]. cbn [string_loop]. rewrite (advance_cons _ _ _ C). rewrite app_nil_r.
    replace ((q =? 39) || (q =? 34)) with true by (unfold quote in Hq; lia). rewrite Z.eqb_refl. reflexivity.
  - destruct n as [|n]; [lia|]. cbn [string_loop]. rewrite (advance_cons _ _ _ C). cbn [Z.eqb Pos.eqb orb andb]. cbn [length] in L.
    rewrite (IH n buf (eat [13] (b ++ q :: r) s) r eq_refl) by lia. rewrite eat_eat. reflexivity.
  - destruct n as [|n]; [lia|]. cbn [string_loop]. rewrite (advance_cons _ _ _ C). cbn [length] in L. rewrite !andb_false_r.
    assert (G : string_loop n q start false (buf ++ [c]) (eat [c] (b ++ q :: r) s) = (buf ++ c :: t, eat ((c :: b) ++ [q]) r s)).
    { rewrite (IH n (buf ++ [c]) (eat [c] (b ++ q :: r) s) r eq_refl) by lia. rewrite eat_eat, <- app_assoc. reflexivity. }
    destruct ((c =? 39) || (c =? 34)).
    + destruct (Z.eqb_spec q c); [congruence|]. cbn [negb]. exact G.
    + destruct (Z.eqb_spec c 92); [congruence|]. destruct (Z.eqb_spec c 13); [congruence|]. exact G.
  - destruct n as [|n]; [lia|]. cbn [length] in L. rewrite app_length in L. cbn [length] in L. cbn [string_loop]. rewrite (advance_cons _ _ _ C). cbn [Z.eqb Pos.eqb orb andb].
    assert (En : exists n', n = (length crs + S n')%nat /\ (length b < n')%nat) by (exists (n - length crs - 1)%nat; lia). destruct En as (n' & -> & Ln').
    rewrite <- app_assoc in *. cbn [app] in *. rewrite (string_crs q start buf (c :: b ++ q :: r)) by auto. rewrite eat_eat. cbn [string_loop]. rewrite (advance_cons _ c (b ++ q :: r)) by reflexivity.
    rewrite eat_eat.
    assert (G : forall x, x = d -> string_loop n' q start false (buf ++ [x]) (eat ((92 :: crs) ++ [c]) (b ++ q :: r) s) = (buf ++ d :: t, eat (92 :: (crs ++ c :: b) ++ [q]) r s)).
    { intros x ->. rewrite (IH n' (buf ++ [d]) (eat ((92 :: crs) ++ [c]) (b ++ q :: r) s) r eq_refl) by auto. rewrite eat_eat. cbn [app]. rewrite <- !app_assoc. reflexivity. }
    destruct E as [[-> ->]|[[-> ->]|[[-> ->]|[[-> ->]|[[-> ->]|[-> ->]]]]]]; cbn [Z.eqb Pos.eqb orb andb]; apply G; reflexivity.
  - destruct n as [|n]; [lia|]. cbn [length] in L. rewrite app_length in L. cbn [length] in L. cbn [string_loop]. rewrite (advance_cons _ _ _ C). cbn [Z.eqb Pos.eqb orb andb].
    assert (En : exists n', n = (length crs + S n')%nat /\ (length b < n')%nat) by (exists (n - length crs - 1)%nat; lia). destruct En as (n' & -> & Ln').
    rewrite <- app_assoc in *. cbn [app] in *. rewrite (string_crs q start buf (c :: b ++ q :: r)) by auto. rewrite eat_eat. cbn [string_loop]. rewrite (advance_cons _ c (b ++ q :: r)) by reflexivity.
    rewrite eat_eat. rewrite escapable_ok in E.
    destruct (Z.eqb_spec c 39); [tauto|]. destruct (Z.eqb_spec c 34); [tauto|]. cbn [orb]. destruct (Z.eqb_spec c 92); [tauto|]. destruct (Z.eqb_spec c 13); [tauto|].
    destruct (Z.eqb_spec c 110); [tauto|]. destruct (Z.eqb_spec c 114); [tauto|]. destruct (Z.eqb_spec c 116); [tauto|]. cbn [andb].
    rewrite (IH n' _ (eat ((92 :: crs) ++ [c]) (b ++ q :: r) s) r eq_refl) by auto. rewrite eat_eat. cbn [app]. rewrite <- !app_assoc. reflexivity.
Qed.
Lemma quote_char q s : quote q -> scan_char q s = let start := cursor s in let '(buffer, s) := string_loop (S (length (chars s))) q start false [] s in push (cursor s - start + 1) (StringLiteral buffer) s.
Proof. intros [->| ->]; reflexivity. Qed.
Lemma string_scan q b t : quote q -> decodes q b t -> scan (q :: b ++ [q]) = Some (placed_token (q :: b ++ [q]) (StringLiteral t)).
Proof.
  intros Hq D. apply (begin_token NewLine); try discriminate; [|reflexivity]. cbn [hd tl]. rewrite quote_char by auto. cbn zeta.
  change (chars (eat [q] (b ++ [q]) (begin (q :: b ++ [q])))) with (b ++ [q]).
  rewrite (string_decodes q _ Hq b t D _ [] _ []) by (try reflexivity; rewrite app_length; cbn [length]; lia). rewrite eat_eat. unfold placed_token. f_equal. unfold eat. cbn [cursor app length]. lia.
Qed.
Lemma spelled_scan t w : spelled t w -> scan w = Some (placed_token w t).
Proof.
  intro H. destruct H as [t w H|t w H|w H R| w v H L|c H|w v c H Nw L Ic| q b s Hq D].
  - unfold symbols in H. cbn [In] in H. repeat (destruct H as [H|H]; [injection H as <- <-; reflexivity|]). destruct H.
  - unfold reserved in H. cbn [In] in H. repeat (destruct H as [H|H]; [injection H as <- <-; reflexivity|]). destruct H.
  - rewrite word_scan by auto. destruct (find_keyword_ok w) as [(t & k & Hk & E & _)|[_ ->]]; [exfalso; eapply R; eauto|reflexivity].
  - pose proof (numeral_scan w v [] H L (or_introl eq_refl)) as G. rewrite app_nil_r in G. exact G.
  - destruct H as [->| ->]; reflexivity.
  - apply (numeral_scan w v [c] H L). right. eauto.
  - apply string_scan; auto.
Qed.
