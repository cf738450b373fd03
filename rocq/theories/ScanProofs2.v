From Verif Require Import Base Scan ScanSpec ScanProofs.
From Coq Require Import String List.
Local Open Scope Z_scope.

Fixpoint pieces_then (ps : list piece) (q : list Z) : Prop :=
  match ps with [] => True | p :: r => piece_ok p (concat (map piece_text r) ++ q) /\ pieces_then r q end.
Lemma pieces_then_app : forall ps ps' q, pieces_then ps (concat (map piece_text ps') ++ q) -> pieces_then ps' q -> pieces_then (ps ++ ps') q.
Proof.
  induction ps as [|p ps IH]; intros ps' q H H'; cbn [app pieces_then] in *; auto. destruct H as [H1 H2]. split; auto.
  rewrite map_app, concat_app, <- app_assoc. exact H1.
Qed.
Lemma pieces_then_nil ps : pieces_then ps [] <-> pieces_ok ps.
Proof. induction ps as [|p ps IH]; cbn [pieces_then pieces_ok]; [tauto|]. rewrite IH, app_nil_r. tauto. Qed.

(** the token of a string that is not ended: it covers the last piece *)
Definition a_string (i : Z) (ps : list piece) (l : list (location * token)) : Prop :=
  exists ps0 w t, ps = ps0 ++ [PBad UnterminatedStringLiteral w] /\ l = [((i + Z.of_nat (length (concat (map piece_text ps0))), Z.of_nat (length w)), StringLiteral t)].
(** reading the pieces [ps] leads from [s] to [s'] *)
Definition reads (ps : list piece) (s s' : scanner) : Prop :=
  let p := concat (map piece_text ps) in
  chars s = p ++ chars s' /\ pieces_then ps (chars s') /\ cursor s' = cursor s + Z.of_nat (length p) /\
  (exists T, tokens s' = tokens s ++ T /\ filter is_newline T = line_breaks (cursor s) p /\
     exists extra, significant T = placed (cursor s) ps ++ extra /\ (extra = [] \/ a_string (cursor s) ps extra /\ In UnterminatedStringLiteral (bad ps) /\ chars s' = [])) /\
  (exists E, errors s' = errors s ++ E /\ map snd E = bad ps).

Lemma significant_breaks : forall p i, significant (line_breaks i p) = [].
Proof. unfold significant. induction p as [|c p IH]; intro i; cbn [line_breaks]; auto. rewrite filter_app, IH. destruct (c =? 10); reflexivity. Qed.
Lemma newline_breaks : forall p i, filter is_newline (line_breaks i p) = line_breaks i p.
Proof. induction p as [|c p IH]; intro i; cbn [line_breaks]; auto. rewrite filter_app, IH. destruct (c =? 10); reflexivity. Qed.
Lemma placed_app : forall a b i, placed i (a ++ b) = placed i a ++ placed (i + Z.of_nat (length (concat (map piece_text a)))) b.
Proof.
  induction a as [|p a IH]; intros b i; cbn [app placed map concat length]; [rewrite Z.add_0_r; reflexivity|].
  rewrite IH, <- app_assoc, app_length. do 3 f_equal. lia.
Qed.
Lemma reads_nil s : reads [] s s.
Proof. unfold reads. cbn. rewrite Z.add_0_r. repeat split; auto; [exists []|exists []]; rewrite app_nil_r; repeat split; auto. exists []. auto. Qed.
Lemma reads_app a b s s1 s2 : reads a s s1 -> reads b s1 s2 -> b = [] \/ ~ In UnterminatedStringLiteral (bad a) -> reads (a ++ b) s s2.
Proof.
  unfold reads. intros (C1 & P1 & K1 & (T1 & E1 & N1 & x1 & S1 & X1) & (Er1 & EE1 & B1)) (C2 & P2 & K2 & (T2 & E2 & N2 & x2 & S2 & X2) & (Er2 & EE2 & B2)) H.
  rewrite map_app, concat_app. split; [rewrite C1, C2, app_assoc; reflexivity|]. split; [apply pieces_then_app; [rewrite <- C2; auto|auto]|].
  split; [rewrite K2, K1, app_length; lia|]. split.
  - exists (T1 ++ T2). split; [rewrite E2, E1, app_assoc; reflexivity|]. split; [rewrite filter_app, N1, N2, K1, breaks_app; reflexivity|].
    unfold significant in *. rewrite filter_app, S1, S2, placed_app, <- K1.
    destruct H as [->|H].
    + cbn [placed app map concat] in *. exists (x1 ++ x2). rewrite app_nil_r. split; [rewrite <- app_assoc; reflexivity|].
      destruct X2 as [->|[_ [B _]]]; [|destruct B]. rewrite app_nil_r. destruct X1 as [->|(S & B & Q)]; auto. right. split; [rewrite app_nil_r; auto|]. split; [rewrite app_nil_r; auto|]. rewrite Q in C2. cbn in C2. auto.
    + destruct X1 as [->|[_ [B _]]]; [|contradiction]. exists x2. rewrite app_nil_r, <- app_assoc. split; auto.
      destruct X2 as [->|[A [B Q]]]; auto. right. split.
      { destruct A as (p0 & w & t & -> & ->). exists (a ++ p0), w, t. rewrite <- app_assoc. split; auto. rewrite map_app, concat_app, app_length, K1. do 3 f_equal. lia. }
      split; auto. unfold bad. rewrite flat_map_app. apply in_or_app. right. exact B.
  - exists (Er1 ++ Er2). split; [rewrite EE2, EE1, app_assoc; reflexivity|]. rewrite map_app, B1, B2. unfold bad. rewrite flat_map_app. reflexivity.
Qed.

Lemma spelled_not_newline t w : spelled t w -> t <> NewLine.
Proof.
  intros H. destruct H as [t w H|t w H| | | | |]; try discriminate.
  - intros ->. unfold symbols in H. cbn [In] in H. repeat (destruct H as [H|H]; [discriminate|]). destruct H.
  - intros ->. unfold reserved in H. cbn [In] in H. repeat (destruct H as [H|H]; [discriminate|]). destruct H.
Qed.
Lemma newline_dec t : (exists loc : location, is_newline (loc, t) = true) -> t = NewLine.
Proof. intros [loc H]. destruct t; cbn in H; congruence. Qed.

(** one token *)
Lemma reads_token t w q s : chars s = w ++ q -> spelled t w -> reads [PToken t w] s (push (Z.of_nat (length w)) t (eat w q s)).
Proof.
  intros C S. unfold reads. cbn [map concat piece_text placed bad flat_map push eat chars cursor tokens errors pieces_then]. rewrite app_nil_r.
  assert (N : is_newline ((cursor s, Z.of_nat (length w)), t) = false).
  { destruct (is_newline ((cursor s, Z.of_nat (length w)), t)) eqn:Q; auto. exfalso. apply (spelled_not_newline _ _ S). apply newline_dec. eauto. }
  split; auto. split; [split; auto; constructor; auto|]. split; auto. split.
  - exists (line_breaks (cursor s) w ++ [((cursor s, Z.of_nat (length w)), t)]). split; [rewrite <- app_assoc; do 5 f_equal; lia|]. unfold significant.
    rewrite !filter_app. cbn [filter]. rewrite N. cbn [negb]. fold (significant (line_breaks (cursor s) w)). rewrite newline_breaks, significant_breaks, app_nil_r. split; auto. exists []. auto.
  - exists []. rewrite app_nil_r. auto.
Qed.
(** a piece without tokens or errors *)
Lemma reads_silent p q s : chars s = piece_text p ++ q -> piece_ok p q -> (forall i, placed i [p] = []) -> bad [p] = [] -> reads [p] s (eat (piece_text p) q s).
Proof.
  intros C S P B. unfold reads. rewrite P, B. cbn [map concat eat chars cursor tokens errors pieces_then app]. rewrite app_nil_r.
  split; auto. split; auto. split; auto. split.
  - exists (line_breaks (cursor s) (piece_text p)). rewrite newline_breaks, significant_breaks. repeat split; auto. exists []. auto.
  - exists []. rewrite app_nil_r. auto.
Qed.
(** an error *)
Lemma reads_error e w q s off width : chars s = w ++ q -> piece_ok (PBad e w) q -> reads [PBad e w] s (push_err off width e (eat w q s)).
Proof.
  intros C S. unfold reads. cbn [map concat piece_text placed bad flat_map push_err eat chars cursor tokens errors pieces_then app]. rewrite app_nil_r.
  split; auto. split; [split; auto|]. split; auto. split.
  - exists (line_breaks (cursor s) w). rewrite newline_breaks, significant_breaks. repeat split; auto. exists []. auto.
  - eexists. split; reflexivity.
Qed.
Lemma reads_error_at e w q s start width : chars s = w ++ q -> piece_ok (PBad e w) q -> reads [PBad e w] s (push_err_at start width e (eat w q s)).
Proof.
  intros C S. unfold reads. cbn [map concat piece_text placed bad flat_map push_err_at eat chars cursor tokens errors pieces_then app]. rewrite app_nil_r.
  split; auto. split; [split; auto|]. split; auto. split.
  - exists (line_breaks (cursor s) w). rewrite newline_breaks, significant_breaks. repeat split; auto. exists []. auto.
  - eexists. split; reflexivity.
Qed.

Lemma sym t w w' : In (t, w') symbols -> text w' = w -> spelled t w.
Proof. intros H <-. constructor. exact H. Qed.
Ltac spell := eapply sym; [cbn [In symbols]; repeat (first [left; reflexivity|right])|reflexivity].
(** a result that is one token written [w] *)
Lemma one_token t w q s x : chars s = w ++ q -> spelled t w -> x = push (Z.of_nat (length w)) t (eat w q s) -> exists ps, ps <> [] /\ reads ps s x.
Proof. intros C S ->. exists [PToken t w]. split; [discriminate|]. apply reads_token; auto. Qed.

Lemma peek_is_eat c p r s : peek_is c (eat p r s) = match r with d :: _ => d =? c | [] => false end.
Proof. destruct r; reflexivity. Qed.
Lemma push_skip_eat k t c p r s : push_skip k t (eat p (c :: r) s) = push k t (eat (p ++ [c]) r s).
Proof. unfold push_skip. rewrite (skip_cons _ c r) by reflexivity. rewrite eat_eat. reflexivity. Qed.
Lemma skip_eat c p r s : skip (eat p (c :: r) s) = eat (p ++ [c]) r s.
Proof. rewrite (skip_cons _ c r) by reflexivity. rewrite eat_eat. reflexivity. Qed.

Lemma or_equals_reads c r s a b : chars s = c :: r -> spelled a [c; 61] -> spelled b [c] -> exists ps, ps <> [] /\ reads ps s (or_equals a b (eat [c] r s)).
Proof.
  intros C A B. unfold or_equals. rewrite peek_is_eat. destruct r as [|d r]; [|destruct (Z.eqb_spec d 61) as [->|]].
  - eapply (one_token b [c]); [exact C|assumption|reflexivity].
  - rewrite push_skip_eat. eapply (one_token a [c; 61]); [exact C|assumption|reflexivity].
  - eapply (one_token b [c]); [exact C|assumption|reflexivity].
Qed.
Lemma then_equals_reads c d r s a b : chars s = c :: d :: r -> spelled a [c; d; 61] -> spelled b [c; d] -> exists ps, ps <> [] /\ reads ps s (then_equals a b (skip (eat [c] (d :: r) s))).
Proof.
  intros C A B. rewrite skip_eat. cbn [app]. unfold then_equals. rewrite peek_is_eat. destruct r as [|x r]; [|destruct (Z.eqb_spec x 61) as [->|]].
  - eapply (one_token b [c; d]); [exact C|assumption|reflexivity].
  - rewrite push_skip_eat. eapply (one_token a [c; d; 61]); [exact C|assumption|reflexivity].
  - eapply (one_token b [c; d]); [exact C|assumption|reflexivity].
Qed.
Lemma move_back s r : chars s = 46 :: 46 :: r -> exists ps, ps <> [] /\ reads ps s (push 1 Dot (move 1 (push 1 Dot (move (-1) (eat [46; 46] r s))))).
Proof.
  intro C. exists [PToken Dot [46]; PToken Dot [46]]. split; [discriminate|].
  assert (S : spelled Dot [46]) by spell.
  apply (reads_app [PToken Dot [46]] [PToken Dot [46]] s (push 1 Dot (eat [46] (46 :: r) s))).
  - apply (reads_token Dot [46] (46 :: r) s); auto.
  - replace (push 1 Dot (move 1 (push 1 Dot (move (-1) (eat [46; 46] r s))))) with (push 1 Dot (eat [46] r (push 1 Dot (eat [46] (46 :: r) s)))).
    + apply (reads_token Dot [46] r); auto.
    + unfold push, move, eat. cbn [chars cursor tokens errors length line_breaks Z.eqb app Pos.eqb]. rewrite !app_nil_r. f_equal; [lia|]. rewrite <- !app_assoc. cbn [app]. do 2 f_equal; [|f_equal]; f_equal; f_equal; lia.
  - right. intros [].
Qed.

Lemma numeral_reads w v i q s cx : chars s = (w ++ i) ++ q -> numeral w v -> (cx = false /\ i = []) \/ (cx = true /\ w <> [48] /\ exists c, i = [c] /\ imaginary c) ->
  exists ps, ps <> [] /\ reads ps s (int_result (w ++ i) false v cx (eat (w ++ i) q s)).
Proof.
  intros C N I. unfold int_result. destruct (Z.ltb_spec v (2 ^ 63)) as [L|L].
  - apply (one_token (if cx then ComplexLiteral v else IntLiteral v) (w ++ i) q); auto.
    destruct I as [[-> ->]|(-> & Hw & c & -> & Ic)]; [rewrite app_nil_r; constructor; auto|constructor; auto].
  - exists [PBad (InvalidNumericValue false) (w ++ i)]. split; [discriminate|]. apply reads_error; auto. apply (p_too_big w v i); auto.
    destruct I as [[_ ->]|(_ & _ & c & -> & Ic)]; eauto.
Qed.
Lemma empty_reads w i q s v cx : chars s = (w ++ i) ++ q -> no_digits w -> i = [] \/ (exists c, i = [c] /\ imaginary c) ->
  exists ps, ps <> [] /\ reads ps s (int_result (w ++ i) true v cx (eat (w ++ i) q s)).
Proof. intros C N I. exists [PBad (InvalidNumericValue true) (w ++ i)]. split; [discriminate|]. apply reads_error; auto. constructor; auto. Qed.

(** a digit loop followed by screen_int *)
Lemma number_reads radix dg pre buf s r : radix_digit radix dg -> 2 <= radix -> chars s = pre ++ r -> Forall (fun c => 0 <= digit_value c) buf ->
  Z.of_nat (length pre) = Z.of_nat (length buf) + (if radix =? 10 then 0 else 2) ->
  (forall p ds, digits radix p ds -> map digit_value buf ++ ds <> [] -> numeral (pre ++ p) (number radix (map digit_value buf ++ ds)) /\ pre ++ p <> [48]) ->
  (buf = [] -> forall p, digits radix p [] -> no_digits (pre ++ p)) ->
  exists ps, ps <> [] /\ reads ps s (let '(buffer, extra_len, s) := digit_loop dg (S (length r)) buf 0 (eat pre r s) in screen_int buffer radix extra_len s).
Proof.
  intros R R2 C Hb Hl HN HE. destruct (digit_loop_eat dg (radix_under _ _ R) (S (length r)) buf 0 (eat pre r s)) as (p & q & E & F & NX & ->); [cbn [eat chars]; lia|].
  cbn [eat chars] in E. subst r. rewrite eat_eat.
  assert (HD := digits_of _ _ R p F).
  destruct (screen_int_ok radix (buf ++ filter dg p) (0 + Z.of_nat (length p) - Z.of_nat (length (filter dg p))) (eat (pre ++ p) q s) (pre ++ p)) as (i & I & ->); auto.
  { apply Forall_app. split; auto. apply (filter_values _ _ _ R). }
  { rewrite !app_length. lia. }
  rewrite eat_eat, map_app. cbn [eat chars].
  assert (CI : chars s = ((pre ++ p) ++ i) ++ skipn (length i) q /\ (i = [] \/ (exists c, i = [c] /\ imaginary c))).
  { destruct I as [[-> _]|(c & r & -> & Ic & Eq)]; [cbn [length skipn]; rewrite app_nil_r, C, app_assoc; auto|]. cbn [eat chars] in Eq. subst q. cbn [length skipn].
    split; [rewrite C, <- !app_assoc; reflexivity|eauto]. }
  destruct CI as [CI II]. destruct (buf ++ filter dg p) as [|x l] eqn:B.
  - apply app_eq_nil in B. destruct B as [B1 B2]. subst buf. apply empty_reads; auto. apply HE; auto. rewrite B2 in HD. exact HD.
  - assert (NE : map digit_value buf ++ map digit_value (filter dg p) <> []) by (rewrite <- map_app, B; discriminate).
    destruct (HN _ _ HD NE) as [HN1 HN2]. apply numeral_reads; auto.
    destruct I as [[-> _]|(c & r & -> & Ic & _)]; [left; auto|right; split; auto; split; auto; eauto].
Qed.

Lemma word_reads c r s : chars s = c :: r -> is_letter c = true ->
  exists ps, ps <> [] /\ reads ps s (let '(buffer, s) := word_loop (S (length r)) [c] (eat [c] r s) in screen_identifier buffer s).
Proof.
  intros C L. destruct (word_loop_eat (S (length r)) [c] (eat [c] r s)) as (p & q & E & F & _ & ->); [cbn [eat chars]; lia|]. cbn [eat chars] in E. subst r.
  rewrite eat_eat. cbn [app]. unfold screen_identifier. assert (W : word (c :: p)).
  { exists c, p. split; auto. split; [apply letter_ok; auto|]. eapply Forall_impl; [|exact F]. intros a H. apply word_ok. exact H. }
  destruct (find_keyword_ok (c :: p)) as [(t & k & H & Hk & ->)|[H ->]].
  - apply (one_token t (c :: p) q); auto. rewrite <- Hk. apply s_reserved. exact H.
  - apply (one_token (Identifier (c :: p)) (c :: p) q); auto. constructor; auto.
Qed.
Lemma string_reads c r s : chars s = c :: r -> quote c ->
  exists ps, ps <> [] /\ reads ps s (let start := cursor (eat [c] r s) in let '(buffer, s) := string_loop (S (length r)) c start false [] (eat [c] r s) in push (cursor s - start + 1) (StringLiteral buffer) s).
Proof.
  intros C Q. cbn zeta. destruct (string_loop_eat (S (length r)) c (cursor (eat [c] r s)) false [] (eat [c] r s) Q) as (p & q & E & H); [cbn [eat chars]; lia|]. cbn [eat chars] in E. subst r.
  destruct H as [(b & t & -> & D & ->)|[-> (t & ->)]]; rewrite eat_eat; cbn [app].
  - apply (one_token (StringLiteral t) (c :: b ++ [c]) q); auto; [constructor; auto|]. f_equal. unfold eat. cbn [cursor length]. lia.
  - exists [PBad UnterminatedStringLiteral (c :: p)]. split; [discriminate|]. rewrite app_nil_r in *.
    destruct (reads_error_at UnterminatedStringLiteral (c :: p) [] s (cursor s + 1) 1) as (A1 & A2 & A3 & (T & E1 & E2 & x & E3 & E4) & A5); [rewrite app_nil_r; auto|constructor; auto|].
    unfold reads. change (cursor (eat [c] p s)) with (cursor s + 1). set (u := push_err_at (cursor s + 1) 1 UnterminatedStringLiteral (eat (c :: p) [] s)) in *.
    split; [exact A1|]. split; [exact A2|]. split; [exact A3|]. split; [|exact A5].
    exists (T ++ [((cursor u - (cursor u - (cursor s + 1) + 1), cursor u - (cursor s + 1) + 1), StringLiteral t)]). cbn [push tokens chars]. rewrite E1. split; [rewrite <- app_assoc; reflexivity|].
    unfold significant in *. rewrite !filter_app, E2, E3. cbn [filter is_newline snd negb]. rewrite app_nil_r. split; auto.
    assert (X : x = []) by (destruct E4 as [->|[(? & ? & t' & _ & ->) _]]; auto; cbn [tokens u push_err_at eat] in E1; apply app_inv_head in E1; subst T;
      fold (significant (line_breaks (cursor s) (c :: p))) in E3; rewrite significant_breaks in E3; discriminate).
    subst x. rewrite app_nil_r. eexists. split; [reflexivity|]. right. split; [|split; [left; reflexivity|reflexivity]].
    exists [], (c :: p), t. split; [reflexivity|]. cbn [map concat length]. unfold u, push_err_at, eat. cbn [cursor]. cbn [length]. do 3 f_equal; lia.
Qed.
Lemma line_reads r s : chars s = 47 :: 47 :: r -> exists ps, ps <> [] /\ reads ps s (line_comment (S (S (length r))) (eat [47] (47 :: r) s)).
Proof.
  intro C. destruct (line_comment_eat (S (S (length r))) (eat [47] (47 :: r) s)) as (p & q & E & H & K); [cbn [eat chars length]; lia|]. cbn [eat chars] in E.
  rewrite H, eat_eat. cbn [app]. exists [PLine (47 :: p)]. split; [discriminate|].
  apply (reads_silent (PLine (47 :: p))); auto; [cbn [piece_text app]; rewrite C; f_equal; exact E|].
  destruct K as [(b & -> & Hb)|[-> Hp]].
  - destruct b as [|x b]; cbn [app] in E; [discriminate|]. injection E as <- E. apply (p_line b). intro; apply Hb; right; auto.
  - rewrite app_nil_r in E. subst p. apply p_line_end. intro; apply Hp; right; auto.
Qed.
Lemma block_reads r s : chars s = 47 :: 42 :: r -> exists ps, ps <> [] /\ reads ps s (block_comment (S (S (length r))) (cursor (eat [47] (42 :: r) s)) (eat [47] (42 :: r) s)).
Proof.
  intro C. destruct (block_comment_eat (S (S (length r))) (cursor (eat [47] (42 :: r) s)) (eat [47] (42 :: r) s)) as (p & q & E & H); [cbn [eat chars length]; lia|].
  cbn [eat chars] in E. destruct H as [(b & -> & B & ->)|[-> ->]]; rewrite eat_eat; cbn [app].
  - exists [PBlock (47 :: b ++ [42; 47])]. split; [discriminate|]. apply (reads_silent (PBlock (47 :: b ++ [42; 47]))); auto; [cbn [piece_text app]; rewrite C; f_equal; exact E|].
    constructor; auto. destruct b as [|x b]; [auto|left]. cbn [app] in E. injection E as <- _. eauto.
  - exists [PBad UnterminatedBlockComment (47 :: p)]. split; [discriminate|]. rewrite app_nil_r in E. subst p. apply reads_error_at; [rewrite app_nil_r; auto|constructor].
Qed.

Lemma step_reads s c r : chars s = c :: r -> exists ps, ps <> [] /\ reads ps s (scan_char c (eat [c] r s)).
Proof.
  intro C. unfold scan_char. change (chars (eat [c] r s)) with r. repeat match goal with |- context [ch ?x] => let v := eval vm_compute in (ch x) in change (ch x) with v end.
  destruct ((c =? 32) || (c =? 9) || (c =? 13) || (c =? 10)) eqn:SP.
  { exists [PSpace c]. split; [discriminate|]. apply (reads_silent (PSpace c)); auto. constructor. rewrite !orb_true_iff, !Z.eqb_eq in SP. unfold space. tauto. }
  destruct (is_letter c) eqn:LT; [apply word_reads; auto|].
  destruct (Z.eqb_spec c 48) as [->|N0].
  { destruct r as [|d r]; cbn [peek chars].
    - replace (skip (eat [48] [] s)) with (eat [48] [] s) by (symmetry; apply skip_nil; reflexivity). apply (one_token (IntLiteral 0) [48] []); [exact C|apply s_int; [apply n_zero|reflexivity]|reflexivity].
    - change (peek (eat [48] (d :: r) s)) with (Some d). cbn iota. destruct (Z.eqb_spec d 120) as [->|]; [|destruct (Z.eqb_spec d 98) as [->|]; [|destruct (is_i d) eqn:I; [|destruct (is_word d) eqn:W]]].
      + rewrite skip_eat. cbn [app]. change (S (length (120 :: r))) with (S (S (length r))).
        destruct (number_reads 16 is_hex [48; 120] [] s r radix_16) as (ps & P & H); [lia|exact C|constructor|reflexivity| | |].
        * intros p ds D NE. split; [apply n_hex; auto|discriminate].
        * intros _ p D. apply nd_hex. exact D.
        * exists ps. split; auto.
          assert (G : forall m1 m2 b k s1, (length (chars s1) <= m1)%nat -> (length (chars s1) <= m2)%nat -> digit_loop is_hex m1 b k s1 = digit_loop is_hex m2 b k s1).
          { clear. induction m1 as [|m1 IH]; intros [|m2] b k s1 L1 L2; cbn [digit_loop]; auto; unfold peek; destruct (chars s1) as [|x l] eqn:E; cbn [length] in *; auto; try lia.
            destruct (is_hex x); [|destruct (x =? 95)]; auto; rewrite !(skip_cons _ _ _ E); apply IH; cbn [eat chars]; lia. }
          rewrite (G _ (S (length r))); cbn [eat chars]; try lia. exact H.
      + rewrite skip_eat. cbn [app]. change (S (length (98 :: r))) with (S (S (length r))).
        destruct (number_reads 2 is_bin [48; 98] [] s r radix_2) as (ps & P & H); [lia|exact C|constructor|reflexivity| | |].
        * intros p ds D NE. split; [apply n_bin; auto|discriminate].
        * intros _ p D. apply nd_bin. exact D.
        * exists ps. split; auto.
          assert (G : forall m1 m2 b k s1, (length (chars s1) <= m1)%nat -> (length (chars s1) <= m2)%nat -> digit_loop is_bin m1 b k s1 = digit_loop is_bin m2 b k s1).
          { clear. induction m1 as [|m1 IH]; intros [|m2] b k s1 L1 L2; cbn [digit_loop]; auto; unfold peek; destruct (chars s1) as [|x l] eqn:E; cbn [length] in *; auto; try lia.
            destruct (is_bin x); [|destruct (x =? 95)]; auto; rewrite !(skip_cons _ _ _ E); apply IH; cbn [eat chars]; lia. }
          rewrite (G _ (S (length r))); cbn [eat chars]; try lia. exact H.
      + rewrite skip_eat. cbn [app]. apply (one_token (IntLiteral 0) [48; d] r); [exact C|apply s_zero_i, i_ok; exact I|reflexivity].
      + exists [PBad (InvalidNumericPrefix d) [48]]. split; [discriminate|]. apply reads_error; auto. constructor. apply word_ok. exact W.
      + apply (one_token (IntLiteral 0) [48] (d :: r)); [exact C|apply s_int; [apply n_zero|reflexivity]|reflexivity]. }
  destruct (in_range 49 57 c) eqn:DG.
  { unfold in_range in DG. apply andb_true_iff in DG. rewrite !Z.leb_le in DG.
    assert (D : digit c (c - 48)) by (left; lia). destruct (value_det _ _ D) as [V _].
    apply (number_reads 10 is_digit [c] [c] s r radix_10); auto; [lia|constructor; [rewrite V; lia|constructor]| |].
    - intros p ds Dg _. cbn [map app]. rewrite V. split; [apply n_dec; auto; lia|]. intro Q. injection Q as -> _. lia.
    - discriminate. }
  destruct ((c =? 39) || (c =? 34)) eqn:QU.
  { apply string_reads; auto. unfold quote. rewrite orb_true_iff, !Z.eqb_eq in QU. exact QU. }
  destruct (Z.eqb_spec c 33) as [->|N1]; [apply or_equals_reads; auto; spell|].
  destruct (Z.eqb_spec c 61) as [->|N2]; [apply or_equals_reads; auto; spell|].
  destruct (Z.eqb_spec c 62) as [->|N3].
  { rewrite peek_is_eat. destruct r as [|d r]; [apply or_equals_reads; auto; spell|]. destruct (Z.eqb_spec d 62) as [->|]; [apply then_equals_reads; auto; spell|apply or_equals_reads; auto; spell]. }
  destruct (Z.eqb_spec c 60) as [->|N4].
  { rewrite peek_is_eat. destruct r as [|d r]; [apply or_equals_reads; auto; spell|]. destruct (Z.eqb_spec d 60) as [->|]; [apply then_equals_reads; auto; spell|apply or_equals_reads; auto; spell]. }
  destruct (Z.eqb_spec c 43) as [->|N5]; [apply or_equals_reads; auto; spell|].
  destruct (Z.eqb_spec c 45) as [->|N6].
  { rewrite !peek_is_eat. destruct r as [|d r]; [apply (one_token Minus [45] []); [exact C|spell|reflexivity]|]. destruct (Z.eqb_spec d 61) as [->|]; [rewrite push_skip_eat; apply (one_token MinusEquals [45; 61] r); [exact C|spell|reflexivity]|].
    destruct (Z.eqb_spec d 62) as [->|]; [rewrite push_skip_eat; apply (one_token Arrow [45; 62] r); [exact C|spell|reflexivity]|]. apply (one_token Minus [45] (d :: r)); [exact C|spell|reflexivity]. }
  destruct (Z.eqb_spec c 42) as [->|N7].
  { rewrite !peek_is_eat. destruct r as [|d r]; [apply (one_token Mul [42] []); [exact C|spell|reflexivity]|]. destruct (Z.eqb_spec d 61) as [->|]; [rewrite push_skip_eat; apply (one_token MulEquals [42; 61] r); [exact C|spell|reflexivity]|].
    destruct (Z.eqb_spec d 42) as [->|]; [apply then_equals_reads; auto; spell|]. apply (one_token Mul [42] (d :: r)); [exact C|spell|reflexivity]. }
  destruct (Z.eqb_spec c 47) as [->|N8].
  { rewrite !peek_is_eat. destruct r as [|d r]; [apply or_equals_reads; auto; spell|]. destruct (Z.eqb_spec d 47) as [->|]; [apply line_reads; auto|].
    destruct (Z.eqb_spec d 42) as [->|]; [apply block_reads; auto|]. apply or_equals_reads; auto; spell. }
  destruct (Z.eqb_spec c 124) as [->|N9]; [apply or_equals_reads; auto; spell|].
  destruct (Z.eqb_spec c 38) as [->|N10]; [apply or_equals_reads; auto; spell|].
  destruct (Z.eqb_spec c 94) as [->|N11]; [apply or_equals_reads; auto; spell|].
  destruct (Z.eqb_spec c 37) as [->|N12]; [apply or_equals_reads; auto; spell|].
  destruct (Z.eqb_spec c 46) as [->|N13].
  { rewrite !peek_is_eat. destruct r as [|d r]; [apply (one_token Dot [46] []); [exact C|spell|reflexivity]|]. destruct (Z.eqb_spec d 61) as [->|]; [rewrite push_skip_eat; apply (one_token DotEquals [46; 61] r); [exact C|spell|reflexivity]|].
    destruct (Z.eqb_spec d 46) as [->|]; [|apply (one_token Dot [46] (d :: r)); [exact C|spell|reflexivity]]. cbn zeta. rewrite skip_eat. cbn [app]. rewrite peek_is_eat.
    destruct r as [|x r]; [apply move_back; auto|]. destruct (Z.eqb_spec x 46) as [->|]; [rewrite push_skip_eat; apply (one_token Ellipsis [46; 46; 46] r); [exact C|spell|reflexivity]|apply move_back; auto]. }
  destruct (Z.eqb_spec c 40) as [->|N14]; [apply (one_token OpenParen [40] r); [exact C|spell|reflexivity]|].
  destruct (Z.eqb_spec c 41) as [->|N15]; [apply (one_token CloseParen [41] r); [exact C|spell|reflexivity]|].
  destruct (Z.eqb_spec c 91) as [->|N16]; [apply (one_token OpenSquareBracket [91] r); [exact C|spell|reflexivity]|].
  destruct (Z.eqb_spec c 93) as [->|N17]; [apply (one_token CloseSquareBracket [93] r); [exact C|spell|reflexivity]|].
  destruct (Z.eqb_spec c 123) as [->|N18]; [apply (one_token OpenBrace [123] r); [exact C|spell|reflexivity]|].
  destruct (Z.eqb_spec c 125) as [->|N19]; [apply (one_token CloseBrace [125] r); [exact C|spell|reflexivity]|].
  destruct (Z.eqb_spec c 44) as [->|N20]; [apply (one_token Comma [44] r); [exact C|spell|reflexivity]|].
  destruct (Z.eqb_spec c 58) as [->|N21]; [apply (one_token Colon [58] r); [exact C|spell|reflexivity]|].
  destruct (Z.eqb_spec c 95) as [->|N22]; [apply (one_token Underscore [95] r); [exact C|spell|reflexivity]|].
  destruct (Z.eqb_spec c 59) as [->|N23]; [apply (one_token Semicolon [59] r); [exact C|spell|reflexivity]|].
  destruct (Z.eqb_spec c 64) as [->|N24]; [apply (one_token At [64] r); [exact C|spell|reflexivity]|].
  destruct (Z.eqb_spec c 63) as [->|N25]; [apply (one_token QuestionMark [63] r); [exact C|spell|reflexivity]|].
  exists [PBad (InvalidCharacter c) [c]]. split; [discriminate|]. apply reads_error; auto. constructor.
  rewrite !orb_false_iff, !Z.eqb_neq in SP. rewrite orb_false_iff, !Z.eqb_neq in QU. unfold in_range in DG. apply andb_false_iff in DG. rewrite !Z.leb_gt in DG.
  split; [unfold space; tauto|]. split; [|split].
  - intros [H|[H| ->]]; [apply letter_ok in H; congruence|lia|]. apply N22. reflexivity.
  - unfold quote. tauto.
  - intros t w H x Q. unfold symbols in H. cbn [In] in H.
    repeat (destruct H as [H|H]; [injection H as <- <-; cbv in Q; injection Q as Q _; subst c; congruence|]). destruct H.
Qed.
