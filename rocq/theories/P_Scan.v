(** Scanning source text (C48, C49, C50): the scanner of Scan.v against the lexical grammar
    of ScanSpec.v. *)
From Verif Require Import Base Ptr Scan ScanSpec ScanProofs ScanProofs2 ScanProofs3 ScanProofs4.
From Coq Require Import String List.
Local Open Scope Z_scope.

(** For every text the scanner ends, and the tokens it reports are those of a division of
    the whole text into pieces (tokens as they are spelled, white space, comments, and
    erroneous pieces), in order, each at the place where it is written; in addition there is
    one line break token for each line feed of the text; one error is reported for each
    erroneous piece.  The one token that is not a proper piece is that of a string which is
    still open at the end of the text: it covers all of that piece. *)
Theorem C48_segmentation : forall t, exists s ps extra, scan t = Some s /\
  concat (map piece_text ps) = t /\ pieces_ok ps /\
  significant (tokens s) = placed 0 ps ++ extra /\ (extra = [] \/ (exists ps0 w str, ps = ps0 ++ [PBad UnterminatedStringLiteral w] /\ extra = [((Z.of_nat (List.length (concat (map piece_text ps0))), Z.of_nat (List.length w)), StringLiteral str)]) /\
     In UnterminatedStringLiteral (bad ps)) /\
  filter is_newline (tokens s) = line_breaks 0 t /\
  map snd (errors s) = bad ps.
Proof.
  intro t. destruct (scan_reads (S (List.length t)) (begin t)) as (s & ps & E & R & C); [cbn; lia|].
  destruct R as (R1 & R2 & R3 & (T & T1 & T2 & extra & T3 & T4) & (Er & Er1 & Er2)). rewrite C in *. rewrite app_nil_r in R1. cbn [begin chars tokens errors cursor app] in *.
  exists s, ps, extra. subst T Er. rewrite <- R1 in T2. split; [exact E|]. split; auto. split; [apply pieces_then_nil; auto|]. split; auto. split; [|auto].
  destruct T4 as [|(A & B & _)]; auto.
Qed.
Print Assumptions C48_segmentation.
Example C48_segmentation_ex : exists s, scan (text "let x1 = 0x_ff // c
 'a\'b'+?#") = Some s /\ significant (tokens s) =
  [((0, 3), KeywordLet); ((4, 2), Identifier (text "x1")); ((7, 1), TEquals); ((9, 5), IntLiteral 255); ((21, 6), StringLiteral (text "a'b")); ((27, 1), Plus); ((28, 1), QuestionMark)] /\
  filter is_newline (tokens s) = [((19, 1), NewLine)] /\ errors s = [((29, 1), InvalidCharacter 35)].
Proof. eexists. split; [vm_compute; reflexivity|]. split; [vm_compute; reflexivity|]. split; vm_compute; reflexivity. Qed.

(** Reading the text of a token again gives this token. *)
Theorem C48_reread : forall t s loc tok, scan t = Some s -> errors s = [] -> In (loc, tok) (tokens s) -> tok <> NewLine ->
  exists a w b s', t = a ++ w ++ b /\ loc = (Z.of_nat (List.length a), Z.of_nat (List.length w)) /\
    scan w = Some s' /\ significant (tokens s') = [((0, Z.of_nat (List.length w)), tok)] /\ errors s' = [].
Proof.
  intros t s loc tok E R I N. destruct (C48_segmentation t) as (s0 & ps & extra & E0 & C & P & S & X & NL & B). rewrite E in E0. injection E0 as <-.
  rewrite R in B. cbn [map] in B. assert (extra = []) by (destruct X as [|[_ Q]]; auto; rewrite <- B in Q; destruct Q). subst extra. rewrite app_nil_r in S.
  assert (I' : In (loc, tok) (placed 0 ps)).
  { rewrite <- S. unfold significant. apply filter_In. split; auto. destruct tok; try reflexivity. congruence. }
  assert (G : forall ps i, In (loc, tok) (placed i ps) -> pieces_ok ps -> exists a w b, concat (map piece_text ps) = a ++ w ++ b /\ loc = (i + Z.of_nat (List.length a), Z.of_nat (List.length w)) /\ spelled tok w).
  { clear. induction ps as [|p ps IH]; intros i I P; [destruct I|]. cbn [placed] in I. destruct P as [P1 P2]. apply in_app_or in I. destruct I as [I|I].
    - destruct p as [t w| | | |]; try contradiction. destruct I as [Q|[]]. injection Q as <- <-. inversion P1; subst. exists [], w, (concat (map piece_text ps)). split; [reflexivity|]. cbn [List.length]. split; [f_equal; lia|auto].
    - destruct (IH _ I P2) as (a & w & b & H1 & H2 & H3). exists (piece_text p ++ a), w, b. cbn [map concat]. rewrite H1, <- app_assoc. split; auto. rewrite H2, app_length. split; [f_equal; lia|auto]. }
  destruct (G ps 0 I' P) as (a & w & b & H1 & H2 & H3). exists a, w, b, (placed_token w tok). rewrite <- C. split; auto. split; [exact H2|]. split; [apply spelled_scan; auto|].
  unfold placed_token, push, eat, begin. cbn [tokens errors cursor app]. split; [|reflexivity]. unfold significant. rewrite filter_app. fold (significant (line_breaks 0 w)). rewrite significant_breaks. cbn [app filter].
  replace (0 + Z.of_nat (List.length w) - Z.of_nat (List.length w)) with 0 by lia. destruct tok; try reflexivity. congruence.
Qed.
Print Assumptions C48_reread.

(** Tokens other than line breaks come in the order of their places, do not overlap, and lie
    within the text. *)
Theorem C48_ordered : forall t s, scan t = Some s -> errors s = [] ->
  forall i j (x y : location * token), (i < j)%nat -> nth_error (significant (tokens s)) i = Some x -> nth_error (significant (tokens s)) j = Some y ->
  0 <= fst (fst x) /\ 0 < snd (fst x) /\ fst (fst x) + snd (fst x) <= fst (fst y) /\ fst (fst y) + snd (fst y) <= Z.of_nat (List.length t).
Proof.
  intros t s E R. destruct (C48_segmentation t) as (s0 & ps & extra & E0 & C & P & S & X & NL & B). rewrite E in E0. injection E0 as <-.
  rewrite R in B. cbn [map] in B. assert (extra = []) by (destruct X as [|[_ Q]]; auto; rewrite <- B in Q; destruct Q). subst extra. rewrite app_nil_r in S. rewrite S. rewrite <- C. clear - P.
  assert (W : forall ps k, pieces_ok ps -> forall n x, nth_error (placed k ps) n = Some x -> k <= fst (fst x) /\ 0 < snd (fst x) /\ fst (fst x) + snd (fst x) <= k + Z.of_nat (List.length (concat (map piece_text ps)))).
  { clear. induction ps as [|p ps IH]; intros k P n x H; [destruct n; discriminate|]. destruct P as [P1 P2]. cbn [placed map concat] in *. rewrite app_length.
    assert (G : forall m y, nth_error (placed (k + Z.of_nat (List.length (piece_text p))) ps) m = Some y -> k <= fst (fst y) /\ 0 < snd (fst y) /\ fst (fst y) + snd (fst y) <= k + Z.of_nat (List.length (piece_text p) + List.length (concat (map piece_text ps)))).
    { intros m y Hm. destruct (IH _ P2 m y Hm) as (A & B & D). lia. }
    destruct p as [t w| | | |]; cbn [app] in H; try (eapply G; exact H). destruct n as [|n]; [|eapply G; exact H]. injection H as <-. cbn [fst snd piece_text]. inversion P1; subst.
    match goal with H : spelled _ _ |- _ => apply spelled_nonempty in H end. destruct w; [contradiction|]. cbn [List.length] in *. lia. }
  assert (G : forall ps k, pieces_ok ps -> 0 <= k -> forall i j (x y : location * token), (i < j)%nat -> nth_error (placed k ps) i = Some x -> nth_error (placed k ps) j = Some y ->
     0 <= fst (fst x) /\ 0 < snd (fst x) /\ fst (fst x) + snd (fst x) <= fst (fst y) /\ fst (fst y) + snd (fst y) <= k + Z.of_nat (List.length (concat (map piece_text ps)))).
  { induction ps0 as [|p ps0 IH]; intros k P0 K i j x y L Hi Hj; [destruct i; discriminate|].
    assert (Wx := W _ k P0 i x Hi). assert (Wy := W _ k P0 j y Hj). split; [lia|]. split; [lia|]. split; [|lia].
    destruct P0 as [P1 P2]. cbn [placed] in *.
    destruct p as [t w| | | |]; cbn [app] in *; try (eapply IH; [exact P2| |exact L|exact Hi|exact Hj]; lia).
    destruct i as [|i].
    - injection Hi as <-. destruct j as [|j]; [lia|]. cbn [nth_error] in Hj. assert (Wj := W _ _ P2 j y Hj). cbn [fst snd piece_text] in *. lia.
    - destruct j as [|j]; [lia|]. cbn [nth_error] in *. eapply (IH (k + Z.of_nat (List.length (piece_text (PToken t w)))) P2); [lia| |exact Hi|exact Hj]. lia. }
  intros i j x y L Hi Hj. destruct (G ps 0 P (Z.le_refl 0) i j x y L Hi Hj) as (A1 & A2 & A3 & A4). repeat split; auto; lia.
Qed.
Print Assumptions C48_ordered.

(** With the line breaks included, places are not increasing: the line breaks inside a string
    come before the string. *)
Theorem C48_order_of_line_breaks_refuted : exists t s x y, scan t = Some s /\ errors s = [] /\ tokens s = [x; y] /\ fst (fst y) < fst (fst x).
Proof. exists [39; 97; 10; 39]. do 3 eexists. split; [vm_compute; reflexivity|]. split; [reflexivity|]. split; [reflexivity|]. reflexivity. Qed.
Print Assumptions C48_order_of_line_breaks_refuted.
(** The error for an open string is not within the text. *)
Theorem C48_error_location_refuted : exists t s loc, scan t = Some s /\ errors s = [(loc, UnterminatedStringLiteral)] /\ Z.of_nat (List.length t) < fst loc + snd loc.
Proof. exists [39; 97]. do 2 eexists. split; [vm_compute; reflexivity|]. split; [reflexivity|]. reflexivity. Qed.
Print Assumptions C48_error_location_refuted.

(** A properly spelled token is read as that token: numbers have the value that is written,
    strings are decoded, reserved words are not identifiers and everything else that is a
    word is one. *)
Theorem C49_spelled : forall t w, spelled t w ->
  exists s, scan w = Some s /\ significant (tokens s) = [((0, Z.of_nat (List.length w)), t)] /\ errors s = [].
Proof.
  intros t w H. exists (placed_token w t). split; [apply spelled_scan; auto|]. unfold placed_token, push, eat, begin. cbn [tokens errors cursor app]. split; [|reflexivity].
  unfold significant. rewrite filter_app. fold (significant (line_breaks 0 w)). rewrite significant_breaks. cbn [app filter]. apply spelled_not_newline in H.
  replace (0 + Z.of_nat (List.length w) - Z.of_nat (List.length w)) with 0 by lia. destruct t; try reflexivity. congruence.
Qed.
Print Assumptions C49_spelled.
(** The same for any number of tokens on separate lines. *)
Theorem C49_lines : forall l, Forall (fun x => spelled (fst x) (snd x)) l ->
  exists s, scan (lines (map snd l)) = Some s /\ map snd (significant (tokens s)) = map fst l /\ errors s = [].
Proof. exact scan_lines. Qed.
Print Assumptions C49_lines.
(** A word is an identifier exactly if it is not reserved. *)
Theorem C49_words : forall w, word w -> exists s t, scan w = Some s /\ tokens s = [((0, Z.of_nat (List.length w)), t)] /\ errors s = [] /\
  ((exists k, In (t, k) reserved /\ text k = w) \/ t = Identifier w /\ forall t' k, In (t', k) reserved -> text k <> w).
Proof.
  intros w H. exists (placed_token w (find_keyword keywords w)), (find_keyword keywords w). split; [apply word_scan; auto|].
  unfold placed_token, push, eat, begin. cbn [tokens errors cursor app].
  assert (NB : line_breaks 0 w = []). { apply no_breaks. destruct H as (c & r & -> & L & F). intros [Q|Q]; [unfold letter in L; lia|]. rewrite Forall_forall in F. specialize (F _ Q). unfold word_char, letter in F. lia. }
  rewrite NB. replace (0 + Z.of_nat (List.length w) - Z.of_nat (List.length w)) with 0 by lia. split; [reflexivity|]. split; [reflexivity|].
  destruct (find_keyword_ok w) as [(t & k & H1 & H2 & H3)|[H1 H2]]; [left; exists k; rewrite H3; auto|right; auto].
Qed.
Print Assumptions C49_words.
(** Numbers which need 64 bits or more are reported. *)
Theorem C49_too_large : forall w v, numeral w v -> 2 ^ 63 <= v ->
  exists s loc, scan w = Some s /\ tokens s = [] /\ errors s = [(loc, InvalidNumericValue false)].
Proof.
  intros w v N L. pose proof (numeral_scan0 w v [] N (or_introl eq_refl)) as G. rewrite app_nil_r in G. eexists. eexists. split; [exact G|]. unfold int_result.
  destruct (Z.ltb_spec v (2 ^ 63)); [lia|]. unfold push_err, eat, begin. cbn [tokens errors app]. split; [|reflexivity]. apply no_breaks.
  assert (D : forall radix w ds, digits radix w ds -> ~ In 10 w) by (induction 1 as [|c d w' ds Hc Hl DS IH|w' ds DS IH]; intro Q; [destruct Q|destruct Q as [Q|Q]; [unfold digit in Hc; lia|auto]|destruct Q as [Q|Q]; [lia|auto]]).
  destruct N as [|c d w ds Hc _ DS|w ds DS _|w ds DS _]; intros Q; cbn [In] in Q; try (assert (N10 := D _ _ _ DS)).
  - lia.
  - unfold digit in Hc. destruct Q as [Q|Q]; [lia|tauto].
  - destruct Q as [Q|[Q|Q]]; [lia|lia|tauto].
  - destruct Q as [Q|[Q|Q]]; [lia|lia|tauto].
Qed.
Print Assumptions C49_too_large.
(** Every string can be written down. *)
Theorem C49_written : forall str, exists s, scan (written str) = Some s /\ significant (tokens s) = [((0, Z.of_nat (List.length (written str))), StringLiteral str)] /\ errors s = [].
Proof. intro str. apply C49_spelled. apply written_spelled. Qed.
Print Assumptions C49_written.
Example C49_ex1 : spelled (IntLiteral 1000000) (text "1_000_000").
Proof.
  change (IntLiteral 1000000) with (IntLiteral (number 10 [1; 0; 0; 0; 0; 0; 0])). apply s_int; [|reflexivity]. change (text "1_000_000") with [49; 95; 48; 48; 48; 95; 48; 48; 48].
  apply n_dec; [left; split; lia|lia|]. repeat (apply dg_under || (apply dg_digit; [left; split; lia|lia|])). constructor.
Qed.
Example C49_ex2 : spelled (ComplexLiteral 255) (text "0xfFi").
Proof.
  change (ComplexLiteral 255) with (ComplexLiteral (number 16 [15; 15])). change (text "0xfFi") with ((48 :: 120 :: [102; 70]) ++ [105]). apply s_complex; [|discriminate|reflexivity|left; reflexivity].
  apply n_hex; [|discriminate]. apply dg_digit; [unfold digit; lia|lia|]. apply dg_digit; [unfold digit; lia|lia|constructor].
Qed.
Example C49_ex3 : numeral (text "9223372036854775808") (2 ^ 63).
Proof.
  let w := eval vm_compute in (text "9223372036854775808") in change (text "9223372036854775808") with w.
  change (2 ^ 63) with (number 10 [9;2;2;3;3;7;2;0;3;6;8;5;4;7;7;5;8;0;8]). apply n_dec; [left; split; [|]; lia|lia|].
  repeat (apply dg_digit; [left; split; lia|lia|]). constructor.
Qed.
(** A literal from 2^62 to 2^63 - 1 is accepted, but values are 63-bit integers: it denotes a
    negative number. *)
Theorem C49_large_literal_refuted : exists w v s, numeral w v /\ scan w = Some s /\ tokens s = [((0, Z.of_nat (List.length w)), IntLiteral v)] /\ errors s = [] /\
  0 < v /\ as_int (from_i64 v) < 0.
Proof.
  exists (text "4611686018427387904"), (2 ^ 62). eexists. split; [|split; [vm_compute; reflexivity|split; [vm_compute; reflexivity|split; [reflexivity|split; [reflexivity|vm_compute; reflexivity]]]]].
  let w := eval vm_compute in (text "4611686018427387904") in change (text "4611686018427387904") with w.
  change (2 ^ 62) with (number 10 [4;6;1;1;6;8;6;0;1;8;4;2;7;3;8;7;9;0;4]). apply n_dec; [left; split; lia|lia|].
  repeat (apply dg_digit; [left; split; lia|lia|]). constructor.
Qed.
Print Assumptions C49_large_literal_refuted.

(** White space separates: the tokens of two texts put together with white space in between
    are those of the first and those of the second, provided the first text has no open
    string or comment.  A line feed also ends a line comment, and is a line break token. *)
Theorem C50_separator : forall a sep b sa sb, space sep -> scan a = Some sa -> scan b = Some sb ->
  (forall x, In x (errors sa) -> ~ unterminated (snd x)) -> sep = 10 \/ ~ slashes a ->
  exists s, scan (a ++ sep :: b) = Some s /\
    tokens s = tokens sa ++ line_breaks (Z.of_nat (List.length a)) [sep] ++ map (moved (Z.of_nat (List.length a) + 1)) (tokens sb) /\
    errors s = errors sa ++ map (moved (Z.of_nat (List.length a) + 1)) (errors sb).
Proof. exact scan_split. Qed.
Print Assumptions C50_separator.
Example C50_separator_ex : exists s, scan (text "x = 'a // b'" ++ 10 :: text "+y") = Some s /\ significant (tokens s) = [((0, 1), Identifier (text "x")); ((2, 1), TEquals); ((4, 8), StringLiteral (text "a // b")); ((13, 1), Plus); ((14, 1), Identifier (text "y"))].
Proof. eexists. split; vm_compute; reflexivity. Qed.

Lemma scan_space c : space c -> exists s, scan [c] = Some s /\ significant (tokens s) = [] /\ errors s = [].
Proof. intros [->|[->|[->| ->]]]; eexists; (split; [reflexivity|]); split; reflexivity. Qed.
Lemma moved_values {A} k (l : list (location * A)) : map snd (map (moved k) l) = map snd l.
Proof. rewrite map_map. apply map_ext. reflexivity. Qed.
Lemma significant_moved k l : significant (map (moved k) l) = map (moved k) (significant l).
Proof. unfold significant. induction l as [|x l IH]; auto. cbn [map filter]. change (is_newline (moved k x)) with (is_newline x). destruct (negb (is_newline x)); cbn [map]; rewrite IH; reflexivity. Qed.
(** The sequence of tokens and errors (without line breaks) is unaffected by any amount of
    white space where there is some. *)
Theorem C50_white_space : forall a b ws sep sa s s', space sep -> Forall space ws -> scan a = Some sa ->
  (forall x, In x (errors sa) -> ~ unterminated (snd x)) -> ~ slashes a ->
  scan (a ++ sep :: b) = Some s -> scan (a ++ sep :: ws ++ b) = Some s' ->
  map snd (significant (tokens s')) = map snd (significant (tokens s)) /\ map snd (errors s') = map snd (errors s).
Proof.
  intros a b ws sep sa s s' SP F Ea C LC Es Es'.
  assert (G : forall ws, Forall space ws -> forall sb sb', scan b = Some sb -> scan (ws ++ b) = Some sb' -> map snd (significant (tokens sb')) = map snd (significant (tokens sb)) /\ map snd (errors sb') = map snd (errors sb)).
  { clear. induction 1 as [|c ws Hc F IH]; intros sb sb' E E'; cbn [app] in *.
    - rewrite E in E'. injection E' as <-. auto.
    - destruct (scan_total (ws ++ b)) as (sm & Em). destruct (IH sb sm E Em) as [I1 I2].
      destruct (scan_split [] c (ws ++ b) (begin []) sm Hc eq_refl Em) as (x & X1 & X2 & X3).
      { intros y []. } { right. intros (p & q & Q). destruct p; discriminate. }
      cbn [app] in X1. rewrite E' in X1. injection X1 as <-. rewrite X2, X3, !map_app, !moved_values. cbn [begin tokens errors app map]. split; [|auto].
      unfold significant. rewrite !filter_app. fold (significant (line_breaks (Z.of_nat (@List.length Z [])) [c])). fold (significant (map (moved (Z.of_nat (@List.length Z []) + 1)) (tokens sm))). rewrite significant_breaks, significant_moved. cbn [app]. rewrite moved_values. exact I1. }
  destruct (scan_total b) as (sb & Eb). destruct (scan_total (ws ++ b)) as (sb' & Eb'). destruct (G ws F sb sb' Eb Eb') as [G1 G2].
  destruct (scan_split a sep b sa sb SP Ea Eb C (or_intror LC)) as (x & X1 & X2 & X3). rewrite Es in X1. injection X1 as <-.
  destruct (scan_split a sep (ws ++ b) sa sb' SP Ea Eb' C (or_intror LC)) as (x & Y1 & Y2 & Y3). rewrite Es' in Y1. injection Y1 as <-.
  rewrite X2, X3, Y2, Y3. unfold significant. rewrite !filter_app, !map_app, !moved_values, G2. split; [|reflexivity].
  fold (significant (map (moved (Z.of_nat (List.length a) + 1)) (tokens sb'))). fold (significant (map (moved (Z.of_nat (List.length a) + 1)) (tokens sb))).
  rewrite !significant_moved, !moved_values, G1. reflexivity.
Qed.
Print Assumptions C50_white_space.

(** A block comment without stars inside (and not empty) adds nothing but the line breaks in
    it; so it can be inserted where there is white space. *)
Lemma scan_comment x c : x <> 47 -> ~ In 42 (x :: c) -> exists s, scan (47 :: 42 :: (x :: c) ++ [42; 47]) = Some s /\ significant (tokens s) = [] /\ errors s = [].
Proof.
  intros N47 S.
  assert (H : forall c, ~ In 42 c -> forall n st s, chars s = c ++ [42; 47] -> (List.length (chars s) <= n)%nat -> block_comment n st s = eat (c ++ [42; 47]) [] s).
  { clear. induction c as [|y c IH]; intros S n st s C L; rewrite C in L; cbn [List.length app] in *.
    - destruct n as [|n]; [lia|]. cbn [block_comment]. rewrite (advance_cons _ _ _ C). cbn [Z.eqb Pos.eqb]. rewrite (advance_cons _ 47 []) by reflexivity. rewrite eat_eat. reflexivity.
    - destruct n as [|n]; [lia|]. cbn [block_comment]. rewrite (advance_cons _ _ _ C). destruct (Z.eqb_spec y 42) as [->|]; [exfalso; apply S; left; reflexivity|].
      rewrite (IH (fun Q => S (or_intror Q)) n st (eat [y] (c ++ [42; 47]) s) eq_refl) by (cbn [eat chars]; lia). rewrite eat_eat. reflexivity. }
  exists (eat (47 :: 42 :: (x :: c) ++ [42; 47]) [] (begin (47 :: 42 :: (x :: c) ++ [42; 47]))). split; [|split; [apply significant_breaks|reflexivity]].
  apply (begin_token NewLine); [|discriminate|reflexivity]. cbn [hd tl]. unfold scan_char.
  set (w := 42 :: (x :: c) ++ [42; 47]). set (s1 := eat [47] w (begin (47 :: w))).
  change ((47 =? 32) || (47 =? 9) || (47 =? 13) || (47 =? 10)) with false. change (is_letter 47) with false. change (47 =? 48) with false. change (in_range 49 57 47) with false. change ((47 =? 39) || (47 =? 34)) with false.
  change (47 =? ch "!") with false. change (47 =? ch "=") with false. change (47 =? ch ">") with false. change (47 =? ch "<") with false. change (47 =? ch "+") with false. change (47 =? ch "-") with false. change (47 =? ch "*") with false. change (47 =? ch "/") with true. cbn iota.
  change (peek_is 47 s1) with false. change (peek_is 42 s1) with true. cbn iota.
  change (chars s1) with w. cbn [block_comment]. unfold s1 at 2. rewrite (advance_cons _ 42 ((x :: c) ++ [42; 47])) by reflexivity. cbn [Z.eqb Pos.eqb].
  cbn [app]. rewrite (advance_cons _ x (c ++ [42; 47])) by reflexivity. rewrite eat_eat. destruct (Z.eqb_spec x 47); [contradiction|]. rewrite (H c) by (try (intro; apply S; right; assumption); try reflexivity; cbn [eat chars List.length w app]; lia). unfold s1. rewrite !eat_eat. reflexivity.
Qed.
(** Hence such a comment can be inserted, with white space around it, between two texts. *)
Theorem C50_comment : forall a b x c sep sep' sa s s', space sep -> space sep' -> scan a = Some sa ->
  (forall e, In e (errors sa) -> ~ unterminated (snd e)) -> ~ slashes a ->
  x <> 47 -> ~ In 42 (x :: c) -> ~ slashes (47 :: 42 :: (x :: c) ++ [42; 47]) ->
  scan (a ++ sep :: b) = Some s -> scan (a ++ sep :: (47 :: 42 :: (x :: c) ++ [42; 47]) ++ sep' :: b) = Some s' ->
  map snd (significant (tokens s')) = map snd (significant (tokens s)) /\ map snd (errors s') = map snd (errors s).
Proof.
  intros a b x c sep sep' sa s s' S1 S2 Ea C LC Nx NS NL Es Es'. destruct (scan_comment x c Nx NS) as (sc & Ec & Tc & Rc). set (cm := 47 :: 42 :: (x :: c) ++ [42; 47]) in *.
  destruct (scan_total b) as (sb & Eb).
  destruct (scan_split cm sep' b sc sb S2 Ec Eb) as (s2 & E2 & T2 & R2); [unfold clean; rewrite Rc; intros y []|auto|].
  destruct (scan_split a sep b sa sb S1 Ea Eb C (or_intror LC)) as (y & X1 & X2 & X3). rewrite Es in X1. injection X1 as <-.
  destruct (scan_split a sep (cm ++ sep' :: b) sa s2 S1 Ea E2 C (or_intror LC)) as (y & Y1 & Y2 & Y3). rewrite Es' in Y1. injection Y1 as <-.
  assert (SA : forall l l', significant (l ++ l') = significant l ++ significant l') by (intros; apply filter_app).
  rewrite X2, X3, Y2, Y3, T2, R2, Rc. cbn [app]. split; repeat (rewrite SA || rewrite significant_moved || rewrite significant_breaks || rewrite Tc || rewrite map_app || rewrite moved_values); reflexivity.
Qed.
Print Assumptions C50_comment.
Example C50_comment_ex : exists s s', scan (text "a+" ++ 32 :: text "b") = Some s /\ scan (text "a+" ++ 32 :: (47 :: 42 :: text " x " ++ [42; 47]) ++ 32 :: text "b") = Some s' /\
  map snd (tokens s) = map snd (tokens s') /\ map snd (tokens s) = [Identifier (text "a"); Plus; Identifier (text "b")].
Proof. do 2 eexists. split; [vm_compute; reflexivity|]. split; [vm_compute; reflexivity|]. split; vm_compute; reflexivity. Qed.

(** A block comment does not always end at its first star and slash: the empty comment and
    one with a star before the end swallow what follows, and a slash right after the opening
    ends the comment. *)
Theorem C50_comment_end_refuted :
  (exists s, scan (text "/**/ x") = Some s /\ tokens s = [] /\ map snd (errors s) = [UnterminatedBlockComment]) /\
  (exists s, scan (text "/* a **/ x") = Some s /\ tokens s = [] /\ map snd (errors s) = [UnterminatedBlockComment]) /\
  (exists s, scan (text "/*/ x") = Some s /\ map snd (tokens s) = [Identifier (text "x")] /\ errors s = []).
Proof. repeat split; eexists; (split; [vm_compute; reflexivity|split; vm_compute; reflexivity]). Qed.
Print Assumptions C50_comment_end_refuted.
