(** C28 (conversions), C29 (formatting), C30 (split, join, strip, case).
    Strings are lists of code points.  Vocabulary: StrSpec. *)
From Verif Require Import Base BaseProofs Native Value Err Ops StrSpec Str StrProofs StrProofs2 StrProofs3.
Local Open Scope Z_scope.
Local Set Warnings "-abstract-large-number".

(** ** C28 *)
(** [char n] below 2^32: the character n if n is a Unicode scalar value other than 0, else an error *)
Theorem C28_char_exact : forall n, is_int63 n ->
  (0 < n < 2 ^ 32 -> scalar n -> chr (VInt n) = Ok (VStr [n])) /\
  (n < 2 ^ 32 -> n <= 0 \/ ~ scalar n -> chr (VInt n) = Err (ValueErrorInvalidCharacterOrdinal n)).
Proof. exact chr_spec. Qed.
Print Assumptions C28_char_exact.
(** ... but only the low 32 bits are looked at *)
Theorem C28_char_range_refuted : ~ forall n s, is_int63 n -> chr (VInt n) = Ok (VStr s) -> scalar n /\ s = [n].
Proof.
  intros H. destruct (H 4294967361 [65]) as [[Hs _] _]; [|vm_compute; reflexivity|lia].
  unfold is_int63, MIN_INT, MAX_INT. change (2 ^ 62) with 4611686018427387904. lia.
Qed.
Print Assumptions C28_char_range_refuted.
(** ord inverts char for ASCII, and ord answers nothing but the code of an ASCII character *)
Theorem C28_ord_char : forall n, 0 < n < 128 -> exists s, chr (VInt n) = Ok (VStr s) /\ ord (VStr s) = Ok (VInt n).
Proof.
  intros n Hn. exists [n]. split; [|apply ord_ascii; lia]. apply chr_spec; unfold scalar; change (2 ^ 32) with 4294967296; try lia.
  unfold is_int63, MIN_INT, MAX_INT. change (2 ^ 62) with 4611686018427387904. lia.
Qed.
Print Assumptions C28_ord_char.
Theorem C28_char_ord : forall s n, (forall c, In c s -> 0 < c) -> ord (VStr s) = Ok (VInt n) -> s = [n] /\ chr (VInt n) = Ok (VStr s).
Proof.
  intros s n Hs H. destruct (ord_only_ascii s n) as [-> Hn]; [intros c Hc; specialize (Hs c Hc); lia|exact H|]. split; [reflexivity|].
  specialize (Hs n (or_introl eq_refl)). apply chr_spec; unfold scalar; change (2 ^ 32) with 4294967296; try lia.
  unfold is_int63, MIN_INT, MAX_INT. change (2 ^ 62) with 4611686018427387904. lia.
Qed.
Print Assumptions C28_char_ord.
(** the full claim fails: ord rejects every non-ASCII character, since it counts bytes *)
Theorem C28_ord_char_refuted : ~ forall n s, is_int63 n -> chr (VInt n) = Ok (VStr s) -> ord (VStr s) = Ok (VInt n).
Proof.
  intros H. specialize (H 233 [233]). assert (E : ord (VStr [233]) = Err (TypeErrorArgMustBeChar (VStr [233]))) by (vm_compute; reflexivity).
  rewrite E in H. discriminate H; [|vm_compute; reflexivity]. unfold is_int63, MIN_INT, MAX_INT. change (2 ^ 62) with 4611686018427387904. lia.
Qed.
Print Assumptions C28_ord_char_refuted.
(** hex and bin: n >= 0 is written as its numeral, and the same function reads it back *)
Theorem C28_hex : forall n, is_int63 n -> 0 <= n -> exists s, hex (VInt n) = Ok (VStr s) /\ numeral 16 n s /\ hex (VStr s) = Ok (VInt n).
Proof. intros n. apply in_radix_round. lia. Qed.
Print Assumptions C28_hex.
Theorem C28_bin : forall n, is_int63 n -> 0 <= n -> exists s, bin (VInt n) = Ok (VStr s) /\ numeral 2 n s /\ bin (VStr s) = Ok (VInt n).
Proof. intros n. apply in_radix_round. lia. Qed.
Print Assumptions C28_bin.
(** negative numbers do not come back *)
Theorem C28_hex_negative_refuted : ~ forall n s, is_int63 n -> hex (VInt n) = Ok (VStr s) -> hex (VStr s) = Ok (VInt n).
Proof.
  intros H. specialize (H (-1) (repeat 102 16)). assert (E : hex (VStr (repeat 102 16)) = Err (TypeErrorCannotConvertToInt (VStr (repeat 102 16)))) by (vm_compute; reflexivity).
  rewrite E in H. discriminate H; [|vm_compute; reflexivity]. unfold is_int63, MIN_INT, MAX_INT. change (2 ^ 62) with 4611686018427387904. lia.
Qed.
Print Assumptions C28_hex_negative_refuted.
(** what the readers accept, and what they answer (the number, cut to 63 bits) *)
Theorem C28_reads : forall s,
  (forall n, spelling 16 n s -> hex (VStr s) = Ok (VInt (wrap63 n))) /\ ((forall n, ~ spelling 16 n s) -> hex (VStr s) = Err (TypeErrorCannotConvertToInt (VStr s))) /\
  (forall n, spelling 2 n s -> bin (VStr s) = Ok (VInt (wrap63 n))) /\ ((forall n, ~ spelling 2 n s) -> bin (VStr s) = Err (TypeErrorCannotConvertToInt (VStr s))) /\
  (forall n, spelling 10 n s -> convert_to_int (VStr s) = Ok (VInt (wrap63 n))) /\
  ((forall n, ~ spelling 10 n s) -> convert_to_int (VStr s) = Err (ValueErrorCannotConvertStringToIntBadParse (VStr s))).
Proof.
  intros s. destruct (in_radix_reads 16 s ltac:(lia)) as [A B]. destruct (in_radix_reads 2 s ltac:(lia)) as [C D].
  split; [exact A|]. split; [exact B|]. split; [exact C|]. split; [exact D|]. unfold convert_to_int. split.
  - intros n H. apply spelling_spec in H; [|lia]. rewrite H. reflexivity.
  - intros H. destruct (from_str_radix 10 s) as [n|] eqn:E; [|reflexivity]. exfalso. apply (H n). apply spelling_spec; [lia|exact E].
Qed.
Print Assumptions C28_reads.
(** int(str(n)) = n *)
Theorem C28_int_of_text : forall n, is_int63 n ->
  exists ds, numeral 10 (Z.abs n) ds /\ show_dec n = (if n <? 0 then [45] else []) ++ ds /\ convert_to_int (VStr (show_dec n)) = Ok (VInt n).
Proof.
  intros n Hn. exists (digits 10 (Z.abs n)). split; [apply digits_numeral; lia|]. split.
  - unfold show_dec. destruct (n <? 0) eqn:E; [apply Z.ltb_lt in E; rewrite Z.abs_neq by lia|apply Z.ltb_ge in E; rewrite Z.abs_eq by lia]; reflexivity.
  - unfold convert_to_int. rewrite show_dec_reads by exact Hn. unfold of_int. rewrite wrap63_id by exact Hn. reflexivity.
Qed.
Print Assumptions C28_int_of_text.
(** a numeral of 64 bits is not rejected although ints have 63: int('9223372036854775807') is -1 *)
Theorem C28_int_exact_refuted : ~ forall s n r, spelling 10 n s -> convert_to_int (VStr s) = Ok (VInt r) -> r = n.
Proof.
  intros H. assert (Hs : from_str_radix 10 (show_dec 9223372036854775807) = Some 9223372036854775807) by (vm_compute; reflexivity).
  apply spelling_spec in Hs; [|lia]. specialize (H _ _ (-1) Hs). discriminate H. vm_compute. reflexivity.
Qed.
Print Assumptions C28_int_exact_refuted.
Example C28_example : hex (VInt 255) = Ok (VStr [102; 102]) /\ bin (VStr [49; 48; 49]) = Ok (VInt 5) /\ chr (VInt 65) = Ok (VStr [65]) /\
  convert_to_int (VStr [45; 49; 50]) = Ok (VInt (-12)) /\ chr (VInt 55296) = Err (ValueErrorInvalidCharacterOrdinal 55296) /\ hex (VStr [103]) = Err (TypeErrorCannotConvertToInt (VStr [103])).
Proof. vm_compute. repeat split; reflexivity. Qed.

(** ** C29: [show] is the text of a value *)
(** s % v is [out] exactly if [s] is a sequence of characters, `%%` and directives, and [out] renders
    them with the arguments in [v], each used once, in order *)
Theorem C29_format : forall show s v args, arguments v args ->
  (forall out, format_string show s v = Ok (VStr out) <-> exists ps, s = spell ps /\ Forall piece_ok ps /\ renders show ps args out) /\
  (forall r, format_string show s v = Ok r -> exists out, r = VStr out).
Proof. exact format_exact. Qed.
Print Assumptions C29_format.
(** a format has one reading *)
Theorem C29_unique_reading : forall ps ps', Forall piece_ok ps -> Forall piece_ok ps' -> spell ps = spell ps' -> ps = ps'.
Proof. exact spell_inj. Qed.
Print Assumptions C29_unique_reading.
(** as many arguments as directives, otherwise there is an error *)
Theorem C29_count : forall show ps args out, renders show ps args out -> length args = directives ps.
Proof. intros show ps args out H. symmetry. apply (renders_count show ps args out H). Qed.
Print Assumptions C29_count.
Theorem C29_wrong_count : forall show ps v args, arguments v args -> Forall piece_ok ps -> length args <> directives ps ->
  exists e, format_string show (spell ps) v = Err e.
Proof.
  intros show ps v args Ha Hok Hc. destruct (format_string show (spell ps) v) as [r|e|] eqn:E; [|eauto|].
  - exfalso. exact (format_wrong_count show ps v args Ha Hok Hc r E).
  - exfalso. exact (format_no_panic show ps v Hok E).
Qed.
Print Assumptions C29_wrong_count.
(** padding only adds: the digits are all there at the end, and the width is reached *)
Theorem C29_padding : forall (zero : bool) w sign ds out, filled zero w sign ds out -> (w <= length out)%nat /\ (length sign + length ds <= length out)%nat /\
    exists a b, out = a ++ ds /\ a = (if zero then sign ++ b else b ++ sign) /\ Forall (fun c => c = if zero then 48 else 32) b.
Proof. exact filled_keeps. Qed.
Print Assumptions C29_padding.
Theorem C29_width : forall show zero w v k out, shows show zero w v k out -> (w <= length out)%nat.
Proof. exact shows_enough. Qed.
Print Assumptions C29_width.
(** no crash on a format whose widths fit 64 bits *)
Theorem C29_no_crash : forall show ps v, Forall piece_ok ps -> format_string show (spell ps) v <> Panic.
Proof. exact format_no_panic. Qed.
Print Assumptions C29_no_crash.
(** but a longer width crashes the interpreter *)
Theorem C29_no_crash_refuted : ~ forall show s v, format_string show s v <> Panic.
Proof. intros H. apply (H (fun _ => []) (37 :: 49 :: repeat 48 20 ++ [100]) (VInt 1)). vm_compute. reflexivity. Qed.
Print Assumptions C29_no_crash_refuted.
Example C29_example : (* '%05d|%4x%%%s' % [-42, 255, 'ab'] *)
  format_string (fun v => match v with VStr s => s | _ => [] end) [37;48;53;100;124;37;52;120;37;37;37;115] (VList [VInt (-42); VInt 255; VStr [97;98]])
  = Ok (VStr [45;48;48;52;50;124;32;32;102;102;37;97;98]).
Proof. vm_compute. reflexivity. Qed.
Example C29_example_pieces : let ps := [Directive true [53] AsDecimal; Plain 124; Directive false [52] AsHex; Percent; Directive false [] AsText] in
  spell ps = [37;48;53;100;124;37;52;120;37;37;37;115] /\ Forall piece_ok ps /\ directives ps = 3%nat.
Proof.
  cbv zeta. split; [reflexivity|]. split; [|reflexivity].
  assert (N : forall d, 0 < d <= 9 -> numeral 10 d [48 + d]).
  { intros d Hd. exists [d]. split; [constructor; [left; lia|constructor]|]. split; [constructor; [lia|constructor]|]. split; [reflexivity|]. right. exists d, []. split; [reflexivity|lia]. }
  constructor; [right; exists 5; split; [change (2 ^ 64) with 18446744073709551616; lia|apply (N 5); lia]|]. constructor; [cbn; lia|].
  constructor; [right; exists 4; split; [change (2 ^ 64) with 18446744073709551616; lia|apply (N 4); lia]|].
  constructor; [exact I|]. constructor; [left; reflexivity|constructor].
Qed.

(** ** C30 *)
(** splitting at a separator without regex metacharacters: joining gives the text back, and no piece contains the separator *)
Theorem C30_split_join : forall sep text, sep <> [] -> Forall plain_char sep ->
  join sep (split sep text) = text /\ Forall (fun p => ~ occurs sep p) (split sep text).
Proof. intros sep text H _. exact (split_join sep text H). Qed.
Print Assumptions C30_split_join.
(** whatever the regex engine matches: the pieces and the matched texts, alternating, are the text *)
Theorem C30_split_matches : forall text ms, in_order 0 ms (length text) ->
  interleave (split_matches text 0 ms) (matched text ms) = text /\ length (split_matches text 0 ms) = S (length ms).
Proof. exact split_any. Qed.
Print Assumptions C30_split_matches.
(** the empty separator: the characters *)
Theorem C30_split_chars : forall text, split [] text = map (fun c => [c]) text /\ join [] (split [] text) = text.
Proof. intros text. split; [reflexivity|apply join_chars]. Qed.
Print Assumptions C30_split_chars.
(** strip removes exactly the white space at both ends *)
Theorem C30_strip : forall s, exists a b, s = a ++ trim s ++ b /\ Forall blank a /\ Forall blank b /\
  (forall c r, trim s = c :: r -> ~ blank c) /\ (forall c r, trim s = r ++ [c] -> ~ blank c).
Proof. exact trim_blank. Qed.
Print Assumptions C30_strip.
(** case: position by position; A-Z to a-z (or back) and everything else in ASCII unchanged.
    Missing for the full claim: the regex engine (so escaping), and non-ASCII letters *)
Theorem C30_case_partial : forall s, Forall (fun c => 0 <= c < 128) s ->
  Forall2 (fun c d => (65 <= c <= 90 /\ d = c + 32) \/ (~ 65 <= c <= 90 /\ d = c)) s (to_lower s) /\
  Forall2 (fun c d => (97 <= c <= 122 /\ d = c - 32) \/ (~ 97 <= c <= 122 /\ d = c)) s (to_upper s) /\
  to_lower (to_upper s) = to_lower s /\ to_upper (to_lower s) = to_upper s.
Proof.
  intros s _. unfold to_lower, to_upper. rewrite !map_map.
  assert (L : forall c, (65 <= c <= 90 /\ lower_char c = c + 32) \/ (~ 65 <= c <= 90 /\ lower_char c = c)).
  { intros c. unfold lower_char. destruct ((65 <=? c) && (c <=? 90)) eqn:E; [apply andb_prop in E|apply andb_false_iff in E]; rewrite ?Z.leb_le, ?Z.leb_gt in E; lia. }
  assert (U : forall c, (97 <= c <= 122 /\ upper_char c = c - 32) \/ (~ 97 <= c <= 122 /\ upper_char c = c)).
  { intros c. unfold upper_char. destruct ((97 <=? c) && (c <=? 122)) eqn:E; [apply andb_prop in E|apply andb_false_iff in E]; rewrite ?Z.leb_le, ?Z.leb_gt in E; lia. }
  split; [|split; [|split]].
  - induction s as [|c s IH]; constructor; [apply L|exact IH].
  - induction s as [|c s IH]; constructor; [apply U|exact IH].
  - apply map_ext. intros c. pose proof (U c). pose proof (L c). pose proof (L (upper_char c)). lia.
  - apply map_ext. intros c. pose proof (U c). pose proof (L c). pose proof (U (lower_char c)). lia.
Qed.
Print Assumptions C30_case_partial.
Example C30_example : (* 'a,,b,' split ',' *)
  split [44] [97;44;44;98;44] = [[97]; []; [98]; []] /\ join [44] [[97]; []; [98]; []] = [97;44;44;98;44] /\
  split [97;97] [97;97;97;98] = [[]; [97;98]] /\ trim [32;9;97;32;98;10] = [97;32;98].
Proof. vm_compute. repeat split; reflexivity. Qed.
