From Verif Require Import Base Scan ScanSpec ScanProofs ScanProofs2 ScanProofs3.
From Coq Require Import String List.
Local Open Scope Z_scope.

(** ** more text after a separator *)
Definition ext (z : list Z) (s : scanner) : scanner := Scanner (chars s ++ z) (cursor s) (tokens s) (errors s).
Definition clean (s : scanner) : Prop := forall x, In x (errors s) -> ~ unterminated (snd x).

Lemma advance_ext z s c r : chars s = c :: r -> advance (ext z s) = (Some c, ext z (eat [c] r s)).
Proof. intro E. rewrite (advance_cons (ext z s) c (r ++ z)); [reflexivity|]. cbn [ext chars]. rewrite E. reflexivity. Qed.
Lemma skip_ext z s c r : chars s = c :: r -> skip (ext z s) = ext z (skip s).
Proof. intro E. unfold skip. rewrite (advance_ext z s c r E), (advance_cons s c r E). reflexivity. Qed.
Lemma push_ext z w t s : push w t (ext z s) = ext z (push w t s). Proof. reflexivity. Qed.
Lemma push_err_ext z o w t s : push_err o w t (ext z s) = ext z (push_err o w t s). Proof. reflexivity. Qed.
Section sep.
  Context (sep : Z) (b : list Z) (SP : space sep).
  Let z := sep :: b.
  Lemma peek_ext s : peek (ext z s) = match chars s with [] => Some sep | c :: _ => Some c end.
  Proof. unfold peek, ext, z. cbn [chars]. destruct (chars s); reflexivity. Qed.
  Lemma peek_is_ext c s : ~ space c -> peek_is c (ext z s) = peek_is c s.
  Proof. intro N. unfold peek_is. rewrite peek_ext. unfold peek. destruct (chars s); [|reflexivity]. destruct (Z.eqb_spec sep c); [congruence|reflexivity]. Qed.
  Lemma peek_is_skip c s : peek_is c s = true -> skip (ext z s) = ext z (skip s).
  Proof. unfold peek_is, peek. destruct (chars s) eqn:E; [discriminate|]. intros _. eapply skip_ext; eauto. Qed.
  Lemma sep_word : is_word sep = false.
  Proof. destruct (is_word sep) eqn:E; auto. apply word_ok in E. unfold word_char, letter, space in *. lia. Qed.
  Lemma sep_i : is_i sep = false.
  Proof. destruct (is_i sep) eqn:E; auto. apply i_ok in E. unfold imaginary, space in *. lia. Qed.
  Lemma sep_hex : is_hex sep = false.
  Proof. destruct (is_hex sep) eqn:E; auto. apply radix_16 in E. destruct E as (d & E & _). unfold digit, space in *. lia. Qed.
  Lemma sep_digit : is_digit sep = false.
  Proof. destruct (is_digit sep) eqn:E; auto. apply digit_ok in E. unfold space in *. lia. Qed.
  Lemma sep_bin : is_bin sep = false.
  Proof. destruct (is_bin sep) eqn:E; auto. apply radix_2 in E. destruct E as (d & E & _). unfold digit, space in *. lia. Qed.
  Lemma sep_under : sep =? 95 = false.
  Proof. unfold space in SP. lia. Qed.

  Lemma word_loop_ext : forall n m buf s, (length (chars s) <= n)%nat -> (length (chars s) < m)%nat ->
    word_loop m buf (ext z s) = let '(x, s') := word_loop n buf s in (x, ext z s').
  Proof.
    induction n as [|n IH]; intros [|m] buf s L M; try lia; cbn [word_loop]; rewrite peek_ext; unfold peek; destruct (chars s) as [|c r] eqn:E; cbn [length] in *; try lia; rewrite ?sep_word; auto.
    destruct (is_word c); auto. rewrite (skip_ext z s c r E). rewrite (skip_cons _ _ _ E). rewrite (IH m); auto; cbn [eat chars]; lia.
  Qed.
  Lemma digit_loop_ext dg : dg sep = false -> forall n m buf k s, (length (chars s) <= n)%nat -> (length (chars s) < m)%nat ->
    digit_loop dg m buf k (ext z s) = let '(x, s') := digit_loop dg n buf k s in (x, ext z s').
  Proof.
    intro D. induction n as [|n IH]; intros [|m] buf k s L M; try lia; cbn [digit_loop]; rewrite peek_ext; unfold peek; destruct (chars s) as [|c r] eqn:E; cbn [length] in *; try lia; rewrite ?D, ?sep_under; auto.
    destruct (dg c); [|destruct (c =? 95)]; auto; rewrite (skip_ext z s c r E); rewrite (skip_cons _ _ _ E); rewrite (IH m); auto; cbn [eat chars]; lia.
  Qed.
  Lemma screen_int_ext buf radix k s : screen_int buf radix k (ext z s) = ext z (screen_int buf radix k s).
  Proof.
    unfold screen_int. rewrite peek_ext. unfold peek. destruct (chars s) as [|c r] eqn:E.
    - rewrite sep_i. cbn iota zeta. destruct buf; [reflexivity|]. destruct (parse_digits radix (z0 :: buf) 0); reflexivity.
    - destruct (is_i c); cbn iota zeta; [rewrite (skip_ext z s c r E)|]; (destruct buf; [reflexivity|]); destruct (parse_digits radix (z0 :: buf) 0); reflexivity.
  Qed.
  Lemma string_loop_ext q start : forall n m (esc : bool) buf s, (length (chars s) < n)%nat -> (length (chars s) < m)%nat -> clean (snd (string_loop n q start esc buf s)) ->
    string_loop m q start esc buf (ext z s) = let '(x, s') := string_loop n q start esc buf s in (x, ext z s').
  Proof.
    induction n as [|n IH]; intros [|m] esc buf s L M; try lia. cbn [string_loop]. destruct (chars s) as [|c r] eqn:E; cbn [length] in *.
    - rewrite (advance_nil _ E). intro C. exfalso. eapply C; [cbn [snd push_err_at errors]; apply in_or_app; right; left; reflexivity|]. left. reflexivity.
    - rewrite (advance_ext z s c r E), (advance_cons s c r E).
      assert (G : forall (esc' : bool) buf', clean (snd (string_loop n q start esc' buf' (eat [c] r s))) -> string_loop m q start esc' buf' (ext z (eat [c] r s)) = let '(x, s') := string_loop n q start esc' buf' (eat [c] r s) in (x, ext z s')) by (intros; apply IH; auto; cbn [eat chars]; lia).
      destruct ((c =? 39) || (c =? 34)); [destruct esc; [apply G|]; destruct (negb (q =? c)); [apply G|reflexivity]|].
      destruct (c =? 92); [destruct esc; apply G|]. destruct (c =? 13); [apply G|]. destruct ((c =? 110) && esc); [apply G|]. destruct ((c =? 114) && esc); [apply G|]. destruct ((c =? 116) && esc); apply G.
  Qed.
  Lemma block_comment_ext start : forall n m s, (length (chars s) < n)%nat -> (length (chars s) < m)%nat -> clean (block_comment n start s) ->
    block_comment m start (ext z s) = ext z (block_comment n start s).
  Proof.
    induction n as [|n IH]; intros [|m] s L M; try lia. cbn [block_comment].
    assert (X : forall s', ~ clean (push_err_at start 2 UnterminatedBlockComment s')) by (intros s' C; eapply C; [cbn [push_err_at errors]; apply in_or_app; right; left; reflexivity|]; right; reflexivity).
    destruct (chars s) as [|c r] eqn:E; cbn [length] in *.
    - rewrite (advance_nil _ E). intro C. exfalso. eapply X; exact C.
    - rewrite (advance_ext z s c r E), (advance_cons s c r E). destruct (c =? 42).
      + destruct r as [|d r].
        * rewrite advance_nil by reflexivity. intro C. exfalso. eapply X; exact C.
        * rewrite (advance_ext z (eat [c] (d :: r) s) d r) by reflexivity. rewrite (advance_cons _ d r) by reflexivity. destruct (d =? 47); [reflexivity|]. cbn [length] in *. apply IH; cbn [eat chars]; lia.
      + apply IH; cbn [eat chars]; lia.
  Qed.
  Lemma line_comment_ext : sep = 10 -> forall n m s, (length (chars s) < n)%nat -> (length (chars s) < m)%nat ->
    line_comment m (ext z s) = ext z (line_comment n s) \/ chars (line_comment n s) = [] /\ line_comment m (ext z s) = eat [sep] b (line_comment n s).
  Proof.
    intros S. induction n as [|n IH]; intros [|m] s L M; try lia. cbn [line_comment]. destruct (chars s) as [|c r] eqn:E; cbn [length] in *.
    - rewrite (advance_nil _ E). right. split; auto. rewrite (advance_cons (ext z s) sep b) by (cbn [ext chars]; rewrite E; reflexivity). rewrite S. cbn [Z.eqb Pos.eqb]. reflexivity.
    - rewrite (advance_ext z s c r E), (advance_cons s c r E). destruct (c =? 10); [left; reflexivity|]. apply IH; cbn [eat chars]; lia.
  Qed.
  Lemma or_equals_ext x y s : or_equals x y (ext z s) = ext z (or_equals x y s).
  Proof.
    unfold or_equals, push_skip. rewrite peek_is_ext by (unfold space; lia). destruct (peek_is 61 s) eqn:E; [rewrite (peek_is_skip _ _ E)|]; reflexivity.
  Qed.
  Lemma then_equals_ext x y s : then_equals x y (ext z s) = ext z (then_equals x y s).
  Proof.
    unfold then_equals, push_skip. rewrite peek_is_ext by (unfold space; lia). destruct (peek_is 61 s) eqn:E; [rewrite (peek_is_skip _ _ E)|]; reflexivity.
  Qed.
  Ltac syms := repeat match goal with |- (if ?x =? ?y then _ else _) = _ => destruct (x =? y); [try (apply or_equals_ext || reflexivity)|] end.
  Lemma scan_char_ext c s : (sep = 10 \/ ~ (c = 47 /\ peek s = Some 47)) -> clean (scan_char c s) ->
    scan_char c (ext z s) = ext z (scan_char c s) \/ chars (scan_char c s) = [] /\ scan_char c (ext z s) = eat [sep] b (scan_char c s).
  Proof.
    intros LC. unfold scan_char. assert (LE : (length (chars (ext z s)) > length (chars s))%nat) by (cbn [ext chars]; rewrite app_length; unfold z; cbn [length]; lia).
    destruct ((c =? 32) || (c =? 9) || (c =? 13) || (c =? 10)); [left; reflexivity|].
    destruct (is_letter c).
    { intros _. left. rewrite (word_loop_ext (S (length (chars s)))) by lia. destruct (word_loop (S (length (chars s))) [c] s). reflexivity. }
    destruct (c =? 48).
    { intros _. left. rewrite peek_ext. unfold peek. destruct (chars s) as [|d r] eqn:E.
      - replace (sep =? 120) with false by (unfold space in SP; lia). replace (sep =? 98) with false by (unfold space in SP; lia). rewrite sep_i, sep_word. rewrite skip_nil by auto. reflexivity.
      - assert (SK := skip_ext z s d r E). assert (CL : length (chars (skip s)) = length r) by (rewrite (skip_cons _ _ _ E); reflexivity). cbn [length] in LE.
        destruct (d =? 120).
        { rewrite SK. rewrite (digit_loop_ext is_hex sep_hex (S (length (d :: r)))) by (cbn [length]; lia). destruct (digit_loop is_hex (S (length (d :: r))) [] 0 (skip s)) as [[x k] s']. apply screen_int_ext. }
        destruct (d =? 98).
        { rewrite SK. rewrite (digit_loop_ext is_bin sep_bin (S (length (d :: r)))) by (cbn [length]; lia). destruct (digit_loop is_bin (S (length (d :: r))) [] 0 (skip s)) as [[x k] s']. apply screen_int_ext. }
        destruct (is_i d); [rewrite SK; reflexivity|]. destruct (is_word d); reflexivity. }
    destruct (in_range 49 57 c).
    { intros _. left. rewrite (digit_loop_ext is_digit sep_digit (S (length (chars s)))) by lia. destruct (digit_loop is_digit (S (length (chars s))) [c] 0 s) as [[x k] s']. apply screen_int_ext. }
    destruct ((c =? 39) || (c =? 34)).
    { change (cursor (ext z s)) with (cursor s). cbn zeta. destruct (string_loop (S (length (chars s))) c (cursor s) false [] s) as [x s'] eqn:E. intro C. left.
      rewrite (string_loop_ext c (cursor s) (S (length (chars s)))); [rewrite E; reflexivity|lia|lia|]. rewrite E. exact C. }
    change (ch "/") with 47. destruct (c =? 47) eqn:C47.
    { apply Z.eqb_eq in C47. subst c. change (47 =? ch "!") with false. change (47 =? ch "=") with false. change (47 =? ch ">") with false. change (47 =? ch "<") with false. change (47 =? ch "+") with false. change (47 =? ch "-") with false. change (47 =? ch "*") with false. cbn iota.
      rewrite !peek_is_ext by (unfold space; lia). destruct (peek_is 47 s) eqn:P.
      - intros _. assert (S10 : sep = 10). { destruct LC as [|LC]; auto. exfalso. apply LC. split; auto. unfold peek_is in P. destruct (peek s); [|discriminate]. f_equal. lia. }
        apply line_comment_ext; auto; lia.
      - destruct (peek_is 42 s); [|left; apply or_equals_ext]. intro C. left. apply block_comment_ext; auto; lia. }
    intros _. left. clear C47 LC.
    destruct (c =? ch "!"); [apply or_equals_ext|]. destruct (c =? ch "="); [apply or_equals_ext|].
    destruct (c =? ch ">"). { rewrite peek_is_ext by (unfold space; lia). destruct (peek_is 62 s) eqn:P; [rewrite (peek_is_skip _ _ P); apply then_equals_ext|apply or_equals_ext]. }
    destruct (c =? ch "<"). { rewrite peek_is_ext by (unfold space; lia). destruct (peek_is 60 s) eqn:P; [rewrite (peek_is_skip _ _ P); apply then_equals_ext|apply or_equals_ext]. }
    destruct (c =? ch "+"); [apply or_equals_ext|].
    destruct (c =? ch "-"). { rewrite !peek_is_ext by (unfold space; lia). unfold push_skip. destruct (peek_is 61 s) eqn:P; [rewrite (peek_is_skip _ _ P); reflexivity|]. destruct (peek_is 62 s) eqn:P'; [rewrite (peek_is_skip _ _ P'); reflexivity|reflexivity]. }
    destruct (c =? ch "*"). { rewrite !peek_is_ext by (unfold space; lia). unfold push_skip. destruct (peek_is 61 s) eqn:P; [rewrite (peek_is_skip _ _ P); reflexivity|]. destruct (peek_is 42 s) eqn:P'; [rewrite (peek_is_skip _ _ P'); apply then_equals_ext|reflexivity]. }
    syms.
    { rewrite !peek_is_ext by (unfold space; lia). unfold push_skip. destruct (peek_is 61 s) eqn:P; [rewrite (peek_is_skip _ _ P); reflexivity|]. destruct (peek_is 46 s) eqn:P'; [rewrite (peek_is_skip _ _ P')|reflexivity]. cbn zeta.
      rewrite !peek_is_ext by (unfold space; lia). destruct (peek_is 46 (skip s)) eqn:P''; [rewrite (peek_is_skip _ _ P''); reflexivity|reflexivity]. }
    reflexivity.
  Qed.
End sep.

Lemma slashes_app x t : slashes t -> slashes (x ++ t).
Proof. intros (a & y & ->). exists (x ++ a), y. rewrite app_assoc. reflexivity. Qed.
Lemma reads_clean ps s s' : reads ps s s' -> clean s' -> clean s.
Proof. intros (_ & _ & _ & _ & E & H & _) C x Hx. apply C. rewrite H. apply in_or_app. auto. Qed.
Lemma scan_loop_ext sep b : space sep -> forall n s sa m, scan_loop n s = Some sa -> (length (chars s) < n)%nat -> clean sa -> (sep = 10 \/ ~ slashes (chars s)) -> (length (chars s ++ sep :: b) < m)%nat ->
  exists m', (length b < m')%nat /\ scan_loop m (ext (sep :: b) s) = scan_loop m' (eat [sep] b sa).
Proof.
  intros SP. induction n as [|n IH]; intros s sa m E L C LC M; [lia|]. destruct m as [|m]; [lia|]. cbn [scan_loop] in E |- *. rewrite app_length in M. cbn [length] in M.
  destruct (chars s) as [|c r] eqn:CH; cbn [length] in *.
  - rewrite (advance_nil _ CH) in E. injection E as <-. exists m. split; [lia|]. rewrite (advance_cons (ext (sep :: b) s) sep b) by (cbn [ext chars]; rewrite CH; reflexivity).
    replace (scan_char sep (eat [sep] b (ext (sep :: b) s))) with (eat [sep] b s); [reflexivity|]. unfold scan_char. replace ((sep =? 32) || (sep =? 9) || (sep =? 13) || (sep =? 10)) with true by (unfold space in SP; lia). reflexivity.
  - rewrite (advance_cons _ _ _ CH) in E. rewrite (advance_ext _ _ _ _ CH).
    destruct (step_reads s c r CH) as (ps & N & R). assert (SH := reads_shorter _ _ _ N R). rewrite CH in SH. cbn [length] in SH.
    assert (C1 : clean (scan_char c (eat [c] r s))).
    { destruct (scan_reads n (scan_char c (eat [c] r s))) as (s' & ps' & E' & R' & _); [lia|]. rewrite E in E'. injection E' as ->. apply (reads_clean _ _ _ R'). auto. }
    destruct (scan_char_ext sep b SP c (eat [c] r s)) as [X|[X1 X2]]; auto.
    + destruct LC as [|LC]; auto. right. intros [-> P]. apply LC. unfold peek in P. cbn [eat chars] in P. destruct r as [|d r]; [discriminate|]. injection P as ->. exists [], r. reflexivity.
    + rewrite X. apply (IH _ sa m); auto; try lia.
      * destruct LC as [|LC]; auto. right. intro Q. apply LC. destruct R as (R & _). rewrite CH in R. rewrite R. apply slashes_app. auto.
      * rewrite app_length. cbn [length]. lia.
    + rewrite X2. assert (sa = scan_char c (eat [c] r s)).
      { destruct n; [discriminate|]. cbn [scan_loop] in E. rewrite (advance_nil _ X1) in E. congruence. }
      subst sa. exists m. split; [lia|reflexivity].
Qed.

(** ** the same text further on *)
Definition sh (k : Z) (T : list (location * token)) (E : list (location * scan_error)) (s : scanner) : scanner :=
  Scanner (chars s) (cursor s + k) (T ++ map (moved k) (tokens s)) (E ++ map (moved k) (errors s)).
Section sh.
  Context (k : Z) (T : list (location * token)) (E : list (location * scan_error)).
  Notation sh := (sh k T E).
  Lemma breaks_sh : forall p i, line_breaks (i + k) p = map (moved k) (line_breaks i p).
  Proof.
    induction p as [|c p IH]; intro i; cbn [line_breaks]; auto. rewrite map_app. replace (i + k + 1) with (i + 1 + k) by lia. rewrite IH. destruct (c =? 10); reflexivity.
  Qed.
  Lemma eat_sh p q s : eat p q (sh s) = sh (eat p q s).
  Proof. unfold eat, ScanProofs4.sh. cbn [cursor tokens errors chars]. rewrite map_app, breaks_sh, app_assoc. f_equal. lia. Qed.
  Lemma push_sh w t s : push w t (sh s) = sh (push w t s).
  Proof. unfold push, ScanProofs4.sh. cbn [cursor tokens errors chars]. rewrite map_app, <- app_assoc. replace (cursor s + k - w) with (cursor s - w + k) by lia. reflexivity. Qed.
  Lemma push_err_sh o w t s : push_err o w t (sh s) = sh (push_err o w t s).
  Proof. unfold push_err, ScanProofs4.sh. cbn [cursor tokens errors chars]. rewrite map_app, <- app_assoc. replace (cursor s + k - w + o) with (cursor s - w + o + k) by lia. reflexivity. Qed.
  Lemma push_err_at_sh st w t s : push_err_at (st + k) w t (sh s) = sh (push_err_at st w t s).
  Proof. unfold push_err_at, ScanProofs4.sh. cbn [cursor tokens errors chars]. rewrite map_app, <- app_assoc. replace (cursor s + k - (st + k) + w) with (cursor s - st + w) by lia. reflexivity. Qed.
  Lemma move_sh d s : move d (sh s) = sh (move d s).
  Proof. unfold move, ScanProofs4.sh. cbn [cursor tokens errors chars]. f_equal. lia. Qed.
  Lemma advance_sh s : advance (sh s) = (fst (advance s), sh (snd (advance s))).
  Proof.
    destruct (chars s) as [|c r] eqn:C.
    - rewrite !advance_nil by auto. reflexivity.
    - rewrite (advance_cons s c r C). rewrite (advance_cons (sh s) c r) by exact C. rewrite eat_sh. reflexivity.
  Qed.
  Lemma skip_sh s : skip (sh s) = sh (skip s).
  Proof. unfold skip. rewrite advance_sh. reflexivity. Qed.
  Lemma peek_sh s : peek (sh s) = peek s. Proof. reflexivity. Qed.
  Lemma peek_is_sh c s : peek_is c (sh s) = peek_is c s. Proof. reflexivity. Qed.
  Lemma word_loop_sh : forall n buf s, word_loop n buf (sh s) = let '(x, s') := word_loop n buf s in (x, sh s').
  Proof. induction n as [|n IH]; intros; cbn [word_loop]; auto. rewrite peek_sh. destruct (peek s); auto. destruct (is_word z); auto. rewrite skip_sh. apply IH. Qed.
  Lemma digit_loop_sh dg : forall n buf x s, digit_loop dg n buf x (sh s) = let '(x, s') := digit_loop dg n buf x s in (x, sh s').
  Proof. induction n as [|n IH]; intros; cbn [digit_loop]; auto. rewrite peek_sh. destruct (peek s); auto. destruct (dg z); [|destruct (z =? 95)]; auto; rewrite skip_sh; apply IH. Qed.
  Lemma screen_int_sh buf radix x s : screen_int buf radix x (sh s) = sh (screen_int buf radix x s).
  Proof.
    unfold screen_int. rewrite peek_sh. destruct (match peek s with Some c => is_i c | None => false end); cbn zeta; rewrite ?skip_sh;
    (destruct buf; [apply push_err_sh|]); destruct (parse_digits radix (z :: buf) 0); rewrite ?push_sh, ?push_err_sh; reflexivity.
  Qed.
  Lemma string_loop_sh q st : forall n (esc : bool) buf s, string_loop n q (st + k) esc buf (sh s) = let '(x, s') := string_loop n q st esc buf s in (x, sh s').
  Proof.
    induction n as [|n IH]; intros; cbn [string_loop]; auto. rewrite advance_sh. destruct (advance s) as [[c|] s']; cbn [fst snd]; [|rewrite push_err_at_sh; reflexivity].
    destruct ((c =? 39) || (c =? 34)); [destruct esc; [apply IH|]; destruct (negb (q =? c)); [apply IH|reflexivity]|].
    destruct (c =? 92); [destruct esc; apply IH|]. destruct (c =? 13); [apply IH|]. destruct ((c =? 110) && esc); [apply IH|]. destruct ((c =? 114) && esc); [apply IH|]. destruct ((c =? 116) && esc); apply IH.
  Qed.
  Lemma block_comment_sh st : forall n s, block_comment n (st + k) (sh s) = sh (block_comment n st s).
  Proof.
    induction n as [|n IH]; intros; cbn [block_comment]; auto. rewrite advance_sh. destruct (advance s) as [[c|] s']; cbn [fst snd]; [|apply push_err_at_sh].
    destruct (c =? 42); [|apply IH]. rewrite advance_sh. destruct (advance s') as [[d|] s'']; cbn [fst snd]; [|apply push_err_at_sh]. destruct (d =? 47); auto.
  Qed.
  Lemma line_comment_sh : forall n s, line_comment n (sh s) = sh (line_comment n s).
  Proof. induction n as [|n IH]; intros; cbn [line_comment]; auto. rewrite advance_sh. destruct (advance s) as [[c|] s']; cbn [fst snd]; auto. destruct (c =? 10); auto. Qed.
  Lemma or_equals_sh x y s : or_equals x y (sh s) = sh (or_equals x y s).
  Proof. unfold or_equals, push_skip. rewrite peek_is_sh. destruct (peek_is 61 s); rewrite ?skip_sh; apply push_sh. Qed.
  Lemma then_equals_sh x y s : then_equals x y (sh s) = sh (then_equals x y s).
  Proof. unfold then_equals, push_skip. rewrite peek_is_sh. destruct (peek_is 61 s); rewrite ?skip_sh; apply push_sh. Qed.
  Lemma scan_char_sh c s : scan_char c (sh s) = sh (scan_char c s).
  Proof.
    unfold scan_char. change (chars (sh s)) with (chars s). rewrite !peek_is_sh, peek_sh. change (cursor (sh s)) with (cursor s + k). rewrite !skip_sh.
    destruct ((c =? 32) || (c =? 9) || (c =? 13) || (c =? 10)); [reflexivity|].
    destruct (is_letter c). { rewrite word_loop_sh. destruct (word_loop (S (length (chars s))) [c] s). apply push_sh. }
    destruct (c =? 48).
    { destruct (peek s) as [d|]; [|apply push_sh]. rewrite !digit_loop_sh.
      destruct (d =? 120). { destruct (digit_loop is_hex (S (length (chars s))) [] 0 (skip s)) as [[x y] s']. apply screen_int_sh. }
      destruct (d =? 98). { destruct (digit_loop is_bin (S (length (chars s))) [] 0 (skip s)) as [[x y] s']. apply screen_int_sh. }
      destruct (is_i d); [apply push_sh|]. destruct (is_word d); [apply push_err_sh|apply push_sh]. }
    destruct (in_range 49 57 c). { rewrite digit_loop_sh. destruct (digit_loop is_digit (S (length (chars s))) [c] 0 s) as [[x y] s']. apply screen_int_sh. }
    destruct ((c =? 39) || (c =? 34)).
    { cbn zeta. rewrite string_loop_sh. destruct (string_loop (S (length (chars s))) c (cursor s) false [] s) as [x s']. change (cursor (sh s')) with (cursor s' + k). replace (cursor s' + k - (cursor s + k) + 1) with (cursor s' - cursor s + 1) by lia. apply push_sh. }
    unfold push_skip. rewrite !peek_is_sh, !skip_sh, !move_sh, !push_sh, !move_sh, !push_sh, !or_equals_sh, !then_equals_sh, line_comment_sh, block_comment_sh, !push_err_sh.
    repeat match goal with |- (if ?x then _ else _) = _ => destruct x; [try reflexivity|] end; reflexivity.
  Qed.
  Lemma scan_loop_sh : forall n s, scan_loop n (sh s) = option_map sh (scan_loop n s).
  Proof. induction n as [|n IH]; intro s; cbn [scan_loop]; auto. rewrite advance_sh. destruct (advance s) as [[c|] s']; cbn [fst snd]; auto. rewrite scan_char_sh. apply IH. Qed.
End sh.

Lemma scan_total t : exists s, scan t = Some s.
Proof. destruct (scan_reads (S (length t)) (begin t)) as (s & _ & E & _); [cbn; lia|]. exists s. exact E. Qed.
Lemma scan_split a sep b sa sb : space sep -> scan a = Some sa -> scan b = Some sb -> clean sa -> (sep = 10 \/ ~ slashes a) ->
  exists s, scan (a ++ sep :: b) = Some s /\
    tokens s = tokens sa ++ line_breaks (Z.of_nat (length a)) [sep] ++ map (moved (Z.of_nat (length a) + 1)) (tokens sb) /\
    errors s = errors sa ++ map (moved (Z.of_nat (length a) + 1)) (errors sb).
Proof.
  intros SP Ea Eb C LC. destruct (scan_reads (S (length a)) (begin a)) as (sa' & ps & Ea' & R & CH); [cbn; lia|]. unfold scan in Ea. fold (begin a) in Ea. rewrite Ea in Ea'. injection Ea' as <-.
  assert (CU : cursor sa = Z.of_nat (length a)). { destruct R as (R1 & _ & R3 & _). rewrite CH, app_nil_r in R1. cbn [begin chars cursor] in R1, R3. rewrite <- R1 in R3. lia. }
  destruct (scan_loop_ext sep b SP _ _ sa (S (length (a ++ sep :: b))) Ea) as (m & M & X); auto.
  unfold scan. change (Scanner (a ++ sep :: b) 0 [] []) with (ext (sep :: b) (begin a)). rewrite X.
  replace (eat [sep] b sa) with (sh (Z.of_nat (length a) + 1) (tokens sa ++ line_breaks (Z.of_nat (length a)) [sep]) (errors sa) (begin b)).
  - rewrite scan_loop_sh. rewrite (scan_loop_more (S (length b)) m (begin b) sb Eb) by lia. cbn [option_map]. eexists. split; [reflexivity|]. unfold sh. cbn [tokens errors]. rewrite <- app_assoc. split; reflexivity.
  - unfold sh, eat, begin. cbn [chars cursor tokens errors map]. rewrite !app_nil_r, CU. f_equal. 
Qed.

(** ** words on lines *)
Lemma scan_lines : forall l, Forall (fun x => spelled (fst x) (snd x)) l ->
  exists s, scan (lines (map snd l)) = Some s /\ map snd (significant (tokens s)) = map fst l /\ errors s = [].
Proof.
  induction l as [|[t w] l IH]; intro F.
  - exists (begin []). split; [reflexivity|]. split; reflexivity.
  - inversion F as [|? ? S F']; subst. cbn [fst snd] in S. destruct (IH F') as (sb & E & T & R). clear IH.
    destruct (scan_split w 10 (lines (map snd l)) (placed_token w t) sb) as (s & E' & T' & R'); auto.
    + unfold space. auto.
    + apply spelled_scan. auto.
    + intros x [].
    + exists s. unfold lines. cbn [map concat snd]. fold (lines (map snd l)). rewrite <- app_assoc. cbn [app]. split; auto. rewrite T', R', R. split; [|reflexivity].
      unfold significant. rewrite !filter_app, !map_app. unfold placed_token, push, eat, begin. cbn [tokens cursor app filter]. rewrite filter_app.
      fold (significant (line_breaks 0 w)). rewrite significant_breaks. cbn [app filter line_breaks Z.eqb Pos.eqb is_newline snd negb map].
      assert (N := spelled_not_newline _ _ S).
      assert (M : forall k, map snd (filter (fun x => negb (is_newline x)) (map (moved k) (tokens sb))) = map fst l).
      { intro k. rewrite <- T. unfold significant. clear. induction (tokens sb) as [|x r IH]; auto. cbn [map filter]. unfold is_newline at 1. cbn [moved snd]. fold (is_newline x). destruct (is_newline x); cbn [negb map]; rewrite IH; reflexivity. }
      rewrite M. destruct t; try congruence; reflexivity.
Qed.
Lemma written_spelled s : spelled (StringLiteral s) (written s).
Proof.
  unfold written. apply s_string; [left; reflexivity|]. induction s as [|c s IH]; [constructor|]. cbn [flat_map].
  destruct (Z.eqb_spec c 39) as [->|N1]; cbn [orb].
  - apply (d_escape 39 [] 39 39); auto. unfold escape. tauto.
  - destruct (Z.eqb_spec c 92) as [->|N2].
    + apply (d_escape 39 [] 92 92); auto. unfold escape. tauto.
    + destruct (Z.eqb_spec c 13) as [->|N3].
      * apply (d_escape 39 [] 114 13); auto. unfold escape. tauto.
      * cbn [app]. constructor; auto.
Qed.
(** too large *)
Lemma significant_map (l : list (location * token)) : significant (significant l) = significant l.
Proof. unfold significant. induction l as [|x l IH]; auto. cbn [filter]. destruct (negb (is_newline x)) eqn:E; auto. cbn [filter]. rewrite E, IH. reflexivity. Qed.
