From Verif Require Import Base Scan ScanSpec.
From Coq Require Import String List.
Local Open Scope Z_scope.

(** the state after reading [p], with [q] left *)
Definition eat (p q : list Z) (s : scanner) : scanner :=
  Scanner q (cursor s + Z.of_nat (length p)) (tokens s ++ line_breaks (cursor s) p) (errors s).
Lemma breaks_app : forall p q i, line_breaks i (p ++ q) = line_breaks i p ++ line_breaks (i + Z.of_nat (length p)) q.
Proof.
  induction p as [|c p IH]; intros q i; cbn [app line_breaks length].
  - rewrite Z.add_0_r. reflexivity.
  - rewrite IH, <- app_assoc. do 3 f_equal. lia.
Qed.
Lemma eat_nil s : eat [] (chars s) s = s.
Proof. destruct s. unfold eat. cbn. rewrite app_nil_r, Z.add_0_r. reflexivity. Qed.
Lemma eat_nil_eq s q : chars s = q -> eat [] q s = s.
Proof. intros <-. apply eat_nil. Qed.
Lemma eat_eat p p' q q' s : eat p' q' (eat p q s) = eat (p ++ p') q' s.
Proof. unfold eat. cbn [cursor tokens errors]. rewrite breaks_app, app_assoc, app_length. f_equal. lia. Qed.
Lemma no_breaks : forall p i, ~ In 10 p -> line_breaks i p = [].
Proof.
  induction p as [|c p IH]; intros i H; cbn [line_breaks]; auto. rewrite IH by (intro; apply H; right; auto).
  destruct (Z.eqb_spec c 10); auto. exfalso. apply H. left. auto.
Qed.
Lemma advance_cons s c r : chars s = c :: r -> advance s = (Some c, eat [c] r s).
Proof.
  intro E. unfold advance, eat. rewrite E. cbn [line_breaks length]. rewrite app_nil_r. change (Z.of_nat 1) with 1.
  destruct (c =? 10); [|rewrite app_nil_r]; unfold push; cbn [chars cursor tokens errors]; [|reflexivity]. replace (cursor s + 1 - 1) with (cursor s) by lia. reflexivity.
Qed.
Lemma advance_nil s : chars s = [] -> advance s = (None, s).
Proof. intro E. unfold advance. rewrite E. reflexivity. Qed.
Lemma skip_cons s c r : chars s = c :: r -> skip s = eat [c] r s.
Proof. intro E. unfold skip. rewrite (advance_cons _ _ _ E). reflexivity. Qed.
Lemma skip_nil s : chars s = [] -> skip s = s.
Proof. intro E. unfold skip. rewrite (advance_nil _ E). reflexivity. Qed.

Definition next_not (P : Z -> bool) (q : list Z) : Prop := match q with [] => True | c :: _ => P c = false end.
Lemma word_loop_eat : forall n buf s, (length (chars s) <= n)%nat -> exists p q, chars s = p ++ q /\ Forall (fun c => is_word c = true) p /\ next_not is_word q /\ word_loop n buf s = (buf ++ p, eat p q s).
Proof.
  induction n as [|n IH]; intros buf s L; destruct (chars s) as [|c r] eqn:E; cbn [length] in L; try lia.
  - exists [], []. cbn [word_loop app]. rewrite app_nil_r. split; auto. split; auto. split; [exact I|]. rewrite (eat_nil_eq _ _ E). reflexivity.
  - exists [], []. cbn [word_loop app]. unfold peek. rewrite E, app_nil_r. split; auto. split; auto. split; [exact I|]. rewrite (eat_nil_eq _ _ E). reflexivity.
  - cbn [word_loop]. unfold peek. rewrite E. destruct (is_word c) eqn:W.
    + rewrite (skip_cons _ _ _ E). destruct (IH (buf ++ [c]) (eat [c] r s)) as (p & q & H1 & H2 & H3 & H4); [cbn; lia|].
      exists (c :: p), q. cbn [eat chars] in H1. subst r. split; auto. split; [constructor; auto|]. split; auto. rewrite H4, eat_eat, <- app_assoc. reflexivity.
    + exists [], (c :: r). rewrite app_nil_r. split; auto. split; auto. split; [exact W|]. rewrite (eat_nil_eq _ _ E). reflexivity.
Qed.
Lemma digit_loop_eat (dg : Z -> bool) : dg 95 = false -> forall n buf k s, (length (chars s) <= n)%nat -> exists p q, chars s = p ++ q /\
  Forall (fun c => (dg c || (c =? 95)) = true) p /\ next_not (fun c => dg c || (c =? 95)) q /\
  digit_loop dg n buf k s = (buf ++ filter dg p, k + Z.of_nat (length p) - Z.of_nat (length (filter dg p)), eat p q s).
Proof.
  intro D95. induction n as [|n IH]; intros buf k s L; destruct (chars s) as [|c r] eqn:E; cbn [length] in L; try lia.
  - exists [], []. cbn [digit_loop app filter length]. rewrite app_nil_r. split; auto. split; auto. split; [exact I|]. rewrite (eat_nil_eq _ _ E). do 2 f_equal. lia.
  - exists [], []. cbn [digit_loop app filter length]. unfold peek. rewrite E, app_nil_r. split; auto. split; auto. split; [exact I|]. rewrite (eat_nil_eq _ _ E). do 2 f_equal. lia.
  - cbn [digit_loop]. unfold peek. rewrite E. destruct (dg c) eqn:W; [|destruct (Z.eqb_spec c 95) as [->|N]].
    + rewrite (skip_cons _ _ _ E). destruct (IH (buf ++ [c]) k (eat [c] r s)) as (p & q & H1 & H2 & H3 & H4); [cbn; lia|].
      exists (c :: p), q. cbn [eat chars] in H1. subst r. split; auto. split; [constructor; auto; rewrite W; reflexivity|]. split; auto.
      rewrite H4, eat_eat. cbn [filter]. rewrite W, <- app_assoc. cbn [app length]. do 2 f_equal. lia.
    + rewrite (skip_cons _ _ _ E). destruct (IH buf (k + 1) (eat [95] r s)) as (p & q & H1 & H2 & H3 & H4); [cbn; lia|].
      exists (95 :: p), q. cbn [eat chars] in H1. subst r. split; auto. split; [constructor; auto; rewrite orb_true_r; reflexivity|]. split; auto.
      rewrite H4, eat_eat. cbn [filter]. rewrite D95. cbn [app length]. do 2 f_equal. lia.
    + exists [], (c :: r). cbn [app filter length]. rewrite app_nil_r. split; auto. split; auto. split; [cbn [next_not]; rewrite W; destruct (Z.eqb_spec c 95); [contradiction|reflexivity]|].
      rewrite (eat_nil_eq _ _ E). do 2 f_equal. lia.
Qed.

(** ** characters *)
Lemma letter_ok c : is_letter c = true <-> letter c.
Proof. unfold is_letter, in_range, letter. rewrite orb_true_iff, !andb_true_iff, !Z.leb_le. lia. Qed.
Lemma digit_ok c : is_digit c = true <-> 48 <= c <= 57.
Proof. unfold is_digit, in_range. rewrite andb_true_iff, !Z.leb_le. lia. Qed.
Lemma word_ok c : is_word c = true <-> word_char c.
Proof. unfold is_word, word_char. rewrite !orb_true_iff, letter_ok, digit_ok, Z.eqb_eq. tauto. Qed.
Lemma i_ok c : is_i c = true <-> imaginary c.
Proof. unfold is_i, imaginary. rewrite orb_true_iff, !Z.eqb_eq. tauto. Qed.
Lemma value_ok c : is_hex c = true -> digit c (digit_value c).
Proof.
  unfold is_hex, digit_value, digit. rewrite !orb_true_iff, digit_ok. unfold in_range. rewrite !andb_true_iff, !Z.leb_le. intro H.
  destruct (is_digit c) eqn:D; [apply digit_ok in D; left; lia|]. assert (~ 48 <= c <= 57) by (rewrite <- digit_ok; congruence).
  destruct ((97 <=? c) && (c <=? 102)) eqn:E; [apply andb_true_iff in E; rewrite !Z.leb_le in E; right; left; lia|].
  right; right. apply andb_false_iff in E. rewrite !Z.leb_gt in E. lia.
Qed.
Lemma value_det c d : digit c d -> digit_value c = d /\ is_hex c = true.
Proof.
  unfold digit, is_hex, digit_value. intros [[H ->]|[[H ->]|[H ->]]].
  - assert (D : is_digit c = true) by (apply digit_ok; lia). rewrite D. auto.
  - assert (D : is_digit c = false) by (destruct (is_digit c) eqn:D; auto; apply digit_ok in D; lia). rewrite D. unfold in_range.
    replace ((97 <=? c) && (c <=? 102)) with true by lia. cbn [orb]. rewrite orb_true_r. split; [lia|reflexivity].
  - assert (D : is_digit c = false) by (destruct (is_digit c) eqn:D; auto; apply digit_ok in D; lia). rewrite D. unfold in_range.
    replace ((97 <=? c) && (c <=? 102)) with false by lia. replace ((65 <=? c) && (c <=? 70)) with true by lia. cbn [orb]. split; [lia|reflexivity].
Qed.
(** the digit test of each radix *)
Definition radix_digit (radix : Z) (dg : Z -> bool) : Prop := forall c, dg c = true <-> exists d, digit c d /\ d < radix.
Lemma radix_16 : radix_digit 16 is_hex.
Proof.
  intro c. split; [intro H; exists (digit_value c); split; [apply value_ok; auto|]|intros (d & H & _); apply (value_det _ _ H)].
  destruct (value_ok c H) as [[? ->]|[[? ->]|[? ->]]]; lia.
Qed.
Lemma radix_10 : radix_digit 10 is_digit.
Proof.
  intro c. rewrite digit_ok. split.
  - intro H. exists (c - 48). split; [left; auto|lia].
  - intros (d & [[H ->]|[[H ->]|[H ->]]] & L); lia.
Qed.
Lemma radix_2 : radix_digit 2 is_bin.
Proof.
  intro c. unfold is_bin. rewrite orb_true_iff, !Z.eqb_eq. split.
  - intro H. exists (c - 48). split; [left; lia|lia].
  - intros (d & [[H ->]|[[H ->]|[H ->]]] & L); lia.
Qed.
Lemma under_not_digit d : ~ digit 95 d.
Proof. unfold digit. lia. Qed.
Lemma radix_under radix dg : radix_digit radix dg -> dg 95 = false.
Proof. intro R. destruct (dg 95) eqn:E; auto. apply R in E. destruct E as (d & H & _). exfalso. eapply under_not_digit; exact H. Qed.
Lemma digits_of radix dg : radix_digit radix dg -> forall p, Forall (fun c => (dg c || (c =? 95)) = true) p -> digits radix p (map digit_value (filter dg p)).
Proof.
  intros R. induction 1 as [|c p H F IH]; [constructor|]. cbn [filter]. destruct (dg c) eqn:D.
  - apply R in D. destruct D as (d & H1 & H2). cbn [map]. destruct (value_det _ _ H1) as [-> _]. constructor; auto.
  - cbn [orb] in H. apply Z.eqb_eq in H. subst c. constructor. exact IH.
Qed.
Lemma digits_dec radix dg : radix_digit radix dg -> forall p ds, digits radix p ds -> Forall (fun c => (dg c || (c =? 95)) = true) p /\ map digit_value (filter dg p) = ds.
Proof.
  intros R. induction 1 as [|c d p ds H1 H2 D [IH1 IH2]|p ds D [IH1 IH2]]; [split; [constructor|reflexivity]| |].
  - assert (E : dg c = true) by (apply R; eauto). cbn [filter]. rewrite E. cbn [map]. destruct (value_det _ _ H1) as [-> _]. split; [constructor; auto; rewrite E; reflexivity|congruence].
  - cbn [filter]. rewrite (radix_under _ _ R). split; [constructor; auto; rewrite orb_true_r; reflexivity|auto].
Qed.

(** ** numbers *)
Lemma parse_ok radix : 2 <= radix -> forall b acc, 0 <= acc -> Forall (fun c => 0 <= digit_value c) b ->
  parse_digits radix b acc = (let v := fold_left (fun a d => a * radix + d) (map digit_value b) acc in if v <=? 2 ^ 63 - 1 then Some v else None) \/ b = [].
Proof.
  intro R. induction b as [|c b IH]; intros acc Ha Hb; [auto|left]. inversion Hb as [|? ? Hc Hb']; subst. cbn [parse_digits map fold_left].
  assert (M : forall l a, 0 <= a -> Forall (fun d => 0 <= d) l -> a <= fold_left (fun a d => a * radix + d) l a).
  { clear - R. induction l as [|d l IH]; intros a Ha Hl; cbn [fold_left]; [lia|]. inversion Hl; subst. specialize (IH (a * radix + d)). nia. }
  set (v := acc * radix + digit_value c). assert (Hv : 0 <= v) by (unfold v; nia).
  destruct (Z.leb_spec v (2 ^ 63 - 1)) as [L|L].
  - destruct (IH v Hv Hb') as [E| ->]; [exact E|]. cbn [parse_digits map fold_left]. destruct (Z.leb_spec v (2 ^ 63 - 1)); [reflexivity|lia].
  - cbn zeta. assert (G := M (map digit_value b) v Hv). assert (Hm : Forall (fun d => 0 <= d) (map digit_value b)) by (clear - Hb'; induction Hb'; cbn; constructor; auto).
    specialize (G Hm). destruct (Z.leb_spec (fold_left (fun a d => a * radix + d) (map digit_value b) v) (2 ^ 63 - 1)); [lia|reflexivity].
Qed.
Lemma filter_values dg p radix : radix_digit radix dg -> Forall (fun c => 0 <= digit_value c) (filter dg p).
Proof.
  intro R. apply Forall_forall. intros c H. apply filter_In in H. destruct H as [_ H]. apply R in H. destruct H as (d & H & _). destruct (value_det _ _ H) as [-> _]. destruct H as [[? ->]|[[? ->]|[? ->]]]; lia.
Qed.
Lemma nonempty_match {A B} (l : list A) (x y : B) : l <> [] -> match l with [] => x | _ => y end = y.
Proof. destruct l; congruence. Qed.

(** what screen_int does: [b] is the digits buffer, whose number is [v]; the characters
    read so far for this literal are [pre] *)
Definition int_result (w : list Z) (empty : bool) (v : Z) (cx : bool) (s : scanner) : scanner :=
  let len := Z.of_nat (length w) in
  if empty then push_err 0 len (InvalidNumericValue true) s
  else if v <? 2 ^ 63 then push len (if cx then ComplexLiteral v else IntLiteral v) s
  else push_err 0 len (InvalidNumericValue false) s.
Lemma screen_int_ok radix b extra s w : 2 <= radix -> Forall (fun c => 0 <= digit_value c) b ->
  Z.of_nat (length w) = Z.of_nat (length b) + extra + (if radix =? 10 then 0 else 2) ->
  exists i, (i = [] /\ next_not is_i (chars s) \/ exists c r, i = [c] /\ imaginary c /\ chars s = c :: r) /\
  screen_int b radix extra s = int_result (w ++ i) (match b with [] => true | _ => false end) (number radix (map digit_value b)) (match i with [] => false | _ => true end) (eat i (skipn (length i) (chars s)) s).
Proof.
  intros R Hb Hw. unfold screen_int, peek.
  assert (P : b = [] \/ match b with [] => push_err 0 (Z.of_nat (length w)) (InvalidNumericValue true) s | _ => s end = s /\ parse_digits radix b 0 = (if number radix (map digit_value b) <? 2 ^ 63 then Some (number radix (map digit_value b)) else None)).
  { destruct b as [|c b]; [auto|right]. split; auto. destruct (parse_ok radix R (c :: b) 0 (Z.le_refl 0) Hb) as [E|]; [|discriminate]. rewrite E. cbn zeta. fold (number radix (map digit_value (c :: b))).
    destruct (Z.leb_spec (number radix (map digit_value (c :: b))) (2 ^ 63 - 1)), (Z.ltb_spec (number radix (map digit_value (c :: b))) (2 ^ 63)); auto; lia. }
  destruct (chars s) as [|c r] eqn:E.
  - exists []. split; [left; split; [reflexivity|exact I]|]. cbn [length skipn]. rewrite app_nil_r. rewrite (eat_nil_eq _ _ E). unfold int_result.
    replace (Z.of_nat (length b) + extra + 0 + (if radix =? 10 then 0 else 2)) with (Z.of_nat (length w)) by lia.
    destruct P as [->|[_ P]]; [reflexivity|]. rewrite P. destruct b; [reflexivity|]. destruct (_ <? 2 ^ 63); reflexivity.
  - destruct (is_i c) eqn:I.
    + exists [c]. split; [right; exists c, r; split; auto; split; auto; apply i_ok; auto|]. cbn [length skipn]. rewrite (skip_cons _ _ _ E). unfold int_result. rewrite app_length. cbn [length].
      replace (Z.of_nat (length b) + extra + 1 + (if radix =? 10 then 0 else 2)) with (Z.of_nat (length w + 1)) by lia.
      destruct P as [->|[_ P]]; [reflexivity|]. rewrite P. destruct b; [reflexivity|]. destruct (_ <? 2 ^ 63); reflexivity.
    + exists []. split; [left; split; [reflexivity|exact I]|]. cbn [length skipn]. rewrite app_nil_r. rewrite (eat_nil_eq _ _ E). unfold int_result.
      replace (Z.of_nat (length b) + extra + 0 + (if radix =? 10 then 0 else 2)) with (Z.of_nat (length w)) by lia.
      destruct P as [->|[_ P]]; [reflexivity|]. rewrite P. destruct b; [reflexivity|]. destruct (_ <? 2 ^ 63); reflexivity.
Qed.

(** ** words *)
Lemma text_eqb_ok a b : text_eqb a b = true <-> a = b.
Proof.
  revert b. induction a as [|x a IH]; intros [|y b]; cbn [text_eqb]; try (split; congruence). rewrite andb_true_iff, Z.eqb_eq, IH. split; [intros [-> ->]; auto|intro E; injection E; auto].
Qed.
Lemma keywords_reserved : keywords = map (fun p => (text (snd p), fst p)) reserved.
Proof. reflexivity. Qed.
Lemma find_keyword_ok w : (exists t k, In (t, k) reserved /\ text k = w /\ find_keyword keywords w = t) \/ ((forall t k, In (t, k) reserved -> text k <> w) /\ find_keyword keywords w = Identifier w).
Proof.
  rewrite keywords_reserved. induction reserved as [|[t k] l IH]; [right; split; [intros t k []|reflexivity]|]. cbn [map find_keyword fst snd].
  destruct (text_eqb (text k) w) eqn:E.
  - left. exists t, k. apply text_eqb_ok in E. split; [left; auto|]. auto.
  - destruct IH as [(t' & k' & H & H1 & H2)|[H1 H2]]; [left; exists t', k'; split; [right; auto|auto]|right; split; auto].
    intros t' k' [Q|H]; [|eauto]. injection Q as <- <-. intro Q. rewrite <- text_eqb_ok in Q. congruence.
Qed.
Lemma find_keyword_det t k : In (t, k) reserved -> find_keyword keywords (text k) = t.
Proof.
  assert (G : forallb (fun p => match find_keyword keywords (text (snd p)), fst p with a, b => true end) reserved = true) by reflexivity. clear G.
  unfold reserved. cbn [In]. intro H. repeat (destruct H as [H|H]; [injection H as <- <-; reflexivity|]). destruct H.
Qed.

(** ** strings *)
Lemma dec_cr q b s : decodes q (92 :: b) s -> decodes q (92 :: 13 :: b) s.
Proof.
  intro D. inversion D as [| |c b' s' H1 H2|crs c d b' s' F E D'|crs c b' s' F E N D']; subst; [contradiction H2; reflexivity| |].
  - apply (d_escape q (13 :: crs)); auto.
  - apply (d_other q (13 :: crs)); auto.
Qed.
Lemma escapable_ok c : escapable c <-> c = 110 \/ c = 114 \/ c = 116 \/ c = 92 \/ c = 39 \/ c = 34.
Proof.
  unfold escapable, escape. split; [intros (d & H); lia|]. intros [->|[->|[->|[->|[->| ->]]]]]; eexists; tauto.
Qed.
Lemma string_loop_eat : forall n q start (esc : bool) buf s, quote q -> (length (chars s) < n)%nat -> exists p r, chars s = p ++ r /\
  ((exists b t, p = b ++ [q] /\ decodes q (if esc then 92 :: b else b) t /\ string_loop n q start esc buf s = (buf ++ t, eat p r s)) \/
   (r = [] /\ exists t, string_loop n q start esc buf s = (t, push_err_at start 1 UnterminatedStringLiteral (eat p r s)))).
Proof.
  induction n as [|n IH]; intros q start esc buf s Hq L; [lia|]. cbn [string_loop]. destruct (chars s) as [|c r0] eqn:E.
  - rewrite (advance_nil _ E). exists [], []. split; auto. right. split; auto. exists buf. rewrite (eat_nil_eq _ _ E). reflexivity.
  - rewrite (advance_cons _ _ _ E). cbn [length] in L.
    assert (IHs : forall (esc' : bool) (buf' : list Z), exists p r, c :: r0 = (c :: p) ++ r /\
      ((exists b t, c :: p = (c :: b) ++ [q] /\ decodes q (if esc' then 92 :: b else b) t /\ string_loop n q start esc' buf' (eat [c] r0 s) = (buf' ++ t, eat (c :: p) r s)) \/
       (r = [] /\ exists t, string_loop n q start esc' buf' (eat [c] r0 s) = (t, push_err_at start 1 UnterminatedStringLiteral (eat (c :: p) r s))))).
    { intros esc' buf'. destruct (IH q start esc' buf' (eat [c] r0 s) Hq) as (p & r & E' & H); [cbn [eat chars]; lia|]. cbn [eat chars] in E'. subst r0. exists p, r. split; auto.
      destruct H as [(b & t & -> & D & H)|[-> (t & H)]]; [left; exists b, t|right; split; auto; exists t]; rewrite H, eat_eat; auto. }
    clear IH. assert (GO : forall (esc' : bool) (buf' pre : list Z), (forall b t, decodes q (if esc' then 92 :: b else b) t -> decodes q (if esc then 92 :: c :: b else c :: b) (pre ++ t)) -> buf' = buf ++ pre ->
      exists p r, c :: r0 = p ++ r /\ ((exists b t, p = b ++ [q] /\ decodes q (if esc then 92 :: b else b) t /\ string_loop n q start esc' buf' (eat [c] r0 s) = (buf ++ t, eat p r s)) \/
       (r = [] /\ exists t, string_loop n q start esc' buf' (eat [c] r0 s) = (t, push_err_at start 1 UnterminatedStringLiteral (eat p r s))))).
    { intros esc' buf' pre HD ->. destruct (IHs esc' (buf ++ pre)) as (p & r & E' & H). exists (c :: p), r. split; auto.
      destruct H as [(b & t & Ep & D & H)|H]; [left|right; exact H]. exists (c :: b), (pre ++ t). split; auto. split; [apply HD; auto|]. rewrite H, <- app_assoc. reflexivity. }
    clear IHs.
    destruct (Z.eqb_spec c 39) as [C|N1]; [|destruct (Z.eqb_spec c 34) as [C|N2]]; cbn [orb].
    1,2: destruct esc; [apply (GO false _ [c]); [|reflexivity]; intros b t D; subst c; apply (d_escape q [] _ _ b t); auto; unfold escape; tauto|];
      destruct (Z.eqb_spec q c) as [Q|Q]; cbn [negb];
      [exists [c], r0; split; auto; left; exists [], []; rewrite Q, app_nil_r; repeat split; constructor|];
      apply (GO false _ [c]); [|reflexivity]; intros b t D; apply d_char; auto; subst c; discriminate.
    destruct (Z.eqb_spec c 92) as [->|N3].
    { destruct esc; [apply (GO false _ [92]); [|reflexivity]; intros b t D; apply (d_escape q [] _ _ b t); auto; unfold escape; tauto|].
      apply (GO true _ []); [|rewrite app_nil_r; reflexivity]. intros b t D. exact D. }
    destruct (Z.eqb_spec c 13) as [->|N4].
    { apply (GO esc _ []); [|rewrite app_nil_r; reflexivity]. intros b t D. cbn [app]. destruct esc; [apply dec_cr; auto|constructor; auto]. }
    destruct esc; rewrite ?andb_true_r, ?andb_false_r.
    + destruct (Z.eqb_spec c 110) as [->|N5]; [apply (GO false _ [10]); [|reflexivity]; intros b t D; apply (d_escape q [] _ _ b t); auto; unfold escape; tauto|].
      destruct (Z.eqb_spec c 114) as [->|N6]; [apply (GO false _ [13]); [|reflexivity]; intros b t D; apply (d_escape q [] _ _ b t); auto; unfold escape; tauto|].
      destruct (Z.eqb_spec c 116) as [->|N7]; [apply (GO false _ [9]); [|reflexivity]; intros b t D; apply (d_escape q [] _ _ b t); auto; unfold escape; tauto|].
      apply (GO false _ [92; c]); [|rewrite <- app_assoc; reflexivity]. intros b t D. apply (d_other q [] _ b t); auto. rewrite escapable_ok. tauto.
    + apply (GO false _ [c]); [|reflexivity]. intros b t D. apply d_char; auto. destruct Hq as [->| ->]; auto.
Qed.

(** ** comments *)
Lemma line_comment_eat : forall n s, (length (chars s) < n)%nat -> exists p r, chars s = p ++ r /\ line_comment n s = eat p r s /\
  ((exists b, p = b ++ [10] /\ ~ In 10 b) \/ (r = [] /\ ~ In 10 p)).
Proof.
  induction n as [|n IH]; intros s L; [lia|]. cbn [line_comment]. destruct (chars s) as [|c r0] eqn:E.
  - rewrite (advance_nil _ E). exists [], []. split; auto. split; [symmetry; apply eat_nil_eq; auto|]. right. split; auto.
  - rewrite (advance_cons _ _ _ E). cbn [length] in L. destruct (Z.eqb_spec c 10) as [->|N].
    + exists [10], r0. split; auto. split; auto. left. exists []. split; auto.
    + destruct (IH (eat [c] r0 s)) as (p & r & E' & H & K); [cbn [eat chars]; lia|]. cbn [eat chars] in E'. subst r0. exists (c :: p), r. split; auto. rewrite H, eat_eat. split; auto.
      destruct K as [(b & -> & Hb)|[-> Hp]]; [left; exists (c :: b)|right]; (split; [reflexivity|]); intros [|]; auto.
Qed.
Lemma block_comment_eat : forall n start s, (length (chars s) < n)%nat -> exists p r, chars s = p ++ r /\
  ((exists b, p = b ++ [42; 47] /\ comment_body b /\ block_comment n start s = eat p r s) \/
   (r = [] /\ block_comment n start s = push_err_at start 2 UnterminatedBlockComment (eat p r s))).
Proof.
  induction n as [|n IH]; intros start s L; [lia|]. cbn [block_comment]. destruct (chars s) as [|c r0] eqn:E.
  - rewrite (advance_nil _ E). exists [], []. split; auto. right. split; auto. rewrite (eat_nil_eq _ _ E). reflexivity.
  - rewrite (advance_cons _ _ _ E). cbn [length] in L. destruct (Z.eqb_spec c 42) as [->|N].
    + destruct r0 as [|d r1].
      * rewrite advance_nil by reflexivity. exists [42], []. split; auto.
      * rewrite (advance_cons _ d r1) by reflexivity. rewrite eat_eat. cbn [app length] in *. destruct (Z.eqb_spec d 47) as [->|N].
        -- exists [42; 47], r1. split; auto. left. exists []. repeat split; auto. constructor.
        -- destruct (IH start (eat [42; d] r1 s)) as (p & r & E' & H); [cbn [eat chars]; lia|]. cbn [eat chars] in E'. subst r1. exists (42 :: d :: p), r. split; auto.
           destruct H as [(b & -> & B & H)|[-> H]]; [left|right; split; auto]; [exists (42 :: d :: b); split; auto; split; [constructor; auto|]|]; rewrite H, eat_eat; reflexivity.
    + destruct (IH start (eat [c] r0 s)) as (p & r & E' & H); [cbn [eat chars]; lia|]. cbn [eat chars] in E'. subst r0. exists (c :: p), r. split; auto.
      destruct H as [(b & -> & B & H)|[-> H]]; [left|right; split; auto]; [exists (c :: b); split; auto; split; [constructor; auto|]|]; rewrite H, eat_eat; reflexivity.
Qed.
