(** C69: the scanner on the texts that repr writes. *)
From Coq Require Import String Lia.
From Verif Require Import Base Scan ScanSpec ScanProofs ScanProofs2 ScanProofs3.
From Verif Require Str StrSpec StrProofs Repr.
Local Open Scope Z_scope.

Definition lexes (w q : list Z) (ts : list token) : Prop := forall s n, chars s = w ++ q -> (length (w ++ q) < n)%nat ->
  exists s' m, (length q < m)%nat /\ scan_loop n s = scan_loop m s' /\ chars s' = q /\ map snd (tokens s') = map snd (tokens s) ++ ts /\ errors s' = errors s.
Lemma lexes_nil q : lexes [] q [].
Proof. intros s n C L. exists s, n. rewrite app_nil_r. auto. Qed.
Lemma lexes_app w1 w2 q t1 t2 : lexes w1 (w2 ++ q) t1 -> lexes w2 q t2 -> lexes (w1 ++ w2) q (t1 ++ t2).
Proof.
  intros A B s n C L. rewrite <- app_assoc in C, L. destruct (A s n C L) as (s1 & m1 & L1 & E1 & C1 & T1 & R1). destruct (B s1 m1 C1 L1) as (s2 & m2 & L2 & E2 & C2 & T2 & R2).
  exists s2, m2. split; [exact L2|]. rewrite E1. split; [exact E2|]. split; [exact C2|]. rewrite T2, T1, app_assoc. split; congruence.
Qed.
(** one token *)
Lemma lexes_step c r q ts : ~ In 10 (c :: r) ->
  (forall s, chars s = (c :: r) ++ q -> scan_char c (eat [c] (r ++ q) s) = match ts with [] => eat (c :: r) q s | t :: _ => push (Z.of_nat (length (c :: r))) t (eat (c :: r) q s) end) ->
  (length ts <= 1)%nat -> lexes (c :: r) q ts.
Proof.
  intros N H LT s n C L. destruct n as [|n]; [lia|]. cbn [scan_loop app]. rewrite (advance_cons s c (r ++ q) C). rewrite (H s C).
  eexists. exists n. cbn [length app] in L. rewrite app_length in L. split; [|split; [reflexivity|]]; [lia|].
  assert (NB : line_breaks (cursor s) (c :: r) = []) by (apply no_breaks; exact N).
  destruct ts as [|t [|]]; [| |cbn in LT; lia].
  - unfold eat. cbn [chars tokens errors]. rewrite NB, !app_nil_r. auto.
  - unfold push, eat. cbn [chars tokens errors]. rewrite NB, app_nil_r, map_app. auto.
Qed.
Lemma lexes_space q : lexes [32] q [].
Proof. apply lexes_step; [intros [Q|[]]; lia| |cbn; lia]. intros s C. reflexivity. Qed.
Definition punct : list (Z * token) :=
  [(40, OpenParen); (41, CloseParen); (91, OpenSquareBracket); (93, CloseSquareBracket); (123, OpenBrace); (125, CloseBrace); (44, Comma); (58, Colon)].
Lemma lexes_punct c t q : In (c, t) punct -> lexes [c] q [t].
Proof.
  intro I. apply lexes_step; [intros [Q|[]]; subst; cbn in I; intuition congruence| |cbn; lia]. intros s C.
  cbn [In punct] in I. repeat (destruct I as [I|I]; [injection I as <- <-; reflexivity|]). destruct I.
Qed.
Lemma lexes_plus q : lexes [43] (32 :: q) [Plus].
Proof. apply lexes_step; [intros [Q|[]]; lia| |cbn; lia]. intros s C. reflexivity. Qed.
Lemma lexes_minus q : next_not (fun c => (c =? 61) || (c =? 62)) q -> q <> [] -> lexes [45] q [Minus].
Proof.
  intros NX NE. apply lexes_step; [intros [Q|[]]; lia| |cbn; lia]. intros s C. destruct q as [|d q]; [congruence|]. cbn [next_not] in NX. apply orb_false_iff in NX. destruct NX as [N1 N2].
  change (scan_char 45 (eat [45] ([] ++ d :: q) s)) with (if peek_is 61 (eat [45] (d :: q) s) then push_skip 2 MinusEquals (eat [45] (d :: q) s) else if peek_is 62 (eat [45] (d :: q) s) then push_skip 2 Arrow (eat [45] (d :: q) s) else push 1 Minus (eat [45] (d :: q) s)).
  rewrite !peek_is_eat, N1, N2. reflexivity.
Qed.
Lemma split_unique (P : Z -> bool) : forall p q p' q', p ++ q = p' ++ q' -> Forall (fun c => P c = true) p -> Forall (fun c => P c = true) p' -> next_not P q -> next_not P q' -> p = p' /\ q = q'.
Proof.
  induction p as [|c p IH]; intros q p' q' E F F' N N'; destruct p' as [|c' p']; cbn [app] in *.
  - auto.
  - subst q. inversion F'; subst. cbn [next_not] in N. congruence.
  - subst q'. inversion F; subst. cbn [next_not] in N'. congruence.
  - injection E as <- E. inversion F; inversion F'; subst. destruct (IH _ _ _ E) as [-> ->]; auto.
Qed.
(** words *)
Lemma lexes_word w q : word w -> next_not is_word q -> lexes w q [find_keyword keywords w].
Proof.
  intros (c & r & -> & L & F) NX.
  assert (FW : Forall (fun c => is_word c = true) r) by (eapply Forall_impl; [|exact F]; cbn; intros a Ha; apply word_ok; exact Ha).
  apply lexes_step; [| |cbn; lia].
  - intros [Q|Q]; [subst; unfold letter in L; lia|]. rewrite Forall_forall in F. specialize (F _ Q). unfold word_char, letter in F. lia.
  - intros s C. apply letter_ok in L. unfold scan_char. rewrite (letter_not_space _ L), L.
    destruct (word_loop_eat (S (length (chars (eat [c] (r ++ q) s)))) [c] (eat [c] (r ++ q) s)) as (p' & q' & E & F' & NX' & ->); [lia|]. cbn [eat chars] in E.
    destruct (split_unique is_word _ _ _ _ E FW F' NX NX') as [<- <-]. fold (eat [c] (r ++ q) s). rewrite eat_eat. reflexivity.
Qed.
(** strings *)
Lemma decodes_nonl b t : decodes 39 b t -> ~ In 10 b -> forall q, lexes (39 :: b ++ [39]) q [StringLiteral t].
Proof.
  intros D N q. apply lexes_step; [intros [Q|Q]; [lia|]; apply in_app_or in Q; destruct Q as [Q|[Q|[]]]; [auto|lia]| |cbn; lia].
  intros s C. rewrite (quote_char 39 _ (or_introl eq_refl)). cbn zeta.
  rewrite (string_decodes 39 _ (or_introl eq_refl) b t D _ [] _ q) by (cbn [eat chars]; rewrite ?app_length, <- ?app_assoc; cbn [length app]; try reflexivity; lia).
  cbn [app]. rewrite eat_eat. unfold push, eat. cbn [chars cursor tokens errors]. cbn [length]. rewrite app_length. cbn [length app]. rewrite app_length. cbn [length].
  do 3 f_equal; try lia. repeat (f_equal; try lia).
Qed.
(** decimal numbers *)
Lemma dec_digits n : 0 <= n -> exists ds, Str.digits 10 n = map (fun d => 48 + d) ds /\ Forall (fun d => 0 <= d < 10) ds /\ number 10 ds = n /\ (ds = [0] \/ exists d r, ds = d :: r /\ d <> 0).
Proof.
  intro Hn. destruct (StrProofs.digits_numeral 10 n ltac:(lia) Hn) as (ds & F2 & Lt & Num & Hd). exists ds.
  assert (G : forall s ds, Forall2 StrSpec.digit_of s ds -> Forall (fun d => d < 10) ds -> s = map (fun d => 48 + d) ds /\ Forall (fun d => 0 <= d < 10) ds).
  { clear. induction 1 as [|c d s ds H F IH]; intro L; [split; [reflexivity|constructor]|]. inversion L; subst. destruct (IH H3) as [E F']. unfold StrSpec.digit_of in H. split; [cbn [map]; rewrite <- E; f_equal; lia|constructor; [lia|exact F']]. }
  destruct (G _ _ F2 Lt) as [E F]. auto.
Qed.
Lemma digits_values ds : Forall (fun d => 0 <= d < 10) ds -> map digit_value (map (fun d => 48 + d) ds) = ds /\ Forall (fun c => 48 <= c <= 57) (map (fun d => 48 + d) ds).
Proof.
  induction 1 as [|d ds H F [IH1 IH2]]; [split; [reflexivity|constructor]|]. cbn [map]. split; [|constructor; [lia|exact IH2]]. rewrite IH1. f_equal. unfold digit_value, is_digit, in_range.
  replace (48 <=? 48 + d) with true by lia. replace (48 + d <=? 57) with true by lia. cbn [andb]. lia.
Qed.
Lemma lexes_number n i q : 0 <= n < 2 ^ 63 -> (i = [] /\ next_not is_word q) \/ (i = [105] /\ n <> 0) -> lexes (Str.digits 10 n ++ i) q [if match i with [] => true | _ => false end then IntLiteral n else ComplexLiteral n].
Proof.
  intros [N0 N1] HI. destruct (dec_digits n N0) as (ds & E & F & Num & Hd). rewrite E. destruct (digits_values ds F) as [V R].
  destruct Hd as [->|(d & r & -> & D0)].
  - cbn [number fold_left] in Num. cbn in Num. subst n. destruct HI as [[-> NX]|[_ Q]]; [|congruence]. cbn [map app]. change (48 + 0) with 48. apply lexes_step; [intros [Q|[]]; lia| |cbn; lia].
    intros s C. cbn [length app]. destruct q as [|d q].
    + unfold scan_char. cbn [Z.eqb Pos.eqb orb]. change (is_letter 48) with false. cbn [peek eat chars]. cbn iota. rewrite skip_nil by reflexivity. reflexivity.
    + cbn [next_not] in NX. unfold scan_char. cbn [Z.eqb Pos.eqb orb]. change (is_letter 48) with false. cbn [peek eat chars]. cbn iota.
      assert (W : is_word d = false) by exact NX. unfold is_word, is_letter, in_range, is_digit in W.
      replace (d =? 120) with false by (destruct (Z.eqb_spec d 120); [subst; discriminate|reflexivity]).
      replace (d =? 98) with false by (destruct (Z.eqb_spec d 98); [subst; discriminate|reflexivity]).
      replace (is_i d) with false by (unfold is_i; destruct (Z.eqb_spec d 105); [subst; discriminate|]; destruct (Z.eqb_spec d 106); [subst; discriminate|reflexivity]).
      rewrite NX. reflexivity.
  - inversion F as [|? ? Hd Fr]; subst. cbn [map] in *. pose proof (Forall_inv R) as Rc. pose proof (Forall_inv_tail R) as Rr. clear R. set (c := 48 + d) in *. set (w := map (fun d => 48 + d) r) in *.
    cbn [app]. apply lexes_step; [| |cbn; lia].
    { intros [Q|Q]; [lia|]. apply in_app_or in Q. destruct Q as [Q|Q]; [rewrite Forall_forall in Rr; specialize (Rr _ Q); lia|]. destruct HI as [[-> _]|[-> _]]; cbn in Q; intuition lia. }
    intros s C. unfold scan_char. replace (c =? 32) with false by lia. replace (c =? 9) with false by lia. replace (c =? 13) with false by lia. replace (c =? 10) with false by lia. cbn [orb].
    replace (is_letter c) with false by (unfold is_letter, in_range; lia). replace (c =? 48) with false by lia. replace (in_range 49 57 c) with true by (unfold in_range; lia).
    destruct (digit_loop_eat is_digit eq_refl (S (length (chars (eat [c] ((w ++ i) ++ q) s)))) [c] 0 (eat [c] ((w ++ i) ++ q) s)) as (p' & q' & E' & F' & NX' & ->); [lia|]. cbn [eat chars] in E'. fold (eat [c] ((w ++ i) ++ q) s).
    assert (FW : Forall (fun c => is_digit c || (c =? 95) = true) w) by (eapply Forall_impl; [|exact Rr]; cbn; intros a Ha; unfold is_digit, in_range; replace (48 <=? a) with true by lia; replace (a <=? 57) with true by lia; reflexivity).
    assert (NW : next_not (fun c => is_digit c || (c =? 95)) (i ++ q)).
    { destruct HI as [[-> NX]|[-> _]]; [|reflexivity]. cbn [app]. destruct q as [|x q]; [exact I|]. cbn [next_not] in *. unfold is_word in NX. destruct (is_letter x), (is_digit x), (x =? 95); try discriminate; reflexivity. }
    rewrite <- app_assoc in E'. destruct (split_unique _ _ _ _ _ E' FW F' NW NX') as [<- <-]. rewrite eat_eat.
    assert (FL : filter is_digit w = w). { clearbody w. clear - Rr. induction Rr as [|a l Ha Rr IH]; [reflexivity|]. cbn [filter]. replace (is_digit a) with true by (unfold is_digit, in_range; lia). congruence. }
    rewrite FL. replace (0 + Z.of_nat (length w) - Z.of_nat (length w)) with 0 by lia.
    destruct (screen_int_ok 10 ([c] ++ w) 0 (eat ([c] ++ w) (i ++ q) s) ([c] ++ w)) as (i' & I' & ->); [lia| |cbn [Z.eqb Pos.eqb]; lia|].
    { cbn [app]. change (c :: w) with (map (fun d => 48 + d) (d :: r)). rewrite <- Forall_map with (f := digit_value) (P := fun x => 0 <= x). unfold w, c in *. cbn [map] in V |- *. rewrite V. eapply Forall_impl; [|exact F]; cbn; intros; lia. }
    assert (I2 : i' = i).
    { cbn [eat chars] in I'. destruct HI as [[-> NX]|[-> _]].
      - destruct I' as [[-> _]|(x & y & -> & Im & Q)]; [reflexivity|]. cbn [app] in Q. subst q. cbn [next_not] in NX. destruct Im as [->| ->]; discriminate.
      - destruct I' as [[-> Q]|(x & y & -> & Im & Q)]; [discriminate Q|]. injection Q as <- _. reflexivity. }
    subst i'. cbn [eat chars]. fold (eat ([c] ++ w) (i ++ q) s). rewrite eat_eat. unfold int_result. cbn [app map]. rewrite V. replace (number 10 (d :: r) <? 2 ^ 63) with true by lia.
    rewrite skipn_app, skipn_all, Nat.sub_diag. cbn [skipn app]. destruct i; reflexivity.
Qed.
