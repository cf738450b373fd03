From Verif Require Import Base Native Scan ScanSpec ScanProofs ScanProofs2 ScanProofs3 Syntax SyntaxSpec P_Scan.
From Coq Require Import String List.
Local Open Scope Z_scope.

(** ** the tokens lie in the text, in order *)
Inductive toks_ok : Z -> list Z -> list (location * token) -> Prop :=
| tk_nil i t : toks_ok i t []
| tk_cons i a w t start tok toks :
    start = i + Z.of_nat (length a) -> w <> [] -> starts_plain w ->
    (exists w' c, w = w' ++ [c] /\ ~ space_char c) \/ t = [] /\ toks = [] ->
    toks_ok (start + Z.of_nat (length w)) t toks ->
    toks_ok i (a ++ w ++ t) (((start, Z.of_nat (length w)), tok) :: toks).
Lemma toks_ok_front p : forall i t toks, toks_ok (i + Z.of_nat (length p)) t toks -> toks_ok i (p ++ t) toks.
Proof.
  intros i t toks H. inversion H as [|j a w t' start tok toks' E1 E2 E3 E4 E5]; subst; [constructor|].
  rewrite app_assoc. constructor; auto. rewrite app_length. lia.
Qed.
Lemma space_is c : is_space c = true <-> space_char c.
Proof. unfold is_space, space_char. rewrite !orb_true_iff, !Z.eqb_eq. tauto. Qed.
Lemma not_space c : is_space c = false <-> ~ space_char c.
Proof. rewrite <- space_is. destruct (is_space c); split; congruence. Qed.
Lemma plain_dec w : (match w with [] => true | c :: _ => negb (is_space c) end) = true -> starts_plain w.
Proof. destruct w; cbn; auto. rewrite negb_true_iff. apply not_space. Qed.

Lemma digit_plain c d : digit c d -> ~ space_char c.
Proof. unfold digit, space_char. lia. Qed.
Lemma word_plain c : word_char c -> ~ space_char c.
Proof. unfold word_char, letter, space_char. lia. Qed.
Lemma digits_plain radix w ds : digits radix w ds -> Forall (fun c => ~ space_char c) w.
Proof. induction 1; constructor; auto; [eapply digit_plain; eauto|unfold space_char; lia]. Qed.
Lemma numeral_plain w v : numeral w v -> Forall (fun c => ~ space_char c) w.
Proof.
  destruct 1 as [|c d w ds H _ D|w ds D _|w ds D _]; repeat constructor; try (unfold space_char; lia); try (eapply digit_plain; eauto); eapply digits_plain; eauto.
Qed.
Lemma plain_ends w : w <> [] -> Forall (fun c => ~ space_char c) w -> starts_plain w /\ exists w' c, w = w' ++ [c] /\ ~ space_char c.
Proof.
  intros N F. split; [destruct w; [contradiction|inversion F; auto]|]. destruct (exists_last N) as (w' & c & ->). exists w', c. split; auto.
  apply Forall_app in F. destruct F as [_ F]. inversion F; auto.
Qed.
Lemma spelled_ends t w : spelled t w -> starts_plain w /\ exists w' c, w = w' ++ [c] /\ ~ space_char c.
Proof.
  intro H. assert (N := spelled_nonempty _ _ H). destruct H as [t w H|t w H|w H _|w v H _|c H|w v c H _ _ Hc|q b s H D].
  - assert (F : forallb (fun x => match text (snd x) with [] => false | w => forallb (fun c => negb (is_space c)) w end) symbols = true) by reflexivity.
    rewrite forallb_forall in F. specialize (F _ H). cbn [snd] in F. apply plain_ends; auto. destruct (text w); [constructor|]. rewrite forallb_forall in F.
    apply Forall_forall. intros x I. apply not_space. apply F in I. now apply negb_true_iff.
  - assert (F : forallb (fun x => match text (snd x) with [] => false | w => forallb (fun c => negb (is_space c)) w end) reserved = true) by reflexivity.
    rewrite forallb_forall in F. specialize (F _ H). cbn [snd] in F. apply plain_ends; auto. destruct (text w); [constructor|]. rewrite forallb_forall in F.
    apply Forall_forall. intros x I. apply not_space. apply F in I. now apply negb_true_iff.
  - apply plain_ends; auto. destruct H as (c & r & -> & L & F). constructor; [apply word_plain; left; auto|]. eapply Forall_impl; [|exact F]. apply word_plain.
  - apply plain_ends; auto. eapply numeral_plain; eauto.
  - apply plain_ends; auto. unfold imaginary in H. repeat constructor; unfold space_char; lia.
  - apply plain_ends; auto. apply Forall_app. split; [eapply numeral_plain; eauto|]. unfold imaginary in Hc. repeat constructor; unfold space_char; lia.
  - unfold quote in H. split; [cbn; unfold space_char; lia|]. exists (q :: b), q. split; auto. unfold space_char; lia.
Qed.
Definition extra_ok (i : Z) (ps : list piece) (extra : list (location * token)) : Prop :=
  extra = [] \/ exists ps0 w str, ps = ps0 ++ [PBad UnterminatedStringLiteral w] /\ extra = [((i + Z.of_nat (length (concat (map piece_text ps0))), Z.of_nat (length w)), StringLiteral str)].
Lemma placed_ok : forall ps i extra, pieces_ok ps -> extra_ok i ps extra -> toks_ok i (concat (map piece_text ps)) (placed i ps ++ extra).
Proof.
  induction ps as [|p ps IH]; intros i extra P X.
  - destruct X as [->|(ps0 & w & str & E & _)]; [constructor|destruct ps0; discriminate].
  - destruct P as [P1 P2]. cbn [map concat placed].
    assert (X' : extra_ok (i + Z.of_nat (length (piece_text p))) ps extra \/ exists w str, p = PBad UnterminatedStringLiteral w /\ ps = [] /\ extra = [((i, Z.of_nat (length w)), StringLiteral str)]).
    { destruct X as [->|(ps0 & w & str & E & ->)]; [left; left; auto|]. destruct ps0 as [|p0 ps0]; injection E as -> E.
      - right. exists w, str. split; auto. split; auto. cbn. rewrite Z.add_0_r. reflexivity.
      - left. right. exists ps0, w, str. split; auto. cbn [map concat]. rewrite app_length. do 3 f_equal. lia. }
    destruct X' as [X'|(w & str & -> & -> & ->)].
    + specialize (IH _ _ P2 X'). destruct p as [t w| | | |]; cbn [app]; try (apply toks_ok_front; exact IH).
      rewrite <- (app_nil_l (piece_text _ ++ _)). cbn [piece_text]. inversion P1; subst. match goal with H : spelled _ _ |- _ => rename H into S0 end.
      destruct (spelled_ends _ _ S0) as [E1 E2]. constructor; auto; [cbn; lia|eapply spelled_nonempty; eauto].
    + cbn [map concat piece_text app]. rewrite <- (app_nil_l (w ++ [])). inversion P1; subst.
      apply (tk_cons i [] _ []); [cbn; lia|discriminate| |auto|constructor]. unfold quote in *. cbn; unfold space_char; lia.
Qed.
Lemma scan_toks t : exists s, scan t = Some s /\ toks_ok 0 t (significant (tokens s)).
Proof.
  destruct (C48_segmentation t) as (s & ps & extra & E & C & P & T & X & _). exists s. split; auto. rewrite T, <- C. apply placed_ok; auto.
  destruct X as [->|[(ps0 & w & str & -> & ->) _]]; [left; auto|right]. exists ps0, w, str. split; auto.
Qed.

(** ** the loop *)
Lemma loop_significant find : forall toks cs i, tokens_loop find toks cs i = tokens_loop find (significant toks) cs i.
Proof.
  unfold significant. induction toks as [|[[s w] t] r IH]; intros cs i; [reflexivity|]. simpl filter. match goal with |- context [is_newline ?x] => destruct (is_newline x) eqn:N end; cbn [negb tokens_loop].
  - unfold is_newline in N. destruct t; try discriminate. cbn [ty snd]. destruct (s + w - 1 <? i); apply IH.
  - destruct (s + w - 1 <? i); [apply IH|]. destruct (ty find t); try apply IH; destruct (spaces cs) as [sp q]; destruct (take _ q) as [[c q']|]; auto; destruct (take _ q') as [[x q'']|]; auto; rewrite IH; reflexivity.
Qed.
Lemma spaces_split cs : exists sp q, spaces cs = (sp, q) /\ cs = sp ++ q /\ Forall space_char sp /\ starts_plain q.
Proof.
  induction cs as [|c r IH]; cbn [spaces]; [exists [], []; cbn; auto|]. destruct (is_space c) eqn:B.
  - destruct IH as (sp & q & E & -> & F & P). rewrite E. exists (c :: sp), q. split; auto. split; auto. split; auto. constructor; auto. apply space_is. exact B.
  - exists [], (c :: r). split; auto. split; auto. split; auto. apply not_space in B. exact B.
Qed.
Lemma take_app : forall a q n, n = length a -> take n (a ++ q) = Some (a, q).
Proof. induction a as [|c a IH]; intros q n ->; [destruct q; reflexivity|]. cbn [take length app]. rewrite IH; auto. Qed.
Lemma take_some n cs : (n <= length cs)%nat -> exists a q, take n cs = Some (a, q) /\ cs = a ++ q /\ length a = n.
Proof.
  intro L. exists (firstn n cs), (skipn n cs). rewrite <- (firstn_skipn n cs) at 1. split; [apply take_app; rewrite firstn_length; lia|].
  split; [symmetry; apply firstn_skipn|rewrite firstn_length; lia].
Qed.

(** what is pushed *)
Definition pushed (es : list event) : list Z := flat_map (fun e => match e with Push c => [c] | _ => [] end) es.
Lemma pushed_push w : pushed (map Push w) = w.
Proof. unfold pushed. induction w; cbn; congruence. Qed.
Lemma pushed_app a b : pushed (a ++ b) = pushed a ++ pushed b.
Proof. apply flat_map_app. Qed.
Lemma pushed_commented c : pushed (commented c) = c.
Proof. destruct c as [|x c]; [reflexivity|]. unfold commented. change (Begin TComment :: map Push (x :: c) ++ [End TComment]) with ([Begin TComment] ++ map Push (x :: c) ++ [End TComment]). rewrite !pushed_app, pushed_push. cbn. now rewrite app_nil_r. Qed.
Lemma proper_push w es : proper es -> proper (map Push w ++ es).
Proof. induction w; cbn; auto. intro H. constructor. auto. Qed.
Lemma proper_commented c es : proper es -> proper (commented c ++ es).
Proof. destruct c as [|x c]; auto. intro H. unfold commented. cbn [app]. rewrite <- app_assoc. exact (pr_section TComment (x :: c) es H). Qed.
Definition fits (n : Z) (toks : list (location * token)) : Prop := Forall (fun x => 0 <= snd (fst x) /\ fst (fst x) + snd (fst x) <= n) toks.
Lemma loop_total find : forall toks cs i n, fits n toks -> n <= i + Z.of_nat (length cs) ->
  exists es, tokens_loop find toks cs i = Some es /\ pushed es = cs /\ proper es.
Proof.
  induction toks as [|[[s w] t] r IH]; intros cs i n F L; cbn [tokens_loop]; destruct (spaces_split cs) as (sp & q & E & -> & Fs & P).
  - rewrite E. eexists. split; [reflexivity|]. rewrite pushed_app, pushed_push, pushed_commented. split; auto.
    rewrite <- (app_nil_r (commented q)). apply proper_push, proper_commented. constructor.
  - inversion F as [|x l F1 F2]; subst. cbn [fst snd] in F1. destruct (s + w - 1 <? i); [apply (IH _ _ n); auto|].
    assert (G : forall y, exists es, (let '(sp, cs) := spaces (sp ++ q) in let index := i + Z.of_nat (length sp) in
       match take (Z.to_nat (s - index)) cs with None => None | Some (c, cs) => let index := index + Z.of_nat (length c) in
        match take (Z.to_nat (s + w - index)) cs with None => None | Some (w, cs) =>
          match tokens_loop find r cs (index + Z.of_nat (length w)) with None => None | Some es => Some (map Push sp ++ commented c ++ Begin y :: map Push w ++ End y :: es) end end end) = Some es /\ pushed es = sp ++ q /\ proper es).
    { intro y. rewrite E. cbn zeta. rewrite app_length in L.
      destruct (take_some (Z.to_nat (s - (i + Z.of_nat (length sp)))) q) as (a & q' & -> & -> & La); [lia|]. rewrite app_length in L.
      destruct (take_some (Z.to_nat (s + w - (i + Z.of_nat (length sp) + Z.of_nat (length a)))) q') as (b & q'' & -> & -> & Lb); [lia|]. rewrite app_length in L.
      destruct (IH q'' (i + Z.of_nat (length sp) + Z.of_nat (length a) + Z.of_nat (length b)) n F2) as (es & -> & Pe & Pr); [lia|].
      eexists. split; [reflexivity|]. rewrite !pushed_app, pushed_push, pushed_commented.
      change (Begin y :: map Push b ++ End y :: es) with ([Begin y] ++ map Push b ++ [End y] ++ es). rewrite !pushed_app, pushed_push, Pe. split; [reflexivity|].
      apply proper_push, proper_commented. constructor. exact Pr. }
    destruct (ty find t); try apply G. apply (IH _ _ n); auto.
Qed.
Lemma toks_fit i t toks : toks_ok i t toks -> fits (i + Z.of_nat (length t)) toks.
Proof.
  induction 1 as [|i a w t start tok toks E1 E2 E3 E4 E5 IH]; constructor.
  - cbn [fst snd]. rewrite !app_length. lia.
  - rewrite !app_length. eapply Forall_impl; [|exact IH]. cbn beta. intros x Hx. lia.
Qed.
Lemma byte_len_ge p : Z.of_nat (length p) <= byte_len p.
Proof. unfold byte_len. induction p as [|c p IH]; cbn [fold_right length]; [lia|]. destruct (c <? 128), (c <? 2048), (c <? 65536); lia. Qed.
Lemma byte_len_ascii p : ascii p -> byte_len p = Z.of_nat (length p).
Proof. unfold byte_len. induction 1 as [|c p H F IH]; cbn [fold_right length]; [reflexivity|]. destruct (Z.ltb_spec c 128); lia. Qed.
Lemma highlight_total find input prefix : exists es, highlight find input prefix = Some es /\ pushed es = input /\ proper es.
Proof.
  unfold highlight. destruct (scan_toks (prefix ++ input)) as (s & -> & T). rewrite loop_significant. apply toks_fit in T.
  eapply loop_total; [exact T|]. rewrite app_length. assert (B := byte_len_ge prefix). lia.
Qed.

(** ** the colours *)
Lemma colours_push o w es : colours o (map Push w ++ es) = as_ o w ++ colours o es.
Proof. unfold as_. induction w; cbn; congruence. Qed.
Lemma colours_commented c es : colours None (commented c ++ es) = as_ (Some TComment) c ++ colours None es.
Proof. destruct c as [|x c]; [reflexivity|]. unfold commented. cbn [app]. rewrite <- app_assoc. cbn [colours app map as_]. rewrite (colours_push _ c). reflexivity. Qed.
Fixpoint paint (t : list Z) : shown :=
  match t with [] => [] | c :: r => if is_space c then (c, None) :: paint r else as_ (Some TComment) t end.
Lemma paint_plain c : starts_plain c -> paint c = as_ (Some TComment) c.
Proof. destruct c; cbn; auto. intro H. apply not_space in H. rewrite H. reflexivity. Qed.
Lemma paint_front sp c : Forall space_char sp -> paint (sp ++ c) = as_ None sp ++ paint c.
Proof. induction 1 as [|x sp H F IH]; cbn; auto. apply space_is in H. rewrite H, IH. reflexivity. Qed.
Lemma paint_ok t g : gap_shown t g <-> g = paint t.
Proof.
  split.
  - intros [sp c F P]. rewrite paint_front, paint_plain; auto.
  - intros ->. destruct (spaces_split t) as (sp & q & _ & -> & F & P). rewrite paint_front, paint_plain by auto. constructor; auto.
Qed.
Lemma paint_length t : length (paint t) = length t.
Proof. induction t as [|c t IH]; cbn; auto. destruct (is_space c); cbn [length]; [congruence|]. unfold as_. rewrite map_length. reflexivity. Qed.
Lemma as_length o w : length (as_ o w) = length w.
Proof. apply map_length. Qed.
Lemma skipn_len {A} (a b : list A) n : n = length a -> skipn n (a ++ b) = b.
Proof. intros ->. rewrite skipn_app, Nat.sub_diag, skipn_all. reflexivity. Qed.
Lemma paint_skip : forall u q, starts_plain q -> skipn (length u) (paint (u ++ q)) = as_ (Some TComment) q.
Proof.
  induction u as [|c u IH]; intros q P; cbn [app length]; [apply paint_plain; auto|]. cbn [paint]. destruct (is_space c); [cbn [skipn]; auto|].
  unfold as_. cbn [map skipn]. rewrite map_app. apply skipn_len. symmetry. apply map_length.
Qed.
Lemma space_front : forall sp q a r, sp ++ q = a ++ r -> Forall space_char sp -> starts_plain r -> r <> [] -> exists a', a = sp ++ a' /\ q = a' ++ r.
Proof.
  induction sp as [|c sp IH]; intros q a r E F P N; cbn [app] in E; [exists a; auto|]. inversion F; subst. destruct a as [|x a]; cbn [app] in E.
  - subst r. contradiction.
  - injection E as -> E. destruct (IH q a r E) as (a' & -> & ->); auto. exists a'. auto.
Qed.
Lemma split_at {A} : forall (a b c d : list A), a ++ b = c ++ d -> length a = length c -> a = c /\ b = d.
Proof. induction a as [|x a IH]; intros b [|y c] d E L; cbn in *; try discriminate; auto. injection E as -> E. destruct (IH _ _ _ E) as [-> ->]; auto. Qed.
Lemma split_le {A} : forall (a b c d : list A), a ++ b = c ++ d -> (length a <= length c)%nat -> exists e, c = a ++ e /\ b = e ++ d.
Proof. induction a as [|x a IH]; intros b c d E L; cbn in *; [eauto|]. destruct c as [|y c]; cbn in *; [lia|]. injection E as -> E. destruct (IH _ _ _ E) as (e & -> & ->); [lia|]. eauto. Qed.
(** the shown text, computed together with the tokens being in order *)
Lemma painted_cons find i t start width tok toks g : toks_ok i t (((start, width), tok) :: toks) -> painted find i t (((start, width), tok) :: toks) g ->
  exists a w t' g', t = a ++ w ++ t' /\ start = i + Z.of_nat (length a) /\ width = Z.of_nat (length w) /\ w <> [] /\ starts_plain w /\
    ((exists w' c, w = w' ++ [c] /\ ~ space_char c) \/ t' = [] /\ toks = []) /\ toks_ok (start + width) t' toks /\ painted find (start + width) t' toks g' /\
    g = paint a ++ as_ (Some (ty find tok)) w ++ g'.
Proof.
  intros T P. inversion P as [|j a w t' s0 tok0 toks' g0 g1 E G P']; subst. apply paint_ok in G. subst g0.
  inversion T as [|j a2 w2 t2 s2 tok2 toks2 E1 E2 E3 E4 E5]; subst.
  match goal with H : a2 ++ w2 ++ t2 = a ++ w ++ t' |- _ => rename H into Q end.
  apply split_at in Q; [|lia]. destruct Q as [-> Q]. apply split_at in Q; [|lia]. destruct Q as [-> ->].
  exists a, w, t', g1. repeat (split; [solve [auto|congruence]|]). reflexivity.
Qed.
Lemma painted_exists find i t toks : toks_ok i t toks -> exists g, painted find i t toks g.
Proof.
  induction 1 as [i t|i a w t start tok toks E1 E2 E3 E4 E5 [g IH]].
  - exists (paint t). constructor. apply paint_ok. reflexivity.
  - exists (paint a ++ as_ (Some (ty find tok)) w ++ g). apply pa_token; auto. apply paint_ok. reflexivity.
Qed.
Lemma starts_plain_app w t : w <> [] -> starts_plain w -> starts_plain (w ++ t).
Proof. destruct w; [contradiction|auto]. Qed.
Lemma painted_leading find sp q i toks g : toks_ok i (sp ++ q) toks -> painted find i (sp ++ q) toks g -> Forall space_char sp -> as_ None sp ++ skipn (length sp) g = g.
Proof.
  intros T P F. assert (X : exists g', g = as_ None sp ++ g'); [|destruct X as [g' ->]; rewrite (skipn_len (as_ None sp)) by (symmetry; apply as_length); reflexivity].
  destruct toks as [|[[start width] tok] toks].
  - inversion P as [j t g0 G|]; subst. apply paint_ok in G. subst. rewrite paint_front by auto. eauto.
  - destruct (painted_cons _ _ _ _ _ _ _ _ T P) as (a & w & t' & g' & Q & E1 & E2 & N & S1 & _ & _ & _ & ->).
    destruct (space_front sp q a (w ++ t')) as (a' & -> & _); auto.
    + apply starts_plain_app; auto.
    + intro Z0. apply app_eq_nil in Z0. tauto.
    + rewrite paint_front by auto. rewrite <- app_assoc. eauto.
Qed.

Lemma loop_colours find : forall toks i t g, toks_ok i t toks -> painted find i t toks g -> Forall (fun x => is_newline x = false) toks ->
  forall u cs idx sp q, t = u ++ cs -> idx = i + Z.of_nat (length u) -> cs = sp ++ q -> Forall space_char sp -> starts_plain q ->
  exists es, tokens_loop find toks cs idx = Some es /\ colours None es = as_ None sp ++ skipn (length u + length sp) g.
Proof.
  induction toks as [|[[start width] tok] toks IH]; intros i t g T P NL u cs idx sp q Et Ei Ec F Pl.
  - assert (Sp : spaces cs = (sp, q)).
    { subst cs. clear - F Pl. induction F as [|c sp H F IH]; cbn [app spaces]; [destruct q as [|x q]; auto; cbn [spaces]; apply not_space in Pl; rewrite Pl; reflexivity|]. apply space_is in H. rewrite H, IH. reflexivity. }
    cbn [tokens_loop]. rewrite Sp. eexists. split; [reflexivity|]. rewrite colours_push. rewrite <- (app_nil_r (commented q)), colours_commented. cbn [colours]. rewrite app_nil_r.
    inversion P as [j t0 g0 G|]; subst. apply paint_ok in G. subst. f_equal. rewrite app_assoc, <- app_length. symmetry. apply paint_skip. exact Pl.
  - assert (Sp : spaces cs = (sp, q)).
    { subst cs. clear - F Pl. induction F as [|c sp H F IH]; cbn [app spaces]; [destruct q as [|x q]; auto; cbn [spaces]; apply not_space in Pl; rewrite Pl; reflexivity|]. apply space_is in H. rewrite H, IH. reflexivity. }
    inversion NL as [|x l NL1 NL2]; subst x l.
    destruct (painted_cons _ _ _ _ _ _ _ _ T P) as (a & w & t' & g' & Q & E1 & E2 & N & S1 & LastC & T' & P' & Eg).
    assert (Lw : (0 < length w)%nat) by (destruct w; [contradiction|cbn; lia]).
    cbn [tokens_loop]. destruct (Z.ltb_spec (start + width - 1) idx) as [Lt|Ge].
    + (* the token lies before *)
      rewrite Q, app_assoc in Et. symmetry in Et. destruct (split_le (a ++ w) t' u cs) as (u' & Hu & Ht'); [auto|rewrite app_length; lia|].
      destruct (IH (start + width) t' g' T' P' NL2 u' cs idx sp q Ht') as (es & E & C); auto; [rewrite Hu in Ei; rewrite !app_length in Ei; lia|].
      exists es. split; auto. rewrite C, Eg. f_equal. rewrite app_assoc. 
      replace (length u + length sp)%nat with (length (paint a ++ as_ (Some (ty find tok)) w) + (length u' + length sp))%nat by (rewrite app_length, paint_length, as_length, Hu, !app_length; lia).
      rewrite skipn_app. rewrite (skipn_all2 (paint a ++ _)) by lia. cbn [app]. f_equal. lia.
    + (* it is shown *)
      assert (NB : ty find tok <> TBlank).
      { clear - NL1. destruct tok; cbn [ty]; try discriminate. destruct (find s) as [n|]; [destruct (is_type n)|]; discriminate. }
      assert (Body : exists es, (let '(sp, cs) := spaces cs in let index := idx + Z.of_nat (length sp) in
         match take (Z.to_nat (start - index)) cs with None => None | Some (c, cs) => let index := index + Z.of_nat (length c) in
          match take (Z.to_nat (start + width - index)) cs with None => None | Some (w, cs) =>
            match tokens_loop find toks cs (index + Z.of_nat (length w)) with None => None | Some es => Some (map Push sp ++ commented c ++ Begin (ty find tok) :: map Push w ++ End (ty find tok) :: es) end end end) = Some es /\
         colours None es = as_ None sp ++ skipn (length u + length sp) g).
      { rewrite Sp. cbn zeta. rewrite Q in Et. subst cs.
        (* the rest after the token, at its end *)
        assert (Rest : exists es, tokens_loop find toks t' (start + width) = Some es /\ colours None es = g').
        { destruct (spaces_split t') as (sp' & q' & _ & Ht & F' & P''). destruct (IH (start + width) t' g' T' P' NL2 [] t' (start + width) sp' q') as (es & E & C); auto; [cbn; lia|].
          exists es. split; auto. rewrite C. cbn [length Nat.add]. rewrite Ht in T', P'. eapply painted_leading; eauto. }
        destruct Rest as (es & R1 & R2).
        destruct (le_lt_dec (length u + length sp) (length a)) as [Before|After].
        - (* a gap comes first *)
          assert (X : (u ++ sp) ++ q = a ++ w ++ t') by (rewrite <- app_assoc; auto).
          destruct (split_le (u ++ sp) q a (w ++ t')) as (c & Ha & Hq); [auto|rewrite app_length; lia|]. subst q.
          assert (Lc : length a = (length u + length sp + length c)%nat) by (rewrite Ha, !app_length; lia).
          rewrite (take_app c) by lia. rewrite (take_app w) by lia. replace (idx + Z.of_nat (length sp) + Z.of_nat (length c) + Z.of_nat (length w)) with (start + width) by lia. rewrite R1.
          eexists. split; [reflexivity|]. rewrite colours_push, colours_commented. cbn [colours]. rewrite colours_push. cbn [colours]. rewrite R2, Eg. f_equal.
          rewrite skipn_app, paint_length. replace (length u + length sp - length a)%nat with 0%nat by lia. cbn [skipn]. f_equal.
          rewrite Ha, <- app_length. symmetry. apply paint_skip. destruct c; [exact I|exact Pl].
        - (* inside of the token *)
          assert (U : (length a < length u)%nat \/ (length u <= length a)%nat) by lia. destruct U as [U|U].
          2:{ exfalso. destruct (split_le u (sp ++ q) a (w ++ t')) as (a' & -> & Hq); auto.
              destruct (space_front sp q a' (w ++ t')) as (a'' & -> & _); auto; [apply starts_plain_app; auto|intro Z0; apply app_eq_nil in Z0; tauto|]. rewrite !app_length in After. lia. }
          symmetry in Et. destruct (split_le a (w ++ t') u (sp ++ q)) as (v & -> & Hv); [auto|lia|].
          assert (Lv : (length v < length w)%nat) by (rewrite app_length in Ei; lia).
          symmetry in Hv. destruct (split_le v (sp ++ q) w t') as (w2 & -> & Hw2); [auto|lia|]. 
          assert (Ls : (length sp <= length w2)%nat).
          { destruct LastC as [(w' & c & Ew & Nc)|[-> _]]; [|rewrite app_nil_r in Hw2; rewrite <- Hw2, app_length; lia].
            destruct (le_lt_dec (length sp) (length w2)) as [|L]; auto. exfalso.
            destruct w2 as [|x w2] using rev_ind; [cbn in Lv; rewrite app_length in Lv; cbn in Lv; lia|]. clear IHw2. rewrite app_assoc in Ew. apply app_inj_tail in Ew. destruct Ew as [_ ->].
            symmetry in Hw2. destruct (split_le (w2 ++ [c]) t' sp q) as (e & -> & _); [auto|lia|]. apply Forall_app in F. destruct F as [F _]. apply Forall_app in F. destruct F as [_ F]. inversion F; auto. }
          destruct (split_le sp q w2 t') as (w3 & -> & ->); auto.
          rewrite app_length in *. rewrite !app_length in *.
          replace (Z.to_nat (start - (idx + Z.of_nat (length sp)))) with 0%nat by lia. cbn [take length].
          rewrite (take_app w3) by lia. replace (idx + Z.of_nat (length sp) + Z.of_nat 0 + Z.of_nat (length w3)) with (start + width) by lia. rewrite R1.
          eexists. split; [reflexivity|]. rewrite colours_push. cbn [commented app colours]. rewrite colours_push. cbn [colours]. rewrite R2, Eg. f_equal.
          replace (length a + length v + length sp)%nat with (length (paint a) + length (v ++ sp))%nat by (rewrite paint_length, app_length; lia).
          rewrite skipn_app. rewrite (skipn_all2 (paint a)) by lia. cbn [app]. replace (length (paint a) + length (v ++ sp) - length (paint a))%nat with (length (v ++ sp)) by lia.
          rewrite (app_assoc v). unfold as_ at 2. rewrite (map_app _ (v ++ sp)). rewrite <- app_assoc. symmetry. apply skipn_len. symmetry. apply map_length. }
      destruct (ty find tok); try exact Body. contradiction.
Qed.
Lemma painted_unique find i t toks g : toks_ok i t toks -> painted find i t toks g -> forall g', painted find i t toks g' -> g' = g.
Proof.
  intros T P. induction P as [i t g G|i a w t start tok toks g g1 E G P IH]; intros g' P'.
  - inversion P' as [j t0 g0 G'|]; subst. apply paint_ok in G, G'. congruence.
  - destruct (painted_cons _ _ _ _ _ _ _ _ T P') as (a2 & w2 & t2 & g2 & Q & E1 & E2 & _ & _ & _ & T2 & P2 & ->).
    apply split_at in Q; [|lia]. destruct Q as [-> Q]. apply split_at in Q; [|lia]. destruct Q as [-> ->].
    apply paint_ok in G. subst g. rewrite (IH T2 g2 P2). reflexivity.
Qed.
Lemma significant_plain l : Forall (fun x => is_newline x = false) (significant l).
Proof. apply Forall_forall. intros x H. apply filter_In in H. destruct H as [_ H]. now apply negb_true_iff. Qed.
Lemma highlight_painted find t : exists s es g, scan t = Some s /\ highlight find t [] = Some es /\ painted find 0 t (significant (tokens s)) g /\ colours None es = g /\
  forall g', painted find 0 t (significant (tokens s)) g' -> g' = g.
Proof.
  destruct (scan_toks t) as (s & E & T). destruct (painted_exists find _ _ _ T) as [g P]. destruct (spaces_split t) as (sp & q & _ & Et & F & Pl).
  destruct (loop_colours find _ _ _ _ T P (significant_plain _) [] t 0 sp q) as (es & L & C); auto.
  exists s, es, g. split; auto. split; [unfold highlight; cbn [app]; rewrite E, loop_significant; exact L|]. split; auto. split; [|intros g' P'; eapply painted_unique; eauto].
  rewrite C. rewrite Et in T, P. cbn [length Nat.add]. eapply painted_leading; eauto.
Qed.
Lemma highlight_continued find prefix input sp rest : ascii prefix -> input = sp ++ rest -> Forall space_char sp -> starts_plain rest ->
  exists es all, highlight find input prefix = Some es /\ highlight find (prefix ++ input) [] = Some all /\
    colours None es = as_ None sp ++ skipn (length (prefix ++ sp)) (colours None all).
Proof.
  intros A Ei F Pl. destruct (highlight_painted find (prefix ++ input)) as (s & all & g & E & H & P & C & _). destruct (scan_toks (prefix ++ input)) as (s' & E' & T). rewrite E in E'. injection E' as <-.
  destruct (loop_colours find _ _ _ _ T P (significant_plain _) prefix input (byte_len prefix) sp rest) as (es & L & C'); auto; [rewrite byte_len_ascii; auto|].
  exists es, all. split; [unfold highlight; rewrite E, loop_significant; exact L|]. split; auto. rewrite C', C, app_length. reflexivity.
Qed.

Lemma pushed_colours : forall es o, pushed es = map fst (colours o es).
Proof. induction es as [|[t|t|c] es IH]; intro o; cbn; auto. f_equal. apply IH. Qed.

(** ** BlockingFormatter *)
Definition unline (x : Z * option ttype) : Z * option ttype := if fst x =? 10 then (10, None) else x.
Lemma block_colours : forall es o, colours o (block o es) = map unline (colours o es).
Proof.
  induction es as [|[t|t|c] es IH]; intro o; cbn [block colours map]; auto.
  - destruct o; cbn [opt_event app colours]; auto.
  - unfold unline at 1. cbn [fst]. destruct (Z.eqb_spec c 10) as [->|N]; [|cbn [colours]; f_equal; auto].
    destruct o; cbn [opt_event app colours]; f_equal; auto.
Qed.
Lemma block_section t es : proper (block None es) -> forall w v, proper (Begin t :: map Push v ++ block (Some t) (map Push w ++ End t :: es)).
Proof.
  intro H. induction w as [|c w IH]; intro v; cbn [map app block opt_event]; [apply pr_section; exact H|].
  destruct (c =? 10) eqn:N.
  - cbn [app]. apply pr_section. constructor. exact (IH []).
  - specialize (IH (v ++ [c])). rewrite map_app, <- app_assoc in IH. exact IH.
Qed.
Lemma block_proper es : proper es -> proper (block None es).
Proof.
  induction 1 as [|c es H IH|t w es H IH]; cbn [block]; [constructor| |exact (block_section t es IH w [])].
  destruct (c =? 10); cbn [opt_event app]; constructor; auto.
Qed.

(** ** the page *)
Definition no_blank (es : list event) : Prop := Forall (fun e => match e with Begin t => t <> TBlank | _ => True end) es.
Lemma no_blank_push w : no_blank (map Push w).
Proof. unfold no_blank. induction w; cbn; constructor; auto. Qed.
Lemma no_blank_commented c : no_blank (commented c).
Proof. unfold no_blank. destruct c; constructor; [discriminate|]. apply Forall_app. split; [apply (no_blank_push (_ :: _))|repeat constructor]. Qed.
Lemma loop_no_blank find : forall toks cs i es, tokens_loop find toks cs i = Some es -> no_blank es.
Proof.
  induction toks as [|[[s w] t] r IH]; intros cs i es H; cbn [tokens_loop] in H.
  - destruct (spaces cs) as [sp c]. injection H as <-. apply Forall_app. split; [apply no_blank_push|apply no_blank_commented].
  - destruct (s + w - 1 <? i); [eapply IH; eauto|].
    assert (G : forall y, y <> TBlank -> (let '(sp, cs) := spaces cs in let index := i + Z.of_nat (length sp) in
       match take (Z.to_nat (s - index)) cs with None => None | Some (c, cs) => let index := index + Z.of_nat (length c) in
        match take (Z.to_nat (s + w - index)) cs with None => None | Some (w, cs) =>
          match tokens_loop find r cs (index + Z.of_nat (length w)) with None => None | Some es => Some (map Push sp ++ commented c ++ Begin y :: map Push w ++ End y :: es) end end end) = Some es -> no_blank es).
    { intros y N. destruct (spaces cs) as [sp q]. cbn zeta. destruct (take _ q) as [[a q']|]; [|discriminate]. destruct (take _ q') as [[b q'']|]; [|discriminate].
      destruct (tokens_loop find r q'' _) as [es'|] eqn:E; [|discriminate]. intro Q. injection Q as <-.
      apply Forall_app. split; [apply no_blank_push|]. apply Forall_app. split; [apply no_blank_commented|]. constructor; auto. apply Forall_app. split; [apply no_blank_push|]. constructor; auto. eapply IH; eauto. }
    destruct (ty find t); try (eapply G; [|exact H]; discriminate). eapply IH; eauto.
Qed.
Lemma no_blank_block : forall es o, no_blank es -> (forall t, o = Some t -> t <> TBlank) -> no_blank (block o es).
Proof.
  unfold no_blank. induction es as [|[t|t|c] es IH]; intros o F O; cbn [block]; [constructor| | |]; inversion F; subst.
  - constructor; auto. apply IH; auto. intros t' Q. congruence.
  - apply Forall_app. split; [destruct o; repeat constructor|apply IH; auto; discriminate].
  - destruct (c =? 10); [|constructor; auto]. apply Forall_app. split; [destruct o; repeat constructor|]. constructor; auto.
    apply Forall_app. split; [destruct o; repeat constructor; auto|]. apply IH; auto.
Qed.
Definition chars_of (c : Z) (o : option ttype) : shown := if c =? 13 then [] else if c =? 9 then [(32, o); (32, o); (32, o); (32, o)] else [(c, o)].
Lemma page_char c o l g : page Out o l = Some g -> page Out o (html_char c ++ l) = Some (chars_of c o ++ g).
Proof.
  intro H. unfold html_char, chars_of.
  destruct (Z.eqb_spec c 13) as [->|]; [exact H|]. destruct (Z.eqb_spec c 9) as [->|]; [cbn; rewrite H; reflexivity|].
  destruct (Z.eqb_spec c 60) as [->|N1]; [cbn; rewrite H; reflexivity|]. destruct (Z.eqb_spec c 62) as [->|]; [cbn; rewrite H; reflexivity|].
  destruct (Z.eqb_spec c 34) as [->|]; [cbn; rewrite H; reflexivity|]. destruct (Z.eqb_spec c 39) as [->|]; [cbn; rewrite H; reflexivity|].
  destruct (Z.eqb_spec c 38) as [->|N2]; [cbn; rewrite H; reflexivity|]. cbn [app page].
  destruct (Z.eqb_spec c 60); [contradiction|]. destruct (Z.eqb_spec c 38); [contradiction|]. rewrite H. reflexivity.
Qed.
Lemma page_chars w o l g : page Out o l = Some g -> page Out o (flat_map html_char w ++ l) = Some (flat_map (fun c => chars_of c o) w ++ g).
Proof. intro H. induction w as [|c w IH]; cbn [flat_map app]; auto. rewrite <- !app_assoc. apply page_char. exact IH. Qed.
Lemma page_begin t o l : t <> TBlank -> page Out o (text "<span class=""cordy-" ++ text (class_name t) ++ text """>" ++ l) = page Out (Some t) l.
Proof. intro N. destruct t; try contradiction; reflexivity. Qed.
Lemma page_end o l : page Out o (text "</span>" ++ l) = page Out None l.
Proof. reflexivity. Qed.
Definition on (skip : ttype -> bool) (x : Z * option ttype) : shown := chars_of (fst x) (match snd x with Some t => if skip t then None else Some t | None => None end).
Lemma html_push skip w : html skip (map Push w) = flat_map html_char w.
Proof. unfold html. induction w; cbn [map flat_map html_event]; congruence. Qed.
Lemma html_app skip a b : html skip (a ++ b) = html skip a ++ html skip b.
Proof. apply flat_map_app. Qed.
Lemma page_html skip es : proper es -> no_blank es -> page Out None (html skip es) = Some (flat_map (on skip) (colours None es)).
Proof.
  induction 1 as [|c es H IH|t w es H IH]; intro B; [reflexivity| |].
  - inversion B; subst. cbn [colours flat_map]. exact (page_char c None _ _ (IH ltac:(assumption))).
  - inversion B as [|x l Nb B']; subst. apply Forall_app in B'. destruct B' as [_ B']. inversion B' as [|x l _ B'']; subst. specialize (IH B'').
    change (Begin t :: map Push w ++ End t :: es) with ([Begin t] ++ map Push w ++ [End t] ++ es). rewrite !html_app, html_push. cbn [app colours]. rewrite colours_push. cbn [app colours].
    rewrite flat_map_app. assert (W : flat_map (on skip) (as_ (Some t) w) = flat_map (fun c => chars_of c (if skip t then None else Some t)) w) by (unfold as_, on; rewrite flat_map_concat_map, map_map, <- flat_map_concat_map; reflexivity).
    rewrite W. unfold html at 1 2. cbn [flat_map html_event]. rewrite !app_nil_r. destruct (skip t); cbn [negb andb].
    + rewrite andb_false_r. cbn [app]. apply page_chars. exact IH.
    + destruct (is_blank t) eqn:Q; [destruct t; try discriminate; congruence|]. cbn [negb andb]. rewrite <- !app_assoc. rewrite page_begin by auto. apply page_chars. rewrite page_end. exact IH.
Qed.
Lemma format_ok find skip t : exists p es, format_file find skip t = Some p /\ highlight find t [] = Some es /\ page Out None p = Some (flat_map (on_page skip) (colours None es)).
Proof.
  unfold format_file. destruct (highlight_total find t []) as (es & E & _ & Pr). rewrite E. eexists _, es. split; [reflexivity|]. split; auto.
  assert (B : no_blank es) by (unfold highlight in E; destruct (scan _); [|discriminate]; eapply loop_no_blank; eauto).
  rewrite page_html; [|apply block_proper; auto|apply no_blank_block; auto; discriminate]. rewrite block_colours. f_equal.
  rewrite flat_map_concat_map, map_map, <- flat_map_concat_map. apply flat_map_ext. intros [c o]. unfold on, on_page, unline, chars_of. cbn [fst snd].
  destruct (Z.eqb_spec c 10) as [->|N]; [reflexivity|]. cbn [fst snd]. destruct (c =? 13); [|destruct (c =? 9)]; reflexivity.
Qed.
Lemma toks_pairs i t toks : toks_ok i t toks -> (forall n (x : location * token), nth_error toks n = Some x -> i <= fst (fst x) /\ 0 < snd (fst x) /\ fst (fst x) + snd (fst x) <= i + Z.of_nat (length t)) /\
  forall m n (x y : location * token), (m < n)%nat -> nth_error toks m = Some x -> nth_error toks n = Some y -> fst (fst x) + snd (fst x) <= fst (fst y).
Proof.
  induction 1 as [i t|i a w t start tok toks E1 E2 E3 E4 E5 [IH1 IH2]].
  - split; [intros [|n]|intros [|m]]; discriminate.
  - assert (L : (0 < length w)%nat) by (destruct w; [contradiction|cbn; lia]). rewrite !app_length. split.
    + intros [|n] x H; [injection H as <-; cbn [fst snd]; lia|]. destruct (IH1 n x H) as (A & B & C). lia.
    + intros [|m] [|n] x y M Hx Hy; try lia; [injection Hx as <-; destruct (IH1 n y Hy) as (A & _); cbn [fst snd]; lia|]. apply (IH2 m n); auto; lia.
Qed.
