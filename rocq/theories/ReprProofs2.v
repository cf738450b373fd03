(** C69: reading what repr has written, for all readable values. *)
From Coq Require Import String Lia.
From Verif Require Import Base BaseProofs Native Value ValueSpec ValueProofs Err Iter Ops OpsProofs2 Str Coll CollProofs Repr ReprSpec ReprLex ReprProofs.
From Verif Require Scan ScanSpec ScanProofs ScanProofs3 Parse ParseSpec ParseComp P_Parse.
Import ParseSpec.
Local Open Scope Z_scope.

Section WithNames.
  Context (N : names) (fmt : list Z -> value -> result value).
  Notation reads_as := (reads_as N fmt).

Lemma lexes_eq w w' q ts : lexes w q ts -> w = w' -> lexes w' q ts.
Proof. intros H <-. exact H. Qed.
Lemma text_comma : Scan.text ", " = [44; 32]. Proof. reflexivity. Qed.
Lemma text_colon : Scan.text ": " = [58; 32]. Proof. reflexivity. Qed.
Lemma lexes_comma q : lexes [44; 32] q [Scan.Comma].
Proof. change [44; 32] with ([44] ++ [32]). change [Scan.Comma] with ([Scan.Comma] ++ []). apply lexes_app; [apply lexes_punct; cbn; tauto|apply lexes_space]. Qed.
Lemma lexes_colon q : lexes [58; 32] q [Scan.Colon].
Proof. change [58; 32] with ([58] ++ [32]). change [Scan.Colon] with ([Scan.Colon] ++ []). apply lexes_app; [apply lexes_punct; cbn; tauto|apply lexes_space]. Qed.
Lemma lexes_bracket a b x y w ts q : In (a, x) punct -> In (b, y) punct -> lexes w (b :: q) ts -> lexes (a :: w ++ [b]) q (x :: ts ++ [y]).
Proof.
  intros A B H. change (a :: w ++ [b]) with ([a] ++ (w ++ [b])). change (x :: ts ++ [y]) with ([x] ++ (ts ++ [y])). apply lexes_app; [apply lexes_punct; exact A|].
  apply lexes_app; [exact H|apply lexes_punct; exact B].
Qed.
Lemma sep_close b q : In b [44; 93; 41; 125; 58] -> sep (b :: q).
Proof. auto. Qed.

Lemma reads_items l : l <> [] -> (forall x, In x l -> reads_as (repr N x) x) ->
  exists ts es, (forall q, sep q -> lexes (joined (Scan.text ", ") (map (repr N) l)) q ts) /\ (forall c, Gargs c es false (map token_of ts)) /\
    all_some (map (denote N fmt) es) = Some l /\ length es = length l.
Proof.
  intros NE H. induction l as [|x l IH]; [congruence|]. clear NE. destruct (H x (or_introl eq_refl)) as (tx & ex & Lx & Gx & Hx & Nx & Ux & Dx).
  destruct l as [|y l].
  - exists tx, [ex]. split; [exact Lx|]. split; [intro c; eapply Gargs_last; [apply garg; eauto|exact I]|]. cbn [map all_some]. rewrite Dx. auto.
  - destruct IH as (ts & es & L & A & D & LE); [discriminate|intros z Z; apply H; right; exact Z|]. exists (tx ++ [Scan.Comma] ++ ts), (ex :: es).
    split; [|split; [|split]].
    + intros q S. cbn [map joined]. apply lexes_app; [apply Lx; cbn; tauto|]. apply lexes_app; [apply lexes_comma|]. apply L. exact S.
    + intro c. rewrite map_app. cbn [app map token_of]. eapply Gargs_more; [apply garg; eauto|exact I|apply A].
    + cbn [map all_some]. rewrite Dx. cbn [map] in D. rewrite D. reflexivity.
    + cbn [length] in *. lia.
Qed.
Lemma reads_pairs (l : list (value * value)) : l <> [] -> (forall k, In k (map fst l) -> reads_as (repr N k) k) -> (forall x, In x (map snd l) -> reads_as (repr N x) x) ->
  exists ts es, (forall q, sep q -> lexes (joined (Scan.text ", ") (map (fun p => repr N (fst p) ++ Scan.text ": " ++ repr N (snd p)) l)) q ts) /\ Gitems es true (map token_of ts) /\
    bind1 (all_some (map (denote N fmt) es)) pairs = Some l.
Proof.
  intros NE HK HV. induction l as [|[k x] l IH]; [congruence|]. clear NE. destruct (HK k (or_introl eq_refl)) as (tk & ek & Lk & Gk & Hk & Nk & Uk & Dk). destruct (HV x (or_introl eq_refl)) as (tx & ex & Lx & Gx & Hx & Nx & Ux & Dx).
  assert (LP : forall q, sep q -> lexes (repr N k ++ Scan.text ": " ++ repr N x) q (tk ++ [Scan.Colon] ++ tx)).
  { intros q S. apply lexes_app; [apply Lk; cbn; tauto|]. apply lexes_app; [apply lexes_colon|]. apply Lx. exact S. }
  assert (GP : Gitem [ek; ex] true (map token_of (tk ++ [Scan.Colon] ++ tx)) Full).
  { rewrite map_app. cbn [app map token_of]. eapply Gitem_pair; [apply garg; eauto|exact I|exact Uk|apply garg; eauto]. }
  destruct l as [|y l].
  - exists (tk ++ [Scan.Colon] ++ tx), [ek; ex]. split; [exact LP|]. split; [eapply Gitems_last; [exact GP|exact I]|]. cbn [map all_some]. rewrite Dk, Dx. reflexivity.
  - destruct IH as (ts & es & L & A & D); [discriminate|intros z Z; apply HK; right; exact Z|intros z Z; apply HV; right; exact Z|].
    exists ((tk ++ [Scan.Colon] ++ tx) ++ [Scan.Comma] ++ ts), ([ek; ex] ++ es). split; [|split].
    + intros q S. cbn [map joined fst snd]. apply lexes_app; [apply LP; cbn; tauto|]. apply lexes_app; [apply lexes_comma|]. apply L. exact S.
    + rewrite map_app. cbn [app map token_of]. change true with (true || true)%bool. eapply (Gitems_more [ek; ex] true); [exact GP|exact I|exact A].
    + cbn [app map all_some]. rewrite Dk, Dx. destruct (all_some (map (denote N fmt) es)) as [vs|] eqn:E; [|discriminate]. cbn [bind1 pairs] in *. rewrite D. reflexivity.
Qed.
(** a dict literal with distinct keys *)
Lemma insert_fresh k x (l : entries) : (forall k', In k' (map fst l) -> key_match k k' = false) -> map_insert k x l = l ++ [(k, x)].
Proof. induction l as [|[k' y] l IH]; intro H; [reflexivity|]. cbn [map_insert app]. rewrite (H k') by (left; reflexivity). rewrite IH; [reflexivity|]. intros z Z. apply H. right. exact Z. Qed.
Lemma dict_literal (l : entries) : forall acc, (forall k, In k (map fst (acc ++ l)) -> wf k) -> distinct key_match (map fst (acc ++ l)) -> fold_left (fun m p => map_insert (fst p) (snd p) m) l acc = acc ++ l.
Proof.
  induction l as [|[k x] l IH]; intros acc W D; [rewrite app_nil_r; reflexivity|]. cbn [fold_left fst snd].
  assert (F : forall k', In k' (map fst acc) -> key_match k k' = false).
  { intros k' I. rewrite key_match_sym; [|apply W; rewrite map_app; apply in_or_app; right; left; reflexivity|apply W; rewrite map_app; apply in_or_app; left; exact I].
    clear - I D. induction acc as [|[a y] acc IH]; [destruct I|]. cbn [app map fst distinct] in *. destruct D as [D1 D2]. destruct I as [->|I]; [|auto]. apply D1. rewrite map_app. apply in_or_app. right. left. reflexivity. }
  rewrite (insert_fresh k x acc F). rewrite IH; rewrite <- app_assoc; auto.
Qed.
(** bounds of slices *)
Lemma slice_bound v c : bound v -> wf v -> In c [58; 93] -> exists ts e, (forall q, lexes (slice_part v) (c :: q) ts) /\ Gopt_arg e (map token_of ts) (if c =? 58 then Parse.TColon else Parse.TCloseS) /\ denote N fmt e = Some v /\
  (v <> VNil -> exists w m, Garg e w m /\ w = map token_of ts).
Proof.
  intros [->|[n ->]] W C.
  - exists [], Parse.ENil. split; [intro q; apply lexes_nil|]. split; [constructor|]. split; [reflexivity|congruence].
  - inversion W; subst. destruct (int_derives n) as (A & B & _ & _). exists (int_tokens n), (int_expr n).
    assert (GA : Garg (int_expr n) (map token_of (int_tokens n)) Full) by (apply garg; [apply (up 2); [lia|exact A]|exact B]).
    split; [intro q; apply (int_lexes fmt); [assumption|destruct C as [Q|[Q|[]]]; subst c; cbn; reflexivity]|]. split; [eapply Gopt_arg_some; [exact GA|destruct C as [Q|[Q|[]]]; subst c; exact I]|]. split; [apply int_denotes; auto|]. eauto.
Qed.
Lemma bound_is v : bound v -> is_bound v = true.
Proof. intros [->|[n ->]]; reflexivity. Qed.
Lemma word_of k : (exists c r, Scan.text k = c :: r /\ ScanSpec.letter c /\ Forall ScanSpec.word_char r) -> ScanSpec.word (Scan.text k).
Proof. auto. Qed.
Ltac a_word := do 2 eexists; split; [vm_compute; reflexivity|]; split; [unfold ScanSpec.letter; lia|repeat (apply Forall_cons || apply Forall_nil); unfold ScanSpec.word_char, ScanSpec.letter; lia].

Lemma reads_back v : readable N v -> wf v -> reads_as (repr N v) v.
Proof.
  induction 1 as [|b|n|re im R I|s P|l R IH|l R IH LE|l R IH|l RK IHK RV IHV NE|a b s A B C D|v R IH|a b c A B C]; intro W.
  - exists [Scan.KeywordNil], Parse.ENil. split; [intros q S; apply (lexes_word (Scan.text "nil")); [a_word|apply sep_word; auto]|]. split; [apply atom9; reflexivity|]. split; [discriminate|split; [discriminate|split; reflexivity]].
  - exists [if b then Scan.KeywordTrue else Scan.KeywordFalse], (Parse.EBool b). split; [|split; [apply atom9; destruct b; reflexivity|repeat split; try discriminate; destruct b; discriminate]].
    intros q S. destruct b; [apply (lexes_word (Scan.text "true"))|apply (lexes_word (Scan.text "false"))]; solve [a_word|apply sep_word; auto].
  - inversion W; subst. apply reads_int. auto.
  - inversion W; subst. unfold is_i64 in *. apply reads_complex; auto. lia.
  - apply reads_str. auto.
  - inversion W; subst. cbn [repr]. unfold map_join. destruct l as [|x l].
    + exists [Scan.OpenSquareBracket; Scan.CloseSquareBracket], (Parse.ELiteral Parse.LList []). split; [intros q S; apply (lexes_bracket 91 93 _ _ [] [] q); [cbn; tauto|cbn; tauto|apply lexes_nil]|].
      split; [apply zero9; apply G_nolist|]. split; [discriminate|split; [discriminate|split; reflexivity]].
    + destruct (reads_items (x :: l)) as (ts & es & L & G & Ds & LE); [discriminate|auto|].
      exists (Scan.OpenSquareBracket :: ts ++ [Scan.CloseSquareBracket]), (Parse.ELiteral Parse.LList es). split; [intros q S; apply lexes_bracket; [cbn; tauto|cbn; tauto|apply L; cbn; tauto]|].
      cbn [map token_of]. rewrite map_app. split; [apply zero9; eapply G_list; apply G|]. split; [discriminate|]. split; [discriminate|]. split; [reflexivity|]. cbn [denote]. rewrite Ds. reflexivity.
  - inversion W; subst. cbn [repr]. unfold map_join. destruct l as [|x [|y l]]; [cbn in LE; lia|cbn in LE; lia|].
    destruct (reads_items (x :: y :: l)) as (ts & es & L & G & Ds & LE'); [discriminate|auto|].
    exists (Scan.OpenParen :: ts ++ [Scan.CloseParen]), (Parse.EComma es false false). split; [intros q S; apply lexes_bracket; [cbn; tauto|cbn; tauto|apply L; cbn; tauto]|].
    cbn [map token_of]. rewrite map_app. split; [apply zero9; eapply G_paren; apply G|]. split; [discriminate|]. split; [discriminate|]. split; [reflexivity|].
    destruct es as [|e1 [|e2 es]]; try discriminate. cbn [denote]. rewrite Ds. reflexivity.
  - inversion W; subst. cbn [repr]. unfold map_join. destruct l as [|x l].
    + exists [Scan.OpenBrace; Scan.CloseBrace], (Parse.ELiteral Parse.LSet []). split; [intros q S; apply (lexes_bracket 123 125 _ _ [] [] q); [cbn; tauto|cbn; tauto|apply lexes_nil]|].
      split; [apply zero9; apply G_noset|]. split; [discriminate|split; [discriminate|split; reflexivity]].
    + destruct (reads_items (x :: l)) as (ts & es & L & G & Ds & LE); [discriminate|auto|].
      exists (Scan.OpenBrace :: ts ++ [Scan.CloseBrace]), (Parse.ELiteral Parse.LSet es). split; [intros q S; apply lexes_bracket; [cbn; tauto|cbn; tauto|apply L; cbn; tauto]|].
      cbn [map token_of]. rewrite map_app. split; [apply zero9; eapply G_set; apply G|]. split; [discriminate|]. split; [discriminate|]. split; [reflexivity|]. cbn [denote]. rewrite Ds. cbn [bind1 literal]. rewrite to_set_id; auto.
  - inversion W as [| | | | | | | | |? Wl Dl| | | | | | | | | | | |]; subst. cbn [repr]. unfold map_join.
    assert (WK : forall k, In k (map fst l) -> wf k) by (intros k K; apply in_map_iff in K; destruct K as ([k' x] & <- & K); apply (Wl _ _ K)).
    assert (WV : forall x, In x (map snd l) -> wf x) by (intros k K; apply in_map_iff in K; destruct K as ([k' x] & <- & K); apply (Wl _ _ K)).
    destruct (reads_pairs l NE) as (ts & es & L & G & Ds); [auto|auto|].
    exists (Scan.OpenBrace :: ts ++ [Scan.CloseBrace]), (Parse.ELiteral Parse.LDict es). split; [intros q S; apply lexes_bracket; [cbn; tauto|cbn; tauto|apply L; cbn; tauto]|].
    cbn [map token_of]. rewrite map_app. split; [apply zero9; eapply G_dict; apply G|]. split; [discriminate|]. split; [discriminate|]. split; [reflexivity|]. cbn [denote].
    destruct (all_some (map (denote N fmt) es)) as [vs|]; [|discriminate]. cbn [bind1 literal] in *. rewrite Ds. rewrite (dict_literal l []); auto.
  - cbn [repr]. replace (s =? 0) with false by lia.
    destruct (int_derives a) as (A1 & A2 & _ & A3). destruct (int_derives b) as (B1 & B2 & _ & B3). destruct (int_derives s) as (C1 & C2 & _ & C3).
    exists (Scan.Identifier (Scan.text "range") :: Scan.OpenParen :: (int_tokens a ++ Scan.Comma :: int_tokens b ++ Scan.Comma :: int_tokens s) ++ [Scan.CloseParen]), (Parse.ECall (Parse.EVar "range") [int_expr a; int_expr b; int_expr s]).
    split; [|split; [|split; [|split; [|split]]]]; try discriminate; try reflexivity.
    + intros q S. change (Scan.text "range(") with (Scan.text "range" ++ [40]). rewrite <- app_assoc.
      apply (lexes_app (Scan.text "range") _ q [Scan.Identifier (Scan.text "range")]); [apply (lexes_word (Scan.text "range")); [a_word|reflexivity]|].
      assert (H : lexes (40 :: (show_dec a ++ Scan.text ", " ++ show_dec b ++ Scan.text ", " ++ show_dec s) ++ [41]) q (Scan.OpenParen :: (int_tokens a ++ Scan.Comma :: int_tokens b ++ Scan.Comma :: int_tokens s) ++ [Scan.CloseParen])).
      { apply lexes_bracket; [cbn; tauto|cbn; tauto|]. apply lexes_app; [apply (int_lexes fmt); [auto|reflexivity]|]. apply (lexes_app _ _ _ [Scan.Comma]); [apply lexes_comma|]. apply lexes_app; [apply (int_lexes fmt); [auto|reflexivity]|].
        apply (lexes_app _ _ _ [Scan.Comma]); [apply lexes_comma|]. apply (int_lexes fmt); [auto|reflexivity]. }
      refine (lexes_eq _ _ _ _ H _). rewrite <- !app_assoc. reflexivity.
    + apply (up 1); [lia|]. cbn [map token_of]. rewrite map_app. cbn [map token_of].
      apply (G_call (Parse.EVar "range") [Parse.TId "range"] Closed [int_expr a; int_expr b; int_expr s] false); [apply G_terminal, G_atom; reflexivity|discriminate|].
      rewrite map_app. cbn [map token_of]. rewrite map_app. cbn [map token_of].
      eapply Gargs_more; [apply garg; [apply (up 2); [lia|exact A1]|exact A2]|exact I|]. eapply Gargs_more; [apply garg; [apply (up 2); [lia|exact B1]|exact B2]|exact I|]. eapply Gargs_last; [apply garg; [apply (up 2); [lia|exact C1]|exact C2]|exact I].
    + cbn [denote map all_some]. rewrite !int_denotes by auto. cbn [all_some bind1]. unfold call_builtin. cbn [String.eqb]. cbn. unfold range_from. replace (s =? 0) with false by lia.
      replace ((b >? a) && (s >? 0) || (b <? a) && (s <? 0)) with true by lia. reflexivity.
  - inversion W; subst. destruct (IH ltac:(assumption)) as (ts & e & L & G & H & NE & U & Ds). cbn [repr].
    exists (Scan.Identifier (Scan.text "enumerate") :: Scan.OpenParen :: ts ++ [Scan.CloseParen]), (Parse.ECall (Parse.EVar "enumerate") [e]).
    split; [|split; [|split; [|split; [|split]]]]; try discriminate; try reflexivity.
    + intros q S. change (Scan.text "enumerate(") with (Scan.text "enumerate" ++ [40]). rewrite <- app_assoc.
      apply (lexes_app (Scan.text "enumerate") _ q [Scan.Identifier (Scan.text "enumerate")]); [apply (lexes_word (Scan.text "enumerate")); [a_word|reflexivity]|].
      apply lexes_bracket; [cbn; tauto|cbn; tauto|apply L; cbn; tauto].
    + apply (up 1); [lia|]. cbn [map token_of]. rewrite map_app. cbn [map token_of].
      apply (G_call (Parse.EVar "enumerate") [Parse.TId "enumerate"] Closed [e] false); [apply G_terminal, G_atom; reflexivity|discriminate|]. eapply Gargs_last; [apply garg; eauto|exact I].
    + cbn [denote map all_some]. rewrite Ds. reflexivity.
  - inversion W as [| | | | | | | | | | | | | | |? ? ? W1 W2 W3| | | | | |]; subst.
    destruct (slice_bound a 58 A W1) as (ta & ea & La & Ga & Da & _); [cbn; tauto|].
    assert (HD : forall w, hd_error (map token_of (Scan.OpenSquareBracket :: w)) <> Some (Parse.TSym Parse.SMul)) by discriminate.
    destruct (Z.eqb_spec 0 0) as [_|]; [|congruence]. destruct c as [| | n | | | | | | | | | | | | | | | | | | |]; try (exfalso; destruct C as [Q|[n Q]]; discriminate Q).
    + destruct (slice_bound b 93 B W2) as (tb & eb & Lb & Gb & Db & _); [cbn; tauto|]. cbn [repr].
      exists (Scan.OpenSquareBracket :: (ta ++ Scan.Colon :: tb) ++ [Scan.CloseSquareBracket]), (Parse.ESliceLit ea eb None). split; [|split; [|split; [apply HD|split; [discriminate|split; [reflexivity|]]]]].
      * intros q S. assert (H : lexes (91 :: (slice_part a ++ [58] ++ slice_part b) ++ [93]) q (Scan.OpenSquareBracket :: (ta ++ Scan.Colon :: tb) ++ [Scan.CloseSquareBracket])).
        { apply lexes_bracket; [cbn; tauto|cbn; tauto|]. apply lexes_app; [apply La|]. apply (lexes_app [58] _ _ [Scan.Colon]); [apply lexes_punct; cbn; tauto|apply Lb]. }
        refine (lexes_eq _ _ _ _ H _). rewrite <- !app_assoc. reflexivity.
      * apply zero9. cbn [map token_of]. rewrite !map_app. cbn [map token_of]. rewrite <- app_assoc. cbn [app]. apply G_range; assumption.
      * cbn [denote]. rewrite Da, Db. cbn [bind1]. unfold new_slice. rewrite (bound_is a A), (bound_is b B). reflexivity.
    + destruct (slice_bound b 58 B W2) as (tb & eb & Lb & Gb & Db & _); [cbn; tauto|]. destruct (slice_bound (VInt n) 93 C W3) as (tc & ec & Lc & Gc & Dc & _); [cbn; tauto|]. cbn [repr].
      exists (Scan.OpenSquareBracket :: (ta ++ Scan.Colon :: tb ++ Scan.Colon :: tc) ++ [Scan.CloseSquareBracket]), (Parse.ESliceLit ea eb (Some ec)). split; [|split; [|split; [apply HD|split; [discriminate|split; [reflexivity|]]]]].
      * intros q S. assert (H : lexes (91 :: (slice_part a ++ [58] ++ slice_part b ++ [58] ++ slice_part (VInt n)) ++ [93]) q (Scan.OpenSquareBracket :: (ta ++ Scan.Colon :: tb ++ Scan.Colon :: tc) ++ [Scan.CloseSquareBracket])).
        { apply lexes_bracket; [cbn; tauto|cbn; tauto|]. apply lexes_app; [apply La|]. apply (lexes_app [58] _ _ [Scan.Colon]); [apply lexes_punct; cbn; tauto|]. apply lexes_app; [apply Lb|].
          apply (lexes_app [58] _ _ [Scan.Colon]); [apply lexes_punct; cbn; tauto|apply Lc]. }
        refine (lexes_eq _ _ _ _ H _). rewrite <- !app_assoc. reflexivity.
      * apply zero9. cbn [map token_of]. rewrite !map_app. cbn [map token_of]. rewrite !map_app. cbn [map token_of]. rewrite <- app_assoc. cbn [app]. rewrite <- app_assoc. cbn [app]. apply G_range3; assumption.
      * cbn [denote]. rewrite Da, Db. cbn [bind1]. rewrite Dc. cbn [bind1]. unfold new_slice. rewrite (bound_is a A), (bound_is b B). reflexivity.
Qed.
Lemma round_trip v : readable N v -> wf v -> evaluates N fmt (repr N v) v.
Proof.
  intros R W. destruct (reads_back v R W) as (ts & e & L & G & H & NE & U & D). specialize (L [] I (ScanProofs3.begin (repr N v)) (S (length (repr N v)))). rewrite app_nil_r in L.
  destruct (L eq_refl ltac:(lia)) as (s & m & LM & E & C & T & R'). cbn [length] in LM. destruct m as [|m]; [lia|]. assert (E2 : Scan.scan_loop (S m) s = Some s) by (cbn [Scan.scan_loop]; rewrite (ScanProofs.advance_nil s C); reflexivity). rewrite E2 in E.
  assert (P : parses false (map token_of ts ++ []) e []). { apply (P_Parse.C68_complete false e (map token_of ts) Closed); [apply G_top, G_single; exact G|exact I]. }
  rewrite app_nil_r in P. destruct P as [n P]. exists e, n. split; [|exact D]. intros k K. unfold read, Scan.scan. change (Scan.Scanner (repr N v) 0 [] []) with (ScanProofs3.begin (repr N v)).
  rewrite E, R'. cbn [ScanProofs3.begin Scan.errors]. rewrite T. cbn [Scan.tokens ScanProofs3.begin map app]. rewrite (P k K). reflexivity.
Qed.
End WithNames.
