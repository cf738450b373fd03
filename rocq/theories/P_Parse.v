(** C68: the parser of expressions accepts exactly the documented grammar, with the documented precedences. *)
From Coq Require Import String Arith Lia.
From Verif Require Import Base Parse ParseSpec ParseProofs ParseSound ParseComp ParseTerm ParseLine.
Local Open Scope nat_scope.

(** Whatever the parser returns is derived by the grammar from the tokens it has consumed: no token is lost, doubled or
    reordered, and every operator has the operands the grammar gives it. *)
Theorem C68_sound (comma : bool) t e rest : parses comma t e rest ->
  exists w m, visible t = w ++ visible rest /\ G (if comma then 11 else 12) e w m.
Proof. intros [n H]. exact (parse_sound n comma t e rest (H n (le_n n))). Qed.
Print Assumptions C68_sound.

Lemma ends_stop comma rest : ends comma rest -> stop 9 rest /\ assign_at rest = None /\ (comma = false -> bare_stop rest).
Proof.
  unfold ends. intros H.
  assert (Z : forall x, peek rest = Some x -> match x with TCloseP | TCloseS | TCloseB | TColon | TThen | TElif | TElse | TEllipsis | TUnderscore | TSelf | TOpenB | TOther _ | TComma => True
     | TInt _ | TComplex _ | TStr _ | TNil | TTrue | TFalse | TExit | TFun _ | TOpenP | TOpenS | TIf | TAt => hd_error rest = Some TNewLine
     | TId y => hd_error rest = Some TNewLine /\ y <> "max"%string /\ y <> "min"%string | _ => False end) by (intros x X; rewrite X in H; destruct x; auto).
  assert (Cm : peek rest = Some TComma -> comma = true) by (intros X; now rewrite X in H). clear H.
  assert (HD : forall y r, rest = y :: r -> y <> TNewLine -> peek rest = Some y) by (intros y r -> N; now apply peek_nn).
  split; [split|split].
  - intros _. split; [|split].
    + destruct rest as [|y r]; [exact I|]. simpl. destruct y; try exact I; specialize (HD _ _ eq_refl ltac:(discriminate)); specialize (Z _ HD); discriminate Z.
    + destruct rest as [|y r]; [reflexivity|]. destruct y; try reflexivity; specialize (HD _ _ eq_refl ltac:(discriminate)); specialize (Z _ HD); try discriminate Z. destruct Z as [Z _]. discriminate Z.
    + intros X. exact (Z _ X).
  - intros j J. unfold op_stop, op_at, long_op. destruct (peek rest) as [x|]; [specialize (Z x eq_refl); destruct x; try contradiction|];
      do 10 (destruct j as [|j]; [try lia; exact I|]); lia.
  - unfold assign_at. destruct (peek rest) as [x|]; [|reflexivity]. specialize (Z x eq_refl). destruct x; try contradiction; try reflexivity. destruct Z as (_ & A & B).
    destruct (String.eqb_spec x "max"); [contradiction|]. destruct (String.eqb_spec x "min"); [contradiction|reflexivity].
  - intros ->. intros X. specialize (Cm X). discriminate.
Qed.
(** Every expression of the grammar is accepted, up to where it ends, with the tree the grammar gives it. *)
Theorem C68_complete (comma : bool) e w m rest : G (if comma then 11 else 12) e w m -> ends comma rest -> parses comma (w ++ rest) e rest.
Proof.
  intros g H. apply ends_stop in H. destruct H as (A & B & C). pose proof (G_complete _ _ _ _ g) as K. pose proof (okm_stop m _ A B) as O.
  destruct comma; [exact (K rest O A B)|exact (K rest O A B (C eq_refl))].
Qed.
Print Assumptions C68_complete.

(** The grammar is unambiguous: the tokens of an expression have one tree. *)
Theorem C68_unambiguous (comma : bool) e e' w m m' : G (if comma then 11 else 12) e w m -> G (if comma then 11 else 12) e' w m' -> e = e'.
Proof.
  intros g g'. destruct (C68_complete comma e w m [] g I) as [n A]. destruct (C68_complete comma e' w m' [] g' I) as [n' A'].
  specialize (A (n + n') ltac:(lia)). specialize (A' (n + n') ltac:(lia)). congruence.
Qed.
Print Assumptions C68_unambiguous.

(** The parser terminates on every input: it returns an expression, or reports an error. *)
Theorem C68_terminates comma t : (exists e rest, parses comma t e rest) \/ fails comma t.
Proof.
  set (n := 20 * length t + 13). pose proof (parse_total comma t n (le_n n)) as N.
  assert (M : forall m, n <= m -> parse m comma t = parse n comma t) by (intros m L; now apply parse_mono).
  destruct (parse n comma t) as [| |e rest] eqn:E; [contradiction|right|left; exists e, rest]; exists n; exact M.
Qed.
Print Assumptions C68_terminates.

(** A whole input, on one line, is accepted if and only if it is an expression of the grammar. *)
Theorem C68_accepts (comma : bool) e t : ~ In TNewLine t -> (parses comma t e [] <-> exists m, G (if comma then 11 else 12) e t m).
Proof.
  intros N. split.
  - intros H. destruct (C68_sound _ _ _ _ H) as (w & m & V & g). simpl in V. rewrite app_nil_r in V. exists m.
    assert (E : visible t = t). { clear -N. induction t as [|x t IH]; [reflexivity|]. simpl. simpl in N. destruct x; try (f_equal; apply IH; tauto). tauto. }
    rewrite E in V. now subst w.
  - intros [m g]. rewrite <- (app_nil_r t). exact (C68_complete comma e t m [] g I).
Qed.
Print Assumptions C68_accepts.

(** Newlines matter only before an opening parenthesis or bracket, a name, a literal, `fn` or `if`. *)
Theorem C68_newlines comma t t' e rest : same_lines t t' -> parses comma t e rest -> exists rest', parses comma t' e rest' /\ same_lines rest rest'.
Proof.
  intros S [n H]. assert (K : forall m, n <= m -> exists rest', parse m comma t' = Got e rest' /\ same_lines rest rest').
  { intros m L. specialize (H m L). pose proof (m_expr _ (sim_ps m) comma t t' S) as Q. unfold parse in *. rewrite H in Q.
    destruct (p_expr (ps m) comma t') as [| |e' r']; try contradiction. destruct Q as [<- Q]. eauto. }
  destruct (K n (le_n n)) as (r' & A & B). exists r'. split; [|exact B]. exists n. intros m L. rewrite <- A. apply parse_mono; [exact L|]. rewrite A. discriminate.
Qed.
Print Assumptions C68_newlines.

(** The documented precedences: of two operators between operands, the one higher in the table takes its operands
    first, and of two operators of the same precedence the left one; comparisons form one chain. *)
Definition two_operators (a : expr) (o1 : infix) (b : expr) (o2 : infix) (c : expr) : expr :=
  match o1, o2 with
  | IBin (BSym s1), IBin (BSym s2) =>
      if (precedence o1 =? 8) && (precedence o2 =? 8) then ECompare a [(s1, b); (s2, c)]
      else if precedence o1 <=? precedence o2 then apply o2 (apply o1 a b) c else apply o1 a (apply o2 b c)
  | _, _ => if precedence o1 <=? precedence o2 then apply o2 (apply o1 a b) c else apply o1 a (apply o2 b c)
  end.
Lemma infix_level k o a wa ma b wb mb : precedence o = k -> G k a wa ma -> ma <> Open -> G (k - 1) b wb mb -> (o = IBin BIs -> hd_error wb <> Some TKNot) ->
  (k = 8 -> G 7 a wa ma) -> G k (apply o a b) (wa ++ spelling o ++ wb) mb.
Proof.
  intros P ga M gb I H8. destruct (Nat.eq_dec k 8) as [->|N]; [|eapply G_infix; eauto].
  destruct o as [[s| | | |]| | |]; try discriminate P. apply (G_compare a wa ma [(s, b)]); [auto|exact M|]. now constructor.
Qed.
Theorem C68_precedence comma o1 o2 a wa b wb c wc rest :
  G 2 a wa Closed -> G 2 b wb Closed -> G 2 c wc Closed -> hd_error wb <> Some TKNot -> hd_error wc <> Some TKNot -> ends comma rest ->
  parses comma (wa ++ spelling o1 ++ wb ++ spelling o2 ++ wc ++ rest) (two_operators a o1 b o2 c) rest.
Proof.
  intros ga gb gc Nb Nc E. pose proof (prec_range o1) as R1. pose proof (prec_range o2) as R2.
  assert (U : forall k e w, 2 <= k <= 9 -> G 2 e w Closed -> G k e w Closed) by (intros; apply (G_up 2); [lia|lia|assumption]).
  assert (g : G 9 (two_operators a o1 b o2 c) (wa ++ spelling o1 ++ wb ++ spelling o2 ++ wc) Closed).
  { assert (Gen : ~ (precedence o1 = 8 /\ precedence o2 = 8) ->
      G 9 (if precedence o1 <=? precedence o2 then apply o2 (apply o1 a b) c else apply o1 a (apply o2 b c)) (wa ++ spelling o1 ++ wb ++ spelling o2 ++ wc) Closed).
    { intros N8. destruct (Nat.leb_spec (precedence o1) (precedence o2)) as [L|L].
      - apply (G_up (precedence o2)); [lia|lia|].
        assert (g1 : G (precedence o1) (apply o1 a b) (wa ++ spelling o1 ++ wb) Closed) by (eapply infix_level; try reflexivity; try (apply U; [lia|assumption]); try congruence; intros _; apply U; [lia|assumption]).
        replace (wa ++ spelling o1 ++ wb ++ spelling o2 ++ wc) with ((wa ++ spelling o1 ++ wb) ++ spelling o2 ++ wc) by (now rewrite <- !app_assoc).
        eapply infix_level; try reflexivity; try congruence; [apply (G_up (precedence o1)); [lia|lia|exact g1]|discriminate|apply U; [lia|assumption]|].
        intros Q. apply (G_up (precedence o1)); [lia|lia|exact g1].
      - apply (G_up (precedence o1)); [lia|lia|].
        assert (g1 : G (precedence o2) (apply o2 b c) (wb ++ spelling o2 ++ wc) Closed) by (eapply infix_level; try reflexivity; try (apply U; [lia|assumption]); try congruence; intros _; apply U; [lia|assumption]).
        eapply infix_level; try reflexivity; try (apply U; [lia|assumption]); try discriminate.
        + apply (G_up (precedence o2)); [lia|lia|exact g1].
        + intros _. rewrite hd_app; [exact Nb|]. exact (G_nonempty _ _ _ _ gb).
        + intros _. apply U; [lia|assumption]. }
    unfold two_operators. destruct o1 as [[s1| | | |]| | |], o2 as [[s2| | | |]| | |]; try (apply Gen; intros [Q1 Q2]; discriminate).
    destruct (Nat.eqb_spec (precedence (IBin (BSym s1))) 8) as [Q1|Q1], (Nat.eqb_spec (precedence (IBin (BSym s2))) 8) as [Q2|Q2]; cbn [andb]; try (apply Gen; intros [? ?]; contradiction).
    apply G_next; [lia|]. apply (G_compare a wa Closed [(s1, b); (s2, c)] ([TSym s1] ++ wb ++ [TSym s2] ++ wc)); [apply U; [lia|assumption]|discriminate|].
    cbn [app]. eapply Gchain_more; [exact Q1|apply U; [lia|exact gb]|discriminate|]. apply Gchain_last; [exact Q2|apply U; [lia|exact gc]]. }
  replace (wa ++ spelling o1 ++ wb ++ spelling o2 ++ wc ++ rest) with ((wa ++ spelling o1 ++ wb ++ spelling o2 ++ wc) ++ rest) by (now rewrite <- !app_assoc).
  eapply C68_complete; [|exact E]. destruct comma; [apply G_expr; exact g|apply G_top, G_single; exact g].
Qed.
Print Assumptions C68_precedence.

(** A prefix operator takes its operand before any infix operator, and after calls, indexing and fields. *)
Theorem C68_prefix comma u o a wa b wb rest :
  G 1 a wa Closed -> G 2 b wb Closed -> hd_error wb <> Some TKNot -> ends comma rest ->
  parses comma (unary_token u :: wa ++ spelling o ++ wb ++ rest) (apply o (EUnary u a) b) rest.
Proof.
  intros ga gb Nb E. pose proof (prec_range o) as R.
  assert (g : G 9 (apply o (EUnary u a) b) ((unary_token u :: wa) ++ spelling o ++ wb) Closed).
  { assert (gu : G 2 (EUnary u a) (unary_token u :: wa) Closed) by (apply G_unary, G_next; [lia|exact ga]).
    apply (G_up (precedence o)); [lia|lia|]. apply (infix_level _ o _ _ Closed); [reflexivity|apply (G_up 2); [lia|lia|exact gu]|discriminate|apply (G_up 2); [lia|lia|exact gb]|congruence|].
    intros _. apply (G_up 2); [lia|lia|exact gu]. }
  replace (unary_token u :: wa ++ spelling o ++ wb ++ rest) with (((unary_token u :: wa) ++ spelling o ++ wb) ++ rest) by (cbn [app]; now rewrite <- !app_assoc).
  eapply C68_complete; [|exact E]. destruct comma; [apply G_expr; exact g|apply G_top, G_single; exact g].
Qed.
Print Assumptions C68_prefix.

(** Assignment is the lowest, and groups to the right. *)
Theorem C68_assignment comma x q y q' e w m rest : G 9 e w m -> ends comma rest ->
  parses comma (TId x :: assign_spelling q ++ TId y :: assign_spelling q' ++ w ++ rest) (assign q (EVar x) (assign q' (EVar y) e)) rest.
Proof.
  intros g E.
  assert (v : forall z, G 9 (EVar z) [TId z] Closed) by (intros z; apply (G_up 1); [lia|lia|]; apply G_terminal, G_atom; reflexivity).
  replace (TId x :: assign_spelling q ++ TId y :: assign_spelling q' ++ w ++ rest) with (([TId x] ++ assign_spelling q ++ [TId y] ++ assign_spelling q' ++ w) ++ rest) by (cbn [app]; rewrite <- !app_assoc; cbn [app]; now rewrite <- !app_assoc).
  eapply C68_complete; [|exact E]. destruct comma.
  - eapply G_assign; [apply v|discriminate|discriminate|]. eapply G_assign; [apply v|discriminate|discriminate|]. apply G_expr. exact g.
  - eapply G_top_assign; [apply G_single, v|discriminate|discriminate|]. eapply G_top_assign; [apply G_single, v|discriminate|discriminate|]. apply G_top, G_single. exact g.
Qed.
Print Assumptions C68_assignment.

(** Refuted: that an operator may be applied to its left operand wherever it may stand alone.  `[x +]` and `(x +, y)` are errors, `(x +)` is not. *)
Theorem C68_partial_operator_refuted : exists x : string,
  (exists e, parses true [TOpenP; TId x; TSym SAdd; TCloseP] e []) /\
  fails true [TOpenS; TId x; TSym SAdd; TCloseS] /\
  fails true [TOpenP; TId x; TSym SAdd; TComma; TId x; TCloseP] /\
  (exists e, parses true [TOpenS; TSym SAdd; TCloseS] e []).
Proof.
  exists "x"%string. split; [|split; [|split]].
  - eexists. exists 100. intros m L. rewrite (parse_mono 100 m _ _ L); [reflexivity|discriminate].
  - exists 100. intros m L. rewrite (parse_mono 100 m _ _ L); [reflexivity|discriminate].
  - exists 100. intros m L. rewrite (parse_mono 100 m _ _ L); [reflexivity|discriminate].
  - eexists. exists 100. intros m L. rewrite (parse_mono 100 m _ _ L); [reflexivity|discriminate].
Qed.
Print Assumptions C68_partial_operator_refuted.

(** Refuted: that a line starting with a name starts a statement.  After a line `a`, a line `max = 3` is not an assignment to `max`: the two are `a max= 3`. *)
Theorem C68_next_line_refuted :
  parses false [TId "a"; TNewLine; TId "max"; TEquals; TInt 3] (EOpAssign AMax (EVar "a") (EInt 3)) [] /\
  parses false [TId "a"; TNewLine; TId "maz"; TEquals; TInt 3] (EVar "a") [TNewLine; TId "maz"; TEquals; TInt 3].
Proof.
  split; exists 100; intros m L; (rewrite (parse_mono 100 m _ _ L); [reflexivity|discriminate]).
Qed.
Print Assumptions C68_next_line_refuted.

(** The hypotheses are met: `-f x + [1, ...y] . (< 3) < z and if a then b else c`. *)
Example parse_example :
  parse 200 false [TSym SSub; TId "f"; TId "x"; TSym SAdd; TOpenS; TInt 1; TComma; TEllipsis; TId "y"; TCloseS; TDot; TOpenP; TSym SLt; TInt 3; TCloseP; TSym SLt; TId "z";
    TAnd; TIf; TId "a"; TThen; TId "b"; TElse; TId "c"; TNewLine; TId "q"] =
  Got (EAnd (EBinary (BSym SLt)
      (ECompose (EBinary (BSym SAdd) (EUnary UNeg (ECall (EVar "f") [EVar "x"])) (ELiteral LList [EInt 1; EUnroll (EVar "y")]))
                (EComma [ECall (EOpSwap (FBin (BSym SLt))) [EInt 3]] false false))
      (EVar "z")) (EIf (EVar "a") (EVar "b") (EVar "c"))) [TNewLine; TId "q"].
Proof. vm_compute. reflexivity. Qed.
Example precedence_example : two_operators (EVar "a") (IBin (BSym SAdd)) (EVar "b") (IBin (BSym SMul)) (EVar "c") = EBinary (BSym SAdd) (EVar "a") (EBinary (BSym SMul) (EVar "b") (EVar "c")) /\
  two_operators (EVar "a") (IBin (BSym SSub)) (EVar "b") (IBin (BSym SSub)) (EVar "c") = EBinary (BSym SSub) (EBinary (BSym SSub) (EVar "a") (EVar "b")) (EVar "c") /\
  two_operators (EVar "a") (IBin (BSym SLt)) (EVar "b") (IBin (BSym SLe)) (EVar "c") = ECompare (EVar "a") [(SLt, EVar "b"); (SLe, EVar "c")].
Proof. repeat split. Qed.
Example same_lines_example : same_lines [TId "a"; TNewLine; TSym SAdd; TNewLine; TSym SSub; TId "b"] [TId "a"; TSym SAdd; TSym SSub; TId "b"].
Proof.
  eapply same_next; [reflexivity|reflexivity|simpl; split; discriminate|]. eapply same_next; [reflexivity|reflexivity|discriminate|].
  eapply same_next; [reflexivity|reflexivity|discriminate|]. eapply same_next; [reflexivity|reflexivity|simpl; split; discriminate|]. now constructor.
Qed.
Example fails_example : fails true [TId "a"; TSym SAdd] /\ ends false [TNewLine; TId "q"].
Proof. split; [exists 100; intros m L; rewrite (parse_mono 100 m _ _ L); [reflexivity|discriminate]|]. repeat split; discriminate. Qed.
