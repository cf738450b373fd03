(** C69: reading what repr has written. *)
From Coq Require Import String Lia.
From Verif Require Import Base BaseProofs Native Value ValueSpec ValueProofs Err Iter Ops OpsProofs2 Str Coll CollProofs Repr ReprSpec ReprLex.
From Verif Require Scan ScanSpec ScanProofs Parse ParseSpec ParseComp P_Parse.
Import ParseSpec.
Local Open Scope Z_scope.

(** what may follow a value *)
Definition sep (q : list Z) : Prop := match q with [] => True | c :: _ => In c [44; 93; 41; 125; 58] end.
Lemma sep_word q : sep q -> ScanProofs.next_not Scan.is_word q.
Proof. destruct q as [|c q]; [auto|]. cbn [sep In ScanProofs.next_not]. intuition (subst; reflexivity). Qed.
Section WithNames.
  Context (N : names) (fmt : list Z -> value -> result value).

Definition reads_as (w : list Z) (v : value) : Prop :=
  exists ts e, (forall q, sep q -> lexes w q ts) /\ G 9 e (map token_of ts) Closed /\ hd_error (map token_of ts) <> Some (Parse.TSym Parse.SMul) /\ ts <> [] /\ Parse.is_unroll e = false /\ denote N fmt e = Some v.

Lemma up k e w m : (1 <= k <= 9)%nat -> G k e w m -> G 9 e w m.
Proof.
  intros L H. assert (D : forall d, (k + d <= 9)%nat -> G (k + d) e w m).
  { induction d as [|d IH]; intro Q; [rewrite Nat.add_0_r; exact H|]. rewrite Nat.add_succ_r. apply G_next; [lia|]. apply IH. lia. }
  replace 9%nat with (k + (9 - k))%nat by lia. apply D. lia.
Qed.
Lemma garg e w : G 9 e w Closed -> hd_error w <> Some (Parse.TSym Parse.SMul) -> Garg e w Full.
Proof. intros H M. eapply Garg_expr; [apply G_expr; exact H|exact M]. Qed.
Lemma atom9 e w : atom e w -> G 9 e w Closed.
Proof. intro H. apply (up 1); [lia|]. apply G_terminal. apply G_atom. exact H. Qed.
Lemma zero9 e w : G 0 e w Closed -> G 9 e w Closed.
Proof. intro H. apply (up 1); [lia|]. apply G_terminal. exact H. Qed.

(** numbers *)
Lemma text_i : Scan.text "i" = [105]. Proof. reflexivity. Qed.
Lemma lexes_dec n q : 0 <= n < 2 ^ 63 -> sep q -> lexes (Str.digits 10 n) q [Scan.IntLiteral n].
Proof. intros L S. pose proof (lexes_number n [] q L (or_introl (conj eq_refl (sep_word _ S)))) as H. rewrite app_nil_r in H. exact H. Qed.
Lemma digits_head n r : 0 <= n -> ScanProofs.next_not (fun c => (c =? 61) || (c =? 62)) (Str.digits 10 n ++ r) /\ Str.digits 10 n ++ r <> [].
Proof.
  intro L. destruct (dec_digits n L) as (ds & -> & F & _ & [->|(d & t & -> & _)]); [split; [reflexivity|discriminate]|].
  split; [|discriminate]. pose proof (Forall_inv F) as D. cbn [map app ScanProofs.next_not]. cbn beta in D. lia.
Qed.
Lemma lexes_neg n i q ts : 0 <= n -> lexes (Str.digits 10 n ++ i) q ts -> lexes (45 :: Str.digits 10 n ++ i) q (Scan.Minus :: ts).
Proof.
  intros L H. change (45 :: Str.digits 10 n ++ i) with ([45] ++ (Str.digits 10 n ++ i)). apply (lexes_app [45] _ q [Scan.Minus]); [|exact H].
  rewrite <- app_assoc. destruct (digits_head n (i ++ q) L) as [A B]. apply lexes_minus; assumption.
Qed.
Lemma denote_int n : is_int63 n -> 0 <= n -> denote N fmt (Parse.EInt n) = Some (VInt n).
Proof. intros I L. cbn [denote]. unfold of_int. rewrite (wrap63_id _ I). reflexivity. Qed.
Lemma denote_negint n : is_int63 n -> n < 0 -> denote N fmt (Parse.EUnary Parse.UNeg (Parse.EInt (- n))) = Some (VInt n).
Proof.
  intros I L. cbn [denote bind1]. unfold of_int at 1. cbn [unop_of unary_op]. unfold lift1, unary_sub_base. cbn [as_int_opt okay]. unfold of_int.
  unfold is_int63, MIN_INT, MAX_INT in I. destruct (Z.eq_dec n (- 4611686018427387904)) as [->|NE]; [vm_compute; reflexivity|].
  rewrite (wrap63_id (- n)) by (unfold is_int63, MIN_INT, MAX_INT; lia). rewrite Z.opp_involutive. rewrite i64_id by (unfold is_i64; lia). rewrite wrap63_id by (unfold is_int63, MIN_INT, MAX_INT; lia). reflexivity.
Qed.
(** an int, as an operand of + or - as well *)
Definition int_tokens (n : Z) : list Scan.token := if n <? 0 then [Scan.Minus; Scan.IntLiteral (- n)] else [Scan.IntLiteral n].
Definition int_expr (n : Z) : Parse.expr := if n <? 0 then Parse.EUnary Parse.UNeg (Parse.EInt (- n)) else Parse.EInt n.
Lemma int_lexes n q : is_int63 n -> ScanProofs.next_not Scan.is_word q -> lexes (show_dec n) q (int_tokens n).
Proof.
  intros I NX. unfold is_int63, MIN_INT, MAX_INT in I. unfold show_dec, int_tokens. destruct (Z.ltb_spec n 0).
  - pose proof (lexes_neg (- n) [] q [Scan.IntLiteral (- n)] ltac:(lia)) as H1. rewrite app_nil_r in H1. apply H1. pose proof (lexes_number (- n) [] q ltac:(lia) (or_introl (conj eq_refl NX))) as H2. rewrite app_nil_r in H2. exact H2.
  - pose proof (lexes_number n [] q ltac:(lia) (or_introl (conj eq_refl NX))) as H2. rewrite app_nil_r in H2. exact H2.
Qed.
Lemma int_derives n : G 2 (int_expr n) (map token_of (int_tokens n)) Closed /\ hd_error (map token_of (int_tokens n)) <> Some (Parse.TSym Parse.SMul) /\ int_tokens n <> [] /\ Parse.is_unroll (int_expr n) = false.
Proof.
  unfold int_expr, int_tokens. destruct (n <? 0); (split; [|split; [|split]]); try discriminate; try reflexivity; cbn [map token_of].
  - apply (G_unary Parse.UNeg (Parse.EInt (- n)) [Parse.TInt (- n)]). apply G_next; [lia|]. apply G_terminal. apply G_atom. reflexivity.
  - apply G_next; [lia|]. apply G_terminal. apply G_atom. reflexivity.
Qed.
Lemma int_denotes n : is_int63 n -> denote N fmt (int_expr n) = Some (VInt n).
Proof. intro I. unfold int_expr. destruct (Z.ltb_spec n 0); [apply denote_negint|apply denote_int]; auto. Qed.
Lemma reads_int n : is_int63 n -> reads_as (show_dec n) (VInt n).
Proof.
  intro I. destruct (int_derives n) as (A & B & C & D). exists (int_tokens n), (int_expr n). split; [intros q S; apply int_lexes; [auto|apply sep_word; auto]|]. split; [apply (up 2); [lia|exact A]|].
  repeat split; auto. apply int_denotes; auto.
Qed.
Lemma imag_expr im : 0 < im < 2 ^ 63 -> G 1 (Parse.EComplex im) [Parse.TComplex im] Closed /\ denote N fmt (Parse.EComplex im) = Some (VComplex 0 im).
Proof.
  intro L. split; [apply G_terminal, G_atom; reflexivity|]. cbn [denote]. unfold of_complex. cbn [fst snd]. replace (im =? 0) with false by lia. reflexivity.
Qed.
Lemma reads_complex re im : is_int63 re -> im <> 0 -> - 2 ^ 63 < im < 2 ^ 63 -> reads_as (repr_complex re im) (VComplex re im).
Proof.
  intros R I0 I. unfold repr_complex. destruct (Z.eqb_spec re 0) as [->|R0].
  - unfold show_dec. destruct (Z.ltb_spec im 0).
    + exists [Scan.Minus; Scan.ComplexLiteral (- im)], (Parse.EUnary Parse.UNeg (Parse.EComplex (- im))).
      split; [intros q S; cbn [app]; apply (lexes_neg (- im) (Scan.text "i")); [lia|]; apply (lexes_number (- im) [105]); [lia|right; split; [reflexivity|lia]]|].
      split; [apply (up 2); [lia|]; apply (G_unary Parse.UNeg _ [Parse.TComplex (- im)]); apply G_next; [lia|]; apply imag_expr; lia|].
      split; [discriminate|]. split; [discriminate|]. split; [reflexivity|]. cbn [denote bind1]. unfold of_complex. cbn [fst snd]. replace (- im =? 0) with false by lia.
      cbn [unop_of unary_op]. unfold lift1, unary_sub_base, c_neg, of_complex. cbn [as_int_opt okay fst snd]. change (i64 (- 0)) with 0. rewrite i64_id by (unfold is_i64; lia). rewrite Z.opp_involutive. replace (im =? 0) with false by lia. reflexivity.
    + exists [Scan.ComplexLiteral im], (Parse.EComplex im). destruct (imag_expr im ltac:(lia)) as [A B].
      split; [intros q S; apply (lexes_number im [105]); [lia|right; split; [reflexivity|lia]]|]. split; [apply (up 1); [lia|exact A]|]. repeat split; try discriminate. exact B.
  - destruct (int_derives re) as (A & B & C & D). destruct (imag_expr (Z.abs im) ltac:(lia)) as [A' B'].
    set (o := if im <? 0 then Parse.SSub else Parse.SAdd). set (t := if im <? 0 then Scan.Minus else Scan.Plus).
    assert (TO : token_of t = Parse.TSym o) by (unfold t, o; destruct (im <? 0); reflexivity).
    exists (int_tokens re ++ [t; Scan.ComplexLiteral (Z.abs im)]), (Parse.EBinary (Parse.BSym o) (int_expr re) (Parse.EComplex (Z.abs im))).
    split; [|split; [|split; [|split; [|split]]]].
    + intros q S. apply lexes_app; [apply int_lexes; [auto|reflexivity]|]. apply (lexes_app [32] _ q []); [apply lexes_space|].
      assert (LI : lexes (Str.digits 10 (Z.abs im) ++ Scan.text "i") q [Scan.ComplexLiteral (Z.abs im)]) by (apply (lexes_number (Z.abs im) [105]); [lia|right; split; [reflexivity|lia]]).
      unfold t. destruct (im <? 0).
      * change (Scan.text "- ") with ([45] ++ [32]). rewrite <- app_assoc. apply (lexes_app [45] _ q [Scan.Minus]); [apply lexes_minus; [reflexivity|discriminate]|]. apply (lexes_app [32] _ q []); [apply lexes_space|exact LI].
      * change (Scan.text "+ ") with ([43] ++ [32]). rewrite <- app_assoc. apply (lexes_app [43] _ q [Scan.Plus]); [apply lexes_plus|]. apply (lexes_app [32] _ q []); [apply lexes_space|exact LI].
    + apply (up 4); [lia|]. rewrite map_app. cbn [map]. rewrite TO. change (token_of (Scan.ComplexLiteral (Z.abs im))) with (Parse.TComplex (Z.abs im)).
      change [Parse.TSym o; Parse.TComplex (Z.abs im)] with (spelling (Parse.IBin (Parse.BSym o)) ++ [Parse.TComplex (Z.abs im)]).
      apply (G_infix 4 (Parse.IBin (Parse.BSym o)) (int_expr re) (map token_of (int_tokens re)) Closed (Parse.EComplex (Z.abs im)) [Parse.TComplex (Z.abs im)] Closed); try discriminate.
      * unfold o; destruct (im <? 0); reflexivity.
      * apply G_next; [lia|]. apply G_next; [lia|]. exact A.
      * change (4 - 1)%nat with 3%nat. apply G_next; [lia|]. apply G_next; [lia|]. exact A'.
    + rewrite map_app. destruct (map token_of (int_tokens re)) as [|x l] eqn:E; [destruct (int_tokens re); [congruence|discriminate]|]. cbn [app hd_error] in *. exact B.
    + intro Q. apply app_eq_nil in Q. destruct Q as [_ Q]. discriminate.
    + reflexivity.
    + cbn [denote bind1]. rewrite (int_denotes re R). cbn [bind1]. cbn [denote] in B'. injection B' as B'. rewrite B'. unfold o. unfold is_int63, MIN_INT, MAX_INT in R.
      destruct (Z.ltb_spec im 0); cbn [binop_of binary_op]; unfold lift2, sub_base, add_base, numeric; cbn [as_int_opt to_complex okay]; unfold c_sub, c_add, of_complex; cbn [fst snd].
      * replace (0 - Z.abs im) with im by lia. rewrite !i64_id by (unfold is_i64; lia). replace (im =? 0) with false by lia. rewrite Z.sub_0_r. reflexivity.
      * replace (0 + Z.abs im) with im by lia. rewrite !i64_id by (unfold is_i64; lia). replace (im =? 0) with false by lia. rewrite Z.add_0_r. reflexivity.
Qed.
(** strings *)
Lemma reads_str s : (forall c, In c s -> plain N c) -> reads_as (repr_str N s) (VStr s).
Proof.
  intro P. exists [Scan.StringLiteral s], (Parse.EStr s). assert (D : ScanSpec.decodes 39 (flat_map (escape_char N) s) s /\ ~ In 10 (flat_map (escape_char N) s)).
  { induction s as [|c s IH]; [split; [constructor|intros []]|]. destruct IH as [IH1 IH2]; [intros x X; apply P; right; exact X|]. cbn [flat_map]. assert (Pc := P c (or_introl eq_refl)).
    unfold escape_char at 1 3.
    assert (ES : forall x, ScanSpec.escape x c -> x <> 10 -> ScanSpec.decodes 39 ([92; x] ++ flat_map (escape_char N) s) (c :: s) /\ ~ In 10 ([92; x] ++ flat_map (escape_char N) s)).
    { intros x E NX. split; [apply (ScanSpec.d_escape 39 [] x c); auto|]. intros [Q|[Q|Q]]; [lia|congruence|auto]. }
    unfold plain in Pc.
    destruct (Z.eqb_spec c 0); [lia|]. destruct (Z.eqb_spec c 9) as [->|]; [apply ES; [unfold ScanSpec.escape; lia|lia]|]. destruct (Z.eqb_spec c 13) as [->|]; [apply ES; [unfold ScanSpec.escape; lia|lia]|].
    destruct (Z.eqb_spec c 10) as [->|]; [apply ES; [unfold ScanSpec.escape; lia|lia]|]. destruct (Z.eqb_spec c 34) as [->|]; [apply ES; [unfold ScanSpec.escape; lia|lia]|]. destruct (Z.eqb_spec c 92) as [->|]; [apply ES; [unfold ScanSpec.escape; lia|lia]|].
    replace (if c <? 128 then (32 <=? c) && (c <? 127) else printable N c) with true.
    2: { symmetry. destruct (Z.ltb_spec c 128); [lia|]. destruct Pc as [?|[?|[?|[?|[_ ?]]]]]; [lia|lia|lia|lia|assumption]. }
    cbn [app]. split; [apply ScanSpec.d_char; try lia; auto|]. intros [Q|Q]; [lia|auto]. }
  destruct D as [D ND]. split; [intros q _; apply decodes_nonl; assumption|]. split; [apply atom9; reflexivity|]. repeat split; discriminate.
Qed.
End WithNames.
