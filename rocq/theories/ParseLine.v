From Coq Require Import String Arith Lia.
From Verif Require Import Base Parse ParseSpec ParseProofs ParseSound ParseComp ParseTerm.
Local Open Scope nat_scope.

Definition sres {A} (r r' : res A) : Prop :=
  match r, r' with Out, Out | Bad, Bad => True | Got a t, Got a' t' => a = a' /\ same_lines t t' | _, _ => False end.
Lemma same_peek t t' : same_lines t t' -> peek t = peek t'.
Proof. unfold peek. intros [? ? -> ->|? ? ? ? ? -> -> _ _]; reflexivity. Qed.
Lemma same_advance t t' : same_lines t t' -> same_lines (advance t) (advance t').
Proof. unfold advance. intros [? ? -> ->|? ? ? ? ? -> -> _ H]; [now constructor|exact H]. Qed.
Lemma same_peek2 t t' : same_lines t t' -> peek2 t = peek2 t'.
Proof. intros H. apply same_peek. now apply same_advance. Qed.
Lemma same_long t t' : same_lines t t' -> match long_op t, long_op t' with Some (o, r), Some (o', r') => o = o' /\ same_lines r r' | None, None => True | _, _ => False end.
Proof.
  intros H. unfold long_op. rewrite (same_peek _ _ H), (same_peek2 _ _ H). pose proof (same_advance _ _ H) as A. pose proof (same_advance _ _ A) as A2.
  destruct (peek t') as [[]|]; try exact I; [destruct (is_not (peek2 t'))| |destruct (is_in (peek2 t'))]; auto.
Qed.
Lemma same_partial t t' : same_lines t t' -> match partial_op t, partial_op t' with Some (o, r), Some (o', r') => o = o' /\ same_lines r r' | None, None => True | _, _ => False end.
Proof.
  intros H. pose proof (same_long _ _ H) as L. unfold partial_op. rewrite (same_peek _ _ H). pose proof (same_advance _ _ H) as A.
  destruct (peek t') as [[]|]; try exact L. destruct s; auto.
Qed.
Lemma same_unary t t' : same_lines t t' -> unary_fun t = unary_fun t'.
Proof. intros H. unfold unary_fun. now rewrite (same_peek _ _ H), (same_peek2 _ _ H). Qed.
Lemma same_op k t t' : same_lines t t' -> match op_at k t, op_at k t' with Some (o, r), Some (o', r') => o = o' /\ same_lines r r' | None, None => True | _, _ => False end.
Proof.
  intros H. pose proof (same_long _ _ H) as L. pose proof (same_advance _ _ H) as A. unfold op_at. rewrite (same_peek _ _ H).
  assert (L' : match match long_op t with Some (o, r) => Some (IBin o, r) | None => None end, match long_op t' with Some (o, r) => Some (IBin o, r) | None => None end with
    Some (o, r), Some (o', r') => o = o' /\ same_lines r r' | None, None => True | _, _ => False end).
  { destruct (long_op t) as [[o r]|], (long_op t') as [[o' r']|]; try contradiction; [|exact I]. destruct L as [-> L]. auto. }
  do 10 (destruct k as [|k]; [destruct (peek t') as [[]|]; try exact I; try exact L'; try (destruct s; try exact I; try exact L'; auto); auto|]). destruct (peek t') as [[]|]; exact I.
Qed.
Lemma same_assign t t' : same_lines t t' -> match assign_at t, assign_at t' with Some (o, r), Some (o', r') => o = o' /\ same_lines r r' | None, None => True | _, _ => False end.
Proof.
  intros H. pose proof (same_advance _ _ H) as A. pose proof (same_advance _ _ A) as A2. unfold assign_at. rewrite (same_peek _ _ H), (same_peek2 _ _ H).
  destruct (peek t') as [[]|]; try exact I; auto. destruct (String.eqb x "max"); [|destruct (String.eqb x "min"); [|exact I]]; destruct (is_equals (peek2 t')); auto.
Qed.
(** without the leading newlines *)
Lemma same_skip t t' : same_lines t t' -> match skip t, skip t' with [], [] => True | x :: r, x' :: r' => x = x' /\ same_lines r r' | _, _ => False end.
Proof. intros [? ? -> ->|? ? ? ? ? -> -> _ H]; auto. Qed.
Lemma prefix_skip t : fst (prefix t) = fst (prefix (skip t)) /\ (fst (prefix t) = [] -> snd (prefix t) = t) /\ (fst (prefix t) <> [] -> snd (prefix t) = snd (prefix (skip t))).
Proof.
  assert (N : forall u, skip u = u -> fst (prefix u) = [] -> snd (prefix u) = u).
  { intros u U. destruct u as [|x u]; [reflexivity|]. destruct x; try (intros; reflexivity).
    - exfalso. pose proof (skip_head (TNewLine :: u) TNewLine u U). congruence.
    - destruct s; try (intros; reflexivity). simpl. destruct (prefix u). discriminate.
    - simpl. destruct (prefix u). discriminate.
    - simpl. destruct (prefix u). discriminate. }
  induction t as [|x t IH]; [auto|]. destruct x; try (split; [reflexivity|split; [apply N; reflexivity|reflexivity]]).
  cbn [prefix skip]. destruct IH as (A & B & C). destruct (prefix t) as [[|o l] r] eqn:E; cbn [fst snd] in *.
  - split; [exact A|]. split; [reflexivity|]. intros H. now elim H.
  - split; [exact A|]. split; [discriminate|]. exact C.
Qed.
Lemma same_prefix t : forall t', same_lines t t' -> fst (prefix t) = fst (prefix t') /\ same_lines (snd (prefix t)) (snd (prefix t')).
Proof.
  remember (length t) as n eqn:En. assert (L : length t <= n) by lia. clear En. revert t L.
  induction n as [|n IH]; intros t L t' H.
  { destruct t; [|simpl in L; lia]. pose proof (same_skip _ _ H) as K. destruct (prefix_skip t') as (A & B & C). simpl in K. destruct (skip t'); [|contradiction]. cbn in A. rewrite A. split; [reflexivity|]. rewrite B by exact A. exact H. }
  destruct (prefix_skip t) as (A & B & C), (prefix_skip t') as (A' & B' & C'). pose proof (same_skip _ _ H) as K. pose proof (skip_le t) as Lt.
  assert (F : fst (prefix (skip t)) = fst (prefix (skip t')) /\ (fst (prefix (skip t)) <> [] -> same_lines (snd (prefix (skip t))) (snd (prefix (skip t'))))).
  { destruct (skip t) as [|x r] eqn:E, (skip t') as [|x' r'] eqn:E'; try contradiction; [split; [reflexivity|now intros X; elim X]|].
    destruct K as [<- K]. simpl in Lt. destruct (IH r ltac:(lia) r' K) as [I1 I2].
    pose proof (skip_head _ _ _ E) as NN.
    destruct x; try (split; [reflexivity|now intros X; elim X]); try contradiction.
    - destruct s; try (split; [reflexivity|now intros X; elim X]). cbn [prefix]. destruct (prefix r), (prefix r'). cbn [fst snd] in *. subst. auto.
    - cbn [prefix]. destruct (prefix r), (prefix r'). cbn [fst snd] in *. subst. auto.
    - cbn [prefix]. destruct (prefix r), (prefix r'). cbn [fst snd] in *. subst. auto. }
  destruct F as [F1 F2]. split; [congruence|].
  destruct (fst (prefix t)) as [|o l] eqn:Q.
  - rewrite B by reflexivity. rewrite B' by congruence. exact H.
  - rewrite C by discriminate. rewrite C' by congruence. apply F2. congruence.
Qed.
Lemma same_head t t' : same_lines t t' ->
  (match hd_error t with Some TOpenP => 1 | Some TOpenS => 2 | _ => 0 end) = (match hd_error t' with Some TOpenP => 1 | Some TOpenS => 2 | _ => 0 end) /\ bare_start t = bare_start t' /\
  (forall x r, t = x :: r -> hd_error t' = Some x -> same_lines r (tl t') \/ x = TNewLine).
Proof.
  intros H. destruct H as [t t' A B|t t' x r r' A B C D].
  - destruct t as [|x t]; [|destruct x; try discriminate A]; (destruct t' as [|x' t']; [|destruct x'; try discriminate B]); repeat split; try discriminate; intros ? ? [= <- <-] ?; auto.
  - assert (X : (exists n, t = TNewLine :: n) \/ t = x :: r) by (destruct t as [|y t]; [discriminate|]; destruct y; try (right; exact A); left; eauto).
    assert (X' : (exists n, t' = TNewLine :: n) \/ t' = x :: r') by (destruct t' as [|y t']; [discriminate|]; destruct y; try (right; exact B); left; eauto).
    destruct X as [[n ->]| ->], X' as [[n' ->]| ->].
    + repeat split. intros ? ? [= <- <-] _. auto.
    + assert (line_matters x = false). { destruct (line_matters x) eqn:E; [|reflexivity]. destruct (C eq_refl) as [C1 _]. specialize (C1 eq_refl). pose proof (skip_head _ _ _ A). simpl in C1. congruence. }
      split; [now destruct x|]. split; [now destruct x|]. intros ? ? [= <- <-] Q. auto.
    + assert (line_matters x = false). { destruct (line_matters x) eqn:E; [|reflexivity]. destruct (C eq_refl) as [_ C1]. specialize (C1 eq_refl). pose proof (skip_head _ _ _ A). simpl in C1. congruence. }
      split; [now destruct x|]. split; [now destruct x|]. intros y ? [= <- <-] Q. simpl in Q. pose proof (skip_head _ _ _ A). congruence.
    + split; [reflexivity|]. split; [|intros ? ? [= <- <-] _; auto]. simpl. destruct x; try reflexivity. now rewrite (same_peek _ _ D).
Qed.
Record sim (P : parsers) : Prop := Sim {
  m_expr c t t' : same_lines t t' -> sres (p_expr P c t) (p_expr P c t');
  m_bare t t' : same_lines t t' -> sres (p_bare P t) (p_bare P t');
  m_level k t t' : same_lines t t' -> sres (p_level P k t) (p_level P k t');
  m_loop k t t' : same_lines t t' -> sres (p_loop P k t) (p_loop P k t');
  m_terminal t t' : same_lines t t' -> sres (p_terminal P t) (p_terminal P t');
  m_suffix e t t' : same_lines t t' -> sres (p_suffix P e t) (p_suffix P e t');
  m_arg t t' : same_lines t t' -> sres (p_arg P t) (p_arg P t');
  m_args c t t' : same_lines t t' -> sres (p_args P c t) (p_args P c t');
  m_items d t t' : same_lines t t' -> sres (p_items P d t) (p_items P d t');
  m_then c t t' : same_lines t t' -> sres (p_then P c t) (p_then P c t')
}.
Lemma sres_bind {A B} (r r' : res A) (f f' : A -> list token -> res B) : sres r r' -> (forall a t t', same_lines t t' -> sres (f a t) (f' a t')) -> sres (bind r f) (bind r' f').
Proof. destruct r as [| |a t], r' as [| |a' t']; try contradiction; try (intros; exact I). intros [<- H] K. now apply K. Qed.
Lemma sres_expect p t t' : same_lines t t' -> sres (expect p t) (expect p t').
Proof. intros H. unfold expect. rewrite (same_peek _ _ H). destruct (p (peek t')); [|exact I]. split; [reflexivity|now apply same_advance]. Qed.
Lemma sres_optional f p t t' : (forall t t', same_lines t t' -> sres (f t) (f t')) -> same_lines t t' -> sres (optional f p t) (optional f p t').
Proof. intros F H. unfold optional. rewrite (same_peek _ _ H). destruct (p (peek t')); [|now apply F]. split; [reflexivity|exact H]. Qed.
Ltac slines := match goal with
  | H : same_lines ?t ?t' |- same_lines ?t ?t' => exact H
  | |- same_lines (advance _) (advance _) => apply same_advance; slines
  end.
Ltac sm S := repeat first
  [ exact I
  | progress cbv beta
  | apply (m_expr _ S); slines | apply (m_bare _ S); slines | apply (m_level _ S); slines | apply (m_loop _ S); slines | apply (m_terminal _ S); slines
  | apply (m_suffix _ S); slines | apply (m_arg _ S); slines | apply (m_args _ S); slines | apply (m_items _ S); slines | apply (m_then _ S); slines
  | apply sres_expect; slines
  | apply sres_optional; [intros|slines]
  | match goal with
    | |- sres (Got ?a ?t) (Got ?a ?t') => split; [reflexivity|slines]
    | |- sres (bind _ _) (bind _ _) => apply sres_bind; [|intros ? ? ? ?]
    | H : same_lines ?t ?t' |- context [peek2 ?t] => rewrite (same_peek2 t t' H)
    | H : same_lines ?t ?t' |- context [peek (advance ?t)] => rewrite (same_peek (advance t) (advance t') (same_advance t t' H))
    | H : same_lines ?t ?t' |- context [peek ?t] => rewrite (same_peek t t' H)
    | |- sres (match ?x with _ => _ end) (match ?x with _ => _ end) => destruct x
    end ].
Lemma sim_comma P t t' : sim P -> same_lines t t' -> sres (comma_expr P t) (comma_expr P t').
Proof. intros S H. unfold comma_expr. sm S. Qed.
Lemma sim_slit P e t t' : sim P -> same_lines t t' -> sres (slice_literal P e t) (slice_literal P e t').
Proof. intros S H. unfold slice_literal. sm S. Qed.
Lemma sim_plain P t t' : sim P -> same_lines t t' -> sres (plain_arg P t) (plain_arg P t').
Proof.
  intros S H. unfold plain_arg. pose proof (same_partial _ _ H) as K. destruct (partial_op t) as [[o r]|], (partial_op t') as [[o' r']|]; try contradiction.
  - destruct K as [<- K]. sm S.
  - apply sres_bind; [now apply (m_expr _ S)|]. intros e u u' U. pose proof (same_partial _ _ U) as L. destruct (partial_op u) as [[o r]|], (partial_op u') as [[o' r']|]; try contradiction.
    + destruct L as [<- L]. sm S.
    + sm S.
Qed.
Lemma sim_step P : sim P -> sim (Parsers (expr11 P) (bare10 P) (level P) (loop P) (terminal P) (suffix P) (arg P) (args P) (items P) (then_else P)).
Proof.
  intros S. split; cbn [p_expr p_bare p_level p_loop p_terminal p_suffix p_arg p_args p_items p_then].
  - intros c t t' H. unfold expr11. apply sres_bind.
    + destruct c; sm S.
    + intros e u u' U. pose proof (same_assign _ _ U) as L. destruct (assign_at u) as [[q r]|], (assign_at u') as [[q' r']|]; try contradiction; [destruct L as [<- L]|]; sm S.
  - intros t t' H. unfold bare10. sm S.
  - intros k t t' H. unfold level. destruct (k <=? 2); [|sm S]. unfold unary2. destruct (same_prefix _ _ H) as [A B]. destruct (prefix t), (prefix t'). cbn [fst snd] in *. subst. sm S.
  - intros k t t' H. unfold loop. pose proof (same_op k _ _ H) as L. destruct (op_at k t) as [[q r]|], (op_at k t') as [[q' r']|]; try contradiction; [destruct L as [<- L]|]; sm S.
  - intros t t' H. pose proof (same_advance _ _ H) as A. unfold terminal, list_or_slice, dict_or_set.
    rewrite (same_peek _ _ H). destruct (peek t') as [x|]; [|exact I]. destruct x; sm S; try (apply sim_comma; assumption); try (apply sim_slit; assumption).
  - intros e t t' H. destruct (same_head _ _ H) as (A & B & C). pose proof (same_peek _ _ H) as Pk. pose proof (same_advance _ _ H) as Ad.
    assert (O : sres (if bare_start t then bind (p_terminal P t) (fun a t => p_suffix P (ECall e [a]) t)
      else match peek t with
        | Some TArrow => match peek (advance t) with Some (TId x) => p_suffix P (EGetField e x) (advance (advance t)) | _ => Bad end
        | _ => Got e t
        end) (if bare_start t' then bind (p_terminal P t') (fun a t => p_suffix P (ECall e [a]) t)
      else match peek t' with
        | Some TArrow => match peek (advance t') with Some (TId x) => p_suffix P (EGetField e x) (advance (advance t')) | _ => Bad end
        | _ => Got e t'
        end)) by (rewrite B; sm S).
    assert (X : (exists r r', t = TOpenP :: r /\ t' = TOpenP :: r' /\ same_lines r r') \/ (exists r r', t = TOpenS :: r /\ t' = TOpenS :: r' /\ same_lines r r') \/
       (match hd_error t with Some (TOpenP | TOpenS) => False | _ => True end /\ match hd_error t' with Some (TOpenP | TOpenS) => False | _ => True end)).
    { destruct t as [|x r]; [right; right; split; [exact I|]; destruct t' as [|[] ?]; try exact I; discriminate A|].
      destruct x; try (right; right; split; [exact I|]; destruct t' as [|[] ?]; try exact I; discriminate A).
      - destruct t' as [|x' r']; [discriminate A|]. destruct x'; try discriminate A. left. exists r, r'. repeat split. destruct (C TOpenP r eq_refl eq_refl) as [Q|Q]; [exact Q|discriminate].
      - destruct t' as [|x' r']; [discriminate A|]. destruct x'; try discriminate A. right; left. exists r, r'. repeat split. destruct (C TOpenS r eq_refl eq_refl) as [Q|Q]; [exact Q|discriminate]. }
    destruct X as [(r & r' & -> & -> & R)|[(r & r' & -> & -> & R)|[X X']]].
    + unfold suffix. rewrite (same_peek _ _ R).
      assert (Q : sres (bind (comma_expr P (TOpenP :: r)) (fun l t => p_suffix P (ECall e (fst l)) t)) (bind (comma_expr P (TOpenP :: r')) (fun l t => p_suffix P (ECall e (fst l)) t))).
      { apply sres_bind; [now apply sim_comma|]. intros. now apply (m_suffix _ S). }
      destruct (peek r') as [[]|]; try exact Q; try exact I. apply (m_suffix _ S). slines.
    + unfold suffix, index_or_slice. sm S.
    + assert (Eq : forall u, match hd_error u with Some (TOpenP | TOpenS) => False | _ => True end -> suffix P e u = (if bare_start u then bind (p_terminal P u) (fun a t => p_suffix P (ECall e [a]) t)
      else match peek u with
        | Some TArrow => match peek (advance u) with Some (TId x) => p_suffix P (EGetField e x) (advance (advance u)) | _ => Bad end
        | _ => Got e u
        end)). { intros u U. unfold suffix. destruct u as [|[] u]; try reflexivity; contradiction. }
      rewrite (Eq t X), (Eq t' X'). exact O.
  - intros t t' H. assert (M : sres (marked_arg P t) (marked_arg P t')). { pose proof (sim_plain _ _ _ S H) as L. unfold marked_arg. rewrite (same_peek _ _ H), (same_peek2 _ _ H). destruct (peek t') as [[]|]; try exact L; sm S. }
    unfold arg. rewrite (same_unary _ _ H), (same_peek2 _ _ H). destruct (unary_fun t'); [|exact M]. destruct (ends_arg (peek2 t')); [|exact M]. sm S.
  - intros c t t' H. unfold args. sm S.
  - intros d t t' H. unfold items, item. sm S.
  - intros c t t' H. unfold then_else. sm S.
Qed.
Lemma sim_ps n : sim (ps n).
Proof. induction n as [|n IH]; [split; intros; exact I|]. exact (sim_step _ IH). Qed.
