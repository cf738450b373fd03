From Verif Require Import Base BaseProofs Ptr Native Value Err Iter IterSpec IterProofs Seq SeqSpec SeqProofs Pattern PatternSpec PatternProofs.
Local Open Scope Z_scope.

Section Fun.
  Variables X O V S : Type.
  Variable look : S -> V -> shape V.
  Variable char : Z -> V.
  Notation lv := (lvalue X O).
  Notation one := (one X O V S look char).
  Notation each := (each X O V S look char).
  Notation binds := (binds X O V S look char).
  Notation splits := (splits V S look char).
  Notation elements := (elements V S look char).

  Lemma splits_unique : forall s v a b c x a' b' c' x', splits s v a b c x -> splits s v a' b' c' x' -> length a = length a' -> length c = length c' ->
    a = a' /\ c = c' /\ x = x'.
  Proof.
    intros s v a b c x a' b' c' x' H H' La Lc. destruct H as [k a b c H|a b c H]; destruct H' as [k' a' b' c' H'|a' b' c' H']; rewrite H in H'; inversion H'; subst.
    - destruct (app_same_length a a' (b ++ c) (b' ++ c') La H2) as [-> Hbc].
      assert (Lb : length b = length b'). { apply (f_equal (@length V)) in Hbc. rewrite !app_length in Hbc. lia. }
      destruct (app_same_length b b' c c' Lb Hbc) as [-> ->]. auto.
    - rewrite !map_length in *. destruct (app_same_length a a' (b ++ c) (b' ++ c') La H1) as [-> Hbc].
      assert (Lb : length b = length b'). { apply (f_equal (@length Z)) in Hbc. rewrite !app_length in Hbc. lia. }
      destruct (app_same_length b b' c c' Lb Hbc) as [-> ->]. auto.
  Qed.
  Lemma each_fun : forall s (ts : list lv), Forall (fun t => forall x b b', one s t x b -> one s t x b' -> b = b') ts ->
    forall l b b', each s ts l b -> each s ts l b' -> b = b'.
  Proof.
    intros s ts H. induction H as [|t ts Ht Hts IH]; intros l b b' H H'; inversion H; subst; inversion H'; subst; [reflexivity|].
    f_equal; eauto.
  Qed.
  Lemma repeat_star : forall m (a : list lv) x c, is_variadic x = true -> repeat LEmpty m <> a ++ x :: c.
  Proof. intros m a x c Hx H. pose proof (no_star_repeat X O m) as Hn. rewrite H, existsb_mid in Hn by exact Hx. discriminate. Qed.
  Lemma one_fun : forall s (t : lv) x b b', one s t x b -> one s t x b' -> b = b'.
  Proof.
    intros s t. induction t as [| |tg|tg|ts IH] using lvalue_rect'; intros x b b' H H'; inversion H; subst; inversion H'; subst; try reflexivity.
    match goal with A : binds _ _ _ b, B : binds _ _ _ b' |- _ => clear H H'; rename A into H, B into H' end.
    assert (Hsplit : forall pre st post pre' st' post' front mid back y front' mid' back' y' c1 c2 c1' c2',
      ts = pre ++ st :: post -> ts = pre' ++ st' :: post' -> is_variadic st = true -> is_variadic st' = true ->
      splits s x front mid back y -> splits s x front' mid' back' y' -> each s pre front c1 -> each s post back c2 -> each s pre' front' c1' -> each s post' back' c2' ->
      st = st' /\ y = y' /\ c1 = c1' /\ c2 = c2').
    { intros pre st post pre' st' post' front mid back y front' mid' back' y' c1 c2 c1' c2' E1 E2 Hs Hs' Sp Sp' H1 H2 H1' H2'.
      rewrite E1 in E2. destruct (star_unique X O pre pre' st st' post post' (each_no_star _ _ _ _ _ _ _ _ _ _ H1) (each_no_star _ _ _ _ _ _ _ _ _ _ H1') Hs Hs' E2) as (-> & -> & ->).
      subst ts. apply Forall_app in IH. destruct IH as [I1 I2]. inversion I2; subst.
      destruct (splits_unique _ _ _ _ _ _ _ _ _ _ Sp Sp') as (-> & -> & ->).
      - apply each_length in H1, H1'. lia. - apply each_length in H2, H2'. lia.
      - split; [reflexivity|]. split; [reflexivity|]. split; [eapply each_fun; [exact I1|exact H1|exact H1']|eapply each_fun; [|exact H2|exact H2']; assumption]. }
    inversion H; subst; inversion H'; subst;
    try match goal with
    | A : elements s x ?l, B : look s x = Sized _ |- _ => exfalso; exact (elements_not_sized _ _ _ _ _ _ _ _ A B)
    | A : splits s x _ _ _ _, B : look s x = Sized _ |- _ => exfalso; exact (splits_not_sized _ _ _ _ _ _ _ _ _ _ _ A B)
    | A : each s (_ ++ ?st :: _) _ _ |- _ => exfalso; apply each_no_star in A; rewrite existsb_mid in A by reflexivity; discriminate
    end; try reflexivity.
    - pose proof (elements_unique _ _ _ _ _ _ _ _ H0 H2); subst. eapply each_fun; eassumption.
    - destruct (Hsplit _ LStarEmpty _ _ LStarEmpty _ _ _ _ _ _ _ _ _ _ _ _ _ eq_refl (eq_sym H3) eq_refl eq_refl H0 H4 H1 H2 H5 H6) as (_ & _ & -> & ->). reflexivity.
    - destruct (Hsplit _ LStarEmpty _ _ (LStarNamed t) _ _ _ _ _ _ _ _ _ _ _ _ _ eq_refl (eq_sym H3) eq_refl eq_refl H0 H4 H1 H2 H5 H6) as (E1 & _). discriminate.
    - destruct (Hsplit _ (LStarNamed t) _ _ LStarEmpty _ _ _ _ _ _ _ _ _ _ _ _ _ eq_refl (eq_sym H3) eq_refl eq_refl H0 H4 H1 H2 H5 H6) as (E1 & _). discriminate.
    - destruct (Hsplit _ (LStarNamed t) _ _ (LStarNamed t0) _ _ _ _ _ _ _ _ _ _ _ _ _ eq_refl (eq_sym H3) eq_refl eq_refl H0 H4 H1 H2 H5 H6) as (E1 & -> & -> & ->). inversion E1. reflexivity.
  Qed.
  Lemma binds_fun : forall s ts v b b', binds s ts v b -> binds s ts v b' -> b = b'.
  Proof. intros s ts v b b' H H'. eapply (one_fun s (LTerms ts)); constructor; eassumption. Qed.

  (** patterns without nesting *)
  Lemma each_flat : forall s ts l, Forall (fun t : lv => match t with LEmpty | LNamed _ => True | _ => False end) ts -> length ts = length l -> exists b, each s ts l b.
  Proof.
    intros s ts. induction ts as [|t ts IH]; intros [|x l] Hf Hl; try discriminate; [eexists; constructor|].
    inversion Hf; subst. injection Hl as Hl. destruct (IH l H2 Hl) as [b Hb].
    destruct t; try contradiction; eexists; constructor; try eassumption; constructor.
  Qed.
  Lemma build_terms_no_this : forall len ts, Forall (fun t => (exists p, build t = Some p) <-> ~ In TThis (targets X O t)) (filter (fun t : lv => match t with LTerms _ => true | _ => false end) ts) ->
    forall i, (exists p, build_terms X O len i ts = Some p) <-> ~ In TThis (flat_map (targets X O) ts).
  Proof.
    intros len ts. induction ts as [|t ts IH]; intros HF i.
    - split; [intros _ []|intros _; eexists; reflexivity].
    - assert (HF' : Forall (fun t => (exists p, build t = Some p) <-> ~ In TThis (targets X O t)) (filter (fun t : lv => match t with LTerms _ => true | _ => false end) ts)).
      { cbn [filter] in HF. destruct t; try exact HF. inversion HF; assumption. }
      specialize (IH HF').
      assert (Hop : forall tg : target X O, (exists p, as_store_op tg = Some p) <-> tg <> TThis). { intros []; cbn; split; intros H; try eauto; try discriminate; [destruct H; discriminate|contradiction]. }
      assert (Hcomb : forall (A B C : Type) (f : A -> B -> C) (a : option A) (b : option B) (P Q : Prop), ((exists p, a = Some p) <-> P) -> ((exists p, b = Some p) <-> Q) ->
        ((exists p, match a, b with Some x, Some y => Some (f x y) | _, _ => None end = Some p) <-> P /\ Q)).
      { intros A B C f a b P Q HP HQ. rewrite <- HP, <- HQ. split.
        - intros [p Hp]. destruct a, b; try discriminate. split; eauto.
        - intros [[p ->] [q ->]]. eauto. }
      assert (Htwo : forall (A B C D F G: Type) (f : A -> B -> C -> D -> F) (a : option (A * B)) (b : option (C * D)),
        match a, b with Some (x, y), Some (z, w) => Some (f x y z w) | _, _ => None end = match a, b with Some x, Some y => Some (f (fst x) (snd x) (fst y) (snd y)) | _, _ => None end).
      { intros A B C D F G f [[]|] [[]|]; reflexivity. }
      cbn [flat_map build_terms]. rewrite in_app_iff.
      destruct t as [| |tg|tg|sub]; cbn [targets].
      + rewrite IH. cbn. tauto.
      + rewrite IH. cbn. tauto.
      + rewrite (Htwo _ _ _ _ _ unit (fun o e l' e' => (Index i o :: l', e ++ e'))).
        rewrite (Hcomb _ _ _ (fun x y => (Index i (fst x) :: fst y, snd x ++ snd y)) _ _ _ _ (Hop tg) (IH _)). cbn. firstorder congruence.
      + rewrite (Htwo _ _ _ _ _ unit (fun o e l' e' => (Slice i (- (Z.of_nat len - i)) o :: l', e ++ e'))).
        rewrite (Hcomb _ _ _ (fun x y => (Slice i (- (Z.of_nat len - i)) (fst x) :: fst y, snd x ++ snd y)) _ _ _ _ (Hop tg) (IH _)). cbn. firstorder congruence.
      + rewrite (Htwo _ _ _ _ _ unit (fun o e l' e' => (Sub i o :: l', e ++ e'))).
        cbn [filter] in HF. inversion HF; subst.
        rewrite (Hcomb _ _ _ (fun x y => (Sub i (fst x) :: fst y, snd x ++ snd y)) _ _ _ _ H1 (IH _)). cbn. tauto.
  Qed.
  Lemma build_this : forall ts : list lv, (exists p, build (LTerms ts) = Some p) <-> ~ In TThis (targets X O (LTerms ts)).
  Proof.
    assert (H : forall t : lv, match t with LTerms ts => (exists p, build t = Some p) <-> ~ In TThis (targets X O t) | _ => True end).
    { induction t as [| |tg|tg|ts IH] using lvalue_rect'; try exact I. rewrite build_eq. cbv zeta.
      set (len := if existsb is_variadic ts then _ else _). cbn [targets]. rewrite <- (build_terms_no_this len ts) with (i := 0).
      - split; intros [p Hp]; destruct (build_terms X O len 0 ts) as [[]|]; try discriminate; eauto.
      - rewrite Forall_forall in *. intros t Ht. apply filter_In in Ht. destruct Ht as [Ht Ht']. specialize (IH t Ht). destruct t; try discriminate. exact IH. }
    intros ts. exact (H (LTerms ts)).
  Qed.
End Fun.
