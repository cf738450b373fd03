From Verif Require Import Base BaseProofs Ptr Native Value Err Iter IterSpec IterProofs Seq SeqSpec SeqProofs Pattern PatternSpec.
Local Open Scope Z_scope.

(** ** indexing arithmetic *)
Lemma position_front : forall n k, (Z.of_nat k < n) -> n < 2 ^ 62 -> position n (Z.of_nat k) = Some k.
Proof.
  intros n k Hk Hn. unfold position, to_index. replace (Z.of_nat k >=? 0) with true by (symmetry; apply Z.geb_le; lia).
  change (2 ^ 62) with 4611686018427387904 in Hn.
  unfold u64, uwrap. rewrite Z.mod_small by (change (2 ^ 64) with 18446744073709551616; lia).
  replace (Z.of_nat k <? n) with true by (symmetry; apply Z.ltb_lt; lia). rewrite Nat2Z.id. reflexivity.
Qed.
Lemma position_back : forall n k, (Z.of_nat k < n) -> n < 2 ^ 62 -> position n (Z.of_nat k - n) = Some k.
Proof.
  intros n k Hk Hn. unfold position, to_index. replace (Z.of_nat k - n >=? 0) with false by (symmetry; rewrite Z.geb_leb; apply Z.leb_gt; lia).
  change (2 ^ 62) with 4611686018427387904 in Hn.
  replace (n + (Z.of_nat k - n)) with (Z.of_nat k) by lia.
  rewrite i64_id by (apply i64_bounds; lia).
  unfold u64, uwrap. rewrite Z.mod_small by (change (2 ^ 64) with 18446744073709551616; lia).
  replace (Z.of_nat k <? n) with true by (symmetry; apply Z.ltb_lt; lia). rewrite Nat2Z.id. reflexivity.
Qed.
Lemma select_range {A} (l : list A) : forall fuel a b, 0 <= a -> b <= Z.of_nat (length l) -> fuel = Z.to_nat (b - a) ->
  select l (step_range fuel a b 1) = firstn fuel (skipn (Z.to_nat a) l).
Proof.
  induction fuel as [|f IH]; intros a b Ha Hb Hf; [reflexivity|].
  cbn [step_range]. replace (a <? b) with true by (symmetry; apply Z.ltb_lt; lia).
  unfold select. cbn [flat_map]. fold (select l (step_range f (a + 1) b 1)). rewrite IH by lia.
  unfold pick. replace (a <? 0) with false by (symmetry; apply Z.ltb_ge; lia).
  replace (Z.to_nat (a + 1)) with (S (Z.to_nat a)) by lia.
  destruct (nth_error l (Z.to_nat a)) as [x|] eqn:Hx.
  - assert (Hs : skipn (Z.to_nat a) l = x :: skipn (S (Z.to_nat a)) l).
    { clear - Hx. revert l Hx. generalize (Z.to_nat a). induction n as [|n IHn]; intros [|y l] Hx; try discriminate; cbn in Hx.
      - inversion Hx; reflexivity. - cbn [skipn]. rewrite (IHn l Hx). destruct l; reflexivity. }
    rewrite Hs. reflexivity.
  - apply nth_error_None in Hx. lia.
Qed.
Lemma cut_mid {A} (a b c : list A) : Z.of_nat (length (a ++ b ++ c)) < 2 ^ 62 ->
  cut (Z.of_nat (length (a ++ b ++ c))) (a ++ b ++ c) (Z.of_nat (length a)) (- Z.of_nat (length c)) = Some b.
Proof.
  intros Hn. change (2 ^ 62) with 4611686018427387904 in Hn. unfold cut.
  pose proof (app_length a (b ++ c)) as H1. rewrite (app_length b c) in H1.
  set (n := Z.of_nat (length (a ++ b ++ c))) in *. assert (Hnn : n = Z.of_nat (length (a ++ b ++ c))) by reflexivity. clearbody n.
  assert (Hstop : to_index n (if - Z.of_nat (length c) =? 0 then n else - Z.of_nat (length c)) = n - Z.of_nat (length c)).
  { destruct (- Z.of_nat (length c) =? 0) eqn:H0; [apply Z.eqb_eq in H0|apply Z.eqb_neq in H0]; unfold to_index.
    - replace (n >=? 0) with true by (symmetry; apply Z.geb_le; lia). lia.
    - replace (- Z.of_nat (length c) >=? 0) with false by (symmetry; rewrite Z.geb_leb; apply Z.leb_gt; lia).
      rewrite i64_id by (apply i64_bounds; lia). lia. }
  rewrite Hstop. unfold to_index at 1 2.
  replace (Z.of_nat (length a) >=? 0) with true by (symmetry; apply Z.geb_le; lia).
  rewrite Hnn at 1. rewrite accept_all_select. f_equal.
  rewrite select_range; [|lia|lia|reflexivity].
  rewrite Nat2Z.id. rewrite skipn_app, skipn_all, Nat.sub_diag. cbn [skipn app].
  replace (Z.to_nat (n - Z.of_nat (length c) - Z.of_nat (length a))) with (length b) by lia.
  rewrite firstn_app, Nat.sub_diag, firstn_all. cbn [firstn]. apply app_nil_r.
Qed.

(** ** induction on patterns *)
Section Ind.
  Variables X O : Type.
  Variable P : lvalue X O -> Prop.
  Hypothesis H1 : P LEmpty.
  Hypothesis H2 : P LStarEmpty.
  Hypothesis H3 : forall t, P (LNamed t).
  Hypothesis H4 : forall t, P (LStarNamed t).
  Hypothesis H5 : forall ts, Forall P ts -> P (LTerms ts).
  Fixpoint lvalue_rect' (t : lvalue X O) : P t :=
    match t with
    | LEmpty => H1 | LStarEmpty => H2 | LNamed t => H3 t | LStarNamed t => H4 t
    | LTerms ts => H5 ts ((fix all ts : Forall P ts := match ts with [] => Forall_nil _ | t :: r => Forall_cons _ (lvalue_rect' t) (all r) end) ts)
    end.
End Ind.

Section Pat.
  Variables X O V S E : Type.
  Variable look : S -> V -> shape V.
  Variable char : Z -> V.
  Variable store : target X O -> stored V -> S -> outcome E S unit.
  Variable dict_get : V -> Z -> S -> outcome E S V.
  Notation lv := (lvalue X O).
  Notation apply := (apply X O V S E look char store dict_get).
  Notation index_at := (index_at V S E look char dict_get).
  Notation slice_of := (slice_of V S E look).
  Notation do_store := (do_store X O V S E store).
  Notation perform := (perform X O V S E store).
  Notation one := (one X O V S look char).
  Notation each := (each X O V S look char).
  Notation binds := (binds X O V S look char).
  Notation splits := (splits V S look char).
  Notation elements := (elements V S look char).
  Notation inside := (inside V S look char).
  Notation agree := (agree V S look char).
  Notation plain := (plain V S look char).
  Notation targets := (targets X O).
  Notation one_star := (one_star X O).
  Notation binding := (target X O * stored V)%type.

  Scheme one_mind := Minimality for PatternSpec.one Sort Prop
    with each_mind := Minimality for PatternSpec.each Sort Prop
    with binds_mind := Minimality for PatternSpec.binds Sort Prop.

  (** the loops as functions of their own *)
  Fixpoint build_terms (len : nat) (index : Z) (ts : list lv) : option (list (term X) * list O) :=
    match ts with
    | [] => Some ([], [])
    | t :: r =>
        let after_star := - (Z.of_nat len - index) in
        match t with
        | LEmpty => build_terms len (index + 1) r
        | LStarEmpty => build_terms len after_star r
        | LNamed l => match as_store_op l, build_terms len (index + 1) r with
                      | Some (o, e), Some (l', e') => Some (Index index o :: l', e ++ e') | _, _ => None end
        | LStarNamed l => match as_store_op l, build_terms len after_star r with
                          | Some (o, e), Some (l', e') => Some (Slice index after_star o :: l', e ++ e') | _, _ => None end
        | LTerms _ => match build t, build_terms len (index + 1) r with
                      | Some (p, e), Some (l', e') => Some (Sub index p :: l', e ++ e') | _, _ => None end
        end
    end.
  Lemma build_eq : forall ts, build (LTerms ts) =
    let v := existsb is_variadic ts in
    let len := if v then (length ts - 1)%nat else length ts in
    match build_terms len 0 ts with Some (l, e) => Some (Pattern len v l, e) | None => None end.
  Proof.
    intros ts. cbn [build]. set (v := existsb is_variadic ts). set (len := if v then (length ts - 1)%nat else length ts).
    clearbody len. cbv zeta.
    match goal with |- match ?A with _ => _ end = _ => assert (H : A = build_terms len 0 ts) end; [|rewrite H; reflexivity].
    generalize 0. induction ts as [|t r IH]; intros i; [reflexivity|]. cbn [build_terms].
    destruct t; rewrite IH; reflexivity.
  Qed.
  Fixpoint run (v : V) (ts : list (term X)) (stack : list O) (s : S) : outcome E S (list O) :=
    match ts with
    | [] => Good stack s
    | t :: r =>
        next S E (run v r stack s) (fun stack s =>
          match t with
          | Index i o => next S E (index_at v i s) (fun x s => do_store o (Old x) stack s)
          | Slice lo hi o => next S E (slice_of v lo hi s) (fun x s => do_store o x stack s)
          | Sub i q => next S E (index_at v i s) (fun x s => apply q x stack s)
          end)
    end.
  Lemma apply_eq : forall len va l v stack s, apply (Pattern len va l) v stack s =
    match check_length V S E look len va v s with Some e => Bad e s | None => run v l stack s end.
  Proof.
    intros. cbn [Pattern.apply]. destruct check_length; [reflexivity|]. induction l as [|t r IH]; [reflexivity|].
    cbn [run]. rewrite <- IH. reflexivity.
  Qed.

  (** ** small facts *)
  Lemma perform_app : forall a b s, perform (a ++ b) s = next S E (perform a s) (fun _ s => perform b s).
  Proof.
    induction a as [|[t x] a IH]; intros b s; [reflexivity|]. cbn [app PatternSpec.perform].
    destruct (store t x s); cbn [next]; auto.
  Qed.
  Definition lift (rest : list O) (r : outcome E S unit) : outcome E S (list O) :=
    match r with Good _ s => Good rest s | Bad e s => Bad e s | Crash => Crash end.

  Lemma inside_trans : forall s u v w, inside s u v -> inside s v w -> inside s u w.
  Proof. intros s u v w Huv Hvw. induction Hvw; [exact Huv|eapply inside_seq; eauto|eapply inside_str; eauto]. Qed.
  Lemma agree_refl : forall s v, agree s v s.
  Proof. intros s v w _. reflexivity. Qed.
  Lemma agree_inside : forall s0 v w s, inside s0 v w -> agree s0 v s -> agree s0 w s.
  Proof. intros s0 v w s Hw Ha u Hu. apply Ha. eapply inside_trans; eauto. Qed.
  Lemma elements_inside : forall s v l w, elements s v l -> In w l -> inside s v w.
  Proof.
    intros s v l w [[k H]|[c [H ->]]] Hin.
    - eapply inside_seq; [constructor|exact H|exact Hin].
    - apply in_map_iff in Hin. destruct Hin as [x [<- Hx]]. eapply inside_str; [constructor|exact H|exact Hx].
  Qed.
  Lemma elements_unique : forall s v l l', elements s v l -> elements s v l' -> l = l'.
  Proof. intros s v l l' [[k H]|[c [H ->]]] [[k' H']|[c' [H' ->]]]; rewrite H in H'; inversion H'; reflexivity. Qed.
  Lemma splits_elements : forall s v a b c x, splits s v a b c x -> elements s v (a ++ b ++ c).
  Proof. intros s v a b c x H. destruct H; [left; eauto|right]. eexists. split; [eassumption|]. rewrite !map_app. reflexivity. Qed.
  Lemma elements_splits : forall s v a b c, elements s v (a ++ b ++ c) -> exists x, splits s v a b c x.
  Proof.
    intros s v a b c [[k H]|[l [H Hl]]]; [eexists; eapply splits_seq; eassumption|].
    symmetry in Hl. apply map_eq_app in Hl. destruct Hl as (a' & bc & -> & <- & Hl).
    apply map_eq_app in Hl. destruct Hl as (b' & c' & -> & <- & <-). eexists. apply splits_chars. exact H.
  Qed.
  Lemma each_length : forall s ts l bs, each s ts l bs -> length ts = length l.
  Proof. intros s ts. induction ts; intros l bs H; inversion H; subst; [reflexivity|]. cbn [length]. f_equal. eauto. Qed.
  Lemma each_no_star : forall s ts l bs, each s ts l bs -> existsb is_variadic ts = false.
  Proof.
    intros s ts. induction ts; intros l bs H; inversion H; subst; [reflexivity|]. cbn [existsb].
    rewrite (IHts _ _ H5). match goal with H : one _ _ _ _ |- _ => inversion H; reflexivity end.
  Qed.
  Lemma binds_targets : forall s ts v bs, binds s ts v bs -> Forall (fun b => In (fst b) (targets (LTerms ts))) bs.
  Proof.
    intros s ts v bs H.
    apply (binds_mind X O V S look char s (fun t _ bs => Forall (fun b => In (fst b) (targets t)) bs)
      (fun ts _ bs => Forall (fun b => In (fst b) (targets (LTerms ts))) bs)
      (fun ts _ bs => Forall (fun b => In (fst b) (targets (LTerms ts))) bs)) with (y := v); try exact H; clear ts v bs H; cbn [PatternSpec.targets].
    - constructor.
    - intros. constructor; [left; reflexivity|constructor].
    - intros ts x bs _ H. exact H.
    - constructor.
    - intros t ts x xs b bs _ H1 _ H2. cbn [flat_map]. apply Forall_app. split.
      + eapply Forall_impl; [|exact H1]. intros; apply in_or_app; auto.
      + eapply Forall_impl; [|exact H2]. intros; apply in_or_app; auto.
    - auto.
    - intros pre post v f m b x b1 b2 _ _ H1 _ H2. rewrite flat_map_app. cbn [flat_map]. apply Forall_app. split.
      + eapply Forall_impl; [|exact H1]. intros; apply in_or_app; auto.
      + eapply Forall_impl; [|exact H2]. intros; apply in_or_app; right. cbn. auto.
    - intros pre t post v f m b x b1 b2 _ _ H1 _ H2. rewrite flat_map_app. cbn [flat_map]. apply Forall_app. split.
      + eapply Forall_impl; [|exact H1]. intros; apply in_or_app; auto.
      + constructor; [apply in_or_app; right; left; reflexivity|].
        eapply Forall_impl; [|exact H2]. intros; apply in_or_app; right. cbn. auto.
    - constructor.
    - constructor.
  Qed.
  Lemma each_targets : forall s ts l bs, each s ts l bs -> Forall (fun b => In (fst b) (targets (LTerms ts))) bs.
  Proof.
    intros s ts. induction ts as [|t ts IH]; intros l bs H; inversion H; subst; [constructor|]. cbn [PatternSpec.targets flat_map].
    apply Forall_app. split.
    - match goal with H : one _ _ _ _ |- _ => inversion H; subst end; [constructor|repeat constructor|].
      eapply Forall_impl; [|eapply binds_targets; eassumption]. intros; apply in_or_app; left; assumption.
    - eapply Forall_impl; [|eapply IH; eassumption]. intros; apply in_or_app; right; assumption.
  Qed.

  Section Fixed.
    Variable s0 : S.
    Definition silent (v : V) (Ts : list (target X O)) : Prop :=
      forall t x s, In t Ts -> agree s0 v s -> match store t x s with Good _ s' => agree s0 v s' | Bad _ _ => True | Crash => False end.
    Lemma perform_agree : forall v Ts bs s, silent v Ts -> Forall (fun b => In (fst b) Ts) bs -> agree s0 v s ->
      match perform bs s with Good _ s' => agree s0 v s' | Bad _ _ => True | Crash => False end.
    Proof.
      intros v Ts bs. induction bs as [|[t x] bs IH]; intros s HT Hb Ha; [exact Ha|]. inversion Hb; subst. cbn [PatternSpec.perform].
      specialize (HT t x s H1 Ha) as Hs. destruct (store t x s) as [a s'|e s'|]; [|exact I|exact Hs]. apply IH; assumption.
    Qed.

    (** the outcome of running something that should realise [Q] *)
    Definition realises (root : V) (Ts : list (target X O)) (Q : list binding -> Prop) (rest : list O) (s : S) (r : outcome E S (list O)) : Prop :=
      (exists bs, Q bs /\ Forall (fun b => In (fst b) Ts) bs /\ r = lift rest (perform (rev bs) s)) \/
      ((forall bs, ~ Q bs) /\ exists e s', r = Bad e s').

    (** running [lt] first (later terms), then [ft] *)
    Lemma realises_seq : forall root Ts (Q1 Q2 Q : list binding -> Prop) rest1 rest f1 f2 s,
      silent root Ts ->
      (forall s, agree s0 root s -> realises root Ts Q2 rest1 s (f2 s)) ->
      (forall s, agree s0 root s -> realises root Ts Q1 rest s (f1 rest1 s)) ->
      (forall b1 b2, Q1 b1 -> Q2 b2 -> Q (b1 ++ b2)) ->
      ((exists b, Q b) -> (exists b1, Q1 b1) /\ (exists b2, Q2 b2)) ->
      agree s0 root s ->
      realises root Ts Q rest s (next S E (f2 s) f1).
    Proof.
      intros root Ts Q1 Q2 Q rest1 rest f1 f2 s HT H2 H1 Hc Hd Ha.
      destruct (H2 s Ha) as [[b2 [Hq2 [Ht2 Hr2]]]|[Hno [e [s' Hr2]]]].
      - rewrite Hr2. pose proof (perform_agree root Ts (rev b2) s HT (Forall_rev Ht2) Ha) as Hag.
        destruct (perform (rev b2) s) as [u s1|e s1|] eqn:Hp; cbn [lift next]; [| |contradiction].
        + destruct (H1 s1 Hag) as [[b1 [Hq1 [Ht1 Hr1]]]|[Hno [e [s' Hr1]]]].
          * left. exists (b1 ++ b2). split; [apply Hc; assumption|]. split; [apply Forall_app; auto|].
            rewrite Hr1. rewrite rev_app_distr, perform_app, Hp. reflexivity.
          * right. split; [|eauto]. intros b Hb. destruct (Hd (ex_intro _ b Hb)) as [[b1 Hb1] _]. eapply Hno; eauto.
        + destruct (H1 s Ha) as [[b1 [Hq1 [Ht1 Hr1]]]|[Hno _]].
          * left. exists (b1 ++ b2). split; [apply Hc; assumption|]. split; [apply Forall_app; auto|].
            rewrite rev_app_distr, perform_app, Hp. reflexivity.
          * right. split; [|eauto]. intros b Hb. destruct (Hd (ex_intro _ b Hb)) as [[b1 Hb1] _]. eapply Hno; eauto.
      - rewrite Hr2. cbn [next]. right. split; [|eauto]. intros b Hb. destruct (Hd (ex_intro _ b Hb)) as [_ [b2 Hb2]]. eapply Hno; eauto.
    Qed.
    Lemma store_realises : forall root Ts t o e x rest s, silent root Ts -> In t Ts -> as_store_op t = Some (o, e) -> agree s0 root s ->
      realises root Ts (fun bs => bs = [(t, x)]) rest s (do_store o x (rev e ++ rest) s).
    Proof.
      intros root Ts t o e x rest s HT Hin Ho Ha. left. exists [(t, x)]. split; [reflexivity|]. split; [constructor; [exact Hin|constructor]|].
      cbn [rev app PatternSpec.perform]. pose proof (HT t x s Hin Ha) as Hs.
      destruct t; inversion Ho; subst; cbn [rev app Pattern.do_store]; destruct (store _ x s); reflexivity.
    Qed.

    Definition good_term (t : lv) : Prop :=
      forall root Ts ts p e v, t = LTerms ts -> one_star t -> build t = Some (p, e) ->
        plain s0 root -> inside s0 root v -> silent root Ts -> incl (targets t) Ts ->
        forall rest s, agree s0 root s -> realises root Ts (binds s0 ts v) rest s (apply p v (rev e ++ rest) s).

    Lemma terms_ok : forall root Ts v len, plain s0 root -> inside s0 root v -> silent root Ts ->
      forall ts, Forall good_term ts -> Forall one_star ts -> existsb is_variadic ts = false -> incl (targets (LTerms ts)) Ts ->
      forall i vs l e, length vs = length ts ->
        (forall k x s, nth_error vs k = Some x -> agree s0 root s -> index_at v (i + Z.of_nat k) s = Good x s) ->
        (forall x, In x vs -> inside s0 root x) ->
        build_terms len i ts = Some (l, e) ->
      forall rest s, agree s0 root s -> realises root Ts (each s0 ts vs) rest s (run v l (rev e ++ rest) s).
    Proof.
      intros root Ts v len Hp Hv HT ts. induction ts as [|t ts IH]; intros HG Hone Hns Htg i vs l e Hlen Hix Hin Hb rest s Ha.
      - destruct vs; [|discriminate]. inversion Hb; subst. left. exists []. split; [constructor|]. split; [constructor|reflexivity].
      - destruct vs as [|x vs]; [discriminate|]. cbn [length] in Hlen. injection Hlen as Hlen.
        inversion HG as [|? ? HGt HGs]; subst. inversion Hone as [|? ? Hot Hos]; subst.
        cbn [existsb] in Hns. apply Bool.orb_false_iff in Hns. destruct Hns as [Hnt Hns].
        assert (Htt : incl (targets t) Ts). { intros y Hy. apply Htg. cbn [PatternSpec.targets flat_map]. apply in_or_app; auto. }
        assert (Htts : incl (targets (LTerms ts)) Ts). { intros y Hy. apply Htg. cbn [PatternSpec.targets flat_map] in *. apply in_or_app; auto. }
        specialize (IH HGs Hos Hns Htts (i + 1) vs).
        assert (Hix' : forall k y s, nth_error vs k = Some y -> agree s0 root s -> index_at v (i + 1 + Z.of_nat k) s = Good y s).
        { intros k y s1 Hk H1. replace (i + 1 + Z.of_nat k) with (i + Z.of_nat (Datatypes.S k)) by lia. apply Hix; assumption. }
        assert (Hx0 : forall s, agree s0 root s -> index_at v i s = Good x s).
        { intros s1 H1. replace i with (i + Z.of_nat 0) by lia. apply Hix; [reflexivity|assumption]. }
        assert (Hin' : forall y, In y vs -> inside s0 root y). { intros; apply Hin; right; assumption. }
        assert (Hxin : inside s0 root x) by (apply Hin; left; reflexivity).
        assert (Hdec : forall Q1 : list binding -> Prop, (forall b, one s0 t x b <-> Q1 b) ->
          forall f1 f2 rest1, (forall s, agree s0 root s -> realises root Ts (each s0 ts vs) rest1 s (f2 s)) ->
          (forall s, agree s0 root s -> realises root Ts Q1 rest s (f1 rest1 s)) ->
          realises root Ts (each s0 (t :: ts) (x :: vs)) rest s (next S E (f2 s) f1)).
        { intros Q1 Hq f1 f2 rest1 H2 H1. apply (realises_seq root Ts Q1 (each s0 ts vs) _ rest1); try assumption.
          - intros b1 b2 Hb1 Hb2. constructor; [apply Hq; exact Hb1|exact Hb2].
          - intros [b H]. inversion H; subst. split; [eexists; apply Hq; eassumption|eauto]. }
        destruct t as [| |tg|tg|sub]; try discriminate Hnt; cbn [build_terms] in Hb.
        + (* _ *)
          destruct (IH l e Hlen Hix' Hin' Hb rest s Ha) as [[bs [Hq [Ht Hr]]]|[Hno Hr]].
          * left. exists ([] ++ bs). split; [constructor; [constructor|exact Hq]|]. split; assumption.
          * right. split; [|exact Hr]. intros bs H. inversion H; subst. eapply Hno; eauto.
        + destruct (as_store_op tg) as [[o e1]|] eqn:Ho; [|discriminate].
          destruct (build_terms len (i + 1) ts) as [[l' e']|] eqn:Hb'; [|discriminate]. inversion Hb; subst. cbn [run].
          rewrite rev_app_distr, <- app_assoc.
          refine (Hdec (fun b => b = [(tg, Old x)]) _ _ (fun s => run v l' (rev e' ++ rev e1 ++ rest) s) (rev e1 ++ rest) _ _).
          * intros b. split; [intros H; inversion H; reflexivity|intros ->; constructor].
          * intros s1 H1. apply (IH l' e' Hlen Hix' Hin' eq_refl (rev e1 ++ rest) s1 H1).
          * intros s1 H1. cbn beta. rewrite (Hx0 s1 H1). cbn [next]. apply store_realises; auto. apply Htt. left. reflexivity.
        + destruct (build (LTerms sub)) as [[p e1]|] eqn:Ho; [|discriminate].
          destruct (build_terms len (i + 1) ts) as [[l' e']|] eqn:Hb'; [|discriminate]. inversion Hb; subst. cbn [run].
          rewrite rev_app_distr, <- app_assoc.
          refine (Hdec (binds s0 sub x) _ _ (fun s => run v l' (rev e' ++ rev e1 ++ rest) s) (rev e1 ++ rest) _ _).
          * intros b. split; [intros H; inversion H; assumption|constructor; assumption].
          * intros s1 H1. apply (IH l' e' Hlen Hix' Hin' eq_refl (rev e1 ++ rest) s1 H1).
          * intros s1 H1. cbn beta. rewrite (Hx0 s1 H1). cbn [next]. eapply HGt; eauto.
    Qed.

    (** ** sequences *)
    Lemma seq_index : forall root v l s k x, plain s0 root -> inside s0 root v -> elements s0 v l -> agree s0 root s -> nth_error l k = Some x ->
      index_at v (Z.of_nat k) s = Good x s /\ index_at v (Z.of_nat k - Z.of_nat (length l)) s = Good x s.
    Proof.
      intros root v l s k x Hp Hv Hl Ha Hk. assert (Hk' : (k < length l)%nat) by (apply nth_error_Some; rewrite Hk; discriminate).
      specialize (Hp v Hv). unfold Pattern.index_at. rewrite (Ha v Hv). destruct Hl as [[b Hl]|[c [Hl ->]]]; rewrite Hl in *.
      - rewrite position_front, position_back by lia. rewrite Hk. auto.
      - destruct Hp as [Hasc Hp]. rewrite map_length in *. rewrite !(ascii_byte_len c Hasc). rewrite position_front, position_back by lia.
        rewrite nth_error_map in Hk. destruct (nth_error c k) as [y|]; [|discriminate]. inversion Hk; subst. auto.
    Qed.
    Lemma seq_slice : forall root v a b c x s, plain s0 root -> inside s0 root v -> splits s0 v a b c x -> agree s0 root s ->
      slice_of v (Z.of_nat (length a)) (- Z.of_nat (length c)) s = Good x s.
    Proof.
      intros root v a b c x s Hp Hv Hs Ha. specialize (Hp v Hv). unfold Pattern.slice_of. rewrite (Ha v Hv).
      destruct Hs as [k front mid back Hl|a b c Hl]; rewrite Hl in *.
      - rewrite cut_mid by exact Hp. reflexivity.
      - destruct Hp as [Hasc Hp]. rewrite !(ascii_byte_len _ Hasc). rewrite !map_length. rewrite cut_mid by exact Hp. reflexivity.
    Qed.
    Lemma elements_len : forall root v l s, inside s0 root v -> elements s0 v l -> agree s0 root s -> len_of V S look v s = Some (length l).
    Proof. intros root v l s Hv Hl Ha. unfold len_of. rewrite (Ha v Hv). destruct Hl as [[b ->]|[c [-> ->]]]; [reflexivity|rewrite map_length; reflexivity]. Qed.

    Lemma run_app : forall v a b stack s, run v (a ++ b) stack s = next S E (run v b stack s) (fun stack s => run v a stack s).
    Proof.
      intros v a b stack s. induction a as [|t a IH]; cbn [app run].
      - destruct (run v b stack s); reflexivity.
      - rewrite IH. destruct (run v b stack s); reflexivity.
    Qed.
    Lemma build_terms_app : forall len a b i l e, existsb is_variadic a = false -> build_terms len i (a ++ b) = Some (l, e) ->
      exists l1 e1 l2 e2, build_terms len i a = Some (l1, e1) /\ build_terms len (i + Z.of_nat (length a)) b = Some (l2, e2) /\ l = l1 ++ l2 /\ e = e1 ++ e2.
    Proof.
      intros len a. induction a as [|t a IH]; intros b i l e Hns Hb.
      - exists [], [], l, e. cbn [length build_terms app] in *. replace (i + Z.of_nat 0) with i by lia. auto.
      - cbn [existsb] in Hns. apply Bool.orb_false_iff in Hns. destruct Hns as [Hnt Hns].
        replace (i + Z.of_nat (length (t :: a))) with (i + 1 + Z.of_nat (length a)) by (cbn [length]; lia).
        destruct t as [| |tg|tg|sub]; try discriminate Hnt; cbn [app build_terms] in *.
        + exact (IH b (i + 1) l e Hns Hb).
        + destruct (as_store_op tg) as [[o e0]|]; [|discriminate]. destruct (build_terms len (i + 1) (a ++ b)) as [[l' e']|] eqn:Hb'; [|discriminate].
          inversion Hb; subst. destruct (IH b (i + 1) l' e' Hns Hb') as (l1 & e1 & l2 & e2 & H1 & H2 & -> & ->).
          rewrite H1, H2. do 4 eexists. split; [reflexivity|]. split; [reflexivity|]. rewrite app_assoc. auto.
        + destruct (build (LTerms sub)) as [[o e0]|]; [|discriminate]. destruct (build_terms len (i + 1) (a ++ b)) as [[l' e']|] eqn:Hb'; [|discriminate].
          inversion Hb; subst. destruct (IH b (i + 1) l' e' Hns Hb') as (l1 & e1 & l2 & e2 & H1 & H2 & -> & ->).
          rewrite H1, H2. do 4 eexists. split; [reflexivity|]. split; [reflexivity|]. rewrite app_assoc. auto.
    Qed.
    Lemma star_split : forall ts : list lv, (length (filter is_variadic ts) <= 1)%nat -> existsb is_variadic ts = true ->
      exists pre st post, ts = pre ++ st :: post /\ existsb is_variadic pre = false /\ existsb is_variadic post = false /\ is_variadic st = true.
    Proof.
      induction ts as [|t ts IH]; intros Hc He; [discriminate|]. cbn [existsb filter] in *. destruct (is_variadic t) eqn:Ht.
      - exists [], t, ts. split; [reflexivity|]. split; [reflexivity|]. split; [|exact Ht]. cbn [length] in Hc.
        destruct (filter is_variadic ts) eqn:Hf; [|cbn in Hc; lia].
        apply Bool.not_true_iff_false. intros H. apply existsb_exists in H. destruct H as (y & Hy & Hy').
        assert (In y []) by (rewrite <- Hf; apply filter_In; auto). contradiction.
      - destruct (IH Hc He) as (pre & st & post & -> & H1 & H2 & H3). exists (t :: pre), st, post.
        split; [reflexivity|]. cbn [existsb]. rewrite Ht, H1. auto.
    Qed.
    Lemma star_unique : forall (a a' : list lv) x x' b b', existsb is_variadic a = false -> existsb is_variadic a' = false ->
      is_variadic x = true -> is_variadic x' = true -> a ++ x :: b = a' ++ x' :: b' -> a = a' /\ x = x' /\ b = b'.
    Proof.
      induction a as [|t a IH]; intros [|t' a'] x x' b b' Ha Ha' Hx Hx' H; cbn in *.
      - inversion H; auto.
      - inversion H; subst. rewrite Hx in Ha'. discriminate.
      - inversion H; subst. rewrite Hx' in Ha. discriminate.
      - inversion H; subst. apply Bool.orb_false_iff in Ha, Ha'. destruct Ha as [_ Ha], Ha' as [_ Ha'].
        destruct (IH a' x x' b b' Ha Ha' Hx Hx' H2) as (-> & -> & ->). auto.
    Qed.
    Lemma existsb_mid : forall (a : list lv) x b, is_variadic x = true -> existsb is_variadic (a ++ x :: b) = true.
    Proof. intros. rewrite existsb_app. cbn. rewrite H. rewrite Bool.orb_true_r. reflexivity. Qed.
    Lemma each_repeat : forall s m l bs, each s (repeat LEmpty m) l bs -> bs = [].
    Proof. intros s. induction m; intros l bs H; inversion H; subst; [reflexivity|]. match goal with H : one _ _ _ _ |- _ => inversion H; subst end. cbn. eauto. Qed.
    Lemma no_star_repeat : forall m, existsb is_variadic (repeat (@LEmpty X O) m) = false.
    Proof. induction m; [reflexivity|assumption]. Qed.
    Lemma one_star_all : forall ts, one_star (LTerms ts) -> (length (filter is_variadic ts) <= 1)%nat /\ Forall one_star ts.
    Proof. intros ts [H1 H2]. split; [exact H1|]. clear H1. induction ts; [constructor|]. destruct H2. constructor; auto. Qed.
    Lemma app_same_length {A} : forall (a a' b b' : list A), length a = length a' -> a ++ b = a' ++ b' -> a = a' /\ b = b'.
    Proof. induction a as [|x a IH]; intros [|x' a'] b b' Hl H; try discriminate; cbn in *; [auto|]. inversion H; subst. destruct (IH a' b b') as [-> ->]; auto. Qed.

    Lemma splits_not_sized : forall s v a b c x n, splits s v a b c x -> look s v <> Sized n.
    Proof. intros s v a b c x n H Hs. destruct H; congruence. Qed.
    Lemma elements_not_sized : forall s v l n, elements s v l -> look s v <> Sized n.
    Proof. intros s v l n [[k H]|[c [H _]]] Hs; congruence. Qed.
    Lemma binds_star_inv : forall v front mid back pre st post bs, is_variadic st = true ->
      existsb is_variadic pre = false -> existsb is_variadic post = false ->
      elements s0 v (front ++ mid ++ back) -> length pre = length front -> length post = length back ->
      binds s0 (pre ++ st :: post) v bs -> (exists b1, each s0 pre front b1) /\ (exists b2, each s0 post back b2).
    Proof.
      intros v front mid back pre st post bs Hst Hpre Hpost He Hl1 Hl2 H. inversion H; subst.
      - apply each_no_star in H1. rewrite existsb_mid in H1 by exact Hst. discriminate.
      - pose proof (each_length _ _ _ _ H2). pose proof (each_length _ _ _ _ H3).
        destruct (star_unique pre0 pre _ st post0 post (each_no_star _ _ _ _ H2) Hpre (eq_refl true : is_variadic LStarEmpty = true) Hst H0) as (-> & <- & ->).
        apply splits_elements in H1. pose proof (elements_unique _ _ _ _ He H1) as Heq.
        destruct (app_same_length front front0 _ _ ltac:(lia) Heq) as [-> Heq2].
        assert (length mid = length mid0). { apply (f_equal (@length V)) in Heq2. rewrite !app_length in Heq2. lia. }
        destruct (app_same_length mid mid0 _ _ ltac:(lia) Heq2) as [-> ->]. eauto.
      - pose proof (each_length _ _ _ _ H2). pose proof (each_length _ _ _ _ H3).
        destruct (star_unique pre0 pre _ st post0 post (each_no_star _ _ _ _ H2) Hpre (eq_refl true : is_variadic (LStarNamed t) = true) Hst H0) as (-> & <- & ->).
        apply splits_elements in H1. pose proof (elements_unique _ _ _ _ He H1) as Heq.
        destruct (app_same_length front front0 _ _ ltac:(lia) Heq) as [-> Heq2].
        assert (length mid = length mid0). { apply (f_equal (@length V)) in Heq2. rewrite !app_length in Heq2. lia. }
        destruct (app_same_length mid mid0 _ _ ltac:(lia) Heq2) as [-> ->]. eauto.
      - exfalso. match goal with H : repeat _ ?k = _ |- _ => pose proof (no_star_repeat k) as Hn'; rewrite H in Hn' end.
        rewrite existsb_mid in Hn' by exact Hst. discriminate.
      - exfalso. match goal with H : look _ _ = Sized _ |- _ => exact (elements_not_sized _ _ _ _ He H) end.
    Qed.
    Lemma blanks_build : forall len m i, build_terms len i (repeat LEmpty m) = Some ([], []).
    Proof. induction m; intros i; [reflexivity|]. cbn [repeat build_terms]. auto. Qed.
    Lemma blanks_build_star : forall len m m' i, build_terms len i (repeat LEmpty m ++ LStarEmpty :: repeat LEmpty m') = Some ([], []).
    Proof. induction m; intros m' i; cbn [repeat app build_terms]; [apply blanks_build|auto]. Qed.
    Lemma build_blanks : forall len ts i e, existsb is_variadic ts = false -> build_terms len i ts = Some ([], e) -> e = [] /\ ts = repeat LEmpty (length ts).
    Proof.
      induction ts as [|t ts IH]; intros i e Hn Hb; [inversion Hb; auto|]. cbn [existsb] in Hn. apply Bool.orb_false_iff in Hn. destruct Hn as [Hnt Hns].
      destruct t as [| |tg|tg|sub]; try discriminate Hnt; cbn [build_terms length repeat] in *.
      - destruct (IH _ _ Hns Hb) as [-> Heq]. split; [reflexivity|]. f_equal. exact Heq.
      - destruct (as_store_op tg) as [[]|]; [|discriminate]. destruct build_terms as [[]|]; discriminate.
      - destruct (build _) as [[]|]; [|discriminate]. destruct build_terms as [[]|]; discriminate.
    Qed.
    Lemma sized_run : forall v n l stack s, look s v = Sized n -> l <> [] -> exists e, run v l stack s = Bad e s.
    Proof.
      intros v n l stack s Hs. induction l as [|t l IH]; intros Hl; [contradiction|]. cbn [run]. destruct l as [|t' l].
      - cbn [run next]. unfold Pattern.index_at, Pattern.slice_of. rewrite Hs. destruct t; cbn [next]; eauto.
      - destruct IH as [e He]; [discriminate|]. rewrite He. cbn [next]. eauto.
    Qed.

    Theorem terms_good : forall t, good_term t.
    Proof.
      induction t as [| |tg|tg|ts IH] using lvalue_rect'; intros root Ts ts' p e v Heq; try discriminate Heq. inversion Heq; subst ts'. clear Heq.
      intros Hone Hb Hp Hv HT Htg rest s Ha. rewrite build_eq in Hb. cbv zeta in Hb.
      destruct (one_star_all ts Hone) as [Hcount Hones]. clear Hone.
      set (va := existsb is_variadic ts) in *. set (len := if va then (length ts - 1)%nat else length ts) in *.
      destruct (build_terms len 0 ts) as [[l e']|] eqn:Hbt; [|discriminate]. inversion Hb; subst p e'. clear Hb.
      rewrite apply_eq. pose proof (Ha v Hv) as Hlook. pose proof (Hp v Hv) as Hpv.
      assert (Hcases : (exists L, elements s0 v L) \/ (exists n, look s0 v = Sized n) \/ look s0 v = NotIterable).
      { destruct (look s0 v) eqn:Hsh; [left|left|right; left; eauto|contradiction|auto].
        - exists l0. left. eauto. - exists (map char s1). right. eauto. }
      destruct Hcases as [[L HL]|[[n Hn]|Hn]].
      - (* sequences *)
        unfold check_length. rewrite (elements_len root v L s Hv HL Ha).
        destruct va eqn:Hva.
        + (* with a star *)
          destruct (star_split ts Hcount Hva) as (pre & st & post & -> & Hpre & Hpost & Hst).
          assert (Hlen : len = (length pre + length post)%nat). { unfold len. rewrite app_length. cbn [length]. lia. }
          destruct (length L <? len)%nat eqn:Hlt; [apply Nat.ltb_lt in Hlt|apply Nat.ltb_ge in Hlt].
          * right. split; [|eauto]. intros bs H. inversion H; subst.
            -- apply each_no_star in H1. rewrite existsb_mid in H1 by exact Hst. discriminate.
            -- pose proof (each_length _ _ _ _ H2). pose proof (each_length _ _ _ _ H3). apply (f_equal (@length lv)) in H0. rewrite !app_length in H0. cbn [length] in H0.
               apply splits_elements in H1. pose proof (elements_unique _ _ _ _ HL H1); subst. rewrite !app_length in Hlt. lia.
            -- pose proof (each_length _ _ _ _ H2). pose proof (each_length _ _ _ _ H3). apply (f_equal (@length lv)) in H0. rewrite !app_length in H0. cbn [length] in H0.
               apply splits_elements in H1. pose proof (elements_unique _ _ _ _ HL H1); subst. rewrite !app_length in Hlt. lia.
            -- match goal with H : look _ _ = Sized _ |- _ => exact (elements_not_sized _ _ _ _ HL H) end.
            -- match goal with H : look _ _ = Sized _ |- _ => exact (elements_not_sized _ _ _ _ HL H) end.
          * set (nf := length pre). set (nb := length post).
            assert (HLs : exists front mid back, L = front ++ mid ++ back /\ length front = length pre /\ length back = length post).
            { exists (firstn nf L), (firstn (length L - len) (skipn nf L)), (skipn (length L - len) (skipn nf L)).
              rewrite firstn_skipn, firstn_skipn. split; [reflexivity|]. rewrite firstn_length, !skipn_length. unfold nf, nb in *. lia. }
            clear nf nb. destruct HLs as (front & mid & back & -> & Hf & Hbk).
            destruct (elements_splits _ _ _ _ _ HL) as [x Hx].
            apply Forall_app in IH. destruct IH as [IHpre IHpost]. inversion IHpost as [|? ? _ IHpost']; subst. clear IHpost.
            apply Forall_app in Hones. destruct Hones as [Hopre Hopost]. inversion Hopost as [|? ? _ Hopost']; subst. clear Hopost.
            assert (Ht1 : incl (targets (LTerms pre)) Ts). { intros y Hy. apply Htg. cbn [PatternSpec.targets] in *. rewrite flat_map_app. apply in_or_app; auto. }
            assert (Ht2 : incl (targets (LTerms post)) Ts). { intros y Hy. apply Htg. cbn [PatternSpec.targets] in *. rewrite flat_map_app. apply in_or_app; right. cbn [flat_map]. apply in_or_app; auto. }
            destruct (build_terms_app len pre (st :: post) 0 l e Hpre Hbt) as (l1 & e1 & l2 & e2 & Hb1 & Hb2 & -> & ->).
            assert (Hafter : - (Z.of_nat len - (0 + Z.of_nat (length pre))) = - Z.of_nat (length back)) by lia.
            assert (HR1 : forall s, agree s0 root s -> realises root Ts (each s0 pre front) rest s (run v l1 (rev e1 ++ rest) s)).
            { intros s1 H1. eapply (terms_ok root Ts v len Hp Hv HT pre IHpre Hopre Hpre Ht1 0 front); eauto.
              - intros k y s2 Hk H2. destruct (seq_index root v (front ++ mid ++ back) s2 k y Hp Hv HL H2) as [Hix _].
                + rewrite nth_error_app1; [exact Hk|]. apply nth_error_Some. rewrite Hk. discriminate.
                + rewrite Z.add_0_l. exact Hix.
              - intros y Hy. eapply inside_trans; [exact Hv|]. eapply elements_inside; [exact HL|]. apply in_or_app; auto. }
            assert (HR2 : forall l2' e2', build_terms len (- Z.of_nat (length back)) post = Some (l2', e2') -> forall rest s, agree s0 root s ->
              realises root Ts (each s0 post back) rest s (run v l2' (rev e2' ++ rest) s)).
            { intros l2' e2' Hb2' rest1 s1 H1. eapply (terms_ok root Ts v len Hp Hv HT post IHpost' Hopost' Hpost Ht2 (- Z.of_nat (length back)) back); eauto.
              - intros k y s2 Hk H2. assert (Hkl : (k < length back)%nat) by (apply nth_error_Some; rewrite Hk; discriminate).
                destruct (seq_index root v (front ++ mid ++ back) s2 (length front + length mid + k) y Hp Hv HL H2) as [_ Hix].
                + rewrite app_assoc, nth_error_app2 by (rewrite app_length; lia). rewrite app_length. replace (length front + length mid + k - (length front + length mid))%nat with k by lia. exact Hk.
                + rewrite !app_length in Hix. replace (- Z.of_nat (length back) + Z.of_nat k) with (Z.of_nat (length front + length mid + k) - Z.of_nat (length front + (length mid + length back))) by lia. exact Hix.
              - intros y Hy. eapply inside_trans; [exact Hv|]. eapply elements_inside; [exact HL|]. apply in_or_app; right. apply in_or_app; auto. }
            assert (Hinv : (exists b, binds s0 (pre ++ st :: post) v b) -> (exists b1, each s0 pre front b1) /\ (exists b2, each s0 post back b2)).
            { intros [b Hbb]. eapply binds_star_inv; eauto. }
            rewrite run_app. rewrite rev_app_distr, <- app_assoc.
            destruct st as [| |tg|tg|sub]; try discriminate Hst; cbn [build_terms] in Hb2; rewrite Hafter in Hb2.
            -- refine (realises_seq root Ts (each s0 pre front) (each s0 post back) _ (rev e1 ++ rest) rest _ (fun s => run v l2 (rev e2 ++ rev e1 ++ rest) s) s HT _ _ _ Hinv Ha).
               ++ intros s1 H1. apply HR2; assumption.
               ++ intros s1 H1. apply HR1; assumption.
               ++ intros b1 b2 H1 H2. eapply binds_star; eassumption.
            -- destruct (as_store_op tg) as [[o es]|] eqn:Ho; [|discriminate].
               destruct (build_terms len (- Z.of_nat (length back)) post) as [[l2' e2']|] eqn:Hb3; [|discriminate]. inversion Hb2; subst l2 e2. clear Hb2.
               refine (realises_seq root Ts (each s0 pre front) (fun b => exists b2, each s0 post back b2 /\ b = (tg, x) :: b2) _ (rev e1 ++ rest) rest _ (fun s => run v (Slice _ _ o :: l2') (rev (es ++ e2') ++ rev e1 ++ rest) s) s HT _ _ _ _ Ha).
               ++ intros s1 H1. cbn [run]. rewrite rev_app_distr, <- app_assoc.
                  refine (realises_seq root Ts (fun b => b = [(tg, x)]) (each s0 post back) _ (rev es ++ rev e1 ++ rest) _ _ (fun s => run v l2' (rev e2' ++ rev es ++ rev e1 ++ rest) s) s1 HT _ _ _ _ H1).
                  ** intros s2 H2. apply HR2; auto.
                  ** intros s2 H2. cbn beta. idtac.
                     rewrite <- Hf. rewrite (seq_slice root v front mid back x s2 Hp Hv Hx H2). cbn [next]. apply store_realises; auto.
                     apply Htg. cbn [PatternSpec.targets]. rewrite flat_map_app. apply in_or_app; right. left. reflexivity.
                  ** intros b1 b2 -> H2. exists b2. auto.
                  ** intros [b [b2 [H2 ->]]]. split; eauto.
               ++ intros s1 H1. apply HR1; assumption.
               ++ intros b1 b2 H1 [b2' [H2 ->]]. eapply binds_star_named; eassumption.
               ++ intros Hq. destruct (Hinv Hq) as [H1 [b2 H2]]. split; eauto.
        + (* without a star *)
          destruct (len =? length L)%nat eqn:Hlt; [apply Nat.eqb_eq in Hlt|apply Nat.eqb_neq in Hlt].
          * assert (HR : realises root Ts (each s0 ts L) rest s (run v l (rev e ++ rest) s)).
            { eapply (terms_ok root Ts v len Hp Hv HT ts IH Hones Hva Htg 0 L); eauto.
              - intros k y s2 Hk H2. destruct (seq_index root v L s2 k y Hp Hv HL H2 Hk) as [Hix _]. rewrite Z.add_0_l. exact Hix.
              - intros y Hy. eapply inside_trans; [exact Hv|]. eapply elements_inside; eassumption. }
            destruct HR as [[bs [Hq [Hf Hr]]]|[Hno Hr]].
            -- left. exists bs. split; [eapply binds_exactly; eassumption|]. auto.
            -- right. split; [|exact Hr]. intros bs H. inversion H; subst.
               ++ pose proof (elements_unique _ _ _ _ HL H0); subst. eapply Hno; eassumption.
               ++ unfold va in Hva. rewrite existsb_mid in Hva by reflexivity. discriminate.
               ++ unfold va in Hva. rewrite existsb_mid in Hva by reflexivity. discriminate.
               ++ exact (elements_not_sized _ _ _ _ HL H0).
               ++ exact (elements_not_sized _ _ _ _ HL H0).
          * right. split; [|eauto]. intros bs H. inversion H; subst.
            -- pose proof (elements_unique _ _ _ _ HL H0); subst. apply each_length in H1. unfold len in Hlt. lia.
            -- unfold va in Hva. rewrite existsb_mid in Hva by reflexivity. discriminate.
            -- unfold va in Hva. rewrite existsb_mid in Hva by reflexivity. discriminate.
            -- exact (elements_not_sized _ _ _ _ HL H0).
            -- exact (elements_not_sized _ _ _ _ HL H0).
      - (* sets, heaps, ranges *)
        unfold check_length, len_of. rewrite Hlook, Hn.
        assert (Hinv : forall bs, binds s0 ts v bs -> bs = [] /\ ((exists m, ts = repeat LEmpty m /\ n = m) \/ (exists m m', ts = repeat LEmpty m ++ LStarEmpty :: repeat LEmpty m' /\ (m + m' <= n)%nat))).
        { intros bs H. inversion H; subst.
          - exfalso. exact (elements_not_sized _ _ _ _ H0 Hn).
          - exfalso. match goal with H : splits _ _ _ _ _ _ |- _ => exact (splits_not_sized _ _ _ _ _ _ _ H Hn) end.
          - exfalso. match goal with H : splits _ _ _ _ _ _ |- _ => exact (splits_not_sized _ _ _ _ _ _ _ H Hn) end.
          - rewrite Hn in H0. inversion H0; subst. split; [reflexivity|]. left. eauto.
          - rewrite Hn in H0. inversion H0; subst. split; [reflexivity|]. right. eauto. }
        assert (Hmain : forall (ok : bool), (ok = true -> l = [] -> e = [] /\ binds s0 ts v []) -> (ok = false -> forall bs, ~ binds s0 ts v bs) ->
          forall er, realises root Ts (binds s0 ts v) rest s (match (if ok then None else Some er) with Some e => Bad e s | None => run v l (rev e ++ rest) s end)).
        { intros ok Hok Hnok er. destruct ok.
          - destruct l as [|t0 l].
            + destruct (Hok eq_refl eq_refl) as [-> Hbd]. left. exists []. split; [exact Hbd|]. split; [constructor|reflexivity].
            + right. split.
              * intros bs H. destruct (Hinv bs H) as [_ [[m [-> _]]|[m [m' [-> _]]]]].
                -- rewrite blanks_build in Hbt. discriminate. -- rewrite blanks_build_star in Hbt. discriminate.
              * destruct (sized_run v n (t0 :: l) (rev e ++ rest) s) as [er' Her]; [rewrite Hlook; exact Hn|discriminate|]. eauto.
          - right. split; [apply Hnok; reflexivity|eauto]. }
        destruct va eqn:Hva.
        + replace (if (n <? len)%nat then Some (CannotUnpackGreater len n) else None) with (if negb (n <? len)%nat then None else Some (@CannotUnpackGreater E len n)) by (destruct (n <? len)%nat; reflexivity).
          destruct (star_split ts Hcount Hva) as (pre & st & post & -> & Hpre & Hpost & Hst).
          assert (Hlen : len = (length pre + length post)%nat). { unfold len. rewrite app_length. cbn [length]. lia. }
          apply Hmain.
          * intros Hok ->. apply Bool.negb_true_iff, Nat.ltb_ge in Hok.
            destruct (build_terms_app len pre (st :: post) 0 [] e Hpre Hbt) as (l1 & e1 & l2 & e2 & Hb1 & Hb2 & Hl12 & ->).
            symmetry in Hl12. apply app_eq_nil in Hl12. destruct Hl12 as [-> ->].
            destruct (build_blanks _ _ _ _ Hpre Hb1) as [-> Hpr].
            destruct st as [| |tg|tg|sub]; try discriminate Hst; cbn [build_terms] in Hb2.
            -- destruct (build_blanks _ _ _ _ Hpost Hb2) as [-> Hpo]. split; [reflexivity|]. rewrite Hpr, Hpo. eapply binds_blanks_star; [exact Hn|lia].
            -- destruct (as_store_op tg) as [[]|]; [|discriminate]. destruct (build_terms _ _ post) as [[]|]; discriminate.
          * intros Hok bs H. apply Bool.negb_false_iff, Nat.ltb_lt in Hok. destruct (Hinv bs H) as [_ [[m [Heq Hm]]|[m [m' [Heq Hm]]]]].
            -- unfold va in Hva. rewrite Heq, (no_star_repeat m) in Hva. discriminate.
            -- apply (f_equal (@length lv)) in Heq. rewrite !app_length in Heq. cbn [length] in Heq. rewrite !repeat_length in Heq. lia.
        + replace (if (len =? n)%nat then None else Some (CannotUnpackEqual len n)) with (if (len =? n)%nat then None else Some (@CannotUnpackEqual E len n)) by reflexivity.
          apply Hmain.
          * intros Hok ->. apply Nat.eqb_eq in Hok. destruct (build_blanks _ _ _ _ Hva Hbt) as [-> Hts]. split; [reflexivity|]. rewrite Hts.
            eapply binds_blanks; [exact Hn|]. unfold len in Hok. lia.
          * intros Hok bs H. apply Nat.eqb_neq in Hok. destruct (Hinv bs H) as [_ [[m [Heq Hm]]|[m [m' [Heq Hm]]]]].
            -- unfold len in Hok. rewrite Heq, repeat_length in Hok. lia.
            -- unfold va in Hva. rewrite Heq, existsb_mid in Hva by reflexivity. discriminate.
      - (* not iterable *)
        unfold check_length, len_of. rewrite Hlook, Hn. right. split; [|eauto]. intros bs H. inversion H; subst; try congruence.
        + destruct H0 as [[k H0]|[c [H0 _]]]; congruence.
        + match goal with H : splits _ _ _ _ _ _ |- _ => destruct H; congruence end.
        + match goal with H : splits _ _ _ _ _ _ |- _ => destruct H; congruence end.
    Qed.
  End Fixed.
End Pat.
