From Verif Require Import Base Seq SeqProofs Copy CopySpec.
From Coq Require Import Permutation.
Local Open Scope nat_scope.

Lemma related_mono M N r r' : incl M N -> related M r r' -> related N r r'.
Proof. intros I. induction 1; constructor; auto. Qed.
Lemma rel_items_mono M N l l' : incl M N -> Forall2 (Forall2 (related M)) l l' -> Forall2 (Forall2 (related N)) l l'.
Proof. intros I. induction 1 as [|x y l l' H F IH]; constructor; auto. clear - I H. induction H; constructor; eauto using related_mono. Qed.

Lemma related_list_mono M N (x y : list ref) : incl M N -> Forall2 (related M) x y -> Forall2 (related N) x y.
Proof. intros I. induction 1; constructor; eauto using related_mono. Qed.
Section P.
  Context (found : heap -> list (list ref) -> list ref -> option nat) (place : heap -> list (list ref) -> list ref -> list (list ref)).
  Context (PL : forall H acc e, Permutation (place H acc e) (acc ++ [e])).
  Notation insert_item := (insert_item found place).
  Notation copy_recursive := (copy_recursive found place).

  (** ** inserting the copied items *)
  Definition fill (k : kind) (H : heap) (l : list (list ref)) (acc : list (list ref)) := fold_left (fun acc e => insert_item k H acc e) l acc.
  Lemma fill_seq k H : match k with KList | KVector | KStruct _ => True | _ => False end -> forall l acc, fill k H l acc = acc ++ l.
  Proof.
    intro K. induction l as [|e l IH]; intro acc; unfold fill in *; cbn [fold_left]; [rewrite app_nil_r; reflexivity|]. rewrite IH.
    destruct k; try contradiction; cbn [Copy.insert_item]; rewrite <- app_assoc; reflexivity.
  Qed.
  Lemma fill_heap H : forall l acc, Permutation (fill KHeap H l acc) (acc ++ l).
  Proof.
    induction l as [|e l IH]; intro acc; unfold fill in *; cbn [fold_left]; [rewrite app_nil_r; reflexivity|]. rewrite IH. cbn [Copy.insert_item]. rewrite PL, <- app_assoc. reflexivity.
  Qed.
  Lemma fill_short k H : match k with KSet | KDict _ => True | _ => False end -> forall l acc, length (fill k H l acc) <= length acc + length l /\ (length (fill k H l acc) = length acc + length l -> fill k H l acc = acc ++ l).
  Proof.
    intro K. induction l as [|e l IH]; intro acc; unfold fill in *; cbn [fold_left length]; [rewrite app_nil_r, Nat.add_0_r; auto|].
    assert (D : exists acc', insert_item k H acc e = acc' /\ (length acc' = length acc \/ acc' = acc ++ [e])).
    { destruct k; try contradiction; cbn [Copy.insert_item]; destruct (found H acc e); eexists; (split; [reflexivity|]); rewrite ?update_length; auto. }
    destruct D as (acc' & -> & D). destruct (IH acc') as [L E]. destruct D as [D| ->].
    - split; [lia|]. intro Q. exfalso. lia.
    - rewrite app_length in *. cbn [length] in *. split; [lia|]. intro Q. rewrite E by lia. rewrite <- app_assoc. reflexivity.
  Qed.
  Lemma in_update {A} (l : list A) i x y : In y (update l i x) -> y = x \/ In y l.
  Proof. revert i. induction l as [|z l IH]; intros [|i]; cbn [update In]; [tauto|tauto|intuition|]. intros [->|H]; auto. apply IH in H. tauto. Qed.
  Lemma fill_from k H : forall l acc e' x', In e' (fill k H l acc) -> In x' e' -> exists e, (In e acc \/ In e l) /\ In x' e.
  Proof.
    induction l as [|e l IH]; intros acc e' x' I X; unfold fill in *; cbn [fold_left] in I; [eauto|]. destruct (IH _ _ _ I X) as (e1 & [I1|I1] & X1); [|exists e1; split; [right; right; auto|auto]].
    assert (G : exists e2, (In e2 acc \/ In e2 [e]) /\ In x' e2).
    { assert (A : In e1 (acc ++ [e]) -> exists e2, (In e2 acc \/ In e2 [e]) /\ In x' e2) by (intro Q; apply in_app_or in Q; exists e1; auto).
      destruct k; cbn [Copy.insert_item] in I1; auto.
      - destruct (found H acc e); [exists e1; auto|auto].
      - apply A. eapply Permutation_in; [apply PL|exact I1].
      - destruct (found H acc e) as [i|]; auto. apply in_update in I1. destruct I1 as [->|I1]; [|exists e1; auto]. apply in_app_or in X1. destruct X1 as [X1|X1].
        + destruct (Nat.lt_ge_cases i (length acc)) as [L|L]; [|rewrite nth_overflow in X1 by auto; destruct X1]. exists (nth i acc []). split; [left; apply nth_In; auto|]. clear - X1. destruct (nth i acc []); cbn in *; tauto.
        + exists e. split; [right; left; auto|]. clear - X1. destruct e; cbn in *; tauto. }
    destruct G as (e2 & [G|[<-|[]]] & G'); [exists e2; auto|exists e; split; [right; left; auto|auto]].
  Qed.

  (** ** the invariant *)
  Context (H0 : heap) (CL : closed H0).
  Definition inv (s : state) : Prop :=
    let '(H, M) := s in
    length H0 <= length H /\ (forall i, i < length H0 -> nth_error H i = nth_error H0 i) /\
    NoDup (map fst M) /\ NoDup (map snd M) /\ (forall a b, In (a, b) M -> a < length H0 /\ length H0 <= b < length H).
  Definition done (s : state) (a b : nat) : Prop :=
    let '(H, M) := s in
    exists nd nd', nth_error H0 a = Some nd /\ nth_error H b = Some nd' /\ same_kind (kind_of nd) (kind_of nd') /\
      from_items M (items nd) (items nd') /\ (same_items M (kind_of nd) (items nd) (items nd') \/ merged (kind_of nd) (items nd) (items nd')).
  Definition grows (s s' : state) : Prop :=
    inv s' /\ length (fst s) <= length (fst s') /\ (forall i, i < length (fst s) -> nth_error (fst s') i = nth_error (fst s) i) /\
    exists N, snd s' = N ++ snd s /\ forall a b, In (a, b) N -> done s' a b.
  Lemma grows_refl s : inv s -> grows s s.
  Proof. intro I. split; auto. split; auto. split; auto. exists []. split; auto. intros a b []. Qed.
  Lemma done_mono s s' a b : b < length (fst s) -> grows s s' -> done s a b -> done s' a b.
  Proof.
    destruct s as [H M], s' as [H' M']. intros L (_ & _ & F & N & E & _) (nd & nd' & D1 & D2 & D3 & D4 & D5). cbn [fst snd] in *. subst M'. exists nd, nd'. split; auto. split; [rewrite F; auto|]. split; auto.
    assert (I : incl M (N ++ M)) by (intros x Hx; apply in_or_app; auto). split.
    - intros e' x' A B. destruct (D4 e' x' A B) as (e & x & Q1 & Q2 & Q3). exists e, x. eauto using related_mono.
    - destruct D5 as [D5|D5]; [left|right; auto]. unfold same_items in *. destruct (kind_of nd); try (eapply rel_items_mono; eauto). destruct D5 as (m & P & F2). exists m. eauto using rel_items_mono.
  Qed.
  Lemma grows_trans s s1 s2 : grows s s1 -> grows s1 s2 -> grows s s2.
  Proof.
    intros G1 G2. assert (G2' := G2). destruct G1 as (I1 & L1 & F1 & N1 & E1 & D1), G2 as (I2 & L2 & F2 & N2 & E2 & D2). split; auto. split; [lia|]. split; [intros i Hi; rewrite F2 by lia; auto|].
    exists (N2 ++ N1). rewrite E2, E1, app_assoc. split; auto. intros a b Hi. apply in_app_or in Hi. destruct Hi as [Hi|Hi]; auto. apply (done_mono s1); auto.
    destruct s1 as [H1 M1]. cbn [snd fst] in *. destruct I1 as (_ & _ & _ & _ & B). apply (B a b). rewrite E1. apply in_or_app. auto.
  Qed.
  Lemma grows_incl s s' : grows s s' -> incl (snd s) (snd s').
  Proof. intros (_ & _ & _ & N & -> & _) x Hx. apply in_or_app. auto. Qed.

  (** threading a correct step over a list *)
  Definition step_ok {A B} (ok : A -> Prop) (R : list (nat * nat) -> A -> B -> Prop) (f : A -> state -> option (B * state)) : Prop :=
    forall x s y s', ok x -> inv s -> f x s = Some (y, s') -> grows s s' /\ R (snd s') x y.
  Lemma each_ok {A B} (ok : A -> Prop) (R : list (nat * nat) -> A -> B -> Prop) f : (forall M N x y, incl M N -> R M x y -> R N x y) -> step_ok ok R f ->
    step_ok (Forall ok) (fun M => Forall2 (R M)) (each f).
  Proof.
    intros MO F l. induction l as [|x l IH]; intros s ys s' O I E; cbn [each] in E.
    - injection E as <- <-. split; [apply grows_refl; auto|constructor].
    - destruct (f x s) as [[y s1]|] eqn:E1; [|discriminate]. destruct (each f l s1) as [[ys' s2]|] eqn:E2; [|discriminate]. injection E as <- <-. inversion O; subst.
      destruct (F x s y s1) as [G1 R1]; auto. destruct (IH s1 ys' s2) as [G2 R2]; auto. { apply G1. }
      split; [eapply grows_trans; eauto|]. constructor; auto. eapply MO; [apply grows_incl; exact G2|auto].
  Qed.
  Lemma lookup_in M a b : lookup M a = Some b -> In (a, b) M.
  Proof. unfold lookup. destruct (find (fun p => fst p =? a) M) as [[x y]|] eqn:E; [|discriminate]. intro Q. injection Q as <-. apply find_some in E. destruct E as [E Q]. cbn in Q. apply Nat.eqb_eq in Q. subst. auto. Qed.
  Lemma lookup_none M a : lookup M a = None -> ~ In a (map fst M).
  Proof.
    unfold lookup. destruct (find (fun p => fst p =? a) M) as [p|] eqn:E; [discriminate|]. intros _ I. apply in_map_iff in I. destruct I as (p & <- & I). apply (find_none _ _ E) in I. rewrite Nat.eqb_refl in I. discriminate.
  Qed.
  Lemma closed_items a nd : nth_error H0 a = Some nd -> Forall (Forall (ref_in (length H0))) (items nd).
  Proof. intro E. apply Forall_forall. intros e He. apply Forall_forall. intros r Hr. eapply CL; eauto. Qed.

  (** making the dummy *)
  Lemma dummy_inv H M a nd : inv (H, M) -> nth_error H0 a = Some nd -> ~ In a (map fst M) -> inv (H ++ [dummy (kind_of nd)], (a, length H) :: M).
  Proof.
    intros (I1 & I2 & I3 & I4 & I5) E N. assert (La : a < length H0) by (apply nth_error_Some; congruence). unfold inv. rewrite app_length. cbn [length map fst snd].
    split; [lia|]. split; [intros i Hi; rewrite nth_error_app1 by lia; auto|]. split; [constructor; auto|]. split.
    - constructor; auto. intro Q. apply in_map_iff in Q. destruct Q as ([x y] & Q0 & Q). apply I5 in Q. cbn in Q, Q0. lia.
    - intros x y [Q|Q]; [injection Q as <- <-; lia|]. apply I5 in Q. lia.
  Qed.
  Lemma copy_ok : forall n, step_ok (ref_in (length H0)) (fun M => related M) (copy_recursive n).
  Proof.
    induction n as [|n IH]; intros r s r' s' O I E; cbn [Copy.copy_recursive] in E; [discriminate|]. destruct r as [t|a|i].
    - injection E as <- <-. split; [apply grows_refl; auto|constructor].
    - destruct s as [H M]. destruct (lookup M a) as [b|] eqn:LK.
      { injection E as <- <-. split; [apply grows_refl; auto|]. constructor. apply lookup_in. auto. }
      cbn [ref_in] in O. assert (I' := I). destruct I' as (I1 & I2 & I3 & I4 & I5). rewrite (I2 a O) in E. destruct (nth_error H0 a) as [nd|] eqn:NA; [|discriminate].
      assert (ID := dummy_inv H M a nd I NA (lookup_none _ _ LK)). set (s1 := (H ++ [dummy (kind_of nd)], (a, length H) :: M)) in *.
      destruct (each (each (copy_recursive n)) (items nd) s1) as [[elements [H' M']]|] eqn:EE; [|discriminate].
      assert (OK := each_ok _ _ _ related_list_mono (each_ok _ _ _ related_mono IH)).
      destruct (OK (items nd) s1 elements (H', M') (closed_items _ _ NA) ID EE) as [G R]. cbn [snd] in R. clear OK.
      injection E as <- <-.
      destruct G as (J & L & F & N & EN & D). cbn [fst snd s1] in *. rewrite app_length in L. cbn [length] in L.
      set (cp := fold_left (fun acc e => insert_item (kind_of nd) H' acc e) elements []).
      set (nd' := Node (kind_of (dummy (kind_of nd))) cp). set (H2 := update H' (length H) nd').
      assert (LEN : length H2 = length H') by apply update_length.
      assert (NH : nth_error H2 (length H) = Some nd') by (unfold H2; rewrite update_spec, Nat.eqb_refl; replace (length H <? length H') with true by (symmetry; apply Nat.ltb_lt; lia); reflexivity).
      assert (NO : forall i, i <> length H -> nth_error H2 i = nth_error H' i) by (intros i Hi; unfold H2; rewrite update_spec; destruct (Nat.eqb_spec (length H) i); [congruence|reflexivity]).
      assert (DN : done (H2, M') a (length H)).
      { exists nd, nd'. split; auto. split; auto. split; [unfold same_kind, nd'; destruct (kind_of nd); reflexivity|].
        assert (FR : forall e' x', In e' cp -> In x' e' -> exists e x, In e (items nd) /\ In x e /\ related M' x x').
        { intros e' x' Q1 Q2. destruct (fill_from _ _ _ _ _ _ Q1 Q2) as (e & [[]|Q3] & Q4). clear - R Q3 Q4. induction R as [|l l' ls ls' RL RR IHR]; [destruct Q3|]. destruct Q3 as [->|Q3].
          - clear IHR RR. exists l. induction RL as [|x y l l' Rx RL IHl]; [destruct Q4|]. destruct Q4 as [->|Q4]; [exists x; split; [left; auto|split; [left; auto|auto]]|]. destruct (IHl Q4) as (z & _ & Q & Q'). exists z. split; [left; auto|]. split; [right; auto|auto].
          - destruct (IHR Q3) as (l0 & x0 & A & B & C). exists l0, x0. split; [right; auto|auto]. }
        split; [exact FR|]. cbn [items nd'].
        assert (LE : length elements = length (items nd)) by (clear - R; induction R; cbn [length]; auto).
        unfold same_items, merged. destruct (kind_of nd) eqn:KK; try (left; unfold cp; rewrite KK || idtac; pose proof (fill_seq (kind_of nd) H') as FS; rewrite KK in FS; unfold fill in FS; rewrite (FS Logic.I elements []); exact R).
        - destruct (fill_short KSet H' Logic.I elements []) as [LL FS]. unfold fill in LL, FS. fold cp in LL, FS. cbn [length Nat.add app] in *. destruct (Nat.eq_dec (length cp) (length (items nd))) as [Q|Q]; [left; rewrite FS by lia; exact R|right; exact Q].
        - left. exists elements. split; [symmetry; apply (fill_heap H' elements [])|exact R].
        - destruct (fill_short (KDict default) H' Logic.I elements []) as [LL FS]. unfold fill in LL, FS. fold cp in LL, FS. cbn [length Nat.add app] in *. destruct (Nat.eq_dec (length cp) (length (items nd))) as [Q|Q]; [left; rewrite FS by lia; exact R|right; exact Q]. }
      change (grows (H, M) (H2, M') /\ related M' (RObj a) (RObj (length H))). split.
      + split; [|split; [|split]].
        * destruct J as (J1 & J2 & J3 & J4 & J5). unfold inv. rewrite LEN. split; auto. split; [intros i Hi; rewrite NO by lia; auto|]. split; auto.
        * cbn [fst]. lia.
        * cbn [fst]. intros i Hi. rewrite NO by lia. rewrite F by (rewrite app_length; lia). apply nth_error_app1. auto.
        * exists (N ++ [(a, length H)]). cbn [snd]. split; [rewrite EN, <- app_assoc; reflexivity|]. intros x y Hi. apply in_app_or in Hi. destruct Hi as [Hi|[Q|[]]]; [|injection Q as <- <-; auto].
          assert (y <> length H).
          { intros ->. destruct J as (_ & _ & _ & J4 & _). rewrite EN, map_app in J4. cbn [map snd] in J4. apply NoDup_remove_2 in J4. apply J4. apply in_or_app. left. apply in_map_iff. exists (x, length H). auto. }
          destruct (D x y Hi) as (p & q & D1 & D2 & D3). exists p, q. split; auto. split; [rewrite NO by auto; auto|auto].
      + constructor. cbn [snd]. rewrite EN. apply in_or_app. right. left. reflexivity.
    - destruct (copy_recursive n i s) as [[j s1]|] eqn:E1; [|discriminate]. injection E as <- <-. destruct (IH i s j s1) as [G R]; auto. split; auto. constructor. auto.
  Qed.

  (** ** termination *)
  Lemma each_more {A B} (f g : A -> state -> option (B * state)) : (forall x s y, f x s = Some y -> g x s = Some y) -> forall l s y, each f l s = Some y -> each g l s = Some y.
  Proof.
    intros FG. induction l as [|x l IH]; intros s y E; cbn [each] in *; auto. destruct (f x s) as [[z s1]|] eqn:E1; [|discriminate]. rewrite (FG _ _ _ E1). destruct (each f l s1) as [[zs s2]|] eqn:E2; [|discriminate]. rewrite (IH _ _ E2). auto.
  Qed.
  Lemma copy_more : forall n m r s y, n <= m -> copy_recursive n r s = Some y -> copy_recursive m r s = Some y.
  Proof.
    induction n as [|n IH]; intros [|m] r s y L E; cbn [Copy.copy_recursive] in *; try discriminate; try lia. assert (IH' : forall r s y, copy_recursive n r s = Some y -> copy_recursive m r s = Some y) by (intros; apply IH; auto; lia).
    destruct r as [t|a|i]; auto.
    - destruct s as [H M]. destruct (lookup M a); auto. destruct (nth_error H a) as [nd|]; auto.
      destruct (each (each (copy_recursive n)) (items nd) (H ++ [dummy (kind_of nd)], (a, length H) :: M)) as [z|] eqn:EE; [|discriminate].
      rewrite (each_more _ _ (each_more _ _ IH') _ _ _ EE). auto.
    - destruct (copy_recursive n i s) as [z|] eqn:EE; [|discriminate]. rewrite (IH' _ _ _ EE). auto.
  Qed.
  Definition left_to_copy (s : state) : nat := length H0 - length (snd s).
  Lemma grows_left s s' : grows s s' -> left_to_copy s' <= left_to_copy s.
  Proof. intros (_ & _ & _ & N & E & _). unfold left_to_copy. rewrite E, app_length. lia. Qed.
  (** if each element can be processed, so can the list *)
  Lemma each_ends {A B} (ok : A -> Prop) (R : list (nat * nat) -> A -> B -> Prop) (F : nat -> A -> state -> option (B * state)) k :
    (forall n m x s y, n <= m -> F n x s = Some y -> F m x s = Some y) -> (forall n, step_ok ok R (F n)) ->
    forall l, Forall ok l -> Forall (fun x => forall s, inv s -> left_to_copy s <= k -> exists n y s', F n x s = Some (y, s')) l ->
    forall s, inv s -> left_to_copy s <= k -> exists n y s', each (F n) l s = Some (y, s').
  Proof.
    intros MO OK. induction l as [|x l IH]; intros O T s I K; [exists 0, [], s; reflexivity|]. inversion O; inversion T; subst.
    match goal with Q : forall s, _ |- _ => destruct (Q s I K) as (n & y & s1 & E1) end.
    match goal with Q : ok x |- _ => destruct (OK n x s y s1 Q I E1) as [G _] end. destruct (IH ltac:(auto) ltac:(auto) s1 (proj1 G)) as (m & ys & s2 & E2); [apply grows_left in G; lia|].
    exists (n + m), (y :: ys), s2. cbn [each]. rewrite (MO n (n + m) x s _ ltac:(lia) E1). rewrite (each_more (F m) (F (n + m)) (fun x s y => MO m (n + m) x s y ltac:(lia)) _ _ _ E2). reflexivity.
  Qed.
  Lemma keys_bound (M : list (nat * nat)) : NoDup (map fst M) -> (forall a b, In (a, b) M -> a < length H0) -> length M <= length H0.
  Proof.
    intros N B. rewrite <- (map_length fst M), <- (seq_length (length H0) 0). apply NoDup_incl_length; auto. intros x Hx. apply in_map_iff in Hx. destruct Hx as ([a b] & <- & Hx). apply in_seq. cbn. apply B in Hx. lia.
  Qed.
  Lemma copy_ends : forall k r s, inv s -> left_to_copy s <= k -> ref_in (length H0) r -> exists n r' s', copy_recursive n r s = Some (r', s').
  Proof.
    induction k as [k IHk] using lt_wf_ind. induction r as [t|a|i IHi]; intros s I K O.
    - exists 1, (RLeaf t), s. reflexivity.
    - destruct s as [H M]. destruct (lookup M a) as [b|] eqn:LK.
      { exists 1, (RObj b), (H, M). cbn [Copy.copy_recursive]. rewrite LK. reflexivity. }
      cbn [ref_in] in O. assert (I' := I). destruct I' as (I1 & I2 & I3 & I4 & I5). destruct (nth_error H0 a) as [nd|] eqn:NA; [|apply nth_error_None in NA; lia].
      assert (ID := dummy_inv H M a nd I NA (lookup_none _ _ LK)). set (s1 := (H ++ [dummy (kind_of nd)], (a, length H) :: M)) in *.
      assert (K1 : left_to_copy s1 < k).
      { assert (KB := keys_bound ((a, length H) :: M)). cbn [length] in KB. unfold left_to_copy in *. cbn [snd s1 length] in *. destruct ID as (_ & _ & J3 & _ & J5). specialize (KB J3 (fun x y Q => proj1 (J5 x y Q))). lia. }
      destruct (each_ends (Forall (ref_in (length H0))) (fun M => Forall2 (related M)) (fun n => each (copy_recursive n)) (left_to_copy s1)) with (l := items nd) (s := s1) as (n & el & s2 & E); auto.
      + intros n m x s y L. apply each_more. intros x' s' y'. apply copy_more. auto.
      + intro n. apply each_ok; [intros; eapply related_mono; eauto|apply copy_ok].
      + apply closed_items with (a := a). auto.
      + assert (CI := closed_items a nd NA). eapply Forall_impl; [|exact CI]. cbn beta. intros e He s Is Ls.
        apply (each_ends (ref_in (length H0)) (fun M => related M) copy_recursive (left_to_copy s1)); auto.
        * intros n m x s' y L. apply copy_more. auto.
        * apply copy_ok.
        * eapply Forall_impl; [|exact He]. cbn beta. intros r Hr s' Is' Ls'. apply (IHk (left_to_copy s1)); auto.
      + destruct s2 as [H' M']. exists (S n). do 2 eexists. cbn [Copy.copy_recursive]. rewrite LK, (I2 a O), NA. fold s1. rewrite E. reflexivity.
    - destruct (IHi s I K O) as (n & r' & s' & E). exists (S n), (REnumerate r'), s'. cbn [Copy.copy_recursive]. rewrite E. reflexivity.
  Qed.
End P.
