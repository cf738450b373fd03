(** Correctness of the binary heap algorithms for any total preorder. *)
From Verif Require Import Base Value Seq Heap.
From Coq Require Import Permutation.
Local Open Scope nat_scope.

Lemma update_length {A} (l : list A) : forall i x, length (update l i x) = length l.
Proof. induction l as [|y l IH]; intros [|i] x; cbn; auto. Qed.
Lemma nth_update {A} (d : A) (l : list A) : forall i j x, nth j (update l i x) d = if (j =? i) && (i <? length l) then x else nth j l d.
Proof.
  induction l as [|y l IH]; intros [|i] [|j] x; cbn; auto.
  - destruct (j =? i); reflexivity.
  - rewrite IH. reflexivity.
Qed.

Section HeapP.
  Variable A : Type.
  Variable d : A.
  Variable le : A -> A -> bool.
  Variable D : A -> Prop.
  Hypothesis total : forall a b, D a -> D b -> le a b = false -> le b a = true.
  Hypothesis trans : forall a b c, D a -> D b -> D c -> le a b = true -> le b c = true -> le a c = true.
  Hypothesis refl : forall a, D a -> le a a = true.
  Notation get := (get d). Notation swap := (swap d).
  Notation "l # i" := (get l i) (at level 20).
  Definition par (i : nat) := (i - 1) / 2.

  Lemma swap_length l i j : length (swap l i j) = length l.
  Proof. unfold swap. rewrite !update_length. reflexivity. Qed.
  Lemma get_swap l i j k : i < length l -> j < length l -> swap l i j # k = if k =? j then l # i else if k =? i then l # j else l # k.
  Proof.
    intros Hi Hj. unfold Heap.get, Heap.swap. rewrite nth_update, update_length, nth_update.
    replace (i <? length l) with true by (symmetry; apply Nat.ltb_lt; lia). replace (j <? length l) with true by (symmetry; apply Nat.ltb_lt; lia).
    rewrite !andb_true_r. reflexivity.
  Qed.
  Lemma get_D l i : Forall D l -> i < length l -> D (l # i).
  Proof. intros H Hi. rewrite Forall_forall in H. apply H. apply nth_In. exact Hi. Qed.

  Lemma update_perm : forall (l : list A) i x, i < length l -> Permutation (x :: l) (l # i :: update l i x).
  Proof.
    induction l as [|y l IH]; intros [|i] x H; cbn in *; try lia.
    - apply perm_swap.
    - etransitivity; [apply perm_swap|]. etransitivity; [apply perm_skip, (IH i x); lia|]. apply perm_swap.
  Qed.
  Lemma swap_perm l i j : i < length l -> j < length l -> Permutation l (swap l i j).
  Proof.
    intros Hi Hj. apply (Permutation_cons_inv (a := l # i)). 
    pose proof (update_perm l i (l # j) Hi) as P1.
    pose proof (update_perm (update l i (l # j)) j (l # i)) as P2. rewrite update_length in P2. specialize (P2 Hj).
    assert (E : update l i (l # j) # j = l # j) by (unfold Heap.get at 1; rewrite nth_update; destruct (_ && _); reflexivity).
    rewrite E in P2. fold (swap l i j) in P2.
    destruct (Nat.eqb_spec i j) as [<-|N].
    - (* i = j *) etransitivity; [|exact P2]. apply perm_skip.
      apply (Permutation_cons_inv (a := l # i)). exact P1.
    - apply (Permutation_cons_inv (a := l # j)). etransitivity; [apply perm_swap|]. 
      etransitivity; [apply perm_skip, P1|]. etransitivity; [apply perm_skip, P2|]. apply perm_swap.
  Qed.

  (** ** the parent relation *)
  Lemma par_lt i : 0 < i -> par i < i.
  Proof. intro H. unfold par. apply Nat.div_lt_upper_bound; lia. Qed.
  Lemma par_child i p : 0 < i -> (par i = p <-> i = 2 * p + 1 \/ i = 2 * p + 2).
  Proof.
    intro H. unfold par. split.
    - intros <-. pose proof (Nat.div_mod (i - 1) 2 ltac:(lia)). pose proof (Nat.mod_upper_bound (i - 1) 2 ltac:(lia)). lia.
    - intros [->| ->]; symmetry; [apply (Nat.div_unique _ _ _ 0)|apply (Nat.div_unique _ _ _ 1)]; lia.
  Qed.

  Definition heap (l : list A) : Prop := forall i, 0 < i < length l -> le (l # par i) (l # i) = true.
  (** everything in order except possibly above [pos] *)
  Definition up_inv (l : list A) (pos : nat) : Prop :=
    (forall i, 0 < i < length l -> i <> pos -> le (l # par i) (l # i) = true) /\
    (forall c, 0 < c < length l -> par c = pos -> 0 < pos -> le (l # par pos) (l # c) = true).
  (** everything in order except possibly around [pos] *)
  Definition mid_inv (l : list A) (pos : nat) : Prop :=
    (forall i, 0 < i < length l -> i <> pos -> par i <> pos -> le (l # par i) (l # i) = true) /\
    (forall c, 0 < c < length l -> par c = pos -> 0 < pos -> le (l # par pos) (l # c) = true).

  Lemma Forall_perm l l' : Permutation l l' -> Forall D l -> Forall D l'.
  Proof. intros P H. rewrite Forall_forall in *. intros x Hx. apply H. eapply Permutation_in; [symmetry; exact P|exact Hx]. Qed.

  Lemma sift_up_ok : forall n l pos, pos < n -> pos < length l -> Forall D l -> up_inv l pos ->
    heap (sift_up d le n l pos) /\ Permutation l (sift_up d le n l pos).
  Proof.
    induction n as [|n IH]; intros l pos Hn Hp HD [H1 H2]; [lia|]. cbn [sift_up].
    destruct (Nat.eqb_spec pos 0) as [->|N].
    { split; [|reflexivity]. intros i Hi. apply H1; lia. }
    fold (par pos). pose proof (par_lt pos ltac:(lia)) as Lp.
    destruct (le (l # par pos) (l # pos)) eqn:E.
    { split; [|reflexivity]. intros i Hi. destruct (Nat.eq_dec i pos) as [->|Ne]; [exact E|apply H1; lia]. }
    assert (Hpp : par pos < length l) by lia.
    assert (T : le (l # pos) (l # par pos) = true) by (apply total; auto using get_D).
    assert (Pm := swap_perm l pos (par pos) Hp Hpp).
    destruct (IH (swap l pos (par pos)) (par pos)) as [Hh Hpm].
    - lia.
    - rewrite swap_length. lia.
    - eapply Forall_perm; eassumption.
    - split.
      + intros i Hi Ne. rewrite swap_length in Hi. rewrite !get_swap by lia.
        destruct (Nat.eqb_spec i (par pos)); [congruence|].
        destruct (Nat.eqb_spec i pos) as [->|Ni].
        * rewrite Nat.eqb_refl. exact T.
        * destruct (Nat.eqb_spec (par i) (par pos)) as [Ep|Np].
          -- apply (trans _ (l # par pos)); auto using get_D; try (apply get_D; auto; lia). rewrite <- Ep. apply H1; lia.
          -- destruct (Nat.eqb_spec (par i) pos) as [Epi|Npi]; [apply H2; lia|apply H1; lia].
      + intros c Hc Ec Hpos. rewrite swap_length in Hc. pose proof (par_lt (par pos) Hpos) as Lpp. rewrite !get_swap by lia.
        destruct (Nat.eqb_spec (par (par pos)) (par pos)); [lia|]. destruct (Nat.eqb_spec (par (par pos)) pos); [lia|].
        destruct (Nat.eqb_spec c (par pos)) as [->|Nc]; [exfalso; apply par_lt in Hpos; lia|].
        destruct (Nat.eqb_spec c pos) as [->|Nc2].
        * apply H1; lia.
        * apply (trans _ (l # par pos)); try (apply get_D; auto; lia).
          -- apply H1; lia.
          -- rewrite <- Ec. apply H1; lia.
    - split; [exact Hh|]. etransitivity; eassumption.
  Qed.

  (** children and the choice of the smaller one *)
  Lemma swap_mid l pos m : Forall D l -> mid_inv l pos -> pos < length l -> m < length l -> par m = pos -> 0 < m ->
    (forall c, 0 < c < length l -> par c = pos -> le (l # m) (l # c) = true) -> mid_inv (swap l pos m) m.
  Proof.
    intros HD [H1 H2] Hp Hm Em Hm0 Hc. assert (Lm := par_lt m Hm0). split.
    - intros i Hi Ne Np. rewrite swap_length in Hi. rewrite !get_swap by lia.
      destruct (Nat.eqb_spec i m); [congruence|]. destruct (Nat.eqb_spec (par i) m); [congruence|].
      destruct (Nat.eqb_spec i pos) as [->|Ni].
      + assert (X := par_lt pos ltac:(lia)). destruct (Nat.eqb_spec (par pos) pos); [lia|]. apply H2; lia.
      + destruct (Nat.eqb_spec (par i) pos) as [Ep|Np2]; [apply Hc; lia|apply H1; lia].
    - intros c Hcc Ec _. rewrite swap_length in Hcc. rewrite !get_swap by lia. rewrite Em.
      assert (Lc := par_lt c ltac:(lia)).
      destruct (Nat.eqb_spec pos m); [lia|]. rewrite Nat.eqb_refl.
      destruct (Nat.eqb_spec c m); [lia|]. destruct (Nat.eqb_spec c pos); [lia|]. rewrite <- Ec. apply H1; lia.
  Qed.

  Lemma pick l pos (HD : Forall D l) : let c := 2 * pos + 1 in c + 1 < length l ->
    let m := if le (l # (c + 1)) (l # c) then c + 1 else c in
    m < length l /\ par m = pos /\ 0 < m /\ pos < m /\ forall x, 0 < x < length l -> par x = pos -> le (l # m) (l # x) = true.
  Proof.
    intros c Hc m. unfold m. assert (P1 : par c = pos) by (apply par_child; unfold c; lia).
    assert (P2 : par (c + 1) = pos) by (apply par_child; unfold c; lia).
    destruct (le (l # (c + 1)) (l # c)) eqn:E; (split; [lia|]; split; [assumption|]; split; [lia|]; split; [unfold c; lia|]); intros x Hx Px;
      apply par_child in Px; try lia; replace (2 * pos + 2) with (c + 1) in Px by (unfold c; lia); fold c in Px; destruct Px as [-> | ->];
      auto using get_D; try (apply refl, get_D; auto; lia). apply total; auto; apply get_D; auto; lia.
  Qed.

  Lemma sink_ok : forall n l pos, length l <= n + pos -> pos < length l -> Forall D l -> mid_inv l pos ->
    let '(l', p) := sink d le n l pos in length l' = length l /\ p < length l /\ up_inv l' p /\ Permutation l l'.
  Proof.
    induction n as [|n IH]; intros l pos Hn Hp HD Hi; [lia|]. cbn [sink].
    destruct (Nat.leb_spec (2 * pos + 1) (length l - 2)) as [Hc|Hc].
    - destruct (pick l pos HD) as (M1 & M2 & M3 & M4 & M5); [lia|].
      set (m := if le (l # (2 * pos + 1 + 1)) (l # (2 * pos + 1)) then 2 * pos + 1 + 1 else 2 * pos + 1) in *.
      assert (Pm := swap_perm l pos m Hp M1).
      assert (Y := IH (swap l pos m) m). rewrite swap_length in Y. specialize (Y ltac:(lia) M1 (Forall_perm _ _ Pm HD) (swap_mid l pos m HD Hi Hp M1 M2 M3 M5)).
      destruct (sink d le n (swap l pos m) m) as [l' p]. destruct Y as (Y1 & Y2 & Y3 & Y4). repeat split; auto; try apply Y3.
      etransitivity; eassumption.
    - destruct (Nat.eqb_spec (2 * pos + 1) (length l - 1)) as [Ec|Nc].
      + set (m := 2 * pos + 1) in *. assert (Pm : par m = pos) by (apply par_child; unfold m; lia).
        assert (M1 : m < length l) by lia.
        assert (M5 : forall c, 0 < c < length l -> par c = pos -> le (l # m) (l # c) = true).
        { intros c Hcc Px. apply par_child in Px; [|lia]. assert (c = m) by (unfold m in *; lia). subst c. apply refl, get_D; auto. }
        assert (S := swap_mid l pos m HD Hi Hp M1 Pm ltac:(unfold m; lia) M5).
        rewrite swap_length. repeat split; auto.
        * intros i Hii Ne. apply S; auto. intro Q. apply par_child in Q; [|lia]. rewrite swap_length in Hii. unfold m in *. lia.
        * intros c Hcc Px Hm0. rewrite swap_length in Hcc. apply par_child in Px; [|lia]. unfold m in *. lia.
        * apply swap_perm; auto.
      + repeat split; auto.
        * intros i Hii Ne. apply Hi; auto. intro Q. apply par_child in Q; lia.
        * intros c Hcc Px Hm0. apply par_child in Px; lia.
  Qed.

  Lemma heap_root l i : Forall D l -> heap l -> i < length l -> le (l # 0) (l # i) = true.
  Proof.
    intros HD Hh. induction i as [i IH] using lt_wf_ind. intro Hi. destruct (Nat.eq_dec i 0) as [->|N].
    - apply refl, get_D; auto.
    - assert (L := par_lt i ltac:(lia)). apply (trans _ (l # par i)); try (apply get_D; auto; lia); [apply IH; lia|apply Hh; lia].
  Qed.
  Lemma heap_root_in l x : Forall D l -> heap l -> In x l -> le (l # 0) x = true.
  Proof. intros HD Hh Hx. apply (In_nth _ _ d) in Hx. destruct Hx as (i & Hi & <-). apply heap_root; auto. Qed.

  Lemma push_ok x l : D x -> Forall D l -> heap l -> heap (heap_push d le x l) /\ Permutation (x :: l) (heap_push d le x l).
  Proof.
    intros Hx HD Hh. unfold heap_push.
    assert (HD' : Forall D (l ++ [x])) by (apply Forall_app; auto).
    destruct (sift_up_ok (S (length l)) (l ++ [x]) (length l)) as [H1 H2]; auto.
    - rewrite app_length. cbn. lia.
    - assert (G : forall i, i < length l -> (l ++ [x]) # i = l # i) by (intros; unfold Heap.get; apply app_nth1; auto).
      split.
      + intros i Hi Ne. rewrite app_length in Hi. cbn in Hi. assert (L := par_lt i ltac:(lia)). rewrite !G by lia. apply Hh. lia.
      + intros c Hc Px Hp. rewrite app_length in Hc. cbn in Hc. assert (L := par_lt c ltac:(lia)). lia.
    - split; [exact H1|]. etransitivity; [|exact H2]. apply Permutation_cons_append.
  Qed.

  Lemma bottom_ok l : l <> [] -> Forall D l -> mid_inv l 0 -> heap (sift_down_to_bottom d le l) /\ Permutation l (sift_down_to_bottom d le l).
  Proof.
    intros Hl HD Hi. unfold sift_down_to_bottom. assert (Hp : 0 < length l) by (destruct l; [congruence|cbn; lia]).
    pose proof (sink_ok (length l) l 0 ltac:(lia) Hp HD Hi) as S. destruct (sink d le (length l) l 0) as [l' p].
    destruct S as (S1 & S2 & S3 & S4). destruct (sift_up_ok (length l) l' p) as [U1 U2]; auto; try lia.
    - eapply Forall_perm; eassumption.
    - split; auto. etransitivity; eassumption.
  Qed.

  Lemma pop_ok l : Forall D l -> heap l ->
    match heap_pop d le l with
    | None => l = []
    | Some (x, l') => Permutation l (x :: l') /\ heap l' /\ forall y, In y l -> le x y = true
    end.
  Proof.
    intros HD Hh. unfold heap_pop. destruct (rev l) as [|item r] eqn:E.
    - apply (f_equal (@rev A)) in E. rewrite rev_involutive in E. exact E.
    - apply (f_equal (@rev A)) in E. rewrite rev_involutive in E. cbn in E. set (l0 := rev r) in *.
      destruct l0 as [|x l'] eqn:F.
      + subst l. cbn. split; [reflexivity|]. split; [intros i Hi; cbn in Hi; lia|].
        intros y [<-|[]]. apply refl. inversion HD; auto.
      + assert (R : l # 0 = x) by (subst l; reflexivity).
        assert (D1 : Forall D (item :: l')).
        { subst l. cbn in HD. inversion HD; subst. apply Forall_app in H2. destruct H2 as [Ha Hb]. inversion Hb; subst. constructor; auto. }
        assert (G : forall i, 0 < i < length (item :: l') -> (item :: l') # i = l # i).
        { intros i Hi. subst l. unfold Heap.get. destruct i as [|i]; [lia|]. cbn in *. rewrite app_nth1 by lia. reflexivity. }
        destruct (bottom_ok (item :: l')) as [B1 B2]; auto; [discriminate| |].
        * split; [|lia]. intros i Hi Ne Np. assert (L := par_lt i ltac:(lia)). rewrite !G by lia. apply Hh. subst l. cbn in *. rewrite app_length. cbn. lia.
        * split; [|split; [exact B1|]].
          -- subst l. cbn. apply perm_skip. etransitivity; [symmetry; apply Permutation_cons_append|exact B2].
          -- intros y Hy. rewrite <- R. apply heap_root_in; auto.
  Qed.

  (** ** building a heap from a list *)
  (** in order below position [n] *)
  Definition heap_from (n : nat) (l : list A) : Prop := forall i, 0 < i < length l -> n <= par i -> le (l # par i) (l # i) = true.
  (** same, except possibly just below [pos], whose parent (if [>= n]) is below its grandchildren *)
  Definition down_inv (n : nat) (l : list A) (pos : nat) : Prop :=
    (forall i, 0 < i < length l -> n <= par i -> par i <> pos -> le (l # par i) (l # i) = true) /\
    (forall c, 0 < c < length l -> par c = pos -> 0 < pos -> n <= par pos -> le (l # par pos) (l # c) = true).

  Lemma sift_down_ok : forall k n l pos, length l <= k + pos -> pos < length l -> n <= pos -> Forall D l -> down_inv n l pos ->
    heap_from n (sift_down d le k l pos) /\ Permutation l (sift_down d le k l pos).
  Proof.
    induction k as [|k IH]; intros n l pos Hk Hp Hn HD [H1 H2]; [lia|]. cbn [sift_down].
    destruct (Nat.leb_spec (2 * pos + 1) (length l - 2)) as [Hc|Hc].
    - destruct (pick l pos HD) as (M1 & M2 & M3 & M4 & M5); [lia|].
      set (m := if le (l # (2 * pos + 1 + 1)) (l # (2 * pos + 1)) then 2 * pos + 1 + 1 else 2 * pos + 1) in *.
      destruct (le (l # pos) (l # m)) eqn:E.
      { split; [|reflexivity]. intros i Hi Hni. destruct (Nat.eq_dec (par i) pos) as [Ep|Np]; [|apply H1; auto].
        rewrite Ep. apply (trans _ (l # m)); try (apply get_D; auto; lia); [exact E|apply M5; auto]. }
      assert (Pm := swap_perm l pos m Hp M1).
      destruct (IH n (swap l pos m) m) as [X1 X2]; auto; rewrite ?swap_length; try lia.
      + eapply Forall_perm; eassumption.
      + split.
        * intros i Hi Hni Np. rewrite swap_length in Hi. rewrite !get_swap by lia.
          destruct (Nat.eqb_spec (par i) m); [congruence|].
          destruct (Nat.eqb_spec i m) as [->|Nm].
          -- rewrite M2, Nat.eqb_refl. apply total; try (apply get_D; auto; lia). exact E.
          -- destruct (Nat.eqb_spec (par i) pos) as [Ep|Np2].
             ++ destruct (Nat.eqb_spec i pos) as [->|]; [exfalso; assert (L := par_lt pos ltac:(lia)); lia|]. apply M5; auto.
             ++ destruct (Nat.eqb_spec i pos) as [->|Ni]; [apply H2; auto; lia|apply H1; auto].
        * intros c Hcc Px _ Hnp. rewrite swap_length in Hcc. rewrite !get_swap by lia. rewrite M2. assert (L := par_lt c ltac:(lia)).
          destruct (Nat.eqb_spec pos m); [lia|]. rewrite Nat.eqb_refl. destruct (Nat.eqb_spec c m); [lia|]. destruct (Nat.eqb_spec c pos); [lia|].
          rewrite <- Px. apply H1; lia.
      + split; auto. etransitivity; eassumption.
    - destruct (Nat.eqb_spec (2 * pos + 1) (length l - 1)) as [Ec|Nc]; cbn [andb].
      + set (m := 2 * pos + 1) in *. assert (Pm : par m = pos) by (apply par_child; unfold m; lia). assert (M1 : m < length l) by lia.
        destruct (le (l # pos) (l # m)) eqn:E; cbn [negb].
        * split; [|reflexivity]. intros i Hi Hni. destruct (Nat.eq_dec (par i) pos) as [Ep|Np]; [|apply H1; auto].
          assert (Q := Ep). apply par_child in Q; [|lia]. assert (i = m) by (unfold m in *; lia). subst i. rewrite Ep. exact E.
        * split; [|apply swap_perm; auto]. intros i Hi Hni. rewrite swap_length in Hi. rewrite !get_swap by lia.
          destruct (Nat.eqb_spec (par i) m) as [Q|_]; [apply par_child in Q; unfold m in *; lia|].
          destruct (Nat.eqb_spec i m) as [->|Nm].
          -- rewrite Pm, Nat.eqb_refl. apply total; try (apply get_D; auto; lia). exact E.
          -- destruct (Nat.eqb_spec (par i) pos) as [Ep|Np2]; [apply par_child in Ep; unfold m in *; lia|].
             destruct (Nat.eqb_spec i pos) as [->|Ni]; [apply H2; auto; unfold m in *; lia|apply H1; auto].
      + split; [|reflexivity]. intros i Hi Hni. apply H1; auto. intro Q. apply par_child in Q; lia.
  Qed.

  Lemma rebuild_ok : forall n l, n <= length l / 2 -> Forall D l -> heap_from n l -> heap (rebuild_from d le n l) /\ Permutation l (rebuild_from d le n l).
  Proof.
    induction n as [|n IH]; intros l Hn HD Hh; cbn [rebuild_from].
    - split; [|reflexivity]. intros i Hi. apply Hh; [exact Hi|lia].
    - assert (Hl : n < length l) by (assert (length l / 2 <= length l) by (apply Nat.div_le_upper_bound; lia); lia).
      destruct (sift_down_ok (length l) n l n) as [S1 S2]; auto; try lia.
      + split.
        * intros i Hi Hni Np. apply Hh; auto. lia.
        * intros c Hc Px Hp Hnp. exfalso. assert (L := par_lt n Hp). lia.
      + assert (L2 : length (sift_down d le (length l) l n) = length l) by (symmetry; apply Permutation_length; exact S2).
        destruct (IH (sift_down d le (length l) l n)) as [I1 I2]; auto.
        * rewrite L2. lia.
        * eapply Forall_perm; eassumption.
        * split; auto. etransitivity; eassumption.
  Qed.
  Lemma of_list_ok l : Forall D l -> heap (heap_of_list d le l) /\ Permutation l (heap_of_list d le l).
  Proof.
    intro HD. apply rebuild_ok; auto. intros i Hi Hp. exfalso.
    assert (Q : 2 * par i < length l - 1).
    { unfold par in *. pose proof (Nat.div_mod (i - 1) 2 ltac:(lia)). lia. }
    pose proof (Nat.div_mod (length l) 2 ltac:(lia)). pose proof (Nat.mod_upper_bound (length l) 2 ltac:(lia)). lia.
  Qed.
End HeapP.
