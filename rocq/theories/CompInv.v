(** The relation between the states of the definitional interpreter and the machine. *)
From Verif Require Import Base Native Err Vm VmProofs Graph GraphSpec GraphProofs Peep PeepSpec PeepProofs Lang LangSpec.
Local Open Scope nat_scope.

(** What a stack slot holds: a variable, or some other value. *)
Inductive slot := SVar (l : nat) | STmp (v : hval).
Definition sval (sto : list hval) (x : slot) : hval := match x with SVar l => nth l sto HNil | STmp v => v end.
Definition render (sto : list hval) (K : list slot) : list hval := map (sval sto) K.

(** The closure part of the machine state; [h_phi]: the variable each cell stands for. *)
Record hp := Hp { h_op : list (nat * nat); h_ce : list cell; h_en : list (list nat); h_phi : list (option nat) }.

Section inv.
Context (P : prims).
Local Notation st := (st P).
Local Notation store := (store P).
Local Notation senvs := (senvs P).
Local Notation globals := (globals P).
Local Notation sworld := (sworld P).

Definition mk (fs : list (nat * nat)) (li : list (L P)) (un : list Z) (i : nat) (s : st) (K : list slot) (h : hp) : vm P :=
  Vm P i (render (store s) K) fs li un (length (globals s)) (h_op h) (h_ce h) (h_en h) (sworld s).

(** variable [l] is captured by an open cell *)
Definition capd (h : hp) (K : list slot) (x : nat) : Prop :=
  exists k l, nth_error (h_phi h) k = Some (Some l) /\ nth_error K x = Some (SVar l).
Definition enval (phi : list (option nat)) (k : nat) (o : option nat) : Prop :=
  match o with Some l => nth_error phi k = Some (Some l) | None => True end.

Record inv (s : st) (K : list slot) (h : hp) : Prop := {
  i_len : length (h_phi h) = length (h_ce h);
  i_cell : forall k l, nth_error (h_phi h) k = Some (Some l) -> l < length (store s) /\
    ((exists x, nth_error K x = Some (SVar l) /\ nth_error (h_ce h) k = Some (Open x) /\ assoc x (h_op h) = Some k) \/
     ((forall x, nth_error K x <> Some (SVar l)) /\ nth_error (h_ce h) k = Some (Closed (nth l (store s) HNil))));
  i_inj : forall k k' l, nth_error (h_phi h) k = Some (Some l) -> nth_error (h_phi h) k' = Some (Some l) -> k = k';
  i_var : forall x l, nth_error K x = Some (SVar l) -> l < length (store s);
  i_vinj : forall x y l, nth_error K x = Some (SVar l) -> nth_error K y = Some (SVar l) -> x = y;
  i_open : forall x k, assoc x (h_op h) = Some k -> nth_error (h_ce h) k = Some (Open x);
  i_env : Forall2 (Forall2 (enval (h_phi h))) (h_en h) (senvs s) }.
(** globals are at the bottom of the stack *)
Definition glob (s : st) (K : list slot) : Prop := forall i l, nth_error (globals s) i = Some l -> nth_error K i = Some (SVar l).

(** two stacks with the same variables in the same places *)
Definition same_vars (K K' : list slot) : Prop := forall x l, nth_error K x = Some (SVar l) <-> nth_error K' x = Some (SVar l).
Lemma same_vars_refl K : same_vars K K. Proof. intros x l. tauto. Qed.
Lemma same_vars_sym K K' : same_vars K K' -> same_vars K' K. Proof. intros H x l. symmetry. apply H. Qed.
Lemma same_vars_trans A B D : same_vars A B -> same_vars B D -> same_vars A D.
Proof. intros H J x l. rewrite (H x l). apply J. Qed.
Lemma tmps_same K vs : same_vars K (K ++ map STmp vs).
Proof.
  intros x l. split; intro H.
  - rewrite nth_error_app1; auto. apply nth_error_Some. congruence.
  - destruct (Nat.lt_ge_cases x (length K)); [now rewrite nth_error_app1 in H by auto|].
    rewrite nth_error_app2 in H by auto. rewrite nth_error_map in H. destruct (nth_error vs _); discriminate.
Qed.
Lemma tmp_same K v : same_vars K (K ++ [STmp v]). Proof. apply (tmps_same K [v]). Qed.
Lemma inv_same s K K' h : same_vars K K' -> inv s K h -> inv s K' h.
Proof.
  intros S [A B D E F G H]. split; auto.
  - intros k l Hk. destruct (B k l Hk) as [B1 [[x [B2 B3]]|[B2 B3]]]; split; auto.
    + left. exists x. split; [now apply S|auto].
    + right. split; auto. intros x Hx. now apply (B2 x), S.
  - intros x l Hx. now apply (E x l), S.
  - intros x y l Hx Hy. apply (F x y l); now apply S.
Qed.
Lemma glob_same s K K' : same_vars K K' -> glob s K -> glob s K'.
Proof. intros S G i l H. apply S. auto. Qed.
Lemma capd_same h K K' x : same_vars K K' -> capd h K x -> capd h K' x.
Proof. intros S [k [l [A B]]]. exists k, l. split; auto. now apply S. Qed.

(** only the store, the closures and the globals matter *)
Lemma inv_with_world s w K h : inv s K h -> inv (with_world P w s) K h.
Proof. intros [A B D E F G H]. split; auto. Qed.
Lemma inv_globals s gs K h : inv s K h -> inv (St P (store s) (senvs s) gs (sworld s)) K h.
Proof. intros [A B D E F G H]. split; auto. Qed.

Lemma render_app sto A B : render sto (A ++ B) = render sto A ++ render sto B. Proof. apply map_app. Qed.
Lemma render_len sto K : length (render sto K) = length K. Proof. apply map_length. Qed.
Lemma render_tmps sto vs : render sto (map STmp vs) = vs.
Proof. unfold render. rewrite map_map. cbn [sval]. apply map_id. Qed.
Lemma render_nth sto K x y : nth_error K x = Some y -> nth_error (render sto K) x = Some (sval sto y).
Proof. intro H. unfold render. now rewrite nth_error_map, H. Qed.
Lemma render_ext sto sto' K : (forall x l, nth_error K x = Some (SVar l) -> nth l sto' HNil = nth l sto HNil) -> render sto' K = render sto K.
Proof.
  intro H. unfold render. apply map_ext_in. intros y Hy. apply In_nth_error in Hy. destruct Hy as [x Hx].
  destruct y; simpl; auto. eapply H; eauto.
Qed.

(** ** Allocation *)
Definition falloc (v : hval) (s : st) : st := St P (store s ++ [v]) (senvs s) (globals s) (sworld s).
Lemma nth_snoc_l (sto : list hval) v l : l < length sto -> nth l (sto ++ [v]) HNil = nth l sto HNil.
Proof. intro. now rewrite app_nth1. Qed.
Lemma nth_snoc_r (sto : list hval) v : nth (length sto) (sto ++ [v]) HNil = v.
Proof. rewrite app_nth2, Nat.sub_diag by lia. reflexivity. Qed.
Lemma mid_nth {A} (a : list A) x b i : nth_error (a ++ x :: b) i = if i =? length a then Some x else nth_error (a ++ x :: b) i.
Proof. destruct (Nat.eqb_spec i (length a)) as [->|]; auto. now rewrite nth_error_app2, Nat.sub_diag by lia. Qed.
Lemma mid_other {A} (a : list A) x y b i : i <> length a -> nth_error (a ++ x :: b) i = nth_error (a ++ y :: b) i.
Proof.
  intro N. destruct (Nat.lt_ge_cases i (length a)); [now rewrite !nth_error_app1 by auto|].
  rewrite !nth_error_app2 by auto. destruct (i - length a) eqn:E; [lia|]. reflexivity.
Qed.
Lemma mid_at {A} (a : list A) x b : nth_error (a ++ x :: b) (length a) = Some x.
Proof. now rewrite nth_error_app2, Nat.sub_diag by lia. Qed.
Lemma inv_alloc s A v B h : inv s (A ++ STmp v :: B) h -> inv (falloc v s) (A ++ SVar (length (store s)) :: B) h.
Proof.
  intros [Q1 Q2 Q3 Q4 Q5 Q6 Q7]. set (l0 := length (store s)).
  assert (N : forall x l, nth_error (A ++ SVar l0 :: B) x = Some (SVar l) -> (x = length A /\ l = l0) \/ (l < l0 /\ nth_error (A ++ STmp v :: B) x = Some (SVar l))).
  { intros x l H. destruct (Nat.eq_dec x (length A)) as [->|NE].
    - rewrite mid_at in H. injection H as <-. auto.
    - right. rewrite (mid_other _ _ (STmp v)) in H by auto. split; auto. eapply Q4; eauto. }
  split; auto.
  - intros k l Hk. destruct (Q2 k l Hk) as [L R]. cbn [falloc LangSpec.store]. rewrite app_length. simpl. split; [lia|].
    destruct R as [[x [R1 R2]]|[R1 R2]].
    + left. exists x. split; auto. destruct (Nat.eq_dec x (length A)) as [->|NE]; [rewrite mid_at in R1; discriminate|].
      now rewrite (mid_other _ _ (STmp v)) by auto.
    + right. rewrite nth_snoc_l by auto. split; auto. intros x H. destruct (N x l H) as [[-> ->]|[H1 H2]]; [unfold l0 in L; lia|]. now apply (R1 x).
  - intros x l H. cbn [falloc LangSpec.store]. rewrite app_length. simpl. destruct (N x l H) as [[-> ->]|[H1 H2]]; unfold l0 in *; lia.
  - intros x y l Hx Hy. destruct (N x l Hx) as [[-> ->]|[H1 H2]], (N y _ Hy) as [[-> E]|[H3 H4]]; try lia. eapply Q5; eauto.
Qed.
Lemma render_alloc s A v B h : inv s (A ++ STmp v :: B) h ->
  render (store (falloc v s)) (A ++ SVar (length (store s)) :: B) = render (store s) (A ++ STmp v :: B).
Proof.
  intros I. rewrite !render_app. cbn [falloc LangSpec.store]. unfold render at 2 4. cbn [map sval]. rewrite nth_snoc_r.
  assert (X : forall Q, (forall x l, nth_error Q x = Some (SVar l) -> l < length (store s)) -> render (store s ++ [v]) Q = render (store s) Q).
  { intros Q H. apply render_ext. intros x l Hx. apply nth_snoc_l. eauto. }
  fold (render (store s ++ [v]) B) (render (store s) B). rewrite !X; auto.
  - intros x l Hx. apply (i_var _ _ _ I (length A + S x) l). rewrite nth_error_app2 by lia. replace (length A + S x - length A) with (S x) by lia. exact Hx.
  - intros x l Hx. apply (i_var _ _ _ I x l). rewrite nth_error_app1; auto. apply nth_error_Some. congruence.
Qed.
Lemma mk_alloc fs li un i s A v B h : inv s (A ++ STmp v :: B) h ->
  mk fs li un i (falloc v s) (A ++ SVar (length (store s)) :: B) h = mk fs li un i s (A ++ STmp v :: B) h.
Proof. intro I. unfold mk. now rewrite (render_alloc _ _ _ _ _ I). Qed.
(** a fresh variable is not captured *)
Lemma fresh_uncaptured s A v B h x : inv s (A ++ STmp v :: B) h -> capd h (A ++ SVar (length (store s)) :: B) x -> capd h (A ++ STmp v :: B) x.
Proof.
  intros I [k [l [H1 H2]]]. exists k, l. split; auto. destruct (Nat.eq_dec x (length A)) as [->|NE].
  - rewrite mid_at in H2. injection H2 as <-. destruct (i_cell _ _ _ I k _ H1). lia.
  - now rewrite (mid_other _ _ (SVar (length (store s)))) by auto.
Qed.

(** ** A variable that is not captured disappears *)
Lemma inv_untag s A l v B h : inv s (A ++ SVar l :: B) h -> ~ capd h (A ++ SVar l :: B) (length A) -> inv s (A ++ STmp v :: B) h.
Proof.
  intros [Q1 Q2 Q3 Q4 Q5 Q6 Q7] NC.
  assert (N : forall x l', nth_error (A ++ STmp v :: B) x = Some (SVar l') -> x <> length A /\ nth_error (A ++ SVar l :: B) x = Some (SVar l')).
  { intros x l' H. destruct (Nat.eq_dec x (length A)) as [->|NE]; [rewrite mid_at in H; discriminate|]. split; auto. now rewrite (mid_other _ _ (STmp v)) by auto. }
  split; auto.
  - intros k l' Hk. destruct (Q2 k l' Hk) as [L [[x [R1 R2]]|[R1 R2]]]; split; auto.
    + left. exists x. split; auto. destruct (Nat.eq_dec x (length A)) as [->|NE].
      * exfalso. apply NC. exists k, l'. auto.
      * now rewrite (mid_other _ _ (SVar l)) by auto.
    + right. split; auto. intros x H. apply N in H. now apply (R1 x).
  - intros x l' H. apply N in H. eapply Q4. apply H.
  - intros x y l' Hx Hy. apply N in Hx. apply N in Hy. eapply Q5; [apply Hx|apply Hy].
Qed.
Lemma untag_capd s A y v B h x : inv s (A ++ y :: B) h -> capd h (A ++ STmp v :: B) x -> capd h (A ++ y :: B) x.
Proof.
  intros I [k [l [H1 H2]]]. exists k, l. split; auto. destruct (Nat.eq_dec x (length A)) as [->|NE]; [rewrite mid_at in H2; discriminate|].
  now rewrite (mid_other _ _ (STmp v)) by auto.
Qed.

(** ** LiftUpValue: the variable moves from the stack into its cell *)
Lemma assoc_unassoc x y l : assoc x (unassoc y l) = if x =? y then None else assoc x l.
Proof.
  induction l as [|[a b] l IH]; simpl; [now destruct (x =? y)|].
  destruct (Nat.eqb_spec a y) as [->|N]; cbn [negb]; [rewrite IH; destruct (Nat.eqb_spec x y) as [->|N2]; auto; destruct (Nat.eqb_spec y x); [congruence|auto]|].
  simpl. rewrite IH. destruct (Nat.eqb_spec a x) as [->|N2]; auto. destruct (Nat.eqb_spec x y); [congruence|auto].
Qed.
Definition lifted (x : nat) (v : hval) (h : hp) : hp :=
  match assoc x (h_op h) with
  | None => h
  | Some k => Hp (unassoc x (h_op h)) (upd (h_ce h) k (Closed v)) (h_en h) (h_phi h)
  end.
Lemma inv_lift s A y B h : inv s (A ++ y :: B) h ->
  inv s (A ++ STmp (sval (store s) y) :: B) (lifted (length A) (sval (store s) y) h).
Proof.
  intros I. unfold lifted. destruct (assoc (length A) (h_op h)) as [k|] eqn:As.
  - pose proof (i_open _ _ _ I _ _ As) as Ok. assert (Lk : k < length (h_ce h)) by (apply nth_error_Some; congruence).
    assert (N : forall x l', nth_error (A ++ STmp (sval (store s) y) :: B) x = Some (SVar l') -> x <> length A /\ nth_error (A ++ y :: B) x = Some (SVar l')).
    { intros x l' H. destruct (Nat.eq_dec x (length A)) as [->|NE]; [rewrite mid_at in H; discriminate|]. split; auto. now rewrite (mid_other _ _ (STmp (sval (store s) y))) by auto. }
    destruct I as [Q1 Q2 Q3 Q4 Q5 Q6 Q7].
    split; cbn [h_op h_ce h_en h_phi]; auto.
    + now rewrite upd_length.
    + intros k' l Hk. destruct (Q2 k' l Hk) as [L R]. split; auto. rewrite nth_upd. destruct (Nat.eqb_spec k k') as [<-|NK]; cbn [andb].
      * replace (k <? length (h_ce h)) with true by (symmetry; now apply Nat.ltb_lt).
        destruct R as [[x [R1 [R2 R3]]]|[_ R2]]; [|congruence].
        rewrite Ok in R2. injection R2 as <-. rewrite mid_at in R1. injection R1 as ->. right. split; [|reflexivity].
        intros x H. apply N in H. destruct H as [H1 H2]. apply H1. eapply Q5; [exact H2|]. apply mid_at.
      * destruct R as [[x [R1 [R2 R3]]]|[R1 R2]].
        -- left. exists x. assert (NE : x <> length A) by (intros ->; congruence). rewrite assoc_unassoc.
           replace (x =? length A) with false by (symmetry; now apply Nat.eqb_neq). split; auto. now rewrite (mid_other _ _ y) by auto.
        -- right. split; auto. intros x H. apply N in H. now apply (R1 x).
    + intros x l' H. apply N in H. eapply Q4. apply H.
    + intros x z l' Hx Hz. apply N in Hx. apply N in Hz. eapply Q5; [apply Hx|apply Hz].
    + intros x k'. rewrite assoc_unassoc. destruct (Nat.eqb_spec x (length A)); [discriminate|]. intro H. pose proof (Q6 _ _ H) as H'. rewrite nth_upd.
      destruct (Nat.eqb_spec k k') as [<-|]; cbn [andb]; [congruence|auto].
  - destruct y as [l|v]; [|exact I]. apply (inv_untag s A l); auto.
    intros [k [l' [H1 H2]]]. rewrite mid_at in H2. injection H2 as <-.
    destruct (i_cell _ _ _ I _ _ H1) as [_ [[x [R1 [R2 R3]]]|[R1 _]]].
    + assert (x = length A) by (eapply (i_vinj _ _ _ I); [exact R1|apply mid_at]). congruence.
    + apply (R1 (length A)), mid_at.
Qed.
Lemma lifted_phi x v h : h_phi (lifted x v h) = h_phi h.
Proof. unfold lifted. now destruct (assoc x (h_op h)). Qed.
Lemma lifted_en x v h : h_en (lifted x v h) = h_en h.
Proof. unfold lifted. now destruct (assoc x (h_op h)). Qed.
Lemma lift_capd s A y B h v x : inv s (A ++ y :: B) h -> capd (lifted (length A) v h) (A ++ STmp v :: B) x -> capd h (A ++ y :: B) x.
Proof.
  intros I [k [l [H1 H2]]]. rewrite lifted_phi in H1. exists k, l. split; auto. destruct (Nat.eq_dec x (length A)) as [->|NE]; [rewrite mid_at in H2; discriminate|].
  now rewrite (mid_other _ _ (STmp v)) by auto.
Qed.

(** ** Capturing a slot *)
Definition cap_cell (x : nat) (h : hp) : nat := match assoc x (h_op h) with Some k => k | None => length (h_ce h) end.
(** the new closure state when slot [x] (standing for [o]) has been captured *)
Definition capt (x : nat) (o : option nat) (h : hp) : hp :=
  match assoc x (h_op h) with
  | Some k => Hp (h_op h) (h_ce h) (h_en h) (match o with Some l => upd (h_phi h) k (Some l) | None => h_phi h end)
  | None => Hp ((x, length (h_ce h)) :: h_op h) (h_ce h ++ [Open x]) (h_en h) (h_phi h ++ [o])
  end.
Lemma F2F2_impl {A B} (R S : A -> B -> Prop) l l' : (forall a b, R a b -> S a b) -> Forall2 (Forall2 R) l l' -> Forall2 (Forall2 S) l l'.
Proof. intros H. induction 1 as [|a b l l' Q _ IH]; constructor; auto. clear IH. induction Q; constructor; auto. Qed.
Lemma inv_capt s K x o h : inv s K h -> (forall l, o = Some l -> nth_error K x = Some (SVar l)) ->
  inv s K (capt x o h) /\ enval (h_phi (capt x o h)) (cap_cell x h) o.
Proof.
  intros [Q1 Q2 Q3 Q4 Q5 Q6 Q7] Ho. unfold capt, cap_cell. destruct (assoc x (h_op h)) as [k|] eqn:As.
  - destruct o as [l|]; cbn [enval h_phi]; [|split; [split; auto|exact I]].
    specialize (Ho l eq_refl). pose proof (Q6 _ _ As) as Ok. assert (Lk : k < length (h_ce h)) by (apply nth_error_Some; congruence).
    assert (U : forall k' l', nth_error (upd (h_phi h) k (Some l)) k' = Some (Some l') -> (k' = k /\ l' = l) \/ nth_error (h_phi h) k' = Some (Some l')).
    { intros k' l'. rewrite nth_upd. destruct (Nat.eqb_spec k k') as [<-|]; cbn [andb]; [|auto].
      destruct (k <? length (h_phi h)); [|auto]. injection 1 as <-. auto. }
    assert (W : forall k', nth_error (h_phi h) k' = Some (Some l) -> k' = k).
    { intros k' H. destruct (Q2 _ _ H) as [_ [[y [R1 [R2 R3]]]|[R1 _]]].
      - assert (y = x) by (eapply Q5; eauto). congruence.
      - exfalso. now apply (R1 x). }
    split.
    + split; cbn [h_op h_ce h_en h_phi]; auto.
      * now rewrite upd_length.
      * intros k' l' H. destruct (U _ _ H) as [[-> ->]|H']; [|auto]. split; [eauto|]. left. exists x. auto.
      * intros k1 k2 l' H1 H2. destruct (U _ _ H1) as [[-> ->]|H1'], (U _ _ H2) as [[-> E]|H2']; auto.
        -- symmetry. now apply W.
        -- subst l'. now apply W.
        -- eapply Q3; eauto.
      * eapply F2F2_impl; [|exact Q7]. intros k' [l'|] H; simpl in *; auto. rewrite nth_upd.
        destruct (Nat.eqb_spec k k') as [<-|]; cbn [andb]; auto. replace (k <? length (h_phi h)) with true by (symmetry; apply Nat.ltb_lt; lia).
        destruct (Q2 _ _ H) as [_ [[y [R1 [R2 R3]]]|[_ R2]]]; [|congruence]. rewrite Ok in R2. injection R2 as <-. rewrite Ho in R1. congruence.
    + rewrite nth_upd, Nat.eqb_refl. cbn [andb]. replace (k <? length (h_phi h)) with true by (symmetry; apply Nat.ltb_lt; lia). reflexivity.
  - assert (U : forall k' l', nth_error (h_phi h ++ [o]) k' = Some (Some l') -> (k' = length (h_ce h) /\ o = Some l') \/ (k' < length (h_ce h) /\ nth_error (h_phi h) k' = Some (Some l'))).
    { intros k' l' H. destruct (Nat.lt_ge_cases k' (length (h_phi h))).
      - rewrite nth_error_app1 in H by auto. right. split; [lia|auto].
      - rewrite nth_error_app2 in H by auto. destruct (k' - length (h_phi h)) as [|j] eqn:D; simpl in H; [|destruct j; discriminate].
        left. split; [lia|congruence]. }
    assert (W : forall k' l, o = Some l -> nth_error (h_phi h) k' = Some (Some l) -> False).
    { intros k' l E H. specialize (Ho l E). destruct (Q2 _ _ H) as [_ [[y [R1 [R2 R3]]]|[R1 _]]]; [|now apply (R1 x)].
      assert (y = x) by (eapply Q5; eauto). congruence. }
    split.
    + split; cbn [h_op h_ce h_en h_phi]; auto.
      * rewrite !app_length, Q1. reflexivity.
      * intros k l H. destruct (U _ _ H) as [[-> E]|[Lk H']].
        -- specialize (Ho l E). split; [eauto|]. left. exists x. split; auto. rewrite nth_error_app2, Nat.sub_diag by lia. split; [reflexivity|].
           simpl. now rewrite Nat.eqb_refl.
        -- destruct (Q2 _ _ H') as [L R]. split; auto. rewrite nth_error_app1 by auto. destruct R as [[y [R1 [R2 R3]]]|R]; [left|right; auto].
           exists y. repeat split; auto. simpl. destruct (Nat.eqb_spec x y) as [->|]; [congruence|auto].
      * intros k1 k2 l H1 H2. destruct (U _ _ H1) as [[-> E1]|[L1 H1']], (U _ _ H2) as [[-> E2]|[L2 H2']]; auto.
        -- exfalso. eapply W; eauto.
        -- exfalso. eapply W; eauto.
        -- eapply Q3; eauto.
      * intros y k H. simpl in H. destruct (Nat.eqb_spec x y) as [->|].
        -- injection H as <-. now rewrite nth_error_app2, Nat.sub_diag by lia.
        -- pose proof (Q6 _ _ H). rewrite nth_error_app1; auto. apply nth_error_Some. congruence.
      * eapply F2F2_impl; [|exact Q7]. intros k' [l'|] H; simpl in *; auto. rewrite nth_error_app1; auto. apply nth_error_Some. congruence.
    + destruct o as [l|]; cbn [enval h_phi]; [|exact I]. rewrite <- Q1, nth_error_app2, Nat.sub_diag by lia. reflexivity.
Qed.
Lemma capt_capd s K x o h y : inv s K h -> (forall l, o = Some l -> nth_error K x = Some (SVar l)) ->
  capd (capt x o h) K y -> capd h K y \/ (o <> None /\ y = x).
Proof.
  intros I Ho [k [l [H1 H2]]]. unfold capt in H1. destruct (assoc x (h_op h)) as [k0|] eqn:As; cbn [h_phi] in H1.
  - destruct o as [l0|]; [|left; exists k, l; auto]. rewrite nth_upd in H1.
    destruct (Nat.eqb_spec k0 k) as [<-|]; cbn [andb] in H1; [|left; exists k, l; auto].
    destruct (k0 <? length (h_phi h)); [|left; exists k0, l; auto]. injection H1 as <-. right. split; [discriminate|].
    eapply (i_vinj _ _ _ I); [exact H2|]. now apply Ho.
  - destruct (Nat.lt_ge_cases k (length (h_phi h))).
    + rewrite nth_error_app1 in H1 by auto. left. exists k, l. auto.
    + rewrite nth_error_app2 in H1 by auto. destruct (k - length (h_phi h)) as [|j] eqn:D; simpl in H1; [|destruct j; discriminate]. injection H1 as ->.
      right. split; [discriminate|]. eapply (i_vinj _ _ _ I); [exact H2|]. now apply Ho.
Qed.
Lemma capt_en x o h : h_en (capt x o h) = h_en h.
Proof. unfold capt. now destruct (assoc x (h_op h)). Qed.

(** ** Assignment *)
Lemma nth_upd_d (sto : list hval) l v l' : l < length sto -> nth l' (upd sto l v) HNil = if l =? l' then v else nth l' sto HNil.
Proof.
  revert l l'. induction sto as [|a sto IH]; intros l l' H; simpl in *; [lia|]. destruct l, l'; simpl; auto. apply IH. lia.
Qed.
Lemma render_set s K h x l v : inv s K h -> nth_error K x = Some (SVar l) ->
  render (upd (store s) l v) K = upd (render (store s) K) x v.
Proof.
  intros I H. apply nth_error_split in H. destruct H as [A [B [-> <-]]].
  pose proof (i_var _ _ _ I (length A) l (mid_at _ _ _)) as Ll.
  rewrite !render_app. unfold render at 2 4. cbn [map sval]. rewrite nth_upd_d, Nat.eqb_refl by auto.
  rewrite <- (render_len (store s) A) at 1. rewrite upd_app2. fold (render (upd (store s) l v) B) (render (store s) B).
  assert (X : forall Q z0, (forall x l', nth_error Q x = Some (SVar l') -> nth_error (A ++ SVar l :: B) (z0 + x) = Some (SVar l') /\ z0 + x <> length A) -> render (upd (store s) l v) Q = render (store s) Q).
  { intros Q z0 HQ. apply render_ext. intros x l' Hx. rewrite nth_upd_d by auto. destruct (Nat.eqb_spec l l') as [<-|]; auto.
    exfalso. destruct (HQ _ _ Hx) as [H1 H2]. apply H2. eapply (i_vinj _ _ _ I); [exact H1|apply mid_at]. }
  rewrite (X A 0), (X B (S (length A))).
  - reflexivity.
  - intros x l' Hx. split; [|lia]. rewrite nth_error_app2 by lia. replace (S (length A) + x - length A) with (S x) by lia. exact Hx.
  - intros x l' Hx. assert (x < length A) by (apply nth_error_Some; congruence). split; [|lia]. simpl. now rewrite nth_error_app1 by auto.
Qed.
(** variable on the stack *)
Lemma inv_set s K h x l v : inv s K h -> nth_error K x = Some (SVar l) -> inv (set_loc P l v s) K h.
Proof.
  intros [Q1 Q2 Q3 Q4 Q5 Q6 Q7] H. pose proof (Q4 _ _ H) as Ll. split; cbn [set_loc LangSpec.store LangSpec.senvs]; auto.
  - intros k l' Hk. destruct (Q2 _ _ Hk) as [L R]. rewrite upd_length. split; auto. destruct R as [R|[R1 R2]]; [left; auto|right].
    split; auto. rewrite nth_upd_d by auto. destruct (Nat.eqb_spec l l') as [<-|]; auto. exfalso. now apply (R1 x).
  - intros y l' Hy. rewrite upd_length. eauto.
Qed.
(** variable in a closed cell *)
Definition set_cell (k : nat) (v : hval) (h : hp) : hp := Hp (h_op h) (upd (h_ce h) k (Closed v)) (h_en h) (h_phi h).
Lemma inv_set_cell s K h k l v : inv s K h -> nth_error (h_phi h) k = Some (Some l) -> (exists u, nth_error (h_ce h) k = Some (Closed u)) ->
  inv (set_loc P l v s) K (set_cell k v h) /\ render (upd (store s) l v) K = render (store s) K.
Proof.
  intros I Hk [u Hc]. pose proof I as [Q1 Q2 Q3 Q4 Q5 Q6 Q7]. destruct (Q2 _ _ Hk) as [Ll [[x [_ [R _]]]|[R1 R2]]]; [congruence|].
  assert (Lk : k < length (h_ce h)) by (apply nth_error_Some; congruence).
  split.
  - split; cbn [set_loc LangSpec.store LangSpec.senvs set_cell h_op h_ce h_en h_phi]; auto.
    + now rewrite upd_length.
    + intros k' l' Hk'. destruct (Q2 _ _ Hk') as [L R]. rewrite upd_length, nth_upd. split; auto.
      rewrite nth_upd_d by auto. destruct (Nat.eqb_spec k k') as [<-|NK]; cbn [andb].
      * replace (k <? length (h_ce h)) with true by (symmetry; now apply Nat.ltb_lt). assert (l' = l) by congruence. subst l'. rewrite Nat.eqb_refl. right. auto.
      * destruct (Nat.eqb_spec l l') as [<-|]; auto. exfalso. apply NK. eapply Q3; eauto.
    + intros x l' Hx. rewrite upd_length. eauto.
    + intros x k' Hx. rewrite nth_upd. destruct (Nat.eqb_spec k k') as [<-|]; cbn [andb]; auto. pose proof (Q6 _ _ Hx). congruence.
  - apply render_ext. intros x l' Hx. rewrite nth_upd_d by auto. destruct (Nat.eqb_spec l l') as [<-|]; auto. exfalso. now apply (R1 x).
Qed.

(** ** Closures *)
Lemma inv_new_env s K h : inv s K h ->
  inv (St P (store s) (senvs s ++ [[]]) (globals s) (sworld s)) K (Hp (h_op h) (h_ce h) (h_en h ++ [[]]) (h_phi h)).
Proof. intros [Q1 Q2 Q3 Q4 Q5 Q6 Q7]. split; auto. cbn [h_en h_phi LangSpec.senvs]. apply Forall2_app; auto. Qed.
Lemma inv_add_env s K h E e se ls k o : inv s K h -> h_en h = E ++ [e] -> senvs s = se ++ [ls] -> length E = length se -> enval (h_phi h) k o ->
  inv (St P (store s) (se ++ [ls ++ [o]]) (globals s) (sworld s)) K (Hp (h_op h) (h_ce h) (E ++ [e ++ [k]]) (h_phi h)).
Proof.
  intros [Q1 Q2 Q3 Q4 Q5 Q6 Q7] H1 H2 L Hk. split; auto. cbn [h_en h_phi LangSpec.senvs]. rewrite H1, H2 in Q7.
  apply Forall2_app_inv_l in Q7. destruct Q7 as [a [b [A1 [A2 A3]]]].
  assert (La : length a = length se) by (rewrite <- L; symmetry; eapply Forall2_length; eauto).
  assert (a = se /\ b = [ls]) as [-> ->].
  { clear - A3 La. revert a A3 La. induction se as [|x se IH]; intros [|y a] A3 La; simpl in *; try discriminate; auto.
    injection A3 as <- A3. destruct (IH a A3 ltac:(lia)) as [-> ->]. auto. }
  inversion A2; subst. apply Forall2_app; auto. constructor; [|constructor]. apply Forall2_app; auto.
Qed.
(** the cell behind upvalue [i] of the running closure *)
Lemma inv_up s K h c e ups i l : inv s K h -> nth_error (senvs s) c = Some ups -> nth_error (h_en h) c = Some e -> nth_error ups i = Some (Some l) ->
  exists k, nth_error e i = Some k /\ nth_error (h_phi h) k = Some (Some l).
Proof.
  intros I H1 H2 H3. destruct I as [Q1 Q2 Q3 Q4 Q5 Q6 Q7].
  assert (X : forall (l1 : list (list nat)) l2 c, Forall2 (Forall2 (enval (h_phi h))) l1 l2 -> nth_error l2 c = Some ups -> nth_error l1 c = Some e -> Forall2 (enval (h_phi h)) e ups).
  { induction l1; intros l2 [|c0] F A B; inversion F; subst; simpl in *; try discriminate; [congruence|eauto]. }
  pose proof (X _ _ _ Q7 H1 H2) as F. clear X. clear - F H3. revert i H3. induction F; intros [|i] H3; simpl in *; try discriminate; eauto.
  injection H3 as ->. exists x. auto.
Qed.
Lemma inv_up_ex s K h c ups : inv s K h -> nth_error (senvs s) c = Some ups -> exists e, nth_error (h_en h) c = Some e /\ Forall2 (enval (h_phi h)) e ups.
Proof.
  intros I H1. destruct I as [Q1 Q2 Q3 Q4 Q5 Q6 Q7]. revert c H1. induction Q7; intros [|c] H1; simpl in *; try discriminate; eauto.
  injection H1 as <-. eauto.
Qed.
End inv.
