From Coq Require Import QArith Znumtheory.
From Verif Require Import Base BaseProofs Ptr Native Value ValueSpec ValueProofs.
Local Open Scope Z_scope.
Ltac Zify.zify_post_hook ::= Z.div_mod_to_equations.

(** ** total preorders given by a comparison function *)
Record total {A} (P : A -> Prop) (c : A -> A -> comparison) : Prop := {
  t_anti : forall x y, P x -> P y -> c y x = CompOpp (c x y);
  t_eq : forall x y z, P x -> P y -> P z -> c x y = Eq -> c x z = c y z;
  t_lt : forall x y z, P x -> P y -> P z -> c x y = Lt -> c y z = Lt -> c x z = Lt }.

Lemma total_Z : total (fun _ => True) Z.compare.
Proof.
  split; intros.
  - symmetry. rewrite <- Z.compare_antisym. rewrite Z.compare_antisym. apply CompOpp_involutive || reflexivity.
  - apply Z.compare_eq in H2. subst. reflexivity.
  - rewrite Z.compare_lt_iff in *. lia.
Qed.

Lemma lex_anti {A} (c : A -> A -> comparison) l : forall r,
  (forall x y, In x l -> In y r -> c y x = CompOpp (c x y)) -> lex_cmp c r l = CompOpp (lex_cmp c l r).
Proof.
  induction l as [|x l IH]; intros [|y r] H; try reflexivity. cbn [lex_cmp].
  rewrite (H x y) by (left; reflexivity). destruct (c x y); cbn [CompOpp]; try reflexivity.
  apply IH. intros; apply H; right; assumption.
Qed.
Lemma lex_eq_subst {A} (P : A -> Prop) (c : A -> A -> comparison) (T : total P c) l : forall r s,
  (forall x, In x l -> P x) -> (forall x, In x r -> P x) -> (forall x, In x s -> P x) ->
  lex_cmp c l r = Eq -> lex_cmp c l s = lex_cmp c r s.
Proof.
  induction l as [|x l IH]; intros [|y r] s Hl Hr Hs; cbn [lex_cmp]; try discriminate; [reflexivity|].
  destruct (c x y) eqn:E; try discriminate. intros H. destruct s as [|z s]; [reflexivity|].
  rewrite (t_eq P c T x y z); [|apply Hl; left; reflexivity|apply Hr; left; reflexivity|apply Hs; left; reflexivity|exact E].
  destruct (c y z); try reflexivity. apply (IH r s); auto using in_cons.
Qed.
Lemma lex_lt_trans {A} (P : A -> Prop) (c : A -> A -> comparison) (T : total P c) l : forall r s,
  (forall x, In x l -> P x) -> (forall x, In x r -> P x) -> (forall x, In x s -> P x) ->
  lex_cmp c l r = Lt -> lex_cmp c r s = Lt -> lex_cmp c l s = Lt.
Proof.
  induction l as [|x l IH]; intros [|y r] [|z s] Hl Hr Hs; cbn [lex_cmp]; try discriminate; try reflexivity.
  assert (Px : P x) by (apply Hl; left; reflexivity). assert (Py : P y) by (apply Hr; left; reflexivity).
  assert (Pz : P z) by (apply Hs; left; reflexivity).
  destruct (c x y) eqn:E1; try discriminate; intros H1.
  - rewrite (t_eq P c T x y z) by assumption. destruct (c y z); try discriminate; intros H2; [|reflexivity].
    apply (IH r s); auto using in_cons.
  - destruct (c y z) eqn:E2; try discriminate; intros H2.
    + assert (E3 : c z x = Gt).
      { rewrite <- (t_eq P c T y z x) by assumption. rewrite (t_anti P c T x y), E1 by assumption. reflexivity. }
      rewrite (t_anti P c T z x), E3 by assumption. reflexivity.
    + rewrite (t_lt P c T x y z) by assumption. reflexivity.
Qed.
Lemma total_lex {A} (P : A -> Prop) (c : A -> A -> comparison) :
  total P c -> total (fun l => forall x, In x l -> P x) (lex_cmp c).
Proof.
  intros T. split.
  - intros l r Hl Hr. apply lex_anti. intros x y Hx Hy. apply (t_anti P c T); auto.
  - intros l r s. apply (lex_eq_subst P c T).
  - intros l r s. apply (lex_lt_trans P c T).
Qed.
Lemma total_map {A B} (P : A -> Prop) (Q : B -> Prop) (f : A -> B) c d :
  (forall x, P x -> Q (f x)) -> (forall x y, P x -> P y -> c x y = d (f x) (f y)) -> total Q d -> total P c.
Proof.
  intros HQ E T. split; intros.
  - rewrite !E by assumption. apply (t_anti Q d T); auto.
  - rewrite !E in * by assumption. apply (t_eq Q d T); auto.
  - rewrite !E in * by assumption. apply (t_lt Q d T (f x) (f y)); auto.
Qed.
Lemma total_sub {A} (P Q : A -> Prop) c : (forall x, P x -> Q x) -> total Q c -> total P c.
Proof. intros H T. apply (total_map P Q (fun x => x) c c); auto. Qed.

(** ** unfolding equations *)
Lemma value_cmp_lex l r :
  (fix lex (l r : list value) {struct l} : comparison :=
    match l, r with
    | [], [] => Eq
    | [], _ => Lt
    | _, [] => Gt
    | x :: l', y :: r' => match value_cmp x y with Eq => lex l' r' | o => o end
    end) l r = lex_cmp value_cmp l r.
Proof. revert r. induction l as [|x l IH]; intros [|y r]; try reflexivity. cbn [lex_cmp]. rewrite <- IH. reflexivity. Qed.
Lemma vcmp_list l r : value_cmp (VList l) (VList r) = lex_cmp value_cmp l r.
Proof. apply value_cmp_lex. Qed.
Lemma vcmp_vector l r : value_cmp (VVector l) (VVector r) = lex_cmp value_cmp l r.
Proof. apply value_cmp_lex. Qed.
Lemma vcmp_struct t t' l r : value_cmp (VStruct t l) (VStruct t' r) = lex_cmp value_cmp l r.
Proof. apply value_cmp_lex. Qed.
Lemma vcmp_set l r : value_cmp (VSet l) (VSet r) = lex_cmp value_cmp l r.
Proof. apply value_cmp_lex. Qed.
Lemma vcmp_dict l r : value_cmp (VDict l) (VDict r) = lex_cmp value_cmp (map fst l) (map fst r).
Proof.
  cbn [value_cmp]. revert r. induction l as [|[k x] l IH]; intros [|[k' x'] r]; try reflexivity.
  cbn [map fst lex_cmp]. rewrite IH. reflexivity.
Qed.

(** ** UTF-8 byte order is code point order *)
Lemma lex_app_same {A} (c : A -> A -> comparison) p x y : (forall a, In a p -> c a a = Eq) -> lex_cmp c (p ++ x) (p ++ y) = lex_cmp c x y.
Proof.
  induction p as [|a p IH]; intros H; [reflexivity|]. cbn [app lex_cmp]. rewrite H by (left; reflexivity).
  apply IH. intros; apply H; right; assumption.
Qed.
Ltac zc := rewrite ?Z.compare_lt_iff, ?Z.compare_eq_iff, ?Z.compare_gt_iff.
Ltac lexstep :=
  cbn [app lex_cmp];
  match goal with
  | |- match ?a ?= ?b with _ => _ end = _ => destruct (Z.compare_spec a b); [|reflexivity|exfalso; lia]
  | |- Lt = Lt => reflexivity
  end.
Lemma utf8_char_lt c d x y : 0 <= c -> c < d -> d < 1114112 ->
  lex_cmp Z.compare (utf8_char c ++ x) (utf8_char d ++ y) = Lt.
Proof.
  intros Hc Hcd Hd. unfold utf8_char.
  destruct (Z.ltb_spec c 128); destruct (Z.ltb_spec d 128); try (exfalso; lia);
  destruct (Z.ltb_spec c 2048); destruct (Z.ltb_spec d 2048); try (exfalso; lia);
  destruct (Z.ltb_spec c 65536); destruct (Z.ltb_spec d 65536); try (exfalso; lia);
  repeat lexstep; exfalso; lia.
Qed.
Lemma utf8_char_nonempty c : exists b r, utf8_char c = b :: r.
Proof. unfold utf8_char. destruct (c <? 128); [eauto|]. destruct (c <? 2048); [eauto|]. destruct (c <? 65536); eauto. Qed.

Lemma is_char_range c : is_char c -> 0 <= c < 1114112.
Proof. unfold is_char. lia. Qed.
Lemma utf8_order s : forall t, (forall c, In c s -> is_char c) -> (forall c, In c t -> is_char c) ->
  lex_cmp Z.compare (utf8 s) (utf8 t) = lex_cmp Z.compare s t.
Proof.
  unfold utf8. induction s as [|c s IH]; intros [|d t] Hs Ht; cbn [flat_map lex_cmp].
  - reflexivity.
  - destruct (utf8_char_nonempty d) as [b [r ->]]. reflexivity.
  - destruct (utf8_char_nonempty c) as [b [r ->]]. reflexivity.
  - assert (Hc : is_char c) by (apply Hs; left; reflexivity). assert (Hd : is_char d) by (apply Ht; left; reflexivity).
    apply is_char_range in Hc. apply is_char_range in Hd.
    destruct (Z.compare_spec c d) as [->|L|G].
    + rewrite lex_app_same by (intros; apply Z.compare_refl). apply IH; auto using in_cons.
    + apply utf8_char_lt; lia.
    + rewrite lex_anti by (intros; apply Z.compare_antisym). rewrite utf8_char_lt by lia. reflexivity.
Qed.

Lemma lex_Z_eq l : forall r, lex_cmp Z.compare l r = Eq <-> l = r.
Proof.
  induction l as [|x l IH]; intros [|y r]; cbn [lex_cmp]; split; intros H; try discriminate; try reflexivity.
  - destruct (x ?= y) eqn:E; try discriminate. apply Z.compare_eq in E. apply IH in H. congruence.
  - inversion H; subst. rewrite Z.compare_refl. apply IH. reflexivity.
Qed.
Lemma utf8_inj s t : (forall c, In c s -> is_char c) -> (forall c, In c t -> is_char c) -> utf8 s = utf8 t -> s = t.
Proof. intros Hs Ht E. apply lex_Z_eq. rewrite <- utf8_order by assumption. rewrite E. apply lex_Z_eq. reflexivity. Qed.

(** ** antisymmetry holds for all values *)
Lemma cmp_anti_n n : forall a b, (size a < n)%nat -> (size b < n)%nat -> value_cmp b a = CompOpp (value_cmp a b).
Proof.
  induction n as [|n IH]; intros a b Ha Hb; [lia|].
  assert (HL : forall l r, (list_sum (map size l) < n)%nat -> (list_sum (map size r) < n)%nat ->
     lex_cmp value_cmp r l = CompOpp (lex_cmp value_cmp l r)).
  { intros l r Hl Hr. apply lex_anti. intros x y Hx Hy. apply IH.
    - pose proof (size_in x l Hx). lia. - pose proof (size_in y r Hy). lia. }
  assert (TC : forall a b a' b', a' = CompOpp a -> b' = CompOpp b -> then_cmp a' b' = CompOpp (then_cmp a b)).
  { intros [] [] ? ? -> ->; reflexivity. }
  assert (ZA : forall x y, (y ?= x) = CompOpp (x ?= y)) by (intros; apply Z.compare_antisym).
  destruct a, b; try reflexivity; cbn [size] in Ha, Hb;
    try (cbn [value_cmp real_key]; rewrite ?CompOpp_involutive; solve [reflexivity | auto]).
  all: try (cbn [value_cmp real_key]; apply TC; [apply ZA|]; apply ZA || reflexivity).
  all: try (cbn [value_cmp]; apply lex_anti; intros; apply Z.compare_antisym).
  all: try (rewrite ?vcmp_list, ?vcmp_vector, ?vcmp_set, ?vcmp_struct; apply HL; lia).
  - rewrite !vcmp_dict. apply lex_anti. intros x y Hx Hy.
    apply in_map_iff in Hx. destruct Hx as [[x1 x2] [<- Hx]]. apply in_map_iff in Hy. destruct Hy as [[y1 y2] [<- Hy]].
    apply size_in_dict in Hx. apply size_in_dict in Hy. cbn [size] in Hx, Hy. cbn [fst]. apply IH; lia.
  - cbn [value_cmp]. destruct l as [|x l], l0 as [|y l0]; try reflexivity.
    cbn [map list_sum fold_right] in *. rewrite (IH x y) by (cbn in *; lia). reflexivity.
  - cbn [value_cmp]. apply IH; lia.
Qed.
Lemma value_cmp_anti a b : value_cmp b a = CompOpp (value_cmp a b).
Proof. apply (cmp_anti_n (S (size a + size b))); lia. Qed.

(** ** the ordered kinds *)
Definition real_key3 (v : value) : list Z :=
  match v with
  | VNil => [0; 0; 0]
  | VBool b => [0; if b then 1 else 0; 1]
  | VInt n => [0; n; 2]
  | VComplex re im => [im; re; 3]
  | _ => []
  end.
Definition wk (k : okind) (v : value) : Prop := wf v /\ of_kind k v.

Ltac inv H := inversion H; subst; clear H.

Lemma real_kind : total (wk KReal) value_cmp.
Proof.
  apply (total_map (wk KReal) (fun l => forall x, In x l -> True) real_key3 value_cmp (lex_cmp Z.compare)); auto.
  2:{ apply (total_lex (fun _ => True) Z.compare total_Z). }
  intros x y [Wx Kx] [Wy Ky]. inv Kx; inv Ky; cbn [value_cmp real_key real_key3 lex_cmp then_cmp]; try reflexivity.
  - destruct b; reflexivity.
  - cbn. destruct n; reflexivity.
  - inv Wy. destruct im; try reflexivity. lia.
  - destruct b; reflexivity.
  - destruct b, b0; reflexivity.
  - rewrite Z.compare_refl. cbn [then_cmp]. destruct (_ ?= n); reflexivity.
  - inv Wy. destruct im; try reflexivity. lia.
  - rewrite Z.compare_refl. destruct (n ?= 0); reflexivity.
  - rewrite Z.compare_refl. destruct (n ?= _); reflexivity.
  - rewrite Z.compare_refl. destruct (n ?= _); reflexivity.
  - inv Wy. destruct im; try reflexivity. lia.
  - inv Wx. destruct im; try reflexivity. lia.
  - inv Wx. destruct im; try reflexivity. lia.
  - inv Wx. destruct im; try reflexivity. lia.
  - destruct (im ?= im0); try reflexivity. cbn. destruct (re ?= re0); reflexivity.
Qed.

Definition num_key (v : value) : Z * Q :=
  match v with
  | VInt n => (0, n # 1)
  | VComplex re im => (im, re # 1)
  | VRational n d => (0, n # d)
  | _ => (0, 0 # 1)
  end.
Definition num_cmp (a b : Z * Q) : comparison := then_cmp (fst a ?= fst b) (Qcompare (snd a) (snd b)).
Lemma Qcmp_eq_subst x y z : Qcompare x y = Eq -> Qcompare x z = Qcompare y z.
Proof. intros H. apply Qeq_alt in H. rewrite H. reflexivity. Qed.
Lemma total_num : total (fun _ => True) num_cmp.
Proof.
  unfold num_cmp. split; intros [x p] [y q]; cbn [fst snd].
  - intros _ _. rewrite (Z.compare_antisym x y). rewrite <- (Qcompare_antisym p q). destruct (x ?= y); reflexivity.
  - intros [z r] _ _ _. cbn [fst snd]. destruct (Z.compare_spec x y) as [->| |]; cbn [then_cmp]; try discriminate.
    intros H. rewrite (Qcmp_eq_subst p q r H). reflexivity.
  - intros [z r] _ _ _. cbn [fst snd].
    destruct (Z.compare_spec x y) as [->| |]; cbn [then_cmp]; try discriminate;
    destruct (Z.compare_spec y z) as [->| |]; cbn [then_cmp]; try discriminate; intros H1 H2.
    + apply Qlt_alt in H1. apply Qlt_alt in H2. apply Qlt_alt. eapply Qlt_trans; eassumption.
    + reflexivity.
    + replace (x ?= z) with Lt by (symmetry; zc; lia). reflexivity.
    + replace (x ?= z) with Lt by (symmetry; zc; lia). reflexivity.
Qed.
Lemma num_kind : total (wk KNum) value_cmp.
Proof.
  apply (total_map (wk KNum) (fun _ => True) num_key value_cmp num_cmp); auto using total_num.
  intros x y [Wx Kx] [Wy Ky]. unfold num_cmp, Qcompare, int_rat_cmp.
  inv Kx; inv Ky; cbn [value_cmp real_key num_key fst snd Qnum Qden]; unfold int_rat_cmp; cbn [Z.compare then_cmp]; rewrite ?Z.mul_1_r.
  - destruct (n ?= n0); reflexivity.
  - inv Wy. destruct im; try reflexivity. lia.
  - reflexivity.
  - inv Wx. destruct im; try reflexivity. lia.
  - destruct (im ?= im0); reflexivity.
  - inv Wx. destruct im; try reflexivity. lia.
  - rewrite <- Z.compare_antisym. reflexivity.
  - inv Wy. destruct im; try reflexivity. lia.
  - reflexivity.
Qed.

Lemma str_kind : total (wk KStr) value_cmp.
Proof.
  apply (total_map (wk KStr) (fun l => forall x, In x l -> True) (fun v => match v with VStr s => utf8 s | _ => [] end)
    value_cmp (lex_cmp Z.compare)); auto.
  2:{ apply (total_lex (fun _ => True) Z.compare total_Z). }
  intros x y [Wx Kx] [Wy Ky]. inv Kx; inv Ky. reflexivity.
Qed.
Lemma range_kind : total (wk KRange) value_cmp.
Proof.
  apply (total_map (wk KRange) (fun l => forall x, In x l -> True) (fun v => match v with VRange a b s => [a;b;s] | _ => [] end)
    value_cmp (lex_cmp Z.compare)); auto.
  2:{ apply (total_lex (fun _ => True) Z.compare total_Z). }
  intros x y [Wx Kx] [Wy Ky]. inv Kx; inv Ky. cbn [value_cmp lex_cmp].
  destruct (a ?= a0); try reflexivity. cbn. destruct (b ?= b0); try reflexivity. cbn. destruct (s ?= s0); reflexivity.
Qed.

Lemma kind_total k : total (wk k) value_cmp.
Proof.
  induction k as [| | | |k IH|k IH|k IH]; [apply real_kind|apply num_kind|apply str_kind|apply range_kind| | |].
  - apply (total_map _ (fun l => forall x, In x l -> wk k x) (fun v => match v with VList l => l | _ => [] end) _ (lex_cmp value_cmp)).
    + intros x [Wx Kx]. inv Kx. inv Wx. intros y Hy. split; auto.
    + intros x y [Wx Kx] [Wy Ky]. inv Kx; inv Ky. apply vcmp_list.
    + apply total_lex, IH.
  - apply (total_map _ (fun l => forall x, In x l -> wk k x) (fun v => match v with VVector l => l | _ => [] end) _ (lex_cmp value_cmp)).
    + intros x [Wx Kx]. inv Kx. inv Wx. intros y Hy. split; auto.
    + intros x y [Wx Kx] [Wy Ky]. inv Kx; inv Ky. apply vcmp_vector.
    + apply total_lex, IH.
  - apply (total_map _ (wk k) (fun v => match v with VEnumerate x => x | _ => v end) _ value_cmp).
    + intros x [Wx Kx]. inv Kx. inv Wx. split; auto.
    + intros x y [Wx Kx] [Wy Ky]. inv Kx; inv Ky. reflexivity.
    + exact IH.
Qed.

(** ** Equal exactly when == *)
Lemma lex_eq_iff {A} (c : A -> A -> comparison) (e : A -> A -> bool) l : forall r,
  (forall x y, In x l -> In y r -> (c x y = Eq <-> e x y = true)) -> (lex_cmp c l r = Eq <-> list_eqb e l r = true).
Proof.
  induction l as [|x l IH]; intros [|y r] H; cbn [lex_cmp list_eqb]; try (split; discriminate); [tauto|].
  rewrite andb_true_iff. rewrite <- (H x y), <- (IH r) by (intros; try (left; reflexivity); apply H; right; assumption).
  destruct (c x y); intuition discriminate.
Qed.
Lemma reduced_eq n d n' d' : Z.gcd n (Zpos d) = 1 -> Z.gcd n' (Zpos d') = 1 -> n * Zpos d' = n' * Zpos d -> n = n' /\ Zpos d = Zpos d'.
Proof.
  intros G G' E.
  assert (D1 : (Zpos d | Zpos d')).
  { apply Gauss with n; [exists n'; lia|]. apply Zgcd_1_rel_prime. rewrite Z.gcd_comm. exact G. }
  assert (D2 : (Zpos d' | Zpos d)).
  { apply Gauss with n'; [exists n; lia|]. apply Zgcd_1_rel_prime. rewrite Z.gcd_comm. exact G'. }
  assert (Zpos d = Zpos d') by (apply Z.divide_antisym_nonneg; lia || assumption).
  split; [nia|assumption].
Qed.
Lemma kind_eq k : forall a b, wk k a -> wk k b -> (value_cmp a b = Eq <-> value_eq a b = true).
Proof.
  induction k as [| | | |k IH|k IH|k IH]; intros a b [Wa Ka] [Wb Kb]; inv Ka; inv Kb.
  all: try (cbn [value_cmp value_eq real_key]; repeat match goal with b : bool |- _ => destruct b end;
    solve [ split; intros; discriminate
          | split; intros; reflexivity
          | split; [|intros; discriminate]; match goal with |- then_cmp (?a ?= ?b) _ = _ -> _ => destruct (a ?= b); cbn; discriminate end
          | rewrite Z.eqb_eq, <- Z.compare_eq_iff; cbn; match goal with |- context [?a ?= ?b] => destruct (a ?= b); cbn; tauto end
          | rewrite andb_true_iff, !Z.eqb_eq, <- !Z.compare_eq_iff; match goal with |- then_cmp (?a ?= ?b) _ = _ <-> _ => destruct (a ?= b); cbn; intuition discriminate end ]).
  all: try (solve [inv Wa; cbn; match goal with im : Z |- _ => destruct im; try (split; discriminate); lia end
                  |inv Wb; cbn; match goal with im : Z |- _ => destruct im; try (split; discriminate); lia end]).
  all: try match goal with |- value_cmp _ (VComplex _ ?im) = _ <-> _ => inv Wb; destruct im; cbn; try (split; discriminate); lia end.
  all: try match goal with |- value_cmp (VComplex _ ?im) _ = _ <-> _ => inv Wa; destruct im; cbn; try (split; discriminate); lia end.
  - inv Wb. cbn [value_cmp value_eq real_key]. unfold int_rat_cmp. rewrite andb_true_iff, !Z.eqb_eq, Z.compare_eq_iff.
    split; [|intros [-> ->]; lia]. intros E.
    destruct (reduced_eq n 1 n0 d) as [-> <-]; auto; try lia. apply Z.gcd_1_r.
  - inv Wa. cbn [value_cmp value_eq real_key]. unfold int_rat_cmp. rewrite andb_true_iff, !Z.eqb_eq, <- Z.compare_antisym, Z.compare_eq_iff.
    split; [|intros [-> ->]; lia]. intros E.
    destruct (reduced_eq n d n0 1) as [-> ->]; auto; try lia. apply Z.gcd_1_r.
  - inv Wa. inv Wb. cbn [value_cmp value_eq]. rewrite andb_true_iff, !Z.eqb_eq, Z.compare_eq_iff.
    split; [apply reduced_eq; assumption|intros [-> ->]; reflexivity].
  - inv Wa. inv Wb. cbn [value_cmp value_eq]. rewrite utf8_order by assumption.
    rewrite lex_Z_eq. symmetry. apply (list_eqb_spec Z.eqb Z.eqb_eq).
  - cbn [value_cmp value_eq]. rewrite !andb_true_iff, !Z.eqb_eq, <- !Z.compare_eq_iff.
    destruct (a0 ?= a); cbn; try (intuition discriminate). destruct (b0 ?= b1); cbn; intuition discriminate.
  - rewrite vcmp_list, veq_list. apply lex_eq_iff. inv Wa. inv Wb. intros x y Hx Hy. apply IH; split; auto.
  - rewrite vcmp_vector, veq_vector. apply lex_eq_iff. inv Wa. inv Wb. intros x y Hx Hy. apply IH; split; auto.
  - inv Wa. inv Wb. cbn [value_cmp value_eq]. apply IH; split; auto.
Qed.

Lemma kind_order k a b c : wk k a -> wk k b -> wk k c ->
  (value_cmp a b = Eq <-> value_eq a b = true) /\
  value_cmp b a = CompOpp (value_cmp a b) /\
  (vlt a b = true -> vlt b c = true -> vlt a c = true) /\
  (vle a b = true -> vle b c = true -> vle a c = true).
Proof.
  intros Ha Hb Hc. pose proof (kind_total k) as T. split; [apply (kind_eq k); assumption|].
  split; [apply value_cmp_anti|]. unfold vlt, vle.
  destruct (value_cmp a b) eqn:E1; destruct (value_cmp b c) eqn:E2; split; intros; try discriminate.
  - rewrite (t_eq _ _ T a b c), E2 by assumption. reflexivity.
  - rewrite (t_eq _ _ T a b c), E2 by assumption. reflexivity.
  - assert (E3 : value_cmp c a = Gt).
    { rewrite <- (t_eq _ _ T b c a) by assumption. rewrite (t_anti _ _ T a b), E1 by assumption. reflexivity. }
    rewrite (t_anti _ _ T c a), E3 by assumption. reflexivity.
  - rewrite (t_lt _ _ T a b c) by assumption. reflexivity.
  - rewrite (t_lt _ _ T a b c) by assumption. reflexivity.
Qed.

Lemma kind_trichotomy k a b : wk k a -> wk k b ->
  (vlt a b = true /\ value_eq a b = false /\ vlt b a = false) \/
  (vlt a b = false /\ value_eq a b = true /\ vlt b a = false) \/
  (vlt a b = false /\ value_eq a b = false /\ vlt b a = true).
Proof.
  intros Ha Hb. pose proof (kind_eq k a b Ha Hb) as E. pose proof (value_cmp_anti a b) as A. unfold vlt. rewrite A.
  destruct (value_cmp a b); cbn [CompOpp]; destruct (value_eq a b); intuition discriminate.
Qed.

Lemma derived_ops a b : vgt a b = vlt b a /\ vle a b = negb (vgt a b) /\ vge a b = negb (vlt a b).
Proof. unfold vgt, vlt, vle, vge. rewrite (value_cmp_anti a b). destruct (value_cmp a b); auto. Qed.
