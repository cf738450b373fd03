From Verif Require Import Base BaseProofs Ptr Native Value ValueSpec.
Local Open Scope Z_scope.

(** ** size *)
Definition list_sum (l : list nat) : nat := fold_right Nat.add 0%nat l.
Fixpoint size (v : value) : nat :=
  match v with
  | VList l | VVector l | VSet l | VHeap l | VStruct _ l => S (list_sum (map size l))
  | VDict l => S ((fix go (l : list (value * value)) : nat :=
                     match l with [] => 0 | (k, x) :: r => size k + size x + go r end) l)%nat
  | VEnumerate x => S (size x)
  | VSlice a b c => S (size a + size b + size c)
  | VPartial f _ => S (size f)
  | _ => 1%nat
  end.

Lemma size_in x l : In x l -> (size x <= list_sum (map size l))%nat.
Proof.
  induction l as [|y l IH]; cbn [In map list_sum fold_right]; [tauto|].
  fold (list_sum (map size l)). intros [->|H]; [lia|]. specialize (IH H). lia.
Qed.
Lemma size_in_dict k x l : In (k, x) l -> (size k < size (VDict l) /\ size x < size (VDict l))%nat.
Proof.
  cbn [size]. induction l as [|[k' x'] l IH]; cbn [In]; [tauto|].
  intros [E|H]; [inversion E; subst; lia|]. specialize (IH H). lia.
Qed.

(** ** unfolding equations *)
Lemma value_eq_list l r :
  (fix list_eq (l r : list value) {struct l} : bool :=
    match l, r with
    | [], [] => true
    | x :: l', y :: r' => value_eq x y && list_eq l' r'
    | _, _ => false
    end) l r = list_eqb value_eq l r.
Proof. revert r. induction l as [|x l IH]; intros [|y r]; try reflexivity. cbn [list_eqb]. rewrite <- IH. reflexivity. Qed.

Lemma veq_list l r : value_eq (VList l) (VList r) = list_eqb value_eq l r.
Proof. apply value_eq_list. Qed.
Lemma veq_vector l r : value_eq (VVector l) (VVector r) = list_eqb value_eq l r.
Proof. apply value_eq_list. Qed.
Lemma veq_heap l r : value_eq (VHeap l) (VHeap r) = list_eqb value_eq l r.
Proof. apply value_eq_list. Qed.
Lemma veq_struct t l t' r : value_eq (VStruct t l) (VStruct t' r) = (t =? t') && list_eqb value_eq l r.
Proof. cbn [value_eq]. f_equal. apply value_eq_list. Qed.

Lemma veq_set l r : value_eq (VSet l) (VSet r) =
  (length l =? length r)%nat && forallb (fun x => existsb (fun y => key_match x y) r) l.
Proof.
  reflexivity.
Qed.

Lemma veq_dict l r : value_eq (VDict l) (VDict r) =
  (length l =? length r)%nat &&
  forallb (fun p => match dict_get r (fst p) with Some y => value_eq (snd p) y | None => false end) l.
Proof.
  cbn [value_eq]. f_equal. induction l as [|[k x] l IH]; [reflexivity|]. cbn [forallb]. rewrite <- IH. f_equal.
  unfold dict_get. cbn [fst snd]. unfold key_match. destruct (find _ r); reflexivity.
Qed.

(** ** generic list facts *)
Lemma list_eqb_refl {A} (e : A -> A -> bool) l : (forall x, In x l -> e x x = true) -> list_eqb e l l = true.
Proof.
  induction l as [|x l IH]; intros H; [reflexivity|]. cbn [list_eqb].
  rewrite H by (left; reflexivity). apply IH. intros y Hy. apply H. right. assumption.
Qed.
Lemma list_eqb_sym {A} (e : A -> A -> bool) l : forall r,
  (forall x y, In x l -> In y r -> e x y = e y x) -> list_eqb e l r = list_eqb e r l.
Proof.
  induction l as [|x l IH]; intros [|y r] H; try reflexivity. cbn [list_eqb].
  rewrite (H x y) by (left; reflexivity). f_equal. apply IH. intros; apply H; right; assumption.
Qed.
Lemma list_eqb_trans {A} (e : A -> A -> bool) l : forall r s,
  (forall x y z, In x l -> In y r -> In z s -> e x y = true -> e y z = true -> e x z = true) ->
  list_eqb e l r = true -> list_eqb e r s = true -> list_eqb e l s = true.
Proof.
  induction l as [|x l IH]; intros [|y r] [|z s] H; try discriminate; try reflexivity. cbn [list_eqb].
  intros H1 H2. apply andb_prop in H1. destruct H1 as [H1 H3]. apply andb_prop in H2. destruct H2 as [H2 H4].
  rewrite (H x y z); try (left; reflexivity); try assumption. cbn.
  apply (IH r s); try assumption. intros a b c Ha Hb Hc. apply H; right; assumption.
Qed.
Lemma list_eqb_spec {A} (e : A -> A -> bool) (He : forall x y, e x y = true <-> x = y) l : forall r,
  list_eqb e l r = true <-> l = r.
Proof.
  induction l as [|x l IH]; intros [|y r]; cbn [list_eqb]; split; intros H; try discriminate; try reflexivity.
  - apply andb_prop in H. destruct H as [H1 H2]. apply He in H1. apply IH in H2. congruence.
  - inversion H; subst. rewrite (proj2 (He y y) eq_refl). apply IH. reflexivity.
Qed.

Lemma htok_eqb_spec a b : htok_eqb a b = true <-> a = b.
Proof. destruct a, b; cbn [htok_eqb]; split; intros H; try discriminate; try (inversion H; subst; lia).
  all: try (f_equal; lia). all: apply andb_prop in H; destruct H; f_equal; lia. Qed.

Lemma same_hash_spec a b : same_hash a b = true <-> hwords a = hwords b.
Proof. apply list_eqb_spec, htok_eqb_spec. Qed.
Lemma same_hash_refl a : same_hash a a = true.
Proof. apply same_hash_spec. reflexivity. Qed.
Lemma same_hash_sym a b : same_hash a b = same_hash b a.
Proof. apply eq_true_iff_eq. rewrite !same_hash_spec. split; congruence. Qed.
Lemma same_hash_trans a b c : same_hash a b = true -> same_hash b c = true -> same_hash a c = true.
Proof. rewrite !same_hash_spec. congruence. Qed.

Lemma distinct_cons_inv R x l : distinct R (x :: l) -> distinct R l. Proof. intros [_ H]. exact H. Qed.

(** ** pigeonhole on a relation given on two lists *)
Section Pigeon.
  Variable R : value -> value -> bool.
  (** [l] matched into [r], no two elements of [l] share a partner -> |l| <= |r| and if equal, onto *)
  Lemma pigeon l : forall r,
    (forall x, In x l -> exists y, In y r /\ R x y = true) ->
    distinct (fun x x' => existsb (fun y => R x y && R x' y) r) l ->
    (length l <= length r)%nat /\ ((length l = length r)%nat -> forall y, In y r -> exists x, In x l /\ R x y = true).
  Proof.
    induction l as [|x l IH]; intros r Hin Hd.
    - split; [cbn; lia|]. intros Hl y Hy. destruct r; [destruct Hy|discriminate].
    - destruct Hd as [Hx Hd].
      destruct (Hin x (or_introl eq_refl)) as [y [Hy Hxy]].
      apply in_split in Hy. destruct Hy as [r1 [r2 ->]].
      assert (Hin' : forall x', In x' l -> exists y', In y' (r1 ++ r2) /\ R x' y' = true).
      { intros x' Hx'. destruct (Hin x' (or_intror Hx')) as [y' [Hy' Hxy']].
        exists y'. split; [|assumption]. apply in_app_or in Hy'. apply in_or_app.
        destruct Hy' as [?|[->|?]]; [left; assumption| |right; assumption].
        exfalso. specialize (Hx x' Hx').
        assert (existsb (fun y => R x y && R x' y) (r1 ++ y' :: r2) = true); [|congruence].
        apply existsb_exists. exists y'. split; [apply in_or_app; right; left; reflexivity|].
        rewrite Hxy, Hxy'. reflexivity. }
      assert (Hd' : distinct (fun x x' => existsb (fun y => R x y && R x' y) (r1 ++ r2)) l).
      { clear - Hd. induction l as [|a l IHl]; [exact I|]. destruct Hd as [Ha Hd]. split; [|apply IHl; assumption].
        intros b Hb. specialize (Ha b Hb). rewrite existsb_app in *. cbn [existsb] in Ha.
        apply orb_false_elim in Ha. destruct Ha as [A B]. apply orb_false_elim in B. destruct B as [_ B].
        rewrite A, B. reflexivity. }
      destruct (IH _ Hin' Hd') as [Hlen Honto]. rewrite app_length in *. cbn [length].
      split; [lia|]. intros Hl z Hz. apply in_app_or in Hz.
      assert (Hz' : z = y \/ In z (r1 ++ r2)).
      { destruct Hz as [?|[?|?]]; [right; apply in_or_app; left; assumption|left; congruence|right; apply in_or_app; right; assumption]. }
      destruct Hz' as [->|Hz']; [exists x; split; [left; reflexivity|assumption]|].
      destruct (Honto ltac:(lia) z Hz') as [x' [Hx' Hr]]. exists x'. split; [right; assumption|assumption].
  Qed.
End Pigeon.

Lemma distinct_impl (R S : value -> value -> bool) l :
  (forall x y, In x l -> In y l -> S x y = true -> R x y = true) -> distinct R l -> distinct S l.
Proof.
  induction l as [|x l IH]; intros H Hd; [exact I|]. destruct Hd as [Hx Hd]. split.
  - intros y Hy. destruct (S x y) eqn:E; [|reflexivity]. apply H in E; [|left; reflexivity|right; assumption].
    rewrite Hx in E by assumption. discriminate.
  - apply IH; [|assumption]. intros a b Ha Hb. apply H; right; assumption.
Qed.

(** subset + same length + no duplicates -> superset *)
Lemma subset_flip (l r : list value) :
  (forall x y, In x l -> In y r -> key_match x y = true -> key_match y x = true) ->
  (forall x y x', In x l -> In y r -> In x' l -> key_match x y = true -> key_match y x' = true -> key_match x x' = true) ->
  distinct key_match l -> length l = length r ->
  (forall x, In x l -> exists y, In y r /\ key_match x y = true) ->
  forall y, In y r -> exists x, In x l /\ key_match y x = true.
Proof.
  intros Hsym Htr Hd Hlen Hsub y Hy.
  destruct (pigeon key_match l r Hsub) as [_ Honto].
  - apply (distinct_impl key_match); [|assumption]. intros a b Ha Hb E. apply existsb_exists in E.
    destruct E as [z [Hz E]]. apply andb_prop in E. destruct E as [E1 E2]. apply (Htr a z b); auto.
  - destruct (Honto Hlen y Hy) as [x [Hx Hr]]. exists x. split; [assumption|]. apply Hsym; assumption.
Qed.

(** ** dict lookups *)
Lemma dict_get_some l k v : dict_get l k = Some v -> exists k', In (k', v) l /\ key_match k k' = true.
Proof.
  unfold dict_get. destruct (find _ l) as [[k' v']|] eqn:E; [|discriminate]. intros H. inversion H; subst.
  apply find_some in E. cbn [fst snd] in *. exists k'. exact E.
Qed.
Lemma dict_get_in (l : list (value * value)) k k' v :
  (forall a b c, In a (map fst l) -> In c (map fst l) -> b = k -> key_match b a = true -> key_match b c = true -> key_match a c = true) ->
  distinct key_match (map fst l) -> In (k', v) l -> key_match k k' = true -> dict_get l k = Some v.
Proof.
  intros Htr. induction l as [|[k1 v1] l IH]; cbn [In]; [tauto|]. intros [Hd1 Hd] Hin Hk.
  unfold dict_get. cbn [find fst]. destruct (key_match k k1) eqn:E.
  - cbn [snd]. destruct Hin as [Heq|Hin]; [inversion Heq; reflexivity|].
    exfalso. assert (In k' (map fst l)) as Hk' by (apply (in_map fst) in Hin; exact Hin).
    specialize (Hd1 k' Hk'). cbn [fst] in Hd1. rewrite (Htr k1 k k') in Hd1; try discriminate; try reflexivity; try assumption.
    + left; reflexivity.
    + right; assumption.
  - destruct Hin as [Heq|Hin]; [inversion Heq; subst; congruence|].
    apply IH; try assumption. intros a b c Ha Hc. apply Htr; right; assumption.
Qed.

Ltac inv H := inversion H; subst; clear H.

Lemma native_index_inj f g : native_index f = native_index g -> f = g.
Proof.
  intros H. assert (E : nth_error all_natives (Z.to_nat (native_index f)) = nth_error all_natives (Z.to_nat (native_index g))) by congruence.
  assert (A : forall h, nth_error all_natives (Z.to_nat (native_index h)) = Some h) by (intros h; destruct h; reflexivity).
  rewrite !A in E. congruence.
Qed.
Lemma native_eqb_spec f g : native_eqb f g = true <-> f = g.
Proof. unfold native_eqb. rewrite Z.eqb_eq. split; [apply native_index_inj|congruence]. Qed.

(** ** equality is an equivalence on well-formed values *)
Definition eq_sym_n (n : nat) := forall a b, (size a < n)%nat -> (size b < n)%nat -> wf a -> wf b -> value_eq a b = value_eq b a.
Definition eq_trans_n (n : nat) := forall a b c, (size a < n)%nat -> (size b < n)%nat -> (size c < n)%nat ->
  wf a -> wf b -> wf c -> value_eq a b = true -> value_eq b c = true -> value_eq a c = true.

Section Step.
  Variable n : nat.
  Hypothesis HS : eq_sym_n n.
  Hypothesis HT : eq_trans_n n.

  Lemma km_sym x y : (size x < n)%nat -> (size y < n)%nat -> wf x -> wf y -> key_match x y = key_match y x.
  Proof. intros. unfold key_match. rewrite same_hash_sym, HS; auto. Qed.
  Lemma km_trans x y z : (size x < n)%nat -> (size y < n)%nat -> (size z < n)%nat -> wf x -> wf y -> wf z ->
    key_match x y = true -> key_match y z = true -> key_match x z = true.
  Proof.
    intros Hx Hy Hz Wx Wy Wz A B. unfold key_match in *. apply andb_prop in A. apply andb_prop in B.
    destruct A as [A1 A2], B as [B1 B2]. rewrite (same_hash_trans x y z), (HT x y z); auto.
  Qed.

  Lemma set_sub_flip l r : (list_sum (map size l) < n)%nat -> (list_sum (map size r) < n)%nat -> wf (VSet l) -> wf (VSet r) ->
    length l = length r ->
    forallb (fun x => existsb (fun y => key_match x y) r) l = true ->
    forallb (fun x => existsb (fun y => key_match x y) l) r = true.
  Proof.
    intros Hl Hr Wl Wr Hlen H. inv Wl. inv Wr.
    assert (SL : forall x, In x l -> (size x < n)%nat) by (intros x Hx; pose proof (size_in x l Hx); lia).
    assert (SR : forall x, In x r -> (size x < n)%nat) by (intros x Hx; pose proof (size_in x r Hx); lia).
    apply forallb_forall. intros y Hy. apply existsb_exists.
    apply (subset_flip l r); auto.
    - intros a b Ha Hb E. rewrite km_sym; auto.
    - intros a b c Ha Hb Hc. apply km_trans; auto.
    - intros x Hx. rewrite forallb_forall in H. specialize (H x Hx). apply existsb_exists in H. exact H.
  Qed.

  Lemma dict_get_km (l : list (value * value)) k k' v :
    (forall a b, In (a, b) l -> (size a < n)%nat /\ wf a) -> (size k < n)%nat -> wf k ->
    distinct key_match (map fst l) -> In (k', v) l -> key_match k k' = true -> dict_get l k = Some v.
  Proof.
    intros Hs Hk Wk Hd Hin E. apply (dict_get_in l k k' v); auto.
    intros a b c Ha Hc -> E1 E2. apply in_map_iff in Ha. destruct Ha as [[a' a2] [<- Ha]].
    apply in_map_iff in Hc. destruct Hc as [[c' c2] [<- Hc]]. cbn [fst] in *.
    destruct (Hs _ _ Ha), (Hs _ _ Hc). apply (km_trans a' k c'); auto. rewrite km_sym; auto.
  Qed.

  Lemma dict_sub_flip l r : (size (VDict l) < S n)%nat -> (size (VDict r) < S n)%nat -> wf (VDict l) -> wf (VDict r) ->
    length l = length r ->
    forallb (fun p => match dict_get r (fst p) with Some y => value_eq (snd p) y | None => false end) l = true ->
    forallb (fun p => match dict_get l (fst p) with Some y => value_eq (snd p) y | None => false end) r = true.
  Proof.
    intros Hl Hr Wl Wr Hlen H. inv Wl. inv Wr.
    assert (SL : forall k x, In (k, x) l -> ((size k < n)%nat /\ wf k) /\ ((size x < n)%nat /\ wf x)).
    { intros k x Hx. pose proof (size_in_dict k x l Hx). destruct (H1 k x Hx). repeat split; auto; lia. }
    assert (SR : forall k x, In (k, x) r -> ((size k < n)%nat /\ wf k) /\ ((size x < n)%nat /\ wf x)).
    { intros k x Hx. pose proof (size_in_dict k x r Hx). destruct (H3 k x Hx). repeat split; auto; lia. }
    assert (KL : forall k, In k (map fst l) -> (size k < n)%nat /\ wf k).
    { intros k Hk. apply in_map_iff in Hk. destruct Hk as [[k' x] [<- Hx]]. apply (SL k' x Hx). }
    assert (KR : forall k, In k (map fst r) -> (size k < n)%nat /\ wf k).
    { intros k Hk. apply in_map_iff in Hk. destruct Hk as [[k' x] [<- Hx]]. apply (SR k' x Hx). }
    rewrite forallb_forall in H. apply forallb_forall. intros [k y] Hy. cbn [fst snd].
    assert (Hk : In k (map fst r)) by (apply (in_map fst) in Hy; exact Hy).
    destruct (subset_flip (map fst l) (map fst r)) with (y := k) as [k' [Hk' E]]; auto.
    - intros a b Ha Hb. destruct (KL a Ha), (KR b Hb). intros E. rewrite km_sym; auto.
    - intros a b c Ha Hb Hc. destruct (KL a Ha), (KR b Hb), (KL c Hc). apply km_trans; auto.
    - rewrite !map_length. assumption.
    - intros a Ha. apply in_map_iff in Ha. destruct Ha as [[a' a2] [<- Ha]]. specialize (H _ Ha). cbn [fst snd] in H.
      destruct (dict_get r a') as [w|] eqn:G; [|discriminate]. apply dict_get_some in G. destruct G as [b [Hb Hm]].
      exists b. split; [apply (in_map fst) in Hb; exact Hb|exact Hm].
    - apply in_map_iff in Hk'. destruct Hk' as [[k'' x] [E1 Hx]]. cbn [fst] in E1. subst k''.
      destruct (SR k y Hy) as [[? ?] [? ?]]. destruct (SL k' x Hx) as [[? ?] [? ?]].
      rewrite (dict_get_km l k k' x); auto; [|intros a b Hab; apply (SL a b Hab)].
      specialize (H _ Hx). cbn [fst snd] in H.
      rewrite (dict_get_km r k' k y) in H; auto; [|intros a b Hab; apply (SR a b Hab)|rewrite km_sym; auto].
      rewrite HS; auto.
  Qed.

  Lemma step_sym : eq_sym_n (S n).
  Proof.
    intros a b Ha Hb Wa Wb.
    assert (HL : forall l r, (list_sum (map size l) < n)%nat -> (list_sum (map size r) < n)%nat ->
       (forall x, In x l -> wf x) -> (forall x, In x r -> wf x) -> list_eqb value_eq l r = list_eqb value_eq r l).
    { intros l r Hl Hr Wl Wr. apply list_eqb_sym. intros x y Hx Hy. apply HS; auto.
      - pose proof (size_in x l Hx). lia. - pose proof (size_in y r Hy). lia. }
    destruct a, b; try reflexivity; cbn [size] in Ha, Hb;
      try (cbn [value_eq]; rewrite 1?Z.eqb_sym; reflexivity).
    - cbn [value_eq]. destruct b0, b; reflexivity.
    - cbn [value_eq]. rewrite (Z.eqb_sym re), (Z.eqb_sym im). reflexivity.
    - cbn [value_eq]. rewrite (Z.eqb_sym num), (Z.eqb_sym (Zpos den)). reflexivity.
    - cbn [value_eq]. apply list_eqb_sym. intros; apply Z.eqb_sym.
    - rewrite !veq_list. inv Wa. inv Wb. apply HL; auto; lia.
    - rewrite !veq_vector. inv Wa. inv Wb. apply HL; auto; lia.
    - rewrite !veq_set. rewrite Nat.eqb_sym. destruct (Nat.eqb_spec (length l0) (length l)) as [E|E]; [|reflexivity]. cbn.
      apply eq_true_iff_eq. split; apply set_sub_flip; auto; lia.
    - rewrite !veq_dict. rewrite Nat.eqb_sym. destruct (Nat.eqb_spec (length l0) (length l)) as [E|E]; [|reflexivity]. cbn.
      apply eq_true_iff_eq. split; apply dict_sub_flip; auto.
    - rewrite !veq_heap. inv Wa. inv Wb. apply HL; auto; lia.
    - rewrite !veq_struct, (Z.eqb_sym ty). inv Wa. inv Wb. f_equal. apply HL; auto; lia.
    - cbn [value_eq]. rewrite (Z.eqb_sym start), (Z.eqb_sym stop), (Z.eqb_sym step). reflexivity.
    - cbn [value_eq]. inv Wa. inv Wb. apply HS; auto; lia.
    - cbn [value_eq]. inv Wa. inv Wb. rewrite (HS a1 b1), (HS a2 b2), (HS a3 b3); auto; lia.
    - cbn [value_eq]. unfold native_eqb. apply Z.eqb_sym.
    - cbn [value_eq]. unfold native_eqb. apply Z.eqb_sym.
    - cbn [value_eq]. inv Wa. inv Wb. apply HS; auto; lia.
  Qed.

  Lemma step_trans : eq_trans_n (S n).
  Proof.
    intros a b c Ha Hb Hc Wa Wb Wc.
    assert (HL : forall l r s, (list_sum (map size l) < n)%nat -> (list_sum (map size r) < n)%nat -> (list_sum (map size s) < n)%nat ->
       (forall x, In x l -> wf x) -> (forall x, In x r -> wf x) -> (forall x, In x s -> wf x) ->
       list_eqb value_eq l r = true -> list_eqb value_eq r s = true -> list_eqb value_eq l s = true).
    { intros l r s Hl Hr Hs Wl Wr Ws. apply list_eqb_trans. intros x y z Hx Hy Hz. apply HT; auto.
      - pose proof (size_in x l Hx). lia. - pose proof (size_in y r Hy). lia. - pose proof (size_in z s Hz). lia. }
    destruct a, b; try discriminate; destruct c; try discriminate; cbn [size] in Ha, Hb, Hc.
    - reflexivity.
    - cbn [value_eq]. rewrite !eqb_true_iff. congruence.
    - cbn [value_eq]. rewrite ?andb_true_iff, ?Z.eqb_eq. clear. intuition congruence.
    - cbn [value_eq]. rewrite ?andb_true_iff, ?Z.eqb_eq. clear. intuition congruence.
    - cbn [value_eq]. rewrite ?andb_true_iff, ?Z.eqb_eq. clear. intuition congruence.
    - cbn [value_eq]. rewrite ?andb_true_iff, ?Z.eqb_eq. clear. intuition congruence.
    - cbn [value_eq]. rewrite ?andb_true_iff, ?Z.eqb_eq. clear. intuition congruence.
    - cbn [value_eq]. rewrite ?andb_true_iff, ?Z.eqb_eq. clear. intuition congruence.
    - cbn [value_eq]. rewrite ?andb_true_iff, ?Z.eqb_eq. clear. intuition congruence.
    - cbn [value_eq]. rewrite ?andb_true_iff, ?Z.eqb_eq. clear. intuition congruence.
    - cbn [value_eq]. rewrite ?andb_true_iff, ?Z.eqb_eq. clear. intuition congruence.
    - cbn [value_eq]. rewrite !(list_eqb_spec Z.eqb Z.eqb_eq). congruence.
    - rewrite !veq_list. inv Wa. inv Wb. inv Wc. apply HL; auto; lia.
    - rewrite !veq_vector. inv Wa. inv Wb. inv Wc. apply HL; auto; lia.
    - rewrite !veq_set, !andb_true_iff, !Nat.eqb_eq. intros [E1 H1] [E2 H2]. split; [congruence|].
      inv Wa. inv Wb. inv Wc. rewrite forallb_forall in *. intros x Hx. specialize (H1 x Hx).
      apply existsb_exists in H1. destruct H1 as [y [Hy E]]. specialize (H2 y Hy).
      apply existsb_exists in H2. destruct H2 as [z [Hz F]]. apply existsb_exists. exists z. split; [assumption|].
      pose proof (size_in x _ Hx). pose proof (size_in y _ Hy). pose proof (size_in z _ Hz).
      apply (km_trans x y z); auto; lia.
    - rewrite !veq_dict, !andb_true_iff, !Nat.eqb_eq. intros [E1 H1] [E2 H2]. split; [congruence|].
      change (size (VDict l) < S n)%nat in Ha. change (size (VDict l0) < S n)%nat in Hb. change (size (VDict l1) < S n)%nat in Hc.
      inversion Wa as [| | | | | | | | |? Wl Dl| | | | | | | | | | | |]; subst.
      inversion Wb as [| | | | | | | | |? Wl0 Dl0| | | | | | | | | | | |]; subst.
      inversion Wc as [| | | | | | | | |? Wl1 Dl1| | | | | | | | | | | |]; subst.
      rewrite forallb_forall in *. intros [k x] Hx. specialize (H1 _ Hx). cbn [fst snd] in *.
      destruct (dict_get l0 k) as [y|] eqn:G1; [|discriminate].
      destruct (dict_get_some _ _ _ G1) as [k1 [Hk1 M1]]. specialize (H2 _ Hk1). cbn [fst snd] in *.
      destruct (dict_get l1 k1) as [z|] eqn:G2; [|discriminate].
      destruct (dict_get_some _ _ _ G2) as [k2 [Hk2 M2]].
      pose proof (size_in_dict _ _ _ Hx). pose proof (size_in_dict _ _ _ Hk1). pose proof (size_in_dict _ _ _ Hk2).
      destruct (Wl _ _ Hx). destruct (Wl0 _ _ Hk1). destruct (Wl1 _ _ Hk2).
      rewrite (dict_get_km l1 k k2 z); auto; try lia.
      + apply (HT x y z); auto; lia.
      + intros p q Hpq. pose proof (size_in_dict _ _ _ Hpq). destruct (Wl1 _ _ Hpq). split; [lia|assumption].
      + apply (km_trans k k1 k2); auto; lia.
    - rewrite !veq_heap. inv Wa. inv Wb. inv Wc. apply HL; auto; lia.
    - rewrite !veq_struct, !andb_true_iff, !Z.eqb_eq. intros [-> A] [-> B]. inv Wa. inv Wb. inv Wc. split; [reflexivity|].
      apply (HL l l0 l1); auto; lia.
    - cbn [value_eq]. rewrite !Z.eqb_eq. congruence.
    - cbn [value_eq]. rewrite !andb_true_iff, !Z.eqb_eq. intros [[-> ->] ->] [[-> ->] ->]. auto.
    - cbn [value_eq]. inv Wa. inv Wb. inv Wc. apply HT; auto; lia.
    - cbn [value_eq]. inv Wa. inv Wb. inv Wc. rewrite !andb_true_iff. intros [[A1 A2] A3] [[B1 B2] B3].
      rewrite (HT a1 b1 c1), (HT a2 b2 c2), (HT a3 b3 c3); auto; lia.
    - cbn [value_eq]. rewrite !native_eqb_spec. congruence.
    - cbn [value_eq]. rewrite !native_eqb_spec. congruence.
    - cbn [value_eq]. rewrite !Z.eqb_eq. congruence.
    - cbn [value_eq]. rewrite !Z.eqb_eq. congruence.
    - cbn [value_eq]. rewrite !Z.eqb_eq. congruence.
    - cbn [value_eq]. inv Wa. inv Wb. inv Wc. apply HT; auto; lia.
  Qed.
End Step.

Lemma eq_equiv_n n : eq_sym_n n /\ eq_trans_n n.
Proof.
  induction n as [|n [HS HT]].
  - split; intros a b; intros; lia.
  - split; [apply step_sym|apply step_trans]; assumption.
Qed.

Lemma value_eq_sym a b : wf a -> wf b -> value_eq a b = value_eq b a.
Proof. intros. apply (proj1 (eq_equiv_n (S (size a + size b)))); auto; lia. Qed.
Lemma value_eq_trans a b c : wf a -> wf b -> wf c -> value_eq a b = true -> value_eq b c = true -> value_eq a c = true.
Proof. intros. apply (proj2 (eq_equiv_n (S (size a + size b + size c))) a b c); auto; lia. Qed.

Lemma key_match_sym x y : wf x -> wf y -> key_match x y = key_match y x.
Proof. intros. unfold key_match. rewrite same_hash_sym, value_eq_sym; auto. Qed.
Lemma key_match_trans x y z : wf x -> wf y -> wf z -> key_match x y = true -> key_match y z = true -> key_match x z = true.
Proof.
  intros Wx Wy Wz A B. unfold key_match in *. apply andb_prop in A. apply andb_prop in B.
  destruct A as [A1 A2], B as [B1 B2]. rewrite (same_hash_trans x y z), (value_eq_trans x y z); auto.
Qed.

Lemma dict_get_unique (l : list (value * value)) k k' v :
  wf (VDict l) -> wf k -> In (k', v) l -> key_match k k' = true -> dict_get l k = Some v.
Proof.
  intros W Wk Hin E. inversion W as [| | | | | | | | |? Wl Dl| | | | | | | | | | | |]; subst.
  apply (dict_get_in l k k' v); auto.
  intros a b c Ha Hc -> E1 E2. apply in_map_iff in Ha. destruct Ha as [[a' a2] [<- Ha]].
  apply in_map_iff in Hc. destruct Hc as [[c' c2] [<- Hc]]. cbn [fst] in *.
  destruct (Wl _ _ Ha), (Wl _ _ Hc). apply (key_match_trans a' k c'); auto. rewrite key_match_sym; auto.
Qed.

Lemma value_eq_refl_n n : forall a, (size a < n)%nat -> wf a -> value_eq a a = true.
Proof.
  induction n as [|n IH]; intros a Hn Hwf; [lia|].
  assert (HL : forall l, (list_sum (map size l) < n)%nat -> (forall x, In x l -> wf x) -> list_eqb value_eq l l = true).
  { intros l Hs Hw. apply list_eqb_refl. intros x Hx. apply IH; [|apply Hw, Hx]. pose proof (size_in x l Hx). lia. }
  destruct a; cbn [size] in Hn; try (cbn [value_eq]; rewrite ?Z.eqb_refl; reflexivity).
  - destruct b; reflexivity.
  - cbn [value_eq]. apply list_eqb_refl. intros; apply Z.eqb_refl.
  - rewrite veq_list. inv Hwf. apply HL; [lia|assumption].
  - rewrite veq_vector. inv Hwf. apply HL; [lia|assumption].
  - rewrite veq_set, Nat.eqb_refl. inv Hwf. cbn. apply forallb_forall. intros x Hx. apply existsb_exists.
    exists x. split; [assumption|]. unfold key_match. rewrite same_hash_refl. apply IH; [|apply H0, Hx].
    pose proof (size_in x l Hx). lia.
  - rewrite veq_dict, Nat.eqb_refl. change (size (VDict l) < S n)%nat in Hn.
    inversion Hwf as [| | | | | | | | |? Wl Dl| | | | | | | | | | | |]; subst.
    cbn. apply forallb_forall. intros [k x] Hx. cbn [fst snd]. destruct (Wl _ _ Hx).
    pose proof (size_in_dict k x l Hx).
    rewrite (dict_get_unique l k k x); auto.
    + apply IH; [lia|assumption].
    + unfold key_match. rewrite same_hash_refl. apply IH; [lia|assumption].
  - rewrite veq_heap. inv Hwf. apply HL; [lia|assumption].
  - rewrite veq_struct, Z.eqb_refl. inv Hwf. apply HL; [lia|assumption].
  - inv Hwf. cbn [value_eq]. apply IH; auto. lia.
  - inv Hwf. cbn [value_eq]. rewrite !IH; auto; lia.
  - apply native_eqb_spec. reflexivity.
  - apply native_eqb_spec. reflexivity.
  - inv Hwf. cbn [value_eq]. apply IH; auto. lia.
Qed.
Lemma value_eq_refl a : wf a -> value_eq a a = true.
Proof. intros. apply (value_eq_refl_n (S (size a))); auto. Qed.
