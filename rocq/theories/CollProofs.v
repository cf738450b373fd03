(** Proofs about sets and dicts as finite maps (Coll.v). *)
From Verif Require Import Base Native Value ValueSpec ValueProofs Err Iter Seq Ops OpsSpec OpsProofs2 Heap Coll CollSpec.
From Coq Require Import Permutation Sorted.
Local Open Scope nat_scope.

Lemma ss_nth {A} (R : A -> A -> Prop) l : StronglySorted R l ->
  forall i j x y, i < j -> nth_error l i = Some x -> nth_error l j = Some y -> R x y.
Proof.
  induction 1 as [|a l Hs IH Hf]; intros i j x y Hij Hi Hj; [destruct i; discriminate|].
  destruct j as [|j]; [lia|]. destruct i as [|i]; cbn in Hi, Hj.
  - injection Hi as <-. rewrite Forall_forall in Hf. apply Hf. eapply nth_error_In; eassumption.
  - eapply IH; [|eassumption|eassumption]. lia.
Qed.
Lemma ss_filter {A} (R : A -> A -> Prop) f l : StronglySorted R l -> StronglySorted R (filter f l).
Proof.
  induction 1 as [|a l Hs IH Hf]; cbn; [constructor|]. destruct (f a); auto. constructor; auto.
  rewrite Forall_forall in *. intros x Hx. apply Hf. apply filter_In in Hx. tauto.
Qed.
Lemma ss_snoc {A} (R : A -> A -> Prop) l x : StronglySorted R l -> (forall y, In y l -> R y x) -> StronglySorted R (l ++ [x]).
Proof.
  induction 1 as [|a l Hs IH Hf]; intro Hx; cbn; [repeat constructor|]. constructor.
  - apply IH. intros y Hy. apply Hx. right. exact Hy.
  - apply Forall_app. split; auto. constructor; auto. apply Hx. left. reflexivity.
Qed.
Lemma ss_impl {A} (R S : A -> A -> Prop) l : (forall x y, In x l -> In y l -> R x y -> S x y) -> StronglySorted R l -> StronglySorted S l.
Proof.
  intros H Hs. induction Hs as [|a l Hs IH Hf]; constructor.
  - apply IH. intros. apply H; cbn; auto.
  - rewrite Forall_forall in *. intros y Hy. apply H; cbn; auto.
Qed.

Lemma filter_all {A} (f : A -> bool) l : (forall x, In x l -> f x = true) -> filter f l = l.
Proof. induction l as [|x l IH]; intro H; cbn; auto. rewrite (H x) by (left; reflexivity). rewrite IH; auto. intros y Hy. apply H. right. exact Hy. Qed.

(** ** maps *)
Definition wf_event (e : event) : Prop := match e with Wrote k x => wf k /\ wf x | Erased k => wf k | _ => True end.
Definition wf_entries (l : entries) : Prop := forall k x, In (k, x) l -> wf k /\ wf x.

Lemma map_get_dict_get k l : map_get k l = dict_get l k.
Proof. induction l as [|[k' x] l IH]; cbn; auto. unfold dict_get in *. cbn. destruct (key_match k k'); auto. Qed.
Lemma wf_entries_cons k x l : wf_entries ((k, x) :: l) <-> wf k /\ wf x /\ wf_entries l.
Proof.
  split.
  - intro H. assert (Hh := H k x (or_introl eq_refl)). split; [tauto|]. split; [tauto|]. intros a b Hab. apply H. right. exact Hab.
  - intros (Hk & Hx & Hl) a b [E|Hab]; [injection E as <- <-; auto|apply Hl; auto].
Qed.
Lemma wf_entries_app l r : wf_entries (l ++ r) <-> wf_entries l /\ wf_entries r.
Proof.
  unfold wf_entries. split.
  - intro H. split; intros k x Hi; apply H; apply in_or_app; auto.
  - intros [H1 H2] k x Hi. apply in_app_or in Hi. destruct Hi; auto.
Qed.
Lemma wf_entries_key l k : wf_entries l -> In k (map fst l) -> wf k.
Proof. intros H Hi. apply in_map_iff in Hi. destruct Hi as ([k' x] & <- & Hi). apply H in Hi. tauto. Qed.

Lemma km_trans_eq a b c : wf a -> wf b -> wf c -> key_match a b = true -> key_match c a = key_match c b.
Proof.
  intros Ha Hb Hc E. destruct (key_match c b) eqn:E2.
  - apply (key_match_trans c b a); auto. rewrite key_match_sym; auto.
  - destruct (key_match c a) eqn:E1; auto. rewrite <- E2. symmetry. apply (key_match_trans c a b); auto.
Qed.

Lemma map_get_none k l : map_get k l = None <-> (forall k', In k' (map fst l) -> key_match k k' = false).
Proof.
  induction l as [|[k' x] l IH]; cbn.
  - split; intros; [contradiction|reflexivity].
  - destruct (key_match k k') eqn:E.
    + split; [discriminate|]. intro H. rewrite H in E by auto. discriminate.
    + rewrite IH. split.
      * intros H y [<-|Hy]; auto.
      * intros H y Hy. apply H. auto.
Qed.
Lemma map_get_insert k x l q : wf k -> wf q -> wf_entries l -> map_get q (map_insert k x l) = if key_match q k then Some x else map_get q l.
Proof.
  intros Hk Hq. induction l as [|[k' y] l IH]; intro Hl; cbn [map_insert map_get].
  - reflexivity.
  - apply wf_entries_cons in Hl. destruct Hl as (Hk' & Hy & Hl). destruct (key_match k k') eqn:E; cbn [map_get].
    + rewrite (km_trans_eq k k' q) by auto. destruct (key_match q k'); auto.
    + rewrite IH by auto. destruct (key_match q k') eqn:E2; auto. destruct (key_match q k) eqn:E3; auto.
      rewrite (key_match_sym q k) in E3 by auto. exfalso. enough (key_match k k' = true) by congruence. apply (key_match_trans k q k'); auto.
Qed.
Lemma map_insert_keys k x l : map fst (map_insert k x l) = match map_get k l with Some _ => map fst l | None => map fst l ++ [k] end.
Proof.
  induction l as [|[k' y] l IH]; cbn; auto. destruct (key_match k k'); cbn; auto. rewrite IH. destruct (map_get k l); reflexivity.
Qed.
Lemma map_insert_wf k x l : wf k -> wf x -> wf_entries l -> wf_entries (map_insert k x l).
Proof.
  intros Hk Hx. induction l as [|[k' y] l IH]; intro Hl; cbn.
  - apply wf_entries_cons. tauto.
  - apply wf_entries_cons in Hl. destruct Hl as (Hk' & Hy & Hl). destruct (key_match k k'); apply wf_entries_cons; auto.
Qed.
Lemma map_insert_distinct k x l : wf k -> wf_entries l -> distinct key_match (map fst l) -> distinct key_match (map fst (map_insert k x l)).
Proof.
  intros Hk Hl Hd. rewrite map_insert_keys. destruct (map_get k l) eqn:E; auto.
  apply distinct_app. split; auto. split; [cbn; tauto|]. intros a b Ha [<-|[]].
  rewrite key_match_sym; auto; [|eapply wf_entries_key; eassumption]. rewrite map_get_none in E. auto.
Qed.

Definition without (k : value) (l : entries) : entries := filter (fun p => negb (key_match k (fst p))) l.
Lemma without_id k l : map_get k l = None -> without k l = l.
Proof.
  intro H. apply filter_all. intros [k' x] Hi. cbn. rewrite map_get_none in H. rewrite H; auto. apply in_map_iff. exists (k', x). auto.
Qed.
Lemma distinct_get k k' l : wf k -> wf k' -> wf_entries l -> distinct key_match (k' :: map fst l) -> key_match k k' = true -> map_get k l = None.
Proof.
  intros Hk Hk' Hl [Hd _] E. apply map_get_none. intros q Hq. specialize (Hd q Hq).
  assert (wf q) by (eapply wf_entries_key; eassumption).
  destruct (key_match k q) eqn:E2; auto. rewrite <- Hd. symmetry. apply (key_match_trans k' k q); auto. rewrite key_match_sym; auto.
Qed.
Lemma shift_remove_without k l : wf k -> wf_entries l -> distinct key_match (map fst l) ->
  map_shift_remove k l = (match map_get k l with Some _ => true | None => false end, without k l).
Proof.
  intros Hk. induction l as [|[k' y] l IH]; intros Hl Hd; cbn [map_shift_remove map_get]; auto.
  apply wf_entries_cons in Hl. destruct Hl as (Hk' & Hy & Hl). unfold without. cbn [filter fst]. destruct (key_match k k') eqn:E; cbn [negb].
  - f_equal. symmetry. apply without_id. apply (distinct_get k k' l); auto.
  - cbn in Hd. destruct Hd as [_ Hd]. rewrite IH by auto. reflexivity.
Qed.
Lemma map_get_without k l q : wf k -> wf q -> wf_entries l -> map_get q (without k l) = if key_match q k then None else map_get q l.
Proof.
  intros Hk Hq. induction l as [|[k' y] l IH]; intro Hl; unfold without; cbn [filter map_get fst].
  - destruct (key_match q k); reflexivity.
  - apply wf_entries_cons in Hl. destruct Hl as (Hk' & Hy & Hl). fold (without k l). destruct (key_match k k') eqn:E; cbn [negb map_get].
    + rewrite IH by auto. destruct (key_match q k) eqn:E2; auto. rewrite <- (km_trans_eq k k' q), E2 by auto. reflexivity.
    + rewrite IH by auto. destruct (key_match q k') eqn:E2; auto. destruct (key_match q k) eqn:E3; auto.
      rewrite (key_match_sym q k) in E3 by auto. exfalso. enough (key_match k k' = true) by congruence. apply (key_match_trans k q k'); auto.
Qed.
Lemma without_keys k l : map fst (without k l) = filter (fun k' => negb (key_match k k')) (map fst l).
Proof. unfold without. induction l as [|[k' y] l IH]; cbn; auto. destruct (key_match k k'); cbn; rewrite IH; auto. Qed.
Lemma without_wf k l : wf_entries l -> wf_entries (without k l).
Proof. intros H a b Hi. apply filter_In in Hi. apply H. tauto. Qed.

(** ** histories *)
Lemma born_written h k : born h k = None <-> last_written h k = None.
Proof.
  induction h as [|[k' x|k'| |] h IH]; cbn; try tauto.
  - destruct (key_match k k'); [|exact IH]. destruct (born h k); split; discriminate.
  - destruct (key_match k k'); [tauto|exact IH].
Qed.
Lemma born_lt h k t : born h k = Some t -> t < length h.
Proof.
  revert t. induction h as [|[k' x|k'| |] h IH]; intros t E; cbn in E |- *; try discriminate.
  - destruct (key_match k k'); [|apply IH in E; lia]. destruct (born h k) as [u|] eqn:Eb; injection E as <-; [specialize (IH _ eq_refl)|]; lia.
  - destruct (key_match k k'); [discriminate|]. apply IH in E. lia.
  - apply IH in E. lia.
Qed.

Definition earlier (h : list event) (k k' : value) : Prop := exists t t', born h k = Some t /\ born h k' = Some t' /\ t < t'.
Definition tracks (h : list event) (l : entries) : Prop :=
  wf_entries l /\ distinct key_match (map fst l) /\
  (forall k, wf k -> map_get k l = last_written h k) /\ StronglySorted (earlier h) (map fst l).

Lemma tracks_nil : tracks [] [].
Proof. split; [intros k x []|]; split; [exact I|]; split; [reflexivity|constructor]. Qed.
Lemma tracks_key h l k : tracks h l -> In k (map fst l) -> exists t, born h k = Some t.
Proof.
  intros (Hw & Hd & Hg & Hs) Hi. destruct (born h k) as [t|] eqn:E; [eauto|]. exfalso.
  assert (Hk := wf_entries_key _ _ Hw Hi). apply born_written in E. rewrite <- Hg in E by auto.
  rewrite map_get_none in E. specialize (E k Hi). rewrite key_match_refl in E by auto. discriminate.
Qed.
Lemma tracks_write h l k x : wf k -> wf x -> tracks h l -> tracks (Wrote k x :: h) (map_insert k x l).
Proof.
  intros Hk Hx T. assert (T' := T). destruct T as (Hw & Hd & Hg & Hs). split; [|split; [|split]].
  - apply map_insert_wf; auto.
  - apply map_insert_distinct; auto.
  - intros q Hq. rewrite map_get_insert by auto. cbn [last_written]. rewrite Hg by auto. reflexivity.
  - rewrite map_insert_keys.
    assert (Hold : forall q t, born h q = Some t -> born (Wrote k x :: h) q = Some t).
    { intros q t E. cbn. rewrite E. destruct (key_match q k); reflexivity. }
    assert (Hs' : StronglySorted (earlier (Wrote k x :: h)) (map fst l)).
    { eapply ss_impl; [|exact Hs]. intros a b _ _ (t & t' & Ea & Eb & L). exists t, t'. auto. }
    destruct (map_get k l) eqn:E; auto. apply ss_snoc; auto. intros q Hq.
    destruct (tracks_key _ _ _ T' Hq) as [t Et]. exists t, (length h). split; [auto|]. split; [|eapply born_lt; eassumption].
    cbn. rewrite key_match_refl by auto. replace (born h k) with (@None nat); auto. symmetry. apply born_written. rewrite <- Hg; auto.
Qed.
Lemma tracks_erase h l k : wf k -> tracks h l -> tracks (Erased k :: h) (without k l).
Proof.
  intros Hk (Hw & Hd & Hg & Hs). split; [|split; [|split]].
  - apply without_wf. auto.
  - rewrite without_keys. eapply sublist_distinct; [apply sublist_filter|exact Hd].
  - intros q Hq. rewrite map_get_without by auto. cbn [last_written]. rewrite Hg by auto. reflexivity.
  - rewrite without_keys. eapply ss_impl; [|apply ss_filter; exact Hs].
    intros a b Ha Hb (t & t' & Ea & Eb & L). apply filter_In in Ha, Hb. destruct Ha as [Ia Ha], Hb as [Ib Hb].
    exists t, t'. cbn. rewrite !(key_match_sym _ k) by (auto; eapply wf_entries_key; eassumption).
    apply negb_true_iff in Ha, Hb. rewrite Ha, Hb. auto.
Qed.
Lemma tracks_wipe h : tracks (Wiped :: h) [].
Proof. split; [intros k x []|]; split; [exact I|]; split; [reflexivity|constructor]. Qed.
Lemma tracks_look h l : tracks h l -> tracks (Looked :: h) l.
Proof. intros (Hw & Hd & Hg & Hs). split; [exact Hw|]. split; [exact Hd|]. split; [exact Hg|exact Hs]. Qed.

Lemma pop_back_spec {A} (l : list A) : match pop_back l with None => l = [] | Some (x, l') => l = l' ++ [x] end.
Proof.
  unfold pop_back. destruct (rev l) as [|x r] eqn:E.
  - rewrite <- (rev_involutive l), E. reflexivity.
  - rewrite <- (rev_involutive l), E. reflexivity.
Qed.
Lemma without_last k x l : wf_entries (l ++ [(k, x)]) -> distinct key_match (map fst (l ++ [(k, x)])) -> without k (l ++ [(k, x)]) = l.
Proof.
  intros Hw Hd. apply wf_entries_app in Hw. destruct Hw as [Hl Hk]. specialize (Hk k x (or_introl eq_refl)). destruct Hk as [Hk Hx].
  rewrite map_app in Hd. apply distinct_app in Hd. destruct Hd as (_ & _ & Hd).
  unfold without. rewrite filter_app. cbn. rewrite key_match_refl by auto. cbn. rewrite app_nil_r. apply filter_all.
  intros [k' y] Hi. cbn. rewrite key_match_sym; auto; [|apply Hl in Hi; tauto]. rewrite (Hd k' k); auto; [|left; reflexivity].
  apply in_map_iff. exists (k', y). auto.
Qed.

Lemma dict_step h c l a t' : wf_call c -> tracks h l -> do_call c (VDict l) = (a, t') ->
  exists l', t' = VDict l' /\ tracks (dict_event (c, a) :: h) l'.
Proof.
  intros Hc T E. assert (Td := T). destruct Td as (Hw & Hd & Hg & Hs).
  destruct c as [x|x| | | |i x|i x|x|]; cbn [do_call] in E; cbn [wf_call] in Hc.
  - injection E as <- <-. exists l. split; [reflexivity|]. apply tracks_look; auto.
  - injection E as <- <-. exists l. split; [reflexivity|]. apply tracks_look; auto.
  - cbn [pop] in E. pose proof (pop_back_spec l) as P. destruct (pop_back l) as [[[k x] l']|]; injection E as <- <-.
    + exists l'. split; auto. cbn [dict_event pair_value]. subst l. rewrite <- (without_last k x l') by auto. apply tracks_erase; auto.
      apply (Hw k x). apply in_or_app. right. left. reflexivity.
    + exists l. split; [reflexivity|]. apply tracks_look; auto.
  - injection E as <- <-. exists l. split; [reflexivity|]. apply tracks_look; auto.
  - injection E as <- <-. exists l. split; [reflexivity|]. apply tracks_look; auto.
  - cbn [insert] in E. injection E as <- <-. exists (map_insert i x l). split; auto. apply tracks_write; tauto.
  - cbn [store_index] in E. injection E as <- <-. exists (map_insert i x l). split; auto. apply tracks_write; tauto.
  - cbn [remove] in E. rewrite shift_remove_without in E by auto. injection E as <- <-. exists (without x l). split; auto. apply tracks_erase; auto.
  - cbn [clear] in E. injection E as <- <-. exists []. split; auto. apply tracks_wipe.
Qed.

Definition tag (l : list value) : entries := map (fun x => (x, VNil)) l.
Lemma tag_keys l : map fst (tag l) = l.
Proof. unfold tag. rewrite map_map. cbn. apply map_id. Qed.
Lemma tag_get x l : map_get x (tag l) = if set_mem x l then Some VNil else None.
Proof.
  induction l as [|y l IH]; cbn [tag map map_get]; auto. unfold set_mem. cbn [existsb]. destruct (key_match x y); cbn [orb]; auto.
Qed.
Lemma tag_insert x l : tag (set_insert x l) = map_insert x VNil (tag l).
Proof.
  unfold set_insert, set_mem. induction l as [|y l IH]; cbn [tag map map_insert existsb]; auto.
  destruct (key_match x y); cbn [orb]; auto. fold (tag l). rewrite <- IH. destruct (existsb (key_match x) l); reflexivity.
Qed.
Lemma tag_remove x l : map_shift_remove x (tag l) = (fst (set_shift_remove x l), tag (snd (set_shift_remove x l))).
Proof.
  induction l as [|y l IH]; cbn [tag map map_shift_remove set_shift_remove]; auto. destruct (key_match x y); auto.
  fold (tag l). rewrite IH. destruct (set_shift_remove x l). reflexivity.
Qed.
Lemma set_step h c l a t' : wf_call c -> tracks h (tag l) -> do_call c (VSet l) = (a, t') ->
  exists l', t' = VSet l' /\ tracks (set_event (c, a) :: h) (tag l').
Proof.
  intros Hc T E. assert (Td := T). destruct Td as (Hw & Hd & Hg & Hs).
  destruct c as [x|x| | | |i x|i x|x|]; cbn [do_call] in E; cbn [wf_call] in Hc.
  - cbn [push] in E. injection E as <- <-. exists (set_insert x l). split; auto. rewrite tag_insert. apply tracks_write; auto. constructor.
  - injection E as <- <-. exists l. split; [reflexivity|]. apply tracks_look; auto.
  - cbn [pop] in E. pose proof (pop_back_spec l) as P. destruct (pop_back l) as [[x l']|]; injection E as <- <-.
    + exists l'. split; auto. cbn [set_event]. subst l. replace (tag l') with (without x (tag (l' ++ [x]))).
      * apply tracks_erase; auto. apply (Hw x VNil). unfold tag. rewrite map_app. apply in_or_app. right. left. reflexivity.
      * unfold tag in *. rewrite map_app in *. cbn [map] in *. apply without_last; auto.
    + exists l. split; [reflexivity|]. apply tracks_look; auto.
  - injection E as <- <-. exists l. split; [reflexivity|]. apply tracks_look; auto.
  - injection E as <- <-. exists l. split; [reflexivity|]. apply tracks_look; auto.
  - injection E as <- <-. exists l. split; [reflexivity|]. apply tracks_look; auto.
  - cbn in E. injection E as <- <-. exists l. split; [reflexivity|]. apply tracks_look; auto.
  - cbn [remove] in E. pose proof (tag_remove x l) as R. rewrite shift_remove_without in R by auto.
    destruct (set_shift_remove x l) as [b l']. cbn [fst snd] in R. injection R as <- R. injection E as <- <-.
    exists l'. split; auto. cbn [set_event]. rewrite <- R. apply tracks_erase; auto.
  - cbn [clear] in E. injection E as <- <-. exists []. split; auto. apply tracks_wipe.
Qed.

Lemma dict_calls : forall cs l log t' h log', (forall c, In c cs -> wf_call c) -> tracks (map dict_event log) l ->
  do_calls cs (VDict l) log = (log', t') -> h = map dict_event log' -> exists l', t' = VDict l' /\ tracks h l'.
Proof.
  induction cs as [|c cs IH]; intros l log t' h log' Hc T E ->; cbn [do_calls] in E.
  - injection E as <- <-. eauto.
  - destruct (do_call c (VDict l)) as [a t1] eqn:Ec. destruct (dict_step _ _ _ _ _ (Hc c (or_introl eq_refl)) T Ec) as (l1 & -> & T1).
    eapply IH; [| |exact E|reflexivity]; auto. intros; apply Hc; right; auto.
Qed.
Lemma set_calls : forall cs l log t' h log', (forall c, In c cs -> wf_call c) -> tracks (map set_event log) (tag l) ->
  do_calls cs (VSet l) log = (log', t') -> h = map set_event log' -> exists l', t' = VSet l' /\ tracks h (tag l').
Proof.
  induction cs as [|c cs IH]; intros l log t' h log' Hc T E ->; cbn [do_calls] in E.
  - injection E as <- <-. eauto.
  - destruct (do_call c (VSet l)) as [a t1] eqn:Ec. destruct (set_step _ _ _ _ _ (Hc c (or_introl eq_refl)) T Ec) as (l1 & -> & T1).
    eapply IH; [| |exact E|reflexivity]; auto. intros; apply Hc; right; auto.
Qed.

Lemma tracks_by_birth h l : tracks h l -> by_birth h (map fst l).
Proof. intros (_ & _ & _ & Hs) i j k k' Hij Hi Hj. exact (ss_nth _ _ Hs i j k k' Hij Hi Hj). Qed.
