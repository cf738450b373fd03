(** Proofs about heaps, sorting, extrema, zip, sums, counters and list mutation. *)
From Verif Require Import Base BaseProofs Native Value ValueSpec ValueProofs OrderProofs Err Iter Seq Ops OpsSpec OpsProofs OpsProofs2 P_Value Heap HeapProofs Coll CollSpec CollProofs.
From Coq Require Import Permutation Sorted.
Local Open Scope nat_scope.

Definition good (k : okind) (x : value) : Prop := wf x /\ of_kind k x.
Lemma good_total k a b : good k a -> good k b -> vle a b = false -> vle b a = true.
Proof.
  intros Ha Hb E. destruct (C17_total_order k a b a Ha Hb Ha) as (_ & H & _). unfold vle in *. rewrite H. destruct (value_cmp a b); cbn in *; congruence.
Qed.
Lemma good_trans k a b c : good k a -> good k b -> good k c -> vle a b = true -> vle b c = true -> vle a c = true.
Proof. intros Ha Hb Hc. apply (C17_total_order k a b c Ha Hb Hc). Qed.
Lemma good_refl k a : good k a -> vle a a = true.
Proof. intro Ha. destruct (vle a a) eqn:E; auto. rewrite (good_total k a a Ha Ha E) in E. discriminate. Qed.
Lemma good_antisym k a b : good k a -> good k b -> vle a b = true -> vle b a = true -> value_eq a b = true.
Proof.
  intros Ha Hb E1 E2. destruct (C17_total_order k a b a Ha Hb Ha) as (H0 & H & _). apply H0. unfold vle in *. rewrite H in E2. destruct (value_cmp a b); cbn in *; congruence.
Qed.
Lemma good_eq_le k a b : good k a -> good k b -> value_eq a b = true -> vle a b = true.
Proof. intros Ha Hb E. destruct (C17_total_order k a b a Ha Hb Ha) as (H0 & _). apply H0 in E. unfold vle. rewrite E. reflexivity. Qed.
Lemma good_lt k a b : good k a -> good k b -> vlt a b = negb (vle b a).
Proof. intros Ha Hb. destruct (C17_total_order k a b a Ha Hb Ha) as (_ & H & _). unfold vle, vlt. rewrite H. destruct (value_cmp a b); reflexivity. Qed.

(** ** heaps *)
Definition hok (k : okind) (l : list value) : Prop := Forall (good k) l /\ heap value VNil vle l.
Lemma hok_perm k l l' : Permutation l l' -> Forall (good k) l -> Forall (good k) l'.
Proof. intros P H. eapply Permutation_Forall; eassumption. Qed.

Lemma queue_perm b cs as_ b' c : queue b cs as_ b' -> Permutation c b -> queue c cs as_ b'.
Proof.
  intro Q. revert c. induction Q; intros c P.
  - constructor. etransitivity; eassumption.
  - constructor; [apply IHQ; apply perm_skip; exact P|]. destruct H as (h & -> & P2). exists h. split; auto. etransitivity; [apply perm_skip; exact P|exact P2].
  - econstructor; [etransitivity; eassumption| |exact Q]. intros y Hy. apply H0. eapply Permutation_in; eassumption.
  - constructor; auto; [eapply Permutation_in; [symmetry; exact P|auto]|]. intros y Hy. apply H0. eapply Permutation_in; eassumption.
  - apply Permutation_sym, Permutation_nil in P. subst c. constructor. auto.
  - apply Permutation_sym, Permutation_nil in P. subst c. constructor. auto.
  - constructor. exact Q.
Qed.

Lemma do_calls_log : forall cs t log, do_calls cs t log = (fst (do_calls cs t []) ++ log, snd (do_calls cs t [])).
Proof.
  induction cs as [|c cs IH]; intros t log; cbn [do_calls]; [reflexivity|].
  destruct (do_call c t) as [a t']. rewrite (IH t' ((c, a) :: log)), (IH t' [(c, a)]). cbn [fst snd]. rewrite <- app_assoc. reflexivity.
Qed.
Definition answers (r : list (call * result value) * value) : list (result value) := rev (map snd (fst r)).
Lemma answers_cons c cs t : answers (do_calls (c :: cs) t []) = fst (do_call c t) :: answers (do_calls cs (snd (do_call c t)) []) /\
  snd (do_calls (c :: cs) t []) = snd (do_calls cs (snd (do_call c t)) []).
Proof.
  cbn [do_calls]. destruct (do_call c t) as [a t']. cbn [fst snd]. rewrite (do_calls_log cs t' [(c, a)]).
  unfold answers. cbn [fst snd]. rewrite map_app, rev_app_distr. auto.
Qed.

Lemma heap_queue k : forall cs l, (forall c, In c cs -> heap_call k c) -> hok k l ->
  exists l', snd (do_calls cs (VHeap l) []) = VHeap l' /\ queue l cs (answers (do_calls cs (VHeap l) [])) l' /\ hok k l'.
Proof.
  induction cs as [|c cs IH]; intros l Hc [Hg Hh].
  - exists l. split; [reflexivity|]. split; [constructor; reflexivity|split; auto].
  - destruct (answers_cons c cs (VHeap l)) as [A B]. rewrite A, B. clear A B.
    assert (Hc0 := Hc c (or_introl eq_refl)). assert (IH' := fun l H => IH l (fun c Hi => Hc c (or_intror Hi)) H). clear IH.
    destruct c; cbn [heap_call] in Hc0; try contradiction; cbn [do_call push pop peek clear].
    + cbn [fst snd]. unfold vheap_push. destruct (push_ok value VNil vle (good k) (good_total k) (good_trans k) (good_refl k) x l Hc0 Hg Hh) as [H1 H2].
      destruct (IH' (heap_push VNil vle x l)) as (l' & E & Q & K). { split; auto. eapply hok_perm; [exact H2|]. constructor; auto. }
      exists l'. split; auto. split; auto. constructor; [eapply queue_perm; eassumption|]. eauto.
    + pose proof (pop_ok value VNil vle (good k) (good_total k) (good_trans k) (good_refl k) l Hg Hh) as P. unfold vheap_pop.
      destruct (heap_pop VNil vle l) as [[x l1]|]; cbn [fst snd].
      * destruct P as (P1 & P2 & P3). destruct (IH' l1) as (l' & E & Q & K). { split; auto. eapply hok_perm in P1; [|exact Hg]. inversion P1; auto. }
        exists l'. split; auto. split; auto. econstructor; eassumption.
      * subst l. destruct (IH' []) as (l' & E & Q & K); [split; auto|]. exists l'. split; auto. split; auto. constructor. exact Q.
    + destruct l as [|x l]; cbn [heap_peek fst snd].
      * destruct (IH' []) as (l' & E & Q & K); [split; auto|]. exists l'. split; auto. split; auto. constructor. exact Q.
      * destruct (IH' (x :: l)) as (l' & E & Q & K); [split; auto|]. exists l'. split; auto. split; auto. constructor; auto; [left; reflexivity|].
        intros y Hy. exact (heap_root_in value VNil vle (good k) (good_total k) (good_trans k) (good_refl k) (x :: l) y Hg Hh Hy).
    + cbn [fst snd]. destruct (IH' []) as (l' & E & Q & K); [split; [constructor|intros i Hi; cbn in Hi; lia]|]. exists l'. split; auto. split; auto. constructor. exact Q.
Qed.
Lemma all_kind_forall k l : all_kind k l -> Forall (good k) l.
Proof. intro H. apply Forall_forall. exact H. Qed.
Lemma of_list_hok k l : all_kind k l -> hok k (vheap_of_list l) /\ Permutation l (vheap_of_list l).
Proof.
  intro H. apply all_kind_forall in H. destruct (of_list_ok value VNil vle (good k) (good_total k) (good_trans k) (good_refl k) l H) as [H1 H2].
  split; auto. split; auto. eapply hok_perm; eassumption.
Qed.

Lemma drain k : forall n b as_ b', Forall (good k) b -> length b = n -> queue b (repeat CPop n) as_ b' ->
  exists xs, as_ = map Ok xs /\ Permutation b xs /\ ascending xs /\ b' = [].
Proof.
  induction n as [|n IH]; intros b as_ b' Hg Hl Q; cbn [repeat] in Q.
  - inversion Q; subst. destruct b; [|discriminate]. exists []. repeat split; auto; [constructor|apply Permutation_nil; auto].
  - inversion Q; subst.
    + match goal with H : Permutation b (x :: b1) |- _ => rename H into HP end. match goal with H : forall y, In y b -> _ |- _ => rename H into HM end.
      assert (Hg' := hok_perm _ _ _ HP Hg). inversion Hg' as [|? ? Gx Gb]; subst.
      destruct (IH b1 as_0 b') as (xs & -> & P & A & ->); auto; [apply Permutation_length in HP; cbn in HP; lia|].
      exists (x :: xs). repeat split; auto.
      * etransitivity; [exact HP|]. apply perm_skip. exact P.
      * constructor; auto. apply Forall_forall. intros y Hy. apply HM. eapply Permutation_in; [symmetry; exact HP|]. right. eapply Permutation_in; [symmetry; exact P|exact Hy].
    + discriminate.
Qed.

(** ** sort *)
Lemma insert_sorted_perm x l : Permutation (x :: l) (insert_sorted x l).
Proof. induction l as [|y l IH]; cbn; auto. destruct (vlt x y); auto. etransitivity; [apply perm_swap|]. apply perm_skip. exact IH. Qed.
Lemma insert_sorted_asc k x l : good k x -> Forall (good k) l -> ascending l -> ascending (insert_sorted x l).
Proof.
  intros Hx. induction l as [|y l IH]; intros Hg Hs; cbn [insert_sorted]; [repeat constructor|].
  inversion Hg as [|? ? Gy Gl]; subst. inversion Hs as [|? ? Sl Fl]; subst. rewrite (good_lt k) by auto. destruct (vle y x) eqn:E; cbn [negb].
  - constructor; [apply IH; auto|]. rewrite Forall_forall. intros z Hz. eapply Permutation_in in Hz; [|symmetry; apply insert_sorted_perm].
    destruct Hz as [<-|Hz]; auto. rewrite Forall_forall in Fl. auto.
  - constructor; auto. assert (L : vle x y = true) by (eapply good_total; eassumption). rewrite Forall_forall in *. intros z [<-|Hz]; auto.
    apply (good_trans k x y z); auto.
Qed.
Lemma sort_acc k : forall l s, Forall (good k) l -> Forall (good k) s -> ascending s ->
  Permutation (l ++ s) (fold_left (fun s x => insert_sorted x s) l s) /\ ascending (fold_left (fun s x => insert_sorted x s) l s).
Proof.
  induction l as [|x l IH]; intros s Hl Hs Ha; cbn [fold_left app]; [split; auto|]. inversion Hl as [|? ? Gx Gl]; subst.
  destruct (IH (insert_sorted x s)) as [P A]; auto.
  - eapply hok_perm; [apply insert_sorted_perm|]. constructor; auto.
  - eapply insert_sorted_asc; eassumption.
  - split; auto. etransitivity; [|exact P]. etransitivity; [apply Permutation_middle|]. apply Permutation_app_head. apply insert_sorted_perm.
Qed.
Lemma sort_ok k l : all_kind k l -> Permutation l (builtin_sort l) /\ ascending (builtin_sort l).
Proof. intro H. destruct (sort_acc k l []) as [P A]; auto using all_kind_forall; [constructor|]. rewrite app_nil_r in P. split; auto. Qed.

Definition eqv (a b : value) : Prop := value_eq a b = true.
Lemma good_value_eq_trans k a b c : good k a -> good k b -> good k c -> eqv a b -> eqv b c -> eqv a c.
Proof. intros [Ha _] [Hb _] [Hc _]. apply value_eq_trans; auto. Qed.
Lemma Forall2_in_l {A B} (R : A -> B -> Prop) l r x : Forall2 R l r -> In x l -> exists y, In y r /\ R x y.
Proof. induction 1 as [|a b l r H F IH]; intros []; [subst; exists b; cbn; auto|]. destruct (IH H0) as (y & Hy & E). exists y. cbn. auto. Qed.
Lemma sorted_unique_gen k : forall n s t s', length s = n -> Forall (good k) s -> Forall (good k) t -> ascending s -> ascending t -> Permutation s s' -> Forall2 eqv s' t -> Forall2 eqv s t.
Proof.
  induction n as [|n IH]; intros s t s' Hn Gs Gt As At P F.
  - destruct s; [|discriminate]. apply Permutation_nil in P. subst s'. exact F.
  - destruct s as [|a s]; [discriminate|]. injection Hn as Hn.
    destruct F as [|c b s'' t'' Ecb F]; [apply Permutation_sym, Permutation_nil in P; discriminate|].
    inversion Gs as [|? ? Ga Gs']; subst. inversion Gt as [|? ? Gb Gt']; subst. inversion As as [|? ? As' Fa]; subst. inversion At as [|? ? At' Fb]; subst.
    rewrite Forall_forall in Fa, Fb.
    assert (Gs'' : Forall (good k) (c :: s'')) by (eapply hok_perm; [exact P|exact Gs]). inversion Gs'' as [|? ? Gc Gs3]; subst.
    (* a <= c ~ b, and b <= everything in t, hence b <= something equal to a *)
    assert (Lab : vle a b = true).
    { apply (good_trans k a c b); auto; [|apply (good_eq_le k); auto]. assert (Hi : In c (a :: s)) by (eapply Permutation_in; [symmetry; exact P|left; reflexivity]).
      destruct Hi as [->|Hi]; [apply (good_refl k); auto|apply Fa; auto]. }
    assert (Lba : vle b a = true).
    { assert (Hi : In a (c :: s'')) by (eapply Permutation_in; [exact P|left; reflexivity]). destruct Hi as [->|Hi].
      - apply (good_eq_le k); auto. destruct Ga as [Wa _], Gb as [Wb _]. unfold eqv in Ecb. rewrite value_eq_sym; auto.
      - destruct (Forall2_in_l _ _ _ _ F Hi) as (b' & Hb' & E'). assert (Gb' : good k b') by (rewrite Forall_forall in Gt'; auto).
        apply (good_trans k b b' a); auto. apply (good_eq_le k); auto. destruct Ga as [Wa _], Gb' as [Wb _]. unfold eqv in E'. rewrite value_eq_sym; auto. }
    assert (Eab : eqv a b) by (apply (good_antisym k); auto). constructor; auto.
    assert (Hi : In a (c :: s'')) by (eapply Permutation_in; [exact P|left; reflexivity]). destruct Hi as [->|Hi].
    + apply (IH s t'' s''); auto. eapply Permutation_cons_inv; exact P.
    + apply in_split in Hi. destruct Hi as (u & v & ->). apply (IH s t'' (u ++ c :: v)); auto.
      * apply (Permutation_cons_inv (a := a)). etransitivity; [exact P|]. etransitivity; [apply Permutation_middle|].
        change (u ++ c :: a :: v) with (u ++ [c; a] ++ v). etransitivity; [apply Permutation_app_head, Permutation_app_tail, perm_swap|]. cbn. 
        symmetry. etransitivity; [apply Permutation_middle|]. reflexivity.
      * apply Forall2_app_inv_l in F. destruct F as (t1 & t2 & F1 & F2 & ->). inversion F2 as [|? z ? t3 Eaz F3]; subst. apply Forall2_app; auto. constructor; auto.
        assert (Gz : good k z) by (rewrite Forall_forall in Gt'; apply Gt'; apply in_or_app; right; left; reflexivity).
        apply (good_value_eq_trans k c a z); auto. apply (good_value_eq_trans k c b a); auto. destruct Ga as [Wa _], Gb as [Wb _]. unfold eqv in *. rewrite value_eq_sym; auto.
Qed.
Lemma Forall2_refl {A} (R : A -> A -> Prop) l : (forall x, In x l -> R x x) -> Forall2 R l l.
Proof. induction l; intro H; constructor; [apply H; left; reflexivity|apply IHl; intros; apply H; right; auto]. Qed.
Lemma sorted_unique k s t : all_kind k s -> Permutation s t -> ascending s -> ascending t -> Forall2 eqv s t.
Proof.
  intros Hk P As At. assert (Gs := all_kind_forall _ _ Hk). assert (Gt : Forall (good k) t) by (eapply hok_perm; eassumption).
  eapply sorted_unique_gen; eauto. apply Forall2_refl. intros x Hx. rewrite Forall_forall in Gt. destruct (Gt x Hx). apply value_eq_refl; auto.
Qed.

(** ** extrema *)
Lemma min_ok k l : all_kind k l -> l <> [] -> exists l1 m l2, l = l1 ++ m :: l2 /\ builtin_min l = Ok m /\
  (forall y, In y l1 -> vlt m y = true) /\ (forall y, In y l2 -> vle m y = true).
Proof.
  intros Hk Hn. destruct l as [|x l]; [contradiction|]. unfold builtin_min, fold_first, non_empty. clear Hn. apply all_kind_forall in Hk.
  enough (G : forall l cur l1 l2, Forall (good k) (l1 ++ cur :: l2 ++ l) -> (forall y, In y l1 -> vlt cur y = true) -> (forall y, In y l2 -> vle cur y = true) ->
    exists m1 m m2, l1 ++ cur :: l2 ++ l = m1 ++ m :: m2 /\ fold_left (fun a b => match value_cmp a b with Gt => b | _ => a end) l cur = m /\
     (forall y, In y m1 -> vlt m y = true) /\ (forall y, In y m2 -> vle m y = true)).
  { destruct (G l x [] []) as (m1 & m & m2 & E & F & H1 & H2); auto; try (intros y []). exists m1, m, m2. rewrite F. auto. }
  clear x l Hk. induction l as [|x l IH]; intros cur l1 l2 Hg H1 H2; cbn [fold_left].
  - exists l1, cur, l2. rewrite app_nil_r in *. auto.
  - assert (Gc : good k cur /\ good k x /\ Forall (good k) l1 /\ Forall (good k) l2).
    { apply Forall_app in Hg. destruct Hg as [? Hg]. inversion Hg as [|? ? ? Hg']; subst. apply Forall_app in Hg'. destruct Hg' as [? Hg']. inversion Hg'; subst. auto. }
    destruct Gc as (Gc & Gx & G1 & G2). destruct (vle cur x) eqn:E.
    + replace (match value_cmp cur x with Gt => x | _ => cur end) with cur by (unfold vle in E; destruct (value_cmp cur x); congruence).
      specialize (IH cur l1 (l2 ++ [x])). rewrite <- app_assoc in IH. cbn [app] in IH. apply IH; auto.
      intros y Hy. apply in_app_or in Hy. destruct Hy as [Hy|[<-|[]]]; auto.
    + replace (match value_cmp cur x with Gt => x | _ => cur end) with x by (unfold vle in E; destruct (value_cmp cur x); congruence).
      specialize (IH x (l1 ++ cur :: l2) []). rewrite <- app_assoc in IH. cbn [app] in IH. apply IH; auto; try (intros y []; fail).
      assert (L : vle x cur = true) by (eapply good_total; eassumption).
      intros y Hy. rewrite Forall_forall in G1, G2. apply in_app_or in Hy. destruct Hy as [Hy|[<-|Hy]].
      * specialize (H1 y Hy). specialize (G1 y Hy). rewrite (good_lt k) in * by auto. destruct (vle y x) eqn:E2; auto. rewrite (good_trans k y x cur) in H1; auto.
      * rewrite (good_lt k), E by auto. reflexivity.
      * specialize (H2 y Hy). specialize (G2 y Hy). rewrite (good_lt k) by auto. destruct (vle y x) eqn:E2; auto. rewrite (good_trans k cur y x) in E; auto. 
Qed.
Lemma max_ok k l : all_kind k l -> l <> [] -> exists l1 m l2, l = l1 ++ m :: l2 /\ builtin_max l = Ok m /\
  (forall y, In y l1 -> vle y m = true) /\ (forall y, In y l2 -> vlt y m = true).
Proof.
  intros Hk Hn. destruct l as [|x l]; [contradiction|]. unfold builtin_max, fold_first, non_empty. clear Hn. apply all_kind_forall in Hk.
  enough (G : forall l cur l1 l2, Forall (good k) (l1 ++ cur :: l2 ++ l) -> (forall y, In y l1 -> vle y cur = true) -> (forall y, In y l2 -> vlt y cur = true) ->
    exists m1 m m2, l1 ++ cur :: l2 ++ l = m1 ++ m :: m2 /\ fold_left (fun a b => match value_cmp a b with Gt => a | _ => b end) l cur = m /\
     (forall y, In y m1 -> vle y m = true) /\ (forall y, In y m2 -> vlt y m = true)).
  { destruct (G l x [] []) as (m1 & m & m2 & E & F & H1 & H2); auto; try (intros y []). exists m1, m, m2. rewrite F. auto. }
  clear x l Hk. induction l as [|x l IH]; intros cur l1 l2 Hg H1 H2; cbn [fold_left].
  - exists l1, cur, l2. rewrite app_nil_r in *. auto.
  - assert (Gc : good k cur /\ good k x /\ Forall (good k) l1 /\ Forall (good k) l2).
    { apply Forall_app in Hg. destruct Hg as [? Hg]. inversion Hg as [|? ? ? Hg']; subst. apply Forall_app in Hg'. destruct Hg' as [? Hg']. inversion Hg'; subst. auto. }
    destruct Gc as (Gc & Gx & G1 & G2). destruct (vle cur x) eqn:E.
    + replace (match value_cmp cur x with Gt => cur | _ => x end) with x by (unfold vle in E; destruct (value_cmp cur x); congruence).
      specialize (IH x (l1 ++ cur :: l2) []). rewrite <- app_assoc in IH. cbn [app] in IH. apply IH; auto; try (intros y []; fail).
      intros y Hy. rewrite Forall_forall in G1, G2. apply in_app_or in Hy. destruct Hy as [Hy|[<-|Hy]]; auto.
      * apply (good_trans k y cur x); auto.
      * specialize (H2 y Hy). specialize (G2 y Hy). rewrite (good_lt k) in H2 by auto. apply (good_trans k y cur x); auto. apply (good_total k); auto. apply negb_true_iff. exact H2.
    + replace (match value_cmp cur x with Gt => cur | _ => x end) with cur by (unfold vle in E; destruct (value_cmp cur x); congruence).
      specialize (IH cur l1 (l2 ++ [x])). rewrite <- app_assoc in IH. cbn [app] in IH. apply IH; auto.
      intros y Hy. apply in_app_or in Hy. destruct Hy as [Hy|[<-|[]]]; auto. rewrite (good_lt k), E by auto. reflexivity.
Qed.
