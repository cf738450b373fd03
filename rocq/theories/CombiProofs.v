(** Proofs about Combi.v *)
From Verif Require Import Base Native Value Err Seq Combi CombiSpec.
From Coq Require Import Sorting.Sorted.
Local Open Scope nat_scope.

(** ** The lazy buffer *)
Lemma prefill_eq {V} n k : forall (f r : list V), k - length f <= n -> prefill n k (Buffer f r) = Buffer (f ++ firstn (k - length f) r) (skipn (k - length f) r).
Proof.
  induction n as [|n IH]; intros f r H; cbn [prefill].
  - replace (k - length f) with 0 by lia. simpl. now rewrite app_nil_r.
  - cbn [fetched]. destruct (Nat.ltb_spec (length f) k).
    + unfold get_next. cbn [rest fetched]. destruct r as [|x r].
      * now rewrite firstn_nil, skipn_nil, app_nil_r.
      * rewrite IH by (rewrite app_length; simpl; lia). rewrite app_length. simpl length. replace (k - length f) with (S (k - (length f + 1))) by lia.
        simpl. now rewrite <- app_assoc.
    + replace (k - length f) with 0 by lia. simpl. now rewrite app_nil_r.
Qed.
Lemma pick_ok {V} (b : buffer (V := V)) : forall p, Forall (fun i => i < length (fetched b)) p -> exists xs, pick b p = Some xs /\ elements_at (fetched b ++ rest b) xs p.
Proof.
  unfold elements_at. induction p as [|i p IH]; intro F; [exists []; auto|]. inversion F as [|? ? A B]; subst. destruct (IH B) as (xs & E & M).
  cbn [pick]. unfold at_. destruct (nth_error (fetched b) i) as [x|] eqn:X; [|apply nth_error_None in X; lia]. rewrite E. exists (x :: xs). split; [reflexivity|].
  simpl. rewrite M. f_equal. now rewrite nth_error_app1.
Qed.

(** ** Combinations *)
Fixpoint combs (k m lo : nat) : list (list nat) :=
  match k with
  | O => [[]]
  | S k' => (fix go m lo := match m with O => [] | S m => map (cons lo) (combs k' m (S lo)) ++ go m (S lo) end) m lo
  end.
Lemma combs_SS k m lo : combs (S k) (S m) lo = map (cons lo) (combs k m (S lo)) ++ combs (S k) m (S lo).
Proof. reflexivity. Qed.
Lemma combs_S0 k lo : combs (S k) 0 lo = []. Proof. reflexivity. Qed.
Lemma combs_short k : forall m lo, m < k -> combs k m lo = [].
Proof.
  induction k as [|k IHk]; [lia|]. induction m as [|m IHm]; intros lo H; [reflexivity|]. rewrite combs_SS, IHk, IHm by lia. reflexivity.
Qed.
Lemma combs_in k : forall m lo p, In p (combs k m lo) <-> length p = k /\ StronglySorted lt p /\ Forall (fun i => lo <= i < lo + m) p.
Proof.
  induction k as [|k IHk]; intros m lo p.
  - simpl. split.
    + intros [<-|[]]. repeat split; constructor.
    + intros (H & _). destruct p; [auto|discriminate].
  - revert lo. induction m as [|m IHm]; intro lo.
    + rewrite combs_S0. split; [intros []|]. intros (L & _ & F). destruct p; [discriminate|]. inversion F; subst; lia.
    + rewrite combs_SS, in_app_iff, in_map_iff, IHm. split.
      * intros [(q & <- & I)|(L & S & F)].
        -- apply IHk in I. destruct I as (L & S & F). split; [simpl; congruence|]. split.
           ++ constructor; [exact S|]. eapply Forall_impl; [|exact F]. simpl. intros; lia.
           ++ constructor; [lia|]. eapply Forall_impl; [|exact F]. simpl. intros; lia.
        -- split; [exact L|]. split; [exact S|]. eapply Forall_impl; [|exact F]. simpl. intros; lia.
      * intros (L & S & F). destruct p as [|x q]; [discriminate|]. inversion S as [|? ? S' G]; subst. inversion F as [|? ? Fx Fq]; subst.
        destruct (Nat.eq_dec x lo) as [->|N].
        -- left. exists q. split; [reflexivity|]. apply IHk. split; [simpl in L; congruence|]. split; [exact S'|].
           rewrite Forall_forall in *. intros i I. specialize (G i I). specialize (Fq i I). lia.
        -- right. split; [exact L|]. split; [exact S|]. constructor; [lia|]. rewrite Forall_forall in *. intros i I. specialize (G i I). specialize (Fq i I). lia.
Qed.
Lemma sorted_app {A} (R : A -> A -> Prop) a b : StronglySorted R a -> StronglySorted R b -> (forall x y, In x a -> In y b -> R x y) -> StronglySorted R (a ++ b).
Proof.
  induction 1 as [|x a S IH F]; intros Sb C; [exact Sb|]. simpl. constructor; [apply IH; auto; intros; apply C; simpl; auto|].
  apply Forall_app. split; [exact F|]. rewrite Forall_forall. intros y I. apply C; simpl; auto.
Qed.
Lemma sorted_cons_map x L : StronglySorted before L -> StronglySorted before (map (cons x) L).
Proof.
  induction 1 as [|p L S IH F]; [constructor|]. simpl. constructor; [exact IH|]. rewrite Forall_map. eapply Forall_impl; [|exact F]. simpl. auto.
Qed.
Lemma before_irrefl p : ~ before p p.
Proof. induction p as [|x p IH]; simpl; [auto|]. intros [H|[_ H]]; [lia|auto]. Qed.
Lemma sorted_nodup L : StronglySorted before L -> NoDup L.
Proof.
  induction 1 as [|p L S IH F]; [constructor|]. constructor; [|exact IH]. intro I. rewrite Forall_forall in F. exact (before_irrefl _ (F _ I)).
Qed.
Lemma combs_sorted k : forall m lo, StronglySorted before (combs k m lo).
Proof.
  induction k as [|k IHk]; [intros; repeat constructor|]. induction m as [|m IHm]; intro lo; [constructor|]. rewrite combs_SS.
  apply sorted_app; [apply sorted_cons_map, IHk|apply IHm|]. intros a b Ia Ib. apply in_map_iff in Ia. destruct Ia as (q & <- & _).
  apply combs_in in Ib. destruct Ib as (L & _ & F). destruct b as [|y b]; [discriminate|]. inversion F; subst. simpl. left. lia.
Qed.
Lemma combs_enumerates k n : enumerates (subset k n) (combs k n 0).
Proof.
  split; [|split; [apply sorted_nodup|]; apply combs_sorted]. intro p. rewrite combs_in. unfold subset.
  split; intros (A & B & F); (split; [exact A|]; split; [exact B|]); (eapply Forall_impl; [|exact F]); simpl; intros; lia.
Qed.
Lemma combs_head k : forall m lo, k <= m -> exists r, combs k m lo = seq lo k :: r.
Proof.
  induction k as [|k IHk]; intros m lo H; [simpl; eauto|]. destruct m as [|m]; [lia|]. rewrite combs_SS.
  destruct (IHk m (S lo) ltac:(lia)) as [r ->]. simpl. eauto.
Qed.

(** each is followed by its successor *)
Fixpoint linked {A B} (next : A -> B + A) (L : list A) (e : B) : Prop :=
  match L with [] => False | a :: r => match r with [] => next a = inl e | b :: _ => next a = inr b /\ linked next r e end end.
Lemma linked_app {A B} (next : A -> B + A) (f : A -> A) (g : A -> B + A) (e1 e : B) L M : linked g L e1 ->
  (forall a b, In a L -> g a = inr b -> next (f a) = inr (f b)) ->
  (forall a, In a L -> g a = inl e1 -> match M with [] => next (f a) = inl e | b :: _ => next (f a) = inr b end) ->
  (M <> [] -> linked next M e) -> linked next (map f L ++ M) e.
Proof.
  intros HL HS HE HM. induction L as [|a L IH]; [destruct HL|]. destruct L as [|b L].
  - cbn [map app linked] in *. specialize (HE a (or_introl eq_refl) HL). destruct M as [|m M]; [exact HE|]. split; [exact HE|]. apply HM. discriminate.
  - destruct HL as [Ha HL]. change (map f (a :: b :: L) ++ M) with (f a :: f b :: (map f L ++ M)). cbn [linked]. split; [apply HS; simpl; auto|].
    apply IH; [exact HL| |]; intros; [apply HS|apply HE]; simpl in *; tauto.
Qed.
Definition succ (N : nat) (p : list nat) : unit + list nat :=
  match scan N (length p) p (length p) with None => inl tt | Some i => inr (bump p i) end.
Lemma scan_cons N x r i : scan N (S (length r)) (x :: r) (S i) = match scan N (length r) r i with Some i => Some (S i) | None => if x =? N - S (length r) then None else Some 0 end.
Proof.
  induction i as [|i IH].
  - reflexivity.
  - change (scan N (S (length r)) (x :: r) (S (S i))) with (if nth i r 0 =? S i + N - S (length r) then scan N (S (length r)) (x :: r) (S i) else Some (S i)).
    change (scan N (length r) r (S i)) with (if nth i r 0 =? i + N - length r then scan N (length r) r i else Some i).
    replace (S i + N - S (length r)) with (i + N - length r) by lia. destruct (nth i r 0 =? i + N - length r); [exact IH|reflexivity].
Qed.
Lemma succ_cons N x r : succ N (x :: r) = match succ N r with inr r' => inr (x :: r') | inl _ => if x =? N - S (length r) then inl tt else inr (seq (S x) (S (length r))) end.
Proof.
  unfold succ. change (length (x :: r)) with (S (length r)). rewrite scan_cons. destruct (scan N (length r) r (length r)); [reflexivity|].
  destruct (x =? N - S (length r)); [reflexivity|]. reflexivity.
Qed.
Lemma combs_linked N k : forall m lo, lo + m = N -> k <= m -> linked (succ N) (combs k m lo) tt.
Proof.
  induction k as [|k IHk]; [intros; reflexivity|]. induction m as [|m IHm]; intros lo E H; [lia|]. rewrite combs_SS.
  assert (Len : forall a, In a (combs k m (S lo)) -> length a = k) by (intros a I; now apply combs_in in I).
  apply (linked_app (succ N) (cons lo) (succ N) tt tt).
  - apply IHk; lia.
  - intros a b I S. rewrite succ_cons, S. reflexivity.
  - intros a I S. rewrite succ_cons, S, (Len a I). destruct (Nat.eq_dec m k) as [->|Ne].
    + rewrite (combs_short (Datatypes.S k) k) by lia. replace (lo =? N - Datatypes.S k) with true by (symmetry; apply Nat.eqb_eq; lia). reflexivity.
    + destruct (combs_head (Datatypes.S k) m (Datatypes.S lo) ltac:(lia)) as [r ->]. replace (lo =? N - Datatypes.S k) with false by (symmetry; apply Nat.eqb_neq; lia). reflexivity.
  - intro Ne. apply IHm; [lia|]. destruct (Nat.le_gt_cases (S k) m); [auto|]. exfalso. apply Ne. apply combs_short. lia.
Qed.
(** the iterator with its lazy buffer *)
Lemma scan_top len k ind : 0 < k -> scan len k ind k = if nth (k - 1) ind 0 =? (k - 1) + len - k then scan len k ind (k - 1) else Some (k - 1).
Proof. destruct k; [lia|]. intros _. cbn [scan]. simpl (S k - 1). now rewrite Nat.sub_0_r. Qed.
Lemma sorted_last p : StronglySorted lt p -> forall i, i < length p -> nth i p 0 <= nth (length p - 1) p 0.
Proof.
  induction 1 as [|x p Hs IH F]; intros i H; [simpl in H; lia|]. rewrite Forall_forall in F.
  destruct p as [|y p]; [destruct i; simpl in *; lia|]. replace (nth (length (x :: y :: p) - 1) (x :: y :: p) 0) with (nth (length (y :: p) - 1) (y :: p) 0) by (simpl; now rewrite Nat.sub_0_r).
  destruct i as [|i].
  - change (nth 0 (x :: y :: p) 0) with x. assert (x < nth (length (y :: p) - 1) (y :: p) 0) by (apply F, nth_In; simpl; lia). lia.
  - change (nth (S i) (x :: y :: p) 0) with (nth i (y :: p) 0). apply IH. simpl in *. lia.
Qed.
Lemma nth_firstn {A} (d : A) n : forall l t, t < n -> nth t (firstn n l) d = nth t l d.
Proof. induction n as [|n IH]; intros l t H; [lia|]. destruct l as [|x l]; [reflexivity|]. destruct t; [reflexivity|]. simpl. apply IH. lia. Qed.
Lemma bump_last ind : 0 < length ind -> bump ind (length ind - 1) = firstn (length ind - 1) ind ++ [S (nth (length ind - 1) ind 0)].
Proof. intro H. unfold bump. replace (length ind - (length ind - 1)) with 1 by lia. reflexivity. Qed.
Lemma collect_from {V} (l : list V) k L : forall p f r, 0 < k -> f ++ r = l -> linked (succ (length l)) (p :: L) tt -> Forall (subset k (length l)) (p :: L) ->
  Forall (fun i => i < length f) p ->
  exists res, (forall n, length L < n -> combinations_collect n (Combinations p (Buffer f r) false) = Some res) /\ Forall2 (elements_at l) res L.
Proof.
  induction L as [|q L IH]; intros p f r K E LK FS B.
  - exists []. split; [|constructor]. intros n H. destruct n as [|n]; [lia|]. cbn [combinations_collect]. unfold combinations_next. cbn [c_indices c_first c_pool fetched].
    pose proof (Forall_inv FS) as (Lp & Sp & Bp). rewrite Lp. destruct k as [|i]; [lia|]. cbv zeta.
    cbn [linked] in LK. unfold succ in LK. rewrite Lp in LK. destruct (scan (length l) (S i) p (S i)) eqn:Sc; [discriminate|].
    assert (Top : nth i p 0 = length l - 1).
    { rewrite scan_top in Sc by lia. simpl (S i - 1) in Sc. rewrite Nat.sub_0_r in Sc. destruct (Nat.eqb_spec (nth i p 0) (i + length l - S i)); [lia|discriminate]. }
    assert (Li : nth i p 0 < length f) by (rewrite Forall_forall in B; apply B, nth_In; lia).
    assert (Lf : length f + length r = length l) by (rewrite <- E, app_length; reflexivity).
    assert (Er : r = []) by (destruct r; [reflexivity|simpl in Lf; lia]). subst r. simpl in Lf.
    replace (if nth i p 0 =? length f - 1 then snd (get_next (Buffer f [])) else Buffer f []) with (@Buffer V f []) by (destruct (_ =? _); reflexivity).
    cbn [fetched]. replace (length f) with (length l) by lia. now rewrite Sc.
  - destruct LK as [Hn LK]. pose proof (Forall_inv FS) as (Lp & Sp & Bp). pose proof (Forall_inv_tail FS) as FS'. pose proof (Forall_inv FS') as (Lq & Sq & Bq).
    unfold succ in Hn. rewrite Lp in Hn. destruct (scan (length l) k p k) as [j|] eqn:Sc; [|discriminate]. injection Hn as Hq.
    assert (Lf : length f + length r = length l) by (rewrite <- E, app_length; reflexivity).
    set (i := k - 1). assert (Li : nth i p 0 < length f) by (rewrite Forall_forall in B; apply B, nth_In; lia).
    set (b := if nth i p 0 =? length f - 1 then snd (get_next (Buffer f r)) else Buffer f r).
    assert (X : exists f' r', b = Buffer f' r' /\ f' ++ r' = l /\ scan (length f') k p k = Some j /\ Forall (fun i => i < length f') q).
    { assert (Last : forall len, length l >= len -> nth i p 0 <> len - 1 -> len >= length f -> nth i p 0 < len - 1 /\ scan len k p k = Some i).
      { intros len A N G. split; [lia|]. rewrite scan_top by lia. fold i. destruct (Nat.eqb_spec (nth i p 0) (i + len - k)); [lia|reflexivity]. }
      assert (Sub : forall len, nth i p 0 < len - 1 -> j = i -> Forall (fun z => z < len) q).
      { intros len A Ej. rewrite <- Hq, Ej. unfold i. rewrite <- Lp. rewrite bump_last by lia. apply Forall_app. split.
        - rewrite Forall_forall. intros z I. apply (In_nth _ _ 0) in I. destruct I as (t & T & <-). rewrite firstn_length in T.
          rewrite nth_firstn by lia.
          pose proof (sorted_last p Sp t ltac:(lia)). unfold i in A. rewrite <- Lp in A. lia.
        - constructor; [|constructor]. unfold i in A. rewrite <- Lp in A. lia. }
      unfold b. destruct (Nat.eqb_spec (nth i p 0) (length f - 1)) as [Eq|Ne].
      - unfold get_next. cbn [rest fetched snd]. destruct r as [|x r]; cbn [snd].
        + exists f, []. rewrite app_nil_r in E. subst f. rewrite app_nil_r. split; [reflexivity|]. split; [reflexivity|]. split; [exact Sc|exact Bq].
        + exists (f ++ [x]), r. split; [reflexivity|]. split; [rewrite <- app_assoc; exact E|].
          assert (Lx : length (f ++ [x]) = S (length f)) by (rewrite app_length; simpl; lia). simpl in Lf.
          destruct (Last (length (f ++ [x])) ltac:(lia) ltac:(lia) ltac:(lia)) as [A1 A2]. destruct (Last (length l) ltac:(lia) ltac:(lia) ltac:(lia)) as [_ A3].
          assert (j = i) as Ej by congruence. split; [rewrite Ej; exact A2|]. apply Sub; auto.
      - exists f, r. split; [reflexivity|]. split; [exact E|]. destruct (Last (length f) ltac:(lia) ltac:(lia) ltac:(lia)) as [A1 A2].
        destruct (Last (length l) ltac:(lia) ltac:(lia) ltac:(lia)) as [_ A3]. assert (j = i) as Ej by congruence. split; [rewrite Ej; exact A2|]. apply Sub; auto. }
    destruct X as (f' & r' & Eb & El & Sc' & Bq').
    destruct (IH q f' r' K El LK FS' Bq') as (res & C & F2).
    destruct (pick_ok (Buffer f' r') q Bq') as (xs & Px & Ex). cbn [fetched rest] in Ex. rewrite El in Ex.
    exists (xs :: res). split; [|constructor; auto]. intros n H. simpl in H. destruct n as [|n]; [lia|]. cbn [combinations_collect]. unfold combinations_next. cbn [c_indices c_first c_pool fetched].
    rewrite Lp. destruct k as [|k']; [lia|]. cbv zeta. replace k' with i by (unfold i; lia). fold b. replace (S i) with (S k') by (unfold i; lia). rewrite Eb. cbn [fetched]. rewrite Sc', Hq. cbn [c_pool]. rewrite Px, C by lia. reflexivity.
Qed.
Lemma combinations_ok {V} (l : list V) k : 0 < k -> exists res, (forall n, length (combs k (length l) 0) < n -> combinations_collect n (combinations_new l k) = Some res) /\ Forall2 (elements_at l) res (combs k (length l) 0).
Proof.
  intro K. unfold combinations_new. rewrite prefill_eq by (simpl; lia). cbn [length app]. rewrite Nat.sub_0_r.
  destruct (Nat.le_gt_cases k (length l)) as [Le|Gt].
  - destruct (combs_head k (length l) 0 Le) as [r Er]. pose proof (combs_linked (length l) k (length l) 0 eq_refl Le) as LK. rewrite Er in *.
    assert (Fl : length (firstn k l) = k) by (rewrite firstn_length; lia).
    assert (FS : Forall (subset k (length l)) (seq 0 k :: r)).
    { rewrite <- Er, Forall_forall. intros p I. now apply (proj1 (combs_enumerates k (length l))). }
    assert (B : Forall (fun i => i < length (firstn k l)) (seq 0 k)) by (rewrite Forall_forall, Fl; intros i I; apply in_seq in I; lia).
    destruct (collect_from l k r (seq 0 k) (firstn k l) (skipn k l) K (firstn_skipn k l) LK FS B) as (res & C & F2).
    destruct (pick_ok (Buffer (firstn k l) (skipn k l)) (seq 0 k) B) as (xs & Px & Ex). cbn [fetched rest] in Ex. rewrite firstn_skipn in Ex.
    exists (xs :: res). split; [|constructor; auto]. intros n H. simpl in H. destruct n as [|n]; [lia|]. cbn [combinations_collect]. unfold combinations_next. cbn [c_indices c_first c_pool fetched].
    rewrite seq_length, Fl, Nat.ltb_irrefl. cbn [c_pool]. rewrite Px, C by lia. reflexivity.
  - rewrite combs_short by lia. exists []. split; [|constructor]. intros n H. destruct n as [|n]; [simpl in H; lia|]. cbn [combinations_collect]. unfold combinations_next. cbn [c_indices c_first c_pool fetched].
    rewrite seq_length, firstn_length. replace (Nat.min k (length l) <? k) with true by (symmetry; apply Nat.ltb_lt; lia). reflexivity.
Qed.

(** ** Permutations *)
Fixpoint arrs (k : nat) (pool : list nat) : list (list nat) :=
  match k with
  | O => [[]]
  | S k => flat_map (fun j => map (cons (nth j pool 0)) (arrs k (remove_at j pool))) (seq 0 (length pool))
  end.
Lemma remove_length {A} (l : list A) j : j < length l -> length (remove_at j l) = length l - 1.
Proof. intro H. unfold remove_at. rewrite app_length, firstn_length, skipn_length. lia. Qed.
Lemma remove_in (l : list nat) j x : NoDup l -> j < length l -> (In x (remove_at j l) <-> In x l /\ x <> nth j l 0).
Proof.
  intros N H. unfold remove_at. assert (E : l = firstn j l ++ nth j l 0 :: skipn (S j) l).
  { clear N. revert j H. induction l as [|y l IH]; intros j H; [simpl in H; lia|]. destruct j; [reflexivity|]. cbn [firstn skipn nth app]. f_equal. apply IH. simpl in H. lia. }
  set (y := nth j l 0) in *. set (a := firstn j l) in *. set (b := skipn (S j) l) in *. clearbody y a b. subst l.
  apply NoDup_remove in N. destruct N as [_ N]. rewrite !in_app_iff in *. simpl. split.
  - intro I. split; [tauto|]. intros ->. tauto.
  - intros [[I|[I|I]] Q]; auto. congruence.
Qed.
Lemma skipn_S_in {A} (x : A) j : forall l, In x (skipn (S j) l) -> In x (skipn j l).
Proof. induction j as [|j IH]; intros [|y l] H; simpl in *; auto. Qed.
Lemma remove_nodup (l : list nat) j : NoDup l -> NoDup (remove_at j l).
Proof.
  intro N. unfold remove_at. revert j. induction N as [|x l I N IH]; intro j; [destruct j; constructor|]. destruct j; [exact N|]. cbn [firstn skipn app].
  constructor; [|apply IH]. intro Q. apply I. apply in_app_iff in Q. rewrite <- (firstn_skipn j l). rewrite in_app_iff. destruct Q as [Q|Q]; [auto|]. right. now apply skipn_S_in.
Qed.

Lemma arrs_in k : forall pool p, NoDup pool -> (In p (arrs k pool) <-> length p = k /\ NoDup p /\ Forall (fun x => In x pool) p).
Proof.
  induction k as [|k IH]; intros pool p N; cbn [arrs].
  - split; [intros [<-|[]]; repeat split; constructor|]. intros (H & _). destruct p; [simpl; auto|discriminate].
  - rewrite in_flat_map. split.
    + intros (j & J & I). apply in_seq in J. apply in_map_iff in I. destruct I as (q & <- & I). apply IH in I; [|now apply remove_nodup]. destruct I as (L & D & F).
      rewrite Forall_forall in F. split; [simpl; congruence|]. split.
      * constructor; [|exact D]. intro Q. specialize (F _ Q). apply remove_in in F; [|exact N|lia]. now destruct F.
      * constructor; [apply nth_In; lia|]. rewrite Forall_forall. intros x Q. specialize (F _ Q). apply remove_in in F; [|exact N|lia]. now destruct F.
    + intros (L & D & F). destruct p as [|x q]; [discriminate|]. inversion D as [|? ? Nx D']; subst. inversion F as [|? ? Fx Fq]; subst.
      apply (In_nth _ _ 0) in Fx. destruct Fx as (j & J & <-). exists j. split; [apply in_seq; lia|]. apply in_map. apply IH; [now apply remove_nodup|].
      split; [simpl in L; congruence|]. split; [exact D'|]. rewrite Forall_forall in *. intros y Q. apply remove_in; [exact N|exact J|]. split; [auto|]. intros ->. auto.
Qed.
Lemma remove_sorted (l : list nat) : StronglySorted lt l -> forall j, StronglySorted lt (remove_at j l).
Proof.
  induction 1 as [|x l S IH F]; intro j; [destruct j; constructor|]. destruct j; [exact S|]. unfold remove_at in *. cbn [firstn skipn app]. constructor; [apply IH|].
  rewrite Forall_forall in *. intros y I. apply F. rewrite <- (firstn_skipn j l). apply in_app_iff. apply in_app_iff in I. destruct I as [I|I]; [auto|]. right. now apply skipn_S_in.
Qed.
Lemma sorted_nth (l : list nat) : StronglySorted lt l -> forall i j, i < j -> j < length l -> nth i l 0 < nth j l 0.
Proof.
  induction 1 as [|x l S IH F]; intros i j H L; [simpl in L; lia|]. rewrite Forall_forall in F. destruct j as [|j]; [lia|]. simpl in L. destruct i as [|i]; simpl.
  - apply F, nth_In. lia.
  - apply IH; lia.
Qed.
Lemma arrs_sorted k : forall pool, StronglySorted lt pool -> StronglySorted before (arrs k pool).
Proof.
  induction k as [|k IH]; intros pool S; cbn [arrs]; [repeat constructor|].
  enough (X : forall m a, a + m = length pool -> StronglySorted before (flat_map (fun j => map (cons (nth j pool 0)) (arrs k (remove_at j pool))) (seq a m))) by (apply X; reflexivity).
  induction m as [|m IHm]; intros a E; [constructor|]. cbn [seq flat_map]. apply sorted_app.
  - apply sorted_cons_map, IH, remove_sorted, S.
  - apply IHm. lia.
  - intros p q Ip Iq. apply in_map_iff in Ip. destruct Ip as (p' & <- & _). apply in_flat_map in Iq. destruct Iq as (j & J & Iq). apply in_seq in J. apply in_map_iff in Iq. destruct Iq as (q' & <- & _).
    left. apply sorted_nth; auto; lia.
Qed.
Lemma seq_sorted n : forall a, StronglySorted lt (seq a n).
Proof. induction n as [|n IH]; intro a; [constructor|]. simpl. constructor; [apply IH|]. rewrite Forall_forall. intros x I. apply in_seq in I. lia. Qed.
Lemma arrs_enumerates k n : enumerates (arrangement k n) (arrs k (seq 0 n)).
Proof.
  pose proof (arrs_sorted k (seq 0 n) (seq_sorted n 0)) as S. split; [|split; [now apply sorted_nodup|exact S]].
  intro p. rewrite arrs_in by apply seq_NoDup. unfold arrangement. split; intros (A & B & F); (split; [exact A|]; split; [exact B|]); (eapply Forall_impl; [|exact F]); simpl; intros x H.
  - apply in_seq in H. lia.
  - apply in_seq. lia.
Qed.

(** advancing, with the indices kept *)
Fixpoint adv (i : nat) (indices cycles : list nat) : bool * (list nat * list nat) :=
  match i with
  | O => (false, (indices, cycles))
  | S i =>
      if nth i cycles 0 =? 0
      then adv i (remove_at i indices ++ [nth i indices 0]) (update cycles i (length indices - i - 1))
      else (true, (swap_at i (length indices - nth i cycles 0) indices, update cycles i (nth i cycles 0 - 1)))
  end.
Lemma update_length {A} (l : list A) : forall i x, length (update l i x) = length l.
Proof. induction l as [|y l IH]; intros [|i] x; simpl; auto. Qed.
Lemma rotate_length (l : list nat) i : i < length l -> length (remove_at i l ++ [nth i l 0]) = length l.
Proof. intro H. rewrite app_length, remove_length by auto. simpl. lia. Qed.
Lemma advance_adv i : forall ind cyc, i <= length ind -> advance_from i ind cyc = let '(d, (a, b)) := adv i ind cyc in if d then Ongoing a b else Start (length ind) (length cyc).
Proof.
  induction i as [|i IH]; intros ind cyc H; [reflexivity|]. cbn [advance_from adv]. destruct (nth i cyc 0 =? 0); [|reflexivity].
  rewrite IH by (rewrite rotate_length; lia). rewrite rotate_length, update_length by lia. reflexivity.
Qed.
Lemma update_forall L y (Hy : y <= L) cs : forall i, Forall (fun c => c <= L) cs -> Forall (fun c => c <= L) (update cs i y).
Proof. induction cs as [|c cs IH]; intros i F; [destruct i; constructor|]. inversion F; subst. destruct i; simpl; constructor; auto. Qed.
Lemma adv_cons i : forall x rest c cs, i <= length cs -> length cs <= length rest -> Forall (fun c => c <= length rest) cs ->
  adv (S i) (x :: rest) (c :: cs) = let '(d, (r, cs')) := adv i rest cs in
    if d then (true, (x :: r, c :: cs'))
    else if c =? 0 then (false, (r ++ [x], length rest :: cs')) else (true, (swap_at 0 (S (length rest) - c) (x :: r), (c - 1) :: cs')).
Proof.
  induction i as [|i IH]; intros x rest c cs A B F.
  - cbn [adv nth]. destruct (c =? 0); [|reflexivity]. unfold remove_at. cbn [firstn skipn app length update nth]. repeat f_equal. lia.
  - change (adv (S (S i)) (x :: rest) (c :: cs)) with
      (if nth i cs 0 =? 0 then adv (S i) (remove_at (S i) (x :: rest) ++ [nth i rest 0]) (c :: update cs i (length (x :: rest) - S i - 1))
       else (true, (swap_at (S i) (length (x :: rest) - nth i cs 0) (x :: rest), c :: update cs i (nth i cs 0 - 1)))).
    change (adv (S i) rest cs) with (if nth i cs 0 =? 0 then adv i (remove_at i rest ++ [nth i rest 0]) (update cs i (length rest - i - 1))
       else (true, (swap_at i (length rest - nth i cs 0) rest, update cs i (nth i cs 0 - 1)))).
    destruct (nth i cs 0 =? 0) eqn:Z.
    + change (remove_at (S i) (x :: rest) ++ [nth i rest 0]) with (x :: (remove_at i rest ++ [nth i rest 0])).
      rewrite IH.
      * rewrite rotate_length by lia. replace (length (x :: rest) - S i - 1) with (length rest - i - 1) by (simpl; lia). reflexivity.
      * rewrite update_length. lia.
      * rewrite rotate_length, update_length by lia. lia.
      * rewrite rotate_length by lia. apply update_forall; [simpl; lia|exact F].
    + assert (Hc : nth i cs 0 <= length rest) by (rewrite Forall_forall in F; apply F, nth_In; lia).
      replace (length (x :: rest) - nth i cs 0) with (S (length rest - nth i cs 0)) by (cbn [length]; lia). reflexivity.
Qed.

Fixpoint init (k n : nat) : list nat := match k with O => [] | S k => (n - 1) :: init k (n - 1) end.
Lemma init_rev k : forall n, k <= n -> init k n = rev (seq (n - k) k).
Proof.
  induction k as [|k IH]; intros n H; [reflexivity|]. rewrite seq_S, rev_app_distr. cbn [init rev app]. f_equal; [lia|]. rewrite IH by lia. do 2 f_equal. lia.
Qed.
Fixpoint states (k : nat) (pool : list nat) : list (list nat * list nat) :=
  match k with
  | O => [(pool, [])]
  | S k => flat_map (fun j => map (fun s => (nth j pool 0 :: fst s, (length pool - 1 - j) :: snd s)) (states k (remove_at j pool))) (seq 0 (length pool))
  end.
Definition out (s : list nat * list nat) := firstn (length (snd s)) (fst s).
Definition nxt (s : list nat * list nat) : (list nat * list nat) + (list nat * list nat) :=
  let '(d, r) := adv (length (snd s)) (fst s) (snd s) in if d then inr r else inl r.
Lemma states_out k : forall pool, map out (states k pool) = arrs k pool.
Proof.
  induction k as [|k IH]; intro pool; [reflexivity|]. cbn [states arrs]. generalize (seq 0 (length pool)) as js. intro js.
  induction js as [|j js IHj]; [reflexivity|]. cbn [flat_map]. rewrite map_app, IHj. f_equal. rewrite <- IH, !map_map. reflexivity.
Qed.
Definition good (k n : nat) (s : list nat * list nat) : Prop := length (fst s) = n /\ length (snd s) = k /\ Forall (fun c => c <= n) (snd s).
Lemma states_good k : forall pool, k <= length pool -> Forall (good k (length pool)) (states k pool).
Proof.
  induction k as [|k IH]; intros pool H; [repeat constructor|]. rewrite Forall_forall. intros s I. cbn [states] in I. apply in_flat_map in I. destruct I as (j & J & I). apply in_seq in J.
  apply in_map_iff in I. destruct I as (t & <- & I). specialize (IH (remove_at j pool)). rewrite remove_length in IH by lia. specialize (IH ltac:(lia)). rewrite Forall_forall in IH.
  destruct (IH _ I) as (A & B & C). unfold good. cbn [fst snd length]. split; [lia|]. split; [lia|]. constructor; [lia|]. eapply Forall_impl; [|exact C]. simpl. intros; lia.
Qed.
Lemma states_head k : forall pool, k <= length pool -> exists r, states k pool = (pool, init k (length pool)) :: r.
Proof.
  induction k as [|k IH]; intros pool H; [simpl; eauto|]. destruct pool as [|x pool]; [simpl in H; lia|]. cbn [states]. simpl (seq 0 _). cbn [flat_map].
  change (remove_at 0 (x :: pool)) with pool. destruct (IH pool ltac:(simpl in H; lia)) as [r ->]. cbn [map fst snd app nth length init].
  replace (S (length pool) - 1 - 0) with (length pool) by lia. replace (S (length pool) - 1) with (length pool) by lia. eauto.
Qed.
Lemma nxt_cons x c s n k : good k n s -> k <= n ->
  nxt (x :: fst s, c :: snd s) = match nxt s with
    | inr s => inr (x :: fst s, c :: snd s)
    | inl s => if c =? 0 then inl (fst s ++ [x], n :: snd s) else inr (swap_at 0 (S n - c) (x :: fst s), (c - 1) :: snd s)
    end.
Proof.
  intros (A & B & C) H. unfold nxt. cbn [fst snd length]. rewrite adv_cons by (rewrite ?A; auto; lia).
  destruct (adv (length (snd s)) (fst s) (snd s)) as [d [r cs]]. destruct d; [reflexivity|]. rewrite A. cbn [fst snd]. destruct (c =? 0); reflexivity.
Qed.
Lemma swap_next pool a : S a < length pool -> swap_at 0 (S a) (nth a pool 0 :: remove_at a pool) = nth (S a) pool 0 :: remove_at (S a) pool.
Proof.
  intro H. unfold swap_at. cbn [nth update]. unfold remove_at.
  assert (E : exists u x y v, pool = u ++ x :: y :: v /\ length u = a).
  { clear - H. revert pool H. induction a as [|a IH]; intros pool H.
    - destruct pool as [|x [|y v]]; simpl in H; try lia. exists [], x, y, v. auto.
    - destruct pool as [|z pool]; simpl in H; [lia|]. destruct (IH pool ltac:(lia)) as (u & x & y & v & -> & L). exists (z :: u), x, y, v. simpl. auto. }
  destruct E as (u & x & y & v & -> & L). clear H.
  assert (E1 : firstn a (u ++ x :: y :: v) = u) by (rewrite firstn_app, firstn_all2 by lia; replace (a - length u) with 0 by lia; simpl; now rewrite app_nil_r).
  assert (E2 : skipn (S a) (u ++ x :: y :: v) = y :: v) by (rewrite skipn_app, skipn_all2 by lia; replace (S a - length u) with 1 by lia; reflexivity).
  assert (E3 : firstn (S a) (u ++ x :: y :: v) = u ++ [x]) by (rewrite firstn_app, firstn_all2 by lia; replace (S a - length u) with 1 by lia; reflexivity).
  assert (E4 : skipn (S (S a)) (u ++ x :: y :: v) = v) by (rewrite skipn_app, skipn_all2 by lia; replace (S (S a) - length u) with 2 by lia; reflexivity).
  assert (E5 : nth (S a) (u ++ x :: y :: v) 0 = y) by (rewrite app_nth2 by lia; replace (S a - length u) with 1 by lia; reflexivity).
  assert (E6 : nth a (u ++ x :: y :: v) 0 = x) by (rewrite app_nth2 by lia; replace (a - length u) with 0 by lia; reflexivity).
  rewrite E1, E2, E3, E4, E5, E6. rewrite <- L, app_nth2, Nat.sub_diag by lia. cbn [nth]. f_equal.
  clear. induction u as [|z u IH]; simpl; [reflexivity|]. now rewrite IH.
Qed.
Lemma remove_last pool : 0 < length pool -> remove_at (length pool - 1) pool ++ [nth (length pool - 1) pool 0] = pool.
Proof.
  intro H. unfold remove_at. rewrite (skipn_all2 (n := S (length pool - 1))) by lia. rewrite app_nil_r.
  destruct (exists_last (l := pool)) as (u & x & ->); [intros ->; simpl in H; lia|]. rewrite app_length. simpl length. replace (length u + 1 - 1) with (length u) by lia.
  rewrite firstn_app, Nat.sub_diag, firstn_all, app_nth2, Nat.sub_diag by lia. simpl. now rewrite app_nil_r.
Qed.
Lemma states_linked k : forall pool, k <= length pool -> linked nxt (states k pool) (pool, init k (length pool)).
Proof.
  induction k as [|k IH]; intros pool H; [reflexivity|]. cbn [states].
  enough (X : forall m a, a + m = length pool -> 0 < m -> linked nxt (flat_map (fun j => map (fun s => (nth j pool 0 :: fst s, (length pool - 1 - j) :: snd s)) (states k (remove_at j pool))) (seq a m)) (pool, init (S k) (length pool)))
    by (apply X; lia).
  induction m as [|m IHm]; intros a E M; [lia|]. cbn [seq flat_map].
  assert (Lr : length (remove_at a pool) = length pool - 1) by (apply remove_length; lia).
  pose proof (states_good k (remove_at a pool) ltac:(lia)) as G. rewrite Lr in G. rewrite Forall_forall in G.
  apply (linked_app nxt _ nxt (remove_at a pool, init k (length pool - 1))).
  - rewrite <- Lr. apply IH. lia.
  - intros s t I Hs. rewrite (nxt_cons _ _ _ _ _ (G _ I)) by lia. now rewrite Hs.
  - intros s I Hs. rewrite (nxt_cons _ _ _ _ _ (G _ I)) by lia. rewrite Hs. cbn [fst snd]. destruct m as [|m].
    + cbn [seq flat_map]. replace (length pool - 1 - a =? 0) with true by (symmetry; apply Nat.eqb_eq; lia). replace a with (length pool - 1) by lia. rewrite remove_last by lia. reflexivity.
    + cbn [seq flat_map]. assert (Lq : length (remove_at (S a) pool) = length pool - 1) by (apply remove_length; lia).
      destruct (states_head k (remove_at (S a) pool) ltac:(lia)) as [r ->]. cbn [map fst snd app]. rewrite Lq.
      replace (length pool - 1 - a =? 0) with false by (symmetry; apply Nat.eqb_neq; lia).
      replace (S (length pool - 1) - (length pool - 1 - a)) with (S a) by lia. rewrite swap_next by lia. do 3 f_equal. lia.
  - intro Ne. destruct m as [|m]; [now destruct Ne|]. apply IHm; lia.
Qed.

(** the states of CompleteState *)
Definition cur (n k : nat) (L : list (list nat * list nat)) : complete := match L with [] => Start n k | s :: _ => Ongoing (fst s) (snd s) end.
Lemma linked_tail {A B} (next : A -> B + A) (a : A) L e : linked next (a :: L) e -> L <> [] -> linked next L e.
Proof. destruct L; [congruence|]. intros [_ H] _. exact H. Qed.
Lemma cur_step n k s L e : k <= n -> good k n s -> linked nxt (s :: L) e -> complete_advance (Ongoing (fst s) (snd s)) = cur n k L.
Proof.
  intros H (A & B & C) K. cbn [complete_advance]. rewrite advance_adv by lia. unfold nxt in K.
  destruct (adv (length (snd s)) (fst s) (snd s)) as [d [x y]] eqn:Ea.
  cbn [linked] in K. destruct L as [|t L].
  - unfold nxt in K. rewrite Ea in K. destruct d; [discriminate|]. cbn [cur]. congruence.
  - destruct K as [K _]. unfold nxt in K. rewrite Ea in K. destruct d; [|discriminate]. injection K as <-. reflexivity.
Qed.
Lemma cur_steps n k e m : k <= n -> forall L, m <= length L -> Forall (good k n) L -> (L <> [] -> linked nxt L e) -> complete_advances m (cur n k L) = cur n k (skipn m L).
Proof.
  intro H. induction m as [|m IH]; intros L Lm G K; [reflexivity|]. destruct L as [|s L]; [simpl in Lm; lia|]. cbn [complete_advances skipn cur].
  rewrite (cur_step n k s L e H (Forall_inv G)) by (apply K; discriminate). apply IH; [simpl in Lm; lia|exact (Forall_inv_tail G)|].
  intro Ne. apply (linked_tail nxt s); [apply K; discriminate|exact Ne].
Qed.
Lemma out_good n k s : good k n s -> k <= n -> length (out s) = k.
Proof. intros (A & B & C) H. unfold out. rewrite firstn_length. lia. Qed.
Lemma collect_complete {V} (l : list V) n k e : k <= n -> forall L c, Forall (good k n) L -> (L <> [] -> linked nxt L e) -> Forall (fun s => Forall (fun i => i < length l) (out s)) L ->
  complete_advance c = cur n k L ->
  exists res, (forall m, length L < m -> permutations_collect m (Permutations (Buffer l []) (Complete c)) = Some res) /\ Forall2 (elements_at l) res (map out L).
Proof.
  intro H. induction L as [|s L IH]; intros c G K B E.
  - exists []. split; [|constructor]. intros m Hm. destruct m as [|m]; [lia|]. cbn [permutations_collect]. unfold permutations_next, permutations_advance. cbn [p_state p_vals]. rewrite E. reflexivity.
  - destruct (IH (Ongoing (fst s) (snd s)) (Forall_inv_tail G)) as (res & C & F).
    + intro Ne. apply (linked_tail nxt s); [apply K; discriminate|exact Ne].
    + exact (Forall_inv_tail B).
    + apply (cur_step n k s L e H (Forall_inv G)). apply K. discriminate.
    + destruct (pick_ok (Buffer l []) (out s) (Forall_inv B)) as (xs & Px & Ex). cbn [fetched rest] in Ex. rewrite app_nil_r in Ex.
      exists (xs :: res). split; [|constructor; auto]. intros m Hm. simpl in Hm. destruct m as [|m]; [lia|]. cbn [permutations_collect]. unfold permutations_next, permutations_advance. cbn [p_state p_vals].
      rewrite E. cbn [cur]. cbn [p_state p_vals]. fold (out s). rewrite Px, C by lia. reflexivity.
Qed.

(** the results of the phase in which the number of elements is not known yet *)
Lemma arrs_first k : forall pool, S k <= length pool ->
  firstn (length pool - k) (arrs (S k) pool) = map (fun j => firstn k pool ++ [nth j pool 0]) (seq k (length pool - k)).
Proof.
  induction k as [|k IH]; intros pool H.
  - cbn [arrs]. rewrite Nat.sub_0_r. assert (E : flat_map (fun j => map (cons (nth j pool 0)) [[]]) (seq 0 (length pool)) = map (fun j => [nth j pool 0]) (seq 0 (length pool))).
    { generalize (seq 0 (length pool)) as js. induction js as [|j js IHj]; [reflexivity|]. cbn [flat_map map app] in *. now rewrite IHj. }
    rewrite E. rewrite firstn_all2 by (rewrite map_length, seq_length; lia). reflexivity.
  - destruct pool as [|x pool]; [simpl in H; lia|]. simpl in H. change (arrs (S (S k)) (x :: pool)) with (flat_map (fun j => map (cons (nth j (x :: pool) 0)) (arrs (S k) (remove_at j (x :: pool)))) (seq 0 (S (length pool)))).
    cbn [seq flat_map]. change (remove_at 0 (x :: pool)) with pool. change (nth 0 (x :: pool) 0) with x. change (length (x :: pool) - S k) with (length pool - k).
    specialize (IH pool ltac:(lia)). assert (Ln : length pool - k <= length (arrs (S k) pool)).
    { pose proof (f_equal (@length _) IH) as Q. rewrite firstn_length, map_length, seq_length in Q. lia. }
    rewrite firstn_app, map_length. replace (length pool - k - length (arrs (S k) pool)) with 0 by lia. rewrite firstn_O, app_nil_r, firstn_map, IH, map_map.
    rewrite <- seq_shift, map_map. reflexivity.
Qed.
Lemma nth_error_skipn {A} (l : list A) : forall i x, nth_error l i = Some x -> skipn i l = x :: skipn (S i) l.
Proof. induction l as [|y l IH]; intros [|i] x H; simpl in *; try discriminate; [congruence|]. now apply IH. Qed.
Lemma firstn_seq' m : forall a n, m <= n -> firstn m (seq a n) = seq a m.
Proof. induction m as [|m IH]; intros a n H; [reflexivity|]. destruct n; [lia|]. simpl. f_equal. apply IH. lia. Qed.
Lemma arrs_unknown N k i : S k <= N -> i < N - k -> nth_error (arrs (S k) (seq 0 N)) i = Some (seq 0 k ++ [k + i]).
Proof.
  intros H I. pose proof (arrs_first k (seq 0 N)) as E. rewrite seq_length in E. specialize (E H).
  assert (X : nth_error (firstn (N - k) (arrs (S k) (seq 0 N))) i = Some (seq 0 k ++ [k + i])).
  { rewrite E. rewrite (map_nth_error _ i (seq k (N - k)) (d := k + i)).
    - rewrite firstn_seq' by lia. do 2 f_equal. rewrite seq_nth by lia. reflexivity.
    - rewrite (nth_error_nth' _ 0) by (rewrite seq_length; lia). now rewrite seq_nth by lia. }
  rewrite <- (firstn_skipn (N - k) (arrs (S k) (seq 0 N))). rewrite nth_error_app1; [exact X|]. apply nth_error_Some. congruence.
Qed.
Lemma collect_unknown {V} (l : list V) k r : S k <= length l -> forall f, f ++ r = l -> S k <= length f ->
  exists res, (forall m, length (skipn (length f - k) (arrs (S k) (seq 0 (length l)))) < m -> permutations_collect m (Permutations (Buffer f r) (OngoingUnknownLen (S k) (length f))) = Some res)
    /\ Forall2 (elements_at l) res (skipn (length f - k) (arrs (S k) (seq 0 (length l)))).
Proof.
  intro H. induction r as [|x r IH]; intros f E Lf.
  - rewrite app_nil_r in E. subst f.
    set (SL := states (S k) (seq 0 (length l))). assert (Ls : length (seq 0 (length l)) = length l) by apply seq_length.
    pose proof (states_good (S k) (seq 0 (length l)) ltac:(lia)) as G. rewrite Ls in G. fold SL in G.
    pose proof (states_linked (S k) (seq 0 (length l)) ltac:(lia)) as LK. fold SL in LK.
    pose proof (states_out (S k) (seq 0 (length l))) as Eo. fold SL in Eo.
    assert (Hd : complete_advance (Start (length l) (S k)) = cur (length l) (S k) SL).
    { destruct (states_head (S k) (seq 0 (length l)) ltac:(lia)) as [r Er]. fold SL in Er. rewrite Er. cbn [complete_advance cur fst snd]. rewrite Ls, init_rev by lia. reflexivity. }
    assert (Lm : length l - k <= length SL).
    { rewrite <- (map_length out), Eo. destruct (Nat.le_gt_cases (length l - k) (length (arrs (S k) (seq 0 (length l))))) as [?|Gt]; [auto|].
      pose proof (arrs_unknown (length l) k (length l - k - 1) H ltac:(lia)) as Q. assert (Q' : nth_error (arrs (S k) (seq 0 (length l))) (length l - k - 1) <> None) by congruence.
      apply nth_error_Some in Q'. lia. }
    rewrite <- Eo, skipn_map, map_length.
    set (c := complete_advances (length l - S k + 1) (cur (length l) (S k) SL)).
    assert (Ec : c = cur (length l) (S k) (skipn (length l - k) SL)).
    { unfold c. rewrite (cur_steps _ _ (seq 0 (length l), init (S k) (length (seq 0 (length l)))) _ H) by (auto; lia). do 2 f_equal. lia. }
    assert (B : Forall (fun s => Forall (fun i => i < length l) (out s)) SL).
    { rewrite Forall_forall. intros s I. assert (I' : In (out s) (arrs (S k) (seq 0 (length l)))) by (rewrite <- Eo; now apply in_map).
      apply (proj1 (arrs_enumerates _ _)) in I'. now destruct I' as (_ & _ & I'). }
    assert (Sk : forall m L, linked nxt L (seq 0 (length l), init (S k) (length (seq 0 (length l)))) -> skipn m L <> [] -> linked nxt (skipn m L) (seq 0 (length l), init (S k) (length (seq 0 (length l))))).
    { induction m as [|m IHm]; intros L K Ne; [exact K|]. destruct L as [|s L]; [now destruct Ne|]. cbn [skipn] in *. apply IHm; [|exact Ne]. apply (linked_tail nxt s); [exact K|]. intros ->. apply Ne. now destruct m. }
    specialize (Sk (length l - k) SL LK).
    assert (G' : Forall (good (S k) (length l)) (skipn (length l - k) SL)) by (rewrite <- (firstn_skipn (length l - k) SL) in G; now apply Forall_app in G).
    assert (B' : Forall (fun s => Forall (fun i => i < length l) (out s)) (skipn (length l - k) SL)) by (rewrite <- (firstn_skipn (length l - k) SL) in B; now apply Forall_app in B).
    assert (St : permutations_advance (Permutations (Buffer l []) (OngoingUnknownLen (S k) (length l))) = Permutations (Buffer l []) (Complete c)).
    { unfold permutations_advance. cbn [p_state p_vals get_next rest]. do 2 f_equal. rewrite (Nat.add_comm _ 1). cbn [Nat.add complete_advances]. rewrite Hd. reflexivity. }
    destruct (skipn (length l - k) SL) as [|s L] eqn:Es.
    + exists []. split; [|constructor]. intros m Hm. destruct m as [|m]; [lia|]. cbn [permutations_collect]. unfold permutations_next. rewrite St, Ec. reflexivity.
    + specialize (Sk ltac:(discriminate)).
      destruct (collect_complete l (length l) (S k) _ H L (Ongoing (fst s) (snd s)) (Forall_inv_tail G') (linked_tail nxt s L _ Sk) (Forall_inv_tail B') (cur_step _ _ _ _ _ H (Forall_inv G') Sk)) as (res & C & F).
      destruct (pick_ok (Buffer l []) (out s) (Forall_inv B')) as (xs & Px & Ex). cbn [fetched rest] in Ex. rewrite app_nil_r in Ex.
      exists (xs :: res). split; [|constructor; auto]. intros m Hm. simpl in Hm. destruct m as [|m]; [lia|]. cbn [permutations_collect]. unfold permutations_next. rewrite St, Ec. cbn [cur p_state p_vals].
      fold (out s). rewrite Px, C by lia. reflexivity.
  - assert (Ll : length f + S (length r) = length l) by (rewrite <- E, app_length; reflexivity).
    pose proof (arrs_unknown (length l) k (length f - k) H ltac:(lia)) as Q. rewrite (nth_error_skipn _ _ _ Q).
    destruct (IH (f ++ [x])) as (res & C & F); [now rewrite <- app_assoc|rewrite app_length; simpl; lia|].
    assert (Lx : length (f ++ [x]) = S (length f)) by (rewrite app_length; simpl; lia). rewrite Lx in *. replace (S (length f) - k) with (S (length f - k)) in * by lia.
    assert (B : Forall (fun i => i < length (fetched (Buffer (f ++ [x]) r))) (seq 0 k ++ [k + (length f - k)])).
    { cbn [fetched]. rewrite Lx. apply Forall_app. split; [|constructor; [lia|constructor]]. rewrite Forall_forall. intros i I. apply in_seq in I. lia. }
    destruct (pick_ok (Buffer (f ++ [x]) r) _ B) as (xs & Px & Ex). cbn [fetched rest] in Ex. rewrite <- app_assoc in Ex. simpl in Ex. rewrite E in Ex.
    exists (xs :: res). split; [|constructor; auto]. intros m Hm. cbn [length] in Hm. destruct m as [|m]; [lia|]. cbn [permutations_collect]. unfold permutations_next, permutations_advance.
    cbn [p_state p_vals get_next rest fetched]. cbn [p_state p_vals]. replace (length f + 1) with (S (length f)) by lia. replace (S k - 1) with k by lia. replace (S (length f) - 1) with (k + (length f - k)) by lia.
    rewrite Px, C by lia. reflexivity.
Qed.
Lemma permutations_ok {V} (l : list V) k : 0 < k ->
  exists res, (forall n, length (arrs k (seq 0 (length l))) < n -> permutations_collect n (permutations_new l k) = Some res) /\ Forall2 (elements_at l) res (arrs k (seq 0 (length l))).
Proof.
  intro K. destruct k as [|k]; [lia|]. unfold permutations_new. rewrite prefill_eq by (simpl; lia). cbn [length app fetched]. rewrite Nat.sub_0_r.
  destruct (Nat.le_gt_cases (S k) (length l)) as [Le|Gt].
  - assert (Lf : length (firstn (S k) l) = S k) by (rewrite firstn_length; lia). rewrite Lf, Nat.ltb_irrefl.
    destruct (collect_unknown l k (skipn (S k) l) Le (firstn (S k) l) (firstn_skipn _ _) ltac:(lia)) as (res & C & F). rewrite Lf in *. replace (S k - k) with 1 in * by lia.
    pose proof (arrs_unknown (length l) k 0 Le ltac:(lia)) as Q. pose proof (nth_error_skipn _ _ _ Q) as Es. change (skipn 0 (arrs (S k) (seq 0 (length l)))) with (arrs (S k) (seq 0 (length l))) in Es. rewrite Es.
    assert (B : Forall (fun i => i < length (fetched (Buffer (firstn (S k) l) (skipn (S k) l)))) (seq 0 k ++ [k + 0])).
    { cbn [fetched]. rewrite Lf. apply Forall_app. split; [|constructor; [lia|constructor]]. rewrite Forall_forall. intros i I. apply in_seq in I. lia. }
    destruct (pick_ok _ _ B) as (xs & Px & Ex). cbn [fetched rest] in Ex. rewrite firstn_skipn in Ex.
    exists (xs :: res). split; [|constructor; auto]. intros n H. cbn [length] in H. destruct n as [|n]; [lia|]. cbn [permutations_collect]. unfold permutations_next, permutations_advance. cbn [p_state p_vals].
    replace (S k - 1) with (k + 0) by lia. replace (seq 0 (k + 0)) with (seq 0 k) by (f_equal; lia). rewrite Px, C by lia. reflexivity.
  - assert (E0 : arrs (S k) (seq 0 (length l)) = []).
    { destruct (arrs (S k) (seq 0 (length l))) as [|p r] eqn:E0; [reflexivity|]. exfalso. assert (I : In p (arrs (S k) (seq 0 (length l)))) by (rewrite E0; simpl; auto).
      apply (proj1 (arrs_enumerates _ _)) in I. destruct I as (A & B & C).
      assert (Le : incl p (seq 0 (length l))) by (intros i I; apply in_seq; rewrite Forall_forall in C; specialize (C i I); lia).
      apply NoDup_incl_length in Le; [|exact B]. rewrite seq_length in Le. lia. }
    rewrite E0. exists []. split; [|constructor]. intros n H. destruct n as [|n]; [simpl in H; lia|]. rewrite firstn_length. replace (Nat.min (S k) (length l) <? S k) with true by (symmetry; apply Nat.ltb_lt; lia). reflexivity.
Qed.

Lemma combinations_spec : forall n l, (0 < n)%Z ->
  exists choices res, enumerates (subset (Z.to_nat n) (length l)) choices /\ Forall2 (elements_at l) res choices /\
    computes (fun fuel => builtin_combinations fuel (VInt n) l) (Ok (VList (map VVector res))).
Proof.
  intros n l H. destruct (combinations_ok l (Z.to_nat n) ltac:(lia)) as (res & C & F). exists (combs (Z.to_nat n) (length l) 0), res.
  split; [apply combs_enumerates|]. split; [exact F|]. unfold computes, builtin_combinations. change (as_int_checked (VInt n)) with (@Ok Z n). cbv iota. replace (n <=? 0)%Z with false by (symmetry; apply Z.leb_gt; lia).
  split; [eexists; intros m Hm; erewrite C by exact Hm; reflexivity|]. intros m r' E.
  destruct (combinations_collect m (combinations_new l (Z.to_nat n))) as [r|] eqn:Em; [|discriminate]. injection E as <-.
  assert (Hr : forall m' c r, combinations_collect m' c = Some r -> forall d, combinations_collect (d + m') c = Some (r : list (list value))).
  { clear. induction m' as [|m' IH]; intros c r E d; [discriminate|]. rewrite Nat.add_succ_r. cbn [combinations_collect] in *. destruct (combinations_next c) as [[i|] c']; [|exact E].
    destruct (pick (c_pool c') i); [|discriminate]. destruct (combinations_collect m' c') eqn:Ec; [|discriminate]. now rewrite (IH _ _ Ec d). }
  apply (Hr _ _ _) with (d := S (length (combs (Z.to_nat n) (length l) 0))) in Em. rewrite C in Em by lia. congruence.
Qed.
Lemma permutations_spec : forall n l, (0 < n)%Z ->
  exists choices res, enumerates (arrangement (Z.to_nat n) (length l)) choices /\ Forall2 (elements_at l) res choices /\
    computes (fun fuel => builtin_permutations fuel (VInt n) l) (Ok (VList (map VVector res))).
Proof.
  intros n l H. destruct (permutations_ok l (Z.to_nat n) ltac:(lia)) as (res & C & F). exists (arrs (Z.to_nat n) (seq 0 (length l))), res.
  split; [apply arrs_enumerates|]. split; [exact F|]. unfold computes, builtin_permutations. change (as_int_checked (VInt n)) with (@Ok Z n). cbv iota. replace (n <=? 0)%Z with false by (symmetry; apply Z.leb_gt; lia).
  split; [eexists; intros m Hm; erewrite C by exact Hm; reflexivity|]. intros m r' E.
  destruct (permutations_collect m (permutations_new l (Z.to_nat n))) as [r|] eqn:Em; [|discriminate]. injection E as <-.
  assert (Hr : forall m' c r, permutations_collect m' c = Some r -> forall d, permutations_collect (d + m') c = Some (r : list (list value))).
  { clear. induction m' as [|m' IH]; intros c r E d; [discriminate|]. rewrite Nat.add_succ_r. cbn [permutations_collect] in *. destruct (permutations_next c) as [[i|] c']; [|exact E].
    destruct (pick (p_vals c') i); [|discriminate]. destruct (permutations_collect m' c') eqn:Ec; [|discriminate]. now rewrite (IH _ _ Ec d). }
  apply (Hr _ _ _) with (d := S (length (arrs (Z.to_nat n) (seq 0 (length l))))) in Em. rewrite C in Em by lia. congruence.
Qed.
Lemma none_at ok (L : list (list nat)) : enumerates ok L -> (forall p, ~ ok p) -> L = [].
Proof. intros [I _] N. destruct L as [|p L]; [reflexivity|]. exfalso. apply (N p), I. simpl. auto. Qed.
Lemma too_many : forall n l, (Z.of_nat (length l) < n)%Z ->
  computes (fun fuel => builtin_combinations fuel (VInt n) l) (Ok (VList [])) /\
  computes (fun fuel => builtin_permutations fuel (VInt n) l) (Ok (VList [])).
Proof.
  intros n l H. assert (X : forall p, length p = Z.to_nat n -> NoDup p -> Forall (fun i => i < length l) p -> False).
  { intros p A B C. assert (Le : incl p (seq 0 (length l))) by (intros i I; apply in_seq; rewrite Forall_forall in C; specialize (C i I); lia).
    apply NoDup_incl_length in Le; [|exact B]. rewrite seq_length in Le. lia. }
  destruct (combinations_spec n l ltac:(lia)) as (c1 & r1 & E1 & F1 & C1). destruct (permutations_spec n l ltac:(lia)) as (c2 & r2 & E2 & F2 & C2).
  apply none_at in E1.
  2:{ intros p (A & B & C). apply (X p A); [|exact C]. clear - B. induction B as [|x p S IH F]; [constructor|]. constructor; [|exact IH]. intro I. rewrite Forall_forall in F. specialize (F _ I). lia. }
  apply none_at in E2; [|intros p (A & B & C); exact (X p A B C)]. subst. inversion F1; subst. inversion F2; subst. auto.
Qed.
Lemma not_positive n l : (n <= 0)%Z ->
  computes (fun fuel => builtin_combinations fuel (VInt n) l) (Err (ValueErrorArgMustBeNonNegativeInt NF_Combinations)) /\
  computes (fun fuel => builtin_permutations fuel (VInt n) l) (Err (ValueErrorArgMustBeNonNegativeInt NF_Permutations)).
Proof.
  intro H. apply Z.leb_le in H. unfold computes, builtin_combinations, builtin_permutations. change (as_int_checked (VInt n)) with (@Ok Z n). cbv iota. rewrite H.
  split; (split; [exists 0; reflexivity|intros; congruence]).
Qed.
Lemma negative : forall n l, (n < 0)%Z ->
  computes (fun fuel => builtin_combinations fuel (VInt n) l) (Err (ValueErrorArgMustBeNonNegativeInt NF_Combinations)) /\
  computes (fun fuel => builtin_permutations fuel (VInt n) l) (Err (ValueErrorArgMustBeNonNegativeInt NF_Permutations)).
Proof. intros n l H. apply not_positive. lia. Qed.
Lemma zero_refuted : exists l, enumerates (subset 0 (length l)) [[]] /\ enumerates (arrangement 0 (length l)) [[]] /\
  computes (fun fuel => builtin_combinations fuel (VInt 0) l) (Err (ValueErrorArgMustBeNonNegativeInt NF_Combinations)) /\
  computes (fun fuel => builtin_permutations fuel (VInt 0) l) (Err (ValueErrorArgMustBeNonNegativeInt NF_Permutations)).
Proof. exists [VInt 1]. split; [exact (combs_enumerates 0 1)|]. split; [exact (arrs_enumerates 0 1)|]. apply not_positive. lia. Qed.
