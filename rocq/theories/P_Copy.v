(** Deep copy (C36) of arbitrary, also cyclic, object graphs. *)
From Verif Require Import Base Seq SeqProofs Copy CopySpec CopyProofs.
From Coq Require Import Permutation.
Local Open Scope nat_scope.

Lemma inv_start H : inv H (H, []).
Proof. split; [auto|]. split; [auto|]. split; [constructor|]. split; [constructor|]. intros a b []. Qed.

(** Copying ends on every graph, however cyclic. *)
Theorem C36_ends : forall found place, (forall H acc e, Permutation (place H acc e) (acc ++ [e])) ->
  forall H r, closed H -> ref_in (length H) r -> exists n r' H', copy found place n r H = Some (r', H').
Proof.
  intros found place PL H r C O. destruct (copy_ends found place PL H C (left_to_copy H (H, [])) r (H, []) (inv_start H) (Nat.le_refl _) O) as (n & r' & [H' M] & E).
  exists n, r', H'. unfold copy. rewrite E. reflexivity.
Qed.
Print Assumptions C36_ends.

(** There is a one-to-one correspondence between objects of the graph and new objects, such
    that the copy is the original with every object replaced by its counterpart: the same
    kind of object with corresponding contents in the same order (heaps: up to the order).
    Sharing and cycles are thereby preserved.  The exceptions are the default of a dict,
    which is dropped, and sets and dicts whose copy has fewer entries.  The original heap is
    unchanged. *)
Theorem C36_copy_partial : forall found place, (forall H acc e, Permutation (place H acc e) (acc ++ [e])) ->
  forall H r n r' H', closed H -> ref_in (length H) r -> copy found place n r H = Some (r', H') ->
  firstn (length H) H' = H /\
  exists M, related M r r' /\ one_to_one M /\
    forall a b, In (a, b) M -> length H <= b < length H' /\
      exists nd nd', nth_error H a = Some nd /\ nth_error H' b = Some nd' /\ same_kind (kind_of nd) (kind_of nd') /\ from_items M (items nd) (items nd') /\
        (same_items M (kind_of nd) (items nd) (items nd') \/ merged (kind_of nd) (items nd) (items nd')).
Proof.
  intros found place PL H r n r' H' C O E. unfold copy in E. destruct (copy_recursive found place n r (H, [])) as [[x [H1 M]]|] eqn:E1; [|discriminate]. injection E as <- <-.
  destruct (copy_ok found place PL H C n r (H, []) x (H1, M) O (inv_start H) E1) as [(I & L & F & N & EN & D) R]. cbn [fst snd] in *. rewrite app_nil_r in EN. subst N.
  destruct I as (I1 & I2 & I3 & I4 & I5). split.
  - clear - I1 I2. revert H1 I1 I2. induction H as [|x H IH]; intros H1 I1 I2; [reflexivity|]. destruct H1 as [|y H1]; [cbn in I1; lia|]. cbn [length firstn]. cbn [length] in I1. f_equal.
    + specialize (I2 0 ltac:(cbn; lia)). cbn in I2. congruence.
    + apply IH; [lia|]. intros i Hi. apply (I2 (S i)). cbn; lia.
  - exists M. split; auto. split.
    + intros a b a' b' P Q.
      assert (ND : forall (f : nat * nat -> nat) l (p q : nat * nat), NoDup (map f l) -> In p l -> In q l -> f p = f q -> p = q).
      { clear. induction l as [|z l IH]; intros p q ND Hp Hq E; [destruct Hp|]. inversion ND; subst. destruct Hp as [<-|Hp], Hq as [<-|Hq]; auto; exfalso; match goal with H : ~ In _ _ |- _ => apply H end; apply in_map_iff; eauto. }
      split; intro Z; [assert (QQ := ND fst M (a, b) (a', b') I3 P Q Z)|assert (QQ := ND snd M (a, b) (a', b') I4 P Q Z)]; congruence.
    + intros a b P. split; [apply (I5 a b P)|]. exact (D a b P).
Qed.
Print Assumptions C36_copy_partial.

(** Nothing the copy leads to existed before: no mutable object is shared. *)
Theorem C36_disjoint : forall found place, (forall H acc e, Permutation (place H acc e) (acc ++ [e])) ->
  forall H r n r' H', closed H -> ref_in (length H) r -> copy found place n r H = Some (r', H') -> forall b, reaches H' r' b -> length H <= b.
Proof.
  intros found place PL H r n r' H' C O E. destruct (C36_copy_partial found place PL H r n r' H' C O E) as (_ & M & R & _ & D).
  assert (T : forall x x' b, related M x x' -> target x' = Some b -> exists a, In (a, b) M).
  { induction 1; cbn [target]; intro Q; [discriminate|injection Q as <-; eauto|auto]. }
  assert (G : forall x' b, reaches H' x' b -> forall x, related M x x' -> length H <= b).
  { induction 1 as [x' b Q|x' a' nd' e' y' b Q1 Q2 Q3 Q4 Q5 IH]; intros x RX.
    - destruct (T _ _ _ RX Q) as (a & P). apply D in P. lia.
    - destruct (T _ _ _ RX Q1) as (a & P). destruct (D _ _ P) as (_ & nd & nd2 & D1 & D2 & _ & D4 & _). rewrite Q2 in D2. injection D2 as <-. destruct (D4 _ _ Q3 Q4) as (e & y & _ & _ & RY). eauto. }
  intros b Hb. eapply G; eauto.
Qed.
Print Assumptions C36_disjoint.

(** For graphs of lists, vectors and struct instances: the copy reads as the same value. *)
Theorem C36_equal : forall found place, (forall H acc e, Permutation (place H acc e) (acc ++ [e])) ->
  forall H r n r' H' t, closed H -> (forall nd, In nd H -> match kind_of nd with KList | KVector | KStruct _ => True | _ => False end) ->
  ref_in (length H) r -> copy found place n r H = Some (r', H') -> reads_as H r t -> reads_as H' r' t.
Proof.
  intros found place PL H r n r' H' t C PLAIN O E RA. destruct (C36_copy_partial found place PL H r n r' H' C O E) as (_ & M & R & _ & D). clear E O.
  revert r' R. revert r t RA. fix IH 3. intros r t RA r' R. destruct RA as [z|x z RA|a nd l NA F].
  - inversion R; subst. constructor.
  - inversion R; subst. constructor. eapply IH; eauto.
  - inversion R as [|a0 b P|]; subst. destruct (D _ _ P) as (_ & nd0 & nd' & D1 & D2 & D3 & _ & D5). rewrite NA in D1. injection D1 as <-.
    assert (PK := PLAIN nd (nth_error_In _ _ NA)).
    assert (SI : Forall2 (Forall2 (related M)) (items nd) (items nd')) by (destruct D5 as [D5|D5]; unfold same_items, merged in D5; destruct (kind_of nd); try contradiction; exact D5).
    assert (EK : kind_of nd = kind_of nd') by (unfold same_kind in D3; destruct (kind_of nd); try contradiction; auto). rewrite EK. apply (ra_obj H' b nd' l D2).
    clear - F SI IH. revert SI. generalize (items nd'). induction F as [|e te es ts Fe Fs IHF]; intros l' SI; inversion SI as [|? e' ? es' Re Res]; subst; constructor.
    + clear - Fe Re IH. revert e' Re. induction Fe as [|x tx xs txs Rx Rxs IHx]; intros e' Re; inversion Re; subst; constructor; [eapply IH; eassumption|apply IHx; assumption].
    + apply IHF; assumption.
Qed.
Print Assumptions C36_equal.

(** Equality of what two references lead to, as far as [fuel] allows. *)
Fixpoint looks_equal (fuel : nat) (H : heap) (r r' : ref) : bool :=
  match fuel with
  | O => true
  | S n =>
      match r, r' with
      | RLeaf t, RLeaf t' => (t =? t')%Z
      | REnumerate i, REnumerate j => looks_equal n H i j
      | RObj a, RObj b =>
          match nth_error H a, nth_error H b with
          | Some x, Some y => (length (items x) =? length (items y)) && forallb (fun p => (length (fst p) =? length (snd p)) && forallb (fun q => looks_equal n H (fst q) (snd q)) (combine (fst p) (snd p))) (combine (items x) (items y))
          | _, _ => false
          end
      | _, _ => false
      end
  end.
Fixpoint position {A} (f : A -> bool) (l : list A) : option nat :=
  match l with [] => None | x :: r => if f x then Some 0 else match position f r with Some i => Some (S i) | None => None end end.
Definition found_eq (H : heap) (acc : list (list ref)) (e : list ref) : option nat :=
  position (fun e' => looks_equal 10 H (nth 0 e' (RLeaf 0)) (nth 0 e (RLeaf 0))) acc.

(** a cyclic list which contains itself and, twice, a shared vector *)
Definition cyclic : heap := [Node KList [[RObj 0]; [RObj 1]; [RObj 1]; [RLeaf 7]]; Node KVector [[RLeaf 1]; [REnumerate (RObj 0)]]].
Example C36_ex : closed cyclic /\ copy found_eq (fun _ acc e => acc ++ [e]) 10 (RObj 0) cyclic =
  Some (RObj 2, cyclic ++ [Node KList [[RObj 2]; [RObj 3]; [RObj 3]; [RLeaf 7]]; Node KVector [[RLeaf 1]; [REnumerate (RObj 2)]]]).
Proof.
  split; [|reflexivity]. intros a nd e r E I J. destruct a as [|[|a]]; cbn in E; [injection E as <-|injection E as <-|destruct a; discriminate]; cbn in I; intuition; subst; cbn in J; intuition; subst; cbn; lia.
Qed.

(** Sets in cycles: the lists a = [b] and b = [s] are different elements of the set s, but
    while they are being copied both are empty, and the copy of s has one element. *)
Theorem C36_isomorphic_refuted : exists H r r' H' nd nd', closed H /\ copy found_eq (fun _ acc e => acc ++ [e]) 10 r H = Some (r', H') /\
  looks_equal 10 H (RObj 0) (RObj 1) = false /\
  nth_error H 2 = Some nd /\ items nd = [[RObj 0]; [RObj 1]] /\ nth_error H' 5 = Some nd' /\ items nd' = [[RObj 3]].
Proof.
  exists [Node KList [[RObj 1]; [RLeaf 0]]; Node KList [[RObj 2]]; Node KSet [[RObj 0]; [RObj 1]]], (RObj 0). do 4 eexists. split.
  - intros a nd e r E I J. destruct a as [|[|[|a]]]; cbn in E; [injection E as <-|injection E as <-|injection E as <-|destruct a; discriminate]; cbn in I; intuition; subst; cbn in J; intuition; subst; cbn; lia.
  - split; [vm_compute; reflexivity|]. split; [reflexivity|]. split; [reflexivity|]. split; [reflexivity|]. split; reflexivity.
Qed.
Print Assumptions C36_isomorphic_refuted.
(** The default of a dict is not copied. *)
Theorem C36_default_refuted : exists H r' H', copy found_eq (fun _ acc e => acc ++ [e]) 10 (RObj 0) H = Some (r', H') /\
  nth_error H 0 = Some (Node (KDict (Some 5%Z)) []) /\ r' = RObj 1 /\ nth_error H' 1 = Some (Node (KDict None) []).
Proof. exists [Node (KDict (Some 5%Z)) []]. do 2 eexists. split; [reflexivity|]. split; [reflexivity|]. split; reflexivity. Qed.
Print Assumptions C36_default_refuted.
