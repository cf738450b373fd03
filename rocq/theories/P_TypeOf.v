(** C70: `typeof` and `is`. *)
From Coq Require Import Lia.
From Verif Require Import Base Native Value ValueSpec Err Ops TypeOf TypeOfSpec.
Local Open Scope Z_scope.

(** Every value has one type, and `typeof` returns it. *)
Theorem C70_typeof v : exists t, has_type v t /\ type_of v = written t /\ forall t', has_type v t' -> t' = t.
Proof. destruct v; eexists; (split; [constructor|split; [reflexivity|intros t' H; inversion H; reflexivity]]). Qed.
Print Assumptions C70_typeof.

(** `typeof(x) == typeof(y)` exactly if they are of the same type. *)
Theorem C70_distinguishes x y : value_eq (type_of x) (type_of y) = true <-> exists t, has_type x t /\ has_type y t.
Proof.
  split.
  - intro H. destruct x, y; try (eexists; split; constructor; fail); try (exfalso; vm_compute in H; discriminate H); cbn in H.
    apply Z.eqb_eq in H. subst. eexists. split; constructor.
  - intros (t & A & B). destruct A; inversion B; subst; try reflexivity. cbn. apply Z.eqb_refl.
Qed.
Print Assumptions C70_distinguishes.

Lemma sub_of a b : subtype a b -> a = b \/ b = TAny \/ (b = TIterable /\ In a [TStr; TList; TSet; TDict; THeap; TVector; TRange; TEnumerate]) \/
  (a = TBool /\ In b [TInt; TComplex; TRational]) \/ (a = TInt /\ In b [TComplex; TRational]).
Proof.
  induction 1 as [|a b c _ IH1 _ IH2| | | | |]; auto; try (cbn; tauto).
  destruct IH1 as [<-|[->|[[-> I]|[[-> I]|[-> I]]]]]; [exact IH2| | | |].
  - destruct IH2 as [<-|[->|[[-> J]|[[Q _]|[Q _]]]]]; try discriminate; auto; cbn in J; intuition discriminate.
  - destruct IH2 as [<-|[->|[[-> J]|[[Q _]|[Q _]]]]]; try discriminate; auto.
  - destruct IH2 as [<-|[->|[[-> J]|[[Q _]|[-> J]]]]]; try discriminate; auto; cbn in *; intuition (subst; try discriminate; auto).
  - destruct IH2 as [<-|[->|[[-> J]|[[Q _]|[-> J]]]]]; try discriminate; auto; cbn in *; intuition (subst; try discriminate; auto).
Qed.
(** `x is T` answers whether the type of x is a subtype of T, and `x is not T` the opposite; for all x but field getters `(->f)`, and all types T
    but range and enumerate. *)
Theorem C70_is_partial to_str fmt x s t : has_type x s -> (forall i, x <> VField i) -> t <> TRange -> t <> TEnumerate ->
  exists b, binary_op to_str fmt BIs x (written t) = Ok (VBool b) /\ binary_op to_str fmt BIsNot x (written t) = Ok (VBool (negb b)) /\ (b = true <-> subtype s t).
Proof.
  intros H NF NR NE.
  assert (BT : subtype TBool TComplex /\ subtype TBool TRational) by (split; (eapply sub_trans; [apply sub_bool|constructor])).
  assert (X : forall b : bool, (b = true -> subtype s t) -> (b = false -> ~ subtype s t) -> (b = true <-> subtype s t)) by (intros [|]; intuition discriminate).
  assert (NO : (s = t -> False) -> t <> TAny -> (t = TIterable -> In s [TStr; TList; TSet; TDict; THeap; TVector; TRange; TEnumerate] -> False) -> (s = TBool -> In t [TInt; TComplex; TRational] -> False) ->
    (s = TInt -> In t [TComplex; TRational] -> False) -> ~ subtype s t).
  { intros A B C D E SB. apply sub_of in SB. intuition. }
  destruct BT as [BT1 BT2].
  destruct t; try congruence; destruct H; try (exfalso; eapply NF; reflexivity); eexists; (split; [reflexivity|split; [try reflexivity; cbn [binary_op binary_is written]; destruct (_ =? _); reflexivity|apply X]]); intro Q; cbn in Q; try discriminate Q;
    try solve [assumption|constructor|apply sub_iterable; cbn; tauto|apply NO; try discriminate; cbn; intuition discriminate].
  - destruct (Z.eqb_spec t0 t) as [->|]; [constructor|discriminate Q].
  - apply NO; try discriminate. intro E. injection E as <-. rewrite Z.eqb_refl in Q. discriminate Q.
Qed.
Print Assumptions C70_is_partial.

(** `x is typeof(x)` for all values but ranges, enumerates and field getters. *)
Theorem C70_own_partial to_str fmt x : (forall i, x <> VField i) -> (forall a b s, x <> VRange a b s) -> (forall v, x <> VEnumerate v) -> binary_op to_str fmt BIs x (type_of x) = Ok (VBool true).
Proof.
  intros A B C. destruct (C70_typeof x) as (t & H & -> & _). destruct (C70_is_partial to_str fmt x t t H A) as (b & E & _ & K).
  - intros ->. inversion H; subst. eapply B. reflexivity.
  - intros ->. inversion H; subst. eapply C. reflexivity.
  - rewrite E. destruct K as [_ K]. rewrite (K (sub_refl t)). reflexivity.
Qed.
Print Assumptions C70_own_partial.

(** The guarantee `x is typeof(x) will always be true, for any value of x` fails: for ranges and enumerates it is a type error, for a field getter it is false. *)
Theorem C70_own_refuted to_str fmt : (forall a b s, exists e, binary_op to_str fmt BIs (VRange a b s) (type_of (VRange a b s)) = Err e) /\
  (forall v, exists e, binary_op to_str fmt BIs (VEnumerate v) (type_of (VEnumerate v)) = Err e) /\ (forall i, binary_op to_str fmt BIs (VField i) (type_of (VField i)) = Ok (VBool false)).
Proof. repeat split; intros; try (eexists; reflexivity); reflexivity. Qed.
Print Assumptions C70_own_refuted.

(** What is not a type is rejected on the right of `is` and `is not`. *)
Theorem C70_rejects to_str fmt x y : (forall t, y <> written t) -> exists e e', binary_op to_str fmt BIs x y = Err e /\ binary_op to_str fmt BIsNot x y = Err e'.
Proof.
  intro H.
  assert (K : forall t, y = written t -> False) by (intros t E; exact (H t E)). clear H.
  destruct y; try (do 2 eexists; split; reflexivity); [exfalso; apply (K TNil); reflexivity|exfalso; apply (K (TStruct ty)); reflexivity|].
  destruct f; try (do 2 eexists; split; reflexivity); exfalso;
    first [apply (K TBool); reflexivity|apply (K TInt); reflexivity|apply (K TComplex); reflexivity|apply (K TRational); reflexivity|apply (K TStr); reflexivity|apply (K TList); reflexivity
      |apply (K TSet); reflexivity|apply (K TDict); reflexivity|apply (K THeap); reflexivity|apply (K TVector); reflexivity|apply (K TFunction); reflexivity|apply (K TIterable); reflexivity|apply (K TAny); reflexivity].
Qed.
Print Assumptions C70_rejects.

(** Examples *)
Example ex_types : map type_of [VNil; VStr [104]; VList [VInt 1]; VStruct 7 [VNil]; VStructType 7] = [VNil; VNative NF_Str; VNative NF_List; VStructType 7; VNative NF_Function].
Proof. reflexivity. Qed.
Example ex_is to_str fmt : binary_op to_str fmt BIs (VBool true) (VNative NF_Complex) = Ok (VBool true) /\ binary_op to_str fmt BIs (VInt 3) (VNative NF_Bool) = Ok (VBool false)
  /\ binary_op to_str fmt BIs (VStruct 7 []) (VStructType 8) = Ok (VBool false) /\ binary_op to_str fmt BIsNot (VStruct 7 []) (VStructType 8) = Ok (VBool true).
Proof. repeat split. Qed.
Example ex_not_type : forall t, VInt 3 <> written t.
Proof. destruct t; discriminate. Qed.
