(** C69: `repr` writes data as an expression that `eval` reads back as the same value. *)
From Coq Require Import String Lia.
From Verif Require Import Base Native Value ValueSpec Err Ops Str Repr ReprSpec ReprProofs2.
From Verif Require Scan Parse ParseTerm.
Import Scan.
Local Open Scope Z_scope.

(** Data of any size and depth made of nil, booleans, integers, complex numbers, strings, lists, vectors, sets, dicts, ranges, enumerates and slices (the
    cases that do not come back are listed in [readable], and shown below): scanning and parsing what `repr` has
    written succeeds, and the value of the expression is the value that was written. *)
Theorem C69_round_trip (N : names) (fmt : list Z -> value -> result value) v : readable N v -> wf v -> evaluates N fmt (repr N v) v.
Proof. exact (round_trip N fmt v). Qed.
Print Assumptions C69_round_trip.

Lemma read_mono n m t : (n <= m)%nat -> read n t <> Parse.Out -> read m t = read n t.
Proof.
  intros L H. unfold read in *. destruct (scan t) as [s|]; [|congruence]. destruct (errors s) as [|e l]; [|reflexivity].
  rewrite (ParseTerm.parse_mono n m); [reflexivity|exact L|]. intro Q. rewrite Q in H. apply H. reflexivity.
Qed.
(** A text evaluates to one value at most. *)
Theorem C69_deterministic (N : names) (fmt : list Z -> value -> result value) t v w : evaluates N fmt t v -> evaluates N fmt t w -> v = w.
Proof.
  intros (e & n & R & D) (e' & n' & R' & D'). specialize (R (n + n')%nat ltac:(lia)). specialize (R' (n + n')%nat ltac:(lia)). congruence.
Qed.
Print Assumptions C69_deterministic.
(** Hence different data is written differently. *)
Theorem C69_injective (N : names) v w : readable N v -> wf v -> readable N w -> wf w -> repr N v = repr N w -> v = w.
Proof.
  intros Rv Wv Rw Ww E. apply (C69_deterministic N (fun _ x => Ok x) (repr N v)); [apply C69_round_trip; assumption|]. rewrite E. apply C69_round_trip; assumption.
Qed.
Print Assumptions C69_injective.
(** `str` of a string is the string; of any other data it is the same as `repr`, also inside of collections. *)
Theorem C69_str (N : names) v : (forall s, v = VStr s -> str N v = s) /\ (readable N v -> (forall s, v <> VStr s) -> str N v = repr N v).
Proof. split; [intros s ->; reflexivity|]. intros R H. destruct R; try reflexivity. exfalso. eapply H. reflexivity. Qed.
Print Assumptions C69_str.

Lemma not_back (N : names) (fmt : list Z -> value -> result value) t v n : read n t <> Parse.Out -> (forall e, read n t = Parse.Got e [] -> denote N fmt e <> Some v) -> ~ evaluates N fmt t v.
Proof. intros O H (e & m & R & D). apply (H e); [|exact D]. rewrite <- (read_mono n (n + m)%nat t ltac:(lia) O). apply R. lia. Qed.

(** What the words `for every value` do not cover: well-formed values whose text is not an expression with a value, *)
Definition rejected (v : value) : Prop := wf v /\ forall N fmt w, ~ evaluates N fmt (repr N v) w.
(** and those whose text is another value. *)
Definition becomes (v w : value) : Prop := wf v /\ v <> w /\ forall N fmt, evaluates N fmt (repr N v) w.
Ltac gone := intros N fmt w; eapply (not_back N fmt _ _ 30%nat); [vm_compute; discriminate|]; intros e E; vm_compute in E; try discriminate E; injection E as <-; vm_compute; discriminate.
Lemma back (N : names) (fmt : list Z -> value -> result value) t v n e : read n t = Parse.Got e [] -> denote N fmt e = Some v -> evaluates N fmt t v.
Proof. intros R D. exists e, n. split; [|exact D]. intros m L. rewrite (read_mono n m t L); [exact R|congruence]. Qed.
Ltac other := intros N fmt; eapply (back N fmt _ _ 30%nat); [vm_compute; reflexivity|vm_compute; reflexivity].
Ltac okv := first [solve [apply wf_str; intros c [<-|[]]; unfold is_char; lia] | solve [apply wf_vector; intros x []]|solve [apply wf_vector; intros x [<-|[]]; apply wf_int; unfold is_int63, MIN_INT, MAX_INT; lia]
  | solve [constructor; try (intros ? []); try exact I; try reflexivity] | solve [constructor; [intros ? ? []|exact I]]].
(** a string with a single quote: `'` is written as it is between single quotes *)
Theorem C69_quote_refuted : rejected (VStr [39]).
Proof. split; [okv|gone]. Qed.
Print Assumptions C69_quote_refuted.
(** a string with a control character: the escapes `\0` and `\u{..}` are not known to the scanner, which keeps the backslash *)
Theorem C69_control_refuted : becomes (VStr [0]) (VStr (text "\0")) /\ becomes (VStr [27]) (VStr (text "\u{1b}")).
Proof. split; (split; [okv|split; [discriminate|other]]). Qed.
Print Assumptions C69_control_refuted.
(** the vectors of no and of one element: `()` is an error, `(1)` is the number 1 *)
Theorem C69_vector_refuted : rejected (VVector []) /\ becomes (VVector [VInt 1]) (VInt 1).
Proof. split; [split; [okv|gone]|split; [okv|split; [discriminate|other]]]. Qed.
Print Assumptions C69_vector_refuted.
(** the empty dict is written as the empty set *)
Theorem C69_dict_refuted : becomes (VDict []) (VSet []).
Proof. split; [okv|split; [discriminate|other]]. Qed.
Print Assumptions C69_dict_refuted.
(** rationals are written as an integer division *)
Theorem C69_rational_refuted : becomes (VRational 1 2) (VInt 0).
Proof. split; [okv|split; [discriminate|other]]. Qed.
Print Assumptions C69_rational_refuted.
(** the empty range calls `range` with an unknown name; a heap is written as a list *)
Theorem C69_range_refuted : rejected (VRange 0 0 0) /\ becomes (VHeap []) (VList []).
Proof. split; [split; [okv|gone]|split; [okv|split; [discriminate|other]]]. Qed.
Print Assumptions C69_range_refuted.
(** a complex number whose part is out of the range of literals: an error, or another number *)
Theorem C69_complex_refuted : rejected (VComplex 0 (- 2 ^ 63)) /\ becomes (VComplex (2 ^ 62) 1) (VComplex (- 2 ^ 62) 1).
Proof. split; [split; [apply wf_complex; unfold is_i64; cbv; intuition discriminate|gone]|split; [apply wf_complex; unfold is_i64; cbv; intuition discriminate|split; [discriminate|other]]]. Qed.
Print Assumptions C69_complex_refuted.

(** Examples *)
Definition no_names : names := Names (fun _ => []) (fun _ => []) (fun _ => []) (fun _ => []) (fun _ => []) (fun _ => []) (fun _ => []) (fun _ => true).
Definition sample : value :=
  VList [VNil; VInt (-5); VComplex 3 (-2); VComplex 0 1; VStr (text "a""b\c"); VVector [VBool true; VInt 7]; VDict [(VInt 1, VSet [VInt 2; VInt 3])];
    VRange 10 0 (-2); VEnumerate (VStr [10]); VSlice VNil (VInt (-1)) (VInt 2); VSlice (VInt 1) VNil VNil].
Example ex_sample : repr no_names sample =
  text "[nil, -5, 3 - 2i, 1i, 'a\""b\\c', (true, 7), {1: {2, 3}}, range(10, 0, -2), enumerate('\n'), [:-1:2], [1:]]".
Proof. vm_compute. reflexivity. Qed.
Ltac members := intros ? Hin; cbn [In map fst snd] in Hin; repeat (destruct Hin as [<-|Hin]; [|]); try contradiction.
Ltac small := unfold is_int63, MIN_INT, MAX_INT, is_i64; lia.
Example ex_readable : readable no_names sample.
Proof.
  constructor. members; try (solve [constructor; try small]).
  - constructor. intros c Hc. vm_compute in Hc. unfold plain. intuition lia.
  - constructor; [members; constructor|cbn; lia].
  - constructor; [members; constructor|members; constructor; members; constructor|discriminate].
  - constructor. constructor. intros c [<-|[]]. unfold plain. lia.
  - constructor; unfold bound; eauto.
  - constructor; unfold bound; eauto.
Qed.
Example ex_evaluates : forall fmt, evaluates no_names fmt (repr no_names sample) sample.
Proof.
  intro fmt. apply C69_round_trip; [exact ex_readable|]. constructor. members; try (solve [constructor; try small; try discriminate]).
  - constructor. intros c Hc. vm_compute in Hc. unfold is_char. intuition lia.
  - constructor. members; constructor; small.
  - apply wf_dict.
    + intros k x [E|[]]. injection E as <- <-. split; [constructor; small|]. constructor; [members; constructor; small|]. cbn. repeat split; intros; intuition (subst; try reflexivity).
    + cbn. repeat split; intros; contradiction.
  - constructor. constructor. intros c [<-|[]]. unfold is_char. lia.
  - constructor; constructor; small.
  - constructor; constructor; small.
Qed.
Example ex_read : match read 60 (text "[1, (2, 3), 'x']") with Parse.Got e _ => denote no_names (fun _ v => Ok v) e | _ => None end = Some (VList [VInt 1; VVector [VInt 2; VInt 3]; VStr [120]]).
Proof. vm_compute. reflexivity. Qed.
