(** C05-C08, C54: ranges, iteration, reverse iteration, enumerate. *)
From Verif Require Import Base BaseProofs Ptr Native Value Iter IterSpec IterProofs.
Local Open Scope Z_scope.

(** C05: range(a, b, s) *)
Theorem C05_range_progression : forall a b s, is_int63 a -> is_int63 b -> is_int63 s ->
  (s = 0 -> range_from a b s = None) /\
  (s <> 0 -> exists r it l, range_from a b s = Some r /\
     to_iter (VRange (r_start r) (r_stop r) (r_step r)) = Some it /\
     yields iter_next it (map VInt l) /\ progression a b s l).
Proof.
  intros a b s Ha Hb Hs. split; [intros ->; apply range_zero_step|]. intros Hn.
  destruct (range_iterates a b s Ha Hb Hs Hn) as ([x y z] & l & H1 & H2 & H3).
  exists (Range x y z), (ItRange x (Range x y z)), l. split; [exact H1|]. split; [reflexivity|]. split; assumption.
Qed.
Print Assumptions C05_range_progression.
Example C05_ex : exists r, range_from 7 (-4) (-3) = Some r /\
  yields iter_next (ItRange 7 r) (map VInt [7; 4; 1; -2]) /\ progression 7 (-4) (-3) [7; 4; 1; -2].
Proof.
  destruct (range_iterates 7 (-4) (-3)) as (r & l & H1 & H2 & H3); try (apply int63_bounds; lia); [lia|].
  injection H1 as <-. exists (Range 7 (-4) (-3)). split; [reflexivity|].
  assert (E : yields iter_next (ItRange 7 (Range 7 (-4) (-3))) (map VInt [7; 4; 1; -2])).
  { cbn [map]. do 4 (eapply y_cons; [reflexivity|]). apply y_nil. intros n. apply stopped_range. left. reflexivity. }
  split; [exact E|]. cbn [r_start] in H2. pose proof (yields_det _ _ _ H2 _ E) as EE.
  assert (l = [7; 4; 1; -2]) as <-; [|exact H3].
  clear -EE. repeat (destruct l as [|? l]; cbn in EE; try discriminate; injection EE as -> EE || idtac); reflexivity.
Qed.

(** C06: membership agrees with iteration *)
Theorem C06_range_membership : forall a b s r l x,
  is_int63 a -> is_int63 b -> is_int63 s -> is_int63 x ->
  range_from a b s = Some r -> yields iter_next (ItRange (r_start r) r) (map VInt l) ->
  (range_contains r x = true <-> In x l).
Proof.
  intros a b s r l x Ha Hb Hs Hx Hr Hy.
  assert (Hn : s <> 0) by (intros ->; discriminate).
  destruct (range_iterates a b s Ha Hb Hs Hn) as (r' & l' & H1 & H2 & H3).
  rewrite Hr in H1. injection H1 as <-.
  pose proof (yields_det _ _ _ Hy _ H2) as E.
  assert (l = l') as ->.
  { clear -E. revert l' E. induction l as [|x l IH]; intros [|y l'] E; try discriminate; [reflexivity|].
    cbn in E. injection E as -> E. f_equal. apply IH, E. }
  exact (range_contains_spec a b s r l' x Ha Hb Hs Hx Hr H3).
Qed.
Print Assumptions C06_range_membership.
Example C06_ex : range_contains (Range 7 (-4) (-3)) 1 = true /\ range_contains (Range 7 (-4) (-3)) 2 = false.
Proof. split; reflexivity. Qed.

(** C07: len(range) is NOT the number of iterated elements *)
Theorem C07_range_len_refuted :
  ~ (forall a b s r l, is_int63 a -> is_int63 b -> is_int63 s ->
       range_from a b s = Some r -> yields iter_next (ItRange (r_start r) r) (map VInt l) ->
       value_len (VRange (r_start r) (r_stop r) (r_step r)) = Some (Z.of_nat (length l))).
Proof.
  intros H. specialize (H 0 5 2 (Range 0 5 2) [0; 2; 4]).
  assert (E : Some 2 = Some 3); [|discriminate]. apply H; try (apply int63_bounds; lia); [reflexivity|].
  do 3 (eapply y_cons; [reflexivity|]). apply y_nil. intros n. apply stopped_range. left. reflexivity.
Qed.
Print Assumptions C07_range_len_refuted.
(** what does hold: it is exact iff the range is empty or the step divides the span, and
    otherwise one too small *)
Theorem C07_range_len_partial : forall a b s r l, is_int63 a -> is_int63 b -> is_int63 s ->
  range_from a b s = Some r -> yields iter_next (ItRange (r_start r) r) (map VInt l) ->
  exists n, value_len (VRange (r_start r) (r_stop r) (r_step r)) = Some n /\
    (n = Z.of_nat (length l) <-> l = [] \/ (s | b - a)) /\
    (Z.of_nat (length l) = n \/ Z.of_nat (length l) = n + 1).
Proof.
  intros a b s r l Ha Hb Hs Hr Hy.
  assert (Hn : s <> 0) by (intros ->; discriminate).
  destruct (range_iterates a b s Ha Hb Hs Hn) as (r' & l' & H1 & H2 & H3).
  rewrite Hr in H1. injection H1 as <-.
  pose proof (yields_det _ _ _ Hy _ H2) as E.
  assert (l = l') as ->.
  { clear -E. revert l' E. induction l as [|x l IH]; intros [|y l'] E; try discriminate; [reflexivity|].
    cbn in E. injection E as -> E. f_equal. apply IH, E. }
  exists (range_len r). split; [destruct r; reflexivity|]. exact (range_len_spec a b s r l' Hr H3).
Qed.
Print Assumptions C07_range_len_partial.
Example C07_ex : value_len (VRange 0 6 2) = Some 3.
Proof. reflexivity. Qed.

(** C08: the builtin reverse: exactly the elements in opposite order, and an involution *)
Theorem C08_reverse : forall v it l, to_iter v = Some it -> yields iter_next it l ->
  exists w it', builtin_reverse l = w /\ to_iter w = Some it' /\ yields iter_next it' (rev l) /\
    (forall k x, (k < length l)%nat -> nth_error l k = Some x -> nth_error (rev l) (length l - 1 - k) = Some x) /\
    builtin_reverse (rev l) = VList l.
Proof.
  intros v it l Hv Hy. exists (VList (rev l)), (ItColl 0 (rev l)). split; [reflexivity|]. split; [reflexivity|].
  split; [apply (yields_coll (rev l) [])|]. split.
  - intros k x Hk H. apply nth_error_rev; [lia|]. replace (length l - 1 - (length l - 1 - k))%nat with k by lia. exact H.
  - unfold builtin_reverse. rewrite rev_involutive. reflexivity.
Qed.
Print Assumptions C08_reverse.

(** rfind / rindex_of: last match, on every iterable that is not a range or enumerate *)
Theorem C08_rindex_of_partial : forall v it l x, to_iter v = Some it -> yields iter_next it l ->
  match v with VRange _ _ _ | VEnumerate _ => False | _ => True end ->
  Z.of_nat (length l) < 2 ^ 62 ->
  exists lr, yields iter_rev_next (iter_reverse it) lr /\
  let r := right_find_index x it lr in
  (r = -1 /\ forall y, In y l -> value_eq y x = false) \/
  (exists k y, r = Z.of_nat k /\ nth_error l k = Some y /\ value_eq y x = true /\
     forall j z, (k < j)%nat -> nth_error l j = Some z -> value_eq z x = false).
Proof. exact right_find_spec. Qed.
Print Assumptions C08_rindex_of_partial.
Example C08_ex : right_find_index (VInt 7) (ItColl 0 [VInt 7; VInt 8; VInt 7; VInt 9]) [VInt 9; VInt 7; VInt 8; VInt 7] = 2.
Proof. reflexivity. Qed.
(** the missing cases are false: `range(5) . rindex_of(0)` is -1 although 0 is an element *)
Theorem C08_rindex_of_refuted :
  ~ (forall v it l lr x, to_iter v = Some it -> yields iter_next it l ->
       yields iter_rev_next (iter_reverse it) lr -> right_find_index x it lr = -1 ->
       forall y, In y l -> value_eq y x = false).
Proof.
  intros H. destruct rev_range_bad as [H1 H2].
  assert (E : value_eq (VInt 0) (VInt 0) = false); [|discriminate].
  eapply (H (VRange 0 5 1)); [reflexivity|exact H1|exact H2|reflexivity|left; reflexivity].
Qed.
Print Assumptions C08_rindex_of_refuted.
Theorem C54_reverse_enumerate_refuted :
  ~ (forall v it l lr, to_iter v = Some it -> yields iter_next it l ->
       yields iter_rev_next (iter_reverse it) lr -> length lr = length l).
Proof.
  intros H. destruct (rev_enum_bad VNil VNil) as [H1 H2].
  specialize (H (VEnumerate (VList [VNil; VNil])) _ _ _ eq_refl H1 H2). discriminate.
Qed.
Print Assumptions C54_reverse_enumerate_refuted.

(** index_of / find: first match *)
Theorem C25_index_of : forall x l,
  (left_index x l = -1 /\ forall y, In y l -> value_eq y x = false) \/
  (exists k y, left_index x l = Z.of_nat k /\ nth_error l k = Some y /\ value_eq y x = true /\
     forall j z, (j < k)%nat -> nth_error l j = Some z -> value_eq z x = false).
Proof. exact left_index_spec. Qed.
Print Assumptions C25_index_of.
Example C25_index_of_ex : left_index (VInt 7) [VInt 8; VInt 7; VInt 7] = 1.
Proof. reflexivity. Qed.

(** iterating a collection yields exactly its contents in order *)
Theorem C54_iterate : forall v it, to_iter v = Some it ->
  match v with
  | VStr s => yields iter_next it (map (fun c => VStr [c]) s)
  | VList l | VVector l | VSet l | VHeap l => yields iter_next it l
  | VDict l => yields iter_next it (map (fun p => VVector [fst p; snd p]) l)
  | VRange _ _ _ | VEnumerate _ => True
  | _ => False
  end.
Proof. exact to_iter_yields. Qed.
Print Assumptions C54_iterate.

(** C54: enumerate pairs every element with its position, for every iterable *)
Theorem C54_enumerate : forall v it l, to_iter v = Some it -> yields iter_next it l ->
  Z.of_nat (length l) < 2 ^ 62 ->
  exists it' l', to_iter (VEnumerate v) = Some it' /\ yields iter_next it' l' /\ length l' = length l /\
    forall k x, nth_error l k = Some x -> nth_error l' k = Some (VVector [VInt (Z.of_nat k); x]).
Proof.
  intros v it l Hv Hy Hl. change (2 ^ 62) with 4611686018427387904 in Hl.
  exists (ItEnum 0 it), (map (fun p => VVector [VInt (wrap63 (i64 (Z.of_nat (fst p)))); snd p]) (combine (seq 0 (length l)) l)).
  split; [cbn; rewrite Hv; reflexivity|]. split; [apply yields_enum, Hy|].
  split; [rewrite map_length, combine_length, seq_length; lia|].
  intros k x Hk. assert (Hlt : (k < length l)%nat) by (apply nth_error_Some; congruence).
  rewrite nth_error_map.
  assert (E : nth_error (combine (seq 0 (length l)) l) k = Some (k, x)).
  { clear -Hk Hlt. assert (G : forall l i k, nth_error l k = Some x -> nth_error (combine (seq i (length l)) l) k = Some ((i + k)%nat, x)).
    { clear. induction l as [|y l IH]; intros i [|k] H; try discriminate; cbn in *.
      - injection H as ->. rewrite Nat.add_0_r. reflexivity.
      - rewrite (IH (S i) k H). rewrite <- plus_n_Sm. reflexivity. }
    rewrite (G l O k Hk). reflexivity. }
  rewrite E. cbn [option_map fst snd].
  rewrite wrap63_i64, (wrap63_id (Z.of_nat k)) by (apply int63_bounds; clear -Hlt Hl; lia). reflexivity.
Qed.
Print Assumptions C54_enumerate.
Example C54_ex : exists it, to_iter (VEnumerate (VStr [97; 98])) = Some it /\
  yields iter_next it [VVector [VInt 0; VStr [97]]; VVector [VInt 1; VStr [98]]].
Proof. eexists. split; [reflexivity|]. apply (yields_enum _ [VStr [97]; VStr [98]]). apply (yields_str [97; 98]). Qed.
