(** C20 (sets and dicts), C21 (set builtins), C22 (heaps), C23 (sort, min, max, sum, zip,
    reverse), C24 (list mutation), C38 (dict defaults), C60 (counter, dict building). *)
From Verif Require Import Base BaseProofs Native Value ValueSpec ValueProofs Err Iter Seq Ops OpsSpec OpsProofs OpsProofs2 P_Value P_Iter IterSpec Heap HeapProofs Coll CollSpec CollProofs CollProofs2 CollProofs3.
From Coq Require Import Permutation Sorted.
Local Open Scope nat_scope.

(** C20.  After any history of calls on a fresh dict: no key twice; under each key the
    last value written and not erased since; keys in the order of their births. *)
Theorem C20_dict : forall (cs : list call) log t, (forall c, In c cs -> wf_call c) ->
  do_calls cs (VDict []) [] = (log, t) -> let h := map dict_event log in
  exists l, t = VDict l /\ wf (VDict l) /\ (forall k, wf k -> dict_get l k = last_written h k) /\ by_birth h (map fst l).
Proof.
  intros cs log t Hc E h. destruct (dict_calls cs [] [] t h log Hc tracks_nil E eq_refl) as (l & -> & T).
  exists l. split; [reflexivity|]. split; [|split].
  - destruct T as (W & D & _). constructor; auto.
  - intros k Hk. rewrite <- map_get_dict_get. apply T. exact Hk.
  - apply tracks_by_birth. exact T.
Qed.
Print Assumptions C20_dict.

(** and so does reading the dict: `d[k]` *)
Theorem C20_dict_read : forall (cs : list call) log t k, (forall c, In c cs -> wf_call c) -> wf k ->
  do_calls cs (VDict []) [] = (log, t) -> exists l, t = VDict l /\
  get_dict_index None l k = (match last_written (map dict_event log) k with Some x => Ok x | None => Err (ValueErrorKeyNotPresent k) end, l).
Proof.
  intros cs log t k Hc Hk E. destruct (dict_calls cs [] [] t _ log Hc tracks_nil E eq_refl) as (l & -> & T). exists l. split; auto.
  unfold get_dict_index. destruct T as (_ & _ & G & _). rewrite (G k Hk). destruct (last_written _ k); reflexivity.
Qed.
Print Assumptions C20_dict_read.

(** a set holds exactly the elements written and not erased since, once each, by birth *)
Theorem C20_set : forall (cs : list call) log t, (forall c, In c cs -> wf_call c) ->
  do_calls cs (VSet []) [] = (log, t) -> let h := map set_event log in
  exists l, t = VSet l /\ wf (VSet l) /\ (forall x, wf x -> (mem x l <-> born h x <> None)) /\ by_birth h l.
Proof.
  intros cs log t Hc E h. destruct (set_calls cs [] [] t h log Hc tracks_nil E eq_refl) as (l & -> & T).
  exists l. split; [reflexivity|]. split; [|split].
  - destruct T as (W & D & _). rewrite tag_keys in D. constructor; auto. intros x Hx. apply (W x VNil). apply in_map_iff. exists x. auto.
  - intros x Hx. destruct T as (_ & _ & G & _). rewrite <- set_mem_spec. rewrite born_written. rewrite <- (G x Hx), tag_get.
    destruct (set_mem x l); split; congruence.
  - rewrite <- (tag_keys l). apply tracks_by_birth. exact T.
Qed.
Print Assumptions C20_set.

(** `remove` tells whether the key was there; `pop` takes the youngest *)
Theorem C20_remove_answer : forall l k, wf (VDict l) -> wf k ->
  fst (remove k (VDict l)) = Ok (VBool (match dict_get l k with Some _ => true | None => false end)).
Proof.
  intros l k Hl Hk. inversion Hl as [| | | | | | | | |l' W D| | | | | | | | | | | |]; subst. cbn [remove].
  rewrite shift_remove_without by auto. cbn [fst]. rewrite <- map_get_dict_get. reflexivity.
Qed.
Print Assumptions C20_remove_answer.
Theorem C20_pop_youngest : forall l k x, do_call CPop (VDict (l ++ [(k, x)])) = (Ok (pair_value k x), VDict l) /\
  do_call CPop (VSet (map fst l ++ [k])) = (Ok k, VSet (map fst l)) /\
  (exists e, do_call CPop (VDict []) = (Err e, VDict [])) /\ (exists e, do_call CPop (VSet []) = (Err e, VSet [])).
Proof.
  intros l k x. cbn [do_call pop]. unfold pop_back. rewrite !rev_app_distr. cbn [rev app]. rewrite !rev_involutive. repeat split; eexists; reflexivity.
Qed.
Print Assumptions C20_pop_youngest.

Definition ex_calls := [CInsert (VInt 1) (VStr [97]); CInsert (VInt 2) VNil; CStore (VInt 1) (VInt 7); CRemove (VInt 2); CInsert (VInt 3) (VInt 9); CInsert (VInt 2) (VInt 5); CPop]%Z.
Example C20_example : (forall c, In c ex_calls -> wf_call c) /\ snd (do_calls ex_calls (VDict []) []) = VDict [(VInt 1, VInt 7); (VInt 3, VInt 9)]%Z.
Proof.
  split; [|vm_compute; reflexivity]. unfold ex_calls. intros c Hc. cbn [In] in Hc.
  destruct Hc as [<-|[<-|[<-|[<-|[<-|[<-|[<-|[]]]]]]]]; cbn [wf_call]; repeat split; try constructor; unfold is_int63, MIN_INT, MAX_INT; try lia;
    intros c [<-|[]]; unfold is_char; lia.
Qed.

(** C21.  union / intersect / difference against any iterable: exact membership, no
    duplicates; union keeps the receiver's elements in place and appends the new ones in
    order, intersect keeps order. *)
Theorem C21_builtins : forall this other, wf (VSet this) -> (forall x, In x other -> wf x) ->
  (wf (VSet (builtin_union other this)) /\ (forall q, wf q -> (mem q (builtin_union other this) <-> mem q this \/ mem q other)) /\
     exists new, builtin_union other this = this ++ new /\ sublist new other) /\
  (wf (VSet (builtin_intersect other this)) /\ (forall q, wf q -> (mem q (builtin_intersect other this) <-> mem q this /\ mem q other)) /\
     sublist (builtin_intersect other this) this) /\
  (wf (VSet (builtin_difference other this)) /\ (forall q, wf q -> (mem q (builtin_difference other this) <-> mem q this /\ ~ mem q other))).
Proof. intros this other Ht Ho. split; [apply union_ok; auto|]. split; [apply intersect_ok; auto|apply difference_ok; auto]. Qed.
Print Assumptions C21_builtins.

(** ... and so the same members as the operators *)
Theorem C21_builtins_agree : forall ts fm this other, wf (VSet this) -> wf (VSet other) ->
  (exists o, binary_op ts fm BOr (VSet this) (VSet other) = Ok (VSet o) /\ forall q, wf q -> (mem q o <-> mem q (builtin_union other this))) /\
  (exists o, binary_op ts fm BAnd (VSet this) (VSet other) = Ok (VSet o) /\ forall q, wf q -> (mem q o <-> mem q (builtin_intersect other this))) /\
  (exists o, binary_op ts fm BSub (VSet this) (VSet other) = Ok (VSet o) /\ forall q, wf q -> (mem q o <-> mem q (builtin_difference other this))).
Proof.
  intros ts fm this other Ht Ho. assert (Wo : all_wf other) by (apply set_wf in Ho; tauto).
  destruct (union_ok other this Ht Wo) as (_ & U & _), (intersect_ok other this Ht Wo) as (_ & N & _), (difference_ok other this Ht Wo) as (_ & D).
  destruct (set_ops ts fm this other Ht Ho) as ((o1 & E1 & _ & _ & M1) & (o2 & E2 & _ & _ & M2) & (o3 & E3 & _ & _ & M3) & _).
  repeat split.
  - exists o3. split; auto. intros q Hq. rewrite U by auto. apply M3. auto.
  - exists o2. split; auto. intros q Hq. rewrite N by auto. apply M2. auto.
  - exists o1. split; auto. intros q Hq. rewrite D by auto. apply M1. auto.
Qed.
Print Assumptions C21_builtins_agree.

(** but `difference` does not keep the order of the remaining elements, unlike `-` *)
Theorem C21_difference_order_refuted : exists this other, wf (VSet this) /\ wf (VSet other) /\
  ~ sublist (builtin_difference other this) this /\ sublist (set_difference this other) this.
Proof.
  exists [VInt 1; VInt 2; VInt 3]%Z, [VInt 1]%Z. split; [|split; [|split]].
  - constructor; [|cbn; repeat split; intros y H; cbn in H; intuition; subst; reflexivity]. intros y [<-|[<-|[<-|[]]]]; constructor; unfold is_int63, MIN_INT, MAX_INT; lia.
  - constructor; [|cbn; repeat split; intros y []]. intros y [<-|[]]; constructor; unfold is_int63, MIN_INT, MAX_INT; lia.
  - replace (builtin_difference [VInt 1] [VInt 1; VInt 2; VInt 3])%Z with [VInt 3; VInt 2]%Z by (vm_compute; reflexivity).
    intro S. repeat match goal with H : sublist _ _ |- _ => inversion H; subst; clear H end.
  - apply sublist_filter.
Qed.
Print Assumptions C21_difference_order_refuted.

(** C22.  A heap built from any values of one ordered kind answers any history of pushes,
    pops, peeks and clears like a priority queue on the bag of those values. *)
Theorem C22_heap : forall k l cs, all_kind k l -> (forall c, In c cs -> heap_call k c) ->
  exists l', snd (do_calls cs (VHeap (vheap_of_list l)) []) = VHeap l' /\ queue l cs (answers (do_calls cs (VHeap (vheap_of_list l)) [])) l'.
Proof.
  intros k l cs Hl Hc. destruct (of_list_hok k l Hl) as [H P]. destruct (heap_queue k cs _ Hc H) as (l' & E & Q & _).
  exists l'. split; auto. eapply queue_perm; eassumption.
Qed.
Print Assumptions C22_heap.
(** popping everything sorts *)
Theorem C22_heap_sort : forall k l, all_kind k l ->
  exists xs, answers (do_calls (repeat CPop (length l)) (VHeap (vheap_of_list l)) []) = map Ok xs /\ Permutation l xs /\ ascending xs /\
  snd (do_calls (repeat CPop (length l)) (VHeap (vheap_of_list l)) []) = VHeap [].
Proof.
  intros k l Hl. destruct (C22_heap k l (repeat CPop (length l)) Hl) as (l' & E & Q).
  { intros c Hc. apply repeat_spec in Hc. subst c. exact I. }
  destruct (drain k (length l) l _ l' (all_kind_forall _ _ Hl) eq_refl Q) as (xs & A & P & S & ->). exists xs. auto.
Qed.
Print Assumptions C22_heap_sort.
Example C22_example : let l := [VInt 3; VInt 1; VInt 2; VInt 1]%Z in all_kind KReal l /\
  answers (do_calls [CPop; CPush (VInt 0); CPop; CPop; CPeek; CPop; CPop; CPop]%Z (VHeap (vheap_of_list l)) []) =
  [Ok (VInt 1); Ok (VHeap [VInt 0; VInt 1; VInt 2; VInt 3]); Ok (VInt 0); Ok (VInt 1); Ok (VInt 2); Ok (VInt 2); Ok (VInt 3); Err (ValueErrorArgMustBeNonEmpty NF_Pop)]%Z.
Proof.
  split; [|vm_compute; reflexivity]. intros x Hx. cbn in Hx. destruct Hx as [<-|[<-|[<-|[<-|[]]]]]; split; constructor; unfold is_int63, MIN_INT, MAX_INT; lia.
Qed.
(** two heaps compare by their tops, in reverse: the one with the smaller minimum is the greater *)
Theorem C22_heap_order : forall x l y r, value_cmp (VHeap (x :: l)) (VHeap (y :: r)) = CompOpp (value_cmp x y) /\
  vlt (VHeap []) (VHeap (y :: r)) = true.
Proof. intros. split; reflexivity. Qed.
Print Assumptions C22_heap_order.

(** C23.  sort gives an ascending rearrangement of its input; any ascending rearrangement
    is the same up to ==. *)
Theorem C23_sort : forall k l, all_kind k l -> Permutation l (builtin_sort l) /\ ascending (builtin_sort l) /\
  forall s, Permutation l s -> ascending s -> Forall2 (fun a b => value_eq a b = true) s (builtin_sort l).
Proof.
  intros k l Hl. destruct (sort_ok k l Hl) as [P A]. split; auto. split; auto. intros s Ps As.
  apply (sorted_unique k); auto.
  - intros x Hx. apply Hl. eapply Permutation_in; [symmetry; exact Ps|exact Hx].
  - etransitivity; [symmetry; exact Ps|exact P].
Qed.
Print Assumptions C23_sort.
(** min is the first minimum, max the last maximum; both fail exactly on nothing *)
Theorem C23_min_max : forall k l, all_kind k l ->
  (l = [] /\ builtin_min l = Err (ValueErrorArgMustBeNonEmpty NF_Min) /\ builtin_max l = Err (ValueErrorArgMustBeNonEmpty NF_Max)) \/
  (exists l1 m l2, l = l1 ++ m :: l2 /\ builtin_min l = Ok m /\ (forall y, In y l1 -> vlt m y = true) /\ (forall y, In y l2 -> vle m y = true)) /\
  (exists l1 m l2, l = l1 ++ m :: l2 /\ builtin_max l = Ok m /\ (forall y, In y l1 -> vle y m = true) /\ (forall y, In y l2 -> vlt y m = true)).
Proof.
  intros k l Hl. destruct l as [|x l]; [left; auto|right]. split; [apply (min_ok k)|apply (max_ok k)]; auto; discriminate.
Qed.
Print Assumptions C23_min_max.
(** sum of ints (and booleans) is their total, wrapped; the first other element is the error *)
Theorem C23_sum : forall l zs, Forall2 is_int_value l zs ->
  (exists z, builtin_sum l = Ok (VInt z) /\ wraps_to z (total zs)) /\
  (forall v l2, as_int_opt v = None -> builtin_sum (l ++ v :: l2) = Err (TypeErrorArgMustBeInt v)).
Proof. intros l zs F. split; [apply sum_ok; auto|]. intros v l2. apply (sum_err l zs v l2 F). Qed.
Print Assumptions C23_sum.
(** zip: one row per position of the shortest argument, holding the elements at that position *)
Theorem C23_zip : forall ls, ls <> [] -> exists rows, builtin_zip ls = Ok (VList (map VVector rows)) /\
  (forall l, In l ls -> length rows <= length l) /\ (exists l, In l ls /\ length l = length rows) /\
  forall i row, nth_error rows i = Some row -> map (fun l => nth_error l i) ls = map Some row.
Proof.
  intros ls Hn. destruct ls as [|l ls]; [contradiction|]. unfold builtin_zip.
  destruct (zip_loop_ok (S (length l)) (l :: ls)) as (rows & E & H); auto; [exists l; cbn; auto|]. exists rows. rewrite E. split; auto.
Qed.
Print Assumptions C23_zip.
Theorem C23_reverse : forall l, exists r, builtin_reverse l = VList r /\ builtin_reverse r = VList l /\ length r = length l /\
  forall i, i < length l -> nth_error r i = nth_error l (length l - 1 - i).
Proof.
  intro l. exists (rev l). unfold builtin_reverse. rewrite rev_involutive, rev_length. repeat split; auto.
  intros i Hi. destruct (nth_error l (length l - 1 - i)) as [x|] eqn:E; [|apply nth_error_None in E; lia].
  rewrite (nth_error_nth' (rev l) x) by (rewrite rev_length; lia). f_equal. rewrite rev_nth by lia.
  apply nth_error_nth with (d := x) in E. rewrite <- E at 2. f_equal. lia.
Qed.
Print Assumptions C23_reverse.
Example C23_example : builtin_sort [VInt 2; VBool true; VInt 1; VNil]%Z = [VNil; VBool true; VInt 1; VInt 2]%Z /\
  builtin_max [VRational 1 1; VInt 1; VInt 0]%Z = Ok (VInt 1)%Z /\ builtin_zip [[VInt 1; VInt 2]; [VNil]]%Z = Ok (VList [VVector [VInt 1; VNil]])%Z.
Proof. repeat split; reflexivity. Qed.

(** C24.  Lists.  [insert i] splits the list at [i]; it fails exactly outside 0..len and
    then changes nothing. *)
Theorem C24_insert : forall (l : list value) v i x, is_int_value v i ->
  ((0 <= i <= Z.of_nat (length l))%Z /\ exists l1 l2, l = l1 ++ l2 /\ Z.of_nat (length l1) = i /\
     do_call (CInsert v x) (VList l) = (Ok (VList (l1 ++ x :: l2)), VList (l1 ++ x :: l2))) \/
  (~ (0 <= i <= Z.of_nat (length l))%Z /\ do_call (CInsert v x) (VList l) = (Err (ValueErrorIndexOutOfBounds i (Z.of_nat (length l))), VList l)).
Proof.
  intros l v i x Hv. cbn [do_call insert]. rewrite (is_int_checked v i Hv).
  destruct (Z.leb_spec 0 i); cbn [andb]; [destruct (Z.ltb_spec i (Z.of_nat (length l))); [|destruct (Z.eqb_spec i (Z.of_nat (length l)))]|].
  - left. split; [lia|]. exists (firstn (Z.to_nat i) l), (skipn (Z.to_nat i) l). rewrite firstn_skipn, firstn_length. repeat split. lia.
  - left. split; [lia|]. exists l, []. rewrite app_nil_r. repeat split. lia.
  - right. split; [lia|reflexivity].
  - right. split; [lia|]. destruct (Z.eqb_spec i (Z.of_nat (length l))); [lia|reflexivity].
Qed.
Print Assumptions C24_insert.
Theorem C24_remove : forall (l : list value) v i, is_int_value v i ->
  (exists l1 y l2, l = l1 ++ y :: l2 /\ Z.of_nat (length l1) = i /\ do_call (CRemove v) (VList l) = (Ok y, VList (l1 ++ l2))) \/
  (~ (0 <= i < Z.of_nat (length l))%Z /\ do_call (CRemove v) (VList l) = (Err (ValueErrorIndexOutOfBounds i (Z.of_nat (length l))), VList l)).
Proof.
  intros l v i Hv. cbn [do_call remove]. rewrite (is_int_checked v i Hv).
  destruct (Z.leb_spec 0 i); cbn [andb]; [destruct (Z.ltb_spec i (Z.of_nat (length l)))|].
  - left. destruct (nth_error l (Z.to_nat i)) as [y|] eqn:E; [|apply nth_error_None in E; lia].
    apply nth_error_split in E. destruct E as (l1 & l2 & -> & L). exists l1, y, l2. split; [reflexivity|]. split; [lia|].
    rewrite <- L, firstn_app, Nat.sub_diag, firstn_all. cbn [firstn]. rewrite app_nil_r.
    do 3 f_equal. rewrite skipn_app. rewrite skipn_all2 by lia. replace (S (length l1) - length l1) with 1 by lia. reflexivity.
  - right. split; [lia|reflexivity].
  - right. split; [lia|reflexivity].
Qed.
Print Assumptions C24_remove.
(** the ends, and `clear`; a non-int position is an error and changes nothing *)
Theorem C24_ends : forall (l : list value) x,
  do_call (CPush x) (VList l) = (Ok (VList (l ++ [x])), VList (l ++ [x])) /\
  do_call (CPushFront x) (VList l) = (Ok (VList (x :: l)), VList (x :: l)) /\
  do_call CPop (VList (l ++ [x])) = (Ok x, VList l) /\ do_call CPopFront (VList (x :: l)) = (Ok x, VList l) /\
  do_call CPop (VList []) = (Err (ValueErrorArgMustBeNonEmpty NF_Pop), VList []) /\
  do_call CPopFront (VList []) = (Err (ValueErrorArgMustBeNonEmpty NF_PopFront), VList []) /\
  do_call CClear (VList l) = (Ok (VList []), VList []) /\ do_call CPeek (VList (x :: l)) = (Ok x, VList (x :: l)) /\
  forall v, as_int_opt v = None ->
    do_call (CInsert v x) (VList l) = (Err (TypeErrorArgMustBeInt v), VList l) /\ do_call (CRemove v) (VList l) = (Err (TypeErrorArgMustBeInt v), VList l).
Proof.
  intros l x. assert (P : do_call CPop (VList (l ++ [x])) = (Ok x, VList l)).
  { cbn [do_call pop]. unfold pop_back. rewrite rev_app_distr. cbn [rev app]. rewrite rev_involutive. reflexivity. }
  do 8 (split; [first [exact P|reflexivity]|]).
  intros v E. cbn [do_call insert remove]. unfold as_int_checked. rewrite E. auto.
Qed.
Print Assumptions C24_ends.
(** no call on any collection crashes, and a failed call changes nothing *)
Theorem C24_failure_atomic : forall c t, fst (do_call c t) <> Panic /\ (forall e, fst (do_call c t) = Err e -> snd (do_call c t) = t).
Proof.
  intros c t.
  assert (OK : forall (v t' : value), fst (@Ok value v, t') <> Panic /\ (forall e, fst (@Ok value v, t') = Err e -> snd (@Ok value v, t') = t)) by (intros; split; discriminate).
  assert (ER : forall e, fst (@Err value e, t) <> Panic /\ (forall e', fst (@Err value e, t) = Err e' -> snd (@Err value e, t) = t)) by (intros; split; [discriminate|reflexivity]).
  destruct c; cbn [do_call].
  - destruct t; cbn [push]; auto.
  - destruct t; cbn [push_front]; auto.
  - destruct t as [| | | | | |l|l|l|l|l| | | | | | | | | | |]; cbn [pop]; auto.
    + destruct (pop_back l) as [[x l']|]; auto.
    + destruct (pop_back l) as [[x l']|]; auto.
    + destruct (pop_back l) as [[[k x] l']|]; auto.
    + destruct (vheap_pop l) as [[x l']|]; auto.
  - destruct t as [| | | | | |l|l|l|l|l| | | | | | | | | | |]; cbn [pop_front]; auto. destruct l; auto.
  - split; [|reflexivity]. cbn [fst]. unfold peek. destruct (match t with VList _ => _ | _ => _ end) as [[x|]|]; discriminate.
  - destruct t as [| | | | | |l|l|l|l|l| | | | | | | | | | |]; cbn [insert]; auto.
    unfold as_int_checked. destruct (as_int_opt i) as [z|]; auto. destruct ((0 <=? z)%Z && (z <? Z.of_nat (length l))%Z); auto. destruct (z =? Z.of_nat (length l))%Z; auto.
  - assert (ST : forall l, set_index (VList l) i x <> Panic /\ set_index (VVector l) i x <> Panic).
    { intro l. unfold set_index. cbn [index_len]. unfold check_index, as_int_checked. destruct (as_int_opt i) as [z|]; cbn [bind]; [|split; discriminate].
      destruct (Z.ltb_spec (u64 (to_index (Z.of_nat (length l)) z)) (Z.of_nat (length l))); cbn [bind]; [|split; discriminate].
      assert (L : Z.to_nat (u64 (to_index (Z.of_nat (length l)) z)) < length l).
      { assert (U : (0 <= u64 (to_index (Z.of_nat (length l)) z))%Z) by (unfold u64, uwrap; apply Z.mod_pos_bound; reflexivity). lia. }
      apply Nat.ltb_lt in L. rewrite L. split; discriminate. }
    destruct t as [| | | | |s|l|l|l|l|l| | | | | | | | | | |]; cbn [store_index]; try (apply OK); try (cbn [set_index index_len]; apply ER).
    + cbn [set_index index_len]. unfold check_index, as_int_checked. destruct (as_int_opt i) as [z|]; cbn [bind]; auto; try (destruct (_ <? _)%Z; cbn [bind]; auto).
    + destruct (ST l) as [S1 _]. destruct (set_index (VList l) i x); auto; contradiction.
    + destruct (ST l) as [_ S2]. destruct (set_index (VVector l) i x); auto; contradiction.
  - destruct t as [| | | | | |l|l|l|l|l| | | | | | | | | | |]; cbn [remove]; auto.
    + unfold as_int_checked. destruct (as_int_opt x) as [z|]; auto. destruct (Z.leb_spec 0 z); cbn [andb]; auto. destruct (Z.ltb_spec z (Z.of_nat (length l))); auto.
      destruct (nth_error l (Z.to_nat z)) eqn:E; auto. apply nth_error_None in E. lia.
    + destruct (set_shift_remove x l); auto.
    + destruct (map_shift_remove x l); auto.
  - destruct t; cbn [clear]; auto.
Qed.
Print Assumptions C24_failure_atomic.
Example C24_example : snd (do_calls [CInsert (VInt 1) (VInt 9); CPush VNil; CInsert (VInt 7) VNil; CRemove (VInt 0); CPopFront]%Z (VList [VInt 1; VInt 2]%Z) []) = VList [VInt 2; VNil]%Z.
Proof. reflexivity. Qed.

(** C38.  Reading a dict: a present key never consults the default and changes nothing. *)
Theorem C38_present : forall default l k x, dict_get l k = Some x -> get_dict_index default l k = (Ok x, l).
Proof. intros default l k x E. rewrite <- map_get_dict_get in E. unfold get_dict_index. rewrite E. destruct default; reflexivity. Qed.
Print Assumptions C38_present.
(** without a default a missing key is an error and changes nothing *)
Theorem C38_missing : forall l k, dict_get l k = None -> get_dict_index None l k = (Err (ValueErrorKeyNotPresent k), l).
Proof. intros l k E. rewrite <- map_get_dict_get in E. unfold get_dict_index. rewrite E. reflexivity. Qed.
Print Assumptions C38_missing.
(** with a default, the default's answer [v] is stored (as youngest entry) and returned,
    unless the default itself stored something under the key meanwhile: that is then kept
    and returned.  A failing default stores nothing of its own. *)
Theorem C38_default : forall (f : entries -> result value * entries) l k, dict_get l k = None ->
  (forall v l', f l = (Ok v, l') -> dict_get l' k = None -> get_dict_index (Some f) l k = (Ok v, l' ++ [(k, v)])) /\
  (forall v l' x, f l = (Ok v, l') -> dict_get l' k = Some x -> get_dict_index (Some f) l k = (Ok x, l')) /\
  (forall e l', f l = (Err e, l') -> get_dict_index (Some f) l k = (Err e, l')).
Proof.
  intros f l k E. rewrite <- map_get_dict_get in E. unfold get_dict_index, map_or_insert. rewrite E. split; [|split].
  - intros v l' F G. rewrite <- map_get_dict_get in G. rewrite F, G. reflexivity.
  - intros v l' x F G. rewrite <- map_get_dict_get in G. rewrite F, G. reflexivity.
  - intros e l' F. rewrite F. reflexivity.
Qed.
Print Assumptions C38_default.
(** so the default is consulted once per key: the next read, whatever the default is by
    then, gives the same answer from the dict *)
Theorem C38_once : forall (f : entries -> result value * entries) g l k v l', wf k ->
  get_dict_index (Some f) l k = (Ok v, l') -> get_dict_index g l' k = (Ok v, l').
Proof.
  intros f g l k v l' Hk E. apply C38_present. destruct (dict_get l k) as [x|] eqn:G.
  - rewrite (C38_present _ _ _ _ G) in E. injection E as <- <-. exact G.
  - destruct (C38_default f l k G) as (H1 & H2 & H3). destruct (f l) as [[y|e|] m] eqn:F.
    + destruct (dict_get m k) as [z|] eqn:M.
      * rewrite (H2 _ _ _ eq_refl M) in E. injection E as <- <-. exact M.
      * rewrite (H1 _ _ eq_refl M) in E. injection E as <- <-. rewrite <- map_get_dict_get in *. clear - M Hk.
        induction m as [|[k' x] m IH]; cbn [map_get app] in *; [rewrite key_match_refl by auto; reflexivity|]. destruct (key_match k k'); [discriminate|auto].
    + rewrite (H3 _ _ eq_refl) in E. discriminate.
    + unfold get_dict_index in E. rewrite <- map_get_dict_get in G. rewrite G, F in E. discriminate.
Qed.
Print Assumptions C38_once.
Example C38_example : let d := fun l : entries => (Ok (VList []), l) in
  get_dict_index (Some d) [(VInt 1, VNil)] (VInt 2) = (Ok (VList []), [(VInt 1, VNil); (VInt 2, VList [])])%Z.
Proof. reflexivity. Qed.

(** C60.  counter: one entry per distinct element, in order of first appearance, holding
    the number of its occurrences. *)
Theorem C60_counter : forall l, (forall x, In x l -> wf x) -> exists d, counter l = VDict d /\ map fst d = to_set l /\
  forall q, wf q -> dict_get d q = match occurrences q l with O => None | n => Some (VInt (wrap63 (Z.of_nat n))) end.
Proof. exact counter_ok. Qed.
Print Assumptions C60_counter.
(** dict(pairs): the same as writing the pairs one after the other; keys() and values()
    list the entries in order *)
Theorem C60_collect : forall ps, (forall k x, In (k, x) ps -> wf k /\ wf x) ->
  exists l, collect_into_dict (map (fun p => pair_value (fst p) (snd p)) ps) = Ok (VDict l) /\ wf (VDict l) /\
  let h := rev (map (fun p => Wrote (fst p) (snd p)) ps) in
  (forall k, wf k -> dict_get l k = last_written h k) /\ by_birth h (map fst l) /\
  dict_keys l = VSet (map fst l) /\ dict_values l = VList (map snd l).
Proof.
  intros ps W. assert (E : map_result to_pair (map (fun p => pair_value (fst p) (snd p)) ps) = Ok ps).
  { clear W. induction ps as [|[k x] ps IH]; cbn [map map_result]; auto. rewrite IH. reflexivity. }
  unfold collect_into_dict. rewrite E. cbn [bind]. eexists. split; [reflexivity|].
  pose proof (collect_fold ps [] [] tracks_nil W) as T. rewrite app_nil_r in T.
  set (l := fold_left _ _ _) in *. split; [destruct T as (W' & D & _); constructor; auto|]. split; [intros k Hk; rewrite <- map_get_dict_get; apply T; auto|].
  split; [apply tracks_by_birth; exact T|]. split; [|reflexivity]. unfold dict_keys. rewrite to_set_id; auto; [|apply T].
  intros k Hk. destruct T as (W' & _). eapply wf_entries_key; eassumption.
Qed.
Print Assumptions C60_collect.
(** a list with anything but pairs is rejected *)
Theorem C60_collect_error : forall ps v l, (forall a b, v <> VList [a; b] /\ v <> VVector [a; b]) ->
  collect_into_dict (map (fun p => pair_value (fst p) (snd p)) ps ++ v :: l) = Err (ValueErrorCannotCollectIntoDict v).
Proof.
  intros ps v l H. unfold collect_into_dict. assert (E : map_result to_pair (map (fun p => pair_value (fst p) (snd p)) ps ++ v :: l) = Err (ValueErrorCannotCollectIntoDict v)).
  { induction ps as [|[k x] ps IH]; cbn [map map_result app].
    - assert (E : to_pair v = Err (ValueErrorCannotCollectIntoDict v)); [|rewrite E; reflexivity].
      destruct v; try reflexivity; destruct l0 as [|a [|b [|c r]]]; try reflexivity; destruct (H a b); congruence.
    - rewrite IH. reflexivity. }
  rewrite E. reflexivity.
Qed.
Print Assumptions C60_collect_error.
Example C60_example : counter [VInt 3; VStr [97]; VInt 3]%Z = VDict [(VInt 3, VInt 2); (VStr [97], VInt 1)]%Z.
Proof. reflexivity. Qed.

(** C57: `x in r` for an int and a range, through the operator: membership in the progression *)
Theorem C57_in_range : forall ts fm a b s r l v x, is_int63 a -> is_int63 b -> is_int63 s -> is_int_value v x ->
  range_from a b s = Some r -> yields iter_next (ItRange (r_start r) r) (map VInt l) ->
  exists c, binary_op ts fm BIn v (VRange (r_start r) (r_stop r) (r_step r)) = Ok (VBool c) /\
            binary_op ts fm BNotIn v (VRange (r_start r) (r_stop r) (r_step r)) = Ok (VBool (negb c)) /\ (c = true <-> In x l).
Proof.
  intros ts fm a b s r l v x Ha Hb Hs Hv Hr Hy. exists (range_contains r x).
  assert (Hx : is_int63 x) by (destruct Hv as [[_ ?]|[[_ ->]|[_ ->]]]; auto; unfold is_int63, MIN_INT, MAX_INT; lia).
  rewrite (C06_range_membership a b s r l x) by auto.
  destruct r as [r1 r2 r3]. cbn [r_start r_stop r_step].
  assert (E : forall inv, binary_in v (VRange r1 r2 r3) inv = Ok (VBool (negb (Bool.eqb (range_contains (Range r1 r2 r3) x) inv)))).
  { intro inv. destruct Hv as [[-> _]|[[-> ->]|[-> ->]]]; reflexivity. }
  cbn [binary_op]. rewrite !E. destruct (range_contains (Range r1 r2 r3) x); repeat split; auto.
Qed.
Print Assumptions C57_in_range.
