(** C25 (callbacks), C26 (chunks and groups), C61 (min_by, max_by).

    In all statements [W] is the state of the program, the collection is read live through
    [elems], and the callback [f] may change the state, the collection included.
    [exists fuel] says: the builtin returns. *)
From Verif Require Import Base Native Value ValueSpec ValueProofs Err Iter Seq Ops OpsSpec OpsProofs2 Coll CollSpec CollProofs CollProofs2 CollProofs3 Hof HofSpec HofProofs.
From Coq Require Import Permutation.
Local Open Scope nat_scope.

Lemma fails_ended {W A} (elems : W -> list value) f (k : nat -> value -> A -> value -> result (A + value)) (g : A -> value) acc (w : W) r w' :
  (forall i x a y, exists b, k i x a y = Ok (inl b)) ->
  (exists r0, ended elems f k 0 acc w r0 w' /\ r = fin g r0) <->
  (exists xs ys a, visits_all elems f w xs ys w' /\ steps k 0 acc xs ys = Some a /\ r = Ok (g a)) \/ fails_at elems f w r w'.
Proof.
  intros K. assert (ST : forall xs ys i a, length xs = length ys -> exists b, steps k i a xs ys = Some b).
  { induction xs as [|x xs IH]; intros [|y ys] i a L; try discriminate; cbn [steps]; [eauto|]. destruct (K i x a y) as [b ->]. apply IH. injection L; auto. }
  split.
  - intros (r0 & [(xs & ys & a & V & N & S & ->)|(xs & ys & a & x & o & w1 & V & S & N & F & R)] & ->).
    + left. exists xs, ys, a. cbn [Nat.add] in N. repeat split; auto.
    + right. exists xs, ys, x. cbn [Nat.add] in N, R. destruct R as [(e & -> & ->)|[[-> ->]|(y & -> & -> & NB)]].
      * split; [exists w1; auto|discriminate].
      * split; [exists w1; auto|discriminate].
      * destruct (K (length xs) x a y) as [b E]. exfalso. apply (NB b). exact E.
  - intros [(xs & ys & a & [V N] & S & ->)|(xs & ys & x & (w1 & V & N & F) & NB)].
    + exists (Ok (inl a)). split; [|reflexivity]. left. exists xs, ys, a. auto.
    + destruct (ST xs ys 0 acc (visits_len _ _ _ _ _ _ _ V)) as [a S].
      destruct r as [y|e|]; [exfalso; apply (NB y); reflexivity| |].
      * exists (Err e). split; [|reflexivity]. right. exists xs, ys, a, x, (Err e), w1. cbn [Nat.add]. repeat split; auto. left. eauto.
      * exists Panic. split; [|reflexivity]. right. exists xs, ys, a, x, Panic, w1. cbn [Nat.add]. repeat split; auto.
Qed.

(** C25.  map(f, c): f is called once on each element, in order; the result is the list of
    the answers; the first failure is the result and ends the calls. *)
Theorem C25_map : forall W (elems : W -> list value) f w r w',
  (exists fuel, hof_map elems (Ok tt) (Ok tt) f fuel w = Some (r, w')) <->
  (exists xs ys, visits_all elems f w xs ys w' /\ r = Ok (VList ys)) \/ fails_at elems f w r w'.
Proof.
  intros. unfold hof_map, checked.
  change (fun (_ : nat) x acc w => then_ (f x w) (fun y => Ok (inl (acc ++ [y])))) with (body_of f (fun (_ : nat) (_ : value) acc y => @Ok (list value + value) (inl (acc ++ [y])))).
  rewrite finish_iff, fails_ended by eauto. split; (intros [(xs & ys & H)|H]; [left|auto]).
  - destruct H as (a & V & S & ->). exists xs, ys. split; auto. rewrite steps_map in S by (eapply visits_len; apply V). injection S as <-. reflexivity.
  - destruct H as [V ->]. exists xs, ys, ys. split; auto. rewrite steps_map by (eapply visits_len; apply V). auto.
Qed.
Print Assumptions C25_map.

(** filter(f, c): the elements whose answer is true, in order *)
Theorem C25_filter : forall W (elems : W -> list value) f w r w',
  (exists fuel, hof_filter elems (Ok tt) (Ok tt) f fuel w = Some (r, w')) <->
  (exists xs ys, visits_all elems f w xs ys w' /\ r = Ok (VList (selected xs ys))) \/ fails_at elems f w r w'.
Proof.
  intros. unfold hof_filter, checked.
  change (fun (_ : nat) x acc w => then_ (f x w) (fun y => Ok (inl (if to_bool y then acc ++ [x] else acc)))) with
    (body_of f (fun (_ : nat) (x : value) acc y => @Ok (list value + value) (inl (if to_bool y then acc ++ [x] else acc)))).
  rewrite finish_iff, fails_ended by eauto. split; (intros [(xs & ys & H)|H]; [left|auto]).
  - destruct H as (a & V & S & ->). exists xs, ys. split; auto. rewrite steps_filter in S by (eapply visits_len; apply V). injection S as <-. reflexivity.
  - destruct H as [V ->]. exists xs, ys, (selected xs ys). split; auto. rewrite steps_filter by (eapply visits_len; apply V). auto.
Qed.
Print Assumptions C25_filter.

(** any / all, find / index_of: stop at the first element whose answer is [b] *)
Lemma stop_first {W} (elems : W -> list value) f (b : bool) (v : nat -> value -> value) (none : value) w r w' :
  (exists fuel, finish (fun _ : unit => none) (live elems fuel 0 (body_of f (fun i x (_ : unit) y => Ok (if Bool.eqb (to_bool y) b then inr (v i x) else inl tt))) tt w) = Some (r, w')) <->
  (exists xs ys, visits_all elems f w xs ys w' /\ (forall y, In y ys -> to_bool y = negb b) /\ r = Ok none) \/
  (exists xs ys x y, visits_until elems f w xs ys x (Ok y) w' /\ (forall y, In y ys -> to_bool y = negb b) /\ to_bool y = b /\ r = Ok (v (length xs) x)) \/
  (exists xs ys x, visits_until elems f w xs ys x r w' /\ (forall y, In y ys -> to_bool y = negb b) /\ forall y, r <> Ok y).
Proof.
  rewrite finish_iff. split.
  - intros (r0 & [(xs & ys & [] & V & N & S & ->)|(xs & ys & [] & x & o & w1 & V & S & N & F & R)] & ->); cbn [Nat.add] in *;
      pose proof (proj1 (steps_pred b v xs ys 0 (visits_len _ _ _ _ _ _ _ V)) S) as S'; clear S; rename S' into S.
    + left. exists xs, ys. repeat split; auto.
    + right. destruct R as [(e & -> & ->)|[[-> ->]|(y & -> & -> & NB)]].
      * right. exists xs, ys, x. cbn [fin]. repeat split; auto; [exists w1; auto|discriminate].
      * right. exists xs, ys, x. cbn [fin]. repeat split; auto; [exists w1; auto|discriminate].
      * left. exists xs, ys, x, y. destruct (Bool.eqb_spec (to_bool y) b) as [E|E]; [|exfalso; apply (NB tt); reflexivity].
        cbn [fin]. repeat split; auto. exists w1. auto.
  - intros [(xs & ys & [V N] & S & ->)|[(xs & ys & x & y & (w1 & V & N & F) & S & T & ->)|(xs & ys & x & (w1 & V & N & F) & S & NB)]];
      pose proof (proj2 (steps_pred b v xs ys 0 (visits_len _ _ _ _ _ _ _ V)) S) as S'; clear S; rename S' into S.
    + exists (Ok (inl tt)). split; auto. left. exists xs, ys, tt. auto.
    + exists (Ok (inr (v (length xs) x))). split; auto. right. exists xs, ys, tt, x, (Ok y), w1. cbn [Nat.add]. repeat split; auto. right. right. exists y.
      rewrite T, Bool.eqb_reflx. repeat split. discriminate.
    + destruct r as [y|e|]; [exfalso; apply (NB y); reflexivity| |].
      * exists (Err e). split; auto. right. exists xs, ys, tt, x, (Err e), w1. cbn [Nat.add]. repeat split; auto. left. eauto.
      * exists Panic. split; auto. right. exists xs, ys, tt, x, Panic, w1. cbn [Nat.add]. repeat split; auto.
Qed.
Theorem C25_any_all : forall W (elems : W -> list value) f (is_any : bool) w r w',
  (exists fuel, hof_predicate elems (Ok tt) (Ok tt) f is_any fuel w = Some (r, w')) <->
  (exists xs ys, visits_all elems f w xs ys w' /\ (forall y, In y ys -> to_bool y = negb is_any) /\ r = Ok (VBool (negb is_any))) \/
  (exists xs ys x y, visits_until elems f w xs ys x (Ok y) w' /\ (forall y, In y ys -> to_bool y = negb is_any) /\ to_bool y = is_any /\ r = Ok (VBool is_any)) \/
  (exists xs ys x, visits_until elems f w xs ys x r w' /\ (forall y, In y ys -> to_bool y = negb is_any) /\ forall y, r <> Ok y).
Proof. intros. unfold hof_predicate, checked. apply (stop_first elems f is_any (fun _ _ => VBool is_any)). Qed.
Print Assumptions C25_any_all.
Theorem C25_find : forall W (elems : W -> list value) f (return_index : bool) w r w',
  (exists fuel, hof_find elems (Ok tt) (Ok tt) f return_index fuel w = Some (r, w')) <->
  (exists xs ys, visits_all elems f w xs ys w' /\ (forall y, In y ys -> to_bool y = false) /\ r = Ok (if return_index then VInt (-1) else VNil)) \/
  (exists xs ys x y, visits_until elems f w xs ys x (Ok y) w' /\ (forall y, In y ys -> to_bool y = false) /\ to_bool y = true /\
     r = Ok (if return_index then usize_value (length xs) else x)) \/
  (exists xs ys x, visits_until elems f w xs ys x r w' /\ (forall y, In y ys -> to_bool y = false) /\ forall y, r <> Ok y).
Proof.
  intros. rewrite <- (stop_first elems f true (fun i x => if return_index then usize_value i else x) (if return_index then VInt (-1) else VNil)).
  unfold hof_find, checked.
  enough (G : forall fuel i u w, live elems fuel i (fun i x (acc : unit) w => then_ (f x w) (fun y => Ok (if to_bool y then inr (if return_index then usize_value i else x) else inl tt))) u w =
    live elems fuel i (body_of f (fun i x (_ : unit) y => Ok (if Bool.eqb (to_bool y) true then inr (if return_index then usize_value i else x) else inl tt))) u w)
    by (split; intros [n E]; exists n; [rewrite <- G|rewrite G]; exact E).
  induction fuel as [|n IH]; intros i u w0; cbn [live]; [reflexivity|]. destruct (nth_error (elems w0) i) as [x|]; [|reflexivity].
  unfold body_of at 1, then_. destruct (f x w0) as [[y|e|] w1]; try reflexivity. replace (Bool.eqb (to_bool y) true) with (to_bool y) by (destruct (to_bool y); reflexivity).
  destruct (to_bool y); [reflexivity|apply IH].
Qed.
Print Assumptions C25_find.

(** rfind / rindex_of: the same, from the end, when the function leaves the collection alone *)
Theorem C25_rfind : forall W (elems : W -> list value) f (return_index : bool) w, leaves_alone elems f ->
  exists r w', hof_rfind elems (Ok tt) (Ok tt) f return_index w = Some (r, w') /\
  ((exists ys, visits_all (fun _ => rev (elems w)) f w (rev (elems w)) ys w' /\ (forall y, In y ys -> to_bool y = false) /\ r = Ok (if return_index then VInt (-1) else VNil)) \/
   (exists xs ys x y, visits_until (fun _ => rev (elems w)) f w xs ys x (Ok y) w' /\ (forall y, In y ys -> to_bool y = false) /\ to_bool y = true /\
      r = Ok (if return_index then usize_value (length (elems w) - 1 - length xs) else x)) \/
   (exists xs ys x, visits_until (fun _ => rev (elems w)) f w xs ys x r w' /\ (forall y, In y ys -> to_bool y = false) /\ forall y, r <> Ok y)).
Proof.
  intros W elems f ri w LA. unfold hof_rfind. rewrite checked_ok. remember (elems w) as l eqn:El.
  enough (G : forall n i w0, n + i = length l -> elems w0 = l -> exists r w', live_rev elems f n i (length l) ri w0 = (r, w') /\
    ((exists xs ys, visits (fun _ => rev l) f i w0 xs ys w' /\ xs = skipn i (rev l) /\ (forall y, In y ys -> to_bool y = false) /\ r = Ok (if ri then VInt (-1) else VNil)) \/
     (exists xs ys x w1, visits (fun _ => rev l) f i w0 xs ys w1 /\ (forall y, In y ys -> to_bool y = false) /\ nth_error (rev l) (i + length xs) = Some x /\
        ((exists y, f x w1 = (Ok y, w') /\ to_bool y = true /\ r = Ok (if ri then usize_value (length l - 1 - (i + length xs)) else x)) \/
         (f x w1 = (r, w') /\ forall y, r <> Ok y))))).
  { destruct (G (length l) 0 w (Nat.add_0_r _) (eq_sym El)) as (r & w' & E & H). exists r, w'. rewrite E. split; [reflexivity|].
    destruct H as [(xs & ys & V & Ex & A & R)|(xs & ys & x & w1 & V & A & N & [(y & F & T & R)|[F NB]])].
    - left. exists ys. subst xs. repeat split; auto. apply nth_error_None. lia.
    - right. left. exists xs, ys, x, y. repeat split; auto. exists w1. auto.
    - right. right. exists xs, ys, x. repeat split; auto. exists w1. auto. }
  clear El w. induction n as [|n IH]; intros i w0 L El; cbn [live_rev].
  - eexists _, _. split; [reflexivity|]. left. exists [], []. rewrite skipn_all2 by (rewrite rev_length; lia). repeat split; auto; [constructor|intros y []].
  - rewrite El. destruct (nth_error l n) as [x|] eqn:N; [|apply nth_error_None in N; lia].
    assert (Nr : nth_error (rev l) i = Some x).
    { rewrite (nth_error_nth' _ x) by (rewrite rev_length; lia). rewrite rev_nth by lia. apply nth_error_nth with (d := x) in N. rewrite <- N at 2. do 2 f_equal. lia. }
    pose proof (LA x w0) as LA0. destruct (f x w0) as [o w1] eqn:F. cbn [snd] in LA0. destruct o as [y|e|].
    + destruct (to_bool y) eqn:T.
      * eexists _, _. split; [reflexivity|]. right. exists [], [], x, w0. cbn [length]. rewrite Nat.add_0_r. repeat split; [constructor|intros z []|exact Nr|]. left. exists y. auto.
      * destruct (IH (S i) w1) as (r & w' & E & H); [lia|congruence|]. exists r, w'. split; [exact E|].
        destruct H as [(xs & ys & V & Ex & A & R)|(xs & ys & x' & w2 & V & A & N' & H)].
        -- left. exists (x :: xs), (y :: ys). split; [econstructor; eauto|]. split; [|split; auto].
           ++ subst xs. clear - Nr. revert Nr. generalize (rev l). intro l'. revert i. induction l' as [|z l' IHl]; intros [|i] Nr; try discriminate; cbn [nth_error skipn] in *; [congruence|]. apply IHl. exact Nr.
           ++ intros z [<-|Hz]; auto.
        -- right. exists (x :: xs), (y :: ys), x', w2. cbn [length]. rewrite <- Nat.add_succ_comm. split; [econstructor; eauto|]. split; [intros z [<-|Hz]; auto|]. auto.
    + eexists _, _. split; [reflexivity|]. right. exists [], [], x, w0. cbn [length]. rewrite Nat.add_0_r. repeat split; [constructor|intros z []|exact Nr|]. right. split; [exact F|discriminate].
    + eexists _, _. split; [reflexivity|]. right. exists [], [], x, w0. cbn [length]. rewrite Nat.add_0_r. repeat split; [constructor|intros z []|exact Nr|]. right. split; [exact F|discriminate].
Qed.
Print Assumptions C25_rfind.

(** flat_map(f, c): the answers' elements, concatenated; an answer that is not iterable is an error *)
Theorem C25_flat_map : forall W (elems : W -> list value) f items w r w',
  (exists fuel, hof_flat_map elems (Ok tt) (Ok tt) f items fuel w = Some (r, w')) <->
  (exists xs ys ls, visits_all elems f w xs ys w' /\ Forall2 (fun y l => items y = Ok l) ys ls /\ r = Ok (VList (concat ls))) \/
  (exists xs ys ls x, Forall2 (fun y l => items y = Ok l) ys ls /\
     (visits_until elems f w xs ys x r w' /\ (forall y, r <> Ok y) \/
      exists y, visits_until elems f w xs ys x (Ok y) w' /\ (exists e, items y = Err e /\ r = Err e) \/ (visits_until elems f w xs ys x (Ok y) w' /\ items y = Panic /\ r = Panic))).
Proof.
  intros. unfold hof_flat_map, checked.
  change (fun (_ : nat) x acc w => then_ (f x w) (fun y => let? l := items y in Ok (inl (acc ++ l)))) with
    (body_of f (fun (_ : nat) (_ : value) acc y => let? l := items y in @Ok (list value + value) (inl (acc ++ l)))).
  rewrite finish_iff. split.
  - intros (r0 & [(xs & ys & a & V & N & S & ->)|(xs & ys & a & x & o & w1 & V & S & N & F & R)] & ->); cbn [Nat.add] in *;
      apply (steps_flat items xs ys 0 [] a (visits_len _ _ _ _ _ _ _ V)) in S; destruct S as (ls & FL & ->).
    + left. exists xs, ys, ls. repeat split; auto.
    + right. exists xs, ys, ls, x. split; auto. destruct R as [(e & -> & ->)|[[-> ->]|(y & -> & -> & NB)]].
      * left. cbn [fin]. split; [exists w1; auto|discriminate].
      * left. cbn [fin]. split; [exists w1; auto|discriminate].
      * right. exists y. destruct (items y) as [l|e|]; cbn [bind fin] in *.
        -- exfalso. eapply NB. reflexivity.
        -- left. split; [exists w1; auto|]. eauto.
        -- right. split; [exists w1; auto|]. auto.
  - intros [(xs & ys & ls & [V N] & FL & ->)|(xs & ys & ls & x & FL & [[(w1 & V & N & F) NB]|(y & [[(w1 & V & N & F) (e & I & ->)]|[(w1 & V & N & F) [I ->]]])])];
      assert (S := proj2 (steps_flat items xs ys 0 [] (concat ls) (visits_len _ _ _ _ _ _ _ V)) (ex_intro _ ls (conj FL eq_refl))).
    + exists (Ok (inl (concat ls))). split; auto. left. exists xs, ys, (concat ls). auto.
    + destruct r as [y|e|]; [exfalso; apply (NB y); reflexivity| |].
      * exists (Err e). split; auto. right. exists xs, ys, (concat ls), x, (Err e), w1. cbn [Nat.add]. repeat split; auto. left. eauto.
      * exists Panic. split; auto. right. exists xs, ys, (concat ls), x, Panic, w1. cbn [Nat.add]. repeat split; auto.
    + exists (Err e). split; auto. right. exists xs, ys, (concat ls), x, (Ok y), w1. cbn [Nat.add]. repeat split; auto. right. right. exists y. rewrite I. repeat split. discriminate.
    + exists Panic. split; auto. right. exists xs, ys, (concat ls), x, (Ok y), w1. cbn [Nat.add]. repeat split; auto. right. right. exists y. rewrite I. repeat split. discriminate.
Qed.
Print Assumptions C25_flat_map.

(** reduce(f, c): f(...f(f(x0, x1), x2)..., xn); nothing to reduce is an error, and then f is not called *)
Theorem C25_reduce : forall W (elems : W -> list value) f2 w,
  (elems w = [] -> forall fuel, hof_reduce elems (Ok tt) (Ok tt) f2 fuel w = Some (Err (ValueErrorArgMustBeNonEmpty NF_Reduce), w)) /\
  forall x0, nth_error (elems w) 0 = Some x0 -> forall r w', (exists fuel, hof_reduce elems (Ok tt) (Ok tt) f2 fuel w = Some (r, w')) <->
  (exists xs a, folds elems f2 1 w x0 xs a w' /\ nth_error (elems w') (1 + length xs) = None /\ r = Ok a) \/
  (exists xs a x w1, folds elems f2 1 w x0 xs a w1 /\ nth_error (elems w1) (1 + length xs) = Some x /\ f2 a x w1 = (r, w') /\ forall y, r <> Ok y).
Proof.
  intros W elems f2 w. split; [intros E fuel; unfold hof_reduce; rewrite E; reflexivity|]. intros x0 N0 r w'. unfold hof_reduce. rewrite N0. split.
  - intros [n E]. eapply reduce_iff. exact E.
  - intros [(xs & a & V & N & ->)|(xs & a & x & w1 & V & N & F & NB)]; exists (length xs + 1); rewrite (folds_live _ _ _ _ _ _ _ _ V); cbn [live].
    + rewrite N. reflexivity.
    + rewrite N. unfold then_ at 1. rewrite F. destruct r as [y|e|]; [exfalso; apply (NB y); reflexivity| |]; reflexivity.
Qed.
Print Assumptions C25_reduce.

(** the function is not called at all when the arguments are of the wrong kind *)
Theorem C25_checks : forall W (elems : W -> list value) from iter f f2 items b fuel (w : W) r w', (from <> Ok tt \/ iter <> Ok tt) ->
  hof_map elems from iter f fuel w = Some (r, w') \/ hof_filter elems from iter f fuel w = Some (r, w') \/ hof_predicate elems from iter f b fuel w = Some (r, w') \/
  hof_flat_map elems from iter f items fuel w = Some (r, w') \/ hof_find elems from iter f b fuel w = Some (r, w') \/ hof_rfind elems from iter f b w = Some (r, w') \/
  hof_reduce elems from iter f2 fuel w = Some (r, w') \/ hof_group_by elems from iter f fuel w = Some (r, w') \/ hof_min_by elems from iter f b fuel w = Some (r, w') ->
  w' = w /\ forall v, r <> Ok v.
Proof.
  intros W elems from iter f f2 items b fuel w r w' H E.
  assert (C : forall k, checked from iter w k = Some (r, w') -> w' = w /\ forall v, r <> Ok v).
  { intros k Q. destruct from as [[]|e|], iter as [[]|e'|]; cbn [checked] in Q; try (injection Q as <- <-; split; [reflexivity|discriminate]). destruct H; congruence. }
  assert (C' : forall k, checked iter from w k = Some (r, w') -> w' = w /\ forall v, r <> Ok v).
  { intros k Q. destruct from as [[]|e|], iter as [[]|e'|]; cbn [checked] in Q; try (injection Q as <- <-; split; [reflexivity|discriminate]). destruct H; congruence. }
  destruct E as [E|[E|[E|[E|[E|[E|[E|[E|E]]]]]]]]; try (eapply C; exact E); try (eapply C'; exact E).
  unfold hof_reduce in E. destruct iter as [[]|e|]; try (injection E as <- <-; split; [reflexivity|discriminate]).
  destruct (nth_error (elems w) 0); [|injection E as <- <-; split; [reflexivity|discriminate]].
  destruct from as [[]|e|]; try (injection E as <- <-; split; [reflexivity|discriminate]). destruct H; congruence.
Qed.
Print Assumptions C25_checks.

(** a function that leaves the collection alone is called on exactly its elements, and the
    builtin returns (reduce starts from the first) *)
Theorem C25_stable : forall W (elems : W -> list value) f, leaves_alone elems f ->
  (forall w xs ys w', visits_all elems f w xs ys w' -> xs = elems w) /\
  (forall w xs ys x a w', visits_until elems f w xs ys x a w' -> exists rest, elems w = xs ++ x :: rest) /\
  forall w, hof_map elems (Ok tt) (Ok tt) f (S (length (elems w))) w <> None /\ hof_filter elems (Ok tt) (Ok tt) f (S (length (elems w))) w <> None.
Proof.
  intros W elems f LA. split; [|split].
  - intros. eapply visits_all_elems; eassumption.
  - intros w xs ys x a w' (w1 & V & N & F). destruct (visits_elems elems f LA _ _ _ _ _ V) as [E Q]. cbn [skipn] in Q. specialize (Q (Nat.le_0_l _)).
    rewrite E in N. apply nth_error_split in N. destruct N as (l1 & l2 & El & L). rewrite El in *. exists l2. rewrite <- Q, firstn_app, L, Nat.sub_diag, <- L, firstn_all, app_nil_r. reflexivity.
  - intro w. assert (H : forall A (k : nat -> value -> A -> value -> result (A + value)) acc g, finish g (live elems (S (length (elems w))) 0 (body_of f k) acc w) <> None).
    { intros A k acc g. assert (L := live_halts elems f k LA (S (length (elems w))) 0 acc w (Nat.le_0_l _)). unfold finish.
      destruct (live elems _ 0 (body_of f k) acc w) as [[[[]|e|] w1]|]; try discriminate. exfalso. apply L; [lia|reflexivity]. }
    split; [apply (H _ (fun (_ : nat) (_ : value) acc y => Ok (inl (acc ++ [y]))))|].
    apply (H _ (fun (_ : nat) (x : value) acc y => Ok (inl (if to_bool y then acc ++ [x] else acc)))).
Qed.
Print Assumptions C25_stable.
Theorem C25_reduce_stable : forall W (elems : W -> list value) f2, (forall a, leaves_alone elems (f2 a)) ->
  forall w x0 xs a w', nth_error (elems w) 0 = Some x0 -> folds elems f2 1 w x0 xs a w' -> nth_error (elems w') (1 + length xs) = None -> elems w = x0 :: xs.
Proof.
  intros W elems f2 LA w x0 xs a w' N0 V N. destruct (folds_elems elems f2 LA _ _ _ _ _ _ V) as [E Q]. destruct (elems w) as [|y l] eqn:El; [discriminate|].
  cbn [nth_error] in N0. injection N0 as ->. cbn [skipn length] in Q. rewrite E in N. apply nth_error_None in N. cbn [length] in N. f_equal.
  rewrite <- Q by lia. symmetry. apply firstn_all2. lia.
Qed.
Print Assumptions C25_reduce_stable.

(** a callback may append to the list being mapped: the new element is visited too *)
Definition ex_f (x : value) (w : list value) : result value * list value := (Ok (VVector [x]), if length w <? 3 then w ++ [VNil] else w).
Example C25_example : hof_map (fun w => w) (Ok tt) (Ok tt) ex_f 9 [VInt 1; VInt 2]%Z = Some (Ok (VList [VVector [VInt 1]; VVector [VInt 2]; VVector [VNil]]), [VInt 1; VInt 2; VNil])%Z.
Proof. reflexivity. Qed.

(** C26.  group_by(n, c): the elements in order, in pieces of n, the last of 1..n *)
Theorem C26_chunks : forall v n l, is_int_value v n ->
  ((n <= 0)%Z /\ group_by_int v l = Some (Err (ValueErrorValueMustBePositive n))) \/
  ((0 < n)%Z /\ exists cs, group_by_int v l = Some (Ok (VList (map VVector cs))) /\ concat cs = l /\ chunked (Z.to_nat n) cs).
Proof.
  intros v n l Hv. unfold group_by_int. replace (as_int_opt v) with (Some n) by (destruct Hv as [[-> _]|[[-> ->]|[-> ->]]]; reflexivity).
  destruct (Z.leb_spec n 0) as [L|L]; [left; auto|right; split; auto]. destruct (chunk_ok (Z.to_nat n) ltac:(lia) l []) as (cs & -> & C & D); [cbn; lia|]. exists cs. auto.
Qed.
Print Assumptions C26_chunks.
(** group_by(f, c): one entry per distinct key, in order of first appearance, holding the
    elements with that key in order; together they are the elements *)
Theorem C26_groups : forall W (elems : W -> list value) f w r w',
  (exists fuel, hof_group_by elems (Ok tt) (Ok tt) f fuel w = Some (r, w')) ->
  (exists xs ks, visits_all elems f w xs ks w' /\ ((forall k, In k ks -> wf k) -> exists gs, r = Ok (VDict (map (fun p => (fst p, VVector (snd p))) gs)) /\
     map fst gs = to_set ks /\ Permutation xs (concat (map snd gs)) /\
     forall q, wf q -> dict_get (map (fun p => (fst p, VVector (snd p))) gs) q = match with_key q xs ks with [] => None | g => Some (VVector g) end)) \/
  fails_at elems f w r w'.
Proof.
  intros W elems f w r w'. unfold hof_group_by, checked.
  change (fun (_ : nat) x acc w => then_ (f x w) (fun y => Ok (inl (group_push y x acc)))) with
    (body_of f (fun (_ : nat) (x : value) acc y => @Ok (list (value * list value) + value) (inl (group_push y x acc)))).
  rewrite finish_iff, fails_ended by eauto. intros [(xs & ks & a & V & S & ->)|H]; [left|auto]. exists xs, ks. split; auto. intro Hk.
  assert (L : length xs = length ks) by (eapply visits_len; apply V).
  rewrite steps_group in S by exact L. injection S as <-. exists (group_all xs ks []). split; [reflexivity|].
  destruct (group_all_ok xs ks [] L Hk) as (A & B & C & D & E); [intros y []|]. split; [exact B|]. split; [exact D|].
  intros q Hq. rewrite lookup_dict by (apply E; intros g []). rewrite C by auto. reflexivity.
Qed.
Print Assumptions C26_groups.
Example C26_example : group_by_int (VInt 2) [VInt 1; VInt 2; VInt 3]%Z = Some (Ok (VList [VVector [VInt 1; VInt 2]; VVector [VInt 3]]))%Z /\
  hof_group_by (fun _ : unit => [VInt 1; VNil; VInt 2]%Z) (Ok tt) (Ok tt) (fun x w => (Ok (VBool (to_bool x)), w)) 5 tt =
  Some (Ok (VDict [(VBool true, VVector [VInt 1; VInt 2]); (VBool false, VVector [VNil])]), tt)%Z.
Proof. split; reflexivity. Qed.

(** C61.  min_by / max_by with a key function: when no call fails, the function is called
    once per element, in order, and the answer is the first element of least key, or the
    last element of greatest key. *)
Lemma by_result {W} (elems : W -> list value) f is_min w xs ys w' : visits_all elems f w xs ys w' ->
  exists fuel, hof_min_by elems (Ok tt) (Ok tt) f is_min fuel w =
    Some (match best_of is_min (combine ys xs) None with None => Err (ValueErrorArgMustBeNonEmpty (if is_min then NF_MinBy else NF_MaxBy)) | Some (_, x) => Ok x end, w').
Proof.
  intros [V N]. exists (length xs + 1). unfold hof_min_by. rewrite checked_ok, (by_visits elems f is_min _ _ _ _ _ V). cbn [Nat.add live]. rewrite N.
  destruct (best_of is_min _ None) as [[bk bx]|]; reflexivity.
Qed.
Lemma combine_split (ys xs : list value) m1 m m2 : length xs = length ys -> combine ys xs = m1 ++ m :: m2 ->
  nth_error xs (length m1) = Some (snd m) /\ nth_error ys (length m1) = Some (fst m) /\
  (forall i y, i < length m1 -> nth_error ys i = Some y -> exists p, In p m1 /\ fst p = y) /\ (forall i y, length m1 < i -> nth_error ys i = Some y -> exists p, In p m2 /\ fst p = y).
Proof.
  revert ys m1. induction xs as [|x xs IH]; intros [|y ys] m1 L E; try discriminate; cbn [combine] in E; [destruct m1; discriminate|].
  injection L as L. destruct m1 as [|p m1]; cbn [app length] in *.
  - injection E as <- <-. cbn [nth_error fst snd]. split; [reflexivity|]. split; [reflexivity|]. split; [intros; lia|]. intros [|i] z Hi Hz; [lia|]. cbn [nth_error] in Hz.
    assert (Hl : i < length ys) by (apply nth_error_Some; congruence). destruct (nth_error xs i) as [x'|] eqn:Ex; [|apply nth_error_None in Ex; lia].
    exists (z, x'). split; auto. clear - Hz Ex. revert ys i Hz Ex. induction xs as [|x0 xs IH]; intros [|y0 ys] [|i] Hz Ex; try discriminate; cbn in *; [left; congruence|right; eauto].
  - injection E as <- E. destruct (IH ys m1 L E) as (A & B & C & D). cbn [nth_error]. split; [exact A|]. split; [exact B|]. split.
    + intros [|i] z Hi Hz; cbn [nth_error] in Hz; [exists (y, x); split; [left; reflexivity|cbn; congruence]|]. destruct (C i z) as (p & Hp & <-); [lia|auto|]. exists p. split; [right|]; auto.
    + intros [|i] z Hi Hz; [lia|]. apply (D i z); auto. lia.
Qed.
Theorem C61_min_by : forall W (elems : W -> list value) f w xs ys w' k, visits_all elems f w xs ys w' -> all_kind k ys ->
  (xs = [] /\ exists fuel, hof_min_by elems (Ok tt) (Ok tt) f true fuel w = Some (Err (ValueErrorArgMustBeNonEmpty NF_MinBy), w')) \/
  exists n m km, nth_error xs n = Some m /\ nth_error ys n = Some km /\ (exists fuel, hof_min_by elems (Ok tt) (Ok tt) f true fuel w = Some (Ok m, w')) /\
    forall i y, nth_error ys i = Some y -> (i < n -> vlt km y = true) /\ (n < i -> vle km y = true).
Proof.
  intros W elems f w xs ys w' k V Hk. assert (L : length xs = length ys) by (eapply visits_len; apply V). destruct (by_result elems f true w xs ys w' V) as [n E].
  destruct xs as [|x xs], ys as [|y ys]; try discriminate; [left; split; [reflexivity|]; exists n; exact E|right].
  cbn [combine best_of fold_left] in E. fold (best_of true (combine ys xs) (Some (y, x))) in E. rewrite best_some in E.
  destruct (pick_min k (combine ys xs) (y, x) [] []) as (m1 & m & m2 & Q & F & H1 & H2); try (intros z []).
  { cbn [app map fst]. apply all_kind_forall in Hk. inversion Hk; subst. constructor; auto. injection L as L. clear - H2 L. revert ys L H2. induction xs as [|a xs IH]; intros [|b ys] L H; try discriminate; cbn; constructor; inversion H; auto. }
  rewrite F in E. cbn [app] in Q. change ((y, x) :: combine ys xs) with (combine (y :: ys) (x :: xs)) in Q.
  destruct (combine_split _ _ _ _ _ L Q) as (A & B & C & D). exists (length m1), (snd m), (fst m). split; [exact A|]. split; [exact B|]. split.
  - exists n. rewrite E. destruct m; reflexivity.
  - intros i z Hz. split; intro Hi; [destruct (C i z Hi Hz) as (p & Hp & <-)|destruct (D i z Hi Hz) as (p & Hp & <-)]; auto.
Qed.
Print Assumptions C61_min_by.
Theorem C61_max_by : forall W (elems : W -> list value) f w xs ys w' k, visits_all elems f w xs ys w' -> all_kind k ys ->
  (xs = [] /\ exists fuel, hof_min_by elems (Ok tt) (Ok tt) f false fuel w = Some (Err (ValueErrorArgMustBeNonEmpty NF_MaxBy), w')) \/
  exists n m km, nth_error xs n = Some m /\ nth_error ys n = Some km /\ (exists fuel, hof_min_by elems (Ok tt) (Ok tt) f false fuel w = Some (Ok m, w')) /\
    forall i y, nth_error ys i = Some y -> (i < n -> vle y km = true) /\ (n < i -> vlt y km = true).
Proof.
  intros W elems f w xs ys w' k V Hk. assert (L : length xs = length ys) by (eapply visits_len; apply V). destruct (by_result elems f false w xs ys w' V) as [n E].
  destruct xs as [|x xs], ys as [|y ys]; try discriminate; [left; split; [reflexivity|]; exists n; exact E|right].
  cbn [combine best_of fold_left] in E. fold (best_of false (combine ys xs) (Some (y, x))) in E. rewrite best_some in E.
  destruct (pick_max k (combine ys xs) (y, x) [] []) as (m1 & m & m2 & Q & F & H1 & H2); try (intros z []).
  { cbn [app map fst]. apply all_kind_forall in Hk. inversion Hk; subst. constructor; auto. injection L as L. clear - H2 L. revert ys L H2. induction xs as [|a xs IH]; intros [|b ys] L H; try discriminate; cbn; constructor; inversion H; auto. }
  rewrite F in E. cbn [app] in Q. change ((y, x) :: combine ys xs) with (combine (y :: ys) (x :: xs)) in Q.
  destruct (combine_split _ _ _ _ _ L Q) as (A & B & C & D). exists (length m1), (snd m), (fst m). split; [exact A|]. split; [exact B|]. split.
  - exists n. rewrite E. destruct m; reflexivity.
  - intros i z Hz. split; intro Hi; [destruct (C i z Hi Hz) as (p & Hp & <-)|destruct (D i z Hi Hz) as (p & Hp & <-)]; auto.
Qed.
Print Assumptions C61_max_by.
(** but a failing key function does not end the calls, unlike in the other builtins: it is
    called on the later elements too, and the last error is the result *)
Theorem C61_stops_at_error_refuted : exists (f : value -> list value -> result value * list value) (l : list value) e1 e2,
  (forall x w, exists e, f x w = (Err e, w ++ [x])) /\ f (VInt 1)%Z [] = (Err e1, [VInt 1])%Z /\ e1 <> e2 /\
  hof_min_by (fun _ => l) (Ok tt) (Ok tt) f true 9 [] = Some (Err e2, l) /\ length l = 2.
Proof.
  exists (fun x w => (Err (TypeErrorArgMustBeInt x), w ++ [x])), [VInt 1; VInt 2]%Z, (TypeErrorArgMustBeInt (VInt 1)), (TypeErrorArgMustBeInt (VInt 2)).
  repeat split; [eauto|discriminate].
Qed.
Print Assumptions C61_stops_at_error_refuted.
Example C61_example : let l := [VStr [98; 98]; VStr [97]; VStr [99]]%Z in
  hof_min_by (fun _ => l) (Ok tt) (Ok tt) (fun x w => (Ok (VInt (match x with VStr s => Z.of_nat (length s) | _ => 0%Z end)), w)) true 9 tt = Some (Ok (VStr [97]), tt)%Z.
Proof. reflexivity. Qed.
