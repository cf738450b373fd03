From Verif Require Import Base Native Value ValueSpec ValueProofs Err Iter Seq Ops OpsSpec OpsProofs2 Coll CollSpec CollProofs CollProofs2 CollProofs3 Hof HofSpec.
From Coq Require Import Permutation.
Local Open Scope nat_scope.

Section V.
  Context {W : Type} (elems : W -> list value) (f : value -> W -> result value * W).
  Lemma visits_len i w xs ys w' : visits elems f i w xs ys w' -> length xs = length ys.
  Proof. induction 1; cbn [length]; congruence. Qed.

  Lemma visits_elems : leaves_alone elems f -> forall i w xs ys w', visits elems f i w xs ys w' -> elems w' = elems w /\ (i <= length (elems w) -> firstn (length xs) (skipn i (elems w)) = xs).
  Proof.
    intros LA. induction 1 as [i w|i w x y w1 xs ys w2 N F V [IH1 IH2]].
    - split; [reflexivity|]. intros _. reflexivity.
    - specialize (LA x w). rewrite F in LA. cbn [snd] in LA. split; [congruence|]. intro L. cbn [length].
      assert (i < length (elems w)) by (apply nth_error_Some; congruence).
      apply nth_error_split in N. destruct N as (l1 & l2 & E & L1). rewrite LA, E in IH2. rewrite E. subst i.
      assert (Q1 : skipn (length l1) (l1 ++ x :: l2) = x :: l2) by (rewrite skipn_app, skipn_all, Nat.sub_diag; reflexivity).
      assert (Q2 : skipn (S (length l1)) (l1 ++ x :: l2) = l2).
      { rewrite skipn_app, skipn_all2 by lia. replace (S (length l1) - length l1) with 1 by lia. reflexivity. }
      rewrite Q1. cbn [firstn]. rewrite Q2 in IH2. rewrite IH2; [reflexivity|]. rewrite app_length. cbn [length]. lia.
  Qed.
End V.

Section L.
  Context {W : Type} (elems : W -> list value) (f : value -> W -> result value * W) {A : Type}.
  Variable k : nat -> value -> A -> value -> result (A + value).
  Definition body_of (i : nat) (x : value) (acc : A) (w : W) : result (A + value) * W := then_ (f x w) (k i x acc).

  (** the accumulator after a number of continuing steps *)
  Fixpoint steps (i : nat) (acc : A) (xs ys : list value) : option A :=
    match xs, ys with
    | [], [] => Some acc
    | x :: xs, y :: ys => match k i x acc y with Ok (inl a) => steps (S i) a xs ys | _ => None end
    | _, _ => None
    end.

  Definition ended (i : nat) (acc : A) (w : W) (r : result (A + value)) (w' : W) : Prop :=
    (exists xs ys a, visits elems f i w xs ys w' /\ nth_error (elems w') (i + length xs) = None /\ steps i acc xs ys = Some a /\ r = Ok (inl a)) \/
    (exists xs ys a x o w1, visits elems f i w xs ys w1 /\ steps i acc xs ys = Some a /\ nth_error (elems w1) (i + length xs) = Some x /\ f x w1 = (o, w') /\
       ((exists e, o = Err e /\ r = Err e) \/ (o = Panic /\ r = Panic) \/ exists y, o = Ok y /\ r = k (i + length xs) x a y /\ forall b, r <> Ok (inl b))).

  Lemma live_ended : forall fuel i acc w r w', live elems fuel i body_of acc w = Some (r, w') -> ended i acc w r w'.
  Proof.
    induction fuel as [|n IH]; intros i acc w r w' E; cbn [live] in E; [discriminate|].
    destruct (nth_error (elems w) i) as [x|] eqn:N.
    - unfold body_of at 1, then_ in E. destruct (f x w) as [o w1] eqn:F.
      assert (ST : forall r0, (r0, w1) = (r, w') -> ((exists e, o = Err e /\ r0 = Err e) \/ (o = Panic /\ r0 = Panic) \/ exists y, o = Ok y /\ r0 = k i x acc y /\ forall b, r0 <> Ok (inl b)) -> ended i acc w r w').
      { intros r0 Q H. injection Q as <- <-. right. exists [], [], acc, x, o, w. cbn [length]. rewrite Nat.add_0_r. repeat split; auto. constructor. }
      destruct o as [y|e|].
      + destruct (k i x acc y) as [[a|v]|e|] eqn:K.
        * destruct (IH _ _ _ _ _ E) as [(xs & ys & b & V & L & S & R)|(xs & ys & b & x' & o & w2 & V & S & L & F' & R)].
          -- left. exists (x :: xs), (y :: ys), b. repeat split; auto; [econstructor; eauto| |].
             ++ cbn [length]. rewrite <- Nat.add_succ_comm. exact L.
             ++ cbn [steps]. rewrite K. exact S.
          -- right. exists (x :: xs), (y :: ys), b, x', o, w2. cbn [length]. rewrite <- Nat.add_succ_comm.
             split; [econstructor; eauto|]. split; [cbn [steps]; rewrite K; exact S|]. auto.
        * injection E as <- <-. eapply ST; [reflexivity|]. right. right. exists y. rewrite K. repeat split; congruence.
        * injection E as <- <-. eapply ST; [reflexivity|]. right. right. exists y. rewrite K. repeat split; congruence.
        * injection E as <- <-. eapply ST; [reflexivity|]. right. right. exists y. rewrite K. repeat split; congruence.
      + injection E as <- <-. eapply ST; [reflexivity|]. left. eauto.
      + injection E as <- <-. eapply ST; [reflexivity|]. right. left. auto.
    - injection E as <- <-. left. exists [], [], acc. cbn [length]. rewrite Nat.add_0_r. repeat split; auto. constructor.
  Qed.

  Lemma live_steps : forall i w xs ys w', visits elems f i w xs ys w' -> forall acc a n, steps i acc xs ys = Some a ->
    live elems (length xs + n) i body_of acc w = live elems n (i + length xs) body_of a w'.
  Proof.
    induction 1 as [i w|i w x y w1 xs ys w2 N F V IH]; intros acc a n S.
    - cbn [steps] in S. injection S as ->. cbn [length Nat.add]. rewrite Nat.add_0_r. reflexivity.
    - cbn [steps] in S. destruct (k i x acc y) as [[b|]| |] eqn:K; try discriminate.
      cbn [length Nat.add live]. rewrite N. unfold body_of at 1, then_. rewrite F, K. rewrite (IH _ _ n S).
      replace (Datatypes.S i + length xs) with (i + Datatypes.S (length xs)) by lia. reflexivity.
  Qed.

  Lemma ended_live : forall i acc w r w', ended i acc w r w' -> exists fuel, live elems fuel i body_of acc w = Some (r, w').
  Proof.
    intros i acc w r w' [(xs & ys & a & V & L & S & ->)|(xs & ys & a & x & o & w1 & V & S & L & F & R)].
    - exists (length xs + 1). rewrite (live_steps _ _ _ _ _ V _ _ _ S). cbn [live]. rewrite L. reflexivity.
    - exists (length xs + 1). rewrite (live_steps _ _ _ _ _ V _ _ _ S). cbn [live]. rewrite L. unfold body_of at 1, then_. rewrite F.
      destruct R as [(e & -> & ->)|[[-> ->]|(y & -> & -> & NB)]]; try reflexivity.
      destruct (k _ x a y) as [[b|]| |]; try reflexivity. exfalso. eapply NB. reflexivity.
  Qed.
  Lemma live_iff i acc w r w' : (exists fuel, live elems fuel i body_of acc w = Some (r, w')) <-> ended i acc w r w'.
  Proof. split; [intros [n E]; eapply live_ended; exact E|apply ended_live]. Qed.

  Definition fin (g : A -> value) (r : result (A + value)) : result value :=
    match r with Ok (inl a) => Ok (g a) | Ok (inr v) => Ok v | Err e => Err e | Panic => Panic end.
  Lemma finish_iff g i acc w r w' : (exists fuel, finish g (live elems fuel i body_of acc w) = Some (r, w')) <-> exists r0, ended i acc w r0 w' /\ r = fin g r0.
  Proof.
    split.
    - intros [n E]. unfold finish in E. destruct (live elems n i body_of acc w) as [[r0 w0]|] eqn:L; [|discriminate].
      apply live_ended in L. exists r0. destruct r0 as [[a|v]|e|]; injection E as <- <-; auto.
    - intros (r0 & H & ->). apply ended_live in H. destruct H as [n L]. exists n. rewrite L. destruct r0 as [[a|v]|e|]; reflexivity.
  Qed.
  (** when the function leaves the collection alone, the loop ends within its length *)
  Lemma live_halts : leaves_alone elems f -> forall fuel i acc w, i <= length (elems w) -> length (elems w) < i + fuel -> live elems fuel i body_of acc w <> None.
  Proof.
    intros LA. induction fuel as [|n IH]; intros i acc w L1 L; cbn [live]; [lia|].
    destruct (nth_error (elems w) i) as [x|] eqn:N; [|discriminate].
    assert (i < length (elems w)) by (apply nth_error_Some; congruence).
    unfold body_of at 1, then_. specialize (LA x w). destruct (f x w) as [o w1]. cbn [snd] in LA.
    destruct o as [y|e|]; try discriminate. destruct (k i x acc y) as [[a|v]|e|]; try discriminate.
    apply IH; rewrite LA; lia.
  Qed.
End L.

Lemma visits_all_elems {W} (elems : W -> list value) f w xs ys w' : leaves_alone elems f -> visits_all elems f w xs ys w' -> xs = elems w.
Proof.
  intros LA [V N]. destruct (visits_elems elems f LA _ _ _ _ _ V) as [E F]. cbn [skipn] in F. rewrite E in N. apply nth_error_None in N.
  rewrite <- (F (Nat.le_0_l _)). apply firstn_all2. exact N.
Qed.

(** ** steps of the individual builtins *)
Lemma steps_map : forall xs ys i acc, length xs = length ys -> steps (fun (_ : nat) (_ : value) acc y => Ok (inl (acc ++ [y]))) i acc xs ys = Some (acc ++ ys).
Proof. induction xs as [|x xs IH]; intros [|y ys] i acc L; try discriminate; cbn [steps]; [rewrite app_nil_r; reflexivity|]. rewrite IH by (injection L; auto). rewrite <- app_assoc. reflexivity. Qed.
Lemma steps_filter : forall xs ys i acc, length xs = length ys -> steps (fun (_ : nat) (x : value) acc y => Ok (inl (if to_bool y then acc ++ [x] else acc))) i acc xs ys = Some (acc ++ selected xs ys).
Proof.
  induction xs as [|x xs IH]; intros [|y ys] i acc L; try discriminate; cbn [steps selected]; [rewrite app_nil_r; reflexivity|]. rewrite IH by (injection L; auto).
  destruct (to_bool y); [rewrite <- app_assoc|]; reflexivity.
Qed.
Lemma steps_pred (b : bool) (v : nat -> value -> value) : forall xs ys i, length xs = length ys ->
  (steps (fun i x (_ : unit) y => Ok (if Bool.eqb (to_bool y) b then inr (v i x) else inl tt)) i tt xs ys = Some tt <-> forall y, In y ys -> to_bool y = negb b).
Proof.
  induction xs as [|x xs IH]; intros [|y ys] i L; try discriminate; cbn [steps]; [split; auto; intros _ y []|].
  destruct (Bool.eqb_spec (to_bool y) b) as [E|N].
  - split; [discriminate|]. intro H. specialize (H y (or_introl eq_refl)). rewrite E in H. destruct b; discriminate.
  - rewrite IH by (injection L; auto). split.
    + intros H z [<-|Hz]; auto. destruct (to_bool y), b; cbn [negb]; congruence.
    + intros H z Hz. apply H. right. auto.
Qed.
Lemma steps_flat (items : value -> result (list value)) : forall xs ys i acc a, length xs = length ys ->
  (steps (fun (_ : nat) (_ : value) acc y => let? l := items y in Ok (inl (acc ++ l))) i acc xs ys = Some a <-> exists ls, Forall2 (fun y l => items y = Ok l) ys ls /\ a = acc ++ concat ls).
Proof.
  induction xs as [|x xs IH]; intros [|y ys] i acc a L; try discriminate; cbn [steps].
  - split; [intro E; injection E as <-; exists []; cbn; rewrite app_nil_r; auto|]. intros (ls & F & ->). inversion F; subst. cbn. rewrite app_nil_r. reflexivity.
  - destruct (items y) as [l|e|] eqn:E; cbn [bind].
    + rewrite IH by (injection L; auto). split.
      * intros (ls & F & ->). exists (l :: ls). split; [constructor; auto|]. cbn [concat]. rewrite app_assoc. reflexivity.
      * intros (ls & F & ->). inversion F as [|? l0 ? ls' E0 F']; subst. rewrite E in E0. injection E0 as <-. exists ls'. split; auto. cbn [concat]. rewrite app_assoc. reflexivity.
    + split; [discriminate|]. intros (ls & F & _). inversion F; congruence.
    + split; [discriminate|]. intros (ls & F & _). inversion F; congruence.
Qed.
Fixpoint group_all (xs ks : list value) (m : list (value * list value)) : list (value * list value) :=
  match xs, ks with x :: xs, k :: ks => group_all xs ks (group_push k x m) | _, _ => m end.
Lemma steps_group : forall xs ys i acc, length xs = length ys -> steps (fun (_ : nat) (x : value) acc y => Ok (inl (group_push y x acc))) i acc xs ys = Some (group_all xs ys acc).
Proof. induction xs as [|x xs IH]; intros [|y ys] i acc L; try discriminate; cbn [steps group_all]; [reflexivity|]. apply IH. injection L; auto. Qed.

(** ** grouping *)
Fixpoint lookup (m : list (value * list value)) (q : value) : list value :=
  match m with [] => [] | (k, g) :: r => if key_match q k then g else lookup r q end.
Lemma group_keys : forall m k x, map fst (group_push k x m) = set_insert k (map fst m).
Proof.
  induction m as [|[k' g] m IH]; intros k x; cbn [group_push map]; [reflexivity|].
  unfold set_insert. cbn [set_mem map fst]. destruct (key_match k k') eqn:K; cbn [map fst].
  - unfold set_mem. cbn [existsb map fst]. rewrite K. reflexivity.
  - unfold set_insert in IH. rewrite IH. unfold set_mem. cbn [existsb]. rewrite K. cbn [orb]. destruct (existsb _ _); reflexivity.
Qed.

Lemma group_wf : forall m k x, wf k -> all_wf (map fst m) -> all_wf (map fst (group_push k x m)).
Proof.
  induction m as [|[k' g] m IH]; intros k x Hk Hm; cbn [group_push map fst].
  - intros y [<-|[]]. exact Hk.
  - destruct (key_match k k'); cbn [map fst].
    + intros y [<-|Hy]; [apply Hm; left; auto|apply Hm; right; auto].
    + intros y [<-|Hy]; [apply Hm; left; auto|]. apply (IH k x Hk); auto. intros z Hz. apply Hm. right. auto.
Qed.
Lemma group_lookup : forall m k x q, wf k -> wf q -> all_wf (map fst m) ->
  lookup (group_push k x m) q = if key_match q k then lookup m q ++ [x] else lookup m q.
Proof.
  induction m as [|[k' g] m IH]; intros k x q Hk Hq Hm; cbn [group_push lookup].
  - destruct (key_match q k); reflexivity.
  - assert (Hk' : wf k') by (apply Hm; left; reflexivity).
    assert (Hm' : all_wf (map fst m)) by (intros z Hz; apply Hm; right; auto).
    destruct (key_match k k') eqn:K; cbn [lookup].
    + rewrite (km_trans_eq k k' q) by auto. destruct (key_match q k'); reflexivity.
    + destruct (key_match q k') eqn:Q.
      * destruct (key_match q k) eqn:Q2; [|reflexivity]. exfalso.
        rewrite (key_match_sym q k) in Q2 by auto. rewrite (key_match_trans k q k') in K by auto. discriminate.
      * apply IH; auto.
Qed.
Lemma group_all_ok : forall xs ks m, length xs = length ks -> all_wf ks -> all_wf (map fst m) ->
  all_wf (map fst (group_all xs ks m)) /\ map fst (group_all xs ks m) = fold_left (fun s x => set_insert x s) ks (map fst m) /\
  (forall q, wf q -> lookup (group_all xs ks m) q = lookup m q ++ with_key q xs ks) /\
  Permutation (concat (map snd m) ++ xs) (concat (map snd (group_all xs ks m))) /\
  ((forall g, In g (map snd m) -> g <> []) -> forall g, In g (map snd (group_all xs ks m)) -> g <> []).
Proof.
  induction xs as [|x xs IH]; intros [|k ks] m L Hk Hm; try discriminate; cbn [group_all with_key fold_left].
  - repeat split; auto; [intros; rewrite app_nil_r; reflexivity|rewrite app_nil_r; reflexivity].
  - assert (wf k) by (apply Hk; left; reflexivity).
    destruct (IH ks (group_push k x m)) as (A & B & C & D & E); [injection L; auto|intros z Hz; apply Hk; right; auto|apply group_wf; auto|].
    split; [exact A|]. split; [rewrite B, group_keys; reflexivity|]. split; [|split].
    + intros q Hq. rewrite C, group_lookup by auto. destruct (key_match q k); [rewrite <- app_assoc|]; reflexivity.
    + rewrite <- D. clear. assert (P : Permutation (concat (map snd m) ++ [x]) (concat (map snd (group_push k x m)))).
      { induction m as [|[k' g] m IH]; cbn [group_push map concat snd app]; [reflexivity|]. destruct (key_match k k'); cbn [map concat snd].
        - rewrite <- !app_assoc. apply Permutation_app_head. apply Permutation_app_comm.
        - rewrite <- app_assoc. apply Permutation_app_head. exact IH. }
      rewrite <- P, <- app_assoc. reflexivity.
    + intros Hg. apply E. clear - Hg. induction m as [|[k' g] m IH]; cbn [group_push map snd].
      * intros g [<-|[]]. discriminate.
      * destruct (key_match k k'); cbn [map snd].
        -- intros g' [<-|H]; [intro Z; apply app_eq_nil in Z; destruct Z; discriminate|]. apply Hg. right. auto.
        -- intros g' [<-|H]; [apply Hg; left; auto|]. apply IH; auto. intros g0 H0. apply Hg. right. auto.
Qed.
Lemma lookup_dict : forall m q, (forall g, In g (map snd m) -> g <> []) -> 
  dict_get (map (fun p : value * list value => (fst p, VVector (snd p))) m) q = match lookup m q with [] => None | g => Some (VVector g) end.
Proof.
  intros m q Hg. rewrite <- map_get_dict_get. induction m as [|[k g] m IH]; cbn [map map_get lookup fst snd]; [reflexivity|].
  destruct (key_match q k); [|apply IH; intros; apply Hg; right; auto]. destruct g; [exfalso; apply (Hg []); [left|]; reflexivity|reflexivity].
Qed.

(** ** chunks *)
Lemma chunk_ok n : 0 < n -> forall l g, length g < n -> exists cs, chunk_loop n l g = map VVector cs /\ concat cs = g ++ l /\ chunked n cs.
Proof.
  intros Hn. induction l as [|x l IH]; intros g Hg; cbn [chunk_loop].
  - destruct g as [|y g]; [exists []; cbn; auto|]. exists [y :: g]. cbn [map concat chunked]. rewrite !app_nil_r. split; [reflexivity|]. split; [reflexivity|]. cbn [length] in *. lia.
  - rewrite app_length. cbn [length]. destruct (Nat.eqb_spec (length g + 1) n) as [E|N].
    + destruct (IH []) as (cs & -> & C & D); [cbn; lia|]. exists ((g ++ [x]) :: cs). cbn [map concat]. split; [reflexivity|]. split.
      * rewrite C. cbn [app]. rewrite <- app_assoc. reflexivity.
      * destruct cs as [|c cs]; cbn [chunked]; rewrite app_length; cbn [length]; [lia|]. split; [lia|]. exact D.
    + destruct (IH (g ++ [x])) as (cs & -> & C & D); [rewrite app_length; cbn [length]; lia|]. exists cs. split; [reflexivity|]. split; auto. rewrite C, <- app_assoc. reflexivity.
Qed.

(** ** the other loops *)
Lemma checked_ok {W A} (w : W) (k : option (result A * W)) : checked (Ok tt) (Ok tt) w k = k.
Proof. reflexivity. Qed.


Lemma reduce_iff {W} (elems : W -> list value) f2 : forall fuel i acc w r w',
  finish (fun v => v) (live elems fuel i (fun _ x acc w => then_ (f2 acc x w) (fun y => Ok (inl y))) acc w) = Some (r, w') ->
  (exists xs a, folds elems f2 i w acc xs a w' /\ nth_error (elems w') (i + length xs) = None /\ r = Ok a) \/
  (exists xs a x w1, folds elems f2 i w acc xs a w1 /\ nth_error (elems w1) (i + length xs) = Some x /\ f2 a x w1 = (r, w') /\ forall y, r <> Ok y).
Proof.
  induction fuel as [|n IH]; intros i acc w r w' E; cbn [live] in E; [discriminate|].
  destruct (nth_error (elems w) i) as [x|] eqn:N.
  - unfold then_ at 1 in E. destruct (f2 acc x w) as [o w1] eqn:F. destruct o as [y|e|].
    + destruct (IH _ _ _ _ _ E) as [(xs & a & V & L & R)|(xs & a & x' & w2 & V & L & R)].
      * left. exists (x :: xs), a. split; [econstructor; eauto|]. cbn [length]. rewrite <- Nat.add_succ_comm. auto.
      * right. exists (x :: xs), a, x', w2. split; [econstructor; eauto|]. cbn [length]. rewrite <- Nat.add_succ_comm. auto.
    + injection E as <- <-. right. exists [], acc, x, w. cbn [length]. rewrite Nat.add_0_r. repeat split; auto; [constructor|discriminate].
    + injection E as <- <-. right. exists [], acc, x, w. cbn [length]. rewrite Nat.add_0_r. repeat split; auto; [constructor|discriminate].
  - injection E as <- <-. left. exists [], acc. cbn [length]. rewrite Nat.add_0_r. repeat split; auto. constructor.
Qed.
Lemma folds_live {W} (elems : W -> list value) f2 : forall i w acc xs a w', folds elems f2 i w acc xs a w' -> forall n,
  live elems (length xs + n) i (fun _ x acc w => then_ (f2 acc x w) (fun y => Ok (inl y))) acc w =
  live elems n (i + length xs) (fun _ x acc w => then_ (f2 acc x w) (fun y => Ok (inl y))) a w'.
Proof.
  induction 1 as [i w a|i w a x b w1 xs c w2 N F V IH]; intro n; cbn [length Nat.add]; [rewrite Nat.add_0_r; reflexivity|].
  cbn [live]. rewrite N. unfold then_ at 1. rewrite F. rewrite IH. replace (S i + length xs) with (i + S (length xs)) by lia. reflexivity.
Qed.
Lemma folds_elems {W} (elems : W -> list value) f2 : (forall a, leaves_alone elems (f2 a)) ->
  forall i w acc xs a w', folds elems f2 i w acc xs a w' -> elems w' = elems w /\ (i <= length (elems w) -> firstn (length xs) (skipn i (elems w)) = xs).
Proof.
  intros LA. induction 1 as [i w a|i w a x b w1 xs c w2 N F V [IH1 IH2]].
  - split; [reflexivity|]. intros _. reflexivity.
  - specialize (LA a x w). rewrite F in LA. cbn [snd] in LA. split; [congruence|]. intro L. cbn [length].
    assert (i < length (elems w)) by (apply nth_error_Some; congruence).
    apply nth_error_split in N. destruct N as (l1 & l2 & E & L1). rewrite LA, E in IH2. rewrite E. subst i.
    assert (Q1 : skipn (length l1) (l1 ++ x :: l2) = x :: l2) by (rewrite skipn_app, skipn_all, Nat.sub_diag; reflexivity).
    assert (Q2 : skipn (S (length l1)) (l1 ++ x :: l2) = l2).
    { rewrite skipn_app, skipn_all2 by lia. replace (S (length l1) - length l1) with 1 by lia. reflexivity. }
    rewrite Q1. cbn [firstn]. rewrite Q2 in IH2. rewrite IH2; [reflexivity|]. rewrite app_length. cbn [length]. lia.
Qed.

(** ** min_by, max_by *)
Definition pick (is_min : bool) (a b : value * value) : value * value :=
  match value_cmp (fst a) (fst b) with Gt => if is_min then b else a | _ => if is_min then a else b end.
Lemma pick_min k : forall l cur l1 l2, Forall (good k) (map fst (l1 ++ cur :: l2 ++ l)) ->
  (forall y, In y l1 -> vlt (fst cur) (fst y) = true) -> (forall y, In y l2 -> vle (fst cur) (fst y) = true) ->
  exists m1 m m2, l1 ++ cur :: l2 ++ l = m1 ++ m :: m2 /\ fold_left (pick true) l cur = m /\
     (forall y, In y m1 -> vlt (fst m) (fst y) = true) /\ (forall y, In y m2 -> vle (fst m) (fst y) = true).
Proof.
  induction l as [|x l IH]; intros cur l1 l2 Hg H1 H2; cbn [fold_left].
  - exists l1, cur, l2. rewrite app_nil_r in *. auto.
  - assert (Gc : good k (fst cur) /\ good k (fst x) /\ Forall (good k) (map fst l1) /\ Forall (good k) (map fst l2)).
    { rewrite map_app in Hg. apply Forall_app in Hg. destruct Hg as [? Hg]. cbn [map] in Hg. inversion Hg as [|? ? ? Hg']; subst. rewrite map_app in Hg'. apply Forall_app in Hg'. destruct Hg' as [? Hg']. inversion Hg'; subst. auto. }
    destruct Gc as (Gc & Gx & G1 & G2). unfold pick at 2. destruct (vle (fst cur) (fst x)) eqn:E.
    + replace (match value_cmp (fst cur) (fst x) with Gt => x | _ => cur end) with cur by (unfold vle in E; destruct (value_cmp (fst cur) (fst x)); congruence).
      specialize (IH cur l1 (l2 ++ [x])). rewrite <- app_assoc in IH. cbn [app] in IH. apply IH; auto.
      intros y Hy. apply in_app_or in Hy. destruct Hy as [Hy|[<-|[]]]; auto.
    + replace (match value_cmp (fst cur) (fst x) with Gt => x | _ => cur end) with x by (unfold vle in E; destruct (value_cmp (fst cur) (fst x)); congruence).
      specialize (IH x (l1 ++ cur :: l2) []). rewrite <- app_assoc in IH. cbn [app] in IH. apply IH; auto; try (intros y []; fail).
      assert (L : vle (fst x) (fst cur) = true) by (eapply good_total; eassumption).
      intros y Hy. rewrite Forall_forall in G1, G2. apply in_app_or in Hy. destruct Hy as [Hy|[<-|Hy]].
      * specialize (H1 y Hy). specialize (G1 _ (in_map fst _ _ Hy)). rewrite (good_lt k) in * by auto. destruct (vle (fst y) (fst x)) eqn:E2; auto. rewrite (good_trans k (fst y) (fst x) (fst cur)) in H1; auto.
      * rewrite (good_lt k), E by auto. reflexivity.
      * specialize (H2 y Hy). specialize (G2 _ (in_map fst _ _ Hy)). rewrite (good_lt k) by auto. destruct (vle (fst y) (fst x)) eqn:E2; auto. rewrite (good_trans k (fst cur) (fst y) (fst x)) in E; auto.
Qed.
Lemma pick_max k : forall l cur l1 l2, Forall (good k) (map fst (l1 ++ cur :: l2 ++ l)) ->
  (forall y, In y l1 -> vle (fst y) (fst cur) = true) -> (forall y, In y l2 -> vlt (fst y) (fst cur) = true) ->
  exists m1 m m2, l1 ++ cur :: l2 ++ l = m1 ++ m :: m2 /\ fold_left (pick false) l cur = m /\
     (forall y, In y m1 -> vle (fst y) (fst m) = true) /\ (forall y, In y m2 -> vlt (fst y) (fst m) = true).
Proof.
  induction l as [|x l IH]; intros cur l1 l2 Hg H1 H2; cbn [fold_left].
  - exists l1, cur, l2. rewrite app_nil_r in *. auto.
  - assert (Gc : good k (fst cur) /\ good k (fst x) /\ Forall (good k) (map fst l1) /\ Forall (good k) (map fst l2)).
    { rewrite map_app in Hg. apply Forall_app in Hg. destruct Hg as [? Hg]. cbn [map] in Hg. inversion Hg as [|? ? ? Hg']; subst. rewrite map_app in Hg'. apply Forall_app in Hg'. destruct Hg' as [? Hg']. inversion Hg'; subst. auto. }
    destruct Gc as (Gc & Gx & G1 & G2). unfold pick at 2. destruct (vle (fst cur) (fst x)) eqn:E.
    + replace (match value_cmp (fst cur) (fst x) with Gt => cur | _ => x end) with x by (unfold vle in E; destruct (value_cmp (fst cur) (fst x)); congruence).
      specialize (IH x (l1 ++ cur :: l2) []). rewrite <- app_assoc in IH. cbn [app] in IH. apply IH; auto; try (intros y []; fail).
      intros y Hy. rewrite Forall_forall in G1, G2. apply in_app_or in Hy. destruct Hy as [Hy|[<-|Hy]]; auto.
      * specialize (G1 _ (in_map fst _ _ Hy)). apply (good_trans k (fst y) (fst cur) (fst x)); auto.
      * specialize (H2 y Hy). specialize (G2 _ (in_map fst _ _ Hy)). rewrite (good_lt k) in H2 by auto. apply (good_trans k (fst y) (fst cur) (fst x)); auto. apply (good_total k); auto. apply negb_true_iff. exact H2.
    + replace (match value_cmp (fst cur) (fst x) with Gt => cur | _ => x end) with cur by (unfold vle in E; destruct (value_cmp (fst cur) (fst x)); congruence).
      specialize (IH cur l1 (l2 ++ [x])). rewrite <- app_assoc in IH. cbn [app] in IH. apply IH; auto.
      intros y Hy. apply in_app_or in Hy. destruct Hy as [Hy|[<-|[]]]; auto. rewrite (good_lt k), E by auto. reflexivity.
Qed.

(** what the loop of min_by does with the outcomes of the calls, which it keeps making *)
Section By.
  Context {W : Type} (elems : W -> list value) (f : value -> W -> result value * W).
  Definition key_of (r : result value) : value := match r with Ok y => y | _ => VNil end.
  Fixpoint last_err (rs : list (result value)) (e : option error) : option error :=
    match rs with [] => e | Err e' :: r => last_err r (Some e') | _ :: r => last_err r e end.
  Definition best_of (is_min : bool) (l : list (value * value)) (cur : option (value * value)) : option (value * value) :=
    fold_left (fun c p => Some (match c with None => p | Some b => pick is_min b p end)) l cur.
  Lemma best_some is_min : forall l c, best_of is_min l (Some c) = Some (fold_left (pick is_min) l c).
  Proof. unfold best_of. induction l as [|p l IH]; intro c; cbn [fold_left]; auto. Qed.

  Lemma by_step is_min i w x r w1 n st : nth_error (elems w) i = Some x -> f x w = (r, w1) -> r <> Panic ->
    live elems (S n) i (min_by_body f is_min) st w =
    live elems n (S i) (min_by_body f is_min) (best_of is_min [(key_of r, x)] (fst st), last_err [r] (snd st)) w1.
  Proof.
    intros N F P. cbn [live]. rewrite N. unfold min_by_body at 1. rewrite F. destruct st as [c e]. cbn [fst snd].
    destruct r as [y|e'|]; cbn [catch_key key_of best_of fold_left last_err]; [| |contradiction].
    - do 3 f_equal. destruct c as [[bk bx]|]; [|reflexivity]. unfold pick. cbn [fst]. destruct (value_cmp bk y), is_min; reflexivity.
    - do 3 f_equal. destruct c as [[bk bx]|]; [|reflexivity]. unfold pick. cbn [fst]. destruct (value_cmp bk VNil), is_min; reflexivity.
  Qed.
  Lemma by_visits is_min : forall i w xs ys w', visits elems f i w xs ys w' -> forall n c e,
    live elems (length xs + n) i (min_by_body f is_min) (c, e) w = live elems n (i + length xs) (min_by_body f is_min) (best_of is_min (combine ys xs) c, e) w'.
  Proof.
    induction 1 as [i w|i w x y w1 xs ys w2 N F V IH]; intros n c e; cbn [length Nat.add combine best_of fold_left]; [rewrite Nat.add_0_r; reflexivity|].
    rewrite (by_step is_min i w x (Ok y) w1 _ (c, e) N F) by discriminate. cbn [fst snd last_err key_of]. rewrite IH.
    replace (S i + length xs) with (i + S (length xs)) by lia. reflexivity.
  Qed.
  Lemma by_ends is_min : forall fuel i st w, exists r, live elems fuel i (min_by_body f is_min) st w = r /\
    match r with Some (Ok (inr _), _) | Some (Err _, _) => False | _ => True end.
  Proof.
    induction fuel as [|n IH]; intros i st w; [exists None; auto|]. cbn [live]. destruct (nth_error (elems w) i); [|eexists; split; [reflexivity|exact I]].
    unfold min_by_body at 1. destruct (catch_key (f v w) (snd st)) as [[[k e]|] w1]; [apply IH|]. eexists; split; [reflexivity|exact I].
  Qed.
End By.
