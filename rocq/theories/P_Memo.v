(** Memoised functions (C37).  [p] is the rest of the program: any interleaving of calls of
    the memoised function and other effects; [body] is the function underneath, which may do
    the same.  The trace records every call, every start and end of the function underneath
    and every answer.  The number of steps looked at, [n], is arbitrary, so the theorems hold
    at every point of every execution. *)
From Verif Require Import Base Native Value ValueSpec ValueProofs Err Coll CollProofs OpsProofs2 Memo MemoSpec MemoProofs.

Section C37.
  Context {U : Type} (body : list value -> prog U) (B : forall a, all_wf a -> tidy (body a)).
  Context (n : nat) (p : prog U) (P : tidy p) (u : U).
  Let t := trace (snd (run body n p (State [] u []))).
  Lemma t_fine : fine t /\ (forall e, In e t -> wf_happened e) /\ (forall a v w, all_wf a -> answered t a v -> answered t a w -> v = w).
  Proof.
    unfold t. destruct (run body n p (State [] u [])) as [r s] eqn:E. destruct (all_ok body B n) as [R _].
    destruct (R p (State [] u []) r s P) as (I & F & _); auto.
    - split; [intros k x []|]. split; [intros e []|]. intros a v Ha. cbn. split; [discriminate|intros (a' & [] & _)].
    - split; [|split; [|split]]; intros t1; intros; destruct t1; discriminate.
    - cbn [snd]. split; auto. split; [apply I|]. intros a v w Ha H1 H2. destruct I as (_ & _ & I). apply I in H1; auto. apply I in H2; auto. congruence.
  Qed.
  Lemma t_prefix_answered t1 t2 a v : t = t1 ++ t2 -> answered t1 a v -> answered t a v.
  Proof. intros -> (a' & I & S). exists a'. split; auto. apply in_or_app. auto. Qed.
  Lemma same_self a : all_wf a -> same a a.
  Proof. intro H. apply key_match_refl. apply wf_key. auto. Qed.

  (** For equal argument tuples the memoised function always gives the same answer. *)
  Theorem C37_stable : forall a v a' v', In (Answered a v) t -> In (Answered a' v') t -> same a a' -> v' = v.
  Proof.
    intros a v a' v' I1 I2 S. destruct t_fine as (_ & W & D). assert (W1 := W _ I1). assert (W2 := W _ I2). cbn in W1, W2.
    apply (D a); auto; [exists a'; auto|exists a; split; auto; apply same_self; auto].
  Qed.
  (** Each call either is answered at once, with an earlier answer for equal arguments, or,
      if there is none, calls the function underneath. *)
  Theorem C37_calls : forall t1 a t2, t = t1 ++ Called a :: t2 -> exists e t3, t2 = e :: t3 /\
    ((exists v, e = Answered a v /\ answered t1 a v) \/ (e = Started a /\ not_answered t1 a)).
  Proof. destruct t_fine as ((F & _) & _). exact F. Qed.
  (** The function underneath is called only by such a call, and never again after an
      answer for equal arguments. *)
  Theorem C37_never_again : forall t1 a t2, t = t1 ++ Started a :: t2 -> (exists t0, t1 = t0 ++ [Called a]) /\ not_answered t1 a.
  Proof.
    intros t1 a t2 E. destruct t_fine as ((F1 & F2 & _) & _). destruct (F2 _ _ _ E) as (t0 & ->). split; [eauto|].
    rewrite <- app_assoc in E. cbn [app] in E. destruct (F1 _ _ _ E) as (e & t3 & Q & H). injection Q as <- <-. destruct H as [(v & Q & _)|[_ H]]; [discriminate|].
    intros b v I. apply in_app_or in I. destruct I as [I|[I|[]]]; [eauto|discriminate].
  Qed.
  Lemma origin : forall k t1 t2 a v, length t1 <= k -> t = t1 ++ Answered a v :: t2 -> exists a', In (Finished a' v) t1 /\ same a a'.
  Proof.
    induction k as [|k IH]; intros t1 t2 a v L E; destruct t_fine as ((_ & _ & F3 & _) & W & _); assert (Wa : all_wf a) by (apply (W (Answered a v)); rewrite E; apply in_or_app; right; left; reflexivity).
    - destruct t1; [|cbn in L; lia]. destruct (F3 _ _ _ _ E) as [(b & [] & _)|(_ & t0 & Q)]. destruct t0; discriminate.
    - destruct (F3 _ _ _ _ E) as [(b & I & S)|(_ & t0 & ->)].
      + apply in_split in I. destruct I as (x & y & ->). rewrite <- app_assoc in E. cbn [app] in E. destruct (IH x _ b v ltac:(rewrite app_length in L; cbn in L; lia) E) as (c & I & S').
        assert (Wb : all_wf b) by (apply (W (Answered b v)); rewrite E; apply in_or_app; right; left; reflexivity).
        assert (Wc : all_wf c) by (apply (W (Finished c v)); rewrite E; apply in_or_app; left; auto).
        exists c. split; [apply in_or_app; auto|]. apply (same_trans a b c); auto.
      + exists a. split; [apply in_or_app; right; left; reflexivity|apply same_self; auto].
  Qed.
  (** Every answer was returned before by the function underneath for equal arguments. *)
  Theorem C37_computed : forall t1 a v t2, t = t1 ++ Answered a v :: t2 -> exists a', In (Finished a' v) t1 /\ same a a'.
  Proof. intros t1 a v t2 E. eapply origin; [apply Nat.le_refl|exact E]. Qed.
  (** All answers are the first value the function underneath returned for equal arguments. *)
  Theorem C37_first : forall t1 a v t2, t = t1 ++ Finished a v :: t2 -> (forall a' v', In (Finished a' v') t1 -> ~ same a a') ->
    forall a' v', In (Answered a' v') t -> same a a' -> v' = v.
  Proof.
    intros t1 a v t2 E N a' v' I S. destruct t_fine as ((_ & _ & F3 & F4) & W & D).
    assert (Wa : all_wf a) by (apply (W (Finished a v)); rewrite E; apply in_or_app; right; left; reflexivity).
    assert (NA : not_answered t1 a).
    { intros b w Hb Sb. assert (Hb' := Hb). apply in_split in Hb. destruct Hb as (x & y & ->). assert (E' := E). rewrite <- app_assoc in E'. cbn [app] in E'. destruct (C37_computed _ _ _ _ E') as (c & Hc & Sc).
      apply (N c w). { apply in_or_app. auto. } apply (same_trans a b c); auto; [apply (W (Answered b w))|apply (W (Finished c w))]; rewrite E'; apply in_or_app; [right; left; reflexivity|left; auto]. }
    destruct (F4 _ _ _ _ E) as (w & t3 & ->). assert (E' : t = (t1 ++ [Finished a v]) ++ Answered a w :: t3) by (rewrite E, <- app_assoc; reflexivity).
    assert (Q : w = v).
    { destruct (F3 _ _ _ _ E') as [(b & Hb & Sb)|(_ & t0 & Q)].
      - exfalso. apply in_app_or in Hb. destruct Hb as [Hb|[Hb|[]]]; [eapply NA; eauto|discriminate].
      - apply app_inj_tail in Q. destruct Q as [_ Q]. injection Q as ->. reflexivity. }
    subst w. apply (C37_stable a v a' v'); auto. rewrite E'. apply in_or_app. right. left. reflexivity.
  Qed.
End C37.
Print Assumptions C37_stable.
Print Assumptions C37_calls.
Print Assumptions C37_never_again.
Print Assumptions C37_computed.
Print Assumptions C37_first.

(** An answered call changes nothing. *)
Theorem C37_hit : forall U (body : list value -> prog U) n a s v, map_get (VList a) (cache s) = Some v ->
  exists s', invoke_memoized body n a s = (Some (Ok v), s') /\ cache s' = cache s /\ user s' = user s.
Proof. intros U body n a s v H. rewrite invoke_S. cbn zeta. rewrite H. eexists. split; [reflexivity|]. split; reflexivity. Qed.
Print Assumptions C37_hit.
(** A function that fails is called again by the next call. *)
Theorem C37_failure_not_cached : forall U (body : list value -> prog U) (B : forall a, all_wf a -> tidy (body a)) n a u e s, all_wf a ->
  invoke_memoized body n a (State [] u []) = (Some (Err e), s) -> not_answered (trace s) a ->
  forall m, exists t, trace (snd (invoke_memoized body m a s)) = trace s ++ Called a :: Started a :: t.
Proof.
  intros U body B n a u e s Ha E N m. destruct (all_ok body B n) as [_ R]. destruct (R a (State [] u []) (Some (Err e)) s Ha) as (I & F & _); [| |exact E|].
  - split; [intros k x []|]. split; [intros x []|]. intros b v Hb. cbn. split; [discriminate|intros (a' & [] & _)].
  - split; [|split; [|split]]; intros t1; intros; destruct t1; discriminate.
  - assert (G : map_get (VList a) (cache s) = None).
    { destruct (map_get (VList a) (cache s)) as [v|] eqn:G; auto. apply I in G; auto. destruct G as (b & Hb & Sb). exfalso. eapply N; eauto. }
    destruct (all_ok body B m) as [_ R']. destruct (invoke_memoized body m a s) as [r s2] eqn:E2. destruct (R' a s r s2 Ha I F E2) as (_ & F2 & t & T). cbn [snd].
    destruct F2 as (F2 & _). destruct (F2 (trace s) a t T) as (x & t3 & -> & [(v & -> & (b & Hb & Sb))|[-> _]]).
    + exfalso. eapply N; eauto.
    + eauto.
Qed.
Print Assumptions C37_failure_not_cached.

(** "Exactly once" does not hold if a call for the same arguments is made while the first one
    is in progress: the function underneath runs twice, and the outer result is dropped. *)
Theorem C37_exactly_once_refuted : exists (body : list value -> prog nat) n,
  (forall a, all_wf a -> tidy (body a)) /\
  snd (run body n (Again [] (fun r => Done r)) (State [] 0 [])) = State [(VList [], VInt 1)] 2 [Called []; Started []; Called []; Started []; Finished [] (VInt 1); Answered [] (VInt 1); Finished [] (VInt 2); Answered [] (VInt 1)] /\
  fst (run body n (Again [] (fun r => Done r)) (State [] 0 [])) = Some (Ok (VInt 1)).
Proof.
  exists (fun a => Act (fun u => (S u, if u =? 0 then Again a (fun _ => Done (Ok (VInt 2))) else Done (Ok (VInt 1))))), 10.
  split; [|split; vm_compute; reflexivity]. intros a Ha. constructor. intro u. cbn [snd]. destruct (u =? 0); repeat constructor. exact Ha.
Qed.
Print Assumptions C37_exactly_once_refuted.

(** memoised Fibonacci: each argument is computed once *)
Example C37_ex :
  let body := fun a => match a with
    | [VInt k] => if (k <? 2)%Z then Done (Ok (VInt k)) else
        Again [VInt (k - 1)] (fun x => Again [VInt (k - 2)] (fun y => match x, y with Ok (VInt x), Ok (VInt y) => Done (Ok (VInt (x + y))) | _, _ => Done Panic end))
    | _ => Done Panic end in
  fst (run body 200 (Again [VInt 20] (fun r => Done r)) (State [] tt [])) = Some (Ok (VInt 6765)) /\
  length (filter (fun e => match e with Started _ => true | _ => false end) (trace (snd (run body 200 (Again [VInt 20] (fun r => Done r)) (State [] tt []))))) = 21.
Proof. split; vm_compute; reflexivity. Qed.
