From Verif Require Import Base Native Value ValueSpec ValueProofs Err Coll CollProofs OpsProofs2 Memo MemoSpec.

Definition wf_happened (e : happened) : Prop := match e with Called a | Started a | Finished a _ | Failed a | Answered a _ => all_wf a end.
Lemma wf_key a : all_wf a -> wf (VList a). Proof. intro H. constructor. exact H. Qed.
(** the facts about calls, starts and answers in a trace *)
Definition fine (t : list happened) : Prop :=
  (forall t1 a t2, t = t1 ++ Called a :: t2 -> exists e t3, t2 = e :: t3 /\ ((exists v, e = Answered a v /\ answered t1 a v) \/ (e = Started a /\ not_answered t1 a))) /\
  (forall t1 a t2, t = t1 ++ Started a :: t2 -> exists t0, t1 = t0 ++ [Called a]) /\
  (forall t1 a v t2, t = t1 ++ Answered a v :: t2 -> answered t1 a v \/ (not_answered t1 a /\ exists t0, t1 = t0 ++ [Finished a v])) /\
  (forall t1 a v t2, t = t1 ++ Finished a v :: t2 -> exists v' t3, t2 = Answered a v' :: t3).
Section U.
  Context {U : Type}.
  Definition keyed (s : state U) : Prop := forall k x, In (k, x) (cache s) -> wf k.
  Definition inv (s : state U) : Prop :=
    keyed s /\ (forall e, In e (trace s) -> wf_happened e) /\
    (forall a v, all_wf a -> (map_get (VList a) (cache s) = Some v <-> answered (trace s) a v)).
End U.

Lemma split_last {A} (t : list A) x t1 y t2 : t ++ [x] = t1 ++ y :: t2 -> (t2 = [] /\ t1 = t /\ y = x) \/ exists t2', t2 = t2' ++ [x] /\ t = t1 ++ y :: t2'.
Proof.
  revert t1. induction t as [|c t IH]; intros t1 E.
  - destruct t1 as [|d t1]; cbn in E.
    + injection E as <- <-. left. auto.
    + injection E as <- E. destruct t1; discriminate.
  - destruct t1 as [|d t1]; cbn [app] in E.
    + injection E as <- <-. right. exists t. auto.
    + injection E as <- E. destruct (IH t1 E) as [(-> & -> & ->)|(t2' & -> & ->)]; [left; auto|right; exists t2'; auto].
Qed.
Lemma answered_app t e a v : answered (t ++ [e]) a v <-> answered t a v \/ (exists a', e = Answered a' v /\ same a a').
Proof.
  unfold answered. split.
  - intros (a' & I & S). apply in_app_or in I. destruct I as [I|[I|[]]]; [left; eauto|right; eauto].
  - intros [(a' & I & S)|(a' & -> & S)]; exists a'; (split; auto); apply in_or_app; [left; auto|right; left; auto].
Qed.
Lemma get_none_not_answered {U} (s : state U) a : inv s -> all_wf a -> map_get (VList a) (cache s) = None -> not_answered (trace s) a.
Proof.
  intros (K & W & I) Ha E a' v Hi S. assert (X : answered (trace s) a v) by (exists a'; auto). apply I in X; auto. congruence.
Qed.
(** an event that is not an answer *)
Definition quiet (e : happened) : Prop := match e with Answered _ _ => False | _ => True end.
Lemma inv_log {U} e (s : state U) : quiet e -> wf_happened e -> inv s -> inv (log e s).
Proof.
  intros Q We (K & W & I). split; [exact K|]. split.
  - intros x Hx. cbn [log trace] in Hx. apply in_app_or in Hx. destruct Hx as [Hx|[<-|[]]]; auto.
  - intros a v Ha. cbn [log trace cache]. rewrite answered_app, (I a v Ha). split; [auto|]. intros [|(a' & -> & _)]; [auto|destruct Q].
Qed.
Lemma inv_user {U} (s : state U) (u : U) : inv s -> inv (State (cache s) u (trace s)).
Proof. intros H. exact H. Qed.
Lemma fine_failed t a : fine t -> fine (t ++ [Failed a]).
Proof.
  intros (F1 & F2 & F3 & F4). split; [|split; [|split]].
  - intros t1 b t2 E. destruct (split_last _ _ _ _ _ E) as [(-> & -> & Q)|(t2' & -> & E')]; [discriminate|]. destruct (F1 _ _ _ E') as (x & t3 & -> & H). exists x, (t3 ++ [Failed a]). split; auto.
  - intros t1 b t2 E. destruct (split_last _ _ _ _ _ E) as [(-> & -> & Q)|(t2' & -> & E')]; [discriminate|]. eapply F2; eauto.
  - intros t1 b v t2 E. destruct (split_last _ _ _ _ _ E) as [(-> & -> & Q)|(t2' & -> & E')]; [discriminate|]. eapply F3; eauto.
  - intros t1 b v t2 E. destruct (split_last _ _ _ _ _ E) as [(-> & -> & Q)|(t2' & -> & E')]; [discriminate|]. destruct (F4 _ _ _ _ E') as (x & t3 & ->). exists x, (t3 ++ [Failed a]). reflexivity.
Qed.
Lemma fine_finish t a ret v : fine t -> answered t a v \/ (not_answered t a /\ v = ret) -> fine ((t ++ [Finished a ret]) ++ [Answered a v]).
Proof.
  intros (F1 & F2 & F3 & F4) H. split; [|split; [|split]].
  - intros t1 b t2 E. destruct (split_last _ _ _ _ _ E) as [(-> & -> & Q)|(t2' & -> & E')]; [discriminate|]. destruct (split_last _ _ _ _ _ E') as [(-> & -> & Q)|(t2'' & -> & E'')]; [discriminate|].
    destruct (F1 _ _ _ E'') as (x & t3 & -> & Hx). eexists x, _. split; [reflexivity|auto].
  - intros t1 b t2 E. destruct (split_last _ _ _ _ _ E) as [(-> & -> & Q)|(t2' & -> & E')]; [discriminate|]. destruct (split_last _ _ _ _ _ E') as [(-> & -> & Q)|(t2'' & -> & E'')]; [discriminate|]. eapply F2; eauto.
  - intros t1 b x t2 E. destruct (split_last _ _ _ _ _ E) as [(-> & -> & Q)|(t2' & -> & E')].
    + injection Q as -> ->. destruct H as [H|[H ->]]; [left; apply answered_app; auto|]. right. split; [|eauto]. intros b y Hy. apply in_app_or in Hy. destruct Hy as [Hy|[Hy|[]]]; [eauto|discriminate].
    + destruct (split_last _ _ _ _ _ E') as [(-> & -> & Q)|(t2'' & -> & E'')]; [discriminate|]. eapply F3; eauto.
  - intros t1 b x t2 E. destruct (split_last _ _ _ _ _ E) as [(-> & -> & Q)|(t2' & -> & E')]; [discriminate|]. destruct (split_last _ _ _ _ _ E') as [(-> & -> & Q)|(t2'' & -> & E'')].
    + injection Q as -> ->. exists v, []. reflexivity.
    + destruct (F4 _ _ _ _ E'') as (y & t3 & ->). eexists y, _. reflexivity.
Qed.
Lemma fine_call t a e : fine t -> (exists v, e = Answered a v /\ answered t a v) \/ (e = Started a /\ not_answered t a) -> fine (t ++ [Called a; e]).
Proof.
  intros (F1 & F2 & F3 & F4) H. replace (t ++ [Called a; e]) with ((t ++ [Called a]) ++ [e]) by (rewrite <- app_assoc; reflexivity).
  assert (NE : forall b, e <> Called b) by (destruct H as [(v & -> & _)|[-> _]]; discriminate).
  split; [|split; [|split]].
  - intros t1 b t2 E. destruct (split_last _ _ _ _ _ E) as [(-> & -> & Q)|(t2' & -> & E')]; [exfalso; eapply NE; eauto|].
    destruct (split_last _ _ _ _ _ E') as [(-> & -> & Q)|(t2'' & -> & E'')]; [injection Q as ->; exists e, []; auto|]. destruct (F1 _ _ _ E'') as (x & t3 & -> & Hx). eexists x, _. split; [reflexivity|auto].
  - intros t1 b t2 E. destruct (split_last _ _ _ _ _ E) as [(-> & -> & Q)|(t2' & -> & E')].
    + destruct H as [(v & -> & _)|[-> _]]; [discriminate|]. injection Q as ->. exists t. reflexivity.
    + destruct (split_last _ _ _ _ _ E') as [(-> & -> & Q)|(t2'' & -> & E'')]; [discriminate|]. eapply F2; eauto.
  - intros t1 b v t2 E. destruct (split_last _ _ _ _ _ E) as [(-> & -> & Q)|(t2' & -> & E')].
    + destruct H as [(v' & -> & A)|[-> _]]; [|discriminate]. injection Q as -> ->. left. apply answered_app. auto.
    + destruct (split_last _ _ _ _ _ E') as [(-> & -> & Q)|(t2'' & -> & E'')]; [discriminate|]. eapply F3; eauto.
  - intros t1 b v t2 E. destruct (split_last _ _ _ _ _ E) as [(-> & -> & Q)|(t2' & -> & E')]; [destruct H as [(v' & -> & A)|[-> _]]; discriminate|].
    destruct (split_last _ _ _ _ _ E') as [(-> & -> & Q)|(t2'' & -> & E'')]; [discriminate|]. destruct (F4 _ _ _ _ E'') as (y & t3 & ->). eexists y, _. reflexivity.
Qed.
Lemma map_get_wf {U} (s : state U) : keyed s -> forall k k', wf k -> wf k' -> key_match k k' = true -> map_get k (cache s) = map_get k' (cache s).
Proof.
  unfold keyed. induction (cache s) as [|[q x] l IH]; intros K k k' Hk Hk' E; [reflexivity|]. cbn [map_get].
  assert (Hq : wf q) by (eapply K; left; reflexivity). rewrite (key_match_sym k q), (key_match_sym k' q), (km_trans_eq k k' q) by auto. rewrite (IH (fun a b H => K a b (or_intror H)) k k') by auto. reflexivity.
Qed.
Lemma same_sym a b : all_wf a -> all_wf b -> same a b -> same b a.
Proof. unfold same. intros Ha Hb H. rewrite key_match_sym; auto using wf_key. Qed.
Lemma same_trans a b c : all_wf a -> all_wf b -> all_wf c -> same a b -> same b c -> same a c.
Proof. unfold same. intros Ha Hb Hc H1 H2. eapply key_match_trans; [| | |exact H1|exact H2]; auto using wf_key. Qed.

Lemma run_S {U} (body : list value -> prog U) n p s : run body (S n) p s =
  match p with
  | Done r => (Some r, s)
  | Act k => let '(u, p') := k (user s) in run body n p' (State (cache s) u (trace s))
  | Again args k => match invoke_memoized body n args s with (Some r, s') => run body n (k r) s' | (None, s') => (None, s') end
  end.
Proof. reflexivity. Qed.
Lemma invoke_S {U} (body : list value -> prog U) n args s0 : invoke_memoized body n args s0 =
  let s := log (Called args) s0 in
  match map_get (VList args) (cache s0) with
  | Some ret => (Some (Ok ret), log (Answered args ret) s)
  | None =>
      match n with
      | O => (None, log (Started args) s)
      | S n =>
          match run body n (body args) (log (Started args) s) with
          | (Some (Ok ret), s') =>
              let s' := log (Finished args ret) s' in
              let '(v, c) := map_or_insert (VList args) ret (cache s') in
              (Some (Ok v), log (Answered args v) (State c (user s') (trace s')))
          | (Some r, s') => (Some r, log (Failed args) s')
          | (None, s') => (None, s')
          end
      end
  end.
Proof. destruct n; reflexivity. Qed.
Lemma all_ok {U} (body : list value -> prog U) : (forall a, all_wf a -> tidy (body a)) -> forall n,
  (forall p s r s', tidy p -> inv s -> fine (trace s) -> run body n p s = (r, s') -> inv s' /\ fine (trace s') /\ exists t, trace s' = trace s ++ t) /\
  (forall a s r s', all_wf a -> inv s -> fine (trace s) -> invoke_memoized body n a s = (r, s') -> inv s' /\ fine (trace s') /\ exists t, trace s' = trace s ++ Called a :: t).
Proof.
  intros B. induction n as [n IHn] using lt_wf_ind.
  assert (R : forall p s r s', tidy p -> inv s -> fine (trace s) -> run body n p s = (r, s') -> inv s' /\ fine (trace s') /\ exists t, trace s' = trace s ++ t).
  { destruct n as [|n]; intros p s r s' T I F E; [cbn [run] in E|rewrite run_S in E].
    - injection E as <- <-. split; auto. split; auto. exists []. rewrite app_nil_r. reflexivity.
    - destruct (IHn n (Nat.lt_succ_diag_r n)) as [IR II]. destruct T as [r0|k Tk|args k Ha Tk].
      + injection E as <- <-. split; auto. split; auto. exists []. rewrite app_nil_r. reflexivity.
      + specialize (Tk (user s)). destruct (k (user s)) as [u p'] eqn:K. apply (IR _ (State (cache s) u (trace s)) r s' Tk); auto.
      + destruct (invoke_memoized body n args s) as [[r1|] s1] eqn:E1.
        * destruct (II _ _ _ _ Ha I F E1) as (I1 & F1 & t1 & T1). destruct (IR _ _ _ _ (Tk r1) I1 F1 E) as (I2 & F2 & t2 & T2). split; auto. split; auto.
          exists (Called args :: t1 ++ t2). rewrite T2, T1, <- app_assoc. reflexivity.
        * injection E as <- <-. destruct (II _ _ _ _ Ha I F E1) as (I1 & F1 & t1 & T1). split; auto. split; auto. eauto. }
  split; [exact R|]. clear R. intros a s r s' Ha I F E.
  assert (Ic : inv (log (Called a) s)) by (apply inv_log; cbn; auto).
  assert (G : forall v, map_get (VList a) (cache s) = Some v -> (r, s') = (Some (Ok v), log (Answered a v) (log (Called a) s)) -> inv s' /\ fine (trace s') /\ exists t, trace s' = trace s ++ Called a :: t).
  { intros v Gv Q. injection Q as _ ->. assert (A : answered (trace s) a v) by (apply I; auto). split; [|split].
    - destruct Ic as (K & W & X). split; [exact K|]. split.
      + intros e He. cbn [log trace] in He. apply in_app_or in He. destruct He as [He|[<-|[]]]; auto.
      + intros a1 v1 H1. cbn [log trace cache]. rewrite !answered_app. destruct I as (K0 & _ & I). rewrite (I a1 v1 H1). split; [tauto|]. intros [[H|(x & Q & _)]|(x & Q & S)]; [auto|discriminate|]. injection Q as <- <-.
        apply I; auto. rewrite (map_get_wf s K0 (VList a1) (VList a)); auto using wf_key.
    - cbn [log trace]. rewrite <- app_assoc. cbn [app]. apply fine_call; auto. left. eauto.
    - cbn [log trace]. rewrite <- app_assoc. cbn [app]. eauto. }
  rewrite invoke_S in E; cbn zeta in E; destruct n as [|n]; destruct (map_get (VList a) (cache s)) as [ret|] eqn:M; try (apply (G _ eq_refl); congruence).
  - injection E as <- <-. split; [apply inv_log; cbn; auto|]. cbn [log trace]. rewrite <- app_assoc. cbn [app]. split; [|eauto]. apply fine_call; auto. right. split; auto. apply get_none_not_answered; auto.
  - destruct (IHn n (Nat.lt_succ_diag_r n)) as [IR _]. clear IHn G.
    assert (Is : inv (log (Started a) (log (Called a) s))) by (apply inv_log; cbn; auto).
    assert (Fs : fine (trace (log (Started a) (log (Called a) s)))). { cbn [log trace]. rewrite <- app_assoc. cbn [app]. apply fine_call; auto. right. split; auto. apply get_none_not_answered; auto. }
    destruct (run body n (body a) (log (Started a) (log (Called a) s))) as [r1 s1] eqn:E1. destruct (IR _ _ _ _ (B a Ha) Is Fs E1) as (I1 & F1 & t & T).
    assert (T' : trace s1 = trace s ++ Called a :: Started a :: t) by (rewrite T; cbn [log trace]; rewrite <- !app_assoc; reflexivity). clear T IR E1.
    assert (FA : inv (log (Failed a) s1) /\ fine (trace (log (Failed a) s1)) /\ exists t0, trace (log (Failed a) s1) = trace s ++ Called a :: t0).
    { split; [apply inv_log; cbn; auto|]. split; [cbn [log trace]; apply fine_failed; auto|]. cbn [log trace]. rewrite T', <- app_assoc. cbn [app]. eauto. }
    destruct r1 as [[ret|e|]|].
    + clear FA. assert (I2 : inv (log (Finished a ret) s1)) by (apply inv_log; cbn; auto). set (s2 := log (Finished a ret) s1) in *.
      unfold map_or_insert in E. assert (TS : trace s2 = trace s1 ++ [Finished a ret]) by reflexivity. assert (CS : cache s2 = cache s1) by reflexivity. clearbody s2.
      assert (T2 : trace s2 = trace s ++ Called a :: Started a :: t ++ [Finished a ret]) by (rewrite TS, T', <- app_assoc; reflexivity).
      destruct (map_get (VList a) (cache s2)) as [y|] eqn:M2.
      * injection E as <- <-. assert (A : answered (trace s2) a y) by (apply I2; auto). split; [|split].
        -- destruct I2 as (K & W & X). split; [exact K|]. split.
           ++ intros e He. cbn [log trace] in He. apply in_app_or in He. destruct He as [He|[<-|[]]]; auto.
           ++ intros a1 v1 H1. cbn [log trace cache user]. rewrite answered_app, (X a1 v1 H1). split; [tauto|]. intros [|(x & Q & S)]; [auto|]. injection Q as <- <-. apply X; auto. rewrite (map_get_wf s2 K (VList a1) (VList a)); auto using wf_key.
        -- cbn [log trace]. rewrite TS. apply fine_finish; auto. left. apply I1; auto. congruence.
        -- cbn [log trace]. change (trace (State (cache s2) (user s2) (trace s2))) with (trace s2). rewrite T2, <- app_assoc. cbn [app]. eauto.
      * injection E as <- <-. assert (NA := get_none_not_answered _ _ I2 Ha M2). split; [|split].
        -- destruct I2 as (K & W & X). split; [|split].
           ++ intros k x Hx. cbn [log cache] in Hx. apply in_app_or in Hx. destruct Hx as [Hx|[Hx|[]]]; [eapply K; eauto|]. injection Hx as <- _. auto using wf_key.
           ++ intros e He. cbn [log trace] in He. apply in_app_or in He. destruct He as [He|[<-|[]]]; auto.
           ++ intros a1 v1 H1. cbn [log trace cache user]. rewrite answered_app.
              assert (GA : forall l, map_get (VList a1) (l ++ [(VList a, ret)]) = match map_get (VList a1) l with Some y => Some y | None => if key_match (VList a1) (VList a) then Some ret else None end).
              { induction l as [|[k x] l IHl]; [reflexivity|]. cbn [app map_get]. destruct (key_match (VList a1) k); auto. }
              rewrite GA. destruct (map_get (VList a1) (cache s2)) as [y|] eqn:M3.
              ** rewrite <- (X a1 v1 H1), M3. split; [auto|]. intros [|(x & Q & S)]; [auto|]. exfalso. injection Q as <- <-. apply X in M3; auto. destruct M3 as (b & Hb & Sb).
                 apply (NA b y Hb). apply (same_trans a a1 b); auto; [apply (W _ Hb)|apply same_sym; auto].
              ** assert (~ answered (trace s2) a1 v1) by (rewrite <- (X a1 v1 H1), M3; discriminate).
                 destruct (key_match (VList a1) (VList a)) eqn:KM.
                 --- split; [intro Q; injection Q as <-; right; exists a; auto|]. intros [?|(x & Q & S)]; [contradiction|]. injection Q as <- <-. reflexivity.
                 --- split; [discriminate|]. intros [?|(x & Q & S)]; [contradiction|]. injection Q as <- <-. unfold same in S. congruence.
        -- cbn [log trace]. rewrite TS. apply fine_finish; auto. right. split; auto. apply get_none_not_answered; auto. congruence.
        -- cbn [log trace]. change (trace (State (cache s2 ++ [(VList a, ret)]) (user s2) (trace s2))) with (trace s2). rewrite T2, <- app_assoc. cbn [app]. eauto.
    + injection E as <- <-. apply FA.
    + injection E as <- <-. apply FA.
    + injection E as <- <-. split; auto. split; auto. rewrite T'. eauto.
Qed.
