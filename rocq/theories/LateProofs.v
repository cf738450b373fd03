(** Late references end up in their places. *)
From Coq Require Import Permutation.
From Verif Require Import Base Vm LateBind LateSpec.
Local Open Scope nat_scope.

(** ** Insertion *)
Fixpoint b_of (k : nat) (gs : list block) (ops : list op) : block :=
  match gs, ops with g :: gs', o :: ops' => g ++ (k, o) :: b_of (S k) gs' ops' | _, _ => [] end.
Fixpoint add_at (i : nat) (x : nat * op) (gs : list block) : list block :=
  match gs, i with [], _ => [] | g :: r, O => (g ++ [x]) :: r | g :: r, S i => g :: add_at i x r end.
Lemma add_len i x : forall gs, length (add_at i x gs) = length gs.
Proof. induction i; destruct gs; cbn; auto. Qed.

Lemma position_app id g r : Forall (fun p => fst p <> id) g -> position id (g ++ r) = match position id r with Some k => Some (length g + k) | None => None end.
Proof.
  induction 1 as [|[i o] g H F IH]; cbn [app position length Nat.add]; [now destruct (position id r)|].
  cbn in H. destruct (Nat.eqb_spec i id); [contradiction|]. rewrite IH. now destruct (position id r).
Qed.
Lemma insert_at N L o id : forall gs ops k, length gs = length ops -> k <= id < k + length ops -> k + length ops <= N ->
  Forall (Forall (fun p => N <= fst p)) gs ->
  exists p, position id (b_of k gs ops) = Some p /\ firstn p (b_of k gs ops) ++ (L, o) :: skipn p (b_of k gs ops) = b_of k (add_at (id - k) (L, o) gs) ops.
Proof.
  induction gs as [|g gs IH]; intros [|o' ops] k E I Le F; try discriminate; cbn in I, Le; [lia|].
  cbn [b_of]. inversion F as [|? ? Fg Fs]; subst. injection E as E. rewrite position_app by (eapply Forall_impl; [|exact Fg]; cbn; intros; lia).
  cbn [position]. destruct (Nat.eqb_spec k id) as [<-|Ne].
  - exists (length g). rewrite Nat.add_0_r, Nat.sub_diag. split; [reflexivity|]. cbn [add_at].
    rewrite firstn_app, Nat.sub_diag, firstn_all, skipn_app, Nat.sub_diag, skipn_all. cbn [firstn skipn app]. rewrite app_nil_r. cbn [b_of]. now rewrite <- app_assoc.
  - destruct (IH ops (S k) E ltac:(lia) ltac:(lia) Fs) as (p & Hp & Hi). rewrite Hp. exists (length g + S p). split; [reflexivity|].
    replace (id - k) with (S (id - S k)) by lia. cbn [add_at b_of]. rewrite <- Hi.
    rewrite firstn_app_2, skipn_app, (skipn_all2 g) by lia. replace (length g + S p - length g) with (S p) by lia. cbn [firstn skipn app]. now rewrite <- app_assoc.
Qed.

(** [log]: the insertions so far, in order *)
Definition here (k : nat) (log : list (nat * op)) : list op := map snd (filter (fun p => fst p =? k) log).
Inductive rep (ops : list op) (b : block) (log : list (nat * op)) : Prop :=
| Rep gs : length gs = length ops -> b = b_of 0 gs ops -> Forall (Forall (fun p => length ops <= fst p)) gs ->
    (forall k g, nth_error gs k = Some g -> map snd g = here k log) -> rep ops b log.
Lemma here_app k a b : here k (a ++ b) = here k a ++ here k b.
Proof. unfold here. now rewrite filter_app, map_app. Qed.
Lemma b_of_len : forall gs ops k, length gs = length ops -> length ops <= length (b_of k gs ops).
Proof. induction gs as [|g gs IH]; intros [|o ops] k E; try discriminate; cbn in *; [lia|]. rewrite app_length. cbn. specialize (IH ops (S k)). lia. Qed.
Lemma add_nth i x : forall gs k g, nth_error (add_at i x gs) k = Some g -> exists g0, nth_error gs k = Some g0 /\ g = if k =? i then g0 ++ [x] else g0.
Proof.
  induction i as [|i IH]; intros [|g0 gs] [|k] g H; cbn in *; try discriminate; try (injection H as <-); eauto.
Qed.
Lemma add_forall (N n : nat) (o : op) : forall gs a, Forall (Forall (fun p : nat * op => N <= fst p)) gs -> N <= n -> Forall (Forall (fun p => N <= fst p)) (add_at a (n, o) gs).
Proof.
  induction gs as [|g gs IH]; intros [|a] H L; cbn [add_at]; try constructor; inversion H; subst; auto.
  apply Forall_app. split; [assumption|]. constructor; [exact L|constructor].
Qed.
Lemma rep_insert ops b log a o : rep ops b log -> a < length ops -> rep ops (insert a o b) (log ++ [(a, o)]).
Proof.
  intros [gs L -> I G] Lt. destruct (insert_at (length ops) (length (b_of 0 gs ops)) o a gs ops 0 L ltac:(lia) ltac:(lia) I) as (p & Hp & Hi).
  apply (Rep _ _ _ (add_at a (length (b_of 0 gs ops), o) gs)).
  - now rewrite add_len.
  - unfold insert. rewrite Hp, Hi. now rewrite Nat.sub_0_r.
  - pose proof (b_of_len gs ops 0 L) as B. apply add_forall; assumption.
  - intros k g Hk. apply add_nth in Hk. destruct Hk as (g0 & H0 & ->). rewrite here_app. unfold here at 2. cbn [filter fst].
    rewrite (Nat.eqb_sym k a). destruct (a =? k); [rewrite map_app|]; rewrite (G _ _ H0); cbn [map]; [reflexivity|now rewrite app_nil_r].
Qed.
Fixpoint weave (k : nat) (log : list (nat * op)) (ops : list op) : list op :=
  match ops with [] => [] | o :: r => here k log ++ o :: weave (S k) log r end.
Lemma rep_code ops b log : rep ops b log -> map snd b = weave 0 log ops.
Proof.
  intros [gs L -> _ G]. assert (X : forall gs ops k, length gs = length ops -> (forall j g, nth_error gs j = Some g -> map snd g = here (k + j) log) -> map snd (b_of k gs ops) = weave k log ops).
  { clear. induction gs as [|g gs IH]; intros [|o ops] k L G; try discriminate; [reflexivity|]. cbn [b_of weave]. rewrite map_app. cbn [map snd].
    rewrite (G 0 g eq_refl), Nat.add_0_r. f_equal. f_equal. apply IH; [now injection L|]. intros j g' H. rewrite (G (S j) g' H). f_equal. lia. }
  apply X; auto.
Qed.

(** ** Emission *)
Fixpoint ops_of (l : list item) : list op := match l with [] => [] | IOp o :: r => o :: ops_of r | _ :: r => ops_of r end.
Fixpoint binds_of (k : nat) (l : list item) : list binding :=
  match l with
  | [] => [] | IOp _ :: r => binds_of (S k) r
  | ILoad n t f :: r => Binding n t (RLoad k) f :: binds_of k r
  | IStore n t f :: r => Binding n t (RStore k) f :: binds_of k r
  end.
Fixpoint plain (k : nat) (ops : list op) : block := match ops with [] => [] | o :: r => (k, o) :: plain (S k) r end.
Lemma plain_app ops : forall k l, plain k (ops ++ l) = plain k ops ++ plain (k + length ops) l.
Proof. induction ops as [|o ops IH]; intros k l; cbn; [now rewrite Nat.add_0_r|]. rewrite IH. do 3 f_equal. lia. Qed.
Lemma plain_len ops : forall k, length (plain k ops) = length ops. Proof. induction ops; cbn; auto. Qed.
Lemma emit_eq : forall l ops bs, fold_left (fun s x => emit_item x s) l (plain 0 ops, bs) = (plain 0 (ops ++ ops_of l), bs ++ binds_of (length ops) l).
Proof.
  induction l as [|[o|n t f|n t f] l IH]; intros ops bs; cbn [fold_left emit_item ops_of binds_of]; [now rewrite !app_nil_r| | |].
  - assert (E : push o (plain 0 ops) = plain 0 (ops ++ [o])) by (unfold push; now rewrite plain_len, plain_app).
    rewrite E, IH, app_length, <- app_assoc. cbn [length app]. now rewrite Nat.add_1_r.
  - rewrite IH, plain_len, <- app_assoc. reflexivity.
  - rewrite IH, plain_len, <- app_assoc. reflexivity.
Qed.
Lemma rep_plain ops : rep ops (plain 0 ops) [].
Proof.
  apply (Rep _ _ _ (map (fun _ => []) ops)).
  - apply map_length.
  - generalize 0. induction ops as [|o ops IH]; intro k; cbn; [reflexivity|]. now rewrite IH.
  - apply Forall_forall. intros g Hg. apply in_map_iff in Hg. destruct Hg as (? & <- & _). constructor.
  - intros k g Hk. rewrite nth_error_map in Hk. destruct (nth_error ops k); [|discriminate]. injection Hk as <-. reflexivity.
Qed.

(** ** Resolution *)
Definition at_ (x : binding) : nat := match b_type x with RLoad a => a | RStore a => a end.
Definition one (d : late_bound) (x : binding) : option op :=
  match b_type x, d with
  | RLoad _, BLocal i => Some (OPushGlobal i) | RStore _, BLocal i => Some (OStoreGlobal i false)
  | RLoad _, BMethod f false => Some (OConst (HFun f)) | _, _ => None
  end.
Definition out (ds : list (nat * late_bound)) (x : binding) : option op :=
  match or_global (b_fallback x) (declared_as ds (b_name x)) with Some d => one d x | None => None end.
Definition g (ds : list (nat * late_bound)) (x : binding) : nat * option op := (at_ x, out ds x).
Definition ok_log (log : list (nat * op)) : list (nat * option op) := map (fun p => (fst p, Some (snd p))) log.
Definition selfless (d : late_bound) : bool := match d with BMethod _ true => false | _ => true end.
Lemma bind_one d x b : selfless d = true -> bind d x b = match one d x with Some o => Some (insert (at_ x) o b) | None => None end.
Proof. destruct x as [n t [a|a] f], d as [i|f' []]; intro H; try discriminate; reflexivity. Qed.
Lemma out_hit n d ds x : b_name x = n -> out ((n, d) :: ds) x = one d x.
Proof. intros <-. unfold out, declared_as. cbn [find fst]. now rewrite Nat.eqb_refl. Qed.
Lemma out_miss n d ds x : b_name x <> n -> out ((n, d) :: ds) x = out ds x.
Proof. intro H. unfold out, declared_as. cbn [find fst]. destruct (Nat.eqb_spec n (b_name x)); [congruence|reflexivity]. Qed.

Lemma first_exact {A} (a b : list A) : firstn (length a) (a ++ b) = a.
Proof. rewrite firstn_app, Nat.sub_diag, firstn_all. cbn [firstn]. apply app_nil_r. Qed.
Lemma swap_perm {A} i (l : list A) x : nth_error l i = Some x -> Permutation l (x :: swap_remove i l) /\ firstn i (swap_remove i l) = firstn i l.
Proof.
  intro H. unfold swap_remove. destruct (rev l) as [|y r] eqn:E.
  { apply (f_equal (@rev A)) in E. rewrite rev_involutive in E. subst. now destruct i. }
  assert (El : l = rev r ++ [y]). { apply (f_equal (@rev A)) in E. rewrite rev_involutive in E. exact E. }
  subst l. rewrite removelast_last. cbv zeta. destruct (Nat.ltb_spec i (length (rev r))) as [Lt|Ge].
  - rewrite nth_error_app1 in H by exact Lt. apply nth_error_split in H. destruct H as (a & b & Eq & La). rewrite Eq. subst i.
    rewrite first_exact.
    replace (skipn (S (length a)) (a ++ x :: b)) with b.
    2:{ rewrite skipn_app, skipn_all2 by lia. replace (S (length a) - length a) with 1 by lia. reflexivity. }
    split.
    + rewrite <- app_assoc. cbn [app]. transitivity (x :: a ++ b ++ [y]); [symmetry; apply Permutation_middle|]. constructor. apply Permutation_app_head. symmetry. apply Permutation_cons_append.
    + rewrite <- app_assoc, !first_exact. reflexivity.
  - assert (i = length (rev r)). { assert (i < length (rev r ++ [y])) by (apply nth_error_Some; congruence). rewrite app_length in *. cbn in *. lia. }
    subst i. rewrite nth_error_app2, Nat.sub_diag in H by lia. injection H as <-. split; [symmetry; apply Permutation_cons_append|].
    rewrite firstn_app, Nat.sub_diag. cbn [firstn]. now rewrite app_nil_r.
Qed.

Lemma map_g_miss n d r l : (forall x, In x l -> b_name x <> n) -> map (g r) l = map (g ((n, d) :: r)) l.
Proof. intro H. apply map_ext_in. intros x Hx. unfold g. now rewrite out_miss by auto. Qed.
Lemma loop_ok ops n d r : selfless d = true -> forall fuel i l b log, length l - i <= fuel -> rep ops b log -> (forall x, In x l -> at_ x < length ops) ->
  (forall x, In x (firstn i l) -> b_name x <> n) ->
  match resolve_loop fuel i n d l b with
  | Some (l', b') => exists log', rep ops b' log' /\ (forall x, In x l' -> In x l) /\
      Permutation (ok_log log' ++ map (g r) l') (ok_log log ++ map (g ((n, d) :: r)) l)
  | None => exists x, In x l /\ out ((n, d) :: r) x = None
  end.
Proof.
  intro Sd. induction fuel as [|fuel IH]; intros i l b log Lf R A F.
  - cbn [resolve_loop]. exists log. split; [exact R|]. split; [auto|]. rewrite <- (map_g_miss n d); [reflexivity|]. rewrite firstn_all2 in F by lia. exact F.
  - cbn [resolve_loop]. destruct (nth_error l i) as [x|] eqn:Ex.
    2:{ exists log. split; [exact R|]. split; [auto|]. rewrite <- (map_g_miss n d); [reflexivity|]. apply nth_error_None in Ex. rewrite firstn_all2 in F by lia. exact F. }
    assert (Li : i < length l) by (apply nth_error_Some; congruence). pose proof (nth_error_In _ _ Ex) as Ix.
    destruct (Nat.eqb_spec (b_name x) n) as [En|Nn].
    + rewrite bind_one by exact Sd. destruct (one d x) as [o|] eqn:Eo; [|exists x; split; [exact Ix|now rewrite out_hit]].
      destruct (swap_perm i l x Ex) as [Pm Fm]. pose proof (Permutation_length Pm) as Pl. cbn in Pl.
      specialize (IH i (swap_remove i l) (insert (at_ x) o b) (log ++ [(at_ x, o)])).
      assert (Sub : forall y, In y (swap_remove i l) -> In y l) by (intros y Hy; eapply Permutation_in; [symmetry; exact Pm|right; exact Hy]).
      specialize (IH ltac:(lia) (rep_insert _ _ _ _ _ R (A x Ix)) ltac:(auto) ltac:(rewrite Fm; exact F)).
      destruct (resolve_loop fuel i n d (swap_remove i l) (insert (at_ x) o b)) as [[l' b']|].
      * destruct IH as (log' & R' & S' & P'). exists log'. split; [exact R'|]. split; [auto|]. rewrite P'.
        unfold ok_log. rewrite map_app, <- app_assoc. apply Permutation_app_head. cbn [map app fst snd].
        rewrite (Permutation_map (g ((n, d) :: r)) Pm). cbn [map]. unfold g at 2. rewrite out_hit by exact En. rewrite Eo. reflexivity.
      * destruct IH as (y & Iy & Ey). exists y. auto.
    + specialize (IH (S i) l b log ltac:(lia) R A). apply IH. intros y Hy.
      assert (E : firstn (S i) l = firstn i l ++ [x]).
      { clear -Ex. revert l Ex. induction i; intros [|a l] H; cbn in *; try discriminate; [congruence|]. now rewrite <- (IHi l H). }
      rewrite E in Hy. apply in_app_or in Hy. destruct Hy as [Hy|[<-|[]]]; auto.
Qed.
Lemma declare_ok ops : forall ds l b log, no_self ds = true -> rep ops b log -> (forall x, In x l -> at_ x < length ops) ->
  match declare ds (b, l) with
  | Some (b', l') => exists log', rep ops b' log' /\ (forall x, In x l' -> In x l) /\ Permutation (ok_log log' ++ map (g []) l') (ok_log log ++ map (g ds) l)
  | None => exists x, In x l /\ out ds x = None
  end.
Proof.
  induction ds as [|[n d] ds IH]; intros l b log S R A.
  - cbn. exists log. split; [exact R|]. split; auto.
  - cbn [declare]. unfold resolve. cbn [fst snd]. unfold no_self in S. cbn [forallb snd] in S. apply andb_true_iff in S. destruct S as [Sd S].
    pose proof (loop_ok ops n d ds Sd (length l) 0 l b log ltac:(lia) R A ltac:(intros ? [])) as H.
    destruct (resolve_loop (length l) 0 n d l b) as [[l1 b1]|]; [|exact H].
    destruct H as (log1 & R1 & S1 & P1). specialize (IH l1 b1 log1 S R1 ltac:(auto)). destruct (declare ds (b1, l1)) as [[b2 l2]|].
    + destruct IH as (log2 & R2 & S2 & P2). exists log2. split; [exact R2|]. split; [auto|]. now rewrite P2.
    + destruct IH as (x & Ix & Ox). (* the failing binding is one of [l] with the same outcome *)
      assert (Ig : In (g ds x) (ok_log log ++ map (g ((n, d) :: ds)) l)) by (eapply Permutation_in; [exact P1|]; apply in_or_app; right; apply in_map; exact Ix).
      apply in_app_or in Ig. destruct Ig as [Ig|Ig].
      * unfold ok_log in Ig. apply in_map_iff in Ig. destruct Ig as (p & E & _). unfold g in E. rewrite Ox in E. discriminate.
      * apply in_map_iff in Ig. destruct Ig as (y & E & Iy). exists y. split; [exact Iy|]. unfold g in E. injection E as _ E. congruence.
Qed.
Lemma remaining_ok ops : forall l b log, rep ops b log -> (forall x, In x l -> at_ x < length ops) ->
  match remaining l b with
  | Some b' => exists log', rep ops b' log' /\ ok_log log' = ok_log log ++ map (g []) l
  | None => exists x, In x l /\ out [] x = None
  end.
Proof.
  induction l as [|x l IH]; intros b log R A; cbn [remaining].
  - exists log. split; [exact R|]. now rewrite app_nil_r.
  - destruct (b_fallback x) as [i|] eqn:Ef; [|exists x; split; [now left|]; unfold out; now rewrite Ef].
    assert (Ix : In x (x :: l)) by now left. pose proof (A x Ix) as Ax.
    assert (E : exists o, one (BLocal i) x = Some o /\ match b_type x with RLoad a => insert a (OPushGlobal i) b | RStore a => insert a (OStoreGlobal i false) b end = insert (at_ x) o b).
    { unfold one, at_. destruct (b_type x); eauto. }
    destruct E as (o & Eo & ->). specialize (IH (insert (at_ x) o b) (log ++ [(at_ x, o)]) (rep_insert _ _ _ _ _ R Ax) ltac:(intros; apply A; now right)).
    destruct (remaining l (insert (at_ x) o b)) as [b'|].
    + destruct IH as (log' & R' & E'). exists log'. split; [exact R'|]. rewrite E'. unfold ok_log. rewrite map_app, <- app_assoc. cbn [map app fst snd]. unfold g at 2, out. rewrite Ef. cbn [declared_as find or_global]. now rewrite Eo.
    + destruct IH as (y & Iy & Ey). exists y. split; [now right|exact Ey].
Qed.

(** ** References that are apart *)
Lemma apart_at : forall l k, apart l = true -> (forall x, In x (binds_of k l) -> k <= at_ x < k + length (ops_of l)) /\ NoDup (map at_ (binds_of k l)).
Proof.
  induction l as [|[o|n t f|n t f] l IH]; intros k H; cbn [apart late] in H.
  - split; [intros ? []|constructor].
  - cbn [binds_of ops_of length]. destruct (IH (S k) H) as [A B]. split; [intros x Hx; specialize (A x Hx); lia|exact B].
  - apply andb_true_iff in H. destruct H as [H1 H2]. destruct l as [|[o|?|?] l]; try discriminate. destruct (IH k H2) as [A B]. cbn [binds_of ops_of length] in *.
    pose proof (fun H => proj1 (IH k H)) as A'. split.
    + intros x [<-|Hx]; [cbn; lia|auto].
    + constructor; [|exact B]. intro Q. apply in_map_iff in Q. destruct Q as (x & E & Ix).
      cbn [apart late andb] in H2. assert (S k <= at_ x).
      { clear -Ix. revert Ix. generalize (S k). induction l as [|[]]; cbn; intros j Q; try contradiction; [apply IHl in Q; lia|destruct Q as [<-|Q]; [cbn; lia|apply IHl; exact Q]..]. }
      change (at_ x = k) in E. lia.
  - apply andb_true_iff in H. destruct H as [H1 H2]. destruct l as [|[o|?|?] l]; try discriminate. destruct (IH k H2) as [A B]. cbn [binds_of ops_of length] in *.
    split.
    + intros x [<-|Hx]; [cbn; lia|auto].
    + constructor; [|exact B]. intro Q. apply in_map_iff in Q. destruct Q as (x & E & Ix).
      assert (S k <= at_ x).
      { clear -Ix. revert Ix. generalize (S k). induction l as [|[]]; cbn; intros j Q; try contradiction; [apply IHl in Q; lia|destruct Q as [<-|Q]; [cbn; lia|apply IHl; exact Q]..]. }
      change (at_ x = k) in E. lia.
Qed.

Lemma above_at : forall l k x, In x (binds_of k l) -> k <= at_ x.
Proof. induction l as [|[] l IH]; cbn; intros k x Q; try contradiction; [apply IH in Q; lia|destruct Q as [<-|Q]; [cbn; lia|apply IH; exact Q]..]. Qed.
Lemma here_perm k a b : Permutation a b -> NoDup (map fst a) -> here k a = here k b.
Proof.
  induction 1 as [|x a b H IH|x y a|a b c H1 IH1 H2 IH2]; intro N.
  - reflexivity.
  - inversion N; subst. unfold here in *. cbn [filter]. destruct (fst x =? k); cbn [map]; [f_equal|]; auto.
  - unfold here. cbn [filter]. destruct (Nat.eqb_spec (fst y) k), (Nat.eqb_spec (fst x) k); try reflexivity.
    exfalso. inversion N as [|? ? N1]; subst. apply N1. cbn. left. congruence.
  - rewrite IH1 by exact N. apply IH2. eapply Permutation_NoDup; [apply Permutation_map; exact H1|exact N].
Qed.
Lemma selfless_or f d : match d with Some x => selfless x = true | None => True end -> match or_global f d with Some x => selfless x = true | None => True end.
Proof. destruct d; [auto|]. now destruct f. Qed.
Lemma declared_selfless ds n : no_self ds = true -> match declared_as ds n with Some x => selfless x = true | None => True end.
Proof.
  intro H. unfold declared_as. destruct (find _ ds) as [[m d]|] eqn:E; [|exact I]. apply find_some in E. destruct E as [I _].
  unfold no_self in H. rewrite forallb_forall in H. exact (H _ I).
Qed.
Lemma meant_load ds n t f k : no_self ds = true -> meant ds (ILoad n t f) = match out ds (Binding n t (RLoad k) f) with Some o => Some [o] | None => None end.
Proof.
  intro H. cbn [meant]. unfold out. cbn [b_fallback b_name]. pose proof (selfless_or f _ (declared_selfless ds n H)) as S.
  destruct (or_global f (declared_as ds n)) as [[i|m []]|]; try discriminate; reflexivity.
Qed.
Lemma meant_store ds n t f k : meant ds (IStore n t f) = match out ds (Binding n t (RStore k) f) with Some o => Some [o] | None => None end.
Proof.
  cbn [meant]. unfold out. cbn [b_fallback b_name]. destruct (or_global f (declared_as ds n)) as [[i|m []]|]; reflexivity.
Qed.
Lemma fails_place ds x : no_self ds = true -> out ds x = None -> forall l k, In x (binds_of k l) -> in_place ds l = None.
Proof.
  intros S O. induction l as [|[o|n t f|n t f] l IH]; intros k H; cbn [binds_of in_place] in *; [destruct H|rewrite (IH _ H); now destruct (meant _ _)| |].
  - rewrite (meant_load ds n t f k S). destruct H as [->|H]; [now rewrite O|]. rewrite (IH _ H). match goal with |- context [out ?a ?b] => destruct (out a b) end; reflexivity.
  - rewrite (meant_store ds n t f k). destruct H as [->|H]; [now rewrite O|]. rewrite (IH _ H). match goal with |- context [out ?a ?b] => destruct (out a b) end; reflexivity.
Qed.
Lemma weave_cons k x log : forall ops j, k < j -> fst x = k -> weave j (x :: log) ops = weave j log ops.
Proof.
  induction ops as [|o ops IH]; intros j L E; cbn [weave]; [reflexivity|]. rewrite IH by (auto; lia).
  unfold here. cbn [filter]. destruct (Nat.eqb_spec (fst x) j); [lia|reflexivity].
Qed.
Lemma here_none k log : Forall (fun p => k < fst p) log -> here k log = [].
Proof.
  induction 1 as [|p log H F IH]; [reflexivity|]. unfold here in *. cbn [filter]. destruct (Nat.eqb_spec (fst p) k); [lia|exact IH].
Qed.
Lemma above_log ds l k log : map (g ds) (binds_of (S k) l) = ok_log log -> Forall (fun p => k < fst p) log.
Proof.
  intro E. apply Forall_forall. intros p Hp. assert (I : In (fst p, Some (snd p)) (map (g ds) (binds_of (S k) l))).
  { rewrite E. unfold ok_log. apply (in_map (fun p => (fst p, Some (snd p)))). exact Hp. }
  apply in_map_iff in I. destruct I as (x & Ex & Ix). apply above_at in Ix. unfold g in Ex. injection Ex as Ex _. lia.
Qed.
Lemma weave_place ds : no_self ds = true -> forall l k log, apart l = true -> map (g ds) (binds_of k l) = ok_log log -> in_place ds l = Some (weave k log (ops_of l)).
Proof.
  intro S. induction l as [|x l IH]; intros k log A E; [reflexivity|]. cbn [apart] in A. apply andb_true_iff in A. destruct A as [A1 A2].
  destruct (late x) eqn:Lx.
  - destruct l as [|[o|?|?] l]; try discriminate.
    assert (X : exists b, at_ b = k /\ binds_of k (x :: IOp o :: l) = b :: binds_of (Datatypes.S k) l /\ meant ds x = match out ds b with Some o => Some [o] | None => None end /\ ops_of (x :: IOp o :: l) = o :: ops_of l).
    { destruct x as [|n t f|n t f]; [discriminate| |]; eexists; (split; [|split; [reflexivity|split; [|reflexivity]]]); [reflexivity|now apply meant_load|reflexivity|apply meant_store]. }
    destruct X as (b & Hb & Eb & Em & Eo). rewrite Eb in E. cbn [map] in E. destruct log as [|[k' o'] log]; [discriminate|].
    unfold ok_log in E. cbn [map fst snd] in E. injection E as E1 E2 E. rewrite Hb in E1. subst k'.
    specialize (IH k log A2 E). cbn [in_place meant] in *. rewrite Em, E2, Eo. rewrite IH. cbn [ops_of weave app].
    rewrite (weave_cons k) by (cbn; auto; lia). unfold here at 2. cbn [filter fst]. rewrite Nat.eqb_refl. cbn [map snd app]. reflexivity.
  - destruct x as [o|?|?]; try discriminate. cbn [binds_of ops_of in_place meant weave] in *.
    rewrite (IH (Datatypes.S k) log A2 E). rewrite (here_none k log) by (eapply above_log; exact E). reflexivity.
Qed.
Theorem late_in_place items ds : no_self ds = true -> apart items = true -> compile_late items ds = in_place ds items.
Proof.
  intros S A. unfold compile_late.
  assert (Em : emit_items items = (plain 0 (ops_of items), binds_of 0 items)) by exact (emit_eq items [] []). rewrite Em.
  destruct (apart_at items 0 A) as [At Nd].
  assert (At' : forall x, In x (binds_of 0 items) -> at_ x < length (ops_of items)) by (intros x Hx; specialize (At x Hx); lia).
  pose proof (declare_ok (ops_of items) ds (binds_of 0 items) _ [] S (rep_plain (ops_of items)) At') as D.
  destruct (declare ds (plain 0 (ops_of items), binds_of 0 items)) as [[b1 l1]|].
  2:{ destruct D as (x & Ix & Ox). symmetry. eapply fails_place; eauto. }
  destruct D as (log1 & R1 & S1 & P1). pose proof (remaining_ok (ops_of items) l1 b1 log1 R1 ltac:(auto)) as M.
  cbn [ok_log map app] in P1. destruct (remaining l1 b1) as [b2|].
  - destruct M as (log2 & R2 & E2). rewrite (rep_code _ _ _ R2). rewrite <- E2 in P1. symmetry in P1.
    apply Permutation_map_inv in P1. destruct P1 as (log0 & E0 & P0). rewrite (weave_place ds S items 0 log0 A E0). f_equal.
    assert (N2 : NoDup (map fst log2)).
    { eapply Permutation_NoDup; [apply Permutation_map; symmetry; exact P0|]. replace (map fst log0) with (map at_ (binds_of 0 items)); [exact Nd|].
      apply (f_equal (map fst)) in E0. rewrite !map_map in E0. exact E0. }
    generalize 0. clear -N2 P0. induction (ops_of items) as [|o ops IH]; intro k; cbn [weave]; [reflexivity|]. now rewrite (here_perm k _ _ P0 N2), IH.
  - destruct M as (x & Ix & Ox). symmetry.
    assert (I : In (g [] x) (map (g ds) (binds_of 0 items))) by (eapply Permutation_in; [exact P1|]; apply in_or_app; right; apply in_map; exact Ix).
    apply in_map_iff in I. destruct I as (y & E & Iy). eapply fails_place; [exact S| |exact Iy]. unfold g in E. injection E as _ E. congruence.
Qed.

(** ** A single reference, at the end *)
Lemma ops_plain l : forallb (fun y => negb (late y)) l = true -> l = map IOp (ops_of l) /\ forall k, binds_of k l = [].
Proof.
  induction l as [|[o|n t f|n t f] l IH]; cbn; intro H; try discriminate; [auto|]. destruct (IH H) as [E B]. split; [now rewrite <- E|]. intro k. apply B.
Qed.
Lemma ops_app a b : ops_of (a ++ b) = ops_of a ++ ops_of b.
Proof. induction a as [|[] a IH]; cbn; auto. now rewrite IH. Qed.
Lemma binds_app a b : forall k, binds_of k (a ++ b) = binds_of k a ++ binds_of (k + length (ops_of a)) b.
Proof. induction a as [|[] a IH]; intro k; cbn; [now rewrite Nat.add_0_r| | |]; rewrite IH; cbn; f_equal; f_equal; lia. Qed.
Lemma place_ops ds ops x : in_place ds (map IOp ops ++ [x]) = match meant ds x with Some a => Some (ops ++ a) | None => None end.
Proof.
  induction ops as [|o ops IH]; cbn [map app in_place]; [destruct (meant ds x); [now rewrite app_nil_r|reflexivity]|].
  rewrite IH. cbn [meant]. now destruct (meant ds x).
Qed.
Lemma position_end ops : forall k n, k + length ops <= n -> position n (plain k ops) = None.
Proof. induction ops as [|o ops IH]; intros k n L; cbn in *; [reflexivity|]. destruct (Nat.eqb_spec k n); [lia|]. rewrite IH by lia. reflexivity. Qed.
Lemma insert_end ops o : map snd (insert (length ops) o (plain 0 ops)) = ops ++ [o].
Proof. unfold insert. rewrite position_end by (cbn; lia). rewrite map_app. cbn. f_equal. generalize 0. induction ops; cbn; intro; [reflexivity|]. now rewrite IHops. Qed.
Lemma declare_nil ds b : declare ds (b, []) = Some (b, []).
Proof. induction ds as [|d ds IH]; cbn; auto. Qed.
Lemma single_end ops x ds : no_self ds = true -> at_ x = length ops ->
  match declare ds (plain 0 ops, [x]) with
  | Some (b, l) => match remaining l b with Some b' => Some (map snd b') | None => None end
  | None => None
  end = match out ds x with Some o => Some (ops ++ [o]) | None => None end.
Proof.
  intros N A. induction ds as [|[n d] ds IH].
  - cbn [declare remaining]. unfold out. cbn [declared_as find]. destruct x as [m t ty [i|]]; [|reflexivity]. cbn [b_fallback b_type or_global one] in *.
    unfold at_ in A. cbn [b_type] in A. destruct ty as [a|a]; subst a; unfold one; cbn [b_type]; now rewrite insert_end.
  - cbn [no_self forallb] in N. apply andb_true_iff in N. destruct N as [N1 N2]. cbn [declare]. unfold resolve. cbn [fst snd length resolve_loop nth_error].
    destruct (Nat.eqb_spec (b_name x) n) as [E|E].
    + rewrite (out_hit n d ds x E), (bind_one d x) by exact N1. destruct (one d x) as [o|]; [|reflexivity].
      change (swap_remove 0 [x]) with (@nil binding). rewrite declare_nil. cbn [remaining]. now rewrite A, insert_end.
    + rewrite (out_miss n d ds x E). apply IH. exact N2.
Qed.
Theorem late_last items ds : no_self ds = true -> only_last items = true -> compile_late items ds = in_place ds items.
Proof.
  intros N O. unfold only_last in O. destruct (rev items) as [|x r] eqn:E; [discriminate|].
  assert (Ei : items = rev r ++ [x]) by (rewrite <- (rev_involutive items), E; reflexivity). clear E. subst items.
  apply andb_true_iff in O. destruct O as [Lx O].
  assert (O' : forallb (fun y => negb (late y)) (rev r) = true) by (rewrite forallb_forall in *; intros y Hy; apply O; now apply in_rev).
  destruct (ops_plain _ O') as [Eo Eb]. unfold compile_late.
  assert (Em : emit_items (rev r ++ [x]) = (plain 0 (ops_of (rev r ++ [x])), binds_of 0 (rev r ++ [x]))) by exact (emit_eq (rev r ++ [x]) [] []).
  rewrite Em, ops_app, binds_app, Eb. cbn [app Nat.add]. rewrite Eo at 3. rewrite place_ops. set (ops := ops_of (rev r)).
  destruct x as [o|n t f|n t f]; [discriminate| |]; cbn [ops_of binds_of]; rewrite app_nil_r, single_end by (auto; reflexivity).
  - rewrite (meant_load ds n t f (length ops) N). now destruct (out _ _).
  - rewrite (meant_store ds n t f (length ops)). now destruct (out _ _).
Qed.
