(** Proofs for C71. *)
From Coq Require Import String Lia Arith.
From Verif Require Import Base Native Value Str Repr Show ShowSpec.
Local Open Scope nat_scope.

Scheme shows_i := Minimality for shows Sort Prop with shows_parts_i := Minimality for shows_parts Sort Prop with shows_all_i := Minimality for shows_all Sort Prop.
Combined Scheme shows_mut from shows_i, shows_parts_i, shows_all_i.

Section WithNames.
  Context (N : names) (H : heap).
  Notation shows := (shows N H). Notation shows_all := (shows_all N H). Notation shows_parts := (shows_parts N H).

Lemma in_existsb a l : existsb (Nat.eqb a) l = true <-> In a l.
Proof. rewrite existsb_exists. split; [intros (x & I & E); apply Nat.eqb_eq in E; subst; exact I|intro I; exists a; split; [exact I|apply Nat.eqb_refl]]. Qed.

(** one text at most *)
Lemma shows_fun : (forall p r t, shows p r t -> forall t', shows p r t' -> t' = t) /\ (forall p d ts, shows_parts p d ts -> forall ts', shows_parts p d ts' -> ts' = ts) /\
  (forall p l ts, shows_all p l ts -> forall ts', shows_all p l ts' -> ts' = ts).
Proof.
  apply (shows_mut N H (fun p r t => forall t', shows p r t' -> t' = t) (fun p d ts => forall ts', shows_parts p d ts' -> ts' = ts) (fun p l ts => forall ts', shows_all p l ts' -> ts' = ts)).
  - intros p v t' K. inversion K. reflexivity.
  - intros p r t _ IH t' K. inversion K; subst. rewrite (IH _ ltac:(eassumption)). reflexivity.
  - intros p r t _ IH t' K. inversion K; subst. rewrite (IH _ ltac:(eassumption)). reflexivity.
  - intros p a d E I t' K. inversion K; subst; [congruence|contradiction].
  - intros p a d ts E I _ IH t' K. inversion K as [| | |? ? d' E' I'|? ? d' ts' E' I' P']; subst; [contradiction|]. assert (d' = d) by congruence. subst. rewrite (IH _ P'). reflexivity.
  - intros p l ts _ IH ts' K. inversion K; subst. auto.
  - intros p l ts _ IH ts' K. inversion K; subst. auto.
  - intros p l ts _ IH ts' K. inversion K; subst. auto.
  - intros p l ts _ IH ts' K. inversion K; subst. auto.
  - intros p l ks xs _ IH1 _ IH2 ts' K. inversion K; subst. rewrite (IH1 _ ltac:(eassumption)), (IH2 _ ltac:(eassumption)). reflexivity.
  - intros p t l ts _ IH ts' K. inversion K; subst. rewrite (IH _ ltac:(eassumption)). reflexivity.
  - intros p ts' K. inversion K. reflexivity.
  - intros p r l t ts _ IH1 _ IH2 ts' K. inversion K; subst. f_equal; auto.
Qed.

(** the order of the ancestors does not matter *)
Lemma shows_set : (forall p r t, shows p r t -> forall q, (forall a, In a p <-> In a q) -> shows q r t) /\ (forall p d ts, shows_parts p d ts -> forall q, (forall a, In a p <-> In a q) -> shows_parts q d ts) /\
  (forall p l ts, shows_all p l ts -> forall q, (forall a, In a p <-> In a q) -> shows_all q l ts).
Proof.
  apply (shows_mut N H (fun p r t => forall q, (forall a, In a p <-> In a q) -> shows q r t) (fun p d ts => forall q, (forall a, In a p <-> In a q) -> shows_parts q d ts)
    (fun p l ts => forall q, (forall a, In a p <-> In a q) -> shows_all q l ts)); try (intros; constructor; auto; fail).
  - intros p a d E I q Q. apply sh_again; [exact E|apply Q; exact I].
  - intros p a d ts E I _ IH q Q. apply sh_object; [exact E|rewrite <- Q; exact I|]. apply IH. intro b. cbn [In]. rewrite Q. tauto.
Qed.

(** what is shown, and that the guard is as before *)
Definition good (f : list nat -> ref -> out (list Z)) : Prop := forall rc r t rc', f rc r = Done t rc' -> rc' = rc /\ shows rc r t.
Lemma each_good f l : good f -> forall rc ts rc', each f l rc = Done ts rc' -> rc' = rc /\ shows_all rc l ts.
Proof.
  intros G. induction l as [|x l IH]; intros rc ts rc' E; cbn [each] in E.
  - inversion E; subst. split; [reflexivity|constructor].
  - destruct (f rc x) as [t rc1| |] eqn:F; try discriminate. cbn [obind] in E. destruct (G _ _ _ _ F) as [-> S]. destruct (each f l rc) as [ts2 rc2| |] eqn:F2; try discriminate. cbn [obind] in E.
    destruct (IH _ _ _ F2) as [-> S2]. inversion E; subst. split; [reflexivity|constructor; assumption].
Qed.
Lemma pairs_good f (l : list (ref * ref)) : good f -> forall rc ts rc',
  each (fun rc p => obind (f rc (fst p)) (fun k rc => obind (f rc (snd p)) (fun x rc => Done (k ++ Scan.text ": " ++ x)%list rc))) l rc = Done ts rc' ->
  rc' = rc /\ exists ks xs, shows_all rc (map fst l) ks /\ shows_all rc (map snd l) xs /\ ts = map (fun kx => fst kx ++ Scan.text ": " ++ snd kx)%list (combine ks xs).
Proof.
  intros G. induction l as [|[k x] l IH]; intros rc ts rc' E; cbn [each] in E.
  - inversion E; subst. split; [reflexivity|]. exists [], []. repeat split; constructor.
  - cbn [fst snd] in E. destruct (f rc k) as [t rc1| |] eqn:F; try discriminate. cbn [obind] in E. destruct (G _ _ _ _ F) as [-> S1]. destruct (f rc x) as [tx rc1| |] eqn:F1; try discriminate. cbn [obind] in E. destruct (G _ _ _ _ F1) as [-> S2].
    match type of E with context [each ?g l rc] => destruct (each g l rc) as [ts2 rc2| |] eqn:F2; try discriminate end. cbn [obind] in E.
    destruct (IH _ _ _ F2) as (-> & ks & xs & A & B & ->). inversion E; subst. split; [reflexivity|]. exists (t :: ks), (tx :: xs). repeat split; constructor; assumption.
Qed.
Lemma fields_good f (l : list ref) : good f -> forall (fs : list (list Z)) rc ts rc',
  each (fun rc p => obind (f rc (fst p)) (fun x rc => Done (snd p ++ Scan.text "=" ++ x)%list rc)) (combine l fs) rc = Done ts rc' ->
  rc' = rc /\ exists xs, shows_all rc (firstn (length fs) l) xs /\ ts = map (fun fx => fst fx ++ Scan.text "=" ++ snd fx)%list (combine fs xs).
Proof.
  intros G. induction l as [|x l IH]; intros fs rc ts rc' E.
  - cbn [each combine] in E. inversion E; subst. split; [reflexivity|]. exists []. rewrite firstn_nil. split; [constructor|]. destruct fs; reflexivity.
  - destruct fs as [|w fs]; cbn [each combine] in E; [inversion E; subst; split; [reflexivity|]; exists []; split; [constructor|reflexivity]|].
    cbn [fst snd] in E. destruct (f rc x) as [t rc1| |] eqn:F; try discriminate. cbn [obind] in E. destruct (G _ _ _ _ F) as [-> S1].
    match type of E with context [each ?g (combine l fs) rc] => destruct (each g (combine l fs) rc) as [ts2 rc2| |] eqn:F2; try discriminate end. cbn [obind] in E.
    destruct (IH _ _ _ _ F2) as (-> & xs & A & ->). inversion E; subst. split; [reflexivity|]. exists (t :: xs). cbn [length firstn]. split; [constructor; assumption|reflexivity].
Qed.
Lemma guarded_good rc a d g t rc' ws : nth_error H a = Some d -> ws = dots N d -> (forall t rc', g (rc ++ [a]) = Done t rc' -> rc' = rc ++ [a] /\ exists ts, t = whole N d ts /\ shows_parts (rc ++ [a]) d ts) ->
  guarded rc a ws g = Done t rc' -> rc' = rc /\ shows rc (Obj a) t.
Proof.
  intros E -> G K. unfold guarded, enter in K. destruct (existsb (Nat.eqb a) rc) eqn:X.
  - cbn [obind] in K. unfold leave in K. destruct (rc ++ [a]) eqn:Y; [destruct rc; discriminate|]. rewrite <- Y in K. rewrite removelast_last in K. inversion K; subst. split; [reflexivity|]. apply sh_again; [exact E|apply in_existsb; exact X].
  - destruct (g (rc ++ [a])) as [t1 rc1| |] eqn:F; try discriminate. destruct (G _ _ eq_refl) as (-> & ts & -> & S). cbn [obind] in K. unfold leave in K. destruct (rc ++ [a]) eqn:Y; [destruct rc; discriminate|]. rewrite <- Y in *. rewrite removelast_last in K. inversion K; subst.
    split; [reflexivity|]. apply sh_object; [exact E|intro I; apply in_existsb in I; congruence|]. apply (proj1 (proj2 shows_set) _ _ _ S). intro b. rewrite in_app_iff. cbn [In]. tauto.
Qed.
Lemma show_good n : good (show N H n).
Proof.
  induction n as [|n IH]; intros rc r t rc' E; cbn [show] in E; [discriminate|]. destruct r as [v|a|r|r].
  - inversion E; subst. split; [reflexivity|constructor].
  - destruct (nth_error H a) as [d|] eqn:A; [|discriminate].
    destruct d as [l|l|l|l|l|t0 l]; (eapply guarded_good in E; [exact E|exact A|reflexivity|]); clear E; intros t1 rc1 E.
    1,2,4,5: destruct (each (show N H n) l (rc ++ [a])) as [ts rc2| |] eqn:F; try discriminate; cbn [obind] in E; destruct (each_good _ _ IH _ _ _ F) as [-> S]; inversion E; subst; (split; [reflexivity|]); exists ts; (split; [reflexivity|constructor; exact S]).
    + match type of E with context [each ?g l ?q] => destruct (each g l q) as [ts rc2| |] eqn:F; try discriminate end. cbn [obind] in E. destruct (pairs_good _ _ IH _ _ _ F) as (-> & ks & xs & S1 & S2 & ->). inversion E; subst. split; [reflexivity|].
      eexists. split; [reflexivity|constructor; assumption].
    + match type of E with context [each ?g ?l ?q] => destruct (each g l q) as [ts rc2| |] eqn:F; try discriminate end. cbn [obind] in E. destruct (fields_good _ _ IH _ _ _ _ F) as (-> & xs & S1 & ->). inversion E; subst. split; [reflexivity|].
      eexists. split; [reflexivity|constructor; assumption].
  - destruct (show N H n rc r) as [t1 rc1| |] eqn:F; try discriminate. cbn [obind] in E. destruct (IH _ _ _ _ F) as [-> S]. inversion E; subst. split; [reflexivity|constructor; exact S].
  - destruct (show N H n rc r) as [t1 rc1| |] eqn:F; try discriminate. cbn [obind] in E. destruct (IH _ _ _ _ F) as [-> S]. inversion E; subst. split; [reflexivity|constructor; exact S].
Qed.

(** no panic *)
Definition calm (f : list nat -> ref -> out (list Z)) : Prop := forall rc r, f rc r <> Panics.
Lemma each_calm {A} (f : list nat -> A -> out (list Z)) l : (forall rc x, f rc x <> Panics) -> forall rc, each f l rc <> Panics.
Proof.
  intro C. induction l as [|x l IH]; intro rc; [discriminate|]. cbn [each]. destruct (f rc x) as [t rc1| |] eqn:E; [|destruct (C _ _ E)|discriminate]. cbn [obind]. destruct (each f l rc1) as [ts rc2| |] eqn:E2; [discriminate|destruct (IH _ E2)|discriminate].
Qed.
Lemma guarded_calm rc a ws g : (forall t rc', g (rc ++ [a]) = Done t rc' -> rc' = rc ++ [a]) -> g (rc ++ [a]) <> Panics -> guarded rc a ws g <> Panics.
Proof.
  intros G C. unfold guarded, enter. assert (L : forall t : list Z, leave t (rc ++ [a]) <> Panics). { intro t. unfold leave. destruct (rc ++ [a]) eqn:Y; [destruct rc; discriminate|discriminate]. }
  destruct (existsb (Nat.eqb a) rc); [apply L|]. destruct (g (rc ++ [a])) as [t rc1| |] eqn:E; [|congruence|discriminate]. rewrite (G _ _ eq_refl). apply L.
Qed.
Lemma show_calm n : calm (show N H n).
Proof.
  induction n as [|n IH]; intros rc r; cbn [show]; [discriminate|]. pose proof (show_good n) as GD. destruct r as [v|a|r|r]; [discriminate| | |].
  - destruct (nth_error H a) as [[l|l|l|l|l|t l]|] eqn:A; [| | | | | |discriminate]; apply guarded_calm.
    1,3,7,9: intros t rc' E; destruct (each (show N H n) l (rc ++ [a])) as [ts rc2| |] eqn:F; try discriminate; destruct (each_good _ _ GD _ _ _ F) as [-> _]; cbn [obind] in E; inversion E; reflexivity.
    1,2,5,6: pose proof (each_calm (show N H n) l IH (rc ++ [a])) as C; destruct (each (show N H n) l (rc ++ [a])); cbn [obind]; congruence.
    + intros t rc' E. match type of E with context [each ?g l ?q] => destruct (each g l q) as [ts rc2| |] eqn:F; try discriminate end. destruct (pairs_good _ _ GD _ _ _ F) as [-> _]. cbn [obind] in E. inversion E. reflexivity.
    + match goal with |- context [each ?g l ?q] => assert (C : each g l q <> Panics) end.
      { apply each_calm. intros rc0 p. pose proof (IH rc0 (fst p)) as I1. destruct (show N H n rc0 (fst p)) as [k rc1| |]; cbn [obind]; [|congruence|congruence]. pose proof (IH rc1 (snd p)) as I2. destruct (show N H n rc1 (snd p)); cbn [obind]; congruence. }
      match goal with |- context [each ?g l ?q] => destruct (each g l q) end; cbn [obind]; congruence.
    + intros t' rc' E. match type of E with context [each ?g ?l ?q] => destruct (each g l q) as [ts rc2| |] eqn:F; try discriminate end. destruct (fields_good _ _ GD _ _ _ _ F) as [-> _]. cbn [obind] in E. inversion E. reflexivity.
    + match goal with |- context [each ?g ?l ?q] => assert (C : each g l q <> Panics) end.
      { apply each_calm. intros rc0 p. pose proof (IH rc0 (fst p)) as I1. destruct (show N H n rc0 (fst p)) as [k rc1| |]; cbn [obind]; congruence. }
      match goal with |- context [each ?g ?l ?q] => destruct (each g l q) end; cbn [obind]; congruence.
  - pose proof (IH rc r) as I. destruct (show N H n rc r); cbn [obind]; congruence.
  - pose proof (IH rc r) as I. destruct (show N H n rc r); cbn [obind]; congruence.
Qed.

(** it ends *)
Definition ends (rc : list nat) (r : ref) : Prop := exists n t, forall m, n <= m -> show N H m rc r = Done t rc.
Definition endsf {A} (f : nat -> list nat -> A -> out (list Z)) (rc : list nat) (x : A) : Prop := exists n t, forall m, n <= m -> f m rc x = Done t rc.
Lemma each_ends {A} (f : nat -> list nat -> A -> out (list Z)) rc l : (forall x, In x l -> endsf f rc x) -> exists n ts, forall m, n <= m -> each (f m) l rc = Done ts rc.
Proof.
  induction l as [|x l IH]; intro E; [exists 0, []; reflexivity|]. destruct (E x (or_introl eq_refl)) as (n1 & t & E1). destruct IH as (n2 & ts & E2); [intros y Y; apply E; right; exact Y|].
  exists (n1 + n2), (t :: ts). intros m L. cbn [each]. rewrite (E1 m) by lia. cbn [obind]. rewrite (E2 m) by lia. reflexivity.
Qed.
Lemma guarded_ends rc a ws g : (~ In a rc -> exists n t, forall m, n <= m -> g m (rc ++ [a]) = Done t (rc ++ [a])) -> exists n t, forall m, n <= m -> guarded rc a ws (g m) = Done t rc.
Proof.
  intro G. unfold guarded, enter. assert (L : forall t : list Z, leave t (rc ++ [a]) = Done t rc).
  { intro t. unfold leave. destruct (rc ++ [a]) eqn:Y; [destruct rc; discriminate|]. rewrite <- Y. rewrite removelast_last. reflexivity. }
  destruct (existsb (Nat.eqb a) rc) eqn:X.
  - exists 0, ws. intros m _. apply L.
  - destruct G as (n & t & G); [intro I; apply in_existsb in I; congruence|]. exists n, t. intros m M. rewrite (G m M). apply L.
Qed.
Lemma later (f : nat -> out (list Z)) rc (g : nat -> out (list Z)) : (forall m, f (S m) = g m) -> (exists n t, forall m, n <= m -> g m = Done t rc) -> exists n t, forall m, n <= m -> f m = Done t rc.
Proof. intros E (n & t & G). exists (S n), t. intros [|m] L; [lia|]. rewrite E. apply G. lia. Qed.
Lemma show_ends : closed H -> forall k rc r, NoDup rc -> (forall a, In a rc -> a < length H) -> length H - length rc <= k -> valid H r -> ends rc r.
Proof.
  intros C. induction k as [k IHk] using lt_wf_ind. intros rc r ND B L. induction r as [v|a|r IHr|r IHr]; intro V; cbn [valid] in V.
  - exists 1, (repr N v). intros [|m] M; [lia|reflexivity].
  - destruct (nth_error H a) as [d|] eqn:A; [|apply nth_error_None in A; lia].
    assert (P : ~ In a rc -> forall x, In x (parts d) -> endsf (show N H) (rc ++ [a]) x).
    { intros I x X.
      assert (ND' : NoDup (rc ++ [a])) by (apply (NoDup_Add (a := a) (l := rc)); [rewrite <- (app_nil_r rc) at 1; apply Add_app|split; assumption]).
      assert (B' : forall b, In b (rc ++ [a]) -> b < length H) by (intros b Q; apply in_app_iff in Q; destruct Q as [Q|[<-|[]]]; auto).
      assert (LE : length (rc ++ [a]) <= length H). { rewrite <- (seq_length (length H) 0). apply NoDup_incl_length; [exact ND'|]. intros b Q. apply in_seq. specialize (B' b Q). lia. }
      rewrite app_length in LE. cbn [length] in LE.
      apply (IHk (length H - length (rc ++ [a]))); [rewrite app_length; cbn [length]; lia|exact ND'|exact B'|lia|]. eapply C; [eapply nth_error_In; exact A|exact X]. }
    unfold ends. cbn [parts] in P. destruct d as [l|l|l|l|l|t l].
    1,2,4,5: (eapply later; [intro m; cbn [show]; rewrite A; reflexivity|]); apply guarded_ends; intro I; destruct (each_ends (show N H) (rc ++ [a]) l (P I)) as (n & ts & E); exists n; eexists; intros m M; rewrite (E m M); reflexivity.
    + eapply later; [intro m; cbn [show]; rewrite A; reflexivity|]. apply guarded_ends. intro I.
      destruct (each_ends (fun n rc p => obind (show N H n rc (fst p)) (fun k rc => obind (show N H n rc (snd p)) (fun x rc => Done (k ++ Scan.text ": " ++ x)%list rc))) (rc ++ [a]) l) as (n & ts & E).
      { intros [k0 x] X. destruct (P I k0) as (n1 & t1 & E1); [apply in_flat_map; exists (k0, x); cbn; auto|]. destruct (P I x) as (n2 & t2 & E2); [apply in_flat_map; exists (k0, x); cbn; auto|].
        exists (n1 + n2). eexists. intros m M. cbn [fst snd]. rewrite (E1 m) by lia. cbn [obind]. rewrite (E2 m) by lia. reflexivity. }
      exists n. eexists. intros m M. rewrite (E m M). reflexivity.
    + eapply later; [intro m; cbn [show]; rewrite A; reflexivity|]. apply guarded_ends. intro I.
      destruct (each_ends (fun n rc p => obind (show N H n rc (fst p)) (fun x rc => Done (snd p ++ Scan.text "=" ++ x)%list rc)) (rc ++ [a]) (combine l (struct_fields N t))) as (n & ts & E).
      { intros [x w] X. destruct (P I x) as (n1 & t1 & E1); [eapply in_combine_l; exact X|]. exists n1. eexists. intros m M. cbn [fst snd]. rewrite (E1 m) by lia. reflexivity. }
      exists n. eexists. intros m M. rewrite (E m M). reflexivity.
  - destruct (IHr V) as (n & t & E). unfold ends. eapply later; [intro m; cbn [show]; reflexivity|]. exists n. eexists. intros m M. rewrite (E m M). reflexivity.
  - destruct (IHr V) as (n & t & E). unfold ends. eapply later; [intro m; cbn [show]; reflexivity|]. exists n. eexists. intros m M. rewrite (E m M). reflexivity.
Qed.

(** objects that do not contain themselves *)
Lemma all_some_mono {A B} (f g : A -> option B) l vs : (forall x v, f x = Some v -> g x = Some v) -> all_some (map f l) = Some vs -> all_some (map g l) = Some vs.
Proof.
  intro M. revert vs. induction l as [|x l IH]; intros vs E; [exact E|]. cbn [map all_some] in *. destruct (f x) as [v|] eqn:F; [|discriminate]. rewrite (M _ _ F). destruct (all_some (map f l)) as [us|]; [|discriminate]. rewrite (IH _ eq_refl). exact E.
Qed.
Lemma tree_mono n : forall r v, tree H n r = Some v -> tree H (S n) r = Some v.
Proof.
  induction n as [|n IH]; intros r v E; [discriminate|]. cbn [tree] in E. change (tree H (S (S n)) r) with (let all l := all_some (map (tree H (S n)) l) in
        match r with
        | Leaf v => Some v
        | REnumerate r => bind1 (tree H (S n) r) (fun v => Some (VEnumerate v))
        | RMemo _ => None
        | Obj a =>
            match nth_error H a with
            | None => None
            | Some (NList l) => bind1 (all l) (fun l => Some (VList l))
            | Some (NSet l) => bind1 (all l) (fun l => Some (VSet l))
            | Some (NHeap l) => bind1 (all l) (fun l => Some (VHeap l))
            | Some (NVector l) => bind1 (all l) (fun l => Some (VVector l))
            | Some (NStruct t l) => bind1 (all l) (fun l => Some (VStruct t l))
            | Some (NDict l) => bind1 (all (map fst l)) (fun ks => bind1 (all (map snd l)) (fun xs => Some (VDict (combine ks xs))))
            end
        end).
  cbv zeta in *. pose proof (fun l vs => all_some_mono (tree H n) (tree H (S n)) l vs IH) as AM.
  destruct r as [w|a|r|r]; [exact E| | |discriminate].
  - destruct (nth_error H a) as [[l|l|l|l|l|t l]|]; [| | | | | |discriminate].
    1,2,4,5,6: destruct (all_some (map (tree H n) l)) as [vs|] eqn:Q; [|discriminate]; rewrite (AM _ _ Q); exact E.
    destruct (all_some (map (tree H n) (map fst l))) as [ks|] eqn:Q; [|discriminate]. rewrite (AM _ _ Q). cbn [bind1] in *. destruct (all_some (map (tree H n) (map snd l))) as [xs|] eqn:Q2; [|discriminate]. rewrite (AM _ _ Q2). exact E.
  - destruct (tree H n r) as [w|] eqn:Q; [|discriminate]. rewrite (IH _ _ Q). exact E.
Qed.
Lemma all_shows n p l vs : (forall r v, In r l -> tree H n r = Some v -> shows p r (repr N v)) -> all_some (map (tree H n) l) = Some vs -> shows_all p l (map (repr N) vs).
Proof.
  revert vs. induction l as [|x l IH]; intros vs S E; cbn [map all_some] in E; [inversion E; constructor|]. destruct (tree H n x) as [v|] eqn:F; [|discriminate]. destruct (all_some (map (tree H n) l)) as [us|] eqn:Q; [|discriminate]. inversion E; subst.
  cbn [map]. constructor; [apply S; [left; reflexivity|exact F]|apply IH; [|reflexivity]]. intros r w I. apply S. right. exact I.
Qed.
Lemma all_shows_first n p l k vs : (forall r v, In r l -> tree H n r = Some v -> shows p r (repr N v)) -> all_some (map (tree H n) l) = Some vs -> shows_all p (firstn k l) (map (repr N) (firstn k vs)).
Proof.
  revert k vs. induction l as [|x l IH]; intros k vs S E; cbn [map all_some] in E; [inversion E; rewrite !firstn_nil; constructor|]. destruct (tree H n x) as [v|] eqn:F; [|discriminate]. destruct (all_some (map (tree H n) l)) as [us|] eqn:Q; [|discriminate]. inversion E; subst.
  destruct k as [|k]; [constructor|]. cbn [firstn map]. constructor; [apply S; [left; reflexivity|exact F]|apply IH; [|reflexivity]]. intros r w I. apply S. right. exact I.
Qed.
Lemma combine_repr (ks : list value) : forall xs, map (fun kx => fst kx ++ Scan.text ": " ++ snd kx)%list (combine (map (repr N) ks) (map (repr N) xs)) = map (fun p => repr N (fst p) ++ Scan.text ": " ++ repr N (snd p))%list (combine ks xs).
Proof. induction ks as [|k ks IH]; intros [|x xs]; cbn [map combine]; try reflexivity. rewrite IH. reflexivity. Qed.
Lemma struct_repr (l : list value) : forall fs : list (list Z), map (fun fx => fst fx ++ Scan.text "=" ++ snd fx)%list (combine fs (map (repr N) (firstn (length fs) l))) =
  (fix go (l : list value) (fs : list (list Z)) : list (list Z) := match l, fs with x :: l, f :: fs => (f ++ Scan.text "=" ++ repr N x)%list :: go l fs | _, _ => [] end) l fs.
Proof. induction l as [|x l IH]; intros [|f fs]; cbn [length firstn map combine]; try reflexivity. rewrite <- IH. reflexivity. Qed.
Lemma tree_shows n : forall p r v, tree H n r = Some v -> (forall a, In a p -> tree H n (Obj a) = None) -> shows p r (repr N v).
Proof.
  induction n as [|n IH]; intros p r v E A; [discriminate|].
  assert (A' : forall a, In a p -> tree H n (Obj a) = None). { intros a I. destruct (tree H n (Obj a)) as [w|] eqn:Q; [|reflexivity]. apply tree_mono in Q. rewrite (A a I) in Q. discriminate. }
  destruct r as [w|a|r|r].
  - inversion E; subst. constructor.
  - destruct (tree H n (Obj a)) as [w|] eqn:Q.
    + pose proof (tree_mono _ _ _ Q) as M. assert (w = v) by congruence. subst. apply IH; assumption.
    + assert (NI : ~ In a p) by (intro I; rewrite (A a I) in E; discriminate).
      assert (CH : forall r v, tree H n r = Some v -> shows (a :: p) r (repr N v)). { intros r u T. apply IH; [exact T|]. intros b [<-|I]; [exact Q|auto]. }
      clear Q A. cbn [tree] in E. destruct (nth_error H a) as [[l|l|l|l|l|t l]|] eqn:X; [| | | | | |discriminate].
      1,2,4,5,6: destruct (all_some (map (tree H n) l)) as [vs|] eqn:Q; [|discriminate]; cbn [bind1] in E; inversion E; subst.
      * apply (sh_object N H p a (NList l) (map (repr N) vs) X NI). constructor. eapply all_shows; [|exact Q]. auto.
      * apply (sh_object N H p a (NSet l) (map (repr N) vs) X NI). constructor. eapply all_shows; [|exact Q]. auto.
      * apply (sh_object N H p a (NHeap l) (map (repr N) vs) X NI). constructor. eapply all_shows; [|exact Q]. auto.
      * apply (sh_object N H p a (NVector l) (map (repr N) vs) X NI). constructor. eapply all_shows; [|exact Q]. auto.
      * cbn [repr]. rewrite <- struct_repr. apply (sh_object N H p a (NStruct t l) _ X NI). constructor. eapply all_shows_first; [|exact Q]. auto.
      * destruct (all_some (map (tree H n) (map fst l))) as [ks|] eqn:Q; [|discriminate]. cbn [bind1] in E. destruct (all_some (map (tree H n) (map snd l))) as [xs|] eqn:Q2; [|discriminate]. cbn [bind1] in E. inversion E; subst.
        cbn [repr]. rewrite <- combine_repr. apply (sh_object N H p a (NDict l) _ X NI). constructor; [eapply all_shows; [|exact Q]|eapply all_shows; [|exact Q2]]; auto.
  - cbn [tree] in E. destruct (tree H n r) as [w|] eqn:Q; [|discriminate]. inversion E; subst. cbn [repr]. constructor. apply IH; assumption.
  - discriminate.
Qed.
End WithNames.
