(** C35: destructuring binds each name to the element it denotes. *)
From Verif Require Import Base BaseProofs Ptr Native Value Err Iter IterSpec IterProofs Seq SeqSpec SeqProofs Pattern PatternSpec PatternProofs PatternProofs2.
Local Open Scope Z_scope.

(** A compiled pattern, run against a value [v] that its assignments leave alone: either
    the pattern matches as [binds] says, and exactly its assignments are carried out
    (the last one first) and the operands of `a[i]` and `a.f` targets are taken off the
    stack, each by its own assignment; or it does not match and an error is reported. *)
Theorem C35_match : forall X O V S E look char store dict_get ts p e v s rest,
  one_star X O (LTerms ts) -> build (LTerms ts) = Some (p, e) ->
  plain V S look char s v -> quiet X O V S E look char store s v ts ->
  (exists bs, binds X O V S look char s ts v bs /\
     apply X O V S E look char store dict_get p v (rev e ++ rest) s =
       match perform X O V S E store (rev bs) s with Good _ s' => Good rest s' | Bad er s' => Bad er s' | Crash => Crash end)
  \/ ((forall bs, ~ binds X O V S look char s ts v bs) /\
      exists er s', apply X O V S E look char store dict_get p v (rev e ++ rest) s = Bad er s').
Proof.
  intros X O V S E look char store dict_get ts p e v s rest Hone Hb Hp Hq.
  destruct (terms_good X O V S E look char store dict_get s (LTerms ts) v (targets X O (LTerms ts)) ts p e v eq_refl Hone Hb Hp
    (inside_self _ _ _ _ s v) Hq (fun _ h => h) rest s (agree_refl V S look char s v)) as [[bs [H1 [_ H2]]]|H]; [left|right; exact H].
  exists bs. split; [exact H1|]. exact H2.
Qed.
Print Assumptions C35_match.

(** ... and the assignments asked for are determined by the value *)
Theorem C35_unique : forall X O V S look char s ts v bs bs',
  binds X O V S look char s ts v bs -> binds X O V S look char s ts v bs' -> bs = bs'.
Proof. intros. eapply binds_fun; eassumption. Qed.
Print Assumptions C35_unique.

(** lengths, for patterns without nesting against lists, vectors and strings *)
Theorem C35_lengths : forall X O V S look char s v l, elements V S look char s v l ->
  let flat := Forall (fun t : lvalue X O => match t with LEmpty | LNamed _ => True | _ => False end) in
  (forall ts, flat ts -> (exists bs, binds X O V S look char s ts v bs) <-> length ts = length l) /\
  (forall pre t post, flat pre -> flat post -> is_variadic t = true ->
     (exists bs, binds X O V S look char s (pre ++ t :: post) v bs) <-> (length pre + length post <= length l)%nat).
Proof.
  intros X O V S look char s v l Hl flat. split.
  - intros ts Hf. split.
    + intros [bs H]. inversion H; subst.
      * rewrite (elements_unique _ _ _ _ _ _ _ _ Hl H0). eapply each_length; eassumption.
      * apply Forall_app in Hf. destruct Hf as [_ Hf]. inversion Hf. contradiction.
      * apply Forall_app in Hf. destruct Hf as [_ Hf]. inversion Hf. contradiction.
      * exfalso. exact (elements_not_sized _ _ _ _ _ _ _ _ Hl H0).
      * exfalso. exact (elements_not_sized _ _ _ _ _ _ _ _ Hl H0).
    + intros Hlen. destruct (each_flat X O V S look char s ts l Hf Hlen) as [b Hb]. exists b. eapply binds_exactly; eassumption.
  - intros pre t post Hpre Hpost Ht.
    assert (Hns : forall ts, flat ts -> existsb is_variadic ts = false).
    { intros ts H. induction H as [|y ys Hy _ IH]; [reflexivity|]. cbn. rewrite IH. destruct y; try contradiction; reflexivity. }
    split.
    + intros [bs H]. inversion H; subst.
      * exfalso. apply each_no_star in H1. rewrite existsb_mid in H1 by exact Ht. discriminate.
      * destruct (star_unique X O _ _ _ _ _ _ (each_no_star _ _ _ _ _ _ _ _ _ _ H2) (Hns _ Hpre) (eq_refl true : is_variadic LStarEmpty = true) Ht H0) as (-> & <- & ->).
        apply splits_elements in H1. rewrite (elements_unique _ _ _ _ _ _ _ _ Hl H1). apply each_length in H2, H3. rewrite !app_length. lia.
      * destruct (star_unique X O _ _ _ _ _ _ (each_no_star _ _ _ _ _ _ _ _ _ _ H2) (Hns _ Hpre) (eq_refl true : is_variadic (LStarNamed t0) = true) Ht H0) as (-> & <- & ->).
        apply splits_elements in H1. rewrite (elements_unique _ _ _ _ _ _ _ _ Hl H1). apply each_length in H2, H3. rewrite !app_length. lia.
      * exfalso. match goal with H : look _ _ = Sized _ |- _ => exact (elements_not_sized _ _ _ _ _ _ _ _ Hl H) end.
      * exfalso. match goal with H : look _ _ = Sized _ |- _ => exact (elements_not_sized _ _ _ _ _ _ _ _ Hl H) end.
    + intros Hlen.
      assert (HLs : exists front mid back, l = front ++ mid ++ back /\ length front = length pre /\ length back = length post).
      { exists (firstn (length pre) l), (firstn (length l - (length pre + length post)) (skipn (length pre) l)), (skipn (length l - (length pre + length post)) (skipn (length pre) l)).
        rewrite firstn_skipn, firstn_skipn. split; [reflexivity|]. rewrite firstn_length, !skipn_length. lia. }
      destruct HLs as (front & mid & back & -> & Hf & Hb).
      destruct (each_flat X O V S look char s pre front Hpre (eq_sym Hf)) as [b1 Hb1].
      destruct (each_flat X O V S look char s post back Hpost (eq_sym Hb)) as [b2 Hb2].
      destruct (elements_splits _ _ _ _ _ _ _ _ _ Hl) as [x Hx].
      destruct t; try discriminate Ht; eexists; [eapply binds_star|eapply binds_star_named]; eassumption.
Qed.
Print Assumptions C35_lengths.

(** ** a small machine: variables and list objects.  [store (TArray (a, i))] is a[i] = x *)
Inductive val := Num (z : Z) | Chr (c : Z) | Text (s : list Z) | Ref (a : nat) | SetOf2.
Definition mem := (list (list val) * list (nat * val))%type.      (* objects; variables *)
Definition m_look (m : mem) (v : val) : shape val :=
  match v with
  | Ref a => match nth_error (fst m) a with Some l => Seq true l | None => NotIterable end
  | Chr c => Chars [c] | Text s => Chars s | SetOf2 => Sized 2
  | Num _ => NotIterable
  end.
Definition m_store (t : target nat (nat * nat)) (x : stored val) (m : mem) : outcome unit mem unit :=
  let '(os, vs) := m in
  let '(v, os) := match x with Old v => (v, os) | NewSeq _ l => (Ref (length os), os ++ [l]) | NewChars s => (Text s, os) end in
  match t with
  | TVar n => Good tt (os, (n, v) :: vs)
  | TArray (a, i) => match nth_error os a with Some l => Good tt (update os a (update l i v), vs) | None => Bad MustBeIndexable m end
  | _ => Bad (OfMachine tt) m
  end.
Definition m_dict (v : val) (i : Z) (m : mem) : outcome unit mem val := Bad (OfMachine tt) m.
Definition m_run (ts : list (lvalue nat (nat * nat))) (v : val) (m : mem) : option (outcome unit mem (list (nat * nat))) :=
  match build (LTerms ts) with
  | Some (p, e) => Some (apply nat (nat * nat) val mem unit m_look Chr m_store m_dict p v (rev e) m)
  | None => None
  end.
Definition x_ (n : nat) : lvalue nat (nat * nat) := LNamed (TVar n).

(** a, (b, *c), *_, d = [1, [2, 3, 4], 5, 6, 7] *)
Example C35_ex :
  m_run [x_ 0; LTerms [x_ 1; LStarNamed (TVar 2%nat)]; LStarEmpty; x_ 3] (Ref 0) ([[Num 1; Ref 1; Num 5; Num 6; Num 7]; [Num 2; Num 3; Num 4]], []) =
    Some (Good [] ([[Num 1; Ref 1; Num 5; Num 6; Num 7]; [Num 2; Num 3; Num 4]; [Num 3; Num 4]],
                   [(0%nat, Num 1); (1%nat, Num 2); (2%nat, Ref 2); (3%nat, Num 7)]))
  /\ m_run [x_ 0; x_ 1] (Ref 0) ([[Num 1; Num 2; Num 3]], []) = Some (Bad (CannotUnpackEqual 2 3) ([[Num 1; Num 2; Num 3]], []))
  /\ m_run [x_ 0; x_ 1] (Text [104; 105]) ([], []) = Some (Good [] ([], [(0%nat, Chr 104); (1%nat, Chr 105)])).
Proof. repeat split; reflexivity. Qed.
(** ... which meets the hypotheses of [C35_match] *)
Example C35_ex_hyps : let m : mem := ([[Num 1; Num 5]], []) in let ts := [x_ 0; LStarNamed (TVar 2%nat)] in
  one_star _ _ (LTerms ts) /\ plain val mem m_look Chr m (Ref 0) /\ quiet _ _ val mem unit m_look Chr m_store m (Ref 0) ts
  /\ binds _ _ val mem m_look Chr m ts (Ref 0) [(TVar 0%nat, Old (Num 1)); (TVar 2%nat, NewSeq true [Num 5])].
Proof.
  cbv zeta. set (m := ([[Num 1; Num 5]], []) : mem).
  assert (Hin : forall w, inside val mem m_look Chr m (Ref 0) w -> w = Ref 0 \/ w = Num 1 \/ w = Num 5).
  { intros w H. induction H as [|u k l w Hu IH Hl Hw|u c y Hu IH Hl Hy].
    - auto.
    - destruct IH as [->|[->| ->]]; cbn in Hl; inversion Hl; subst. destruct Hw as [<-|[<-|[]]]; auto.
    - destruct IH as [->|[->| ->]]; discriminate Hl. }
  split; [cbn; repeat split; lia|]. split; [|split].
  - intros w Hw. destruct (Hin w Hw) as [->|[->| ->]]; cbn; [lia|exact I|exact I].
  - intros t y s Ht Ha. assert (Hobj : nth_error (fst s) 0 = Some [Num 1; Num 5]).
    { pose proof (Ha (Ref 0) (inside_self _ _ _ _ _ _)) as H. destruct s as [[|o os] vs]; cbn in H; inversion H; reflexivity. }
    destruct s as [os vs]. cbn [fst] in Hobj.
    assert (Hagree : forall os' vs', nth_error os' 0 = Some [Num 1; Num 5] -> agree val mem m_look Chr m (Ref 0) (os', vs')).
    { intros os' vs' H w Hw. destruct (Hin w Hw) as [->|[->| ->]]; cbn [m_look fst]; [rewrite H|..]; reflexivity. }
    cbn in Ht. destruct Ht as [<-|[<-|[]]]; unfold m_store; destruct y; apply Hagree; try exact Hobj;
    (rewrite nth_error_app1; [exact Hobj|]; apply nth_error_Some; rewrite Hobj; discriminate).
  - apply (binds_star_named _ _ _ _ _ _ _ [x_ 0] (TVar 2%nat) [] (Ref 0) [Num 1] [Num 5] [] (NewSeq true [Num 5]) [(TVar 0%nat, Old (Num 1))] []).
    + apply splits_seq. reflexivity.
    + apply (each_cons _ _ _ _ _ _ _ (x_ 0) [] (Num 1) [] [(TVar 0%nat, Old (Num 1))] []); constructor.
    + constructor.
Qed.
(** l[0], m[1] = [8, 9]: each value goes to its own target *)
Example C35_targets : m_run [LNamed (TArray (1%nat, 0%nat)); LNamed (TArray (2%nat, 1%nat))] (Ref 0) ([[Num 8; Num 9]; [Num 0]; [Num 0; Num 0]], []) =
  Some (Good [] ([[Num 8; Num 9]; [Num 8]; [Num 0; Num 9]], [])).
Proof. reflexivity. Qed.

(** ** where the property fails *)

(** a set of two elements is iterable and has length two, but `a, b = {1, 2}` is an error *)
Theorem C35_sets_refuted : ~ (forall X O V S E look char store dict_get (ts : list (lvalue X O)) p e v s n,
  build (LTerms ts) = Some (p, e) -> existsb is_variadic ts = false -> look s v = Sized n -> length ts = n ->
  exists r s', apply X O V S E look char store dict_get p v (rev e) s = Good r s').
Proof.
  intros H. destruct (H nat (nat * nat)%type val mem unit m_look Chr m_store m_dict [x_ 0; x_ 1] _ _ SetOf2 ([], []) 2%nat eq_refl eq_refl eq_refl eq_refl) as (r & s' & E).
  cbv in E. discriminate E.
Qed.
Print Assumptions C35_sets_refuted.

(** l[1], l[0] = l does not exchange the elements of l = [1, 2]: both become 2.  (The
    hypothesis of [C35_match] that the assignments leave the value alone is needed.) *)
Theorem C35_aliasing_refuted : exists ts m,
  binds _ _ val mem m_look Chr m ts (Ref 0) [(TArray (0%nat, 1%nat), Old (Num 1)); (TArray (0%nat, 0%nat), Old (Num 2))] /\
  m_run ts (Ref 0) m = Some (Good [] ([[Num 2; Num 2]], [])).
Proof.
  exists [LNamed (TArray (0%nat, 1%nat)); LNamed (TArray (0%nat, 0%nat))], ([[Num 1; Num 2]], []). split; [|reflexivity].
  apply (binds_exactly _ _ _ _ _ _ _ _ _ [Num 1; Num 2]); [left; eexists; reflexivity|].
  apply (each_cons _ _ _ _ _ _ _ _ _ (Num 1) [Num 2] [_] [_]); [constructor|].
  apply (each_cons _ _ _ _ _ _ _ _ _ (Num 2) [] [_] []); constructor.
Qed.
Print Assumptions C35_aliasing_refuted.

(** *a, b = 'e-acute 1' crashes the interpreter *)
Theorem C35_string_crash_refuted : m_run [LStarEmpty; x_ 0] (Text [233; 49]) ([], []) = Some Crash.
Proof. reflexivity. Qed.
Print Assumptions C35_string_crash_refuted.

(** a failing match keeps the assignments made before the failure was noticed:
    (a, b), c = [[1], 2] reports an error, but c is 2 *)
Theorem C35_failed_match_assigns : m_run [LTerms [x_ 0; x_ 1]; x_ 2] (Ref 0) ([[Ref 1; Num 2]; [Num 1]], []) =
  Some (Bad (CannotUnpackEqual 2 1) ([[Ref 1; Num 2]; [Num 1]], [(2%nat, Num 2)])).
Proof. reflexivity. Qed.
Print Assumptions C35_failed_match_assigns.

(** two stars are rejected in a `let` but not in an assignment: *a, *b = [1, 2, 3] gives
    a = [1, 2] and b = []; the 3 is lost *)
Theorem C35_two_stars_refuted : m_run [LStarNamed (TVar 0%nat); LStarNamed (TVar 1%nat)] (Ref 0) ([[Num 1; Num 2; Num 3]], []) =
  Some (Good [] ([[Num 1; Num 2; Num 3]; []; [Num 1; Num 2]], [(0%nat, Ref 2); (1%nat, Ref 1)])).
Proof. reflexivity. Qed.
Print Assumptions C35_two_stars_refuted.

(** the compiler crashes exactly on patterns that name a field of the enclosing struct
    without `self.` *)
Theorem C35_compiles : forall X O (ts : list (lvalue X O)),
  (exists p, build (LTerms ts) = Some p) <-> ~ In TThis (targets X O (LTerms ts)).
Proof. intros X O ts. exact (build_this X O Z (fun z => z) ts). Qed.
Print Assumptions C35_compiles.
