(** C67: lexical scoping. *)
From Coq Require Import String.
From Verif Require Import Base Seq Resolve ResolveSpec ResolveProofs ResolveProofs2.
Local Open Scope nat_scope.

(** C67, a name that is a variable of the program, of this function or of the function directly around it: it is the
    innermost initialised variable with this name, whatever came before in the program. *)
Theorem C67_near b s n l : history b s -> innermost n s = Some l -> (ldepth l = 0 /\ lscope l = 0) \/ function_depth s <= S (ldepth l) ->
  let '(s', r) := resolve_reference n s in denotes s' r = Some (slot l).
Proof.
  intros H I N. pose proof (resolve_spec b s n H (near_fresh n s l I N)) as R. destruct (resolve_reference n s) as [s' r]. rewrite I in R. apply R.
Qed.
Print Assumptions C67_near.

(** C67, any name: it is the innermost initialised variable with this name, in programs in which no reference is to a
    variable that a function between the variable and the reference captured before. See C67_refuted for those. *)
Theorem C67_scoping_partial b s n l : tame b s -> fresh n s -> innermost n s = Some l ->
  let '(s', r) := resolve_reference n s in denotes s' r = Some (slot l).
Proof.
  intros T F I. pose proof (resolve_spec b s n (tame_history b s T) (fresh_of n s (tame_sound b s T) F)) as R. destruct (resolve_reference n s) as [s' r]. rewrite I in R. apply R.
Qed.
Print Assumptions C67_scoping_partial.

(** C67, names without a variable: undeclared in the program itself, and left to a global declared later in functions. *)
Theorem C67_unbound b s n : history b s -> innermost n s = None ->
  snd (resolve_reference n s) = if function_depth s =? 0 then RUndeclared else RLate.
Proof.
  intros H I. assert (U : unshared s n) by (intros l X; congruence). pose proof (resolve_spec b s n H U) as R. destruct (resolve_reference n s) as [s' r]. rewrite I in R. apply R.
Qed.
Print Assumptions C67_unbound.

(** C67: the variables at the end of a block or function are those from before it: those declared inside are gone, and
    no other. *)
Theorem C67_blocks b s s1 s2 s3 : history b s ->
  (act AEnter s = Some s1 -> inside (Block :: b) [] s1 [] s2 -> act ALeave s2 = Some s3 -> map declaration (variables s3) = map declaration (variables s)) /\
  (act AFunction s = Some s1 -> inside (Function :: b) [] s1 [] s2 -> act AEndFunction s2 = Some s3 -> map declaration (variables s3) = map declaration (variables s)).
Proof. intro H. split; [exact (block_variables Block b s s1 s2 s3 _ _ H eq_refl)|exact (block_variables Function b s s1 s2 s3 _ _ H eq_refl)]. Qed.
Print Assumptions C67_blocks.

(** C67: a declaration is refused exactly when the same block of the same function has a variable with the name
    already, and otherwise adds it. *)
Theorem C67_declare b s n : history b s ->
  match act (ADeclare n) s with
  | None => exists l, In l (variables s) /\ lname l = n /\ lscope l = scope_depth s /\ ldepth l = function_depth s
  | Some s' => (exists i, map declaration (variables s') = map declaration (variables s) ++ [(n, function_depth s, i, scope_depth s)]) /\
      forall l, In l (variables s) -> lname l = n -> ~ (lscope l = scope_depth s /\ ldepth l = function_depth s)
  end.
Proof.
  intros H. destruct (history_inv b s H) as (pre & cur & E & SD & F & C & P). pose proof (current_of s pre cur E) as CU. pose proof (depth_of s pre cur E) as FD.
  assert (PL : placed (length pre) cur) by (apply P; rewrite E, nth_error_app2, Nat.sub_diag by lia; reflexivity).
  cbn. unfold declare_local. rewrite CU. destruct (existsb _ _) eqn:X.
  - apply existsb_exists in X as (l & I & Q). apply andb_true_iff in Q as [Q1 Q2]. apply Nat.eqb_eq in Q1. apply String.eqb_eq in Q2. exists l. split; [unfold variables; rewrite E; apply in_flat_map; exists cur; split; [apply in_or_app; right; now left|exact I]|].
    split; [exact Q2|]. split; [exact Q1|]. apply In_nth_error in I as (i & I). destruct (PL i l I) as [_ D]. congruence.
  - split.
    + exists (length (flocals cur)). unfold variables, set_current. cbn [frames]. rewrite E, removelast_app1, !flat_map_app. cbn. rewrite !app_nil_r, app_assoc, map_app. reflexivity.
    + intros l I N [S D]. unfold variables in I. rewrite E in I. apply in_flat_map in I as (f & I1 & I2). apply In_nth_error in I1 as (d & I1). apply In_nth_error in I2 as (i & I2).
      rewrite <- E in I1. destruct (P d f I1 i l I2) as [_ D']. rewrite D, FD in D'. subst d. rewrite E, nth_error_app2, Nat.sub_diag in I1 by lia. injection I1 as <-.
      assert (Y : existsb (fun l0 => (lscope l0 =? scope_depth s) && String.eqb (lname l0) n) (flocals cur) = true); [|congruence].
      apply existsb_exists. exists l. split; [eapply nth_error_In, I2|]. rewrite S, N, Nat.eqb_refl, String.eqb_refl. reflexivity.
Qed.
Print Assumptions C67_declare.

(** C67: a captured variable stays the same variable, with the same name, until the end of the function that refers to it;
    and the environment that its closures get has it there, from the variables or the environment of the function around it. *)
Theorem C67_environment b s i v s1 s2 : history b s -> denotes s (RUp i) = Some v -> continues (function_depth s) s s1 ->
  (denotes s1 (RUp i) = Some v \/ function_depth s1 <> function_depth s) /\ (forall x, name_of s v = Some x -> name_of s1 v = Some x) /\
  (function_depth s1 = function_depth s -> act AEndFunction s1 = Some s2 ->
   exists e, nth_error (closed_locals s2) i = Some e /\
     match e with (true, j) => v = (function_depth s2, j) | (false, j) => denotes s2 (RUp j) = Some v end).
Proof.
  intros H O C. cbn in O. destruct (continues_owner b _ s s1 i v H eq_refl C O) as [A B]. split; [|split; [exact B|]].
  - destruct (Nat.eq_dec (function_depth s1) (function_depth s)) as [E|E]; [left; cbn; rewrite E; exact A|now right].
  - intros E X. apply (end_function s1 s2 i v); [|exact X|rewrite E; exact A]. intro Z. unfold function_depth in E. rewrite Z in E. cbn in E. unfold function_depth in O. rewrite <- E in O. discriminate.
Qed.
Print Assumptions C67_environment.

(** a sequence of actions *)
Fixpoint acts (l : list action) (b : list bracket) (s : scopes) : option (list bracket * scopes) :=
  match l with
  | [] => Some (b, s)
  | a :: l =>
      match act a s, a, b with
      | Some s', AEnter, _ => acts l (Block :: b) s'
      | Some s', AFunction, _ => acts l (Function :: b) s'
      | Some s', ALeave, Block :: b' | Some s', AEndFunction, Function :: b' => acts l b' s'
      | Some s', ALeave, _ | Some s', AEndFunction, _ => None
      | Some s', _, _ => acts l b s'
      | None, _, _ => None
      end
  end.
Lemma acts_history l : forall b s b' s', history b s -> acts l b s = Some (b', s') -> history b' s'.
Proof.
  induction l as [|a l IH]; intros b s b' s' H E; [cbn in E; injection E as <- <-; exact H|]. cbn [acts] in E. destruct (act a s) as [t|] eqn:A; [|discriminate].
  destruct a; try (eapply IH; [|exact E]; eapply history_act; [exact H| |exact A]; reflexivity).
  - destruct b as [|[] b]; try discriminate. eapply IH; [|exact E]. eapply history_act; [exact H| |exact A]; reflexivity.
  - destruct b as [|[] b]; try discriminate. eapply IH; [|exact E]. eapply history_act; [exact H| |exact A]; reflexivity.
Qed.
Local Open Scope string_scope.
(** `fn f() { let a = 1; fn g() { let c = 2; fn h() { c; a; a }` *)
Definition twice : list action :=
  [ADeclare "f"; AInit 0; AFunction; ADeclare "a"; AInit 0; ADeclare "g"; AInit 1; AFunction; ADeclare "c"; AInit 0; ADeclare "h"; AInit 1; AFunction; AReference "c"; AReference "a"].
(** `fn f() { let a = 1; let b = 2; fn g() { a; fn h() { b; b }` *)
Definition beyond : list action :=
  [ADeclare "f"; AInit 0; AFunction; ADeclare "a"; AInit 0; ADeclare "b"; AInit 1; ADeclare "g"; AInit 2; AFunction; AReference "a"; ADeclare "h"; AInit 0; AFunction; AReference "b"].

(** C67, refuted in general: in `fn f() { let a = 1; fn g() { let c = 2; fn h() { c; a; a } } }` the second `a` is
    the variable `c`; in `fn f() { let a = 1; let b = 2; fn g() { a; fn h() { b; b } } }` the second `b` is an entry
    that the environment of h does not have (a crash when it runs). *)
Theorem C67_refuted :
  (exists b s, acts twice [] start = Some (b, s) /\ history b s /\
    (exists l, innermost "a" s = Some l /\ slot l = (1, 0)) /\
    denotes (fst (resolve_reference "a" s)) (snd (resolve_reference "a" s)) = Some (2, 0) /\ name_of s (2, 0) = Some "c") /\
  (exists b s, acts beyond [] start = Some (b, s) /\ history b s /\
    (exists l, innermost "b" s = Some l /\ slot l = (1, 1)) /\
    denotes (fst (resolve_reference "b" s)) (snd (resolve_reference "b" s)) = None /\ snd (resolve_reference "b" s) = RUp 1).
Proof.
  split.
  - eexists _, _. split; [vm_compute; reflexivity|]. split; [eapply (acts_history twice); [apply history_start|vm_compute; reflexivity]|]. split; [eexists; split; vm_compute; reflexivity|]. split; vm_compute; reflexivity.
  - eexists _, _. split; [vm_compute; reflexivity|]. split; [eapply (acts_history beyond); [apply history_start|vm_compute; reflexivity]|]. split; [eexists; split; vm_compute; reflexivity|]. split; vm_compute; reflexivity.
Qed.
Print Assumptions C67_refuted.

(** Examples: `let x; fn f() { let a; { let a; fn g() { fn h() {` and the names x, a (the inner one, two functions up), z *)
Definition nested : list action :=
  [ADeclare "x"; AInit 0; ADeclare "f"; AInit 1; AFunction; ADeclare "a"; AInit 0; AEnter; ADeclare "a"; AInit 1; AFunction; ADeclare "y"; AInit 0; AFunction].
Example C67_example :
  match acts nested [] start with
  | Some (b, s) =>
      history b s /\ (forall n, fresh n s) /\
      option_map slot (innermost "a" s) = Some (1, 1) /\ (let '(s', r) := resolve_reference "a" s in r = RUp 0 /\ denotes s' r = Some (1, 1)) /\
      option_map slot (innermost "x" s) = Some (0, 0) /\ snd (resolve_reference "x" s) = RGlobal 0 /\
      option_map slot (innermost "y" s) = Some (2, 0) /\ snd (resolve_reference "z" s) = RLate
  | None => False
  end.
Proof.
  destruct (acts nested [] start) as [[b s]|] eqn:E; [|vm_compute in E; discriminate]. split; [eapply (acts_history nested); [apply history_start|exact E]|].
  vm_compute in E. injection E as <- <-. split; [|vm_compute; repeat split].
  intros n l I NG d D (i & O). cbn in D. assert (ldepth l <> 3) by lia. unfold already_captured in *. 
  assert (U : forall k, ups (frames (Scopes [Frame [Local "x" 0 0 0 true false; Local "f" 1 0 0 true false] []; Frame [Local "a" 0 1 1 true false; Local "a" 1 2 1 true false] []; Frame [Local "y" 0 3 2 true false] []; Frame [] []] 4)) k = []) by (intros [|[|[|[|[|k]]]]]; reflexivity).
  cbn [owner] in O. rewrite U in O. destruct i; discriminate.
Qed.
(** a tame program, with a far reference in it: twice, of C67_refuted, up to the first `a`; the next is `g` *)
Lemma acts_tame l : (forall n, ~ In (AReference n) l) -> forall b s b' s', tame b s -> acts l b s = Some (b', s') -> tame b' s'.
Proof.
  induction l as [|a l IH]; intros N b s b' s' H E; [cbn in E; injection E as <- <-; exact H|]. cbn [acts] in E. destruct (act a s) as [t|] eqn:A; [|discriminate].
  assert (N' : forall n, ~ In (AReference n) l) by (intros n I; apply (N n); now right). assert (NA : forall n, a = AReference n -> fresh n s) by (intros n ->; exfalso; apply (N n); now left).
  destruct a; try (eapply (IH N'); [|exact E]; eapply tame_act; [exact H| |exact NA|exact A]; reflexivity).
  - destruct b as [|[] b]; try discriminate. eapply (IH N'); [|exact E]. eapply tame_act; [exact H| |exact NA|exact A]; reflexivity.
  - destruct b as [|[] b]; try discriminate. eapply (IH N'); [|exact E]. eapply tame_act; [exact H| |exact NA|exact A]; reflexivity.
Qed.
Example C67_tame_example : exists b s, acts twice [] start = Some (b, s) /\ tame b s /\ innermost "g" s <> None /\ fresh "g" s.
Proof.
  eexists _, _. split; [vm_compute; reflexivity|]. split; [|split; [vm_compute; discriminate|]].
  - eapply (tame_act _ _ (AReference "a")); [eapply (tame_act _ _ (AReference "c")); [eapply (acts_tame (firstn 13 twice)); [intros n I; cbn in I; repeat (destruct I as [I|I]; [discriminate|]); exact I|apply tame_start|vm_compute; reflexivity]| | |vm_compute; reflexivity]| | |vm_compute; reflexivity]; try reflexivity.
    + intros n E. injection E as <-. intros l I NG d D. cbn in I. injection I as <-. cbn in D. lia.
    + intros n E. injection E as <-. intros l I NG d D (i & O). cbn in I. injection I as <-. cbn in D. assert (d = 2) as -> by lia. cbn in O. destruct i as [|i]; cbn in O; [discriminate|]. destruct i; discriminate.
  - intros l I NG d D (i & O). cbn in I. injection I as <-. cbn in D. assert (d = 2) as -> by lia. cbn in O. destruct i as [|[|i]]; cbn in O; [discriminate..|]. destruct i; discriminate.
Qed.
Example C67_blocks_example : exists s1 s2 s3, act AEnter start = Some s1 /\ inside [Block] [] s1 [] s2 /\ act ALeave s2 = Some s3 /\ variables s2 <> [] /\ variables s3 = [].
Proof.
  eexists _, _, _. split; [reflexivity|]. split; [eapply (inside_act _ _ _ (ADeclare "a") []); [reflexivity|reflexivity|]; eapply (inside_act _ _ _ AFunction [Function]); [reflexivity|reflexivity|]; eapply (inside_act _ _ _ (ADeclare "b") [Function]); [reflexivity|reflexivity|]; eapply (inside_act _ _ _ AEndFunction []); [reflexivity|reflexivity|]; constructor|].
  split; [reflexivity|]. split; [discriminate|reflexivity].
Qed.
