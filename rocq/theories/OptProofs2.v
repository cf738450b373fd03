(** Proofs for C43, continued: expressions without side effects, reordering, the steps of the
    optimiser. *)
From Verif Require Import Base Native Err Value Ops Vm Lang LangSpec CompGraph CompileSpec Opt OptSpec OptProofs.
Local Open Scope nat_scope.

Section opt.
Context (P : prims) (funs : nat -> option sfun).
Context (dec : nat -> option value) (enc : value -> hval) (to_str : value -> list Z) (fmt : list Z -> value -> result value).
Context (LW : lawful P dec enc to_str fmt).
Local Notation st := (st P).
Local Notation ev := (gives P funs).
Local Notation argsE := (argsE P funs).
Local Notation plainE := (plainE P funs).
Local Notation chainE := (chainE P funs).
Local Notation litE := (litE P funs).
Local Notation callE := (callE P funs).
Local Notation treeE := (treeE P funs).
Local Notation purity := (purity dec).
Local Notation purity_args := (purity_args dec).
Local Notation decode := (decode dec).
Local Notation careful := (careful dec).
Local Notation with_world := (with_world P).

(** ** Expressions without side effects *)
Definition with_envs es (s : st) : st := St P (store P s) es (globals P s) (sworld P s).
Lemma ww_id (s : st) : with_world (sworld P s) s = s. Proof. now destruct s. Qed.
Lemma pmin_none a b : is_none (pmin a b) = false <-> is_none a = false /\ is_none b = false.
Proof. destruct a, b; cbn; intuition congruence. Qed.
Lemma pmin_strong a b : is_strong (pmin a b) = true <-> is_strong a = true /\ is_strong b = true.
Proof. destruct a, b; cbn; intuition congruence. Qed.

Lemma pu_call f a : purity (ECall f a) = if any_spread a then PureNone else if is_partial f (n_args a) then pmin (purity f) (purity_args a) else PureNone. Proof. reflexivity. Qed.
Lemma pu_compose a f : purity (ECompose a f) = if is_partial f 1 then pmin (purity f) (purity a) else PureNone. Proof. reflexivity. Qed.
Lemma pu_swap o l r : purity (EBinSwap o l r) = pmin (purity l) (purity r). Proof. reflexivity. Qed.
Lemma pu_and l r : purity (EAnd l r) = pmin (purity l) (purity r). Proof. reflexivity. Qed.
Lemma pu_or l r : purity (EOr l r) = pmin (purity l) (purity r). Proof. reflexivity. Qed.
Lemma pu_if c l r : purity (EIf c l r) = pmin (pmin (purity c) (purity l)) (purity r). Proof. reflexivity. Qed.
Lemma pu_args sp e r : purity_args (ACons sp e r) = pmin (purity e) (purity_args r). Proof. reflexivity. Qed.
Lemma hf_call f a : heap_free (ECall f a) = heap_free f && heap_free_args a. Proof. reflexivity. Qed.
Lemma hf_compose f a : heap_free (ECompose f a) = heap_free f && heap_free a. Proof. reflexivity. Qed.
Lemma hf_args sp e r : heap_free_args (ACons sp e r) = heap_free e && heap_free_args r. Proof. reflexivity. Qed.
Lemma cf_call f a : closure_free (ECall f a) = closure_free f && closure_free_args a. Proof. reflexivity. Qed.
Lemma cf_compose f a : closure_free (ECompose f a) = closure_free f && closure_free a. Proof. reflexivity. Qed.
Lemma cf_swap o f a : closure_free (EBinSwap o f a) = closure_free f && closure_free a. Proof. reflexivity. Qed.
Lemma cf_and f a : closure_free (EAnd f a) = closure_free f && closure_free a. Proof. reflexivity. Qed.
Lemma cf_or f a : closure_free (EOr f a) = closure_free f && closure_free a. Proof. reflexivity. Qed.
Lemma cf_if c f a : closure_free (EIf c f a) = closure_free c && closure_free f && closure_free a. Proof. reflexivity. Qed.
Lemma cf_prim p a : closure_free (EPrim p a) = closure_free_args a. Proof. reflexivity. Qed.
Lemma cf_lit p a : closure_free (ELit p a) = closure_free_args a. Proof. reflexivity. Qed.
Lemma cf_args sp e r : closure_free_args (ACons sp e r) = closure_free e && closure_free_args r. Proof. reflexivity. Qed.
Local Ltac pu := rewrite ?pu_call, ?pu_compose, ?pu_swap, ?pu_and, ?pu_or, ?pu_if, ?pu_args, ?hf_call, ?hf_compose, ?hf_args, ?cf_call, ?cf_compose, ?cf_swap, ?cf_and, ?cf_or, ?cf_if, ?cf_prim, ?cf_lit, ?cf_args.

(** what an evaluation without side effects may change; [hf]: nothing in the heap; [cf]: no closures *)
Definition keep (hf cf : bool) (s s' : st) : Prop :=
  store P s' = store P s /\ globals P s' = globals P s /\ (hf = true -> sworld P s' = sworld P s) /\ (cf = true -> senvs P s' = senvs P s).
Definition stable (hf cf : bool) (R : st -> st -> Prop) : Prop :=
  forall s s', R s s' -> keep hf cf s s' /\ (hf = true -> forall w, R (with_world w s) (with_world w s')) /\
    (cf = true -> forall es, R (with_envs es s) (with_envs es s')).
Lemma keep_refl hf cf s : keep hf cf s s. Proof. repeat split. Qed.
Lemma keep_trans hf cf hf' cf' s s1 s2 : keep hf cf s s1 -> keep hf' cf' s1 s2 -> keep (hf && hf') (cf && cf') s s2.
Proof.
  intros (A & B & C & D) (A' & B' & C' & D'). repeat split; try congruence; intros E; apply andb_true_iff in E as [E1 E2]; [rewrite C'|rewrite D']; auto.
Qed.
Lemma stable_weaken hf cf hf' cf' R : stable hf cf R -> (hf' = true -> hf = true) -> (cf' = true -> cf = true) -> stable hf' cf' R.
Proof. intros H A B s s' J. destruct (H s s' J) as ((K1 & K2 & K3 & K4) & T & E). repeat split; auto. Qed.
Lemma stable_seq hf cf hf' cf' (R1 R2 : st -> st -> Prop) : stable hf cf R1 -> stable hf' cf' R2 -> stable (hf && hf') (cf && cf') (fun s s' => exists s1, R1 s s1 /\ R2 s1 s').
Proof.
  intros H1 H2 s s' (s1 & J1 & J2). destruct (H1 _ _ J1) as (K1 & T1 & E1), (H2 _ _ J2) as (K2 & T2 & E2).
  split; [eapply keep_trans; eauto|]. split; intros E; apply andb_true_iff in E as [X Y]; intros; eexists; split; eauto.
Qed.
Lemma stable_ext hf cf R R' : (forall s s', R s s' <-> R' s s') -> stable hf cf R -> stable hf cf R'.
Proof.
  intros X H s s' J. apply X in J. destruct (H _ _ J) as (K & T & E). split; auto. split; intros; apply X; auto.
Qed.
Lemma stable_ex {A} hf cf (R : A -> st -> st -> Prop) : (forall a, stable hf cf (R a)) -> stable hf cf (fun s s' => exists a, R a s s').
Proof. intros H s s' [a J]. destruct (H a _ _ J) as (K & T & E). split; auto. split; intros; exists a; auto. Qed.
Lemma stable_and hf cf (Q : Prop) R : (Q -> stable hf cf R) -> stable hf cf (fun s s' => Q /\ R s s').
Proof. intros H s s' [q J]. destruct (H q _ _ J) as (K & T & E). split; auto. Qed.
Lemma stable_id hf cf : stable hf cf (fun s s' => s' = s).
Proof. intros s s' ->. split; [apply keep_refl|]. auto. Qed.
(** only the heap matters and changes *)
Lemma stable_world cf (R : W P -> W P -> Prop) : stable false cf (fun s s' => exists w, R (sworld P s) w /\ s' = with_world w s).
Proof.
  intros s s' (w & H & ->). split; [split; [|split; [|split]]; auto; discriminate|]. split; [discriminate|]. intros _ es. exists w. split; auto.
Qed.

Definition pureE (e : expr) : Prop := is_none (purity e) = false -> forall fr v, stable (heap_free e) (closure_free e) (fun s s' => ev fr e s v s').
Definition pureA (a : args) : Prop := is_none (purity_args a) = false ->
  (any_spread a = false -> forall fr vs, stable (heap_free_args a) (closure_free_args a) (fun s s' => argsE fr a s vs s')) /\
  (forall fr vs, stable (heap_free_args a) (closure_free_args a) (fun s s' => plainE fr a s vs s')) /\
  (forall fr l p x, stable false (closure_free_args a) (fun s s' => litE fr l p a s x s')).

Lemma args_length fr : forall a s vs s', any_spread a = false -> argsE fr a s vs s' -> length vs = n_args a.
Proof.
  induction a as [|sp e r IH]; intros s vs s' N H.
  - now apply args_nil in H as [-> ->].
  - destruct sp; [discriminate|]. apply args_plain in H as (v & s1 & t & H & K & ->). cbn [length n_args]. f_equal. eapply IH; eauto.
Qed.
Lemma native_not_user n : ~ user_function (HNative n). Proof. intro H; exact H. Qed.
Lemma call_partial n vs s v s' : length vs < native_min_nargs n ->
  callE (HNative n) vs s v s' <-> v = match vs with [] => HNative n | _ => HPartial (HNative n) vs end /\ s' = s.
Proof.
  intro Lt. rewrite (call_builtin P funs _ _ _ _ _ (native_not_user n)), (lw_partial _ _ _ _ _ LW n vs _ Lt), tree_ret, ww_id. reflexivity.
Qed.
Lemma tree_imm t cf : (forall w, immediate (t w)) -> forall v, stable false cf (fun s s' => treeE (t (sworld P s)) s v s').
Proof.
  intros I v. apply (stable_ext _ _ (fun s s' => exists w, t (sworld P s) = TRet w v /\ s' = with_world w s)); [|apply (stable_world cf (fun a w => t a = TRet w v))].
  intros s s'. destruct (I (sworld P s)) as [F|(w & x & E)].
  - rewrite (tree_fails P funs _ _ _ _ F). destruct F as (w & e & ->). split; [intros (? & ? & ?); discriminate|tauto].
  - rewrite E, tree_ret. split; [intros (w' & [= <- <-] & ->); auto|intros [-> ->]; eauto].
Qed.
Lemma pure_all : (forall e, pureE e) /\ (forall a, pureA a) /\ (forall c : cmps, True).
Proof.
  apply expr_all; try (intros; exact Logic.I); unfold pureE, pureA.
  - intros h N fr v. eapply stable_ext; [|apply (stable_and _ _ (v = h)); intro; apply stable_id]. intros. symmetry. apply ev_const.
  - intros N fr v. eapply stable_ext; [intros; symmetry; apply ev_quit|]. intros s s' [].
  - intros x N fr v. eapply stable_ext; [intros; symmetry; apply ev_var|]. intros s s' (-> & l & E & H). split; [apply keep_refl|].
    split; intros _ ?; (split; [reflexivity|]); exists l; (split; [|exact H]); revert E; unfold var_loc, ret; destruct x; cbn;
      repeat (match goal with |- context [match ?y with _ => _ end] => destruct y end); intro; try discriminate; congruence.
  - intros f e IH N fr v. destruct e; try discriminate. specialize (IH eq_refl fr).
    eapply stable_ext; [intros; symmetry; apply ev_method|]. apply stable_ex. intro y. eapply stable_ext; [intros; apply and_comm|]. apply stable_and. auto.
  - intros f c cs N fr v. eapply stable_ext; [intros; symmetry; apply ev_closure|]. intros s s' (ls & H & -> & ->). split; [split; [|split; [|split]]; auto; discriminate|].
    split; [|discriminate]. intros _ w. exists ls. auto.
  - (* call *) intros f IHf a IHa. pu. destruct (any_spread a) eqn:NS; [discriminate|].
    destruct (is_partial f (n_args a)) eqn:Pa; [|discriminate]. rewrite pmin_none. intros [Nf Na] fr v.
    destruct f as [h| | | | | | | | | | | | | | | | ]; try discriminate. destruct h; try discriminate. cbn [is_partial] in Pa. apply Nat.ltb_lt in Pa.
    destruct (IHa Na) as (HA & _ & _). specialize (HA eq_refl fr). cbn [andb].
    eapply stable_ext; [|apply (stable_ex (A := list hval)); intro vs; apply (stable_and _ _ (length vs = n_args a /\ v = match vs with [] => HNative n | _ => HPartial (HNative n) vs end)); intro; apply (HA vs)].
    intros s s'. rewrite ev_call. split.
    + intros (vs & (Hl & ->) & H). exists (HNative n), s, vs, s'. rewrite ev_const, call_partial by lia. auto.
    + intros (fv & s1 & vs & s2 & H & K & J). apply ev_const in H as [-> ->]. pose proof (args_length _ _ _ _ _ NS K) as Hl. rewrite call_partial in J by lia. destruct J as [-> ->]. exists vs. auto.
  - (* compose *) intros a IHa f IHf. pu. destruct (is_partial f 1) eqn:Pa; [|discriminate]. rewrite pmin_none. intros [Nf Na] fr v.
    destruct f as [h| | | | | | | | | | | | | | | | ]; try discriminate. destruct h; try discriminate. cbn [is_partial] in Pa. apply Nat.ltb_lt in Pa.
    specialize (IHa Na fr). pu. rewrite !andb_true_r.
    eapply stable_ext; [|apply (stable_ex (A := hval)); intro x; apply (stable_and _ _ (v = HPartial (HNative n) [x])); intro; apply (IHa x)].
    intros s s'. rewrite ev_compose. split.
    + intros (x & -> & H). exists x, s', (HNative n), s'. rewrite ev_const, call_partial by (cbn; lia). auto.
    + intros (x & s1 & fv & s2 & H & K & J). apply ev_const in K as [-> ->]. rewrite call_partial in J by (cbn; lia). destruct J as [-> ->]. exists x. auto.
  - (* operators *) intros p a IHa N fr v.
    assert (N' : is_none (purity_args a) = false) by (destruct p; try discriminate; exact N).
    destruct (IHa N') as (_ & HP & _). pu.
    assert (I : forall vs w, length vs = prim_arity p -> immediate (p_op P p vs w)).
    { intros vs w E. destruct p; try discriminate.
      - destruct vs as [|x [|]]; try discriminate. apply (lw_op1 _ _ _ _ _ LW).
      - destruct vs as [|x [|y [|]]]; try discriminate. apply (lw_op2 _ _ _ _ _ LW). }
    eapply stable_ext; [intros; symmetry; apply ev_prim|]. apply stable_ex. intro vs.
    eapply stable_ext; [|apply (stable_and _ _ (length vs = prim_arity p)); intro Hl; apply (stable_weaken (heap_free_args a && false) (closure_free_args a && true)); [|discriminate|now rewrite andb_true_r]; apply (stable_seq _ _ _ _ _ _ (HP fr vs) (tree_imm (p_op P p vs) true (fun w => I vs w Hl) v))].
    intros s s'. split; [intros (Hl & s1 & H & K); eauto|intros (s1 & H & Hl & K); eauto].
  - (* swapped *) intros o l IHl r IHr. pu. rewrite pmin_none. intros [Nl Nr] fr v.
    eapply stable_ext; [intros; symmetry; apply ev_swap|]. apply stable_ex. intro y. 
    eapply stable_ext; [|apply (stable_ex (A := hval)); intro x; apply (stable_weaken (heap_free r && (heap_free l && false)) (closure_free r && (closure_free l && true))); [apply (stable_seq _ _ _ _ _ _ (IHr Nr fr y) (stable_seq _ _ _ _ _ _ (IHl Nl fr x) (tree_imm (p_op P (PBinary o) [x; y]) true (fun w => lw_op2 _ _ _ _ _ LW o x y w) v)))|discriminate|]].
    + intros s s'. split; [intros (x & s1 & H & s2 & K & J); eauto 10|intros (s1 & x & s2 & H & K & J); eauto 10].
    + rewrite andb_true_r. intro E. now rewrite andb_comm.
  - intros; discriminate.
  - (* literal *) intros t a IHa N fr v. destruct (IHa N) as (_ & _ & HL). pu.
    eapply stable_ext; [intros; symmetry; apply ev_lit|]. apply stable_ex. intro l.
    eapply stable_ext; [|apply (stable_weaken (false && false) (closure_free_args a && true)); [|discriminate|now rewrite andb_true_r]; apply (stable_seq _ _ _ _ _ _ (HL fr (l_new P t (n_args a)) [] l) (stable_world true (fun w w' => l_end P l w = (w', v))))].
    intros s s'. split; [intros (s1 & H & w & K & J); eauto|intros (s1 & w & H & K & J); eauto].
  - (* and *) intros a IHa b IHb. pu. rewrite pmin_none. intros [Na Nb] fr v.
    eapply stable_ext; [intros; symmetry; apply ev_and|]. apply stable_ex. intro x.
    apply (stable_weaken (heap_free a && false) (closure_free a && closure_free b)); [|discriminate|auto].
    apply (stable_seq _ _ _ _ _ (fun s1 s' => if p_bool P (sworld P s1) x then ev fr b s1 v s' else v = x /\ s' = s1) (IHa Na fr x)).
    intros s s' H. destruct (p_bool P (sworld P s) x) eqn:B.
    + destruct (IHb Nb fr v _ _ H) as ((K1 & K2 & _ & K4) & _ & E). split; [repeat split; auto; discriminate|]. split; [discriminate|]. intros C es. cbn. rewrite B. auto.
    + destruct H as [-> ->]. split; [apply keep_refl|]. split; [discriminate|]. intros C es. cbn. rewrite B. auto.
  - (* or *) intros a IHa b IHb. pu. rewrite pmin_none. intros [Na Nb] fr v.
    eapply stable_ext; [intros; symmetry; apply ev_or|]. apply stable_ex. intro x.
    apply (stable_weaken (heap_free a && false) (closure_free a && closure_free b)); [|discriminate|auto].
    apply (stable_seq _ _ _ _ _ (fun s1 s' => if p_bool P (sworld P s1) x then v = x /\ s' = s1 else ev fr b s1 v s') (IHa Na fr x)).
    intros s s' H. destruct (p_bool P (sworld P s) x) eqn:B.
    + destruct H as [-> ->]. split; [apply keep_refl|]. split; [discriminate|]. intros C es. cbn. rewrite B. auto.
    + destruct (IHb Nb fr v _ _ H) as ((K1 & K2 & _ & K4) & _ & E). split; [repeat split; auto; discriminate|]. split; [discriminate|]. intros C es. cbn. rewrite B. auto.
  - (* if *) intros c IHc a IHa b IHb. pu. rewrite !pmin_none. intros [[Nc Na] Nb] fr v.
    eapply stable_ext; [intros; symmetry; apply ev_if|]. apply stable_ex. intro x.
    apply (stable_weaken (heap_free c && false) (closure_free c && (closure_free a && closure_free b))); [|discriminate|now rewrite andb_assoc].
    apply (stable_seq _ _ _ _ _ (fun s1 s' => if p_bool P (sworld P s1) x then ev fr a s1 v s' else ev fr b s1 v s') (IHc Nc fr x)).
    intros s s' H. destruct (p_bool P (sworld P s) x) eqn:B.
    + destruct (IHa Na fr v _ _ H) as ((K1 & K2 & _ & K4) & _ & E). split; [split; [|split; [|split]]; auto; [discriminate|rewrite andb_true_iff; intros []; auto]|]. split; [discriminate|].
      rewrite andb_true_iff. intros [C _] es. cbn. rewrite B. auto.
    + destruct (IHb Nb fr v _ _ H) as ((K1 & K2 & _ & K4) & _ & E). split; [split; [|split; [|split]]; auto; [discriminate|rewrite andb_true_iff; intros []; auto]|]. split; [discriminate|].
      rewrite andb_true_iff. intros [_ C] es. cbn. rewrite B. auto.
  - intros; discriminate.
  - intros; discriminate.
  - intros; discriminate.
  - (* no arguments *) intros _. split; [|split].
    + intros _ fr vs. eapply stable_ext; [intros; symmetry; apply args_nil|]. apply stable_and. intro; apply stable_id.
    + intros fr vs. eapply stable_ext; [intros; symmetry; apply plain_nil|]. apply stable_and. intro; apply stable_id.
    + intros fr l p x. eapply stable_ext; [intros; symmetry; apply lit_nil|]. intros s s' [-> ->]. split; [apply keep_refl|]. split; [discriminate|]. auto.
  - (* arguments *) intros sp e IHe r IHr. pu. cbn [any_spread]. rewrite pmin_none. intros [Ne Nr].
    destruct (IHr Nr) as (HA & HP & HL). specialize (IHe Ne). split; [|split].
    + intros S fr vs. destruct sp; [discriminate|]. specialize (HA S).
      eapply stable_ext; [|apply (stable_ex (A := hval)); intro v; apply (stable_ex (A := list hval)); intro t; apply (stable_and _ _ (vs = v :: t)); intro; apply (stable_seq _ _ _ _ _ _ (IHe fr v) (HA fr t))].
      intros s s'. rewrite args_plain. split; [intros (v & t & -> & s1 & H & K); eauto 10|intros (v & s1 & t & H & K & ->); eauto 10].
    + intros fr vs. destruct sp; [intros s s' H; apply plain_spread in H; tauto|].
      eapply stable_ext; [|apply (stable_ex (A := hval)); intro v; apply (stable_ex (A := list hval)); intro t; apply (stable_and _ _ (vs = v :: t)); intro; apply (stable_seq _ _ _ _ _ _ (IHe fr v) (HP fr t))].
      intros s s'. rewrite plain_cons. split; [intros (v & t & -> & s1 & H & K); eauto 10|intros (v & s1 & t & H & K & ->); eauto 10].
    + intros fr l p x. destruct sp.
      * intros s s' H. apply lit_spread in H as (v & s1 & w & l' & H & E & K).
        destruct (IHe fr v _ _ H) as ((A1 & A2 & A3 & A4) & _ & A6), (HL fr l' [] x _ _ K) as ((B1 & B2 & B3 & B4) & _ & B6).
        split; [split; [|split; [|split]]; [cbn in B1; congruence|cbn in B2; congruence|discriminate|rewrite andb_true_iff; intros []; rewrite B4 by auto; cbn; auto]|]. split; [discriminate|].
        rewrite andb_true_iff. intros [C1 C2] es. apply lit_spread. exists v, (with_envs es s1), w, l'. split; [auto|]. split; [exact E|]. exact (B6 C2 es).
      * eapply stable_ext; [|apply (stable_ex (A := hval)); intro v; apply (stable_weaken (heap_free e && false) (closure_free e && closure_free_args r)); [apply (stable_seq _ _ _ _ _ _ (IHe fr v) (HL fr l (p ++ [v]) x))|discriminate|auto]].
        intros s s'. rewrite lit_plain. split; [intros (v & s1 & H & K); eauto|intros (v & s1 & H & K); eauto].
Qed.

(** a constant, or a partially applied builtin of such: the same everywhere *)
Definition fixE (e : expr) : Prop := is_strong (purity e) = true -> heap_free e = true -> closure_free e = true ->
  forall fr s v s', ev fr e s v s' -> s' = s /\ forall fr' s2, ev fr' e s2 v s2.
Definition fixA (a : args) : Prop := is_strong (purity_args a) = true -> heap_free_args a = true -> closure_free_args a = true -> any_spread a = false ->
  forall fr s vs s', argsE fr a s vs s' -> s' = s /\ forall fr' s2, argsE fr' a s2 vs s2.
Lemma fix_all : (forall e, fixE e) /\ (forall a, fixA a) /\ (forall c : cmps, True).
Proof.
  apply expr_all; try (intros; exact Logic.I); unfold fixE, fixA; try (intros; discriminate).
  - intros h _ _ _ fr s v s' H. apply ev_const in H as [-> ->]. split; auto. intros. now apply ev_const.
  - intros _ _ _ fr s v s' H. apply ev_quit in H. tauto.
  - intros f e IH N. cbn [purity] in N. destruct e; discriminate.
  - intros f IHf a IHa. pu. destruct (any_spread a) eqn:NS; [discriminate|].
    destruct (is_partial f (n_args a)) eqn:Pa; [|discriminate]. rewrite pmin_strong, !andb_true_iff. intros [Nf Na] [Hf Ha] [Cf Ca] fr s v s' H.
    destruct f as [h| | | | | | | | | | | | | | | | ]; try discriminate. destruct h; try discriminate. cbn [is_partial] in Pa. apply Nat.ltb_lt in Pa.
    apply ev_call in H as (fv & s1 & vs & s2 & H & K & J). apply ev_const in H as [-> ->]. pose proof (args_length _ _ _ _ _ NS K) as Hl.
    rewrite call_partial in J by lia. destruct J as [-> ->]. destruct (IHa Na Ha Ca eq_refl _ _ _ _ K) as [-> X]. split; auto. intros fr' s2.
    apply ev_call. exists (HNative n), s2, vs, s2. rewrite ev_const, call_partial by lia. auto.
  - intros a IHa f IHf. pu. destruct (is_partial f 1) eqn:Pa; [|discriminate]. rewrite pmin_strong, !andb_true_iff. intros [Nf Na] [Ha Hf] [Ca Cf] fr s v s' H.
    destruct f as [h| | | | | | | | | | | | | | | | ]; try discriminate. destruct h; try discriminate. cbn [is_partial] in Pa. apply Nat.ltb_lt in Pa.
    apply ev_compose in H as (x & s1 & fv & s2 & H & K & J). apply ev_const in K as [-> ->]. 
    rewrite call_partial in J by (cbn; lia). destruct J as [-> ->]. destruct (IHa Na Ha Ca _ _ _ _ H) as [-> X]. split; auto. intros fr' s2.
    apply ev_compose. exists x, s2, (HNative n), s2. rewrite ev_const, call_partial by (cbn; lia). auto.
  - intros _ _ _ _ fr s vs s' H. apply args_nil in H as [-> ->]. split; auto. intros. now apply args_nil.
  - intros sp e IHe r IHr. pu. cbn [any_spread]. rewrite pmin_strong, !andb_true_iff. intros [Ne Nr] [He Hr] [Ce Cr] S fr s vs s' H.
    destruct sp; [discriminate|]. apply args_plain in H as (v & s1 & t & H & K & ->). destruct (IHe Ne He Ce _ _ _ _ H) as [-> X], (IHr Nr Hr Cr S _ _ _ _ K) as [-> Y].
    split; auto. intros fr' s2. apply args_plain. eauto 10.
Qed.

(** ** Reordering *)
Definition comm (a b : expr) : Prop := forall fr s x s1 y s2, ev fr a s x s1 -> ev fr b s1 y s2 -> exists s1', ev fr b s y s1' /\ ev fr a s1' x s2.
Lemma st_eta (s : st) : s = St P (store P s) (senvs P s) (globals P s) (sworld P s). Proof. now destruct s. Qed.
Lemma comm_pure a b : is_none (purity a) = false -> is_none (purity b) = false ->
  (heap_free a || heap_free b) && (closure_free a || closure_free b) = true -> comm a b.
Proof.
  intros Na Nb C fr s x s1 y s2 H J. destruct (proj1 pure_all a Na fr x _ _ H) as ((A1 & A2 & A3 & A4) & TA & EA), (proj1 pure_all b Nb fr y _ _ J) as ((B1 & B2 & B3 & B4) & TB & EB).
  destruct s as [st0 es0 g0 w0], s1 as [st1 es1 g1 w1], s2 as [st2 es2 g2 w2]. cbn in *. subst st1 st2 g1 g2.
  apply andb_true_iff in C as [C1 C2]. apply orb_true_iff in C1, C2. destruct C1 as [Ha|Hb], C2 as [Ca|Cb].
  - specialize (A3 Ha). specialize (A4 Ca). subst. exists (St P st0 es2 g0 w2). split; [exact J|].
    specialize (TA Ha w2). cbn in TA. destruct (proj1 pure_all a Na fr x _ _ TA) as (_ & _ & EA'). exact (EA' Ca es2).
  - specialize (A3 Ha). specialize (B4 Cb). subst. exists (St P st0 es0 g0 w2). split; [exact (EB Cb es0)|exact (TA Ha w2)].
  - specialize (B3 Hb). specialize (A4 Ca). subst. exists (St P st0 es2 g0 w0). split; [exact (TB Hb w0)|exact (EA Ca es2)].
  - specialize (B3 Hb). specialize (B4 Cb). subst. exists (St P st0 es0 g0 w0). split; [|exact H].
    specialize (TB Hb w0). cbn in TB. destruct (proj1 pure_all b Nb fr y _ _ TB) as (_ & _ & EB'). exact (EB' Cb es0).
Qed.
Lemma comm_fix_l a b : is_strong (purity a) = true -> heap_free a = true -> closure_free a = true -> comm a b.
Proof. intros S H C fr s x s1 y s2 E F. destruct (proj1 fix_all a S H C _ _ _ _ E) as [-> X]. exists s2. auto. Qed.
Lemma comm_fix_r a b : is_strong (purity b) = true -> heap_free b = true -> closure_free b = true -> comm a b.
Proof. intros S H C fr s x s1 y s2 E F. destruct (proj1 fix_all b S H C _ _ _ _ F) as [-> X]. exists s. auto. Qed.
Lemma careful_comm a b : careful a b = true -> comm a b /\ comm b a.
Proof.
  unfold OptSpec.careful. destruct (is_none (purity a)) eqn:Na.
  - rewrite !andb_true_iff. intros [[S H] C]. split; [now apply comm_fix_r|now apply comm_fix_l].
  - destruct (is_none (purity b)) eqn:Nb.
    + rewrite !andb_true_iff. intros [[S H] C]. split; [now apply comm_fix_l|now apply comm_fix_r].
    + intro C. split; apply comm_pure; auto. now rewrite orb_comm, (orb_comm (closure_free b)).
Qed.
End opt.
