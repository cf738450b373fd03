(** Two codes that agree up to positions and merged instructions behave alike. *)
From Verif Require Import Base Native Err Vm VmProofs Graph GraphSpec GraphProofs Peep PeepSpec.
Local Open Scope nat_scope.

Lemma Forall2_length {A B} (R : A -> B -> Prop) l l' : Forall2 R l l' -> length l = length l'.
Proof. induction 1; simpl; congruence. Qed.

Section psim.
Context (P : prims).
Local Notation vm := (vm P).
Local Notation effect := (effect P).

Definition R (q : nat) (fr : list (nat * nat)) (m : vm) : vm := set_ip P q (set_frames P fr m).
Definition eff_map (g : vm -> vm) (e : effect) : effect :=
  match e with
  | Go _ m => Go P (g m) | Fail _ e w => Fail P e w | Ret _ m => Ret P (g m)
  | Run _ t m => Run P t (g m) | Invoke _ k m => Invoke P k (g m) | Stuck _ => Stuck P
  end.
(** the machine part of an effect keeps ip and frames *)
Definition keeps (m : vm) (e : effect) : Prop :=
  match e with
  | Go _ m' | Run _ _ m' | Invoke _ _ m' => ip P m' = ip P m /\ frames P m' = frames P m
  | Ret _ _ => False
  | _ => True
  end.
Definition same_fps (fr fr' : list (nat * nat)) : Prop := map snd fr = map snd fr'.

Lemma fp_R q fr m : same_fps fr (frames P m) -> fp P (R q fr m) = fp P m.
Proof. unfold same_fps, fp. destruct m; simpl. destruct fr as [|[a b] fr], frames as [|[c d] frs]; simpl; intro H; try discriminate; auto. now injection H. Qed.

Ltac dm := repeat match goal with
  | |- context [match ?x with _ => _ end] => lazymatch x with context [match _ with _ => _ end] => fail | _ => destruct x eqn:? end
  end.

Lemma step_R o m q fr : same_fps fr (frames P m) -> is_jump o = false -> is_final o = false ->
  step P o (R q fr m) = eff_map (R q fr) (step P o m) /\ keeps m (step P o m).
Proof.
  intros Hf Hj Hfin. pose proof (fp_R q fr m Hf) as Efp.
  destruct m as [ip0 st frs ls us gc ops cs es w]. unfold fp in Efp. cbn in Efp.
  destruct o; simpl in Hj, Hfin; try discriminate; repeat match goal with b : bool |- _ => destruct b end.
  all: try match goal with |- context [OUnroll] => 
    cbn [step]; unfold pop1; lazy -[rev app p_unroll Z.add Z.sub Z.of_nat length];
    destruct (rev st) as [|v r]; [lazy; auto|]; lazy -[rev app p_unroll Z.add Z.sub Z.of_nat length];
    destruct (p_unroll P v w) as [w' [e|l]]; [lazy; auto|]; destruct us; lazy -[rev app p_unroll Z.add Z.sub Z.of_nat length]; auto end.
  all: abstract (
    unfold step, with_top, pop1, store_local, store_global, store_up, up_cell, fp;
    unfold R, set_ip, set_frames, set_stack, set_lits, set_unrolls, set_gcount, set_opens, set_cells, set_envs, set_world, push;
    cbn [stack frames lits unrolls gcount opens cells envs world ip]; rewrite ?Efp; dm; cbn; auto).
Qed.
Lemma self_R o m q fr : same_fps fr (frames P m) -> self_store P o (R q fr m) = self_store P o m.
Proof.
  intro Hf. pose proof (fp_R q fr m Hf) as Efp. destruct o; simpl; auto; unfold up_cell; rewrite ?Efp; destruct m; reflexivity.
Qed.
Lemma sstep_R o m q fr : same_fps fr (frames P m) -> is_jump o = false -> is_final o = false ->
  strict_step P o (R q fr m) = eff_map (R q fr) (strict_step P o m) /\ keeps m (strict_step P o m).
Proof.
  intros. unfold strict_step. rewrite self_R by auto. destruct (self_store P o m); [simpl; auto|]. now apply step_R.
Qed.

(** branches: what is decided does not depend on the offset *)
Definition br_dec (ty : brtype) (m : vm) : option (bool * vm) :=
  match ty with
  | BrJump => Some (true, m)
  | BrTrue => match rev (stack P m) with v :: _ => Some (p_bool P (world P m) v, m) | [] => None end
  | BrFalse => match rev (stack P m) with v :: _ => Some (negb (p_bool P (world P m) v), m) | [] => None end
  | BrTruePop => match rev (stack P m) with v :: r => Some (p_bool P (world P m) v, set_stack P (rev r) m) | [] => None end
  | BrFalsePop => match rev (stack P m) with v :: r => Some (negb (p_bool P (world P m) v), set_stack P (rev r) m) | [] => None end
  | BrTestIter => match rev (stack P m) with
                     | v :: _ => let '(w, o) := p_next P v (world P m) in
                       match o with Some x => Some (false, push P x (set_world P w m)) | None => Some (true, set_world P w m) end
                     | [] => None end
  | BrAssertTest => match rev (stack P m) with
                     | v :: r => if p_bool P (world P m) v then Some (true, set_stack P (rev r) m) else Some (false, push P HNil (set_stack P (rev r) m))
                     | [] => None end
  | BrCompare c => match rev (stack P m) with
                     | rhs :: r => match rev (rev r) with
                        | lhs :: r' => if p_compare P (world P m) c lhs rhs then Some (false, push P rhs (set_stack P (rev r') m))
                                       else Some (true, push P (HBool false) (set_stack P (rev r') m))
                        | [] => None end
                     | [] => None end
  | BrAssertCompare c => match rev (stack P m) with
                     | rhs :: r => match rev (rev r) with
                        | lhs :: r' => if p_compare P (world P m) c lhs rhs then Some (true, set_stack P (rev r') m)
                                       else let '(w, msg) := p_compare_msg P (world P m) c lhs rhs in Some (false, push P msg (set_world P w (set_stack P (rev r') m)))
                        | [] => None end
                     | [] => None end
  end.
Lemma step_br ty z m : step P (brop ty z) m =
  match br_dec ty m with None => Stuck P | Some (true, m') => Go P (jump P z m') | Some (false, m') => Go P m' end.
Proof.
  unfold br_dec. destruct m as [ip0 st frs ls us gc ops cs es w].
  destruct ty; unfold step, brop, with_top, pop1, set_stack, set_world, push; cbn [stack world set_stack frames lits unrolls gcount opens cells envs ip];
    dm; try discriminate; try reflexivity; try congruence;
    repeat match goal with H : (_, _) = (_, _) |- _ => injection H as ? ?; subst end; try congruence;
    repeat match goal with H : negb _ = _ |- _ => apply (f_equal negb) in H; rewrite Bool.negb_involutive in H; simpl in H end; try congruence.
Qed.

Lemma br_dec_R ty m q fr : br_dec ty (R q fr m) = match br_dec ty m with None => None | Some (b, m') => Some (b, R q fr m') end.
Proof.
  destruct m as [ip0 st frs ls us gc ops cs es w].
  destruct ty; unfold br_dec, R, set_ip, set_frames, set_stack, set_world, push; cbn [stack world frames lits unrolls gcount opens cells envs ip];
    dm; try discriminate; try reflexivity; congruence.
Qed.
Lemma br_dec_keeps ty m b m' : br_dec ty m = Some (b, m') -> ip P m' = ip P m /\ frames P m' = frames P m.
Proof.
  destruct m as [ip0 st frs ls us gc ops cs es w].
  destruct ty; unfold br_dec, set_stack, set_world, push; cbn [stack world frames lits unrolls gcount opens cells envs ip];
    dm; intro H; try discriminate; injection H as <- <-; auto.
Qed.
Lemma sstep_br ty z m : strict_step P (brop ty z) m = step P (brop ty z) m.
Proof. unfold strict_step. destruct ty; reflexivity. Qed.

(** ** Stores followed by pops and loads *)
Inductive store_load : op -> op -> Prop :=
| sl_global i : store_load (OStoreGlobal i false) (OPushGlobal i)
| sl_local i : store_load (OStoreLocal i false) (OPushLocal i)
| sl_up i : store_load (OStoreUp i) (OPushUp i).
Inductive store_pop : op -> op -> Prop :=
| sp_global i : store_pop (OStoreGlobal i false) (OStoreGlobal i true)
| sp_local i : store_pop (OStoreLocal i false) (OStoreLocal i true).

Lemma nth_upd {A} (l : list A) i j x : nth_error (upd l i x) j = if (i =? j) && (i <? length l) then Some x else nth_error l j.
Proof.
  revert i j. induction l as [|a l IH]; intros [|i] [|j]; simpl; auto.
  - now rewrite Bool.andb_false_r.
  - rewrite IH. reflexivity.
Qed.
Lemma upd_snoc {A} (l : list A) i x (y : A) : i < length l -> upd (l ++ [y]) i x = upd l i x ++ [y].
Proof. apply upd_app1. Qed.
Lemma rev_cons_inv {A} (l : list A) v r : rev l = v :: r -> l = rev r ++ [v].
Proof. intro H. rewrite <- (rev_involutive l), H. reflexivity. Qed.

(** the three instructions against the one *)
Lemma store_load_ok o1 o3 m m1 m2 m3 q1 q2 q3 : store_load o1 o3 ->
  strict_step P o1 (set_ip P q1 m) = Go P m1 -> strict_step P OPop (set_ip P q2 m1) = Go P m2 ->
  strict_step P o3 (set_ip P q3 m2) = Go P m3 -> m3 = set_ip P q3 m1.
Proof.
  intro H. destruct m as [ip0 st frs ls us gc ops cs es w].
  destruct H as [i|i|i]; unfold strict_step, self_store, step, with_top, pop1, store_local, store_global, store_up, up_cell, fp;
   unfold set_ip, set_frames, set_stack, set_lits, set_unrolls, set_gcount, set_opens, set_cells, set_envs, set_world, push;
   cbn [stack frames lits unrolls gcount opens cells envs world ip];
   destruct (rev st) as [|v r] eqn:Er; try (dm; discriminate); apply rev_cons_inv in Er; subst st; rewrite app_length; cbn [length].
  - destruct (i <? gc) eqn:Eg; cbn [andb]; [|discriminate].
    destruct (Nat.eqb_spec (S i) (length (rev r) + 1)); [discriminate|]. destruct (Nat.ltb_spec i (length (rev r) + 1)); [|discriminate].
    intros H1 H2. injection H1 as <-. cbn [stack frames lits unrolls gcount opens cells envs world ip] in *.
    rewrite upd_snoc in H2 by lia. rewrite rev_app_distr in H2. simpl in H2. injection H2 as <-.
    cbn [stack frames lits unrolls gcount opens cells envs world ip]. rewrite Eg, rev_involutive, nth_upd, Nat.eqb_refl.
    replace (i <? length (rev r)) with true by (symmetry; apply Nat.ltb_lt; lia). simpl. intro H3. injection H3 as <-.
    rewrite upd_snoc by lia. reflexivity.
  - set (f := match frs with [] => 0 | (_, p) :: _ => p end).
    destruct (Nat.eqb_spec (S (f + i)) (length (rev r) + 1)); [discriminate|].
    destruct (Nat.ltb_spec (f + i) (length (rev r) + 1)); [|discriminate].
    intros H1 H2. injection H1 as <-. cbn [stack frames lits unrolls gcount opens cells envs world ip] in *.
    rewrite upd_snoc in H2 by lia. rewrite rev_app_distr in H2. simpl in H2. injection H2 as <-.
    cbn [stack frames lits unrolls gcount opens cells envs world ip]. fold f. rewrite rev_involutive, nth_upd, Nat.eqb_refl.
    replace (f + i <? length (rev r)) with true by (symmetry; apply Nat.ltb_lt; lia). simpl. intro H3. injection H3 as <-.
    rewrite upd_snoc by lia. reflexivity.
  - destruct frs as [|[ret f] frs]; [discriminate|]. destruct f as [|b]; [discriminate|].
    destruct (nth_error (rev r ++ [v]) b) as [c|] eqn:Eb; [|discriminate].
    destruct c as [| | |cf ce| | | | |]; try discriminate.
    destruct (nth_error es ce) as [ev|] eqn:Ee; [|discriminate].
    destruct (nth_error ev i) as [k|] eqn:Ek; [|discriminate].
    destruct (nth_error cs k) as [[s0|v0]|] eqn:Ec; [| |discriminate].
    + destruct (Nat.eqb_spec (S s0) (length (rev r) + 1)); [discriminate|].
      destruct (Nat.eqb_spec (S s0) (S b)); [discriminate|]. simpl orb. cbn match.
      destruct (Nat.ltb_spec s0 (length (rev r) + 1)); [|discriminate].
      intros H1 H2. injection H1 as <-. cbn [stack frames lits unrolls gcount opens cells envs world ip] in *.
      rewrite upd_snoc in H2 by lia. rewrite rev_app_distr in H2. simpl in H2. injection H2 as <-.
      cbn [stack frames lits unrolls gcount opens cells envs world ip].
      rewrite rev_involutive. 
      destruct (nth_error (upd (rev r) s0 v) b) as [c2|] eqn:Eb2; [|discriminate].
      assert (c2 = HClosure cf ce).
      { rewrite nth_upd in Eb2. destruct (Nat.eqb_spec s0 b); [lia|]. simpl in Eb2.
        assert (b < length (rev r)) by (apply nth_error_Some; congruence).
        rewrite nth_error_app1 in Eb by auto. congruence. }
      subst c2. rewrite Ee, Ek, Ec. rewrite nth_upd, Nat.eqb_refl.
      replace (s0 <? length (rev r)) with true by (symmetry; apply Nat.ltb_lt; lia). simpl. intro H3. injection H3 as <-.
      rewrite upd_snoc by lia. reflexivity.
    + intros H1 H2. injection H1 as <-. cbn [stack frames lits unrolls gcount opens cells envs world ip] in *.
      rewrite rev_app_distr in H2. simpl in H2. injection H2 as <-.
      cbn [stack frames lits unrolls gcount opens cells envs world ip]. rewrite rev_involutive.
      destruct (nth_error (rev r) b) as [c2|] eqn:Eb2; [|discriminate].
      assert (c2 = HClosure cf ce).
      { assert (b < length (rev r)) by (apply nth_error_Some; congruence).
        rewrite nth_error_app1 in Eb by auto. congruence. }
      subst c2. rewrite Ee, Ek, nth_upd, Nat.eqb_refl.
      assert (k < length cs) as Hk by (apply nth_error_Some; congruence). apply Nat.ltb_lt in Hk. rewrite Hk. simpl.
      intro H3. injection H3 as <-. reflexivity.
Qed.

Ltac vmcbn := unfold set_ip, set_frames, set_stack, set_lits, set_unrolls, set_gcount, set_opens, set_cells, set_envs, set_world, push in *;
   cbn [stack frames lits unrolls gcount opens cells envs world ip] in *.

Lemma store_load_shape o1 o3 m m1 m2 q1 q2 q3 : store_load o1 o3 ->
  strict_step P o1 (set_ip P q1 m) = Go P m1 -> strict_step P OPop (set_ip P q2 m1) = Go P m2 ->
  match strict_step P o3 (set_ip P q3 m2) with Go _ _ | Stuck _ => True | _ => False end.
Proof.
  intro H. destruct m as [ip0 st frs ls us gc ops cs es w].
  destruct H as [i|i|i]; [| unfold strict_step, step; vmcbn; dm; auto | unfold strict_step, step; vmcbn; dm; auto].
  unfold strict_step, self_store, step, with_top, pop1, store_global; vmcbn.
  destruct (rev st) as [|v r] eqn:Er; [dm; discriminate|]. destruct (i <? gc) eqn:Eg; cbn [andb]; [|discriminate].
  destruct (S i =? length st); [discriminate|]. destruct (i <? length st); [|discriminate].
  intros H1 H2. injection H1 as <-. vmcbn. destruct (rev (upd st i v)); [discriminate|]. injection H2 as <-. vmcbn. rewrite Eg.
  dm; auto.
Qed.
Lemma store_shape o1 m : (exists o, store_load o1 o) \/ (exists o, store_pop o1 o) ->
  match strict_step P o1 m with Go _ m' => ip P m' = ip P m /\ frames P m' = frames P m | Fail _ _ _ | Stuck _ => True | _ => False end.
Proof.
  intros [[o H]|[o H]]; destruct m as [ip0 st frs ls us gc ops cs es w]; destruct H;
    unfold strict_step, self_store, step, with_top, pop1, store_local, store_global, store_up, up_cell; vmcbn; dm; auto.
Qed.
Lemma pop_shape m : match strict_step P OPop m with Go _ m' => exists v, stack P m = stack P m' ++ [v] /\ m' = set_stack P (stack P m') m | Stuck _ => True | _ => False end.
Proof.
  destruct m as [ip0 st frs ls us gc ops cs es w]. unfold strict_step, step, pop1; cbn [self_store]; vmcbn.
  destruct (rev st) as [|v r] eqn:Er; auto. exists v. apply rev_cons_inv in Er. auto.
Qed.
Lemma pop_go m v st : stack P m = st ++ [v] -> strict_step P OPop m = Go P (set_stack P st m).
Proof.
  intro H. unfold strict_step, step, pop1; cbn [self_store]. rewrite H, rev_app_distr. simpl. now rewrite rev_involutive.
Qed.

Lemma store_pop_ok o1 o2 m m1 m2 q1 q2 : store_pop o1 o2 ->
  strict_step P o1 (set_ip P q1 m) = Go P m1 -> strict_step P OPop (set_ip P q2 m1) = Go P m2 ->
  strict_step P o2 (set_ip P q2 m) = Go P m2.
Proof.
  intro H. destruct m as [ip0 st frs ls us gc ops cs es w].
  destruct H as [i|i]; unfold strict_step, self_store, step, with_top, pop1, store_local, store_global, fp; vmcbn;
   destruct (rev st) as [|v r] eqn:Er; try (dm; discriminate); apply rev_cons_inv in Er; subst st; rewrite app_length; cbn [length].
  - destruct (i <? gc) eqn:Eg; cbn [andb]; [|discriminate].
    destruct (Nat.eqb_spec (S i) (length (rev r) + 1)); [discriminate|]. destruct (Nat.ltb_spec i (length (rev r) + 1)); [|discriminate].
    intros H1 H2. injection H1 as <-. vmcbn. rewrite upd_snoc, rev_app_distr in H2 by lia. simpl in H2. injection H2 as <-.
    rewrite ?Eg. replace (i <? length (rev r)) with true by (symmetry; apply Nat.ltb_lt; lia). now rewrite rev_involutive.
  - set (f := match frs with [] => 0 | (_, p) :: _ => p end).
    destruct (Nat.eqb_spec (S (f + i)) (length (rev r) + 1)); [discriminate|].
    destruct (Nat.ltb_spec (f + i) (length (rev r) + 1)); [|discriminate].
    intros H1 H2. injection H1 as <-. vmcbn. rewrite upd_snoc, rev_app_distr in H2 by lia. simpl in H2. injection H2 as <-.
    replace (f + i <? length (rev r)) with true by (symmetry; apply Nat.ltb_lt; lia). now rewrite rev_involutive.
Qed.
Lemma store_pop_fail o1 o2 m e w q1 q2 : store_pop o1 o2 ->
  strict_step P o1 (set_ip P q1 m) = Fail P e w -> strict_step P o2 (set_ip P q2 m) = Fail P e w.
Proof.
  intro H. destruct m as [ip0 st frs ls us gc ops cs es w0].
  destruct H as [i|i]; unfold strict_step, self_store, step, with_top, pop1, store_local, store_global, fp; vmcbn;
  destruct (rev st) as [|v r]; dm; intros; try discriminate; auto.
Qed.
Lemma popn_go m l st n : stack P m = st ++ l -> length l = n -> strict_step P (OPopN n) m = Go P (set_stack P st m).
Proof.
  intros H Hn. unfold strict_step, step; cbn [self_store]. rewrite H, app_length.
  replace (n <=? length st + length l) with true by (symmetry; apply Nat.leb_le; lia).
  do 3 f_equal. unfold below. rewrite app_length. replace (length st + length l - n) with (length st) by lia.
  rewrite firstn_app, Nat.sub_diag, firstn_all. simpl. now rewrite app_nil_r.
Qed.

Lemma ret_shape m : match strict_step P OReturn m with
  | Ret _ m' => exists ret p fr1, frames P m = (ret, p) :: fr1 /\ ip P m' = ret /\ frames P m' = fr1 /\
      forall q ret2 fr2, strict_step P OReturn (R q ((ret2, p) :: fr2) m) = Ret P (R ret2 fr2 m')
  | Stuck _ => True | _ => False end.
Proof.
  assert (E : forall x, strict_step P OReturn x = step P OReturn x) by reflexivity.
  rewrite E. destruct m as [ip0 st frs ls us gc ops cs es w].
  destruct (step P OReturn _) as [ | |m'| | |] eqn:S0; auto; unfold step in S0; vmcbn;
  destruct frs as [|[ret [|b]] frs]; try discriminate; destruct (rev st) as [|v r0] eqn:Er; try discriminate; destruct (b <? length st - 1) eqn:Eb; try discriminate.
  injection S0 as <-. exists ret, (S b), frs. repeat (split; [reflexivity|]). intros. rewrite E. unfold step, R; vmcbn. rewrite Er, Eb. reflexivity.
Qed.
Lemma final_shape o m q fr : is_final o = true -> o <> OReturn -> match strict_step P o m with
  | Fail _ e w => strict_step P o (R q fr m) = Fail P e w | Stuck _ => True | _ => False end.
Proof.
  destruct m as [ip0 st frs ls us gc ops cs es w]. intros F D.
  destruct o; try discriminate; try congruence; unfold strict_step; cbn [self_store]; unfold step, pop1, R; vmcbn; auto.
  destruct (rev st) as [|v r]; auto. destruct (rev (rev r)); auto.
Qed.

(** ** Simulation *)
Context (C1 C2 : list op) (F1 F2 : nat -> option func) (A : nat -> nat -> Prop).

Definition to_ip (p : nat) (z : Z) : nat := Z.to_nat (Z.of_nat p + z).
Inductive prog (p q : nat) : Prop :=
| pr_same o : nth_error C1 p = Some o -> nth_error C2 q = Some o -> is_jump o = false -> (is_final o = false -> A (S p) (S q)) -> prog p q
| pr_br ty z1 z2 : nth_error C1 p = Some (brop ty z1) -> nth_error C2 q = Some (brop ty z2) ->
    A (to_ip (S p) z1) (to_ip (S q) z2) -> (ty <> BrJump -> A (S p) (S q)) -> prog p q
| pr_load o1 o3 : store_load o1 o3 -> nth_error C1 p = Some o1 -> nth_error C1 (S p) = Some OPop -> nth_error C1 (S (S p)) = Some o3 ->
    nth_error C2 q = Some o1 -> A (S (S (S p))) (S q) -> prog p q
| pr_pop o1 o2 : store_pop o1 o2 -> nth_error C1 p = Some o1 -> nth_error C1 (S p) = Some OPop -> nth_error C2 q = Some o2 ->
    A (S (S p)) (S q) -> prog p q
| pr_pops k : (forall i, i < k -> nth_error C1 (p + i) = Some OPop) -> 0 < k -> nth_error C2 q = Some (OPopN k) -> A (p + k) (S q) -> prog p q.

Hypothesis HA : forall p q, A p q -> prog p q.
Definition rel_fun (a b : option func) : Prop :=
  match a, b with
  | Some f, Some g => fn_args f = fn_args g /\ fn_variadic f = fn_variadic g /\ length (fn_defaults f) = length (fn_defaults g) /\
      forall n, match jump_offset f n, jump_offset g n with Some x, Some y => A x y | None, None => True | _, _ => False end
  | None, None => True
  | _, _ => False
  end.
Hypothesis HF : forall i, rel_fun (F1 i) (F2 i).

Definition FR (a b : list (nat * nat)) : Prop := Forall2 (fun x y => A (fst x) (fst y) /\ snd x = snd y) a b.
Lemma FR_fps a b : FR a b -> same_fps b a.
Proof. unfold same_fps. induction 1 as [|x y l l' [_ E] _ IH]; simpl; congruence. Qed.
Lemma FR_len a b : FR a b -> length a = length b.
Proof. apply Forall2_length. Qed.

Definition vrel (r1 r2 : vres P) : Prop :=
  match r1, r2 with
  | VDone _ m, VDone _ m' => exists q fr, m' = R q fr m /\ A (ip P m) q /\ FR (frames P m) fr
  | VErr _ e w, VErr _ e' w' => e = e' /\ w = w'
  | _, _ => False
  end.
Definition irel (r1 r2 : ires P) : Prop :=
  match r1, r2 with
  | INative _ m, INative _ m' | IUser _ m, IUser _ m' => exists q fr, m' = R q fr m /\ A (ip P m) q /\ FR (frames P m) fr
  | IErr _ e w, IErr _ e' w' => e = e' /\ w = w'
  | _, _ => False
  end.
Definition trel (r1 r2 : tres P) : Prop :=
  match r1, r2 with
  | TVal _ m v, TVal _ m' v' => v = v' /\ exists q fr, m' = R q fr m /\ A (ip P m) q /\ FR (frames P m) fr
  | TFail _ e w, TFail _ e' w' => e = e' /\ w = w'
  | _, _ => False
  end.

Local Notation run1 := (run P C1 F1 (strict_step P)).
Local Notation run2 := (run P C2 F2 (strict_step P)).
Local Notation inv1 := (invoke P C1 F1 (strict_step P)).
Local Notation inv2 := (invoke P C2 F2 (strict_step P)).
Local Notation tree1 := (run_tree P C1 F1 (strict_step P)).
Local Notation tree2 := (run_tree P C2 F2 (strict_step P)).

Lemma min_rel f g : fn_args f = fn_args g -> length (fn_defaults f) = length (fn_defaults g) -> min_args f = min_args g.
Proof. unfold min_args. congruence. Qed.

Lemma call_of_R k m q fr : A (ip P m) q -> FR (frames P m) fr ->
  match call_of P F1 k m, call_of P F2 k (R q fr m) with
  | CallDone _ (IStuck _), _ => True
  | CallDone _ r1, CallDone _ r2 => irel r1 r2
  | CallBuiltin _ t1 m1, CallBuiltin _ t2 m2 => t1 = t2 /\ m2 = R q fr m1 /\ ip P m1 = ip P m /\ frames P m1 = frames P m
  | _, _ => False
  end.
Proof.
  intros Ha Hfr. destruct m as [ip0 st frs ls us gc ops cs es w]. unfold call_of, R; vmcbn.
  destruct (k <? length st); [|exact I]. cbv zeta.
  assert (CF : forall h1 h2 n va st', A h1 h2 ->
    irel (IUser P (call_function P h1 n va (Vm P ip0 st' frs ls us gc ops cs es w)))
         (IUser P (call_function P h2 n va (Vm P q st' fr ls us gc ops cs es w)))).
  { intros h1 h2 n va st' Hh. unfold call_function; vmcbn. destruct va as [kk|].
    - destruct (p_vector P (top st' kk) w) as [w' v']. simpl. exists h2, ((q, length st' - n) :: fr). repeat split; auto.
      constructor; auto.
    - simpl. exists h2, ((q, length st' - n) :: fr). repeat split; auto. constructor; auto. }
  assert (RF : forall st', exists q0 fr0, Vm P q st' fr ls us gc ops cs es w = R q0 fr0 (Vm P ip0 st' frs ls us gc ops cs es w) /\
     A ip0 q0 /\ FR frs fr0) by (intro st'; exists q, fr; repeat split; auto).
  destruct (nth_error st (length st - 1 - k)) as [v|]; [|exact I].
  destruct v as [|b|f|f c|fv pargs|nt|i|i|o]; try (repeat split; reflexivity); unfold fun_of.
  1,2: pose proof (HF f) as HFf; destruct (F1 f) as [f1|], (F2 f) as [f2|]; try contradiction; try exact I;
    destruct HFf as (E1 & E2 & E3 & E4); unfold in_range, num_var_args, max_args;
    rewrite <- (min_rel f1 f2) by auto; rewrite <- E1, <- E2;
    destruct (_ && _);
    [ specialize (E4 k); destruct (jump_offset f1 k), (jump_offset f2 k); try contradiction; try exact I; now apply CF
    | destruct (k <? min_args f1); [destruct k; simpl; auto | simpl; auto] ].
  destruct fv as [| |f|f c| | | | |]; try (repeat split; reflexivity); unfold fun_of.
  1,2: pose proof (HF f) as HFf; destruct (F1 f) as [f1|], (F2 f) as [f2|]; try contradiction; try exact I;
    destruct HFf as (E1 & E2 & E3 & E4); unfold in_range, num_var_args, max_args;
    rewrite <- (min_rel f1 f2) by auto; rewrite <- E1, <- E2;
    destruct (_ <? min_args f1); [simpl; auto|];
    destruct (_ && (_ || _));
    [ specialize (E4 (length pargs + k)); destruct (jump_offset f1 _), (jump_offset f2 _); try contradiction; try exact I; now apply CF
    | simpl; auto ].
Qed.

Lemma R_set_ip q fr x m : R q fr (set_ip P x m) = R q fr m.
Proof. destruct m; reflexivity. Qed.
Lemma set_ip_R x q fr m : set_ip P x (R q fr m) = R x fr m.
Proof. destruct m; reflexivity. Qed.
Lemma frames_R q fr m : frames P (R q fr m) = fr.
Proof. destruct m; reflexivity. Qed.
Lemma ip_R q fr m : ip P (R q fr m) = q.
Proof. destruct m; reflexivity. Qed.
Lemma ip_set x m : ip P (set_ip P x m) = x.
Proof. destruct m; reflexivity. Qed.
Lemma frames_set x m : frames P (set_ip P x m) = frames P m.
Proof. destruct m; reflexivity. Qed.
Lemma stack_R q fr m : stack P (R q fr m) = stack P m.
Proof. destruct m; reflexivity. Qed.
Lemma world_R q fr m : world P (R q fr m) = world P m.
Proof. destruct m; reflexivity. Qed.

(** run a known number of Pops *)
Lemma run_pops : forall k n drop m r, (forall i, i < k -> nth_error C1 (ip P m + i) = Some OPop) ->
  run1 n drop m = Some r -> r <> VStuck P ->
  exists l st, stack P m = st ++ l /\ length l = k /\ k <= n /\ run1 (n - k) drop (set_ip P (ip P m + k) (set_stack P st m)) = Some r.
Proof.
  induction k as [|k IH]; intros n drop m r Hp H Hr.
  - exists [], (stack P m). rewrite app_nil_r, Nat.sub_0_r, Nat.add_0_r. repeat split; auto with arith. destruct m; exact H.
  - destruct n as [|n]; [discriminate|]. rewrite run_S in H.
    rewrite <- (Nat.add_0_r (ip P m)) in H at 1. rewrite (Hp 0) in H by lia.
    pose proof (pop_shape (set_ip P (S (ip P m)) m)) as S0.
    destruct (strict_step P OPop _) as [m'| | | | |]; try contradiction; [|injection H as <-; congruence].
    destruct S0 as [v [E1 E2]].
    assert (ip P m' = S (ip P m)) as Ei by (rewrite E2; destruct m; reflexivity).
    destruct (IH n drop m' r) as (l & st & Q1 & Q2 & Q3 & Q4); auto.
    { intros i Hi. rewrite Ei. replace (S (ip P m) + i) with (ip P m + S i) by lia. apply Hp. lia. }
    exists (l ++ [v]), st. rewrite app_length, Q2. simpl. repeat split; try lia.
    + replace (stack P m) with (stack P (set_ip P (S (ip P m)) m)) by (destruct m; reflexivity).
      rewrite E1, Q1. now rewrite app_assoc.
    + rewrite <- Q4. f_equal. rewrite Ei, E2. replace (S (ip P m) + k) with (ip P m + S k) by lia. destruct m; reflexivity.
Qed.

Lemma sim : forall n,
  (forall drop m q fr r, A (ip P m) q -> FR (frames P m) fr -> run1 n drop m = Some r -> r <> VStuck P ->
     exists n2 r2, run2 n2 drop (R q fr m) = Some r2 /\ vrel r r2) /\
  (forall k m q fr r, A (ip P m) q -> FR (frames P m) fr -> inv1 n k m = Some r -> r <> IStuck P ->
     exists n2 r2, inv2 n2 k (R q fr m) = Some r2 /\ irel r r2) /\
  (forall t m q fr r, A (ip P m) q -> FR (frames P m) fr -> tree1 n t m = Some r -> r <> TStuck P ->
     exists n2 r2, tree2 n2 t (R q fr m) = Some r2 /\ trel r r2).
Proof.
  intro n. induction n as [n IHn] using lt_wf_ind.
  assert (IH1 : forall n', n' < n -> forall drop m q fr r, A (ip P m) q -> FR (frames P m) fr -> run1 n' drop m = Some r -> r <> VStuck P ->
     exists n2 r2, run2 n2 drop (R q fr m) = Some r2 /\ vrel r r2) by (intros n' Hn'; apply (proj1 (IHn n' Hn'))).
  assert (IH2 : forall n', n' < n -> forall k m q fr r, A (ip P m) q -> FR (frames P m) fr -> inv1 n' k m = Some r -> r <> IStuck P ->
     exists n2 r2, inv2 n2 k (R q fr m) = Some r2 /\ irel r r2) by (intros n' Hn'; apply (proj1 (proj2 (IHn n' Hn')))).
  assert (IH3 : forall n', n' < n -> forall t m q fr r, A (ip P m) q -> FR (frames P m) fr -> tree1 n' t m = Some r -> r <> TStuck P ->
     exists n2 r2, tree2 n2 t (R q fr m) = Some r2 /\ trel r r2) by (intros n' Hn'; apply (proj2 (proj2 (IHn n' Hn')))).
  clear IHn. destruct n as [|n]; [repeat split; intros; discriminate|].
  split; [|split].
  - (* run *)
    intros drop m q fr r Ha Hfr H Hr.
    destruct (HA _ _ Ha) as [o H1 H2 Hj Hs | ty z1 z2 H1 H2 Ht Hs | o1 o3 Hsl H1 H1' H1'' H2 Hs | o1 o2 Hsp H1 H1' H2 Hs | k Hps Hk H2 Hs].
    + (* same *)
      rewrite run_S, H1 in H.
      destruct (is_final o) eqn:Ef.
      * (* final: Return, Exit, Yield, AssertFailed *)
        assert (Q : forall n2 e, strict_step P o (R (S q) fr m) = e -> run2 (S n2) drop (R q fr m) = match e with
          | Go _ m' => run2 n2 drop m'
          | Fail _ e w => Some (VErr P e w)
          | Ret _ m' => if length (frames P m') =? drop then Some (VDone P m') else run2 n2 drop m'
          | Run _ t m' => match tree2 n2 t m' with None => None | Some (TVal _ m'' v) => run2 n2 drop (push P v m'')
                 | Some (TFail _ e w) => Some (VErr P e w) | Some (TStuck _) => Some (VStuck P) end
          | Invoke _ k m' => match inv2 n2 k m' with None => None | Some (INative _ m'') | Some (IUser _ m'') => run2 n2 drop m''
                 | Some (IErr _ e w) => Some (VErr P e w) | Some (IStuck _) => Some (VStuck P) end
          | Stuck _ => Some (VStuck P) end).
        { intros n2 e <-. rewrite run_S, ip_R, H2, set_ip_R. reflexivity. }
        assert (D : o = OReturn \/ o <> OReturn) by (destruct o; auto; right; discriminate). destruct D as [->|D].
        -- (* Return *)
           pose proof (ret_shape (set_ip P (S (ip P m)) m)) as X. 
           destruct (strict_step P OReturn (set_ip P (S (ip P m)) m)) as [ | |m'| | |]; try contradiction; [|injection H as <-; congruence].
           destruct X as (ret & p & fr1 & X1 & X2 & X3 & X4). rewrite frames_set in X1. rewrite X1 in Hfr.
           inversion Hfr as [|[? ?] [ret2 p2] ? fr' [E1 E2] Hfr' Z1 Z2]. simpl in E1, E2. rewrite <- Z2, <- E2 in *. clear Z1 Z2.
           specialize (X4 (S q) ret2 fr'). rewrite R_set_ip in X4. rewrite <- X2 in E1. rewrite <- X3 in Hfr'.
           destruct (length (frames P m') =? drop) eqn:Ed.
           ++ injection H as <-. exists 1. eexists. split; [rewrite (Q _ _ X4), frames_R, <- (FR_len _ _ Hfr'), Ed; reflexivity|].
              exists ret2, fr'. repeat split; auto.
           ++ destruct (IH1 n ltac:(lia) drop m' ret2 fr' r E1 Hfr' H Hr) as (n2 & r2 & Y1 & Y2).
              exists (S n2), r2. split; [|exact Y2]. rewrite (Q _ _ X4), frames_R, <- (FR_len _ _ Hfr'), Ed. exact Y1.
        -- pose proof (final_shape o (set_ip P (S (ip P m)) m) (S q) fr Ef D) as X. rewrite R_set_ip in X.
           destruct (strict_step P o (set_ip P (S (ip P m)) m)) as [ |e w| | | |]; try contradiction; [|injection H as <-; congruence].
           injection H as <-. exists 1. eexists. split; [apply (Q _ _ X)|]. simpl. auto.
      * specialize (Hs eq_refl).
        destruct (sstep_R o (set_ip P (S (ip P m)) m) (S q) fr) as [E1 E2]; [rewrite frames_set; now apply FR_fps | auto | auto |].
        rewrite R_set_ip in E1.
        destruct (strict_step P o (set_ip P (S (ip P m)) m)) as [m'|e w|m'|t m'|k m'|]; simpl in E1, E2; try contradiction.
        -- destruct E2 as [E2 E3]. rewrite ?ip_set in E2. rewrite ?frames_set in E3.
           destruct (IH1 n ltac:(lia) drop m' (S q) fr r) as (n2 & r2 & Y1 & Y2); auto; [congruence | congruence |].
           exists (S n2), r2. split; [|exact Y2]. rewrite run_S, ip_R, H2, set_ip_R, E1. exact Y1.
        -- injection H as <-. exists 1, (VErr P e w). split; [|simpl; auto]. rewrite run_S, ip_R, H2, set_ip_R, E1. reflexivity.
        -- destruct E2 as [E2 E3]. rewrite ?ip_set in E2. rewrite ?frames_set in E3.
           destruct (tree1 n t m') as [rt|] eqn:Et; [|discriminate].
           assert (rt <> TStuck P) by (intros ->; injection H as <-; congruence).
           destruct (IH3 n ltac:(lia) t m' (S q) fr rt) as (n2 & r2 & Y1 & Y2); auto; [congruence | congruence |].
           destruct rt as [m1 v|e w|]; [| |congruence]; destruct r2 as [m2 v2|e2 w2|]; simpl in Y2; try contradiction.
           ++ destruct Y2 as (<- & q' & fr' & -> & Y3 & Y4).
              destruct (IH1 n ltac:(lia) drop (push P v m1) q' fr' r) as (n3 & r3 & Z1 & Z2); auto.
              exists (S (n2 + n3)), r3. split; [|exact Z2]. rewrite run_S, ip_R, H2, set_ip_R, E1.
              rewrite (tree_mono _ _ _ _ _ (n2 + n3) _ _ _ Y1) by lia.
              eapply run_mono; [|apply Nat.le_add_l]. destruct m1; exact Z1.
           ++ destruct Y2 as [<- <-]. injection H as <-. exists (S n2), (VErr P e w). split; [|simpl; auto].
              rewrite run_S, ip_R, H2, set_ip_R, E1, Y1. reflexivity.
        -- destruct E2 as [E2 E3]. rewrite ?ip_set in E2. rewrite ?frames_set in E3.
           destruct (inv1 n k m') as [rt|] eqn:Et; [|discriminate].
           assert (rt <> IStuck P) by (intros ->; injection H as <-; congruence).
           destruct (IH2 n ltac:(lia) k m' (S q) fr rt) as (n2 & r2 & Y1 & Y2); auto; [congruence | congruence |].
           destruct rt as [m1|m1|e w|]; [| | |congruence]; destruct r2 as [m2|m2|e2 w2|]; simpl in Y2; try contradiction.
           ++ destruct Y2 as (q' & fr' & -> & Y3 & Y4).
              destruct (IH1 n ltac:(lia) drop m1 q' fr' r) as (n3 & r3 & Z1 & Z2); auto.
              exists (S (n2 + n3)), r3. split; [|exact Z2]. rewrite run_S, ip_R, H2, set_ip_R, E1.
              rewrite (invoke_mono _ _ _ _ _ (n2 + n3) _ _ _ Y1) by lia.
              eapply run_mono; [|apply Nat.le_add_l]. exact Z1.
           ++ destruct Y2 as (q' & fr' & -> & Y3 & Y4).
              destruct (IH1 n ltac:(lia) drop m1 q' fr' r) as (n3 & r3 & Z1 & Z2); auto.
              exists (S (n2 + n3)), r3. split; [|exact Z2]. rewrite run_S, ip_R, H2, set_ip_R, E1.
              rewrite (invoke_mono _ _ _ _ _ (n2 + n3) _ _ _ Y1) by lia.
              eapply run_mono; [|apply Nat.le_add_l]. exact Z1.
           ++ destruct Y2 as [<- <-]. injection H as <-. exists (S n2), (VErr P e w). split; [|simpl; auto].
              rewrite run_S, ip_R, H2, set_ip_R, E1, Y1. reflexivity.
        -- injection H as <-. congruence.
    + (* branch *)
      rewrite run_S, H1, sstep_br, step_br in H.
      pose proof (br_dec_R ty (set_ip P (S (ip P m)) m) (S q) fr) as E. rewrite R_set_ip in E.
      assert (Q : forall n2, run2 (S n2) drop (R q fr m) = match br_dec ty (R (S q) fr m) with
         | None => Some (VStuck P) | Some (true, m') => run2 n2 drop (jump P z2 m') | Some (false, m') => run2 n2 drop m' end).
      { intro n2. rewrite run_S, ip_R, H2, sstep_br, step_br, set_ip_R. destruct (br_dec ty (R (S q) fr m)) as [[[|] ?]|]; reflexivity. }
      destruct (br_dec ty (set_ip P (S (ip P m)) m)) as [[b m']|] eqn:Eb; [|injection H as <-; congruence].
      destruct (br_dec_keeps _ _ _ _ Eb) as [K1 K2]. rewrite ?ip_set in K1. rewrite ?frames_set in K2.
      destruct b.
      * destruct (IH1 n ltac:(lia) drop (jump P z1 m') (to_ip (S q) z2) fr r) as (n2 & r2 & Y1 & Y2); auto.
        -- unfold jump. rewrite ip_set, K1. exact Ht.
        -- unfold jump. rewrite frames_set, K2. exact Hfr.
        -- exists (S n2), r2. split; [|exact Y2]. rewrite Q, E. unfold jump in *. rewrite ip_R. unfold to_ip in Y1.
           rewrite R_set_ip in Y1. rewrite set_ip_R. exact Y1.
      * destruct (IH1 n ltac:(lia) drop m' (S q) fr r) as (n2 & r2 & Y1 & Y2); auto.
        -- rewrite K1. apply Hs. intros ->. simpl in Eb. congruence.
        -- rewrite K2. exact Hfr.
        -- exists (S n2), r2. split; [|exact Y2]. rewrite Q, E. exact Y1.
    + (* store, pop, load *)
      rewrite run_S, H1 in H.
      pose proof (store_shape o1 (set_ip P (S (ip P m)) m) (or_introl (ex_intro _ _ Hsl))) as S0.
      assert (J : is_jump o1 = false /\ is_final o1 = false) by (destruct Hsl; auto). destruct J as [J1 J2].
      destruct (sstep_R o1 (set_ip P (S (ip P m)) m) (S q) fr) as [E1 _]; [rewrite frames_set; now apply FR_fps | auto | auto |].
      rewrite R_set_ip in E1.
      destruct (strict_step P o1 (set_ip P (S (ip P m)) m)) as [m1|e w| | | |] eqn:Es1; try contradiction; simpl in E1.
      * destruct S0 as [K1 K2]. rewrite ?ip_set in K1. rewrite ?frames_set in K2.
        destruct n as [|n]; [discriminate|]. rewrite run_S, K1, H1' in H.
        pose proof (pop_shape (set_ip P (S (S (ip P m))) m1)) as S1.
        destruct (strict_step P OPop (set_ip P (S (S (ip P m))) m1)) as [m2| | | | |] eqn:Es2; try contradiction; [|injection H as <-; congruence].
        destruct S1 as [v [_ E2]].
        assert (I2 : ip P m2 = S (S (ip P m))) by (rewrite E2; destruct m1; reflexivity).
        destruct n as [|n]; [discriminate|]. rewrite run_S, I2, H1'' in H.
        pose proof (store_load_shape o1 o3 m m1 m2 _ _ (S (S (S (ip P m)))) Hsl Es1 Es2) as S2.
        destruct (strict_step P o3 (set_ip P (S (S (S (ip P m)))) m2)) as [m3| | | | |] eqn:Es3; try contradiction; [|injection H as <-; congruence].
        pose proof (store_load_ok o1 o3 m m1 m2 m3 _ _ _ Hsl Es1 Es2 Es3) as ->.
        destruct (IH1 n ltac:(lia) drop (set_ip P (S (S (S (ip P m)))) m1) (S q) fr r) as (n2 & r2 & Y1 & Y2); auto.
        -- rewrite ?frames_set, ?K2; auto.
        -- rewrite R_set_ip in Y1. exists (S n2), r2. split; [|exact Y2]. rewrite run_S, ip_R, H2, set_ip_R, E1. exact Y1.
      * injection H as <-. exists 1, (VErr P e w). split; [|simpl; auto]. rewrite run_S, ip_R, H2, set_ip_R, E1. reflexivity.
      * injection H as <-. congruence.
    + (* store, pop *)
      rewrite run_S, H1 in H.
      pose proof (store_shape o1 (set_ip P (S (ip P m)) m) (or_intror (ex_intro _ _ Hsp))) as S0.
      assert (J : is_jump o2 = false /\ is_final o2 = false) by (destruct Hsp; auto). destruct J as [J1 J2].
      destruct (strict_step P o1 (set_ip P (S (ip P m)) m)) as [m1|e w| | | |] eqn:Es1; try contradiction.
      * destruct S0 as [K1 K2]. rewrite ?ip_set in K1. rewrite ?frames_set in K2.
        destruct n as [|n]; [discriminate|]. rewrite run_S, K1, H1' in H.
        pose proof (pop_shape (set_ip P (S (S (ip P m))) m1)) as S1.
        destruct (strict_step P OPop (set_ip P (S (S (ip P m))) m1)) as [m2| | | | |] eqn:Es2; try contradiction; [|injection H as <-; congruence].
        destruct S1 as [v [_ E2]].
        assert (I2 : ip P m2 = S (S (ip P m))) by (rewrite E2; destruct m1; reflexivity).
        assert (I3 : frames P m2 = frames P m) by (rewrite E2, <- K2; destruct m1; reflexivity).
        pose proof (store_pop_ok o1 o2 m m1 m2 _ _ Hsp Es1 Es2) as E3.
        destruct (sstep_R o2 (set_ip P (S (S (ip P m))) m) (S q) fr) as [E4 _]; [rewrite frames_set; now apply FR_fps | auto | auto |].
        rewrite R_set_ip, E3 in E4. simpl in E4.
        destruct (IH1 n ltac:(lia) drop m2 (S q) fr r) as (n2 & r2 & Y1 & Y2); auto; [now rewrite I2 | now rewrite I3 |].
        exists (S n2), r2. split; [|exact Y2]. rewrite run_S, ip_R, H2, set_ip_R, E4. exact Y1.
      * injection H as <-. exists 1, (VErr P e w). split; [|simpl; auto].
        pose proof (store_pop_fail o1 o2 m e w _ (S (ip P m)) Hsp Es1) as E3.
        destruct (sstep_R o2 (set_ip P (S (ip P m)) m) (S q) fr) as [E4 _]; [rewrite frames_set; now apply FR_fps | auto | auto |].
        rewrite R_set_ip, E3 in E4. simpl in E4.
        rewrite run_S, ip_R, H2, set_ip_R, E4. reflexivity.
      * injection H as <-. congruence.
    + (* pops *)
      destruct (run_pops k (S n) drop m r Hps H Hr) as (l & st & Q1 & Q2 & Q3 & Q4).
      destruct (fun a b => IH1 (S n - k) ltac:(lia) drop _ (S q) fr r a b Q4 Hr) as (n2 & r2 & Y1 & Y2).
      * rewrite ip_set. exact Hs.
      * rewrite frames_set. destruct m; exact Hfr.
      * rewrite R_set_ip in Y1. exists (S n2), r2. split; [|exact Y2]. rewrite run_S, ip_R, H2, set_ip_R.
        rewrite (popn_go (R (S q) fr m) l st k) by (rewrite ?stack_R; auto).
        rewrite <- Y1. f_equal.
  - (* invoke *)
    intros k m q fr r Ha Hfr H Hr. rewrite invoke_S in H.
    pose proof (call_of_R k m q fr Ha Hfr) as C.
    destruct (call_of P F1 k m) as [r1|t1 m1].
    + injection H as <-. exists 1. rewrite invoke_S. destruct (call_of P F2 k (R q fr m)) as [r2|t2 m2].
      * exists r2. split; [auto|]. destruct r1; auto; congruence.
      * destruct r1; try contradiction.
    + destruct (call_of P F2 k (R q fr m)) as [r2|t2 m2] eqn:E2; [contradiction|].
      destruct C as (<- & -> & C1' & C2').
      destruct (tree1 n t1 m1) as [rt|] eqn:Et; [|discriminate].
      assert (rt <> TStuck P) by (intros ->; injection H as <-; congruence).
      destruct (IH3 n ltac:(lia) t1 m1 q fr rt) as (n2 & r2 & Y1 & Y2); auto; [congruence | congruence |].
      exists (S n2). rewrite invoke_S, E2, Y1.
      destruct rt as [m3 v|e w|]; [| |congruence]; destruct r2 as [m4 v2|e2 w2|]; simpl in Y2; try contradiction.
      * destruct Y2 as (<- & q' & fr' & -> & Y3 & Y4). injection H as <-. eexists. split; [reflexivity|]. simpl.
        exists q', fr'. rewrite ?stack_R. destruct m3; auto.
      * destruct Y2 as [<- <-]. injection H as <-. eexists. split; [reflexivity|]. simpl. auto.
  - (* builtins *)
    intros t m q fr r Ha Hfr H Hr. rewrite tree_S in H. destruct t as [w v|w e|w f args k].
    + injection H as <-. exists 1. eexists. split; [rewrite tree_S; reflexivity|]. simpl. split; [auto|].
      exists q, fr. destruct m; auto.
    + injection H as <-. exists 1. eexists. split; [rewrite tree_S; reflexivity|]. simpl. auto.
    + cbv zeta in H.
      set (m1 := set_stack P (stack P m ++ f :: args) (set_world P w m)) in H.
      assert (Em : set_stack P (stack P (R q fr m) ++ f :: args) (set_world P w (R q fr m)) = R q fr m1) by (destruct m; reflexivity).
      destruct (inv1 n (length args) m1) as [ri|] eqn:Ei; [|discriminate].
      assert (ri <> IStuck P) by (intros ->; injection H as <-; congruence).
      destruct (IH2 n ltac:(lia) (length args) m1 q fr ri) as (n2 & r2 & Y1 & Y2); auto; try (destruct m; assumption).
      destruct ri as [m2|m2|e w2|]; [| | |congruence]; destruct r2 as [m2'|m2'|e2 w2'|]; simpl in Y2; try contradiction.
      * destruct Y2 as (q' & fr' & -> & Y3 & Y4).
        destruct (rev (stack P m2)) as [|v r0] eqn:Er; [injection H as <-; congruence|].
        destruct (fun a b => IH3 n ltac:(lia) _ (set_stack P (rev r0) m2) q' fr' r a b H Hr) as (n3 & r3 & Z1 & Z2); auto; try (destruct m2; assumption).
        exists (S (n2 + n3)), r3. split; [|exact Z2]. rewrite tree_S. cbv zeta. rewrite Em.
        rewrite (invoke_mono _ _ _ _ _ (n2 + n3) _ _ _ Y1) by lia. rewrite stack_R, Er, world_R.
        eapply tree_mono; [|apply Nat.le_add_l]. rewrite <- Z1. f_equal.
      * destruct Y2 as (q' & fr' & -> & Y3 & Y4).
        destruct (run1 n (length (frames P m2) - 1) m2) as [rv|] eqn:Ev; [|discriminate].
        assert (rv <> VStuck P) by (intros ->; injection H as <-; congruence).
        destruct (IH1 n ltac:(lia) _ m2 q' fr' rv Y3 Y4 Ev) as (n3 & r3 & Z1 & Z2); auto.
        rewrite (FR_len _ _ Y4) in Z1.
        destruct rv as [m3|e w3|]; [| |congruence]; destruct r3 as [m3'|e3 w3'|]; simpl in Z2; try contradiction.
        -- destruct Z2 as (q3 & fr3 & -> & Z3 & Z4).
           destruct (rev (stack P m3)) as [|v r0] eqn:Er; [injection H as <-; congruence|].
           destruct (fun a b => IH3 n ltac:(lia) _ (set_stack P (rev r0) m3) q3 fr3 r a b H Hr) as (n4 & r4 & X1 & X2); auto; try (destruct m3; assumption).
           exists (S (n2 + n3 + n4)), r4. split; [|exact X2]. rewrite tree_S. cbv zeta. rewrite Em.
           rewrite (invoke_mono _ _ _ _ _ (n2 + n3 + n4) _ _ _ Y1) by lia. rewrite frames_R.
           rewrite (run_mono _ _ _ _ _ (n2 + n3 + n4) _ _ _ Z1) by lia. rewrite stack_R, Er, world_R.
           eapply tree_mono; [|apply Nat.le_add_l]. rewrite <- X1. f_equal.
        -- destruct Z2 as [<- <-]. injection H as <-. exists (S (n2 + n3)), (TFail P e w3). split; [|simpl; auto].
           rewrite tree_S. cbv zeta. rewrite Em.
           rewrite (invoke_mono _ _ _ _ _ (n2 + n3) _ _ _ Y1) by lia. rewrite frames_R.
           rewrite (run_mono _ _ _ _ _ (n2 + n3) _ _ _ Z1) by lia. reflexivity.
      * destruct Y2 as [<- <-]. injection H as <-. exists (S n2), (TFail P e w2). split; [|simpl; auto].
        rewrite tree_S. cbv zeta. rewrite Em, Y1. reflexivity.
Qed.
End psim.
