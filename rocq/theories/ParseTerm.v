From Coq Require Import String Arith Lia.
From Verif Require Import Base Parse ParseSpec ParseProofs ParseSound ParseComp.
Local Open Scope nat_scope.

(** * More fuel does not change the result *)
Definition le {A} (r r' : res A) : Prop := r = Out \/ r = r'.
Lemma le_refl {A} (r : res A) : le r r. Proof. now right. Qed.
Lemma le_bind {A B} (r r' : res A) (f f' : A -> list token -> res B) : le r r' -> (forall a t, le (f a t) (f' a t)) -> le (bind r f) (bind r' f').
Proof. intros [->| ->] H; [now left|]. destruct r' as [| |a t]; [now left|now right|]. apply H. Qed.
Record leP (P Q : parsers) : Prop := LeP {
  l_expr c t : le (p_expr P c t) (p_expr Q c t);
  l_bare t : le (p_bare P t) (p_bare Q t);
  l_level k t : le (p_level P k t) (p_level Q k t);
  l_loop k t : le (p_loop P k t) (p_loop Q k t);
  l_terminal t : le (p_terminal P t) (p_terminal Q t);
  l_suffix e t : le (p_suffix P e t) (p_suffix Q e t);
  l_arg t : le (p_arg P t) (p_arg Q t);
  l_args c t : le (p_args P c t) (p_args Q c t);
  l_items d t : le (p_items P d t) (p_items Q d t);
  l_then c t : le (p_then P c t) (p_then Q c t)
}.
Ltac mono H := repeat first
  [ apply le_refl | apply (l_expr _ _ H) | apply (l_bare _ _ H) | apply (l_level _ _ H) | apply (l_loop _ _ H) | apply (l_terminal _ _ H) | apply (l_suffix _ _ H)
  | apply (l_arg _ _ H) | apply (l_args _ _ H) | apply (l_items _ _ H) | apply (l_then _ _ H)
  | apply le_bind; [|intros ? ?]
  | match goal with |- le (match ?x with _ => _ end) _ => destruct x end ].
Lemma leP_step P Q : leP P Q -> leP (Parsers (expr11 P) (bare10 P) (level P) (loop P) (terminal P) (suffix P) (arg P) (args P) (items P) (then_else P))
  (Parsers (expr11 Q) (bare10 Q) (level Q) (loop Q) (terminal Q) (suffix Q) (arg Q) (args Q) (items Q) (then_else Q)).
Proof.
  intros H. split; intros; cbn [p_expr p_bare p_level p_loop p_terminal p_suffix p_arg p_args p_items p_then].
  - unfold expr11. mono H.
  - unfold bare10. mono H.
  - unfold level, unary2. mono H.
  - unfold loop. mono H.
  - unfold terminal, comma_expr, list_or_slice, dict_or_set, slice_literal, optional. mono H.
  - unfold suffix, comma_expr, index_or_slice, optional. mono H.
  - unfold arg, marked_arg, plain_arg. mono H.
  - unfold args. mono H.
  - unfold items, item. mono H.
  - unfold then_else. mono H.
Qed.
Lemma leP_ps n : leP (ps n) (ps (S n)).
Proof. induction n as [|n IH]; [split; intros; now left|]. exact (leP_step _ _ IH). Qed.
Lemma parse_mono n m c t : n <= m -> parse n c t <> Out -> parse m c t = parse n c t.
Proof.
  intros L N. induction L as [|m L IH]; [reflexivity|]. rewrite <- IH. destruct (l_expr _ _ (leP_ps m) c t) as [E|E]; unfold parse in *; [congruence|now symmetry].
Qed.

(** * Enough fuel *)
Definition vl (t : list token) : nat := length (visible t).
Definition nout {A} (r : res A) : Prop := r <> Out.
Lemma nout_bind {A B} (r : res A) (f : A -> list token -> res B) : nout r -> (forall a t, r = Got a t -> nout (f a t)) -> nout (bind r f).
Proof. intros H K. destruct r as [| |a t]; [now elim H|discriminate|now apply K]. Qed.
Lemma nout_expect p t : nout (expect p t). Proof. unfold expect. now destruct (p (peek t)). Qed.
Record total (n : nat) : Prop := Total {
  t_expr c t : 20 * vl t + 12 < n -> nout (p_expr (ps n) c t);
  t_bare t : 20 * vl t < n -> nout (p_bare (ps n) t);
  t_level k t : 2 <= k <= 9 -> 20 * vl t + k < n -> nout (p_level (ps n) k t);
  t_loop k t : 3 <= k <= 9 -> 20 * vl t < n -> nout (p_loop (ps n) k t);
  t_terminal t : 20 * vl t + 1 < n -> nout (p_terminal (ps n) t);
  t_suffix e t : 20 * vl t + 2 < n -> nout (p_suffix (ps n) e t);
  t_arg t : 20 * vl t + 13 < n -> nout (p_arg (ps n) t);
  t_args c t : 20 * vl t < n -> nout (p_args (ps n) c t);
  t_items d t : 20 * vl t + 14 < n -> nout (p_items (ps n) d t);
  t_then c t : 20 * vl t < n -> nout (p_then (ps n) c t)
}.
Lemma app_vl t w r : visible t = w ++ visible r -> vl t = length w + vl r.
Proof. intros E. unfold vl. now rewrite E, app_length. Qed.
Lemma nil_len {A} (w : list A) : w <> [] -> 1 <= length w. Proof. destruct w; [contradiction|simpl; lia]. Qed.
Lemma v_expr n c t e r : p_expr (ps n) c t = Got e r -> vl r < vl t.
Proof. intros H. destruct (s_expr (sound_ps n) _ _ _ _ H) as (w & m & V & g & _). apply G_nonempty, nil_len in g. apply app_vl in V. lia. Qed.
Lemma v_level n k t e r : 2 <= k <= 9 -> p_level (ps n) k t = Got e r -> vl r < vl t.
Proof. intros K H. destruct (s_level (sound_ps n) _ _ _ _ K H) as (w & m & V & g & _). apply G_nonempty, nil_len in g. apply app_vl in V. lia. Qed.
Lemma v_terminal n t e r : p_terminal (ps n) t = Got e r -> vl r < vl t.
Proof. intros H. destruct (s_terminal (sound_ps n) _ _ _ H) as (w & m & V & g & _). apply G_nonempty, nil_len in g. apply app_vl in V. lia. Qed.
Lemma v_bare n t l r : p_bare (ps n) t = Got l r -> vl r <= vl t.
Proof. intros H. destruct (s_bare (sound_ps n) _ _ _ H) as [[_ ->]|(w & m & V & _)]; [lia|]. apply app_vl in V. lia. Qed.
Lemma v_arg n t e r : p_arg (ps n) t = Got e r -> vl r < vl t.
Proof. intros H. destruct (s_arg (sound_ps n) _ _ _ H) as (w & m & V & g & _). destruct (garg_start _ _ _ g) as (x & w' & -> & _). apply app_vl in V. simpl in V. lia. Qed.
Lemma v_args n c t l r : p_args (ps n) c t = Got l r -> vl r <= vl t.
Proof.
    intros H. destruct n as [|n']; [discriminate|]. cbn [ps p_args] in H. revert t l H. 
    assert (A : forall k t l, p_args (ps k) c t = Got l r -> vl r <= vl t).
    { induction k as [|k IH]; [discriminate|]. intros t l H. cbn [ps p_args] in H. unfold args in H.
      assert (Cl : (if closes c (peek t) then Got ([], false) t else Bad) = Got l r -> vl r <= vl t). { destruct (closes c (peek t)); [|discriminate]. intros [= <- <-]. lia. }
      destruct (peek t) as [x|] eqn:X; [|exact (Cl H)]. destruct x; try exact (Cl H). pose proof (vis_adv _ _ X) as V.
      assert (L : vl (advance t) < vl t) by (unfold vl; rewrite V; simpl; lia).
      destruct (closes c (peek (advance t))); [injection H as <- <-; lia|].
      destruct (p_arg (ps k) (advance t)) as [| |a t1] eqn:E; [discriminate|discriminate|]. cbn [bind] in H.
      destruct (s_arg (sound_ps k) _ _ _ E) as (w & m & Vw & _). apply app_vl in Vw.
      destruct (p_args (ps k) c t1) as [| |l1 t2] eqn:E2; [discriminate|discriminate|]. injection H as <- <-. apply IH in E2. lia. }
    intros t l H. exact (A (S n') t l H).
Qed.
Lemma vl_adv t x : peek t = Some x -> vl (advance t) < vl t.
Proof. intros X. unfold vl. rewrite (vis_adv _ _ X). simpl. lia. Qed.
Lemma vl_adv' t : vl (advance t) <= vl t.
Proof. unfold vl. rewrite vis_advance. destruct (visible t); simpl; lia. Qed.
Lemma vl_peek x t : peek t = Some x -> 1 <= vl t.
Proof. intros X. unfold vl. rewrite (vis_adv _ _ X). simpl. lia. Qed.
Lemma v_expect p t a r : expect p t = Got a r -> vl r <= vl t.
Proof. unfold expect. destruct (p (peek t)); [|discriminate]. intros [= <- <-]. apply vl_adv'. Qed.
Lemma tot_expr n c t : total n -> 20 * vl t + 12 < S n -> nout (expr11 (ps n) c t).
Proof.
  intros T L. unfold expr11.
  assert (A : forall a t1, (if c then p_level (ps n) 9 t else bind (p_level (ps n) 9 t) (fun e t => bind (p_bare (ps n) t) (fun l t => Got (match l with [] => e | _ => EComma (e :: l) true true end) t))) = Got a t1 -> vl t1 < vl t).
  { intros a t1. destruct c; [apply v_level; lia|]. intros H. bnd. injection H as <- <-. apply v_level in B; [|lia]. apply v_bare in B0. lia. }
  apply nout_bind.
  - destruct c; [apply (t_level n T); lia|]. apply nout_bind; [apply (t_level n T); lia|]. intros a t1 E. apply v_level in E; [|lia]. apply nout_bind; [apply (t_bare n T); lia|]. discriminate.
  - intros a t1 E. apply A in E. destruct (assign_at t1) as [[q t2]|] eqn:Q; [|discriminate]. apply assign_at_vis in Q. destruct Q as [Q _].
    apply app_vl in Q. assert (1 <= length (assign_spelling q)) by (destruct q as [[]|]; simpl; lia).
    apply nout_bind; [apply (t_expr n T); lia|discriminate].
Qed.
Lemma tot_bare n t : total n -> 20 * vl t < S n -> nout (bare10 (ps n) t).
Proof.
  intros T L. unfold bare10. destruct (peek t) as [x|] eqn:X; [|discriminate]. pose proof (vl_adv _ _ X). destruct x; try discriminate.
  destruct (is_close_paren (peek2 t) || is_equals (peek2 t)); [discriminate|].
  apply nout_bind; [apply (t_level n T); lia|]. intros a t1 E. apply v_level in E; [|lia]. apply nout_bind; [apply (t_bare n T); lia|discriminate].
Qed.
Lemma tot_level n k t : total n -> 2 <= k <= 9 -> 20 * vl t + k < S n -> nout (level (ps n) k t).
Proof.
  intros T K L. unfold level. destruct (Nat.leb_spec k 2).
  - unfold unary2. destruct (prefix t) as [l t1] eqn:E. apply prefix_vis, app_vl in E. apply nout_bind; [apply (t_terminal n T); lia|].
    intros a t2 E2. apply v_terminal in E2. apply nout_bind; [apply (t_suffix n T); lia|discriminate].
  - apply nout_bind; [apply (t_level n T); lia|]. intros a t1 E. apply v_level in E; [|lia]. apply nout_bind; [apply (t_loop n T); lia|discriminate].
Qed.
Lemma tot_loop n k t : total n -> 3 <= k <= 9 -> 20 * vl t < S n -> nout (loop (ps n) k t).
Proof.
  intros T K L. unfold loop. destruct (op_at k t) as [[o r]|] eqn:E; [|discriminate]. destruct (negb (k =? 7) && is_close_paren (peek r)); [discriminate|].
  apply op_at_vis in E. destruct E as (E & _). apply app_vl in E. assert (1 <= length (spelling o)) by (destruct o as [[]| | |]; simpl; lia).
  apply nout_bind; [apply (t_level n T); lia|]. intros a t1 E1. apply v_level in E1; [|lia]. apply nout_bind; [apply (t_loop n T); lia|discriminate].
Qed.
Lemma tot_comma n t x : total n -> peek t = Some x -> 20 * vl t < 6 + n -> nout (comma_expr (ps n) t).
Proof.
  intros T X L. pose proof (vl_adv _ _ X). unfold comma_expr. apply nout_bind; [apply (t_arg n T); lia|]. intros a t1 E. apply v_arg in E. apply nout_bind; [apply (t_args n T); lia|].
  intros l t2 E2. apply nout_bind; [apply nout_expect|discriminate].
Qed.
Lemma tot_optional n p t : total n -> 20 * vl t + 12 < n -> nout (optional (p_expr (ps n) true) p t).
Proof. intros T L. unfold optional. destruct (p (peek t)); [discriminate|]. now apply (t_expr n T). Qed.
Lemma tot_optional_arg n p t : total n -> 20 * vl t + 13 < n -> nout (optional (p_arg (ps n)) p t).
Proof. intros T L. unfold optional. destruct (p (peek t)); [discriminate|]. now apply (t_arg n T). Qed.
Lemma v_optional n p t e r : optional (p_expr (ps n) true) p t = Got e r -> vl r <= vl t.
Proof. unfold optional. destruct (p (peek t)); [intros [= <- <-]; lia|]. intros H. apply v_expr in H. lia. Qed.
Lemma v_optional_arg n p t e r : optional (p_arg (ps n)) p t = Got e r -> vl r <= vl t.
Proof. unfold optional. destruct (p (peek t)); [intros [= <- <-]; lia|]. intros H. apply v_arg in H. lia. Qed.
Lemma tot_index n e t : total n -> 20 * vl t + 12 < n -> nout (index_or_slice (ps n) e t).
Proof.
  intros T L. unfold index_or_slice. apply nout_bind; [now apply tot_optional|]. intros x t1 E. apply v_optional in E.
  destruct (peek t1) as [y|] eqn:Y; [|discriminate]. pose proof (vl_adv _ _ Y). destruct y; try discriminate.
  apply nout_bind; [apply tot_optional; [exact T|lia]|]. intros y t2 E2. apply v_optional in E2.
  destruct (peek t2) as [z|] eqn:Z; [|discriminate]. pose proof (vl_adv _ _ Z). destruct z; try discriminate.
  apply nout_bind; [apply tot_optional; [exact T|lia]|]. intros z t3 E3. apply nout_bind; [apply nout_expect|discriminate].
Qed.
Lemma v_index n e t e' r : index_or_slice (ps n) e t = Got e' r -> vl r < vl t.
Proof.
  intros H. unfold index_or_slice in H. destruct (optional (p_expr (ps n) true) is_colon t) as [| |x t1] eqn:E; [discriminate|discriminate|]. cbn [bind] in H. apply v_optional in E.
  destruct (peek t1) as [y|] eqn:Y; [|discriminate]. pose proof (vl_adv _ _ Y). destruct y; try discriminate; [injection H as <- <-; lia|].
  destruct (optional (p_expr (ps n) true) colon_or_close (advance t1)) as [| |y t2] eqn:E2; [discriminate|discriminate|]. cbn [bind] in H. apply v_optional in E2.
  destruct (peek t2) as [z|] eqn:Z; [|discriminate]. pose proof (vl_adv _ _ Z). destruct z; try discriminate; [injection H as <- <-; lia|].
  bnd. injection H as <- <-. apply v_optional in B. apply v_expect in B0. lia.
Qed.
Lemma v_comma n t l r x : peek t = Some x -> comma_expr (ps n) t = Got l r -> vl r < vl t.
Proof.
  intros X H. pose proof (vl_adv _ _ X). unfold comma_expr in H. bnd. injection H as <- <-. apply v_arg in B. apply v_args in B0. apply v_expect in B1. lia.
Qed.
Lemma tot_suffix n e t : total n -> 20 * vl t + 2 < S n -> nout (suffix (ps n) e t).
Proof.
  intros T L.
  assert (Other : bare_start t = true \/ peek t <> None -> nout (if bare_start t then bind (p_terminal (ps n) t) (fun a t => p_suffix (ps n) (ECall e [a]) t)
      else match peek t with
        | Some TArrow => match peek (advance t) with Some (TId x) => p_suffix (ps n) (EGetField e x) (advance (advance t)) | _ => Bad end
        | _ => Got e t
        end)).
  { intros _. destruct (bare_start t).
    - apply nout_bind; [apply (t_terminal n T); lia|]. intros a t1 E. apply v_terminal in E. apply (t_suffix n T). lia.
    - destruct (peek t) as [x|] eqn:X; [|discriminate]. pose proof (vl_adv _ _ X). destruct x; try discriminate. pose proof (vl_adv' (advance t)).
      destruct (peek (advance t)) as [y|]; [|discriminate]. destruct y; try discriminate. apply (t_suffix n T). lia. }
  unfold suffix. destruct t as [|x t]; [discriminate|]. destruct x; try (apply Other; right; discriminate); try (now (simpl; discriminate)).
  - destruct (classic_suf (TNewLine :: t)) as [S'|S']; [|].
    + destruct S' as (_ & B & _). cbn [bare_start]. clear Other. cbn [bare_start] in B. destruct (peek (TNewLine :: t)) as [y|] eqn:Y; [|discriminate].
      pose proof (vl_adv _ _ Y). pose proof (vl_adv' (advance (TNewLine :: t))). destruct y; try discriminate. destruct (peek (advance (TNewLine :: t))) as [[]|]; try discriminate. apply (t_suffix n T). lia.
    + destruct (peek (TNewLine :: t)) as [y|] eqn:Y; [apply Other; right; congruence|]. cbn [bare_start]. discriminate.
  - destruct (peek t) as [y|] eqn:Y; [|discriminate]. pose proof (vl_adv _ _ Y). assert (vl (TOpenP :: t) = S (vl t)) by reflexivity.
    assert (C : nout (bind (comma_expr (ps n) (TOpenP :: t)) (fun l t => p_suffix (ps n) (ECall e (fst l)) t))).
    { apply nout_bind; [eapply tot_comma; [exact T|reflexivity|lia]|]. intros l t1 E. eapply v_comma in E; [|reflexivity]. apply (t_suffix n T). lia. }
    destruct y; try exact C. apply (t_suffix n T). lia.
  - assert (vl (TOpenS :: t) = S (vl t)) by reflexivity. apply nout_bind; [apply tot_index; [exact T|lia]|]. intros a t1 E. apply v_index in E. apply (t_suffix n T). lia.
Qed.
Lemma tot_slit n e t x : total n -> peek t = Some x -> 20 * vl t < 6 + n -> nout (slice_literal (ps n) e t).
Proof.
  intros T X L. pose proof (vl_adv _ _ X). unfold slice_literal. apply nout_bind; [apply tot_optional_arg; [exact T|lia]|]. intros y t1 E. apply v_optional_arg in E.
  destruct (peek t1) as [z|] eqn:Z; [|discriminate]. pose proof (vl_adv _ _ Z). destruct z; try discriminate.
  apply nout_bind; [apply tot_optional_arg; [exact T|lia]|]. intros z t3 E3. apply nout_bind; [apply nout_expect|discriminate].
Qed.
Lemma tot_list n t : total n -> 20 * vl t + 14 < n -> nout (list_or_slice (ps n) t).
Proof.
  intros T L. unfold list_or_slice.
  assert (O : nout (bind (p_arg (ps n) t) (fun a t =>
        match peek t with
        | Some TCloseS => Got (ELiteral LList [a]) (advance t)
        | Some TColon => slice_literal (ps n) a t
        | Some TComma => bind (p_args (ps n) ClS t) (fun l t => bind (expect (closes ClS) t) (fun _ t => Got (ELiteral LList (a :: fst l)) t))
        | _ => Bad
        end))).
  { apply nout_bind; [apply (t_arg n T); lia|]. intros a t1 E. apply v_arg in E. destruct (peek t1) as [y|] eqn:Y; [|discriminate]. destruct y; try discriminate.
    - apply nout_bind; [apply (t_args n T); lia|]. intros l t2 E2. apply nout_bind; [apply nout_expect|discriminate].
    - eapply tot_slit; [exact T|exact Y|lia]. }
  destruct (peek t) as [x|] eqn:X; [|exact O]. destruct x; try exact O; [discriminate|]. eapply tot_slit; [exact T|exact X|lia].
Qed.
Lemma tot_dict n t : total n -> 20 * vl t + 14 < n -> nout (dict_or_set (ps n) t).
Proof.
  intros T L. unfold dict_or_set.
  assert (O : nout (bind (p_items (ps n) None t) (fun l t => bind (expect (closes ClB) t) (fun _ t => Got (ELiteral (match snd l with Some true => LDict | _ => LSet end) (fst l)) t)))).
  { apply nout_bind; [apply (t_items n T); lia|]. intros l t1 E. apply nout_bind; [apply nout_expect|discriminate]. }
  destruct (peek t) as [x|] eqn:X; [|exact O]. destruct x; try exact O. discriminate.
Qed.
Lemma tot_terminal n t : total n -> 20 * vl t + 1 < S n -> nout (terminal (ps n) t).
Proof.
  intros T L. unfold terminal. destruct (peek t) as [x|] eqn:X; [|discriminate]. pose proof (vl_adv _ _ X). destruct x; try discriminate.
  - destruct s; try discriminate. destruct (peek (advance t)) as [[]|]; discriminate.
  - apply nout_bind; [eapply tot_comma; [exact T|exact X|lia]|discriminate].
  - apply tot_list; [exact T|lia].
  - apply tot_dict; [exact T|lia].
  - apply nout_bind; [apply (t_expr n T); lia|]. intros a t1 E. apply v_expr in E. apply (t_then n T). lia.
Qed.
Lemma tot_then n c t : total n -> 20 * vl t < S n -> nout (then_else (ps n) c t).
Proof.
  intros T L. unfold then_else. apply nout_bind; [apply nout_expect|]. intros u t1 E.
  destruct (expect_vis _ _ _ _ E) as (x & [(X & _ & -> & _)|A]); [|discriminate]. pose proof (vl_adv _ _ X).
  apply nout_bind; [apply (t_expr n T); lia|]. intros a t2 E2. apply v_expr in E2.
  assert (O : nout (bind (expect (fun x => match x with Some TElse => true | _ => false end) t2) (fun _ t => bind (p_expr (ps n) true t) (fun b t => Got (EIf c a b) t)))).
  { apply nout_bind; [apply nout_expect|]. intros ? t3 E3. apply v_expect in E3. apply nout_bind; [apply (t_expr n T); lia|discriminate]. }
  destruct (peek t2) as [y|] eqn:Y; [|exact O]. pose proof (vl_adv _ _ Y). destruct y; try exact O.
  apply nout_bind; [apply (t_expr n T); lia|]. intros c' t3 E3. apply v_expr in E3. apply nout_bind; [apply (t_then n T); lia|discriminate].
Qed.
Lemma tot_arg n t : total n -> 20 * vl t + 13 < S n -> nout (arg (ps n) t).
Proof.
  intros T L.
  assert (M : nout (marked_arg (ps n) t)).
  { unfold marked_arg. assert (P : nout (plain_arg (ps n) t)).
    { unfold plain_arg. destruct (partial_op t) as [[o r]|] eqn:E.
      - destruct (partial_op_at _ _ _ E) as (_ & V & _). apply app_vl in V. destruct (ends_arg (peek r)); [discriminate|]. apply nout_bind; [apply (t_expr n T); lia|discriminate].
      - apply nout_bind; [apply (t_expr n T); lia|]. intros e t1 _. destruct (partial_op t1) as [[o r]|]; [destruct (ends_arg (peek r)); discriminate|discriminate]. }
    destruct (peek t) as [x|] eqn:X; [|exact P]. pose proof (vl_adv _ _ X). destruct x; try exact P.
    - destruct (peek2 t) as [[]|]; discriminate.
    - apply nout_bind; [apply (t_expr n T); lia|discriminate]. }
  unfold arg. destruct (unary_fun t); [|exact M]. destruct (ends_arg (peek2 t)); [discriminate|exact M].
Qed.
Lemma tot_args n c t : total n -> 20 * vl t < S n -> nout (args (ps n) c t).
Proof.
  intros T L. unfold args. assert (C : nout (if closes c (peek t) then Got (@nil expr, false) t else Bad)) by (destruct (closes c (peek t)); discriminate).
  destruct (peek t) as [x|] eqn:X; [|exact C]. pose proof (vl_adv _ _ X). destruct x; try exact C. destruct (closes c (peek (advance t))); [discriminate|].
  apply nout_bind; [apply (t_arg n T); lia|]. intros a t1 E. apply v_arg in E. apply nout_bind; [apply (t_args n T); lia|discriminate].
Qed.
Lemma tot_item n d t : total n -> 20 * vl t + 14 < S n -> nout (item (ps n) d t) /\ forall l r, item (ps n) d t = Got l r -> vl r < vl t.
Proof.
  intros T L. unfold item. split.
  - apply nout_bind; [apply (t_arg n T); lia|]. intros a t1 E. apply v_arg in E. destruct (is_unroll a); [discriminate|]. destruct d as [[|]|]; [|discriminate|].
    + apply nout_bind; [apply nout_expect|]. intros u t2 E2. apply v_expect in E2. apply nout_bind; [apply (t_arg n T); lia|discriminate].
    + destruct (is_colon (peek t1)); [|discriminate]. pose proof (vl_adv' t1). apply nout_bind; [apply (t_arg n T); lia|discriminate].
  - intros l r H. destruct (p_arg (ps n) t) as [| |a t1] eqn:E; [discriminate|discriminate|]. cbn [bind] in H. apply v_arg in E. pose proof (vl_adv' t1).
    destruct (is_unroll a); [injection H as <- <-; lia|]. destruct d as [[|]|]; [|injection H as <- <-; lia|].
    + bnd. injection H as <- <-. apply v_expect in B. apply v_arg in B0. lia.
    + destruct (is_colon (peek t1)); [|injection H as <- <-; lia]. bnd. injection H as <- <-. apply v_arg in B. lia.
Qed.
Lemma tot_items n d t : total n -> 20 * vl t + 14 < S n -> nout (items (ps n) d t).
Proof.
  intros T L. unfold items. destruct (tot_item n d t T L) as [A B]. apply nout_bind; [exact A|]. intros l t1 E. apply B in E.
  assert (C : nout (if closes ClB (peek t1) then Got l t1 else Bad)) by (destruct (closes ClB (peek t1)); discriminate).
  destruct (peek t1) as [x|] eqn:X; [|exact C]. pose proof (vl_adv _ _ X). destruct x; try exact C. destruct (closes ClB (peek (advance t1))); [discriminate|].
  apply nout_bind; [apply (t_items n T); lia|discriminate].
Qed.
Lemma total_ps n : total n.
Proof.
  induction n as [|n IH]; [split; intros; lia|]. split; intros; cbn [ps p_expr p_bare p_level p_loop p_terminal p_suffix p_arg p_args p_items p_then].
  - now apply tot_expr.
  - now apply tot_bare.
  - now apply tot_level.
  - now apply tot_loop.
  - now apply tot_terminal.
  - now apply tot_suffix.
  - now apply tot_arg.
  - now apply tot_args.
  - now apply tot_items.
  - now apply tot_then.
Qed.
Lemma parse_total comma t n : 20 * length t + 13 <= n -> parse n comma t <> Out.
Proof.
  intros L. apply (t_expr n (total_ps n)). unfold vl, visible. assert (length (filter (fun x => match x with TNewLine => false | _ => true end) t) <= length t); [|lia].
  clear L. induction t as [|x t IH]; [auto|]. simpl. destruct x; simpl; lia.
Qed.
