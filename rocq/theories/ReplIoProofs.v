(** The lines of an input have the effect of the whole input. *)
From Coq Require Import String Lia.
From Verif Require Import Base.
From Verif Require Import ReplIo ReplIoSpec.
From Verif Require Scan.
Local Open Scope nat_scope.

Definition at_text {h} (c : bool) (b : between h) (t : list Z) : repl h := Repl c (with_input b t) (state b).
Definition fresh {h} (b : between h) : repl h := at_text false b [].
Lemma add_last {h} (b : between h) t u : add_text u (with_input b t) = with_input b (t ++ u).
Proof. unfold add_text, with_input. now rewrite removelast_last, last_last. Qed.
Lemma run_ok {h} (b : between h) c t l : is_blank l && negb c = false ->
  run (ReadOk l) (at_text c b t) =
  let vs := with_input b (t ++ l ++ [10%Z]) in
  match compile h vs (state b) with
  | Errors es s => (RunOk, map println es, Repl false (vs ++ [empty_view]) s)
  | Aborted s => (RunOk, [], Repl true vs s)
  | Success s =>
      let '(x, added, printed, s') := exec h vs s in
      let vs' := vs ++ added in
      match x with
      | Exit | Return => (RunExit, [Print printed], Repl false vs' s')
      | Yield => (RunOk, [Print printed], Repl false (vs' ++ [empty_view]) (recover h s'))
      | Error e => (RunOk, [Print printed; println (report h vs' e)], Repl false (vs' ++ [empty_view]) (recover h s'))
      end
  end.
Proof. intro H. unfold run, at_text. cbn [continuation]. rewrite H. cbn [views st]. rewrite !add_last, <- app_assoc. reflexivity. Qed.
Lemma text_app a b : text_of (a ++ b) = text_of a ++ text_of b. Proof. apply flat_map_app. Qed.
Lemma run_more {h} (b : between h) c t l : keeps h -> is_blank l && negb c = false -> incomplete h b (t ++ l ++ [10%Z]) = true ->
  run (ReadOk l) (at_text c b t) = (RunOk, [], at_text true b (t ++ l ++ [10%Z])).
Proof.
  intros K H I. rewrite (run_ok b c t l H). cbv zeta. unfold incomplete in I. destruct (compile h _ (state b)) as [s|es s|s] eqn:E; try discriminate.
  rewrite (K _ _ _ E). reflexivity.
Qed.
Lemma run_enter {h} (b : between h) c t l : is_blank l && negb c = false -> incomplete h b (t ++ l ++ [10%Z]) = false ->
  let '(go, prints, b1) := enter b (t ++ l ++ [10%Z]) in
  run (ReadOk l) (at_text c b t) = (if go then RunOk else RunExit, map Print prints, if go then fresh b1 else Repl false (past b1) (state b1)).
Proof.
  intros H I. rewrite (run_ok b c t l H). unfold incomplete in I. unfold enter. destruct (compile h _ (state b)) as [s|es s|s] eqn:E; [| |discriminate].
  - destruct (exec h _ s) as [[[x added] printed] s']. destruct x; reflexivity.
  - rewrite map_map. reflexivity.
Qed.
Lemma session_ok {h} (r : repl h) l q es r' : run (ReadOk l) r = (RunOk, es, r') ->
  session (ReadOk l :: q) r = let '(z, es', r'') := session q r' in (z, Prompt (prompt r) :: es ++ es', r'').
Proof. intro E. cbn [session]. now rewrite E. Qed.
Definition prompt_of (c : bool) : list Z := if c then Scan.text "... " else Scan.text ">>> ".
(** the rest of an input *)
Lemma input_rest {h} (b : between h) q : keeps h -> forall ls c t, ls <> [] -> (c = false -> exists l r, ls = l :: r /\ l <> []) ->
  incomplete h b (t ++ text_of ls) = false -> (forall n, 0 < n < length ls -> incomplete h b (t ++ text_of (firstn n ls)) = true) ->
  let '(go, prints, b1) := enter b (t ++ text_of ls) in
  session (map ReadOk ls ++ q) (at_text c b t) =
  let ps := Prompt (prompt_of c) :: repeat (Prompt (Scan.text "... ")) (length ls - 1) ++ map Print prints in
  if go then let '(z, es, r) := session q (fresh b1) in (z, ps ++ es, r) else (None, ps, Repl false (past b1) (state b1)).
Proof.
  intros K. induction ls as [|l ls IH]; intros c t N B C I; [congruence|].
  assert (Hb : is_blank l && negb c = false).
  { destruct c; [apply andb_false_r|]. destruct (B eq_refl) as (l' & r & E & Nl). injection E as <- <-. now destruct l. }
  destruct ls as [|l2 ls].
  - cbn [text_of flat_map] in *. rewrite app_nil_r in *. pose proof (run_enter b c t l Hb C) as R.
    destruct (enter b (t ++ l ++ [10%Z])) as [[go prints] b1]. cbn [map app session]. rewrite R. unfold prompt, at_text at 1. cbn [continuation length Nat.sub repeat app].
    destruct go; [|reflexivity]. destruct (session q (fresh b1)) as [[z es] r]. reflexivity.
  - assert (I1 : incomplete h b (t ++ l ++ [10%Z]) = true).
    { specialize (I 1 ltac:(cbn; lia)). cbn [firstn text_of flat_map] in I. rewrite app_nil_r in I. exact I. }
    specialize (IH true (t ++ l ++ [10%Z]) ltac:(discriminate) ltac:(discriminate)).
    assert (Et : forall x, (t ++ l ++ [10%Z]) ++ text_of x = t ++ text_of (l :: x)) by (intro x; cbn [text_of flat_map]; now rewrite <- !app_assoc).
    rewrite Et in IH. specialize (IH C).
    assert (I2 : forall n, 0 < n < length (l2 :: ls) -> incomplete h b ((t ++ l ++ [10%Z]) ++ text_of (firstn n (l2 :: ls))) = true).
    { intros n Hn. rewrite Et. apply (I (S n)). cbn [length] in *. lia. }
    specialize (IH I2). destruct (enter b (t ++ text_of (l :: l2 :: ls))) as [[go prints] b1].
    change (map ReadOk (l :: l2 :: ls) ++ q) with (ReadOk l :: (map ReadOk (l2 :: ls) ++ q)). rewrite (session_ok _ _ _ _ _ (run_more b c t l K Hb I1)), IH. unfold prompt, at_text. cbn [continuation].
    cbn [length Nat.sub repeat app]. rewrite Nat.sub_0_r. cbv zeta. destruct go; [|reflexivity].
    destruct (session q (fresh b1)) as [[z es] r]. reflexivity.
Qed.
Theorem script_session {h} (b : between h) ls es b' go q : keeps h -> script h b ls es b' go ->
  session (map ReadOk ls ++ q) (fresh b) =
  if go then let '(z, es2, r) := session q (fresh b') in (z, es ++ es2, r) else (None, es, Repl false (past b') (state b')).
Proof.
  intros K H. induction H as [b|b ls es b' go H IH|b input ls es b' go prints b1 O E H IH|b input ls prints b1 O E].
  - cbn [map app]. now destruct (session q (fresh b)) as [[z es2] r].
  - cbn [map app]. rewrite (session_ok (fresh b) [] _ [] (fresh b)) by reflexivity. rewrite IH. destruct go; [|reflexivity].
    now destruct (session q (fresh b')) as [[z es2] r].
  - destruct O as ((l & r & -> & Nl) & C & I). rewrite map_app, <- app_assoc.
    pose proof (input_rest b (map ReadOk ls ++ q) K (l :: r) false [] ltac:(discriminate) ltac:(eauto) C I) as X. cbn [app] in X. rewrite E in X.
    change (at_text false b []) with (fresh b) in X. rewrite X, IH. unfold prompt_of. destruct go.
    + destruct (session q (fresh b')) as [[z es2] r2]. cbn [app]. now rewrite <- !app_assoc.
    + cbn [app]. now rewrite <- !app_assoc.
  - destruct O as ((l & r & -> & Nl) & C & I). rewrite map_app, <- app_assoc.
    pose proof (input_rest b (map ReadOk ls ++ q) K (l :: r) false [] ltac:(discriminate) ltac:(eauto) C I) as X. cbn [app] in X. rewrite E in X.
    change (at_text false b []) with (fresh b) in X. rewrite X. reflexivity.
Qed.

(** every list of lines is a script, up to an input that is never completed *)
Lemma least (f : nat -> bool) : forall n, (exists k, 0 < k <= n /\ f k = false /\ forall j, 0 < j < k -> f j = true) \/ (forall j, 0 < j <= n -> f j = true).
Proof.
  induction n as [|n [L|R]]; [right; intros; lia|left; destruct L as (k & A & B); exists k; split; [lia|exact B]|].
  destruct (f (S n)) eqn:E; [|left; exists (S n); split; [lia|split; [exact E|intros; apply R; lia]]].
  right. intros j Hj. destruct (Nat.eq_dec j (S n)) as [->|]; [exact E|apply R; lia].
Qed.
Theorem all_scripts h : forall n (b : between h) ls, length ls <= n ->
  exists ls1 rest es b' go, ls = ls1 ++ rest /\ script h b ls1 es b' go /\
    (go = true -> rest = [] \/ (exists l r, rest = l :: r /\ l <> []) /\ forall k, 0 < k <= length rest -> incomplete h b' (text_of (firstn k rest)) = true).
Proof.
  induction n as [|n IH]; intros b ls L.
  - destruct ls; [|cbn in L; lia]. exists [], [], [], b, true. split; [reflexivity|split; [constructor|auto]].
  - destruct ls as [|l ls]; [exists [], [], [], b, true; split; [reflexivity|split; [constructor|auto]]|].
    destruct l as [|ch l].
    + destruct (IH b ls ltac:(cbn in L; lia)) as (l1 & rest & es & b' & go & -> & S & R). exists ([] :: l1), rest. eexists _, b', go. split; [reflexivity|split; [constructor; exact S|exact R]].
    + destruct (least (fun k => incomplete h b (text_of (firstn k ((ch :: l) :: ls)))) (length ((ch :: l) :: ls))) as [(k & Hk & C & I)|I].
      * set (all := (ch :: l) :: ls) in *. assert (O : one_input h b (firstn k all)).
        { split; [|split; [exact C|]].
          - destruct k as [|k]; [lia|]. exists (ch :: l), (firstn k ls). split; [reflexivity|discriminate].
          - intros j Hj. rewrite firstn_length in Hj. rewrite firstn_firstn, Nat.min_l by lia. apply I. lia. }
        destruct (enter b (text_of (firstn k all))) as [[go prints] b1] eqn:E. destruct go.
        -- destruct (IH b1 (skipn k all)) as (l1 & rest & es & b' & go & Eq & S & R). { rewrite skipn_length. cbn [length] in *. lia. }
           exists (firstn k all ++ l1), rest. eexists _, b', go. split; [rewrite <- app_assoc, <- Eq, firstn_skipn; reflexivity|]. split; [eapply s_input; eauto|exact R].
        -- exists (firstn k all ++ []), (skipn k all). eexists _, b1, false. split; [now rewrite app_nil_r, firstn_skipn|]. split; [eapply s_exit; eauto|discriminate].
      * exists [], ((ch :: l) :: ls), [], b, true. split; [reflexivity|split; [constructor|]]. intros _. right. split; [exists (ch :: l), ls; split; [reflexivity|discriminate]|exact I].
Qed.

(** ** A pending input *)
Lemma pending_rest {h} (b : between h) : keeps h -> forall ls c t, (c = false -> exists l r, ls = l :: r /\ l <> []) ->
  (forall k, 0 < k <= length ls -> incomplete h b (t ++ text_of (firstn k ls)) = true) ->
  session (map ReadOk ls) (at_text c b t) = (None, Prompt (prompt_of c) :: repeat (Prompt (Scan.text "... ")) (length ls), at_text (match ls with [] => c | _ => true end) b (t ++ text_of ls)).
Proof.
  intro K. induction ls as [|l ls IH]; intros c t B I.
  - cbn [text_of flat_map]. rewrite app_nil_r. reflexivity.
  - assert (Hb : is_blank l && negb c = false).
    { destruct c; [apply andb_false_r|]. destruct (B eq_refl) as (l' & r & E & Nl). injection E as <- <-. now destruct l. }
    assert (I1 : incomplete h b (t ++ l ++ [10%Z]) = true).
    { specialize (I 1 ltac:(cbn; lia)). cbn [firstn text_of flat_map] in I. rewrite app_nil_r in I. exact I. }
    assert (Et : forall x, (t ++ l ++ [10%Z]) ++ text_of x = t ++ text_of (l :: x)) by (intro x; cbn [text_of flat_map]; now rewrite <- !app_assoc).
    change (map ReadOk (l :: ls)) with (ReadOk l :: map ReadOk ls). rewrite (session_ok _ _ _ _ _ (run_more b c t l K Hb I1)).
    rewrite (IH true (t ++ l ++ [10%Z])).
    + rewrite Et. cbn [length repeat app]. now destruct ls.
    + discriminate.
    + intros k Hk. rewrite Et. apply (I (S k)). cbn [length]. lia.
Qed.
Theorem pending_session {h} (b : between h) ls : keeps h -> (exists l r, ls = l :: r /\ l <> []) ->
  (forall k, 0 < k <= length ls -> incomplete h b (text_of (firstn k ls)) = true) ->
  session (map ReadOk ls) (fresh b) = (None, Prompt (Scan.text ">>> ") :: repeat (Prompt (Scan.text "... ")) (length ls), Repl true (with_input b (text_of ls)) (state b)).
Proof.
  intros K N I. pose proof (pending_rest b K ls false [] ltac:(auto) I) as X. destruct N as (l & r & -> & _). exact X.
Qed.
