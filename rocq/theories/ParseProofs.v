From Coq Require Import String Arith Lia.
From Verif Require Import Base Parse ParseSpec.
Local Open Scope nat_scope.

(** * Newlines *)
Lemma visible_skip t : visible (skip t) = visible t.
Proof. induction t as [|x t IH]; [reflexivity|]. destruct x; try reflexivity. exact IH. Qed.
Lemma skip_head t x r : skip t = x :: r -> x <> TNewLine.
Proof. induction t as [|y t IH]; [discriminate|]. destruct y; simpl; intros E; try (injection E as <- <-; discriminate). now apply IH. Qed.
Lemma skip_vis t : skip t = [] /\ visible t = [] \/ exists x r, skip t = x :: r /\ visible t = x :: visible r.
Proof.
  rewrite <- (visible_skip t). destruct (skip t) as [|x r] eqn:E; [left; auto|right]. exists x, r. split; [reflexivity|].
  pose proof (skip_head t x r E). destruct x; try reflexivity. contradiction.
Qed.
Lemma vis_adv t x : peek t = Some x -> visible t = x :: visible (advance t).
Proof.
  unfold peek, advance. destruct (skip_vis t) as [[-> _]|(y & r & -> & E)]; [discriminate|]. simpl. now intros [= <-].
Qed.
Lemma peek_vis t : peek t = hd_error (visible t).
Proof. unfold peek. destruct (skip_vis t) as [[-> ->]|(y & r & -> & ->)]; reflexivity. Qed.
Lemma peek_none t : peek t = None -> visible t = [].
Proof. rewrite peek_vis. now destruct (visible t). Qed.
Lemma vis_advance t : visible (advance t) = tl (visible t).
Proof. unfold advance. destruct (skip_vis t) as [[-> ->]|(y & r & -> & ->)]; reflexivity. Qed.
Lemma peek_cons x t : x <> TNewLine -> peek (x :: t) = Some x.
Proof. now destruct x. Qed.
Lemma advance_cons x t : x <> TNewLine -> advance (x :: t) = t.
Proof. now destruct x. Qed.
Lemma skip_le t : length (skip t) <= length t.
Proof. induction t as [|x t IH]; [auto|]. destruct x; simpl; lia. Qed.
Lemma advance_lt t x : peek t = Some x -> length (advance t) < length t.
Proof. unfold peek, advance. pose proof (skip_le t). destruct (skip t); [discriminate|]. simpl in *. lia. Qed.
Lemma advance_le t : length (advance t) <= length t.
Proof. unfold advance. pose proof (skip_le t). destruct (skip t); simpl in *; lia. Qed.

(** * Where the parts of the parser stop *)
Definition op_stop (j : nat) (t : list token) : Prop :=
  match op_at j t with None => True | Some (_, r) => j <> 7 /\ is_close_paren (peek r) = true end.
Definition suf_stop (t : list token) : Prop :=
  match hd_error t with Some (TOpenP | TOpenS) => False | _ => True end /\ bare_start t = false /\ peek t <> Some TArrow.
Definition bare_stop (t : list token) : Prop := peek t = Some TComma -> is_close_paren (peek2 t) || is_equals (peek2 t) = true.
Definition stop (k : nat) (t : list token) : Prop :=
  (1 <= k -> suf_stop t) /\ (forall j, 3 <= j <= k -> op_stop j t).
Definition okm (m : mode) (t : list token) : Prop :=
  (m = Open -> stop 9 t /\ assign_at t = None) /\ (m = Bare -> is_equals (peek t) = false).
Lemma okm_closed t : okm Closed t. Proof. split; discriminate. Qed.
Lemma stop_loop P k t : op_stop k t -> loop P k t = Got [] t.
Proof.
  unfold op_stop, loop. destruct (op_at k t) as [[o r]|]; [|reflexivity]. intros [H ->].
  apply Nat.eqb_neq in H. rewrite H. reflexivity.
Qed.
Lemma stop_suffix P e t : suf_stop t -> suffix P e t = Got e t.
Proof.
  unfold suf_stop, suffix. intros (A & B & C). rewrite B.
  destruct t as [|x t]; [reflexivity|]. destruct x; try contradiction; try (destruct (peek _) as [[]|]; congruence); reflexivity.
Qed.
Lemma stop_le j k t : stop k t -> j <= k -> stop j t.
Proof. intros [A B] H. split; [intros; apply A; lia|intros; apply B; lia]. Qed.
Lemma stop_S k t : 1 <= k -> stop k t -> op_stop (S k) t -> stop (S k) t.
Proof. intros H [A B] C. split; [intros; apply A; lia|]. intros j J. destruct (Nat.eq_dec j (S k)) as [->|]; [exact C|apply B; lia]. Qed.
Lemma stop_1 t : suf_stop t -> stop 1 t. Proof. intros H. split; [auto|intros; lia]. Qed.

(** * Operators *)
Lemma long_op_vis t o r : long_op t = Some (o, r) -> visible t = spelling (IBin o) ++ visible r /\ precedence (IBin o) = 3 /\ (o = BIs -> peek r <> Some TKNot) /\ op_at 3 t = Some (IBin o, r).
Proof.
  intros H. assert (H' := H). unfold long_op in H. unfold op_at. rewrite H'. destruct (peek t) as [x|] eqn:E; [|discriminate].
  pose proof (vis_adv t x E) as V. unfold peek2 in H.
  destruct x; try discriminate.
  - destruct (peek (advance t)) as [y|] eqn:E2.
    + destruct y; simpl in H; injection H as <- <-; rewrite V; (repeat split; try reflexivity; try congruence); simpl; rewrite ?(vis_adv _ _ E2); auto.
    + simpl in H; injection H as <- <-; rewrite V. repeat split; try reflexivity; congruence.
  - injection H as <- <-. rewrite V. repeat split; try reflexivity; congruence.
  - destruct (peek (advance t)) as [y|] eqn:E2; [|discriminate]. destruct y; simpl in H; try discriminate.
    injection H as <- <-. rewrite V, (vis_adv _ _ E2). repeat split; try reflexivity; congruence.
Qed.
Lemma op_at_vis k t o r : op_at k t = Some (o, r) -> visible t = spelling o ++ visible r /\ precedence o = k /\ (o = IBin BIs -> peek r <> Some TKNot).
Proof.
  intros H. unfold op_at in H.
  assert (L : match long_op t with Some (o, r) => Some (IBin o, r) | None => None end = Some (o, r) -> visible t = spelling o ++ visible r /\ precedence o = 3 /\ (o = IBin BIs -> peek r <> Some TKNot)).
  { destruct (long_op t) as [[o' r']|] eqn:E; [|discriminate]. intros [= <- <-]. destruct (long_op_vis _ _ _ E) as (A & B & C & _).
    split; [exact A|]. split; [exact B|]. intros [= ->]. now apply C. }
  do 10 (destruct k as [|k]; [
    destruct (peek t) as [x|] eqn:E; try discriminate H; try (apply L in H; exact H);
    destruct x; try discriminate H; try (apply L in H; exact H);
    try (match type of H with context [match ?s with SMul => _ | _ => _ end] => destruct s end; try discriminate H; try (apply L in H; exact H));
    injection H as <- <-; rewrite (vis_adv _ _ E); repeat split; try reflexivity; discriminate|]).
  destruct (peek t) as [x|]; discriminate.
Qed.
Lemma partial_op_at t o r : partial_op t = Some (o, r) ->
  o <> BSym SSub /\ visible t = spelling (IBin o) ++ visible r /\ (o = BIs -> peek r <> Some TKNot) /\ exists j, 3 <= j <= 9 /\ op_at j t = Some (IBin o, r).
Proof.
  intros H. unfold partial_op in H. destruct (peek t) as [x|] eqn:E.
  - assert (L : long_op t = Some (o, r) -> o <> BSym SSub /\ visible t = spelling (IBin o) ++ visible r /\ (o = BIs -> peek r <> Some TKNot) /\ exists j, 3 <= j <= 9 /\ op_at j t = Some (IBin o, r)).
    { intros H'. destruct (long_op_vis _ _ _ H') as (A & B & C & D). split; [intros ->; discriminate|]. split; [exact A|]. split; [exact C|]. exists 3. split; [lia|exact D]. }
    destruct x; try (apply L in H; exact H).
    destruct s; try discriminate H; injection H as <- <-; (split; [discriminate|]); rewrite (vis_adv _ _ E); (split; [reflexivity|]); (split; [discriminate|]); unfold op_at; rewrite E;
      [exists 3|exists 3|exists 3|exists 3|exists 4|exists 5|exists 5|exists 6|exists 6|exists 6|exists 8|exists 8|exists 8|exists 8|exists 8|exists 8]; split; try reflexivity; lia.
  - unfold long_op in H. rewrite E in H. discriminate.
Qed.
Lemma assign_at_vis t q r : assign_at t = Some (q, r) -> visible t = assign_spelling q ++ visible r /\ (q = None -> is_equals (peek t) = true).
Proof.
  unfold assign_at. destruct (peek t) as [x|] eqn:E; [|discriminate]. destruct x; try discriminate.
  - destruct (String.eqb_spec x "max") as [->|]; [|destruct (String.eqb_spec x "min") as [->|]; [|discriminate]].
    + unfold peek2. destruct (peek (advance t)) as [y|] eqn:E2; [|discriminate]. destruct y; try discriminate. intros [= <- <-].
      rewrite (vis_adv _ _ E), (vis_adv _ _ E2). split; [reflexivity|discriminate].
    + unfold peek2. destruct (peek (advance t)) as [y|] eqn:E2; [|discriminate]. destruct y; try discriminate. intros [= <- <-].
      rewrite (vis_adv _ _ E), (vis_adv _ _ E2). split; [reflexivity|discriminate].
  - intros [= <- <-]. rewrite (vis_adv _ _ E). split; reflexivity.
  - intros [= <- <-]. rewrite (vis_adv _ _ E). split; [reflexivity|discriminate].
Qed.
