(** Proofs about the linearisation of control flow graphs. *)
From Verif Require Import Base Native Err Vm Graph GraphSpec.
Local Open Scope nat_scope.

Lemma upd_length {A} (l : list A) i x : length (upd l i x) = length l.
Proof. revert i. induction l as [|a l IH]; intros [|i]; simpl; auto. Qed.
Lemma upd_app1 {A} (l r : list A) i x : i < length l -> upd (l ++ r) i x = upd l i x ++ r.
Proof. revert i. induction l as [|a l IH]; intros [|i] H; simpl in *; try lia; auto. rewrite IH; [auto | lia]. Qed.
Lemma upd_app2 {A} (l r : list A) x y : upd (l ++ y :: r) (length l) x = l ++ x :: r.
Proof. induction l; simpl; congruence. Qed.

(** the final code of a block, given all block starts *)
Definition endcode (S0 : list nat) (bid idx : nat) (e : blockend) : list op :=
  match e with
  | EExit => []
  | ENext n => if S bid =? n then [] else [OJump (offset (nth n S0 0) idx)]
  | EBranch ty d t => brop ty (offset (nth t S0 0) idx) ::
      (if S bid =? d then [] else [OJump (offset (nth d S0 0) (S idx))])
  end.
Definition chunk (S0 : list nat) (bid pos : nat) (b : block) : list op :=
  bcode b ++ endcode S0 bid (pos + length (bcode b)) (bend b).
Fixpoint chunks (S0 : list nat) (bid pos : nat) (bs : graph) : list op :=
  match bs with
  | [] => []
  | b :: r => chunk S0 bid pos b ++ chunks S0 (S bid) (pos + length (chunk [] bid pos b)) r
  end.
Fixpoint layout (bid pos : nat) (bs : graph) : list nat :=
  match bs with [] => [] | b :: r => pos :: layout (S bid) (pos + length (chunk [] bid pos b)) r end.

Lemma endcode_len S0 S1 bid i j e : length (endcode S0 bid i e) = length (endcode S1 bid j e).
Proof. destruct e as [|n|ty d t]; simpl; auto; [destruct n as [|n]; auto; destruct (bid =? n) | destruct d as [|d]; auto; destruct (bid =? d)]; auto. Qed.
Lemma chunk_len S0 bid pos b : length (chunk S0 bid pos b) = length (chunk [] bid pos b).
Proof. unfold chunk. rewrite !app_length. f_equal. apply endcode_len. Qed.

Lemma patch_app S0 b1 b2 c : patch S0 (b1 ++ b2) c = patch S0 b2 (patch S0 b1 c).
Proof. unfold patch. apply fold_left_app. Qed.
Lemma patch_len S0 brs : forall c, length (patch S0 brs c) = length c.
Proof. induction brs as [|[[i t] ty] r IH]; intro c; simpl; auto. rewrite IH. apply upd_length. Qed.
Definition brs_ok (brs : list (nat * nat * brtype)) (n : nat) := Forall (fun b => fst (fst b) < n) brs.
Lemma patch_ext S0 brs : forall c l, brs_ok brs (length c) -> patch S0 brs (c ++ l) = patch S0 brs c ++ l.
Proof.
  induction brs as [|[[i t] ty] r IH]; intros c l H; simpl; auto.
  inversion H; subst; simpl in *. rewrite upd_app1 by auto. apply IH. unfold brs_ok. rewrite upd_length. auto.
Qed.
Lemma brs_ok_le brs n m : brs_ok brs n -> n <= m -> brs_ok brs m.
Proof. unfold brs_ok. intros H L. eapply Forall_impl; [|exact H]. simpl. intros. lia. Qed.

Lemma emit_blocks_starts : forall bs bid code starts brs,
  snd (fst (emit_blocks bid bs code starts brs)) = starts ++ layout bid (length code) bs.
Proof.
  induction bs as [|b r IH]; intros; simpl; [now rewrite app_nil_r|].
  unfold chunk; destruct (bend b) as [|n|ty d t]; simpl.
  - rewrite IH, <- app_assoc, !app_length. simpl. now rewrite Nat.add_0_r.
  - destruct (match n with 0 => false | S m' => bid =? m' end); simpl;
    rewrite IH, <- app_assoc; do 2 f_equal; simpl; f_equal; rewrite !app_length; simpl; f_equal; lia.
  - destruct (match d with 0 => false | S m' => bid =? m' end); simpl;
    rewrite IH, <- app_assoc; do 2 f_equal; simpl; f_equal; rewrite !app_length; simpl; f_equal; lia.
Qed.

Local Ltac ch := match goal with |- ?L = ?R => match L with context [chunks ?s ?b ?x ?r] => match R with context [chunks s b ?y r] =>
  replace x with y by lia; try reflexivity; rewrite <- ?plus_n_Sm, ?Nat.add_0_r; try reflexivity end end end.
Lemma emit_blocks_code : forall bs S0 bid code starts brs,
  brs_ok brs (length code) ->
  let '(c, _, b') := emit_blocks bid bs code starts brs in
  patch S0 b' c = patch S0 brs code ++ chunks S0 bid (length code) bs.
Proof.
  induction bs as [|b r IH]; intros S0 bid code starts brs H; cbn [emit_blocks chunks]; [now rewrite app_nil_r|].
  unfold chunk at 1. 
  assert (H2 : brs_ok brs (length (code ++ bcode b))) by (eapply brs_ok_le; [exact H | rewrite app_length; lia]).
  assert (HL : forall e, length (chunk [] bid (length code) (Block (bcode b) e)) = length (bcode b) + length (endcode [] bid 0 e))
    by (intro e; unfold chunk; rewrite app_length; f_equal; apply endcode_len).
  destruct b as [bc be]; cbn [bcode bend] in *.
  destruct be as [|n|ty d t]; cbn [bcode bend] in *.
  - specialize (IH S0 (S bid) (code ++ bc) (starts ++ [length code]) brs H2).
    destruct (emit_blocks _ _ _ _ _) as [[c st] b']. rewrite IH.
    rewrite patch_ext by auto. rewrite <- !app_assoc. cbn [endcode]. rewrite HL, app_length. cbn. rewrite Nat.add_0_r. reflexivity.
  - rewrite HL. cbn [endcode]. destruct (S bid =? n) eqn:E; cbn [endcode].
    + specialize (IH S0 (S bid) (code ++ bc) (starts ++ [length code]) brs H2).
      destruct (emit_blocks _ _ _ _ _) as [[c st] b']. rewrite IH.
      rewrite patch_ext by auto. rewrite <- !app_assoc. cbn [length app]. rewrite app_length, Nat.add_0_r. reflexivity.
    + specialize (IH S0 (S bid) ((code ++ bc) ++ [placeholder]) (starts ++ [length code]) (brs ++ [(length (code ++ bc), n, BrJump)])).
      destruct (emit_blocks _ _ _ _ _) as [[c st] b']. rewrite IH.
      * rewrite patch_app. rewrite patch_ext by auto. simpl.
        assert (E2 : length (code ++ bc) = length (patch S0 brs (code ++ bc))) by now rewrite patch_len.
        rewrite E2 at 1. rewrite upd_app2. rewrite patch_ext by auto.
        rewrite <- !app_assoc. simpl. rewrite !app_length. simpl.
        ch.
      * unfold brs_ok. apply Forall_app. split; [eapply brs_ok_le; [exact H2 | rewrite (app_length (code ++ bc)); lia]|].
        repeat constructor. simpl. rewrite (app_length (code ++ bc)). simpl. lia.
  - assert (H3 : brs_ok (brs ++ [(length (code ++ bc), t, ty)]) (length ((code ++ bc) ++ [placeholder]))).
    { apply Forall_app. split; [eapply brs_ok_le; [exact H2 | rewrite (app_length (code ++ bc)); lia]|].
        repeat constructor. simpl. rewrite (app_length (code ++ bc)). simpl. lia. }
    assert (E2 : length (code ++ bc) = length (patch S0 brs (code ++ bc))) by now rewrite patch_len.
    assert (P1 : patch S0 (brs ++ [(length (code ++ bc), t, ty)]) ((code ++ bc) ++ [placeholder])
      = patch S0 brs code ++ bc ++ [brop ty (offset (nth t S0 0) (length (code ++ bc)))]).
    { rewrite patch_app, patch_ext by auto. simpl. rewrite E2 at 1. rewrite upd_app2, patch_ext by auto.
      now rewrite <- app_assoc. }
    rewrite HL. cbn [endcode]. destruct (S bid =? d) eqn:E; cbn [endcode].
    + specialize (IH S0 (S bid) ((code ++ bc) ++ [placeholder]) (starts ++ [length code]) _ H3).
      destruct (emit_blocks _ _ _ _ _) as [[c st] b']. rewrite IH, P1.
      rewrite <- !app_assoc. simpl. rewrite !app_length. simpl. ch.
    + specialize (IH S0 (S bid) (((code ++ bc) ++ [placeholder]) ++ [placeholder]) (starts ++ [length code])
        ((brs ++ [(length (code ++ bc), t, ty)]) ++ [(length ((code ++ bc) ++ [placeholder]), d, BrJump)])).
      destruct (emit_blocks _ _ _ _ _) as [[c st] b']. rewrite IH.
      * rewrite patch_app. rewrite (patch_ext S0 (brs ++ _)) by auto. simpl.
        assert (E4 : length ((code ++ bc) ++ [placeholder]) = length (patch S0 (brs ++ [(length (code ++ bc), t, ty)]) ((code ++ bc) ++ [placeholder]))) by now rewrite patch_len.
        rewrite E4 at 1. rewrite upd_app2. rewrite P1.
        rewrite <- !app_assoc. simpl. rewrite !app_length. simpl. ch.
      * apply Forall_app. split; [eapply brs_ok_le; [exact H3 | rewrite !app_length; simpl; lia]|].
        repeat constructor. simpl. rewrite !app_length. simpl. lia.
Qed.

Lemma emit_eq g code : emit g code = (code ++ chunks (layout 0 (length code) g) 0 (length code) g, layout 0 (length code) g).
Proof.
  unfold emit. pose proof (emit_blocks_starts g 0 code [] []) as A.
  pose proof (fun S0 => emit_blocks_code g S0 0 code [] [] (Forall_nil _)) as B.
  destruct (emit_blocks 0 g code [] []) as [[c st] b]. simpl in A. subst st. now rewrite B.
Qed.

Lemma layout_len bs : forall bid pos, length (layout bid pos bs) = length bs.
Proof. induction bs; intros; simpl; auto. Qed.

(** where block [b] is *)
Lemma block_at : forall bs S0 bid pos b blk s,
  nth_error bs b = Some blk -> nth_error (layout bid pos bs) b = Some s ->
  pos <= s /\
  (exists pre post, chunks S0 bid pos bs = pre ++ chunk S0 (bid + b) s blk ++ post /\ length pre = s - pos) /\
  (forall s', nth_error (layout bid pos bs) (S b) = Some s' -> s' = s + length (chunk S0 (bid + b) s blk)).
Proof.
  induction bs as [|a r IH]; intros S0 bid pos [|b] blk s H L; simpl in *; try discriminate.
  - injection H as ->. injection L as <-. split; [lia|]. rewrite Nat.add_0_r. split.
    + exists [], (chunks S0 (S bid) (pos + length (chunk [] bid pos blk)) r). simpl. split; [auto|lia].
    + intros s' H. destruct r; simpl in H; [discriminate|]. injection H as <-. now rewrite (chunk_len S0).
  - destruct (IH S0 (S bid) _ b blk s H L) as [A [[pre [post [B D]]] F]].
    split; [lia|]. split.
    + exists (chunk S0 bid pos a ++ pre), post. rewrite B, <- app_assoc. split.
      * now rewrite Nat.add_succ_r.
      * rewrite app_length, D, chunk_len. lia.
    + intros s' Hs. rewrite (F s' Hs). now rewrite Nat.add_succ_r.
Qed.

Lemma i32_small z : (-2147483648 <= z < 2147483648)%Z -> i32 z = z.
Proof. intro H. unfold i32. change (2^31)%Z with 2147483648%Z. change (2^32)%Z with 4294967296%Z. rewrite Z.mod_small; lia. Qed.
Lemma offset_small s i : (Z.of_nat s < 2147483648)%Z -> (Z.of_nat i < 2147483647)%Z ->
  offset s i = (Z.of_nat s - Z.of_nat i - 1)%Z.
Proof. intros. unfold offset. rewrite (i32_small (Z.of_nat s)), (i32_small (Z.of_nat i)) by lia. apply i32_small. lia. Qed.

Lemma nth_mid {A} (pre l post : list A) i x : nth_error l i = Some x -> nth_error (pre ++ l ++ post) (length pre + i) = Some x.
Proof.
  intro H. rewrite nth_error_app2 by lia. replace (length pre + i - length pre) with i by lia.
  rewrite nth_error_app1; [auto | now apply nth_error_Some; rewrite H].
Qed.

(** the flat code of a graph, as seen from outside: everything the later proofs use *)
Record laid (C : list op) (G : graph) (st : list nat) : Prop := {
  l_len : length st = length G;
  l_op : forall b blk i o, nth_error G b = Some blk -> nth_error (bcode blk) i = Some o ->
    nth_error C (nth b st 0 + i) = Some o;
  l_next : forall b blk n, nth_error G b = Some blk -> bend blk = ENext n -> n < length G ->
    (n = S b /\ nth n st 0 = nth b st 0 + length (bcode blk)) \/
    (n <> S b /\ nth_error C (nth b st 0 + length (bcode blk)) = Some (OJump (Z.of_nat (nth n st 0) - Z.of_nat (nth b st 0 + length (bcode blk)) - 1)));
  l_branch : forall b blk ty d t, nth_error G b = Some blk -> bend blk = EBranch ty d t -> d < length G -> t < length G ->
    nth_error C (nth b st 0 + length (bcode blk)) = Some (brop ty (Z.of_nat (nth t st 0) - Z.of_nat (nth b st 0 + length (bcode blk)) - 1)) /\
    ((d = S b /\ nth d st 0 = S (nth b st 0 + length (bcode blk))) \/
     (d <> S b /\ nth_error C (S (nth b st 0 + length (bcode blk))) = Some (OJump (Z.of_nat (nth d st 0) - Z.of_nat (S (nth b st 0 + length (bcode blk))) - 1))))}.

Lemma emit_laid G base C st : emit G base = (C, st) -> (Z.of_nat (length C) < 2147483648)%Z -> laid C G st.
Proof.
  intros H Hlen. rewrite emit_eq in H. injection H as HC Hst.
  assert (L : length st = length G) by (subst st; apply layout_len).
  assert (N : forall b, b < length G -> nth_error (layout 0 (length base) G) b = Some (nth b st 0)).
  { intros b Hb. rewrite Hst. apply nth_error_nth'. lia. }
  assert (K : forall b blk, nth_error G b = Some blk -> forall i o, nth_error (chunk st b (nth b st 0) blk) i = Some o ->
     nth_error C (nth b st 0 + i) = Some o).
  { intros b blk Hb i o Hi. assert (b < length G) by (apply nth_error_Some; now rewrite Hb).
    destruct (block_at G st 0 (length base) b blk _ Hb (N b ltac:(auto))) as [A [[pre [post [B D]]] _]].
    rewrite Hst in HC. rewrite B in HC. subst C. simpl.
    rewrite app_assoc.
    replace (nth b st 0 + i) with (length (base ++ pre) + i) by (rewrite app_length, D; lia).
    apply nth_mid. exact Hi. }
  assert (Sm : forall b, b < length G -> nth b st 0 <= length C).
  { intros b Hb. destruct (nth_error G b) as [blk|] eqn:Eb; [|apply nth_error_None in Eb; lia].
    destruct (block_at G st 0 (length base) b blk _ Eb (N b Hb)) as [A [[pre [post [B D]]] _]].
    rewrite Hst in HC. rewrite B in HC. subst C. rewrite !app_length. lia. }
  assert (LT : forall p o, nth_error C p = Some o -> p < length C) by (intros p o Hp; apply nth_error_Some; now rewrite Hp).
  assert (Nx : forall b blk, nth_error G b = Some blk -> S b < length G -> nth (S b) st 0 = nth b st 0 + length (chunk st b (nth b st 0) blk)).
  { intros b blk Hb H2. 
    destruct (block_at G st 0 (length base) b blk _ Hb (N b ltac:(lia))) as [_ [_ F]]. apply F. now apply N. }
  split; auto.
  - intros b blk i o Hb Hi. apply (K b blk Hb). unfold chunk. rewrite nth_error_app1; [auto | apply nth_error_Some; now rewrite Hi].
  - intros b blk n Hb He Hn. pose proof (K b blk Hb) as K1. unfold chunk in K1. rewrite He in K1. simpl in K1.
    destruct (match n with 0 => false | S m' => b =? m' end) eqn:E.
    + left. destruct n as [|n]; [discriminate|]. apply Nat.eqb_eq in E. subst n. split; [auto|].
      rewrite (Nx b blk Hb) by auto. unfold chunk. rewrite He. simpl. rewrite Nat.eqb_refl, app_nil_r. reflexivity.
    + right. split; [intros ->; rewrite Nat.eqb_refl in E; discriminate|]. specialize (K1 (length (bcode blk))). rewrite nth_error_app2, Nat.sub_diag in K1 by lia. simpl in K1.
      specialize (K1 _ eq_refl). rewrite K1. do 2 f_equal. pose proof (Sm n Hn). pose proof (LT _ _ K1).
      apply offset_small; lia.
  - intros b blk ty d t Hb He Hd Ht. pose proof (K b blk Hb) as K1. unfold chunk in K1. rewrite He in K1. simpl in K1.
    pose proof (K1 (length (bcode blk))) as K2. rewrite nth_error_app2, Nat.sub_diag in K2 by lia. simpl in K2.
    specialize (K2 _ eq_refl). split.
    + rewrite K2. do 2 f_equal. pose proof (Sm t Ht). pose proof (LT _ _ K2). apply offset_small; lia.
    + destruct (match d with 0 => false | S m' => b =? m' end) eqn:E.
      * left. destruct d as [|d]; [discriminate|]. apply Nat.eqb_eq in E. subst d. split; [auto|].
        rewrite (Nx b blk Hb) by auto. unfold chunk. rewrite He, app_length. simpl. rewrite Nat.eqb_refl. simpl. lia.
      * right. split; [intros ->; rewrite Nat.eqb_refl in E; discriminate|]. pose proof (K1 (S (length (bcode blk)))) as K3. rewrite nth_error_app2 in K3 by lia.
        replace (S (length (bcode blk)) - length (bcode blk)) with 1 in K3 by lia. simpl in K3.
        specialize (K3 _ eq_refl). replace (S (nth b st 0 + length (bcode blk))) with (nth b st 0 + S (length (bcode blk))) by lia.
        rewrite K3. do 2 f_equal. pose proof (Sm d Hd). pose proof (LT _ _ K3).
        rewrite offset_small; lia.
Qed.

Lemma emit_prefix G base C st : emit G base = (C, st) -> exists l, C = base ++ l.
Proof. rewrite emit_eq. injection 1 as <- _. eauto. Qed.

Lemma laid_app C l G st : laid C G st -> laid (C ++ l) G st.
Proof.
  intro L.
  assert (X : forall p x, nth_error C p = Some x -> nth_error (C ++ l) p = Some x)
    by (intros p x Hp; rewrite nth_error_app1; [auto | apply nth_error_Some; congruence]).
  destruct L as [A B D F]. split; auto.
  - intros. apply X. eauto.
  - intros b0 blk n Hb He Hn. destruct (D b0 blk n Hb He Hn) as [E|[E1 E]]; [left; auto | right; split; [auto | apply X; auto]].
  - intros b0 blk ty d t Hb He Hd Ht. destruct (F b0 blk ty d t Hb He Hd Ht) as [E1 E2].
    split; [apply X; auto|]. destruct E2 as [E|[E1' E]]; [left; auto | right; split; [auto | apply X; auto]].
Qed.
Lemma layout_ge : forall bs bid pos b s, nth_error (layout bid pos bs) b = Some s -> pos <= s.
Proof.
  induction bs as [|a r IH]; intros bid pos [|b] s H; simpl in H; try discriminate.
  - injection H as <-. lia.
  - apply IH in H. lia.
Qed.
Lemma emit_starts_ge G base C st b s : emit G base = (C, st) -> nth_error st b = Some s -> length base <= s.
Proof. rewrite emit_eq. injection 1 as _ <-. apply layout_ge. Qed.
Lemma emit_start0 G base C st : emit G base = (C, st) -> G <> [] -> nth 0 st 0 = length base.
Proof. rewrite emit_eq. injection 1 as _ <-. destruct G; [congruence|reflexivity]. Qed.

(** ** Trace equality *)
Section sim.
Context (C : list op) (G : graph) (st : list nat) (HL : laid C G st) (HW : wf_graph G).
Local Notation addr b i := (nth b st 0 + i).

Lemma blk_wf b blk : nth_error G b = Some blk -> wf_block (length G) blk.
Proof. intro H. apply HW. eapply nth_error_In; eauto. Qed.

(** flat position [x] stands for graph position [p], possibly on a jump to it *)
Definition rel (p : nat * nat) (x : nat) : Prop :=
  (exists blk, nth_error G (fst p) = Some blk /\ snd p <= length (bcode blk) /\ (bend blk = EExit -> snd p < length (bcode blk))) /\
  (x = addr (fst p) (snd p) \/
   nth_error C x = Some (OJump (Z.of_nat (addr (fst p) (snd p)) - Z.of_nat x - 1))).

Lemma rel_0 b : b < length G -> rel (b, 0) (addr b 0).
Proof. intro H. split; [|auto]. destruct (nth_error G b) eqn:E; [|apply nth_error_None in E; lia]. 
  exists b0. simpl. split; [auto|]. split; [lia|]. intro He.
  destruct (blk_wf b b0 E) as [_ W]. rewrite He in W. destruct W as (c & o & -> & _). rewrite app_length. simpl. lia. Qed.

Lemma star_app {A} (R : A -> list event -> A -> Prop) x e y f z : star R x e y -> star R y f z -> star R x (e ++ f) z.
Proof. induction 1; intros; simpl; auto. rewrite <- app_assoc. econstructor; eauto. Qed.
Lemma star_one {A} (R : A -> list event -> A -> Prop) x e y : R x e y -> star R x e y.
Proof. intro H. rewrite <- (app_nil_r e). econstructor; [eauto|constructor]. Qed.

Lemma as_branch_brop ty z : ty <> BrJump -> as_branch (brop ty z) = Some (ty, z).
Proof. destruct ty; simpl; congruence. Qed.

(** settle: take the jump, if on one *)
Lemma settle p x : rel p x -> star (fstep C) x [] (addr (fst p) (snd p)).
Proof.
  intros [_ [->|J]]; [constructor|]. apply star_one. eapply f_jump; [exact J|]. lia.
Qed.

Lemma sim_fwd p e p' : gstep G p e p' -> forall x, rel p x -> exists x', star (fstep C) x e x' /\ rel p' x'.
Proof.
  intros Hs x Hr. pose proof (settle _ _ Hr) as S0.
  destruct Hs as [b blk i o Hb Hi Hf | b blk n Hb He | b blk ty d t Hb He | b blk ty d t Hb He]; simpl in S0;
    destruct (blk_wf b blk Hb) as [W1 W2].
  - exists (addr b (S i)). split.
    + change [EvOp o] with ([] ++ [EvOp o]). eapply star_app; [exact S0|]. apply star_one.
      rewrite Nat.add_succ_r. constructor; auto.
      * eapply l_op; eauto.
      * apply W1. eapply nth_error_In; eauto.
    + split; [|left; reflexivity]. exists blk. split; [auto|]. simpl. assert (i < length (bcode blk)) by (apply nth_error_Some; congruence). split; [lia|].
      intro He. rewrite He in W2. destruct W2 as (c & o2 & Hc & Ho2). rewrite Hc in *. rewrite app_length in *. simpl in *.
      destruct (Nat.eq_dec i (length c)) as [->|]; [|lia]. rewrite nth_error_app2, Nat.sub_diag in Hi by lia. simpl in Hi. congruence.
  - rewrite He in W2. exists (addr b (length (bcode blk))). split; [exact S0|].
    destruct (l_next _ _ _ HL b blk n Hb He W2) as [[_ E]|[_ E]].
    + rewrite <- E. replace (nth n st 0) with (addr n 0) by lia. now apply rel_0.
    + split; [now apply rel_0|]. right. simpl. rewrite E. do 2 f_equal. lia.
  - rewrite He in W2. destruct W2 as (Wd & Wt & Wj). destruct (l_branch _ _ _ HL b blk ty d t Hb He Wd Wt) as [B _].
    exists (addr t 0). split; [|now apply rel_0].
    change [EvBranch ty true] with ([] ++ [EvBranch ty true]). eapply star_app; [exact S0|]. apply star_one.
    eapply f_taken; [exact B | now apply as_branch_brop | lia].
  - rewrite He in W2. destruct W2 as (Wd & Wt & Wj). destruct (l_branch _ _ _ HL b blk ty d t Hb He Wd Wt) as [B D].
    exists (S (addr b (length (bcode blk)))). split.
    + change [EvBranch ty false] with ([] ++ [EvBranch ty false]). eapply star_app; [exact S0|]. apply star_one.
      eapply f_not_taken; [exact B | now apply as_branch_brop].
    + destruct D as [[_ D]|[_ D]].
      * rewrite <- D. replace (nth d st 0) with (addr d 0) by lia. now apply rel_0.
      * split; [now apply rel_0|]. right. cbn [fst snd]. rewrite D. do 2 f_equal. lia.
Qed.

Lemma sim_fwd_star p e p' : star (gstep G) p e p' -> forall x, rel p x -> exists x', star (fstep C) x e x' /\ rel p' x'.
Proof.
  induction 1 as [|p e q f r H1 H2 IH]; intros y0 Hr; [exists y0; split; [constructor|auto]|].
  destruct (sim_fwd _ _ _ H1 y0 Hr) as [y [A B]]. destruct (IH y B) as [z [D F]]. exists z. split; [eapply star_app; eauto | auto].
Qed.

Lemma is_jump_brop ty z : is_jump (brop ty z) = true.
Proof. destruct ty; reflexivity. Qed.

Lemma fstep_jump_inv p z e q : nth_error C p = Some (OJump z) -> fstep C p e q -> e = [] /\ Z.of_nat q = (Z.of_nat p + 1 + z)%Z.
Proof. intros H Hs. inversion Hs; subst; rewrite H in *; match goal with E : Some _ = Some _ |- _ => injection E as ? end; subst; simpl in *; try discriminate; auto. Qed.

(** one flat step from an exact position: the number of blocks ahead bounds the fall-throughs *)
Lemma sim_bwd_exact : forall k b i e x', length G - b < k -> rel (b, i) (addr b i) -> fstep C (addr b i) e x' ->
  exists p', star (gstep G) (b, i) e p' /\ rel p' x'.
Proof.
  induction k as [|k IH]; intros b i e x' Hk Hr Hs; [lia|].
  destruct Hr as [(blk & Hb & Hi & Hx) _]. simpl in *.
  destruct (blk_wf b blk Hb) as [W1 W2].
  assert (b < length G) by (apply nth_error_Some; congruence).
  destruct (Nat.eq_dec i (length (bcode blk))) as [->|Ni].
  - destruct (bend blk) as [|n|ty d t] eqn:He.
    + specialize (Hx eq_refl). lia.
    + destruct (l_next _ _ _ HL b blk n Hb He W2) as [[-> E]|[_ E]].
      * rewrite <- E in Hs. replace (nth (S b) st 0) with (addr (S b) 0) in Hs by lia.
        destruct (IH (S b) 0 e x') as [p' [A B]]; [lia | now apply rel_0 | auto |].
        exists p'. split; [|auto]. change e with ([] ++ e). econstructor; [eapply g_next; eauto | auto].
      * destruct (fstep_jump_inv _ _ _ _ E Hs) as [-> Q].
        exists (n, 0). split; [apply star_one; eapply g_next; eauto|].
        replace x' with (addr n 0) by lia. now apply rel_0.
    + destruct W2 as (Wd & Wt & Wj). destruct (l_branch _ _ _ HL b blk ty d t Hb He Wd Wt) as [B D].
      pose proof (as_branch_brop ty (Z.of_nat (nth t st 0) - Z.of_nat (nth b st 0 + length (bcode blk)) - 1) Wj) as AB.
      inversion Hs as [p o Hp Hj Hf | p z q Hp Hq | p o ty' z q Hp Ha Hq | p o ty' z Hp Ha]; subst; rewrite B in Hp; injection Hp as Hp.
      * subst o. rewrite is_jump_brop in Hj. discriminate.
      * destruct ty; simpl in Hp; congruence.
      * subst o. rewrite AB in Ha. injection Ha as <- <-. exists (t, 0). split; [apply star_one; eapply g_taken; eauto|].
        replace x' with (addr t 0) by lia. now apply rel_0.
      * subst o. rewrite AB in Ha. injection Ha as <- <-. exists (d, 0). split; [apply star_one; eapply g_not_taken; eauto|].
        destruct D as [[_ D]|[_ D]].
        -- rewrite <- D. replace (nth d st 0) with (addr d 0) by lia. now apply rel_0.
        -- split; [now apply rel_0|]. right. cbn [fst snd]. rewrite D. do 2 f_equal. lia.
  - destruct (nth_error (bcode blk) i) as [o|] eqn:Ho; [|apply nth_error_None in Ho; lia].
    pose proof (l_op _ _ _ HL b blk i o Hb Ho) as P. pose proof (W1 o (nth_error_In _ _ Ho)) as J.
    inversion Hs as [p o' Hp Hj Hf | p z q Hp Hq | p o' ty' z q Hp Ha Hq | p o' ty' z Hp Ha]; subst; rewrite P in Hp; injection Hp as Hp; subst.
    + destruct (sim_fwd (b, i) [EvOp o'] (b, S i)) with (x := addr b i) as [y [A B]].
      * econstructor; eauto.
      * split; [|left; reflexivity]. exists blk. auto.
      * exists (b, S i). split; [apply star_one; econstructor; eauto|]. destruct B as [B1 _]. split; [exact B1|]. left. simpl. lia.
    + simpl in J. discriminate.
    + unfold is_jump in J. rewrite Ha in J. destruct o'; discriminate.
    + unfold is_jump in J. rewrite Ha in J. destruct o'; discriminate.
Qed.

Lemma sim_bwd p x e x' : rel p x -> fstep C x e x' -> exists p', star (gstep G) p e p' /\ rel p' x'.
Proof.
  destruct p as [b i]. intros Hr Hs. destruct Hr as [H1 [H2|H2]]; simpl in *.
  - subst x. eapply sim_bwd_exact; eauto. split; auto.
  - destruct (fstep_jump_inv _ _ _ _ H2 Hs) as [-> Q]. exists (b, i). split; [constructor|].
    split; [exact H1|]. left. simpl. lia.
Qed.
Lemma sim_bwd_star x e x' : star (fstep C) x e x' -> forall p, rel p x -> exists p', star (gstep G) p e p' /\ rel p' x'.
Proof.
  induction 1 as [|x e y f z H1 H2 IH]; intros p Hr; [exists p; split; [constructor|auto]|].
  destruct (sim_bwd _ _ _ _ Hr H1) as [q [A B]]. destruct (IH q B) as [r [D F]]. exists r. split; [eapply star_app; eauto | auto].
Qed.

(** from an exact position on a final opcode, the graph falls through to it *)
Lemma final_bwd : forall k b i o, length G - b < k -> rel (b, i) (addr b i) -> nth_error C (addr b i) = Some o -> is_final o = true ->
  exists c j blk, star (gstep G) (b, i) [] (c, j) /\ nth_error G c = Some blk /\ nth_error (bcode blk) j = Some o.
Proof.
  induction k as [|k IH]; intros b i o Hk Hr Ho Hf; [lia|].
  destruct Hr as [(blk & Hb & Hi & Hx) _]. simpl in *.
  destruct (blk_wf b blk Hb) as [W1 W2]. assert (b < length G) by (apply nth_error_Some; congruence).
  destruct (Nat.eq_dec i (length (bcode blk))) as [->|Ni].
  - destruct (bend blk) as [|n|ty d t] eqn:He.
    + specialize (Hx eq_refl). lia.
    + destruct (l_next _ _ _ HL b blk n Hb He W2) as [[-> E]|[_ E]].
      * rewrite <- E in Ho. replace (nth (S b) st 0) with (addr (S b) 0) in Ho by lia.
        destruct (IH (S b) 0 o) as (c & j & blk' & A & B & D); [lia | now apply rel_0 | auto | auto |].
        exists c, j, blk'. split; [|auto]. change (@nil event) with (@nil event ++ []). econstructor; [eapply g_next; eauto | auto].
      * rewrite Ho in E. injection E as ->. discriminate.
    + destruct W2 as (Wd & Wt & Wj). destruct (l_branch _ _ _ HL b blk ty d t Hb He Wd Wt) as [B _].
      rewrite Ho in B. injection B as ->. destruct ty; discriminate.
  - destruct (nth_error (bcode blk) i) as [o'|] eqn:Ho'; [|apply nth_error_None in Ho'; lia].
    rewrite (l_op _ _ _ HL b blk i o' Hb Ho') in Ho. injection Ho as ->. exists b, i, blk. split; [constructor|auto].
Qed.

Theorem traces_equal b evs : b < length G -> (graph_can G b evs <-> flat_can C (nth b st 0) evs).
Proof.
  intro H. pose proof (rel_0 b H) as R. rewrite Nat.add_0_r in R. split.
  - intros [p A]. destruct (sim_fwd_star _ _ _ A _ R) as [x [B _]]. exists x. auto.
  - intros [x A]. destruct (sim_bwd_star _ _ _ A _ R) as [p [B _]]. exists p. auto.
Qed.
Theorem ends_equal b evs o : b < length G -> (graph_ends G b evs o <-> flat_ends C (nth b st 0) evs o).
Proof.
  intro H. pose proof (rel_0 b H) as R. rewrite Nat.add_0_r in R. split.
  - intros (c & i & blk & A & B & D & F). destruct (sim_fwd_star _ _ _ A _ R) as [x [S1 R1]].
    exists (addr c i). split; [|split; [eapply l_op; eauto | auto]].
    rewrite <- (app_nil_r evs). eapply star_app; [exact S1|]. apply (settle _ _ R1).
  - intros (q & A & B & F). destruct (sim_bwd_star _ _ _ A _ R) as [[c i] [S1 [R1 [R2|R2]]]].
    + simpl in R2. subst q. destruct (final_bwd _ c i o (Nat.lt_succ_diag_r _)) as (c' & j & blk & X & Y & Z0); auto.
      { split; auto. }
      exists c', j, blk. repeat split; auto. rewrite <- (app_nil_r evs). eapply star_app; eauto.
    + rewrite B in R2. injection R2 as ->. discriminate.
Qed.
End sim.
