From Coq Require Import String Arith Lia.
From Verif Require Import Base Parse ParseSpec ParseProofs.
Local Open Scope nat_scope.

Definition cmp_link (p : sym * expr) : infix * expr := (IBin (BSym (fst p)), snd p).
Record sound (P : parsers) : Prop := Sound {
  s_expr comma t e r : p_expr P comma t = Got e r ->
    exists w m, visible t = w ++ visible r /\ G (if comma then 11 else 12) e w m /\ okm m r /\ (comma = true -> stop 9 r /\ assign_at r = None);
  s_bare t l r : p_bare P t = Got l r -> l = [] /\ r = t \/ exists w m, visible t = w ++ visible r /\ Gbare l w m /\ okm m r;
  s_level k t e r : 2 <= k <= 9 -> p_level P k t = Got e r -> exists w m, visible t = w ++ visible r /\ G k e w m /\ okm m r /\ stop k r;
  s_loop k t l r : 3 <= k <= 9 -> k <> 8 -> p_loop P k t = Got l r ->
    forall a wa ma, G k a wa ma -> okm ma t -> stop (k - 1) t ->
    exists w m, visible t = w ++ visible r /\ G k (fold_left (fun a p => apply (fst p) a (snd p)) l a) (wa ++ w) m /\ okm m r /\ stop k r;
  s_loop8 t l r : p_loop P 8 t = Got l r ->
    l = [] /\ r = t /\ op_stop 8 t \/
    ~ op_stop 8 t /\ exists w m l', l = map cmp_link l' /\ visible t = w ++ visible r /\ Gchain l' w m /\ okm m r /\ stop 8 r;
  s_terminal t e r : p_terminal P t = Got e r ->
    exists w m, visible t = w ++ visible r /\ G 0 e w m /\ okm m r /\ forall x r', t = TId x :: r' -> r = r';
  s_suffix e t e' r : p_suffix P e t = Got e' r ->
    forall w m, G 1 e w m -> okm m t -> exists w' m', visible t = w' ++ visible r /\ G 1 e' (w ++ w') m' /\ okm m' r /\ suf_stop r;
  s_arg t e r : p_arg P t = Got e r -> exists w m, visible t = w ++ visible r /\ Garg e w m /\ may_precede m (peek r);
  s_args c t l r : p_args P c t = Got l r -> peek r = Some (closer c) /\
    forall a wa ma, Garg a wa ma -> may_precede ma (peek t) -> exists w, visible t = w ++ visible r /\ Gargs c (a :: fst l) (snd l) (wa ++ w);
  s_items d t l r : p_items P d t = Got l r -> peek r = Some TCloseB /\
    exists w, visible t = w ++ visible r /\
      (d = Some true -> snd l = Some true) /\ (d = Some false -> snd l = Some false) /\
      (snd l <> Some true -> exists x, Gargs ClB (fst l) x w) /\
      (snd l = Some true -> exists p, Gitems (fst l) p w /\ (d = None -> p = true));
  s_then c t e r : p_then P c t = Got e r ->
    exists a wa ma b wb, e = EIf c a b /\ visible t = TThen :: wa ++ wb ++ visible r /\ G 11 a wa ma /\ Gelse b wb /\ stop 9 r /\ assign_at r = None
}.
Arguments s_expr {P}. Arguments s_bare {P}. Arguments s_level {P}. Arguments s_loop {P}. Arguments s_loop8 {P}. Arguments s_terminal {P}.
Arguments s_suffix {P}. Arguments s_arg {P}. Arguments s_args {P}. Arguments s_items {P}. Arguments s_then {P}.

(** opens a chain of binds *)
Ltac bnd := repeat match goal with
  | H : bind ?x _ = Got _ _ |- _ => let E := fresh "B" in destruct x eqn:E; [discriminate H|discriminate H|cbn [bind] in H]
  end.
Lemma expect_vis p t a r : expect p t = Got a r -> exists x, peek t = Some x /\ p (Some x) = true /\ r = advance t /\ visible t = x :: visible r \/ p None = true.
Proof.
  unfold expect. destruct (p (peek t)) eqn:E; [|discriminate]. intros [= <- <-]. destruct (peek t) as [x|] eqn:F.
  - exists x. left. repeat split; auto. now apply vis_adv.
  - exists TNil. now right.
Qed.
Lemma expect_close c t a r : expect (closes c) t = Got a r -> visible t = closer c :: visible r /\ peek t = Some (closer c).
Proof.
  intros H. destruct (expect_vis _ _ _ _ H) as (x & [(A & B & _ & C)|B]); [|destruct c; discriminate].
  destruct c, x; try discriminate; auto.
Qed.

Lemma G_ge0 k e w m : G k e w m -> True. Proof. auto. Qed.
Lemma G_up j k e w m : 1 <= j -> j <= k <= 9 -> G j e w m -> G k e w m.
Proof.
  intros J [H K] g. induction H as [|k H IH]; [exact g|]. apply G_next; [lia|]. apply IH; lia.
Qed.
Lemma G_base e w m : G 0 e w m -> G 1 e w m. Proof. apply G_terminal. Qed.
Lemma okm_open t q : okm Open t -> assign_at t = Some q -> False.
Proof. intros [A _] H. destruct (A eq_refl). congruence. Qed.
Lemma okm_op m t k : okm m t -> 3 <= k <= 9 -> ~ op_stop k t -> m <> Open.
Proof. intros [A _] K N ->. destruct (A eq_refl) as [[_ B] _]. apply N, B; lia. Qed.
Lemma okm_suf m t : okm m t -> ~ suf_stop t -> m <> Open.
Proof. intros [A _] N ->. destruct (A eq_refl) as [[B _] _]. apply N, B; lia. Qed.
Lemma okm_eq m t : okm m t -> is_equals (peek t) = true -> m <> Bare.
Proof. intros [_ B] E ->. rewrite B in E; [discriminate|reflexivity]. Qed.

Lemma snd_expr P comma t e r : sound P -> expr11 P comma t = Got e r ->
    exists w m, visible t = w ++ visible r /\ G (if comma then 11 else 12) e w m /\ okm m r /\ (comma = true -> stop 9 r /\ assign_at r = None).
Proof.
  intros HS H. unfold expr11 in H.
  destruct (if comma then p_level P 9 t else _) as [| |a t1] eqn:E; [discriminate H|discriminate H|]. cbn [bind] in H.
  assert (A : exists w m, visible t = w ++ visible t1 /\ G (if comma then 9 else 10) a w m /\ okm m t1 /\ (comma = true -> stop 9 t1)).
  { destruct comma.
    - destruct (s_level HS 9 _ _ _ ltac:(lia) E) as (w & m & V & g & O & S). exists w, m. auto.
    - bnd. destruct (s_level HS 9 _ _ _ ltac:(lia) B) as (w & m & V & g & O & S).
      destruct (s_bare HS _ _ _ B0) as [[-> ->]|(w' & m' & V' & g' & O')].
      + injection E as <- <-. exists w, m. split; [exact V|]. split; [now apply G_single|]. split; [exact O|discriminate].
      + destruct a1 as [|a1 l1]; [inversion g'|]. injection E as <- <-. exists (w ++ w'), m'. rewrite V, V', app_assoc.
        split; [reflexivity|]. split; [eapply G_comma; eauto|]. split; [exact O'|discriminate]. }
  destruct A as (w & m & V & g & O & St).
  destruct (assign_at t1) as [[q t2]|] eqn:Q.
  - bnd. injection H as <- <-. destruct (s_expr HS _ _ _ _ B) as (w' & m' & V' & g' & O' & S').
    destruct (assign_at_vis _ _ _ Q) as [VQ EQ].
    exists (w ++ assign_spelling q ++ w'), m'. rewrite V, VQ, V', <- !app_assoc. split; [reflexivity|].
    split; [|auto]. assert (m <> Open) by (intros ->; eapply okm_open; eauto). assert (q = None -> m <> Bare) by (intros ->; eapply okm_eq; eauto).
    destruct comma; [eapply G_assign|eapply G_top_assign]; eauto.
  - injection H as <- <-. exists w, m. split; [exact V|]. split; [destruct comma; [now apply G_expr|now apply G_top]|]. split; [exact O|]. intros C. split; [auto|exact Q].
Qed.
Lemma snd_bare P t l r : sound P -> bare10 P t = Got l r -> l = [] /\ r = t \/ exists w m, visible t = w ++ visible r /\ Gbare l w m /\ okm m r.
Proof.
  intros HS H. unfold bare10 in H. destruct (peek t) as [x|] eqn:E; [|injection H as <- <-; now left].
  destruct x; try (injection H as <- <-; now left).
  destruct (is_close_paren (peek2 t) || is_equals (peek2 t)); [injection H as <- <-; now left|]. right. bnd. injection H as <- <-.
  destruct (s_level HS 7 _ _ _ ltac:(lia) B) as (w & m & V & g & O & S). rewrite (vis_adv _ _ E), V.
  destruct (s_bare HS _ _ _ B0) as [[-> ->]|(w' & m' & V' & g' & O')].
  - exists (TComma :: w), m. split; [reflexivity|]. split; [now constructor|exact O].
  - exists (TComma :: w ++ w'), m'. rewrite V'. split; [simpl; now rewrite app_assoc|]. split; [econstructor; eauto|exact O'].
Qed.
Lemma prefix_vis t : forall l r, prefix t = (l, r) -> visible t = map unary_token l ++ visible r.
Proof.
  induction t as [|x t IH]; intros l r H; [injection H as <- <-; reflexivity|].
  destruct x; cbn [prefix] in H; try (injection H as <- <-; reflexivity).
  - destruct (prefix t) as [l' r'] eqn:E. destruct l' as [|o l'].
    + injection H as <- <-. reflexivity.
    + injection H as <- <-. exact (IH _ _ eq_refl).
  - destruct s; try (injection H as <- <-; reflexivity). destruct (prefix t) as [l' r'] eqn:E. injection H as <- <-. simpl. f_equal. exact (IH _ _ eq_refl).
  - destruct (prefix t) as [l' r'] eqn:E. injection H as <- <-. simpl. f_equal. exact (IH _ _ eq_refl).
  - destruct (prefix t) as [l' r'] eqn:E. injection H as <- <-. simpl. f_equal. exact (IH _ _ eq_refl).
Qed.
Lemma snd_unary P t e r : sound P -> unary2 P t = Got e r -> exists w m, visible t = w ++ visible r /\ G 2 e w m /\ okm m r /\ stop 2 r.
Proof.
  intros HS H. unfold unary2 in H. destruct (prefix t) as [l t1] eqn:E. bnd. injection H as <- <-.
  destruct (s_terminal HS _ _ _ B) as (w & m & V & g & O & _).
  destruct (s_suffix HS _ _ _ _ B0 w m (G_terminal _ _ _ g) O) as (w' & m' & V' & g' & O' & S').
  exists (map unary_token l ++ w ++ w'), m'. rewrite (prefix_vis _ _ _ E), V, V', <- !app_assoc. split; [reflexivity|].
  split; [|split; [exact O'|split; [auto|intros; lia]]].
  clear -g'. induction l as [|o l IH]; [apply G_next; [lia|exact g']|]. simpl. now constructor.
Qed.
Lemma compare_links a l : l <> [] -> compare a (map cmp_link l) = comparison a l.
Proof.
  destruct l as [|p [|p' l]]; intros H; [contradiction|now destruct p|].
  assert (A : forall l, flat_map (fun p => match fst p with IBin (BSym s) => [(s, snd p)] | _ => [] end) (map cmp_link l) = l).
  { clear. induction l as [|[u v] l IH]; [reflexivity|]. simpl. now rewrite IH. }
  transitivity (ECompare a (flat_map (fun p => match fst p with IBin (BSym s) => [(s, snd p)] | _ => [] end) (map cmp_link (p :: p' :: l)))); [reflexivity|].
  rewrite A. now destruct p.
Qed.
Lemma snd_level P k t e r : sound P -> 2 <= k <= 9 -> level P k t = Got e r -> exists w m, visible t = w ++ visible r /\ G k e w m /\ okm m r /\ stop k r.
Proof.
  intros HS K H. unfold level in H. destruct (Nat.leb_spec k 2) as [L|L].
  - assert (k = 2) by lia. subst k. now apply (snd_unary P).
  - bnd. injection H as <- <-. destruct (s_level HS (k - 1) _ _ _ ltac:(lia) B) as (w & m & V & g & O & S).
    unfold combine. destruct (Nat.eqb_spec k 8) as [->|N].
    + destruct (s_loop8 HS _ _ _ B0) as [(-> & -> & St)|(St & w' & m' & l' & -> & V' & g' & O' & S')].
      * exists w, m. split; [exact V|]. split; [apply (G_up 7); [lia|lia|exact g]|]. split; [exact O|]. apply (stop_S 7); [lia|exact S|exact St].
      * exists (w ++ w'), m'. rewrite V, V', <- app_assoc. split; [reflexivity|]. split; [|split; [exact O'|exact S']].
        rewrite compare_links; [|now intros ->; inversion g']. eapply G_compare; eauto. eapply okm_op; [exact O| |exact St]; lia.
    + destruct (s_loop HS k _ _ _ ltac:(lia) N B0 a w m) as (w' & m' & V' & g' & O' & S').
      * apply (G_up (k - 1)); [lia|lia|exact g].
      * exact O.
      * exact S.
      * exists (w ++ w'), m'. rewrite V, V', <- app_assoc. auto.
Qed.
Lemma not_op_stop k t o r : op_at k t = Some (o, r) -> negb (k =? 7) && is_close_paren (peek r) = false -> ~ op_stop k t.
Proof.
  intros E B. unfold op_stop. rewrite E. intros [A C]. rewrite C in B. apply Nat.eqb_neq in A. rewrite A in B. discriminate.
Qed.
Lemma yes_op_stop k t o r : op_at k t = Some (o, r) -> negb (k =? 7) && is_close_paren (peek r) = true -> op_stop k t.
Proof.
  intros E B. unfold op_stop. rewrite E. apply andb_prop in B. destruct B as [A B]. split; [|exact B]. apply Nat.eqb_neq. now destruct (k =? 7).
Qed.
Lemma vis_hd w t r : visible t = w ++ visible r -> w <> [] -> hd_error w = peek t.
Proof. intros V N. rewrite peek_vis, V. now destruct w. Qed.
Lemma snd_loop P k t l r : sound P -> 3 <= k <= 9 -> k <> 8 -> loop P k t = Got l r ->
    forall a wa ma, G k a wa ma -> okm ma t -> stop (k - 1) t ->
    exists w m, visible t = w ++ visible r /\ G k (fold_left (fun a p => apply (fst p) a (snd p)) l a) (wa ++ w) m /\ okm m r /\ stop k r.
Proof.
  intros HS K N H a wa ma g O S.
  assert (Stop : op_stop k t -> l = [] -> r = t -> exists w m, visible t = w ++ visible r /\ G k (fold_left (fun a p => apply (fst p) a (snd p)) l a) (wa ++ w) m /\ okm m r /\ stop k r).
  { intros St -> ->. exists [], ma. rewrite app_nil_r. split; [reflexivity|]. split; [exact g|]. split; [exact O|].
    replace k with (Datatypes.S (k - 1)) in * by lia. apply stop_S; [lia|now simpl in S; rewrite Nat.sub_0_r in S|exact St]. }
  unfold loop in H. destruct (op_at k t) as [[o t1]|] eqn:E.
  2:{ injection H as <- <-. apply Stop; try reflexivity. unfold op_stop. now rewrite E. }
  destruct (negb (k =? 7) && is_close_paren (peek t1)) eqn:C.
  { injection H as <- <-. apply Stop; try reflexivity. eapply yes_op_stop; eauto. }
  bnd. injection H as <- <-. destruct (op_at_vis _ _ _ _ E) as (VO & PO & IO).
  destruct (s_level HS (k - 1) _ _ _ ltac:(lia) B) as (w & m & V & gb & Ob & Sb).
  assert (Hw : o = IBin BIs -> hd_error w <> Some TKNot).
  { intros I Q. apply (IO I). rewrite peek_vis, V. now destruct w. }
  assert (g1 : G k (apply o a a0) (wa ++ spelling o ++ w) m).
  { eapply G_infix; eauto. eapply okm_op; [exact O|exact K|]. eapply not_op_stop; eauto. }
  destruct (s_loop HS k _ _ _ K N B0 _ _ _ g1 Ob Sb) as (w' & m' & V' & g' & O' & S').
  exists (spelling o ++ w ++ w'), m'. rewrite VO, V, V', <- !app_assoc. split; [reflexivity|]. split; [|auto].
  cbn [fold_left fst snd]. rewrite <- !app_assoc in g'. exact g'.
Qed.
Lemma snd_loop8 P t l r : sound P -> loop P 8 t = Got l r ->
    l = [] /\ r = t /\ op_stop 8 t \/
    ~ op_stop 8 t /\ exists w m l', l = map cmp_link l' /\ visible t = w ++ visible r /\ Gchain l' w m /\ okm m r /\ stop 8 r.
Proof.
  intros HS H. unfold loop in H. destruct (op_at 8 t) as [[o t1]|] eqn:E.
  2:{ injection H as <- <-. left. repeat split; try reflexivity. unfold op_stop. now rewrite E. }
  destruct (negb (8 =? 7) && is_close_paren (peek t1)) eqn:C.
  { injection H as <- <-. left. repeat split. eapply yes_op_stop; eauto. }
  right. split; [eapply not_op_stop; eauto|]. change (8 - 1) with 7 in H. bnd. injection H as <- <-. destruct (op_at_vis _ _ _ _ E) as (VO & PO & IO).
  destruct (s_level HS 7 _ _ _ ltac:(lia) B) as (w & m & V & gb & Ob & Sb).
  assert (exists s, o = IBin (BSym s)) as [s ->].
  { destruct o as [[s| | | |]| | |]; try discriminate PO. now exists s. }
  destruct (s_loop8 HS _ _ _ B0) as [(-> & -> & St)|(St & w' & m' & l' & -> & V' & g' & O' & S')].
  - exists (TSym s :: w), m, [(s, a)]. rewrite VO, V. split; [reflexivity|]. split; [reflexivity|]. split; [now constructor|]. split; [exact Ob|].
    apply (stop_S 7); [lia|exact Sb|exact St].
  - exists (TSym s :: w ++ w'), m', ((s, a) :: l'). rewrite VO, V, V'. split; [reflexivity|]. split; [simpl; now rewrite app_assoc|].
    split; [|auto]. econstructor; eauto. eapply okm_op; eauto. lia.
Qed.
Lemma G_nonempty : forall k e w m, G k e w m -> w <> [].
Proof.
  intros k e w m g. induction g; try discriminate; try assumption; try (intros Q; apply app_eq_nil in Q; destruct Q; congruence).
  intros ->. destruct e; simpl in *; try discriminate; try contradiction; try (destruct b; discriminate).
Qed.
Lemma snd_then P c t e r : sound P -> then_else P c t = Got e r ->
    exists a wa ma b wb, e = EIf c a b /\ visible t = TThen :: wa ++ wb ++ visible r /\ G 11 a wa ma /\ Gelse b wb /\ stop 9 r /\ assign_at r = None.
Proof.
  intros HS H. unfold then_else in H. bnd.
  destruct (expect_vis _ _ _ _ B) as (x & [(E & X & -> & V)|X]); [|discriminate]. destruct x; try discriminate. clear X.
  destruct (s_expr HS _ _ _ _ B0) as (wa & ma & Va & ga & Oa & Sa).
  destruct (peek rest0) as [y|] eqn:Y.
  2:{ bnd. destruct (expect_vis _ _ _ _ B1) as (z & [(E' & X & -> & V')|X]); [|discriminate]. congruence. }
  assert (Else : bind (expect (fun x => match x with Some TElse => true | _ => false end) rest0) (fun _ t => bind (p_expr P true t) (fun b t => Got (EIf c a0 b) t)) = Got e r ->
    exists a wa ma b wb, e = EIf c a b /\ visible t = TThen :: wa ++ wb ++ visible r /\ G 11 a wa ma /\ Gelse b wb /\ stop 9 r /\ assign_at r = None).
  { clear H. intros H. bnd. injection H as <- <-. destruct (expect_vis _ _ _ _ B1) as (z & [(E' & X & -> & V')|X]); [|discriminate]. destruct z; try discriminate.
    destruct (s_expr HS _ _ _ _ B2) as (wb & mb & Vb & gb & Ob & Sb). destruct (Sb eq_refl).
    exists a0, wa, ma, a2, (TElse :: wb). split; [reflexivity|]. rewrite V, Va, V', Vb. split; [reflexivity|]. split; [exact ga|]. split; [econstructor; eauto|]. now split. }
  destruct y; try (exact (Else H)). clear Else. bnd. injection H as <- <-. rename B1 into B2, B2 into B3.
  destruct (s_expr HS _ _ _ _ B2) as (wc & mc & Vc & gc & Oc & Sc).
  destruct (s_then HS _ _ _ _ B3) as (a' & wa' & ma' & b' & wb' & -> & V' & g' & ge & S1 & S2).
  exists a0, wa, ma, (EIf a1 a' b'), (TElif :: wc ++ TThen :: wa' ++ wb'). split; [reflexivity|].
  rewrite V, Va, (vis_adv _ _ Y), Vc, V'. split; [|split; [exact ga|split; [econstructor; eauto|auto]]].
  simpl. rewrite <- !app_assoc. simpl. now rewrite <- !app_assoc.
Qed.
Lemma unary_fun_vis t f : unary_fun t = Some f -> exists x, peek t = Some x /\ unary_fun [x] = Some f.
Proof.
  unfold unary_fun. destruct (peek t) as [x|]; [|discriminate]. destruct x; try discriminate.
  - destruct s; try discriminate. intros <-. now exists (TSym SSub).
  - destruct (is_in (peek2 t)); [discriminate|]. intros <-. now exists TKNot.
  - intros <-. now exists TBang.
Qed.
Lemma snd_arg P t e r : sound P -> arg P t = Got e r -> exists w m, visible t = w ++ visible r /\ Garg e w m /\ may_precede m (peek r).
Proof.
  intros HS H. unfold arg in H.
  assert (Other : marked_arg P t = Got e r -> exists w m, visible t = w ++ visible r /\ Garg e w m /\ may_precede m (peek r)).
  { clear H. intros H. unfold marked_arg in H.
    assert (Rest : plain_arg P t = Got e r -> exists w m, visible t = w ++ visible r /\ Garg e w m /\ may_precede m (peek r)).
    { clear H. unfold plain_arg. intros H. destruct (partial_op t) as [[o t1]|] eqn:E.
      - destruct (partial_op_at _ _ _ E) as (N & V & I & _). destruct (ends_arg (peek t1)) eqn:F.
        + injection H as <- <-. exists (spelling (IBin o)), Alone. split; [exact V|]. split; [now constructor|exact F].
        + bnd. injection H as <- <-. destruct (s_expr HS _ _ _ _ B) as (w & m & Vw & g & _).
          exists (spelling (IBin o) ++ w), Full. rewrite V, Vw, app_assoc. split; [reflexivity|]. split; [|exact Logic.I]. econstructor; eauto.
          intros X Y. apply (I X). rewrite peek_vis, Vw. now destruct w.
      - bnd. destruct (s_expr HS _ _ _ _ B) as (w & m & Vw & g & O & S). destruct (S eq_refl) as [S1 S2].
        assert (M : hd_error w <> Some (TSym SMul)).
        { rewrite (vis_hd _ _ _ Vw (G_nonempty _ _ _ _ g)). intros Q. unfold partial_op in E. rewrite Q in E. discriminate. }
        destruct (partial_op rest) as [[o t1]|] eqn:E2.
        + destruct (ends_arg (peek t1)) eqn:F; injection H as <- <-.
          * destruct (partial_op_at _ _ _ E2) as (N & V & I & j & J & EJ). exists (w ++ spelling (IBin o)), Partial. rewrite Vw, V, app_assoc. split; [reflexivity|].
            split; [econstructor; eauto|]. destruct S1 as [_ S1]. specialize (S1 j J). unfold op_stop in S1. rewrite EJ in S1. destruct S1 as [_ S1].
            simpl. destruct (peek t1) as [[]|]; try discriminate. reflexivity.
          * exists w, Full. split; [exact Vw|]. split; [econstructor; eauto|exact Logic.I].
        + injection H as <- <-. exists w, Full. split; [exact Vw|]. split; [econstructor; eauto|exact Logic.I]. }
    destruct (peek t) as [x|] eqn:X; [|exact (Rest H)]. destruct x; try exact (Rest H).
    - unfold peek2 in H. destruct (peek (advance t)) as [y|] eqn:Y; [|discriminate]. destruct y; try discriminate. injection H as <- <-.
      exists [TArrow; TId x], Full. rewrite (vis_adv _ _ X), (vis_adv _ _ Y). split; [reflexivity|]. split; [constructor|exact Logic.I].
    - bnd. injection H as <- <-. destruct (s_expr HS _ _ _ _ B) as (w & m & Vw & g & _). exists (TEllipsis :: w), Full.
      rewrite (vis_adv _ _ X), Vw. split; [reflexivity|]. split; [econstructor; eauto|exact Logic.I]. }
  destruct (unary_fun t) as [f|] eqn:F; [|exact (Other H)]. destruct (ends_arg (peek2 t)) eqn:A; [|exact (Other H)].
  injection H as <- <-. destruct (unary_fun_vis _ _ F) as (x & X & Fx). exists [x], Alone. rewrite (vis_adv _ _ X). split; [reflexivity|].
  split; [now constructor|exact A].
Qed.
Lemma snd_args P c t l r : sound P -> args P c t = Got l r -> peek r = Some (closer c) /\
    forall a wa ma, Garg a wa ma -> may_precede ma (peek t) -> exists w, visible t = w ++ visible r /\ Gargs c (a :: fst l) (snd l) (wa ++ w).
Proof.
  intros HS H. unfold args in H.
  assert (Close : (if closes c (peek t) then Got ([], false) t else Bad) = Got l r -> peek r = Some (closer c) /\
    forall a wa ma, Garg a wa ma -> may_precede ma (peek t) -> exists w, visible t = w ++ visible r /\ Gargs c (a :: fst l) (snd l) (wa ++ w)).
  { clear H. destruct (closes c (peek t)) eqn:C; [|discriminate]. intros [= <- <-].
    assert (Q : peek t = Some (closer c)) by (destruct c, (peek t) as [[]|]; try discriminate; reflexivity).
    split; [exact Q|]. intros a wa ma g M. exists []. split; [reflexivity|]. rewrite app_nil_r. rewrite Q in M. econstructor; eauto. }
  destruct (peek t) as [x|] eqn:X; [|exact (Close H)]. destruct x; try exact (Close H). clear Close.
  destruct (closes c (peek (advance t))) eqn:C.
  - injection H as <- <-. assert (Q : peek (advance t) = Some (closer c)) by (destruct c, (peek (advance t)) as [[]|]; try discriminate; reflexivity).
    split; [exact Q|]. intros a wa ma g M. exists [TComma]. rewrite (vis_adv _ _ X). split; [reflexivity|]. eapply Gargs_trailing; eauto.
  - bnd. injection H as <- <-. destruct (s_arg HS _ _ _ B) as (w & m & V & g & M). destruct (s_args HS _ _ _ _ B0) as [Q A].
    split; [exact Q|]. intros a' wa ma g' M'. destruct (A _ _ _ g M) as (w' & V' & g''). exists (TComma :: w ++ w').
    rewrite (vis_adv _ _ X), V, V', app_comm_cons, app_assoc. split; [reflexivity|]. eapply Gargs_more; eauto.
Qed.
Lemma snd_items P d t l r : sound P -> items P d t = Got l r -> peek r = Some TCloseB /\
    exists w, visible t = w ++ visible r /\
      (d = Some true -> snd l = Some true) /\ (d = Some false -> snd l = Some false) /\
      (snd l <> Some true -> exists x, Gargs ClB (fst l) x w) /\
      (snd l = Some true -> exists p, Gitems (fst l) p w /\ (d = None -> p = true)).
Proof.
  intros HS H. unfold items in H.
  destruct (item P d t) as [| |p t2] eqn:Ei; [discriminate|discriminate|]. cbn [bind] in H. unfold item in Ei.
  destruct (p_arg P t) as [| |a t1] eqn:Ea; [discriminate|discriminate|]. cbn [bind] in Ei. rename Ei into Ep.
  destruct (s_arg HS _ _ _ Ea) as (wa & ma & Va & ga & Ma).
  assert (Item : exists w m, visible t = w ++ visible t2 /\ may_precede m (peek t2) /\
    (d = Some true -> snd p = Some true) /\ (d = Some false -> snd p = Some false) /\
    (snd p <> Some true -> fst p = [a] /\ Garg a w m) /\
    (snd p <> Some false -> exists q, Gitem (fst p) q w m /\ (d = None -> snd p = Some true -> q = true) /\ (snd p = None -> q = false))).
  { destruct (is_unroll a) eqn:U.
    - injection Ep as <- <-. exists wa, ma. split; [exact Va|]. split; [exact Ma|]. split; [auto|]. split; [auto|]. split; [auto|].
      intros _. destruct a; try discriminate. exists false. split; [now constructor|]. split; [simpl; congruence|reflexivity].
    - destruct d as [[|]|].
      + bnd. injection Ep as <- <-. destruct (expect_vis _ _ _ _ B) as (x & [(E & X & -> & V)|X]); [|discriminate]. destruct x; try discriminate.
        destruct (s_arg HS _ _ _ B0) as (wb & mb & Vb & gb & Mb). rewrite E in Ma. exists (wa ++ TColon :: wb), mb. rewrite Va, V, Vb, <- app_assoc.
        split; [reflexivity|]. split; [exact Mb|]. split; [auto|]. split; [discriminate|]. split; [simpl; congruence|].
        intros _. exists true. split; [econstructor; eauto|]. split; [auto|discriminate].
      + injection Ep as <- <-. exists wa, ma. split; [exact Va|]. split; [exact Ma|]. split; [discriminate|]. split; [auto|]. split; [auto|]. simpl. congruence.
      + destruct (is_colon (peek t1)) eqn:X.
        * bnd. injection Ep as <- <-. destruct (peek t1) as [x|] eqn:E; [|discriminate]. destruct x; try discriminate.
          destruct (s_arg HS _ _ _ B) as (wb & mb & Vb & gb & Mb). exists (wa ++ TColon :: wb), mb. rewrite Va, (vis_adv _ _ E), Vb, <- app_assoc.
          split; [reflexivity|]. split; [exact Mb|]. split; [discriminate|]. split; [discriminate|]. split; [simpl; congruence|].
          intros _. exists true. split; [econstructor; eauto|]. split; [auto|discriminate].
        * injection Ep as <- <-. exists wa, ma. split; [exact Va|]. split; [exact Ma|]. split; [discriminate|]. split; [discriminate|]. split; [auto|]. simpl. congruence. }
  clear Ep. destruct Item as (w & m & V & M & D1 & D2 & Set_ & Dict).
  assert (Close : (if closes ClB (peek t2) then Got p t2 else Bad) = Got l r -> peek r = Some TCloseB /\
    exists w, visible t = w ++ visible r /\
      (d = Some true -> snd l = Some true) /\ (d = Some false -> snd l = Some false) /\
      (snd l <> Some true -> exists x, Gargs ClB (fst l) x w) /\
      (snd l = Some true -> exists p, Gitems (fst l) p w /\ (d = None -> p = true))).
  { clear H. destruct (closes ClB (peek t2)) eqn:C; [|discriminate]. intros [= <- <-].
    assert (Q : peek t2 = Some TCloseB) by (destruct (peek t2) as [[]|]; try discriminate; reflexivity).
    split; [exact Q|]. rewrite Q in M. exists w. split; [exact V|]. split; [exact D1|]. split; [exact D2|]. split.
    - intros N. destruct (Set_ N) as [-> g]. exists false. econstructor; eauto.
    - intros Y. destruct Dict as (q & g & A & _); [congruence|]. exists q. split; [econstructor; eauto|auto]. }
  destruct (peek t2) as [x|] eqn:X; [|exact (Close H)]. destruct x; try exact (Close H). clear Close.
  pose proof (vis_adv _ _ X) as VX.
  destruct (closes ClB (peek (advance t2))) eqn:C.
  - injection H as <- <-. assert (Q : peek (advance t2) = Some TCloseB) by (destruct (peek (advance t2)) as [[]|]; try discriminate; reflexivity).
    split; [exact Q|]. exists (w ++ [TComma]). rewrite V, VX, <- app_assoc. split; [reflexivity|]. split; [exact D1|]. split; [exact D2|]. split.
    + intros N. destruct (Set_ N) as [-> g]. exists true. eapply Gargs_trailing; eauto.
    + intros Y. destruct Dict as (q & g & A & _); [congruence|]. exists q. split; [eapply Gitems_trailing; eauto|auto].
  - bnd. injection H as <- <-. destruct (s_items HS _ _ _ _ B) as (Q & w' & V' & D1' & D2' & Set' & Dict').
    split; [exact Q|]. exists (w ++ TComma :: w'). rewrite V, VX, V', <- app_assoc. split; [reflexivity|].
    split; [intros; simpl; auto|]. split; [intros; simpl; auto|]. cbn [fst snd]. split.
    + intros N. destruct Set_ as [-> g]; [auto|]. destruct (Set' N) as [x g']. exists x. eapply Gargs_more; eauto.
    + intros Y. destruct Dict as (q & g & A & A'); [intros Z; apply D2' in Z; congruence|]. destruct (Dict' Y) as (q' & g' & B').
      exists (q || q'). split; [eapply Gitems_more; eauto|]. intros ->. destruct (snd p) as [[|]|] eqn:Z.
      * now rewrite A.
      * rewrite (D2' eq_refl) in Y. discriminate.
      * rewrite (B' eq_refl). apply Bool.orb_true_r.
Qed.
Lemma comma_vis P t l r x : sound P -> peek t = Some x -> comma_expr P t = Got l r ->
  exists w, visible t = x :: w ++ TCloseP :: visible r /\ Gargs ClP (fst l) (snd l) w.
Proof.
  intros HS X H. unfold comma_expr in H. bnd. injection H as <- <-.
  destruct (s_arg HS _ _ _ B) as (w & m & V & g & M). destruct (s_args HS _ _ _ _ B0) as [Q A]. destruct (A _ _ _ g M) as (w' & V' & g').
  destruct (expect_close _ _ _ _ B1) as [VC _]. exists (w ++ w'). rewrite (vis_adv _ _ X), V, V', VC, <- app_assoc. split; [reflexivity|exact g'].
Qed.
Lemma opt_vis P t p e r : sound P -> optional (p_expr P true) p t = Got e r -> exists w, visible t = w ++ visible r /\ Gopt e w.
Proof.
  intros HS H. unfold optional in H. destruct (p (peek t)).
  - injection H as <- <-. exists []. split; [reflexivity|constructor].
  - destruct (s_expr HS _ _ _ _ H) as (w & m & V & g & _). exists w. split; [exact V|econstructor; eauto].
Qed.
Lemma opt_arg_vis P t p e r x : sound P -> peek r = Some x -> optional (p_arg P) p t = Got e r -> exists w, visible t = w ++ visible r /\ Gopt_arg e w x.
Proof.
  intros HS X H. unfold optional in H. destruct (p (peek t)).
  - injection H as <- <-. exists []. split; [reflexivity|constructor].
  - destruct (s_arg HS _ _ _ H) as (w & m & V & g & M). rewrite X in M. exists w. split; [exact V|econstructor; eauto].
Qed.
Lemma index_vis P a w m t e r : sound P -> G 1 a w m -> m <> Open -> index_or_slice P a t = Got e r -> exists w', visible t = w' ++ visible r /\ G 1 e (w ++ TOpenS :: w') Closed.
Proof.
  intros HS g Om H. unfold index_or_slice in H. destruct (optional (p_expr P true) is_colon t) as [| |x t1] eqn:Ex; [discriminate|discriminate|]. cbn [bind] in H.
  destruct (peek t1) as [y|] eqn:Y; [|discriminate]. pose proof (vis_adv _ _ Y) as VY. destruct y; try discriminate.
  - injection H as <- <-. unfold optional in Ex. destruct (is_colon (peek t)) eqn:C.
    + injection Ex as <- <-. rewrite Y in C. discriminate.
    + destruct (s_expr HS _ _ _ _ Ex) as (wx & mx & V & gx & _). exists (wx ++ [TCloseS]). rewrite V, VY, <- app_assoc. split; [reflexivity|]. eapply G_index; eauto.
  - destruct (opt_vis _ _ _ _ _ HS Ex) as (wx & V & gx).
    destruct (optional (p_expr P true) colon_or_close (advance t1)) as [| |y t2] eqn:Ey; [discriminate|discriminate|]. cbn [bind] in H.
    destruct (opt_vis _ _ _ _ _ HS Ey) as (wy & V2 & gy).
    destruct (peek t2) as [z|] eqn:Z; [|discriminate]. pose proof (vis_adv _ _ Z) as VZ. destruct z; try discriminate.
    + injection H as <- <-. exists (wx ++ TColon :: wy ++ [TCloseS]). rewrite V, VY, V2, VZ. rewrite <- !app_assoc. simpl. rewrite <- !app_assoc. split; [reflexivity|].
      eapply G_slice; eauto.
    + bnd. injection H as <- <-. destruct (opt_vis _ _ _ _ _ HS B) as (wz & V3 & gz). destruct (expect_close _ _ _ _ B0) as [VC _].
      exists (wx ++ TColon :: wy ++ TColon :: wz ++ [TCloseS]). rewrite V, VY, V2, VZ, V3, VC. rewrite <- !app_assoc. simpl. rewrite <- !app_assoc. simpl. rewrite <- !app_assoc. split; [reflexivity|].
      eapply G_slice3; eauto.
Qed.
Lemma classic_suf t : suf_stop t \/ ~ suf_stop t.
Proof.
  unfold suf_stop. destruct (bare_start t); [right; intros (_ & ? & _); discriminate|].
  destruct (hd_error t) as [[]|]; try (right; tauto); destruct (peek t) as [[]|]; try (left; repeat split; congruence); right; intros (_ & _ & ?); congruence.
Qed.
Lemma snd_suffix P e t e' r : sound P -> suffix P e t = Got e' r ->
    forall w m, G 1 e w m -> okm m t -> exists w' m', visible t = w' ++ visible r /\ G 1 e' (w ++ w') m' /\ okm m' r /\ suf_stop r.
Proof.
  intros HS H w m g O.
  destruct (classic_suf t) as [St|Nt].
  - rewrite (stop_suffix P e t St) in H. injection H as <- <-. exists [], m. rewrite app_nil_r. auto.
  - pose proof (okm_suf _ _ O Nt) as Om.
    assert (Cont : forall e1 t1 w1, p_suffix P e1 t1 = Got e' r -> visible t = w1 ++ visible t1 -> forall m1, G 1 e1 (w ++ w1) m1 -> okm m1 t1 ->
       exists w' m', visible t = w' ++ visible r /\ G 1 e' (w ++ w') m' /\ okm m' r /\ suf_stop r).
    { intros e1 t1 w1 H1 V1 m1 g1 O1. destruct (s_suffix HS _ _ _ _ H1 _ _ g1 O1) as (w' & m' & V' & g' & O' & S'). exists (w1 ++ w'), m'.
      rewrite V1, V', !app_assoc. auto. }
    assert (Other : (if bare_start t then bind (p_terminal P t) (fun a t => p_suffix P (ECall e [a]) t)
      else match peek t with
        | Some TArrow => match peek (advance t) with Some (TId x) => p_suffix P (EGetField e x) (advance (advance t)) | _ => Bad end
        | _ => Got e t
        end) = Got e' r -> match hd_error t with Some (TOpenP | TOpenS) => False | _ => True end -> exists w' m', visible t = w' ++ visible r /\ G 1 e' (w ++ w') m' /\ okm m' r /\ suf_stop r).
    { clear H. intros H HH. destruct (bare_start t) eqn:B.
      - bnd. destruct (s_terminal HS _ _ _ B0) as (w1 & m1 & V1 & g1 & O1 & X1).
        assert (hd : hd_error w1 = hd_error t). { rewrite (vis_hd _ _ _ V1 (G_nonempty _ _ _ _ g1)). destruct t as [|[] t]; try discriminate; reflexivity. }
        apply (Cont _ _ w1 H V1 (bare_mode w1 m1)).
        + assert (Hb : bare_token (hd_error w1) \/ hd_error w1 = Some TAt).
          { rewrite hd. destruct t as [|[] t]; try discriminate; simpl; auto. }
          destruct Hb as [Hb|Hb]; [|exfalso; clear -g1 Hb]. { eapply G_bare; eauto. }
          remember 0 as k eqn:K. destruct g1; try discriminate K; try discriminate Hb; [|subst k; destruct o as [[[]| | | |]| | |]; discriminate]. destruct e; simpl in H; try contradiction; subst w; try discriminate. now destruct b.
        + destruct w1 as [|x w1]; [now apply G_nonempty in g1|]. destruct t as [|y t]; [discriminate|]. injection hd as ->.
          destruct y; try exact O1. destruct w1; [|exact O1]. rewrite (X1 _ _ eq_refl). simpl in B. split; [discriminate|]. intros _. now destruct (is_equals (peek t)).
      - destruct (peek t) as [x|] eqn:X.
        + assert (N : x = TArrow). { destruct x; try reflexivity; exfalso; apply Nt; (split; [exact HH|split; [exact B|congruence]]). }
          subst x. destruct (peek (advance t)) as [y|] eqn:Y; [|discriminate]. destruct y; try discriminate.
          apply (Cont _ _ [TArrow; TId x] H) with (m1 := Closed); [|eapply G_field; eauto|apply okm_closed]. now rewrite (vis_adv _ _ X), (vis_adv _ _ Y).
        + exfalso. apply Nt. split; [exact HH|split; [exact B|congruence]]. }
    unfold suffix in H. destruct t as [|x t]; [exact (Other H Logic.I)|].
    destruct x; try exact (Other H Logic.I); clear Other.
    + destruct (peek t) as [y|] eqn:Y; [|discriminate].
      assert (Call : bind (comma_expr P (TOpenP :: t)) (fun l t => p_suffix P (ECall e (fst l)) t) = Got e' r ->
         exists w' m', visible (TOpenP :: t) = w' ++ visible r /\ G 1 e' (w ++ w') m' /\ okm m' r /\ suf_stop r).
      { clear H. intros H. bnd. destruct (comma_vis P (TOpenP :: t) _ _ TOpenP HS eq_refl B) as (w1 & V1 & g1).
        apply (Cont _ _ (TOpenP :: w1 ++ [TCloseP]) H) with (m1 := Closed); [|eapply G_call; eauto|apply okm_closed]. rewrite V1. simpl. now rewrite <- app_assoc. }
      destruct y; try exact (Call H).
      apply (Cont _ _ [TOpenP; TCloseP] H) with (m1 := Closed); [|eapply G_call0; eauto|apply okm_closed]. simpl. now rewrite (vis_adv _ _ Y).
    + bnd. destruct (index_vis P e w m _ _ _ HS g Om B) as (w1 & V1 & g1).
      apply (Cont _ _ (TOpenS :: w1) H) with (m1 := Closed); [|exact g1|apply okm_closed]. simpl. now rewrite V1.
Qed.
Lemma slice_vis P x wx t e r : sound P -> Gopt_arg x wx TColon -> peek t = Some TColon -> slice_literal P x t = Got e r ->
  exists w, visible t = w ++ visible r /\ G 0 e (TOpenS :: wx ++ w) Closed.
Proof.
  intros HS g X H. unfold slice_literal in H. destruct (optional (p_arg P) colon_or_close (advance t)) as [| |y t2] eqn:Ey; [discriminate|discriminate|]. cbn [bind] in H.
  destruct (peek t2) as [z|] eqn:Z; [|discriminate]. pose proof (vis_adv _ _ Z) as VZ. destruct (opt_arg_vis _ _ _ _ _ _ HS Z Ey) as (wy & V2 & gy). destruct z; try discriminate.
  - injection H as <- <-. exists (TColon :: wy ++ [TCloseS]). rewrite (vis_adv _ _ X), V2, VZ. simpl. rewrite <- app_assoc. split; [reflexivity|]. now apply G_range.
  - bnd. injection H as <- <-. destruct (expect_close _ _ _ _ B0) as [VC PC]. destruct (opt_arg_vis _ _ _ _ _ _ HS PC B) as (wz & V3 & gz).
    exists (TColon :: wy ++ TColon :: wz ++ [TCloseS]). rewrite (vis_adv _ _ X), V2, VZ, V3, VC. simpl. rewrite <- app_assoc. simpl. rewrite <- app_assoc. split; [reflexivity|]. now apply G_range3.
Qed.
Lemma list_vis P t e r : sound P -> list_or_slice P t = Got e r -> exists w, visible t = w ++ visible r /\ G 0 e (TOpenS :: w) Closed.
Proof.
  intros HS H. unfold list_or_slice in H.
  assert (Other : bind (p_arg P t) (fun a t =>
        match peek t with
        | Some TCloseS => Got (ELiteral LList [a]) (advance t)
        | Some TColon => slice_literal P a t
        | Some TComma => bind (p_args P ClS t) (fun l t => bind (expect (closes ClS) t) (fun _ t => Got (ELiteral LList (a :: fst l)) t))
        | _ => Bad
        end) = Got e r -> exists w, visible t = w ++ visible r /\ G 0 e (TOpenS :: w) Closed).
  { clear H. intros H. destruct (p_arg P t) as [| |a t1] eqn:Ea; [discriminate|discriminate|]. cbn [bind] in H. destruct (s_arg HS _ _ _ Ea) as (wa & ma & V & g & M).
    destruct (peek t1) as [y|] eqn:Y; [|discriminate]. pose proof (vis_adv _ _ Y) as VY. destruct y; try discriminate.
    - injection H as <- <-. exists (wa ++ [TCloseS]). rewrite V, VY, <- app_assoc. split; [reflexivity|]. eapply (G_list [a] false). eapply Gargs_last; [exact g|exact M].
    - bnd. injection H as <- <-. destruct (s_args HS _ _ _ _ B) as [Q A]. rewrite Y in A. destruct (A _ _ _ g M) as (w' & V' & g').
      destruct (expect_close _ _ _ _ B0) as [VC _]. exists ((wa ++ w') ++ [TCloseS]). rewrite V, V', VC, <- !app_assoc. split; [reflexivity|]. rewrite app_assoc. eapply G_list; eauto.
    - destruct (slice_vis P a wa t1 e r HS) as (w & V' & g'); [econstructor; eauto|exact Y|exact H|]. exists (wa ++ w). rewrite V, V', app_assoc. auto. }
  destruct (peek t) as [x|] eqn:X; [|exact (Other H)]. destruct x; try exact (Other H); clear Other.
  - injection H as <- <-. exists [TCloseS]. rewrite (vis_adv _ _ X). split; [reflexivity|apply G_nolist].
  - destruct (slice_vis P ENil [] t e r HS) as (w & V' & g'); [constructor|exact X|exact H|]. exists w. auto.
Qed.
Lemma dict_vis P t e r : sound P -> dict_or_set P t = Got e r -> exists w, visible t = w ++ visible r /\ G 0 e (TOpenB :: w) Closed.
Proof.
  intros HS H. unfold dict_or_set in H.
  assert (Other : bind (p_items P None t) (fun l t => bind (expect (closes ClB) t) (fun _ t => Got (ELiteral (match snd l with Some true => LDict | _ => LSet end) (fst l)) t)) = Got e r ->
     exists w, visible t = w ++ visible r /\ G 0 e (TOpenB :: w) Closed).
  { clear H. intros H. bnd. injection H as <- <-. destruct (s_items HS _ _ _ _ B) as (Q & w & V & _ & _ & S1 & S2). destruct (expect_close _ _ _ _ B0) as [VC _].
    exists (w ++ [TCloseB]). rewrite V, VC, <- app_assoc. split; [reflexivity|].
    destruct (snd a) as [[|]|] eqn:E.
    - destruct (S2 eq_refl) as (p & g & Ep). rewrite (Ep eq_refl) in g. now apply G_dict.
    - destruct S1 as (x & g); [discriminate|]. eapply G_set; eauto.
    - destruct S1 as (x & g); [discriminate|]. eapply G_set; eauto. }
  destruct (peek t) as [x|] eqn:X; [|exact (Other H)]. destruct x; try exact (Other H); clear Other.
  injection H as <- <-. exists [TCloseB]. rewrite (vis_adv _ _ X). split; [reflexivity|apply G_noset].
Qed.
Lemma snd_terminal P t e r : sound P -> terminal P t = Got e r ->
    exists w m, visible t = w ++ visible r /\ G 0 e w m /\ okm m r /\ forall x r', t = TId x :: r' -> r = r'.
Proof.
  intros HS H.
  assert (Id : forall x r', t = TId x :: r' -> r = r'). { intros x r' ->. cbn in H. now injection H. }
  unfold terminal in H. destruct (peek t) as [x|] eqn:X; [|discriminate]. pose proof (vis_adv _ _ X) as VX.
  destruct x; try discriminate; try (injection H as <- <-; eexists [_], Closed; rewrite VX; split; [reflexivity|]; split; [apply G_atom; reflexivity|]; split; [apply okm_closed|exact Id]).
  - destruct s; try discriminate. destruct (peek (advance t)) as [y|] eqn:Y; [|discriminate]. destruct y; try discriminate; injection H as <- <-; eexists [_; _], Closed; rewrite VX, (vis_adv _ _ Y);
      (split; [reflexivity|]; split; [apply G_atom; reflexivity|]; split; [apply okm_closed|exact Id]).
  - bnd. injection H as <- <-. destruct (comma_vis _ _ _ _ _ HS X B) as (w & V & g). exists (TOpenP :: w ++ [TCloseP]), Closed. rewrite V. simpl. rewrite <- app_assoc.
    split; [reflexivity|]. split; [now apply G_paren|]. split; [apply okm_closed|exact Id].
  - destruct (list_vis _ _ _ _ HS H) as (w & V & g). exists (TOpenS :: w), Closed. rewrite VX, V. split; [reflexivity|]. split; [exact g|]. split; [apply okm_closed|exact Id].
  - destruct (dict_vis _ _ _ _ HS H) as (w & V & g). exists (TOpenB :: w), Closed. rewrite VX, V. split; [reflexivity|]. split; [exact g|]. split; [apply okm_closed|exact Id].
  - bnd. destruct (s_expr HS _ _ _ _ B) as (wc & mc & Vc & gc & _). destruct (s_then HS _ _ _ _ H) as (a' & wa & ma & b & wb & -> & V & ga & gb & S1 & S2).
    exists (TIf :: wc ++ TThen :: wa ++ wb), Open. rewrite VX, Vc, V. simpl. rewrite <- app_assoc. simpl. rewrite <- app_assoc. split; [reflexivity|].
    split; [eapply G_if; eauto|]. split; [split; [auto|discriminate]|exact Id].
Qed.
Lemma sound_ps n : sound (ps n).
Proof.
  induction n as [|n IH]; [split; discriminate|]. split.
  - intros *; exact (snd_expr (ps n) _ _ _ _ IH).
  - intros *; exact (snd_bare (ps n) _ _ _ IH).
  - intros *; exact (snd_level (ps n) _ _ _ _ IH).
  - intros *; exact (snd_loop (ps n) _ _ _ _ IH).
  - intros *; exact (snd_loop8 (ps n) _ _ _ IH).
  - intros *; exact (snd_terminal (ps n) _ _ _ IH).
  - intros *; exact (snd_suffix (ps n) _ _ _ _ IH).
  - intros *; exact (snd_arg (ps n) _ _ _ IH).
  - intros *; exact (snd_args (ps n) _ _ _ _ IH).
  - intros *; exact (snd_items (ps n) _ _ _ _ IH).
  - intros *; exact (snd_then (ps n) _ _ _ _ IH).
Qed.
Theorem parse_sound n comma t e r : parse n comma t = Got e r -> exists w m, visible t = w ++ visible r /\ G (if comma then 11 else 12) e w m.
Proof. intros H. destruct (s_expr (sound_ps n) _ _ _ _ H) as (w & m & V & g & _). eauto. Qed.
