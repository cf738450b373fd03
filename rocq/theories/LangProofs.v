(** Facts about the definitional interpreter: more fuel does not change the result; variables
    and closures already made stay. *)
From Verif Require Import Base Native Err Vm VmProofs Graph GraphSpec GraphProofs Peep PeepSpec PeepProofs Lang LangSpec CompUnf.
Local Open Scope nat_scope.

Section props.
Context (P : prims) (funs : nat -> option sfun).
Local Notation st := (st P).

(** ** Fuel *)
Definition le {A} (m m' : M P A) : Prop := forall r, m = Some r -> m' = Some r.
Lemma le_refl {A} (m : M P A) : le m m. Proof. intros r H; exact H. Qed.
Lemma le_none {A} (m : M P A) : le None m. Proof. intros r H; discriminate. Qed.
Lemma le_bind {A B} (m m' : M P A) (k k' : A -> st -> M P B) : le m m' -> (forall a s, le (k a s) (k' a s)) -> le (bind P m k) (bind P m' k').
Proof.
  intros H J r. destruct m as [[a s|e w]|]; cbn [bind]; intro E; [|rewrite (H _ eq_refl); exact E|discriminate].
  rewrite (H _ eq_refl). cbn [bind]. now apply J.
Qed.
Record mono (n : nat) : Prop := {
  m_eval : forall fr e s, le (eval P funs n fr e s) (eval P funs (S n) fr e s);
  m_args : forall fr a s, le (eval_args P funs n fr a s) (eval_args P funs (S n) fr a s);
  m_plain : forall fr a s, le (eval_plain P funs n fr a s) (eval_plain P funs (S n) fr a s);
  m_chain : forall fr l a s, le (eval_chain P funs n fr l a s) (eval_chain P funs (S n) fr l a s);
  m_lit : forall fr l p a s, le (eval_lit P funs n fr l p a s) (eval_lit P funs (S n) fr l p a s);
  m_exec : forall g fr c s, le (exec P funs n g fr c s) (exec P funs (S n) g fr c s);
  m_for : forall fr nm it b el s, le (exec_for P funs n fr nm it b el s) (exec_for P funs (S n) fr nm it b el s);
  m_list : forall g fr l b s, le (exec_list P funs n g fr l b s) (exec_list P funs (S n) g fr l b s);
  m_block : forall fr b s, le (exec_block P funs n fr b s) (exec_block P funs (S n) fr b s);
  m_opt : forall fr b s, le (exec_opt P funs n fr b s) (exec_opt P funs (S n) fr b s);
  m_else : forall fr b s, le (exec_else P funs n fr b s) (exec_else P funs (S n) fr b s);
  m_scall : forall f a s, le (scall P funs n f a s) (scall P funs (S n) f a s);
  m_enter : forall f fn a s, le (enter P funs n f fn a s) (enter P funs (S n) f fn a s);
  m_defs : forall ds s, le (eval_defs P funs n ds s) (eval_defs P funs (S n) ds s);
  m_tree : forall t s, le (stree P funs n t s) (stree P funs (S n) t s) }.
Local Ltac lm := cbv zeta; repeat first [ apply le_refl | apply le_none | apply le_bind; [|intros] | progress auto
  | match goal with |- le (match ?x with _ => _ end) (match ?y with _ => _ end) => unify x y; destruct x end ].
Lemma mono_all n : mono n.
Proof.
  induction n as [|n [H1 H2 H3 H4 H5 H6 H7 H8 H9 H10 H11 H12 H13 H14 H15]]; [split; intros; apply le_none|]. split; intros.
  - rewrite !eval_S. lm.
  - rewrite !eval_args_S. lm.
  - rewrite !eval_plain_S. lm.
  - rewrite !eval_chain_S. lm.
  - rewrite !eval_lit_S. lm.
  - rewrite !exec_S. destruct c; lm.
  - rewrite !exec_for_S. lm.
  - rewrite !exec_list_S. lm.
  - rewrite !exec_block_S. lm.
  - rewrite !exec_opt_S. lm.
  - rewrite !exec_else_S. lm.
  - rewrite !scall_S. lm.
  - rewrite !enter_S. lm.
  - rewrite !eval_defs_S. lm.
  - rewrite !stree_S. lm.
Qed.
Lemma up_mono {A} (f : nat -> M P A) : (forall n, le (f n) (f (S n))) -> forall n m, n <= m -> le (f n) (f m).
Proof. intros H n m L. induction L; [apply le_refl|]. intros r E. apply H, IHL, E. Qed.
Lemma up_det {A} (f : nat -> M P A) : (forall n, le (f n) (f (S n))) -> forall n m r r', f n = Some r -> f m = Some r' -> r = r'.
Proof.
  intros H n m r r' A1 A2. destruct (Nat.le_ge_cases n m) as [L|L].
  - apply (up_mono f H n m L) in A1. congruence.
  - apply (up_mono f H m n L) in A2. congruence.
Qed.

(** ** Locations *)
Definition ext (s s' : st) : Prop :=
  length (store P s) <= length (store P s') /\ (exists x, senvs P s' = senvs P s ++ x) /\ (exists y, globals P s' = globals P s ++ y).
Definition locs_in (ls : list (option nat)) (s : st) : Prop := forall i l, nth_error ls i = Some (Some l) -> l < length (store P s).
Definition good (s : st) : Prop :=
  (forall c ls, nth_error (senvs P s) c = Some ls -> locs_in ls s) /\ (forall i l, nth_error (globals P s) i = Some l -> l < length (store P s)).
Definition frok (fr : frame) (s : st) : Prop := locs_in (locals fr) s /\ locs_in (up fr) s.
Definition inv_st (s s' : st) : Prop := ext s s' /\ good s'.
Definition sat {A} (Q : A -> st -> Prop) (m : M P A) : Prop := match m with Some (Ok _ _ a s) => Q a s | _ => True end.

Lemma ext_refl s : ext s s.
Proof. split; [lia|]. split; exists []; now rewrite app_nil_r. Qed.
Lemma ext_trans a b c : ext a b -> ext b c -> ext a c.
Proof.
  intros (A1 & [x A2] & [y A3]) (B1 & [x' B2] & [y' B3]). split; [lia|]. split.
  - exists (x ++ x'). now rewrite B2, A2, app_assoc.
  - exists (y ++ y'). now rewrite B3, A3, app_assoc.
Qed.
Lemma ext_world s w : ext s (with_world P w s). Proof. split; [simpl; lia|]. split; exists []; simpl; now rewrite app_nil_r. Qed.
Lemma good_world s w : good s -> good (with_world P w s). Proof. intro H; exact H. Qed.
Lemma locs_ext ls s s' : ext s s' -> locs_in ls s -> locs_in ls s'.
Proof. intros (A & _) H i l E. specialize (H i l E). lia. Qed.
Lemma frok_ext fr s s' : ext s s' -> frok fr s -> frok fr s'.
Proof. intros X [A B]. split; eapply locs_ext; eauto. Qed.
Lemma locs_nil s : locs_in [] s. Proof. intros [|i] l H; discriminate. Qed.
Lemma frok_nil s : frok (Frame [] []) s. Proof. split; apply locs_nil. Qed.
Lemma locs_snoc ls o s : locs_in ls s -> (forall l, o = Some l -> l < length (store P s)) -> locs_in (ls ++ [o]) s.
Proof.
  intros A B i l H. destruct (Nat.lt_ge_cases i (length ls)) as [L|L].
  - rewrite nth_error_app1 in H by auto. eauto.
  - rewrite nth_error_app2 in H by auto. destruct (i - length ls) as [|[|?]]; try discriminate. injection H as ->. auto.
Qed.
Lemma locs_cons ls o s : locs_in ls s -> (forall l, o = Some l -> l < length (store P s)) -> locs_in (o :: ls) s.
Proof. intros A B [|i] l H; simpl in H; [injection H as ->; auto|eauto]. Qed.
Lemma inv_refl s : good s -> inv_st s s. Proof. intro H. split; [apply ext_refl|exact H]. Qed.
Lemma inv_world s w : good s -> inv_st s (with_world P w s). Proof. intro H. split; [apply ext_world|exact H]. Qed.
Lemma inv_trans a b c : inv_st a b -> inv_st b c -> inv_st a c.
Proof. intros [A _] [B G]. split; auto. eapply ext_trans; eauto. Qed.

Lemma sat_bind {A B} (m : M P A) (k : A -> st -> M P B) (Q : A -> st -> Prop) (R : B -> st -> Prop) : sat Q m -> (forall a s, Q a s -> sat R (k a s)) -> sat R (bind P m k).
Proof. intros H J. destruct m as [[a s|e w]|]; cbn [bind sat] in *; auto. Qed.
Lemma sat_weak {A} (Q R : A -> st -> Prop) (m : M P A) : sat Q m -> (forall a s, Q a s -> R a s) -> sat R m.
Proof. intros H J. destruct m as [[a s|e w]|]; cbn in *; auto. Qed.

Lemma alloc_inv v s : good s -> inv_st s (snd (alloc P v s)) /\ fst (alloc P v s) = length (store P s).
Proof.
  intros [A B]. unfold alloc. simpl. split; auto. split; [split; [simpl; rewrite app_length; lia|]; split; exists []; simpl; now rewrite app_nil_r|].
  split; simpl.
  - intros c ls H i l E. simpl. rewrite app_length. specialize (A c ls H i l E). lia.
  - intros i l H. rewrite app_length. specialize (B i l H). lia.
Qed.
Lemma alloc_list_inv vs : forall s, good s -> inv_st s (snd (alloc_list P vs s)) /\ locs_in (fst (alloc_list P vs s)) (snd (alloc_list P vs s)).
Proof.
  induction vs as [|v vs IH]; intros s G; cbn [alloc_list]; [split; [now apply inv_refl|apply locs_nil]|].
  destruct (alloc_inv v s G) as [I E]. destruct (alloc P v s) as [l s1] eqn:Ea. cbn [fst snd] in *. destruct (IH s1 (proj2 I)) as [I2 L2].
  destruct (alloc_list P vs s1) as [ls s2]. cbn [fst snd] in *. split; [eapply inv_trans; eauto|]. apply locs_cons; auto.
  intros l' [= <-]. injection Ea as <- <-. destruct I2 as [(X & _) _]. simpl in X. rewrite app_length in X. simpl in X. lia.
Qed.
Lemma declare_inv g v fr s : frok fr s -> good s -> inv_st s (snd (declare P g v fr s)) /\ locs_in (fst (declare P g v fr s)) (snd (declare P g v fr s)).
Proof.
  intros [F _] G. destruct (alloc_inv v s G) as [[X G1] E]. unfold declare. destruct (alloc P v s) as [l s1] eqn:Ea. cbn [fst snd] in *.
  assert (L1 : l < length (store P s1)) by (injection Ea as <- <-; simpl; rewrite app_length; simpl; lia).
  destruct g; cbn [fst snd].
  - split.
    + destruct X as (X1 & X2 & [y X3]). split; [split; [exact X1|split; [exact X2|]]|].
      * exists (y ++ [l]). simpl. now rewrite X3, app_assoc.
      * destruct G1 as [A B]. split; [exact A|]. simpl. intros i l' H.
        destruct (Nat.lt_ge_cases i (length (globals P s1))) as [L|L]; [rewrite nth_error_app1 in H by auto; eauto|].
        rewrite nth_error_app2 in H by auto. destruct (i - length (globals P s1)) as [|[|?]]; try discriminate. now injection H as ->.
    + apply locs_snoc; [eapply (locs_ext _ s s1); eauto|]. intros l' [= <-]. exact L1.
  - split; [split; auto|]. apply locs_snoc; [eapply locs_ext; eauto|]. intros l' [= <-]. exact L1.
Qed.
Lemma captured_in fr s : frok fr s -> forall cs ls, captured fr cs = Some ls -> locs_in ls s.
Proof.
  intros [F1 F2]. induction cs as [|c cs IH]; simpl; intros ls H; [injection H as <-; apply locs_nil|].
  destruct (captured fr cs) as [l0|]; [|discriminate]. specialize (IH _ eq_refl). destruct c.
  - destruct (nth_error (locals fr) i) as [[l|]|] eqn:E; try discriminate. injection H as <-. apply locs_cons; auto. intros ? [= <-]. eauto.
  - destruct (nth_error (up fr) i) as [o|] eqn:E; try discriminate. injection H as <-. apply locs_cons; auto. intros l ->. eauto.
  - injection H as <-. apply locs_cons; auto. discriminate.
Qed.
Lemma closure_inv f ls s : good s -> locs_in ls s -> inv_st s (snd (new_closure P f ls s)).
Proof.
  intros [A B] L. unfold new_closure. simpl. split; [split; [simpl; lia|]; split; [exists [ls]; reflexivity|exists []; simpl; now rewrite app_nil_r]|].
  split; [|exact B]. simpl. intros c l0 H. destruct (Nat.lt_ge_cases c (length (senvs P s))) as [Q|Q].
  - rewrite nth_error_app1 in H by auto. exact (A c l0 H).
  - rewrite nth_error_app2 in H by auto. destruct (c - length (senvs P s)) as [|[|?]]; try discriminate. now injection H as <-.
Qed.
Lemma set_inv l v s : good s -> inv_st s (set_loc P l v s).
Proof.
  intros [A B]. assert (E : length (store P (set_loc P l v s)) = length (store P s)) by (simpl; apply upd_length).
  split; [split; [lia|]; split; exists []; simpl; now rewrite app_nil_r|]. split.
  - intros c ls H i x Hx. rewrite E. exact (A c ls H i x Hx).
  - intros i x Hx. rewrite E. exact (B i x Hx).
Qed.
Lemma var_loc_inv fr x s : good s -> sat (fun _ s' => s' = s) (var_loc P fr x s).
Proof.
  intro G. unfold var_loc. destruct x.
  - destruct (nth_error (locals fr) i) as [[l|]|]; simpl; auto.
  - destruct (nth_error (globals P s) i); simpl; auto.
  - destruct (nth_error (up fr) i) as [[l|]|]; simpl; auto.
Qed.

Definition okr {A} (s : st) : A -> st -> Prop := fun _ s' => inv_st s s'.
Definition oko (s : st) : outcome -> st -> Prop := fun o s' => inv_st s s' /\ match o with ONorm ls _ => locs_in ls s' | _ => True end.
Record keeps (n : nat) : Prop := {
  k_eval : forall fr e s, frok fr s -> good s -> sat (okr s) (eval P funs n fr e s);
  k_args : forall fr a s, frok fr s -> good s -> sat (okr s) (eval_args P funs n fr a s);
  k_plain : forall fr a s, frok fr s -> good s -> sat (okr s) (eval_plain P funs n fr a s);
  k_chain : forall fr l a s, frok fr s -> good s -> sat (okr s) (eval_chain P funs n fr l a s);
  k_lit : forall fr l p a s, frok fr s -> good s -> sat (okr s) (eval_lit P funs n fr l p a s);
  k_exec : forall g fr c s, frok fr s -> good s -> sat (oko s) (exec P funs n g fr c s);
  k_for : forall fr nm it b el s, frok fr s -> good s -> sat (oko s) (exec_for P funs n fr nm it b el s);
  k_list : forall g fr l b s, frok fr s -> good s -> sat (oko s) (exec_list P funs n g fr l b s);
  k_block : forall fr b s, frok fr s -> good s -> sat (oko s) (exec_block P funs n fr b s);
  k_opt : forall fr b s, frok fr s -> good s -> sat (oko s) (exec_opt P funs n fr b s);
  k_else : forall fr b s, frok fr s -> good s -> sat (oko s) (exec_else P funs n fr b s);
  k_scall : forall f a s, good s -> sat (okr s) (scall P funs n f a s);
  k_enter : forall f fn a s, good s -> sat (okr s) (enter P funs n f fn a s);
  k_defs : forall ds s, good s -> sat (okr s) (eval_defs P funs n ds s);
  k_tree : forall t s, good s -> sat (okr s) (stree P funs n t s) }.
Lemma okr_of {A} s0 s (m : M P A) : inv_st s0 s -> sat (okr s) m -> sat (okr s0) m.
Proof. intros I H. eapply sat_weak; [exact H|]. intros a s'. apply inv_trans. exact I. Qed.
Lemma oko_of s0 s (m : M P outcome) : inv_st s0 s -> sat (oko s) m -> sat (oko s0) m.
Proof. intros I H. eapply sat_weak; [exact H|]. intros a s' [X Y]. split; auto. eapply inv_trans; eauto. Qed.
Lemma okr_world {A} s0 s w (m : M P A) : inv_st s0 s -> sat (okr (with_world P w s)) m -> sat (okr s0) m.
Proof. intros I. apply okr_of. eapply inv_trans; [exact I|]. apply inv_world, I. Qed.
Lemma inv_frok fr s s' : inv_st s s' -> frok fr s -> frok fr s'. Proof. intros [X _]. now apply frok_ext. Qed.
Lemma sat_seq {A B} fr s0 s (m : M P A) (k : A -> st -> M P B) R : inv_st s0 s -> frok fr s -> sat (okr s) m ->
  (forall a s', inv_st s0 s' -> frok fr s' -> good s' -> sat R (k a s')) -> sat R (bind P m k).
Proof.
  intros I F H J. eapply sat_bind; [exact H|]. intros a s' I'. apply J.
  - eapply inv_trans; eauto.
  - eapply inv_frok; eauto.
  - apply I'.
Qed.
Lemma sat_seqo {B} fr s0 s (m : M P outcome) (k : outcome -> st -> M P B) R : inv_st s0 s -> frok fr s -> sat (oko s) m ->
  (forall o s', inv_st s0 s' -> frok fr s' -> good s' -> match o with ONorm ls _ => locs_in ls s' | _ => True end -> sat R (k o s')) -> sat R (bind P m k).
Proof.
  intros I F H J. eapply sat_bind; [exact H|]. intros a s' [I' L]. apply J; auto.
  - eapply inv_trans; eauto.
  - eapply inv_frok; eauto.
  - apply I'.
Qed.
Lemma inv_good s s' : inv_st s s' -> good s'. Proof. now intros [_ X]. Qed.
Lemma frok_w fr s w : frok fr s -> frok fr (with_world P w s). Proof. intro H; exact H. Qed.
Lemma inv_w s0 s w : inv_st s0 s -> inv_st s0 (with_world P w s).
Proof. intro H. eapply inv_trans; [exact H|]. apply inv_world, H. Qed.
Lemma frok_locs fr s : frok fr s -> locs_in (locals fr) s. Proof. now intros [A _]. Qed.
Hint Resolve inv_refl good_world frok_w inv_w frok_locs inv_good frok_nil locs_nil : kk.
Lemma sat_decl (g : bool) v fr s0 s R (k : list (option nat) -> st -> M P outcome) : inv_st s0 s -> frok fr s -> good s ->
  (forall ls s', inv_st s0 s' -> frok fr s' -> good s' -> locs_in ls s' -> sat R (k ls s')) -> sat R (let '(ls, s') := declare P g v fr s in k ls s').
Proof.
  intros I F G H. destruct (declare_inv g v fr s F G) as [I2 L]. destruct (declare P g v fr s) as [ls s']. apply H; auto.
  - eapply inv_trans; eauto.
  - eapply inv_frok; eauto.
  - apply I2.
Qed.
Lemma var_inv {B} fr x s (k : nat -> st -> M P B) R : good s -> (forall l, sat R (k l s)) -> sat R (bind P (var_loc P fr x s) k).
Proof. intros G H. eapply sat_bind; [now apply var_loc_inv|]. intros a s' ->. apply H. Qed.
Lemma read_inv {B} l s (k : hval -> st -> M P B) R : (forall v, sat R (k v s)) -> sat R (bind P (read P l s) k).
Proof. intros H. unfold read. destruct (nth_error _ _); cbn; auto. Qed.
Lemma bind_bind {A B D} (m : M P A) (k : A -> st -> M P B) (j : B -> st -> M P D) : bind P (bind P m k) j = bind P m (fun a s => bind P (k a s) j).
Proof. destruct m as [[a s|e w]|]; reflexivity. Qed.
Lemma ret_r {A} (a : A) s0 s : inv_st s0 s -> sat (okr s0) (ret P a s). Proof. intro H; exact H. Qed.
Lemma ret_o ls v s0 s : inv_st s0 s -> locs_in ls s -> sat (oko s0) (ret P (ONorm ls v) s). Proof. intros; split; auto. Qed.
Lemma ret_o' o s0 s : inv_st s0 s -> match o with ONorm ls _ => locs_in ls s | _ => True end -> sat (oko s0) (ret P o s). Proof. intros; split; auto. Qed.
Local Ltac k1 := cbv zeta; repeat first [ exact Logic.I | apply ret_r; solve [eauto 4 with kk] | apply ret_o; solve [eauto 4 with kk] | apply ret_o'; [solve [eauto 4 with kk]|solve [auto with kk]]
  | apply var_inv; [assumption|intros ?]
  | match goal with |- sat _ (match declare P _ _ _ _ with _ => _ end) => eapply sat_decl; [solve [eauto with kk]|solve [eauto with kk]|solve [eauto with kk]|intros ? ? ? ? ? ?] end
  | match goal with |- sat _ (bind P (match ?x with _ => _ end) _) => destruct x eqn:? end
  | match goal with |- sat _ (bind P (ret P _ _) _) => cbn [bind ret] end
  | match goal with |- sat _ (bind P (Some _) _) => cbn [bind ret] end
  | match goal with |- sat _ (bind P (bind P _ _) _) => rewrite bind_bind end
  | match goal with |- sat _ (match ?x with _ => _ end) => destruct x eqn:? end
  | eapply sat_seq; [ | | solve [eauto with kk] | intros ? ? ? ? ? ]; [solve [eauto with kk]|solve [eauto with kk]|]
  | eapply sat_seqo; [ | | solve [eauto with kk] | intros ? ? ? ? ? ? ]; [solve [eauto with kk]|solve [eauto with kk]|]
  | eapply okr_of; [ | solve [eauto with kk] ]; solve [eauto with kk]
  | eapply oko_of; [ | solve [eauto with kk] ]; solve [eauto with kk] ].
Lemma keeps_all n : keeps n.
Proof.
  induction n as [|n [H1 H2 H3 H4 H5 H6 H7 H8 H9 H10 H11 H12 H13 H14 H15]]; [split; intros; exact Logic.I|]. split; intros.
  - rewrite !eval_S. destruct e; try solve [k1].
    + eapply var_inv; auto. intro l. unfold read. k1.
    + destruct (captured fr (c :: caps)) as [ls|] eqn:E; [|exact Logic.I]. pose proof (closure_inv f ls s H0 (captured_in fr s H _ _ E)) as C. exact C.
    + k1. cbn [sat ret okr]. eapply inv_trans; [eassumption|]. now apply set_inv.
  - rewrite !eval_args_S. k1.
  - rewrite !eval_plain_S. k1.
  - rewrite !eval_chain_S. k1.
  - rewrite !eval_lit_S. k1.
  - rewrite !exec_S. destruct c; try solve [k1].
    + (* fn *) destruct caps as [|c0 cs0]; [k1|]. cbv zeta.
      eapply sat_decl; [eauto with kk|auto|auto|]. intros ls s' I F G L.
      destruct (captured _ _) as [cl|] eqn:E; [|exact Logic.I].
      assert (F' : frok (Frame ls (up fr)) s') by (split; [exact L|exact (proj2 F)]).
      pose proof (closure_inv f cl s' G (captured_in _ _ F' _ _ E)) as C. destruct (new_closure P f cl s') as [x s2]. cbn [snd] in C.
      apply ret_o; [eapply inv_trans; eauto|]. eapply locs_ext; [exact (proj1 C)|exact L].
  - rewrite !exec_for_S. destruct (p_next P it (sworld P s)) as [w [v|]]; [|k1].
    assert (X : forall ls s1, inv_st s s1 -> frok fr s1 -> good s1 -> locs_in ls s1 ->
      sat (oko s) (bind P (exec_block P funs n (Frame (ls ++ [None]) (up fr)) b s1) (fun o s =>
        match o with
        | OBreak => ret P (ONorm (locals fr) None) s
        | OContinue | ONorm _ _ => exec_for P funs n fr nm it b el s
        | OReturned _ => ret P o s
        end))).
    { intros ls s1 I F G L. assert (F' : frok (Frame (ls ++ [None]) (up fr)) s1) by (split; [apply locs_snoc; auto; discriminate|exact (proj2 F)]).
      eapply (sat_seqo fr s s1); [exact I|exact F|now apply H9|]. intros o s2 I2 F2 G2 L2. k1. }
    destruct nm; [|apply X; eauto with kk]. 
    eapply (sat_decl false v fr s (with_world P w s) (oko s)
       (fun ls s1 => bind P (exec_block P funs n (Frame (ls ++ [None]) (up fr)) b s1) (fun o s =>
        match o with
        | OBreak => ret P (ONorm (locals fr) None) s
        | OContinue | ONorm _ _ => exec_for P funs n fr true it b el s
        | OReturned _ => ret P o s
        end))); eauto with kk.
  - rewrite !exec_list_S. destruct b as [|c r]; [k1|]. eapply (sat_seqo fr s s); [now apply inv_refl|exact H|now apply H6|]. intros o s' I F G L.
    destruct o; try solve [apply ret_o'; auto]. eapply oko_of; [exact I|]. apply H8; auto. split; [exact L|exact (proj2 F)].
  - rewrite !exec_block_S. k1.
  - rewrite !exec_opt_S. k1.
  - rewrite !exec_else_S. k1.
  - rewrite !scall_S. k1.
  - rewrite !enter_S. cbv zeta.
    assert (X : forall ups, locs_in ups s -> sat (okr s) (bind P (eval_defs P funs n (skipn (length a - required fn) (sf_defs fn)) s) (fun ds s =>
        let '(ls, s) := alloc_list P (a ++ ds) s in
        match sf_body fn with
        | BodyExpr e => eval P funs n (Frame ls ups) e s
        | BodyBlock b =>
            bind P (exec_list P funs n false (Frame ls ups) None b s) (fun o s =>
            match o with
            | OReturned v => ret P v s
            | ONorm _ (Some v) => ret P v s
            | ONorm _ None => ret P HNil s
            | _ => None
            end)
        end))).
    { intros ups U. eapply (sat_seq (Frame [] ups) s s); [now apply inv_refl|split; [apply locs_nil|exact U]|now apply H14|]. intros ds s1 I F G.
      destruct (alloc_list_inv (a ++ ds) s1 G) as [I2 L2]. destruct (alloc_list P (a ++ ds) s1) as [ls s2]. cbn [fst snd] in *.
      assert (F' : frok (Frame ls ups) s2) by (split; [exact L2|]; eapply locs_ext; [exact (proj1 I2)|exact (proj2 F)]).
      assert (G2 := proj2 I2). pose proof (inv_trans _ _ _ I I2) as I3. destruct (sf_body fn); k1. }
    destruct f; try (apply X; apply locs_nil).
    match goal with |- context [nth_error (senvs P s) ?c] => destruct (nth_error (senvs P s) c) as [ups|] eqn:E; [|exact Logic.I] end. apply X. exact (proj1 H _ _ E).
  - rewrite !eval_defs_S. k1.
  - rewrite !stree_S. k1.
Qed.
End props.
