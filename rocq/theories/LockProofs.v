From Verif Require Import Base BaseProofs Lock LockSpec.
Local Open Scope Z_scope.
Ltac Zify.zify_post_hook ::= Z.div_mod_to_equations.

Definition lock_inv (l : Z) (g : guards) : Prop :=
  if exclusive g then shared g = 0%nat /\ l = 0
  else Z.of_nat (shared g) <= 65535 /\ l = (Z.of_nat (shared g) + 1) mod 65536.

Lemma u16_eq x : u16 x = x mod 65536.
Proof. reflexivity. Qed.

Lemma lock_inv_step l g op g' : lock_inv l g -> handed_out g op (snd (lock_step l op)) = Some g' -> lock_inv (fst (lock_step l op)) g'.
Proof.
  unfold lock_inv. destruct g as [s e]. cbn [shared exclusive]. intros H.
  destruct op; cbn [lock_step]; unfold BORROW_MUT, BORROW_NONE.
  - destruct (Z.eqb_spec l 0); cbn [fst snd handed_out]; intros E; inversion E; subst; cbn [shared exclusive]; [exact H|].
    destruct e; [destruct H; congruence|]. rewrite u16_eq. lia.
  - destruct (Z.eqb_spec l 1); cbn [fst snd handed_out]; intros E; inversion E; subst; cbn [shared exclusive]; [|exact H].
    destruct e; lia.
  - cbn [fst snd handed_out shared]. destruct s as [|s]; [discriminate|]. intros E; inversion E; subst; cbn [shared exclusive].
    destruct e; [lia|]. rewrite u16_eq. lia.
  - cbn [fst snd handed_out exclusive]. destruct e; [|discriminate]. intros E; inversion E; subst; cbn [shared exclusive].
    destruct H as [-> ->]. cbn. lia.
Qed.
Lemma lock_reach_inv l g : lock_reach l g -> lock_inv l g.
Proof.
  induction 1 as [|l g op g' H IH E]; [unfold lock_inv, BORROW_NONE; cbn; lia|].
  exact (lock_inv_step l g op g' IH E).
Qed.

Lemma lock_exclusion l g : lock_reach l g -> exclusive g = true -> shared g = 0%nat.
Proof. intros R E. apply lock_reach_inv in R. unfold lock_inv in R. rewrite E in R. apply R. Qed.

Lemma lock_exact l g : lock_reach l g -> Z.of_nat (shared g) < 65535 -> forall op g' out, guard_step g op = Some (g', out) ->
  snd (lock_step l op) = out /\ handed_out g op out = Some g' /\ (out = Some false -> fst (lock_step l op) = l).
Proof.
  intros R Hs op g' out. apply lock_reach_inv in R. unfold lock_inv in R. destruct g as [s e]. cbn [shared exclusive] in *.
  destruct op; cbn [guard_step lock_step shared exclusive]; unfold BORROW_MUT, BORROW_NONE.
  - destruct e; intros E; inversion E; subst; destruct (Z.eqb_spec l 0); cbn; repeat split; try lia; try discriminate.
  - destruct e; cbn [orb].
    + intros E; inversion E; subst. destruct R as [-> ->]. repeat split.
    + destruct (Nat.ltb_spec 0 s); intros E; inversion E; subst; destruct (Z.eqb_spec l 1); cbn; repeat split; try lia; try discriminate.
      do 2 f_equal. lia.
  - destruct s as [|s]; [discriminate|]. intros E; inversion E; subst. cbn. repeat split. discriminate.
  - destruct e; [|discriminate]. intros E; inversion E; subst. cbn. repeat split. discriminate.
Qed.

Lemma lock_released l : lock_reach l (G 0 false) -> l = BORROW_NONE.
Proof. intros R. apply lock_reach_inv in R. unfold lock_inv in R. cbn in R. unfold BORROW_NONE. lia. Qed.

Lemma lock_reach_n n : Z.of_nat n <= 65535 -> lock_reach (u16 (Z.of_nat n + 1)) (G n false).
Proof.
  induction n as [|n IH]; intros Hn; [apply lr_init|].
  assert (R : lock_reach (u16 (Z.of_nat n + 1)) (G n false)) by (apply IH; lia).
  pose proof (lr_step _ _ TryBorrow (G (S n) false) R) as S1. cbn [lock_step] in S1. unfold BORROW_MUT in S1.
  rewrite u16_eq in *. destruct (Z.eqb_spec ((Z.of_nat n + 1) mod 65536) 0); [exfalso; lia|].
  cbn [fst snd handed_out shared exclusive] in S1. specialize (S1 eq_refl). rewrite u16_eq in S1.
  replace ((Z.of_nat (S n) + 1) mod 65536) with (((Z.of_nat n + 1) mod 65536 + 1) mod 65536) by lia. exact S1.
Qed.
Lemma lock_limit : exists l g, lock_reach l g /\ exclusive g = false /\ snd (lock_step l TryBorrow) = Some false.
Proof.
  exists (u16 (Z.of_nat (Z.to_nat 65535) + 1)), (G (Z.to_nat 65535) false).
  split; [apply lock_reach_n; lia|]. split; [reflexivity|]. rewrite Z2Nat.id by lia. reflexivity.
Qed.

(** ** reference counts *)
Definition cnt (l : list nat) (a : nat) : nat := count_occ Nat.eq_dec l a.
Lemma cnt_app l r a : cnt (l ++ r) a = (cnt l a + cnt r a)%nat.
Proof. apply count_occ_app. Qed.
Lemma cnt_cons x l a : cnt (x :: l) a = ((if Nat.eqb x a then 1 else 0) + cnt l a)%nat.
Proof. unfold cnt. cbn [count_occ]. destruct (Nat.eq_dec x a); destruct (Nat.eqb_spec x a); lia. Qed.
Lemma cnt_nil a : cnt [] a = 0%nat.
Proof. reflexivity. Qed.
Lemma remove1_cnt a l : forall l', remove1 a l = Some l' -> forall x, cnt l x = ((if Nat.eqb a x then 1 else 0) + cnt l' x)%nat.
Proof.
  induction l as [|y l IH]; intros l'; cbn [remove1]; [discriminate|].
  destruct (Nat.eqb_spec y a) as [->|N].
  - intros E; inversion E; subst. intros x. apply cnt_cons.
  - destruct (remove1 a l) as [r|] eqn:Er; [|discriminate]. intros E; inversion E; subst. intros x.
    rewrite !cnt_cons, (IH r eq_refl x). lia.
Qed.
Lemma remove1_len a l : forall l', remove1 a l = Some l' -> length l = S (length l').
Proof.
  induction l as [|y l IH]; intros l'; cbn [remove1]; [discriminate|]. destruct (Nat.eqb y a).
  - intros E; inversion E; reflexivity.
  - destruct (remove1 a l) as [r|]; [|discriminate]. intros E; inversion E; subst. cbn. rewrite (IH r); reflexivity.
Qed.
Lemma remove_all_cnt ks : forall l l', remove_all ks l = Some l' -> forall x, cnt l x = (cnt ks x + cnt l' x)%nat.
Proof.
  induction ks as [|k ks IH]; intros l l'; cbn [remove_all]; [intros E; inversion E; reflexivity|].
  destruct (remove1 k l) as [r|] eqn:Er; [|discriminate]. intros E x. rewrite (remove1_cnt _ _ _ Er x), (IH _ _ E x), cnt_cons. lia.
Qed.
Lemma nth_set_same {A} (l : list A) i x o : nth_error l i = Some o -> nth_error (set_nth l i x) i = Some x.
Proof. revert i. induction l as [|y l IH]; intros [|i]; cbn; try discriminate; auto. Qed.
Lemma nth_set_other {A} (l : list A) i j x : i <> j -> nth_error (set_nth l i x) j = nth_error l j.
Proof. revert i j. induction l as [|y l IH]; intros [|i] [|j] H; cbn; try reflexivity; try congruence. apply IH. congruence. Qed.
Lemma kids_set h : forall a o o', nth_error h a = Some o -> forall x,
  (cnt (kids_of (set_nth h a o')) x + cnt (kids o) x = cnt (kids_of h) x + cnt (kids o') x)%nat.
Proof.
  unfold kids_of. induction h as [|y h IH]; intros [|a] o o'; cbn [nth_error]; try discriminate; intros E x; cbn [set_nth flat_map].
  - inversion E; subst. rewrite !cnt_app. lia.
  - rewrite !cnt_app. specialize (IH a o o' E x). lia.
Qed.
Lemma kids_set_len h : forall a o o', nth_error h a = Some o ->
  (length (kids_of (set_nth h a o')) + length (kids o) = length (kids_of h) + length (kids o'))%nat.
Proof.
  unfold kids_of. induction h as [|y h IH]; intros [|a] o o'; cbn [nth_error]; try discriminate; intros E; cbn [set_nth flat_map]; rewrite !app_length.
  - inversion E; subst. lia.
  - specialize (IH a o o' E). lia.
Qed.

Definition minv (h : list obj) (w : list nat) : Prop := forall a,
  match nth_error h a with
  | Some o => let n := (cnt w a + cnt (kids_of h) a)%nat in
      if alive o then refs o = Z.of_nat n /\ (0 < n)%nat /\ frees o = 0%nat
      else n = 0%nat /\ kids o = [] /\ frees o = 1%nat
  | None => cnt w a = 0%nat /\ cnt (kids_of h) a = 0%nat
  end.

Lemma minv_ext h w w' : (forall a, cnt w a = cnt w' a) -> minv h w -> minv h w'.
Proof. intros E H a. specialize (H a). rewrite E in H. exact H. Qed.

Lemma cnt_le_len l a : (cnt l a <= length l)%nat.
Proof. apply count_occ_bound. Qed.

Lemma minv_head h a w : minv h (a :: w) -> exists o, nth_error h a = Some o /\ alive o = true /\
  refs o = 1 + Z.of_nat (cnt w a + cnt (kids_of h) a) /\ frees o = 0%nat.
Proof.
  intros H. specialize (H a). destruct (nth_error h a) as [o|].
  - exists o. rewrite cnt_cons, Nat.eqb_refl in H. cbn zeta in H. destruct (alive o); [|lia].
    repeat split; try tauto. destruct H as [-> _]. lia.
  - rewrite cnt_cons, Nat.eqb_refl in H. lia.
Qed.

Lemma drop_all_ok fuel : forall h w rs, minv h (w ++ rs) ->
  (length w + length (kids_of h) <= fuel)%nat -> Z.of_nat (length w + length rs + length (kids_of h)) < 2 ^ 32 ->
  exists h', drop_all fuel h w = Ok h' /\ minv h' rs /\ (length (kids_of h') <= length (kids_of h) + length w)%nat.
Proof.
  induction fuel as [|f IH]; intros h w rs Hi Hf Hb.
  - destruct w as [|a w]; [|cbn in Hf; lia]. exists h. cbn. repeat split; auto. lia.
  - destruct w as [|a w]; [exists h; cbn; repeat split; auto; lia|].
    cbn [drop_all app] in *. destruct (minv_head _ _ _ Hi) as [o [Ho [Ha [Hr Hfr]]]]. rewrite Ho, Ha.
    set (n := (cnt (w ++ rs) a + cnt (kids_of h) a)%nat) in *.
    assert (Hn : Z.of_nat n < 2 ^ 32 - 1).
    { subst n. rewrite cnt_app. pose proof (cnt_le_len w a). pose proof (cnt_le_len rs a). pose proof (cnt_le_len (kids_of h) a).
      cbn [length] in Hb. lia. }
    replace (u32 (refs o - 1)) with (Z.of_nat n)
      by (rewrite Hr; unfold u32, uwrap; rewrite Z.mod_small by lia; lia).
    destruct (Z.eqb_spec (Z.of_nat n) 0) as [Hz|Hz].
    + (* freed *)
      set (h1 := set_nth h a (Obj false 0 [] (S (frees o)))).
      assert (K : forall x, (cnt (kids_of h1) x + cnt (kids o) x = cnt (kids_of h) x)%nat).
      { intros x. pose proof (kids_set h a o (Obj false 0 [] (S (frees o))) Ho x) as K. cbn [kids] in K. rewrite cnt_nil in K. subst h1. lia. }
      assert (KL : (length (kids_of h1) + length (kids o) = length (kids_of h))%nat).
      { pose proof (kids_set_len h a o (Obj false 0 [] (S (frees o))) Ho) as K2. cbn [kids length] in K2. subst h1. lia. }
      destruct (IH h1 (kids o ++ w) rs) as [h' [E [I' L']]].
      * intros x. specialize (Hi x). specialize (K x). rewrite <- app_assoc. rewrite cnt_app.
        destruct (Nat.eq_dec a x) as [<-|Nx].
        -- subst h1. rewrite (nth_set_same h a _ o Ho). cbn [alive kids frees]. rewrite Hfr. repeat split. 
           subst n. rewrite Hfr in K. rewrite cnt_app in Hz |- *. lia.
        -- subst h1. rewrite nth_set_other by assumption. rewrite cnt_cons in Hi.
           destruct (Nat.eqb_spec a x); [congruence|]. destruct (nth_error h x) as [o'|].
           ++ cbn zeta in *. destruct (alive o'); [|].
              ** destruct Hi as [Hi1 [Hi2 Hi3]]. repeat split; [rewrite Hi1; f_equal; lia|lia|assumption].
              ** destruct Hi as [Hi1 [Hi2 Hi3]]. repeat split; [lia|assumption|assumption].
           ++ lia.
      * rewrite app_length. cbn [length] in Hf. lia.
      * rewrite app_length. cbn [length] in Hb. lia.
      * exists h'. split; [exact E|]. split; [exact I'|]. rewrite app_length in L'. cbn [length]. lia.
    + set (h1 := set_nth h a (Obj true (Z.of_nat n) (kids o) (frees o))).
      assert (K : forall x, cnt (kids_of h1) x = cnt (kids_of h) x).
      { intros x. pose proof (kids_set h a o (Obj true (Z.of_nat n) (kids o) (frees o)) Ho x) as K. cbn [kids] in K. subst h1. lia. }
      assert (KL : (length (kids_of h1) = length (kids_of h))%nat).
      { pose proof (kids_set_len h a o (Obj true (Z.of_nat n) (kids o) (frees o)) Ho) as K2. cbn [kids] in K2. subst h1. lia. }
      destruct (IH h1 w rs) as [h' [E [I' L']]].
      * intros x. specialize (Hi x). rewrite K.
        destruct (Nat.eq_dec a x) as [<-|Nx].
        -- subst h1. rewrite (nth_set_same h a _ o Ho). cbn [alive kids frees refs]. repeat split; [|assumption]. lia.
        -- subst h1. rewrite nth_set_other by assumption. rewrite cnt_cons in Hi.
           destruct (Nat.eqb_spec a x); [congruence|]. exact Hi.
      * cbn [length] in Hf. lia.
      * cbn [length] in Hb. lia.
      * exists h'. split; [exact E|]. split; [exact I'|]. cbn [length]. lia.
Qed.

Lemma live_kids h w : minv h w -> flat_map (fun o => if alive o then kids o else []) h = kids_of h.
Proof.
  intros H. assert (D : forall o, In o h -> alive o = false -> kids o = []).
  { intros o Ho Ha. apply In_nth_error in Ho. destruct Ho as [i Hi]. specialize (H i). rewrite Hi, Ha in H. cbn zeta in H. tauto. }
  clear H. unfold kids_of. induction h as [|o h IH]; [reflexivity|]. cbn [flat_map]. rewrite IH by (intros; apply D; [right|]; assumption).
  destruct (alive o) eqn:E; [reflexivity|]. rewrite (D o (or_introl eq_refl) E). reflexivity.
Qed.

Definition Inv (m : mem) : Prop := minv (heap m) (roots m) /\ Z.of_nat (length (roots m) + length (kids_of (heap m))) < 2 ^ 32.

Lemma nth_app_last {A} (l : list A) x a : nth_error (l ++ [x]) a =
  if Nat.eqb a (length l) then Some x else nth_error l a.
Proof.
  destruct (Nat.eqb_spec a (length l)) as [->|N].
  - rewrite nth_error_app2, Nat.sub_diag by lia. reflexivity.
  - destruct (Nat.lt_ge_cases a (length l)).
    + apply nth_error_app1. assumption.
    + rewrite (proj2 (nth_error_None (l ++ [x]) a)) by (rewrite app_length; cbn; lia).
      symmetry. apply nth_error_None. assumption.
Qed.
Lemma kids_app h o : kids_of (h ++ [o]) = kids_of h ++ kids o.
Proof. unfold kids_of. rewrite flat_map_app. cbn. rewrite app_nil_r. reflexivity. Qed.

Lemma root_obj h w a w' : minv h w -> remove1 a w = Some w' -> exists o, nth_error h a = Some o /\ alive o = true /\
  refs o = 1 + Z.of_nat (cnt w' a + cnt (kids_of h) a) /\ frees o = 0%nat.
Proof.
  intros H E. apply minv_head. apply (minv_ext h w); [|exact H]. intros x. rewrite (remove1_cnt a w w' E x), cnt_cons. reflexivity.
Qed.

Lemma step_inv m op : Inv m -> mem_step m op <> UseAfterFree /\
  (forall m', mem_step m op = Ok m' -> Z.of_nat (length (roots m') + length (kids_of (heap m'))) < 2 ^ 32 -> Inv m').
Proof.
  intros [Hi Hb]. destruct op as [ks|a|a|a b|a b]; cbn [mem_step].
  - destruct (remove_all ks (roots m)) as [rs|] eqn:E; [|split; discriminate]. split; [discriminate|].
    intros m' Em Hb'; split; [|exact Hb']; inversion Em; subst; clear Em. cbn [heap roots]. intros x. rewrite nth_app_last, kids_app.
    pose proof (remove_all_cnt _ _ _ E x) as C. specialize (Hi x). cbn [kids]. rewrite cnt_app, cnt_cons.
    destruct (Nat.eqb_spec x (length (heap m))) as [->|N].
    + cbn [alive refs frees]. rewrite Nat.eqb_refl. rewrite (proj2 (nth_error_None (heap m) _)) in Hi by lia.
      cbn zeta. lia.
    + destruct (Nat.eqb_spec (length (heap m)) x); [congruence|]. destruct (nth_error (heap m) x) as [o|].
      * cbn zeta in *. destruct (alive o); destruct Hi as [H1 [H2 H3]]; repeat split; try assumption; lia.
      * lia.
  - destruct (remove1 a (roots m)) as [rs|] eqn:E; [|split; discriminate].
    destruct (root_obj _ _ _ _ Hi E) as [o [Ho [Ha [Hr Hf]]]]. rewrite Ho, Ha. split; [discriminate|].
    intros m' Em Hb'; split; [|exact Hb']; inversion Em; subst; clear Em. cbn [heap roots] in *. intros x.
    pose proof (kids_set_len (heap m) a o (Obj true (u32 (refs o + 1)) (kids o) (frees o)) Ho) as KL. cbn [kids length] in KL, Hb'.
    pose proof (kids_set (heap m) a o (Obj true (u32 (refs o + 1)) (kids o) (frees o)) Ho x) as K. cbn [kids] in K.
    pose proof (remove1_cnt _ _ _ E x) as C. pose proof (remove1_len _ _ _ E) as L. rewrite cnt_cons.
    destruct (Nat.eqb_spec a x) as [<-|N].
    + rewrite (nth_set_same _ _ _ o Ho). cbn [alive refs frees].
      pose proof (cnt_le_len rs a). pose proof (cnt_le_len (kids_of (heap m)) a).
      cbn zeta. rewrite C. repeat split; [|lia|assumption].
      assert (Hu : u32 (refs o + 1) = refs o + 1) by (rewrite Hr; unfold u32, uwrap; apply Z.mod_small; lia). lia.
    + rewrite nth_set_other by assumption. specialize (Hi x).
      destruct (nth_error (heap m) x) as [o'|]; cbn zeta in *.
      * destruct (alive o'); destruct Hi as [H1 [H2 H3]]; repeat split; try assumption; lia.
      * lia.
  - destruct (remove1 a (roots m)) as [rs|] eqn:E; [|split; discriminate].
    assert (Hi' : minv (heap m) ([a] ++ rs)).
    { apply (minv_ext _ (roots m)); [|exact Hi]. intros x. rewrite (remove1_cnt _ _ _ E x). cbn [app]. rewrite cnt_cons. reflexivity. }
    pose proof (remove1_len _ _ _ E) as L.
    destruct (drop_all_ok (drop_fuel (heap m) [a]) (heap m) [a] rs Hi') as [h' [E' [I' L']]].
    + unfold drop_fuel. lia.
    + cbn [length]. lia.
    + rewrite E'. split; [discriminate|]. intros m' Em Hb'; split; [|exact Hb']; inversion Em; subst; clear Em. exact I'.
  - destruct (remove1 b (roots m)) as [rs|] eqn:E; [|split; discriminate].
    destruct (remove1 a (roots m)) as [rs'|] eqn:E2; [|split; discriminate].
    destruct (root_obj _ _ _ _ Hi E2) as [o [Ho [Ha [Hr Hf]]]]. rewrite Ho, Ha. split; [discriminate|].
    intros m' Em Hb'; split; [|exact Hb']; inversion Em; subst; clear Em. cbn [heap roots] in *. intros x.
    pose proof (kids_set (heap m) a o (Obj true (refs o) (b :: kids o) (frees o)) Ho x) as K. cbn [kids] in K. rewrite cnt_cons in K.
    pose proof (remove1_cnt _ _ _ E x) as C.
    destruct (Nat.eq_dec a x) as [<-|N].
    + rewrite (nth_set_same _ _ _ o Ho). cbn [alive refs frees]. specialize (Hi a). rewrite Ho, Ha in Hi. cbn zeta in *.
      destruct Hi as [H1 [H2 H3]]. repeat split; try assumption; lia.
    + rewrite nth_set_other by assumption. specialize (Hi x).
      destruct (nth_error (heap m) x) as [o'|]; cbn zeta in *.
      * destruct (alive o'); destruct Hi as [H1 [H2 H3]]; repeat split; try assumption; lia.
      * lia.
  - destruct (remove1 a (roots m)) as [rs'|] eqn:E2; [|split; discriminate].
    destruct (root_obj _ _ _ _ Hi E2) as [o [Ho [Ha [Hr Hf]]]]. rewrite Ho, Ha.
    destruct (remove1 b (kids o)) as [ks|] eqn:E; [|split; discriminate]. split; [discriminate|].
    intros m' Em Hb'; split; [|exact Hb']; inversion Em; subst; clear Em. cbn [heap roots] in *. intros x.
    pose proof (kids_set (heap m) a o (Obj true (refs o) ks (frees o)) Ho x) as K. cbn [kids] in K. rewrite cnt_cons.
    pose proof (remove1_cnt _ _ _ E x) as C.
    destruct (Nat.eq_dec a x) as [<-|N].
    + rewrite (nth_set_same _ _ _ o Ho). cbn [alive refs frees]. specialize (Hi a). rewrite Ho, Ha in Hi. cbn zeta in *.
      destruct Hi as [H1 [H2 H3]]. repeat split; try assumption; lia.
    + rewrite nth_set_other by assumption. specialize (Hi x).
      destruct (nth_error (heap m) x) as [o'|]; cbn zeta in *.
      * destruct (alive o'); destruct Hi as [H1 [H2 H3]]; repeat split; try assumption; lia.
      * lia.
Qed.

Lemma dead_kids m op m' : Inv m -> mem_step m op = Ok m' ->
  (forall o, In o (heap m') -> alive o = false -> kids o = []).
Proof.
  intros [Hi Hb]. assert (D : forall h w, minv h w -> forall o, In o h -> alive o = false -> kids o = []).
  { intros h w H o Ho Ha. apply In_nth_error in Ho. destruct Ho as [i Hn]. specialize (H i). rewrite Hn, Ha in H. cbn zeta in H. tauto. }
  assert (S : forall h i x, (forall o, In o h -> alive o = false -> kids o = []) -> alive x = true ->
     forall o, In o (set_nth h i x) -> alive o = false -> kids o = []).
  { intros h. induction h as [|y h IH]; intros i x Hh Hx o; cbn [set_nth]; [intros []|].
    destruct i as [|i]; intros [<-|Ho] Ha; try congruence.
    - apply Hh; [right|]; assumption. - apply Hh; [left; reflexivity|assumption].
    - apply (IH i x); auto. intros; apply Hh; [right|]; assumption. }
  destruct op as [ks|a|a|a b|a b]; cbn [mem_step].
  - destruct (remove_all ks (roots m)); [|discriminate]. intros E; inversion E; subst. cbn [heap]. intros o Ho Ha.
    apply in_app_iff in Ho. destruct Ho as [Ho|[<-|[]]]; [eapply D; eassumption|discriminate].
  - destruct (remove1 a (roots m)); [|discriminate]. destruct (nth_error (heap m) a) as [o|]; [|discriminate].
    destruct (alive o); [|discriminate]. intros E; inversion E; subst. cbn [heap]. apply S; [|reflexivity]. eapply D, Hi.
  - destruct (remove1 a (roots m)) as [rs|] eqn:E; [|discriminate].
    assert (Hi' : minv (heap m) ([a] ++ rs)).
    { apply (minv_ext _ (roots m)); [|exact Hi]. intros x. rewrite (remove1_cnt _ _ _ E x). cbn [app]. rewrite cnt_cons. reflexivity. }
    pose proof (remove1_len _ _ _ E) as L.
    destruct (drop_all_ok (drop_fuel (heap m) [a]) (heap m) [a] rs Hi') as [h' [E' [I' L']]].
    + unfold drop_fuel. lia.
    + cbn [length]. lia.
    + rewrite E'. intros E2; inversion E2; subst. cbn [heap]. eapply D, I'.
  - destruct (remove1 b (roots m)); [|discriminate]. destruct (remove1 a (roots m)); [|discriminate].
    destruct (nth_error (heap m) a) as [o|]; [|discriminate].
    destruct (alive o); [|discriminate]. intros E; inversion E; subst. cbn [heap]. apply S; [|reflexivity]. eapply D, Hi.
  - destruct (remove1 a (roots m)); [|discriminate].
    destruct (nth_error (heap m) a) as [o|]; [|discriminate].
    destruct (alive o); [|discriminate]. destruct (remove1 b (kids o)); [|discriminate].
    intros E; inversion E; subst. cbn [heap]. apply S; [|reflexivity]. eapply D, Hi.
Qed.
Lemma live_kids' h : (forall o, In o h -> alive o = false -> kids o = []) -> flat_map (fun o => if alive o then kids o else []) h = kids_of h.
Proof.
  intros D. unfold kids_of. induction h as [|o h IH]; [reflexivity|]. cbn [flat_map]. rewrite IH by (intros; apply D; [right|]; assumption).
  destruct (alive o) eqn:E; [reflexivity|]. rewrite (D o (or_introl eq_refl) E). reflexivity.
Qed.

Lemma mem_reach_inv m : mem_reach m -> Inv m.
Proof.
  induction 1 as [|m op m' R IH E B].
  - split; [|cbn; lia]. intros a. cbn. destruct a; cbn; auto.
  - apply (proj2 (step_inv m op IH)); [exact E|]. unfold total_handles in B.
    rewrite (live_kids' (heap m')) in B by (exact (dead_kids m op m' IH E)). exact B.
Qed.

Lemma refcount_spec m : mem_reach m ->
  (forall op, mem_step m op <> UseAfterFree) /\ (forall a o, nth_error (heap m) a = Some o ->
     (alive o = true <-> (0 < handles_to m a)%nat) /\    (alive o = true -> refs o = Z.of_nat (handles_to m a)) /\    frees o = (if alive o then 0%nat else 1%nat)) /\ (forall a, (0 < handles_to m a)%nat -> exists o, nth_error (heap m) a = Some o).
Proof.
  intros R. apply mem_reach_inv in R. split; [intros op; apply (step_inv m op R)|].
  destruct R as [Hi Hb]. unfold handles_to. rewrite (live_kids _ _ Hi). 
  split.
  - intros a o Ho. specialize (Hi a). rewrite Ho in Hi. cbn zeta in Hi.
    destruct (alive o); destruct Hi as [H1 [H2 H3]]; unfold cnt in *; repeat split; auto; try lia; try discriminate.
  - intros a Ha. specialize (Hi a). destruct (nth_error (heap m) a) as [o|]; [eauto|]. unfold cnt in *. lia.
Qed.

Lemma run_clones n : forall r rs, In 0%nat rs -> mem_run (Mem [Obj true (u32 r) [] 0] rs) (repeat (Clone 0) n)
  = Ok (Mem [Obj true (u32 (r + Z.of_nat n)) [] 0] (repeat 0%nat n ++ rs)).
Proof.
  induction n as [|n IH]; intros r rs Hin.
  - cbn [repeat mem_run app]. rewrite Z.add_0_r. reflexivity.
  - cbn [repeat mem_run mem_step roots heap]. destruct (remove1 0 rs) eqn:E.
    2:{ exfalso. clear -E Hin. induction rs as [|x rs IH]; [destruct Hin|]. cbn [remove1] in E. destruct (Nat.eqb_spec x 0); [discriminate|].
        destruct Hin; [congruence|]. destruct (remove1 0 rs); [discriminate|]. auto. }
    cbn [nth_error alive set_nth refs kids frees].
    replace (u32 (u32 r + 1)) with (u32 (r + 1)) by (unfold u32, uwrap; rewrite Zplus_mod_idemp_l; reflexivity).
    rewrite IH by (left; reflexivity). do 2 f_equal.
    + do 2 f_equal. f_equal. lia.
    + cbn [repeat app]. change (0%nat :: rs) with ([0%nat] ++ rs). rewrite app_assoc, <- repeat_cons. reflexivity.
Qed.

Lemma mem_run_app m ops ops' m' : mem_run m ops = Ok m' -> mem_run m (ops ++ ops') = mem_run m' ops'.
Proof.
  revert m. induction ops as [|op ops IH]; intros m; cbn [mem_run app]; [intros E; inversion E; reflexivity|].
  destruct (mem_step m op); try discriminate. apply IH.
Qed.

Lemma refcount_overflow : exists ops m o, mem_run (Mem [] []) ops = Ok m /\ nth_error (heap m) 0 = Some o /\ alive o = false /\ In 0%nat (roots m).
Proof.
  assert (exists N, Z.of_nat N = 2 ^ 32) as [N HN] by (exists (Z.to_nat (2 ^ 32)); apply Z2Nat.id; discriminate).
  destruct N as [|N]; [discriminate HN|].
  exists ((New [] :: repeat (Clone 0) (S N)) ++ [Drop 0]), (Mem [Obj false 0 [] 1] (repeat 0%nat (S N))), (Obj false 0 [] 1).
  split; [|split; [reflexivity|split; [reflexivity|left; reflexivity]]].
  rewrite (mem_run_app _ _ _ (Mem [Obj true 1 [] 0] (repeat 0%nat (S N) ++ [0%nat]))).
  - cbn [mem_run mem_step roots heap]. rewrite <- repeat_cons. reflexivity.
  - cbn [mem_run mem_step remove_all roots heap app length].
    change 1 with (u32 1) at 1. rewrite run_clones by (left; reflexivity). rewrite HN. reflexivity.
Qed.

Lemma lock_exclusion2 : forall (l : Z) (g : guards), lock_reach l g ->
  (exclusive g = true -> shared g = 0%nat) /\
  (exclusive g = true -> snd (lock_step l TryBorrow) = Some false /\ snd (lock_step l TryBorrowMut) = Some false).
Proof.
  intros l g R. split; [apply (lock_exclusion l g R)|]. intros E. apply lock_reach_inv in R. unfold lock_inv in R. rewrite E in R.
  destruct R as [_ ->]. split; reflexivity.
Qed.
