From Coq Require Import String Arith Lia.
From Verif Require Import Base Parse ParseSpec ParseProofs ParseSound.
Local Open Scope nat_scope.

(** * Eventually, with enough fuel *)
Definition ev {A} (f : nat -> A) (v : A) : Prop := exists n, forall m, n <= m -> f m = v.
Lemma ev_const {A} (f : nat -> A) v : (forall n, f n = v) -> ev f v. Proof. exists 0. auto. Qed.
Lemma ev_S {A} (f : nat -> A) v : ev (fun n => f (S n)) v -> ev f v.
Proof. intros [n H]. exists (S n). intros [|m] M; [lia|]. apply H. lia. Qed.
Lemma ev_bind {A B} (f : nat -> res A) (g : nat -> A -> list token -> res B) a r v :
  ev f (Got a r) -> ev (fun n => g n a r) v -> ev (fun n => bind (f n) (g n)) v.
Proof. intros [n H] [n' H']. exists (max n n'). intros m M. rewrite H by lia. simpl. apply H'. lia. Qed.
Lemma ev_eq {A} (f g : nat -> A) v : (forall n, f n = g n) -> ev g v -> ev f v.
Proof. intros E [n H]. exists n. intros m M. rewrite E. auto. Qed.
Ltac step_ev f := apply ev_S; cbn [ps p_expr p_bare p_level p_loop p_terminal p_suffix p_arg p_args p_items p_then]; unfold f.

(** * First tokens *)
Definition first (t : token) : bool :=
  match t with
  | TId _ | TInt _ | TComplex _ | TStr _ | TNil | TTrue | TFalse | TExit | TSelf | TUnderscore | TFun _ | TSym SMul | TSym SSub | TKNot | TBang | TOpenP | TOpenS | TOpenB | TIf => true
  | _ => false
  end.
Definition unary_first (t : token) : bool := match t with TSym SSub | TKNot | TBang => true | _ => false end.
Definition starts (w : list token) : Prop := exists t w', w = t :: w' /\ first t = true.
Lemma starts_app w x : starts w -> starts (w ++ x).
Proof. intros (t & w' & -> & F). exists t, (w' ++ x). auto. Qed.
Definition starts2 (k : nat) (w : list token) : Prop := exists t w', w = t :: w' /\ first t = true /\ (unary_first t = true -> 2 <= k /\ starts w').
Lemma starts2_app k w x : starts2 k w -> starts2 k (w ++ x).
Proof. intros (t & w' & -> & F & U). exists t, (w' ++ x). split; [reflexivity|]. split; [exact F|]. intros H. destruct (U H). split; [assumption|now apply starts_app]. Qed.
Lemma starts2_le j k w : j <= k -> starts2 j w -> starts2 k w.
Proof. intros L (t & w' & -> & F & U). exists t, w'. split; [reflexivity|]. split; [exact F|]. intros H. destruct (U H). split; [lia|assumption]. Qed.
Lemma starts2_1 k w : starts2 k w -> starts w.
Proof. intros (t & w' & -> & F & U). exists t, w'. auto. Qed.
Lemma G_starts k e w m : G k e w m -> starts2 k w.
Proof.
  intros g. induction g; try (apply starts2_app; eapply starts2_le; [|eassumption]; lia); try (eapply starts2_le; [|eassumption]; lia);
    try (eexists _, _; split; [reflexivity|split; [reflexivity|discriminate]]).
  - destruct e; simpl in H; try contradiction; subst w; try (eexists _, _; split; [reflexivity|split; [reflexivity|discriminate]]).
    destruct b; eexists _, _; split; try reflexivity; split; try reflexivity; discriminate.
  - eexists _, _. split; [reflexivity|]. split; [now destruct o|]. intros _. split; [lia|]. now apply starts2_1 in IHg.
Qed.
Lemma G_first k e w m : G k e w m -> starts w. Proof. intros g. eapply starts2_1, G_starts; eauto. Qed.
Lemma starts_peek w x : starts w -> exists t w', w = t :: w' /\ first t = true /\ peek (w ++ x) = Some t /\ advance (w ++ x) = w' ++ x.
Proof. intros (t & w' & -> & F). exists t, w'. repeat split; try assumption; simpl; destruct t; try discriminate; reflexivity. Qed.

(** * Tokens that end things *)
Definition ender (t : token) : bool := match t with TComma | TCloseP | TCloseS | TCloseB | TColon | TThen | TElif | TElse => true | _ => false end.
Lemma ender_stop t r : ender t = true -> stop 9 (t :: r) /\ assign_at (t :: r) = None.
Proof.
  intros E. split; [|now destruct t]. split.
  - intros _. unfold suf_stop. destruct t; try discriminate; repeat split; discriminate.
  - intros j J. unfold op_stop, op_at. destruct t; try discriminate; do 10 (destruct j as [|j]; [try lia; exact I|]); lia.
Qed.
Lemma assign_none_eq t : assign_at t = None -> is_equals (peek t) = false.
Proof. unfold assign_at. destruct (peek t) as [[]|]; try reflexivity. discriminate. Qed.
Lemma okm_stop m t : stop 9 t -> assign_at t = None -> okm m t.
Proof. intros A B. split; [auto|]. intros _. now apply assign_none_eq. Qed.
Lemma okm_ender m t r : ender t = true -> okm m (t :: r).
Proof. intros E. destruct (ender_stop t r E). now apply okm_stop. Qed.

Definition notnl (t : list token) : Prop := match t with TNewLine :: _ | [] => False | _ => True end.
(** an operator as it is written *)
Lemma spell_op o x : notnl x -> (o = IBin BIs -> hd_error x <> Some TKNot) -> let t := spelling o ++ x in
  op_at (precedence o) t = Some (o, x) /\ (forall j, 3 <= j <= 9 -> j <> precedence o -> op_at j t = None) /\ suf_stop t /\ assign_at t = None.
Proof.
  intros N I. cbv zeta. destruct x as [|y x]; [contradiction|].
  assert (Y : y <> TNewLine) by (destruct y; easy).
  assert (PY : peek (y :: x) = Some y) by (destruct y; easy). assert (AY : skip (y :: x) = y :: x) by (destruct y; easy).
  destruct o as [[[]| | | |]| | |]; cbn [spelling precedence app].
  all: try (split; [reflexivity|split; [|split; [repeat split; discriminate|reflexivity]]]; intros j J Nj; do 10 (destruct j as [|j]; [try lia; try reflexivity|]); lia).
  (* is *)
  assert (Z : is_not (Some y) = false). { destruct y; try reflexivity. now specialize (I eq_refl). }
  split; [unfold op_at, long_op; change (peek2 (TIs :: y :: x)) with (peek (y :: x)); rewrite PY; cbn [peek skip hd_error]; rewrite Z; reflexivity|].
  split; [|split; [repeat split; discriminate|reflexivity]]. intros j J Nj; do 10 (destruct j as [|j]; [try lia; try reflexivity|]); lia.
Qed.
Lemma spell_stop o x k : notnl x -> (o = IBin BIs -> hd_error x <> Some TKNot) -> k < precedence o -> stop k (spelling o ++ x).
Proof.
  intros N I K. destruct (spell_op o x N I) as (A & B & C & D). split; [auto|]. intros j J. unfold op_stop. rewrite B; [exact Logic.I| |lia].
  destruct o as [[[]| | | |]| | |]; cbn [precedence] in K; lia.
Qed.
Lemma spell_okm o x m : notnl x -> (o = IBin BIs -> hd_error x <> Some TKNot) -> m <> Open -> okm m (spelling o ++ x).
Proof. intros N I M. destruct (spell_op o x N I) as (A & B & C & D). split; [contradiction|]. intros _. now apply assign_none_eq. Qed.
Lemma starts_notnl w x : starts w -> notnl (w ++ x).
Proof. intros (t & w' & -> & F). simpl. now destruct t. Qed.
Lemma starts_closeparen w x : starts w -> is_close_paren (peek (w ++ x)) = false.
Proof. intros H. destruct (starts_peek w x H) as (t & w' & _ & F & -> & _). now destruct t. Qed.
Lemma hd_app {A} (w x : list A) : w <> [] -> hd_error (w ++ x) = hd_error w. Proof. now destruct w. Qed.

(** * Statements *)
Definition binder (P : parsers) (t : list token) : res expr :=
  bind (p_level P 9 t) (fun e t => bind (p_bare P t) (fun l t => Got (match l with [] => e | _ => EComma (e :: l) true true end) t)).
Definition CG (k : nat) (e : expr) (w : list token) (m : mode) : Prop :=
  match k with
  | 0 => forall rest, okm m rest -> ev (fun n => p_terminal (ps n) (w ++ rest)) (Got e rest)
  | 1 => forall rest v, okm m rest -> ev (fun n => p_suffix (ps n) e rest) v -> ev (fun n => bind (p_terminal (ps n) (w ++ rest)) (p_suffix (ps n))) v
  | 2 | 8 => forall rest, okm m rest -> stop k rest -> ev (fun n => p_level (ps n) k (w ++ rest)) (Got e rest)
  | 10 => forall rest, okm m rest -> stop 9 rest -> bare_stop rest -> ev (fun n => binder (ps n) (w ++ rest)) (Got e rest)
  | 11 => forall rest, okm m rest -> stop 9 rest -> assign_at rest = None -> ev (fun n => p_expr (ps n) true (w ++ rest)) (Got e rest)
  | 12 => forall rest, okm m rest -> stop 9 rest -> assign_at rest = None -> bare_stop rest -> ev (fun n => p_expr (ps n) false (w ++ rest)) (Got e rest)
  | _ => k <= 9 -> forall rest l r, okm m rest -> stop (k - 1) rest -> ev (fun n => p_loop (ps n) k rest) (Got l r) ->
           ev (fun n => p_level (ps n) k (w ++ rest)) (Got (fold_left (fun a p => apply (fst p) a (snd p)) l e) r)
  end.
Definition telse (P : parsers) (c a : expr) (t : list token) : res expr :=
  match peek t with
  | Some TElif => bind (p_expr P true (advance t)) (fun c' t => bind (p_then P c' t) (fun b t => Got (EIf c a b) t))
  | _ => bind (expect (fun x => match x with Some TElse => true | _ => false end) t) (fun _ t => bind (p_expr P true t) (fun b t => Got (EIf c a b) t))
  end.
Definition CGelse (b : expr) (w : list token) : Prop :=
  forall c a rest, stop 9 rest -> assign_at rest = None -> ev (fun n => telse (ps n) c a (w ++ rest)) (Got (EIf c a b) rest).
Definition CGchain (l : list (sym * expr)) (w : list token) (m : mode) : Prop :=
  forall rest, okm m rest -> stop 8 rest -> ev (fun n => p_loop (ps n) 8 (w ++ rest)) (Got (map cmp_link l) rest).
Definition CGbare (l : list expr) (w : list token) (m : mode) : Prop :=
  forall rest, okm m rest -> stop 7 rest -> bare_stop rest -> ev (fun n => p_bare (ps n) (w ++ rest)) (Got l rest).
Definition CGopt (e : expr) (w : list token) : Prop :=
  forall p t rest, ender t = true -> p (Some t) = true -> (forall x, first x = true -> p (Some x) = false) ->
    ev (fun n => optional (p_expr (ps n) true) p (w ++ t :: rest)) (Got e (t :: rest)).
Definition argend (t : token) : bool := match t with TComma | TCloseP | TCloseS | TCloseB | TColon => true | _ => false end.
Definition CGopt_arg (e : expr) (w : list token) (t : token) : Prop :=
  forall p rest, argend t = true -> p (Some t) = true -> (forall x, argend x = false -> p (Some x) = false) ->
    ev (fun n => optional (p_arg (ps n)) p (w ++ t :: rest)) (Got e (t :: rest)).
Definition CGarg (e : expr) (w : list token) (m : amode) : Prop :=
  forall t rest, may_precede m (Some t) -> argend t = true -> ev (fun n => p_arg (ps n) (w ++ t :: rest)) (Got e (t :: rest)).
Definition CGargs (c : close) (l : list expr) (x : bool) (w : list token) : Prop :=
  (forall rest, exists a l' t ra, l = a :: l' /\ ev (fun n => p_arg (ps n) (w ++ closer c :: rest)) (Got a (t :: ra)) /\
    ev (fun n => p_args (ps n) c (t :: ra)) (Got (l', x) (closer c :: rest)) /\
    (t = TComma \/ t = closer c /\ l' = [] /\ ra = rest)) /\
  (c = ClB -> forall d rest, d <> Some true -> exists d', d' <> Some true /\ ev (fun n => p_items (ps n) d (w ++ TCloseB :: rest)) (Got (l, d') (TCloseB :: rest))).
Definition CGitem (l : list expr) (p : bool) (w : list token) (m : amode) : Prop :=
  forall d t rest, d <> Some false -> may_precede m (Some t) -> (t = TComma \/ t = TCloseB) ->
    ev (fun n => item (ps n) d (w ++ t :: rest)) (Got (l, if p then Some true else d) (t :: rest)).
Definition CGitems (l : list expr) (p : bool) (w : list token) : Prop :=
  forall d rest, d <> Some false -> ev (fun n => p_items (ps n) d (w ++ TCloseB :: rest)) (Got (l, if p then Some true else d) (TCloseB :: rest)).
Scheme G_mut := Minimality for G Sort Prop
  with Gelse_mut := Minimality for Gelse Sort Prop
  with Gchain_mut := Minimality for Gchain Sort Prop
  with Gbare_mut := Minimality for Gbare Sort Prop
  with Gopt_mut := Minimality for Gopt Sort Prop
  with Gopt_arg_mut := Minimality for Gopt_arg Sort Prop
  with Garg_mut := Minimality for Garg Sort Prop
  with Gargs_mut := Minimality for Gargs Sort Prop
  with Gitem_mut := Minimality for Gitem Sort Prop
  with Gitems_mut := Minimality for Gitems Sort Prop.

(** * Levels *)
Lemma ev_level k t v : ev (fun n => level (ps n) k t) v -> ev (fun n => p_level (ps n) k t) v.
Proof. intros H. apply ev_S. exact H. Qed.
Lemma ev_loop k t v : ev (fun n => loop (ps n) k t) v -> ev (fun n => p_loop (ps n) k t) v.
Proof. intros H. apply ev_S. exact H. Qed.
Lemma ev_terminal t v : ev (fun n => terminal (ps n) t) v -> ev (fun n => p_terminal (ps n) t) v.
Proof. intros H. apply ev_S. exact H. Qed.
Lemma ev_suffix e t v : ev (fun n => suffix (ps n) e t) v -> ev (fun n => p_suffix (ps n) e t) v.
Proof. intros H. apply ev_S. exact H. Qed.
Lemma ev_expr c t v : ev (fun n => expr11 (ps n) c t) v -> ev (fun n => p_expr (ps n) c t) v.
Proof. intros H. apply ev_S. exact H. Qed.
Lemma ev_bare t v : ev (fun n => bare10 (ps n) t) v -> ev (fun n => p_bare (ps n) t) v.
Proof. intros H. apply ev_S. exact H. Qed.
Lemma ev_arg t v : ev (fun n => arg (ps n) t) v -> ev (fun n => p_arg (ps n) t) v.
Proof. intros H. apply ev_S. exact H. Qed.
Lemma ev_args c t v : ev (fun n => args (ps n) c t) v -> ev (fun n => p_args (ps n) c t) v.
Proof. intros H. apply ev_S. exact H. Qed.
Lemma ev_items c t v : ev (fun n => items (ps n) c t) v -> ev (fun n => p_items (ps n) c t) v.
Proof. intros H. apply ev_S. exact H. Qed.
Lemma ev_then c t v : ev (fun n => then_else (ps n) c t) v -> ev (fun n => p_then (ps n) c t) v.
Proof. intros H. apply ev_S. exact H. Qed.
Lemma ev_loop_stop k t : op_stop k t -> ev (fun n => p_loop (ps n) k t) (Got [] t).
Proof. intros H. apply ev_loop, ev_const. intros n. now apply stop_loop. Qed.
Lemma ev_suffix_stop e t : suf_stop t -> ev (fun n => p_suffix (ps n) e t) (Got e t).
Proof. intros H. apply ev_suffix, ev_const. intros n. now apply stop_suffix. Qed.

(** the statement at one level, without the loop *)
Lemma CG_direct k e w m : 2 <= k <= 9 -> CG k e w m -> forall rest, okm m rest -> stop k rest -> ev (fun n => p_level (ps n) k (w ++ rest)) (Got e rest).
Proof.
  intros K H rest O S.
  assert (L : op_stop k rest -> ev (fun n => p_loop (ps n) k rest) (Got [] rest)) by apply ev_loop_stop.
  do 10 (destruct k as [|k]; [try lia; try exact (H rest O S); (refine (H _ rest [] rest O _ (L _)); [lia|eapply stop_le; [exact S|lia]|apply S; lia])|]). lia.
Qed.
Lemma prefix_none t : match hd_error t with Some TNewLine => False | Some x => unary_first x = false | None => True end -> prefix t = ([], t).
Proof. destruct t as [|x t]; [reflexivity|]. simpl. destruct x; try discriminate; try contradiction; try reflexivity. destruct s; try discriminate; reflexivity. Qed.
Lemma c_next k e w m : 1 <= k < 9 -> G k e w m -> CG k e w m -> CG (S k) e w m.
Proof.
  intros K g H. destruct (Nat.eq_dec k 1) as [->|N].
  - intros rest O S. apply ev_level. unfold level, unary2. cbn [Nat.leb].
    destruct (G_starts _ _ _ _ g) as (t & w' & -> & F & U).
    assert (U1 : unary_first t = false). { destruct (unary_first t); [|reflexivity]. destruct (U eq_refl). lia. }
    rewrite prefix_none by (simpl; destruct t; try discriminate; exact U1).
    simpl fold_right.
    apply (ev_eq _ (fun n => bind (bind (p_terminal (ps n) ((t :: w') ++ rest)) (p_suffix (ps n))) (fun e t => Got e t))).
    { intros n. now destruct (p_terminal (ps n) ((t :: w') ++ rest)). }
    eapply ev_bind with (g := fun n e t => Got e t); [|apply ev_const; reflexivity]. apply H; [exact O|]. apply ev_suffix_stop, S. lia.
  - assert (D : forall rest, okm m rest -> stop k rest -> ev (fun n => p_level (ps n) k (w ++ rest)) (Got e rest)) by (apply CG_direct; [lia|exact H]).
    destruct (Nat.eq_dec k 7) as [->|N7].
    + intros rest O S. apply ev_level. unfold level. cbn [Nat.leb]. change (8 - 1) with 7.
      eapply ev_bind; [apply D; [exact O|eapply stop_le; eauto]|]. eapply ev_bind; [apply ev_loop_stop, S; lia|]. apply ev_const. reflexivity.
    + assert (A : forall rest l r, okm m rest -> stop (S k - 1) rest -> ev (fun n => p_loop (ps n) (S k) rest) (Got l r) ->
           ev (fun n => p_level (ps n) (S k) (w ++ rest)) (Got (fold_left (fun a p => apply (fst p) a (snd p)) l e) r)).
      { intros rest l r O S L. replace (Datatypes.S k - 1) with k in S by lia. apply ev_level. unfold level. destruct (Nat.leb_spec (Datatypes.S k) 2); [lia|]. replace (Datatypes.S k - 1) with k by lia.
        eapply ev_bind; [apply D; [exact O|exact S]|]. eapply ev_bind; [exact L|]. apply ev_const. intros _. unfold combine. destruct (Nat.eqb_spec (Datatypes.S k) 8); [lia|reflexivity]. }
      do 9 (destruct k as [|k]; [try lia; try exact (fun _ => A)|]); lia.
Qed.
Lemma c_unary o e w m : G 2 e w m -> CG 2 e w m -> CG 2 (EUnary o e) (unary_token o :: w) m.
Proof.
  intros g H rest O S. destruct (H rest O S) as [n A]. exists (Datatypes.S n). intros N L. specialize (A N). destruct N as [|N]; [lia|].
  cbn [ps p_level] in *. unfold level in *. cbn [Nat.leb] in *. assert (A' := A ltac:(lia)). clear A. unfold unary2 in *.
  change ((unary_token o :: w) ++ rest) with (unary_token o :: (w ++ rest)).
  assert (E : prefix (unary_token o :: w ++ rest) = (o :: fst (prefix (w ++ rest)), snd (prefix (w ++ rest)))).
  { destruct o; cbn [unary_token prefix]; destruct (prefix (w ++ rest)); reflexivity. }
  rewrite E. destruct (prefix (w ++ rest)) as [l t]. cbn [fst snd fold_right]. destruct (p_terminal (ps N) t) as [| |a t1]; try discriminate. cbn [bind] in *.
  destruct (p_suffix (ps N) a t1) as [| |a' t2]; try discriminate. cbn [bind] in *. injection A' as <- <-. reflexivity.
Qed.
Lemma prec_range o : 3 <= precedence o <= 9.
Proof. destruct o as [[[]| | | |]| | |]; cbn; lia. Qed.
Lemma c_infix k o a wa ma b wb mb : precedence o = k -> k <> 8 -> G k a wa ma -> CG k a wa ma -> ma <> Open -> G (k - 1) b wb mb -> CG (k - 1) b wb mb ->
    (o = IBin BIs -> hd_error wb <> Some TKNot) -> CG k (apply o a b) (wa ++ spelling o ++ wb) mb.
Proof.
  intros P K ga Ha Ma gb Hb I. pose proof (prec_range o) as R. rewrite P in R.
  assert (sb : starts wb) by (eapply G_first; eauto).
  assert (A : forall rest l r, okm mb rest -> stop (k - 1) rest -> ev (fun n => p_loop (ps n) k rest) (Got l r) ->
           ev (fun n => p_level (ps n) k ((wa ++ spelling o ++ wb) ++ rest)) (Got (fold_left (fun a p => apply (fst p) a (snd p)) l (apply o a b)) r)).
  { intros rest l r O S L. rewrite <- !app_assoc.
    assert (N : notnl (wb ++ rest)) by (now apply starts_notnl).
    assert (I' : o = IBin BIs -> hd_error (wb ++ rest) <> Some TKNot). { intros Q. rewrite hd_app; [auto|]. destruct sb as (? & ? & -> & _). discriminate. }
    assert (A : forall l r, ev (fun n => p_loop (ps n) k (spelling o ++ wb ++ rest)) (Got l r) ->
       ev (fun n => p_level (ps n) k (wa ++ spelling o ++ wb ++ rest)) (Got (fold_left (fun a p => apply (fst p) a (snd p)) l a) r)).
    { intros l' r' L'. assert (O' := spell_okm o _ ma N I' Ma). assert (S' : stop (k - 1) (spelling o ++ wb ++ rest)) by (apply spell_stop; [exact N|exact I'|lia]).
      clear -Ha K O' S' L' R. do 10 (destruct k as [|k]; [try lia; try exact (Ha ltac:(lia) _ _ _ O' S' L')|]). lia. }
    apply (A ((o, b) :: l)). apply ev_loop. unfold loop. destruct (spell_op o _ N I') as (B & _). rewrite P in B. rewrite B.
    rewrite (starts_closeparen _ _ sb), Bool.andb_false_r.
    eapply ev_bind; [apply (CG_direct (k - 1) b wb mb); [lia|exact Hb|exact O|exact S]|]. eapply ev_bind; [exact L|]. apply ev_const. reflexivity. }
  clear -A K R. do 10 (destruct k as [|k]; [try lia; try exact (fun _ => A)|]). lia.
Qed.
Lemma chain_start l w m : Gchain l w m -> exists s w', w = TSym s :: w' /\ starts w' /\ precedence (IBin (BSym s)) = 8.
Proof.
  intros g. destruct g; eexists _, _; (split; [reflexivity|split; [|assumption]]); [|apply starts_app]; eapply G_first; eauto.
Qed.
Lemma c_compare a wa ma l wl m : G 7 a wa ma -> CG 7 a wa ma -> ma <> Open -> Gchain l wl m -> CGchain l wl m -> CG 8 (comparison a l) (wa ++ wl) m.
Proof.
  intros ga Ha Ma gl Hl rest O S. rewrite <- app_assoc. destruct (chain_start _ _ _ gl) as (s & w' & E & sw & Ps).
  assert (N : notnl (w' ++ rest)) by (now apply starts_notnl).
  apply ev_level. unfold level. cbn [Nat.leb]. change (8 - 1) with 7.
  assert (X : wl ++ rest = spelling (IBin (BSym s)) ++ (w' ++ rest)) by (now subst wl).
  eapply ev_bind.
  { apply (CG_direct 7 a wa ma); [lia|exact Ha| |]; rewrite X; [apply spell_okm|apply spell_stop]; try assumption; try discriminate. lia. }
  eapply ev_bind; [apply (Hl rest O S)|]. apply ev_const. intros _. unfold combine. cbn [Nat.eqb]. rewrite compare_links; [reflexivity|]. intros ->. inversion gl.
Qed.
Lemma c_chain s b w mb rest l r : precedence (IBin (BSym s)) = 8 -> G 7 b w mb -> CG 7 b w mb -> okm mb rest -> stop 7 rest ->
  ev (fun n => p_loop (ps n) 8 rest) (Got (map cmp_link l) r) -> ev (fun n => p_loop (ps n) 8 (TSym s :: w ++ rest)) (Got (map cmp_link ((s, b) :: l)) r).
Proof.
  intros P g H O S L. assert (sb : starts w) by (eapply G_first; eauto).
  apply ev_loop. unfold loop. change (TSym s :: w ++ rest) with (spelling (IBin (BSym s)) ++ w ++ rest).
  destruct (spell_op (IBin (BSym s)) (w ++ rest)) as (B & _); [now apply starts_notnl|discriminate|]. rewrite P in B. rewrite B.
  rewrite (starts_closeparen _ _ sb), Bool.andb_false_r. change (8 - 1) with 7.
  eapply ev_bind; [apply (CG_direct 7 b w mb); [lia|exact H|exact O|exact S]|]. eapply ev_bind; [exact L|]. apply ev_const. reflexivity.
Qed.
Lemma c_chain_last s b w m : precedence (IBin (BSym s)) = 8 -> G 7 b w m -> CG 7 b w m -> CGchain [(s, b)] (TSym s :: w) m.
Proof.
  intros P g H rest O S. apply (c_chain s b w m rest [] rest); try assumption; [eapply stop_le; eauto|]. apply ev_loop_stop, S. lia.
Qed.
Lemma c_chain_more s b w mb l wl m : precedence (IBin (BSym s)) = 8 -> G 7 b w mb -> CG 7 b w mb -> mb <> Open -> Gchain l wl m -> CGchain l wl m -> CGchain ((s, b) :: l) (TSym s :: w ++ wl) m.
Proof.
  intros P g H M gl Hl rest O S. simpl. rewrite <- app_assoc.
  destruct (chain_start _ _ _ gl) as (s' & w' & E & sw & Ps). assert (N : notnl (w' ++ rest)) by (now apply starts_notnl).
  assert (X : wl ++ rest = spelling (IBin (BSym s')) ++ (w' ++ rest)) by (now subst wl).
  apply (c_chain s b w mb); try assumption; [rewrite X; apply spell_okm; try assumption; discriminate|rewrite X; apply spell_stop; try assumption; [discriminate|lia]|].
  now apply Hl.
Qed.

(** * Assignments and patterns *)
Lemma assign_spell q x : notnl x -> assign_at (assign_spelling q ++ x) = Some (q, x).
Proof.
  intros N. destruct x as [|y x]; [contradiction|]. destruct q as [[q| |]|]; reflexivity.
Qed.
Lemma assign_stop q x : notnl x -> stop 9 (assign_spelling q ++ x) /\ bare_stop (assign_spelling q ++ x).
Proof.
  intros N. split; [|destruct q as [[q| |]|]; discriminate]. split.
  - intros _. destruct q as [[q| |]|]; repeat split; discriminate.
  - intros j J. unfold op_stop. destruct q as [[q| |]|]; do 10 (destruct j as [|j]; [try lia; exact I|]); lia.
Qed.
Lemma assign_okm q x m : notnl x -> m <> Open -> (q = None -> m <> Bare) -> okm m (assign_spelling q ++ x).
Proof. intros N O B. split; [contradiction|]. intros ->. destruct q as [[q| |]|]; try reflexivity. now specialize (B eq_refl). Qed.
Lemma expr_if (comma : bool) P t : (if comma then p_level P 9 t else binder P t) = (if comma then p_level P 9 t else
          bind (p_level P 9 t) (fun e t => bind (p_bare P t) (fun l t => Got (match l with [] => e | _ => EComma (e :: l) true true end) t))).
Proof. reflexivity. Qed.
Lemma c_expr e w m : G 9 e w m -> CG 9 e w m -> CG 11 e w m.
Proof.
  intros g H rest O S A. apply ev_expr. unfold expr11. eapply ev_bind; [apply (CG_direct 9 e w m); [lia|exact H|exact O|exact S]|].
  rewrite A. apply ev_const. reflexivity.
Qed.
Lemma c_assign q a wa ma b wb m : G 9 a wa ma -> CG 9 a wa ma -> ma <> Open -> (q = None -> ma <> Bare) -> G 11 b wb m -> CG 11 b wb m -> CG 11 (assign q a b) (wa ++ assign_spelling q ++ wb) m.
Proof.
  intros ga Ha Ma Qa gb Hb rest O S A. rewrite <- !app_assoc. assert (N : notnl (wb ++ rest)) by (eapply starts_notnl, G_first; eauto).
  apply ev_expr. unfold expr11. eapply ev_bind; [apply (CG_direct 9 a wa ma); [lia|exact Ha|now apply assign_okm|now apply assign_stop]|].
  rewrite (assign_spell q _ N). eapply ev_bind; [now apply Hb|]. apply ev_const. reflexivity.
Qed.
Lemma c_single e w m : G 9 e w m -> CG 9 e w m -> CG 10 e w m.
Proof.
  intros g H rest O S A. unfold binder. eapply ev_bind; [apply (CG_direct 9 e w m); [lia|exact H|exact O|exact S]|].
  eapply ev_bind with (a := []); [|apply ev_const; reflexivity]. apply ev_bare, ev_const. intros n. unfold bare10, bare_stop in *.
  destruct (peek rest) as [[]|]; try reflexivity. now rewrite A.
Qed.
Lemma bare_start_tok l w m : Gbare l w m -> exists w', w = TComma :: w'.
Proof. intros g. destruct g; eauto. Qed.
Lemma c_comma e w m l wl ml : G 9 e w m -> CG 9 e w m -> Gbare l wl ml -> CGbare l wl ml -> CG 10 (EComma (e :: l) true true) (w ++ wl) ml.
Proof.
  intros g H gl Hl rest O S A. rewrite <- app_assoc. unfold binder. destruct (bare_start_tok _ _ _ gl) as [w' E].
  eapply ev_bind; [apply (CG_direct 9 e w m); [lia|exact H| |]; subst wl; [now apply okm_ender|now apply ender_stop]|].
  eapply ev_bind; [apply (Hl rest O); [eapply stop_le; [exact S|lia]|exact A]|]. apply ev_const. intros _. destruct l; [inversion gl|reflexivity].
Qed.
Lemma c_bare e w m rest l r : G 7 e w m -> CG 7 e w m -> okm m rest -> stop 7 rest -> ev (fun n => p_bare (ps n) rest) (Got l r) -> ev (fun n => p_bare (ps n) (TComma :: w ++ rest)) (Got (e :: l) r).
Proof.
  intros g H O S L. apply ev_bare. unfold bare10. destruct (starts_peek w rest (G_first _ _ _ _ g)) as (t & w' & _ & F & Pt & _).
  change (peek (TComma :: w ++ rest)) with (Some TComma). change (peek2 (TComma :: w ++ rest)) with (peek (w ++ rest)). change (advance (TComma :: w ++ rest)) with (w ++ rest).
  rewrite Pt. destruct t; try discriminate F; cbn [is_close_paren is_equals orb];
   (eapply ev_bind; [apply (CG_direct 7 e w m); [lia|exact H|exact O|exact S]|]; eapply ev_bind; [exact L|]; apply ev_const; reflexivity).
Qed.
Lemma c_bare_last e w m : G 7 e w m -> CG 7 e w m -> CGbare [e] (TComma :: w) m.
Proof.
  intros g H rest O S A. apply (c_bare e w m rest [] rest); try assumption. apply ev_bare, ev_const. intros n. unfold bare10, bare_stop in *. destruct (peek rest) as [[]|]; try reflexivity. now rewrite A.
Qed.
Lemma c_bare_more e w me l wl m : G 7 e w me -> CG 7 e w me -> Gbare l wl m -> CGbare l wl m -> CGbare (e :: l) (TComma :: w ++ wl) m.
Proof.
  intros g H gl Hl rest O S A. simpl. rewrite <- app_assoc. destruct (bare_start_tok _ _ _ gl) as [w' E].
  apply (c_bare e w me); try assumption; try (subst wl; try now apply okm_ender); [|now apply Hl].
  apply (stop_le 7 9); [now apply ender_stop|lia].
Qed.
Lemma c_top e w m : G 10 e w m -> CG 10 e w m -> CG 12 e w m.
Proof.
  intros g H rest O S A B. apply ev_expr. unfold expr11. eapply ev_bind; [apply (H rest O S B)|]. rewrite A. apply ev_const. reflexivity.
Qed.
Lemma c_top_assign q a wa ma b wb m : G 10 a wa ma -> CG 10 a wa ma -> ma <> Open -> (q = None -> ma <> Bare) -> G 12 b wb m -> CG 12 b wb m -> CG 12 (assign q a b) (wa ++ assign_spelling q ++ wb) m.
Proof.
  intros ga Ha Ma Qa gb Hb rest O S A B. rewrite <- !app_assoc. assert (N : notnl (wb ++ rest)) by (eapply starts_notnl, G_first; eauto).
  apply ev_expr. unfold expr11. eapply ev_bind; [apply Ha; [now apply assign_okm|now apply assign_stop|now apply assign_stop]|].
  rewrite (assign_spell q _ N). eapply ev_bind; [now apply Hb|]. apply ev_const. reflexivity.
Qed.

(** * Calls, indexing, fields *)
Lemma c_terminal e w m : CG 0 e w m -> CG 1 e w m.
Proof. intros H rest v O L. eapply ev_bind with (g := fun n => p_suffix (ps n)); [apply (H rest O)|exact L]. Qed.
Lemma okm_not m t : m <> Open -> is_equals (peek t) = false -> okm m t.
Proof. intros H E. split; [contradiction|auto]. Qed.
Lemma c_suffix f w m e x rest v : CG 1 f w m -> m <> Open -> is_equals (peek (x ++ rest)) = false ->
  (forall v, ev (fun n => p_suffix (ps n) e rest) v -> ev (fun n => suffix (ps n) f (x ++ rest)) v) ->
  ev (fun n => p_suffix (ps n) e rest) v -> ev (fun n => bind (p_terminal (ps n) ((w ++ x) ++ rest)) (p_suffix (ps n))) v.
Proof.
  intros H M E K L. rewrite <- app_assoc. apply H; [now apply okm_not|]. apply ev_suffix. now apply K.
Qed.
Lemma c_call0 f w m : CG 1 f w m -> m <> Open -> CG 1 (ECall f []) (w ++ [TOpenP; TCloseP]) Closed.
Proof. intros H M rest v _ L. eapply c_suffix; [exact H|exact M|reflexivity| |exact L]. intros v' L'. exact L'. Qed.
Lemma expect_closer c rest : expect (closes c) (closer c :: rest) = Got tt rest.
Proof. now destruct c. Qed.
Lemma c_comma_expr w l x rest : CGargs ClP l x w -> ev (fun n => comma_expr (ps n) (TOpenP :: w ++ TCloseP :: rest)) (Got (l, x) rest).
Proof.
  intros [H _]. destruct (H rest) as (a & l' & t & ra & -> & A & B & _). unfold comma_expr. change (advance (TOpenP :: w ++ TCloseP :: rest)) with (w ++ closer ClP :: rest).
  eapply ev_bind; [exact A|]. eapply ev_bind; [exact B|]. change (closes ClP) with (closes ClP). 
  eapply ev_bind; [apply ev_const; intros n; apply expect_closer|]. apply ev_const. reflexivity.
Qed.
Lemma garg_start e w m : Garg e w m -> exists t w', w = t :: w' /\ argend t = false /\ t <> TNewLine /\ t <> TEquals.
Proof.
  intros g. destruct g; try (eexists _, _; split; [reflexivity|]; repeat split; discriminate).
  - eexists _, _; split; [reflexivity|]. destruct t; try discriminate; repeat split; discriminate.
  - destruct o as [[]| | | |]; (eexists _, _; split; [reflexivity|]; repeat split; discriminate).
  - destruct o as [[]| | | |]; (eexists _, _; split; [reflexivity|]; repeat split; discriminate).
  - destruct (G_first _ _ _ _ H) as (t & w' & -> & F). exists t, w'. split; [reflexivity|]. destruct t; try discriminate; repeat split; discriminate.
  - destruct (G_first _ _ _ _ H0) as (t & w' & -> & F). exists t, (w' ++ spelling (IBin o)). split; [reflexivity|]. destruct t; try discriminate; repeat split; discriminate.
Qed.
Lemma gargs_start c l x w : Gargs c l x w -> exists t w', w = t :: w' /\ argend t = false /\ t <> TNewLine /\ t <> TEquals.
Proof.
  intros g. destruct g; destruct (garg_start _ _ _ H) as (t & w' & -> & A & B); eexists _, _; split; try reflexivity; auto.
Qed.
Lemma peek_nn t x : t <> TNewLine -> peek (t :: x) = Some t. Proof. now destruct t. Qed.
Lemma c_call f w m l x wl : CG 1 f w m -> m <> Open -> Gargs ClP l x wl -> CGargs ClP l x wl -> CG 1 (ECall f l) (w ++ TOpenP :: wl ++ [TCloseP]) Closed.
Proof.
  intros H M g C rest v _ L. eapply c_suffix; [exact H|exact M|reflexivity| |exact L]. clear L. intros v' L. destruct (gargs_start _ _ _ _ g) as (t & w' & -> & A & B & _).
  pose proof (c_comma_expr _ _ _ rest C) as X. simpl. simpl in X. rewrite <- app_assoc. simpl. rewrite (peek_nn t _ B).
  assert (Y : ev (fun n => bind (comma_expr (ps n) (TOpenP :: t :: w' ++ TCloseP :: rest)) (fun l t => p_suffix (ps n) (ECall f (fst l)) t)) v') by (eapply ev_bind; [exact X|exact L]).
  destruct t; try exact Y. discriminate.
Qed.
Lemma G0_id e w m : G 0 e w m -> match hd_error w with Some (TId _) => exists x, w = [TId x] | _ => True end.
Proof.
  intros g. remember 0 as k eqn:K. destruct g; try discriminate K; try exact I.
  - destruct e; simpl in H; try contradiction; subst w; try exact I; [now destruct b|simpl; eauto].
  - subst k. destruct o as [[[]| | | |]| | |]; discriminate.
Qed.
Lemma c_barecall f w m a wa ma : CG 1 f w m -> m <> Open -> G 0 a wa ma -> CG 0 a wa ma -> bare_token (hd_error wa) -> CG 1 (ECall f [a]) (w ++ wa) (bare_mode wa ma).
Proof.
  intros H M g C B rest v O L. eapply c_suffix; [exact H|exact M| | |exact L].
  - destruct wa as [|t wa]; [contradiction|]. destruct t; try contradiction; reflexivity.
  - clear L. intros v' L.
    assert (O' : okm ma rest). { pose proof (G0_id _ _ _ g) as X. destruct wa as [|t wa]; [contradiction|]. destruct t; try exact O.
      destruct X as [y X]. injection X as -> ->. pose proof g as g'. remember 0 as k eqn:K. remember [TId y] as w0 eqn:W. destruct g'; try discriminate K; try discriminate W; [apply okm_closed|].
      subst k. destruct o as [[[]| | | |]| | |]; discriminate. }
    assert (Y : ev (fun n => bind (p_terminal (ps n) (wa ++ rest)) (fun a t => p_suffix (ps n) (ECall f [a]) t)) v') by (eapply ev_bind with (g := fun n a t => p_suffix (ps n) (ECall f [a]) t); [now apply C|exact L]).
    assert (BS : bare_start (wa ++ rest) = true).
    { pose proof (G0_id _ _ _ g) as X. destruct wa as [|t wa]; [contradiction|]. destruct t; try contradiction; try reflexivity.
      destruct X as [y X]. injection X as -> ->. simpl. destruct O as [_ O]. rewrite O; reflexivity. }
    unfold suffix. rewrite BS. destruct wa as [|t wa]; [contradiction|]. destruct t; try contradiction; exact Y.
Qed.
Lemma first_nocolon x : first x = true -> is_colon (Some x) = false. Proof. now destruct x. Qed.
Lemma first_nocc x : first x = true -> colon_or_close (Some x) = false. Proof. now destruct x. Qed.
Lemma first_nocl x : first x = true -> closes ClS (Some x) = false. Proof. now destruct x. Qed.
Lemma c_index a w m i wi mi : CG 1 a w m -> m <> Open -> G 11 i wi mi -> CG 11 i wi mi -> CG 1 (EIndex a i) (w ++ TOpenS :: wi ++ [TCloseS]) Closed.
Proof.
  intros H M g C rest v _ L. eapply c_suffix; [exact H|exact M|reflexivity| |exact L]. clear L. intros v' L. simpl. rewrite <- app_assoc. simpl.
  eapply ev_bind with (g := fun n => p_suffix (ps n)); [|exact L]. unfold index_or_slice.
  destruct (starts_peek wi (TCloseS :: rest) (G_first _ _ _ _ g)) as (t & w' & _ & F & Pt & _).
  eapply ev_bind; [unfold optional; rewrite Pt, (first_nocolon t F); apply C|]; [now apply okm_ender|now apply ender_stop|now apply ender_stop|].
  apply ev_const. reflexivity.
Qed.
Lemma c_slice a w m x wx y wy : CG 1 a w m -> m <> Open -> CGopt x wx -> CGopt y wy -> CG 1 (ESlice a x y) (w ++ TOpenS :: wx ++ TColon :: wy ++ [TCloseS]) Closed.
Proof.
  intros H M X Y rest v _ L. eapply c_suffix; [exact H|exact M|reflexivity| |exact L]. clear L. intros v' L. simpl. rewrite <- app_assoc. simpl. rewrite <- app_assoc. simpl.
  eapply ev_bind with (g := fun n => p_suffix (ps n)); [|exact L]. unfold index_or_slice.
  eapply ev_bind; [apply X; [reflexivity|reflexivity|apply first_nocolon]|]. cbn [peek skip hd_error advance tl].
  eapply ev_bind; [apply Y; [reflexivity|reflexivity|apply first_nocc]|]. apply ev_const. reflexivity.
Qed.
Lemma c_slice3 a w m x wx y wy z wz : CG 1 a w m -> m <> Open -> CGopt x wx -> CGopt y wy -> CGopt z wz ->
    CG 1 (ESliceStep a x y z) (w ++ TOpenS :: wx ++ TColon :: wy ++ TColon :: wz ++ [TCloseS]) Closed.
Proof.
  intros H M X Y Z rest v _ L. eapply c_suffix; [exact H|exact M|reflexivity| |exact L]. clear L. intros v' L. simpl. rewrite <- app_assoc. simpl. rewrite <- app_assoc. simpl. rewrite <- app_assoc. simpl.
  eapply ev_bind with (g := fun n => p_suffix (ps n)); [|exact L]. unfold index_or_slice.
  eapply ev_bind; [apply X; [reflexivity|reflexivity|apply first_nocolon]|]. cbn [peek skip hd_error advance tl].
  eapply ev_bind; [apply Y; [reflexivity|reflexivity|apply first_nocc]|]. cbn [peek skip hd_error advance tl].
  eapply ev_bind; [apply Z; [reflexivity|reflexivity|apply first_nocl]|]. apply ev_const. reflexivity.
Qed.
Lemma c_field e w m x : CG 1 e w m -> m <> Open -> CG 1 (EGetField e x) (w ++ [TArrow; TId x]) Closed.
Proof. intros H M rest v _ L. eapply c_suffix; [exact H|exact M|reflexivity| |exact L]. intros v' L'. exact L'. Qed.

(** * Terminals *)
Lemma c_atom e w : atom e w -> CG 0 e w Closed.
Proof.
  intros A rest _. apply ev_terminal, ev_const. intros n. destruct e; simpl in A; try contradiction; subst w; try reflexivity. destruct b; reflexivity.
Qed.
Lemma c_paren l x w : CGargs ClP l x w -> CG 0 (EComma l x false) (TOpenP :: w ++ [TCloseP]) Closed.
Proof.
  intros C rest _. pose proof (c_comma_expr _ _ _ rest C) as X. apply ev_terminal. unfold terminal. simpl. rewrite <- app_assoc. simpl.
  eapply ev_bind; [exact X|]. apply ev_const. reflexivity.
Qed.
Lemma c_nolist : CG 0 (ELiteral LList []) [TOpenS; TCloseS] Closed.
Proof. intros rest _. apply ev_terminal, ev_const. reflexivity. Qed.
Lemma c_noset : CG 0 (ELiteral LSet []) [TOpenB; TCloseB] Closed.
Proof. intros rest _. apply ev_terminal, ev_const. reflexivity. Qed.
Lemma ev_list w rest v : (forall t, argend t = true -> hd_error w <> Some t) -> w <> [] -> hd_error w <> Some TNewLine ->
  ev (fun n => bind (p_arg (ps n) (w ++ rest)) (fun a t =>
        match peek t with
        | Some TCloseS => Got (ELiteral LList [a]) (advance t)
        | Some TColon => slice_literal (ps n) a t
        | Some TComma => bind (p_args (ps n) ClS t) (fun l t => bind (expect (closes ClS) t) (fun _ t => Got (ELiteral LList (a :: fst l)) t))
        | _ => Bad
        end)) v -> ev (fun n => p_terminal (ps n) (TOpenS :: w ++ rest)) v.
Proof.
  intros A N L H. apply ev_terminal. unfold terminal. change (peek (TOpenS :: w ++ rest)) with (Some TOpenS). change (advance (TOpenS :: w ++ rest)) with (w ++ rest).
  destruct w as [|t w]; [contradiction|]. cbv iota. unfold list_or_slice. assert (t <> TNewLine) by (intros ->; now apply L). cbn [app]. rewrite peek_nn by assumption.
  destruct t; try exact H; exfalso; (eapply A; [|reflexivity]; reflexivity).
Qed.
Lemma c_list l x w : Gargs ClS l x w -> CGargs ClS l x w -> CG 0 (ELiteral LList l) (TOpenS :: w ++ [TCloseS]) Closed.
Proof.
  intros g [C _] rest _. simpl. rewrite <- app_assoc. simpl. destruct (gargs_start _ _ _ _ g) as (t & w' & E & A & B & _).
  apply ev_list; [|subst w; discriminate|subst w; simpl; congruence|].
  { intros u U Q. subst w. injection Q as ->. congruence. }
  destruct (C rest) as (a & l' & u & ra & -> & X & Y & [->|(-> & -> & ->)]).
  - eapply ev_bind; [exact X|]. cbn [peek skip hd_error]. eapply ev_bind; [exact Y|]. eapply ev_bind; [apply ev_const; intros n; apply expect_closer|]. apply ev_const. reflexivity.
  - eapply ev_bind; [exact X|]. apply ev_const. reflexivity.
Qed.
Lemma notarg_cc x : argend x = false -> colon_or_close (Some x) = false. Proof. now destruct x. Qed.
Lemma notarg_cl x : argend x = false -> closes ClS (Some x) = false. Proof. now destruct x. Qed.
Lemma c_slit2 x b wb rest : CGopt_arg b wb TCloseS -> ev (fun n => slice_literal (ps n) x (TColon :: wb ++ TCloseS :: rest)) (Got (ESliceLit x b None) rest).
Proof.
  intros Y. unfold slice_literal. cbn [advance skip tl]. eapply ev_bind; [apply Y; [reflexivity|reflexivity|apply notarg_cc]|]. apply ev_const. reflexivity.
Qed.
Lemma c_slit3 x b wb c wc rest : CGopt_arg b wb TColon -> CGopt_arg c wc TCloseS -> ev (fun n => slice_literal (ps n) x (TColon :: wb ++ TColon :: wc ++ TCloseS :: rest)) (Got (ESliceLit x b (Some c)) rest).
Proof.
  intros Y Z. unfold slice_literal. cbn [advance skip tl]. eapply ev_bind; [apply Y; [reflexivity|reflexivity|apply notarg_cc]|]. cbn [peek skip hd_error advance tl].
  eapply ev_bind; [apply Z; [reflexivity|reflexivity|apply notarg_cl]|]. apply ev_const. reflexivity.
Qed.
Lemma c_slit a wa rest v : Gopt_arg a wa TColon -> CGopt_arg a wa TColon -> ev (fun n => slice_literal (ps n) a (TColon :: rest)) v -> ev (fun n => p_terminal (ps n) (TOpenS :: wa ++ TColon :: rest)) v.
Proof.
  intros g C H. inversion g as [t0 E1 E2 E3|e0 w0 m0 t0 ga M E1 E2 E3]; subst.
  - apply ev_terminal. exact H.
  - destruct (garg_start _ _ _ ga) as (t & w' & E & A & B & _).
    apply ev_list; [|subst wa; discriminate|subst wa; simpl; congruence|].
    { intros u U Q. subst wa. injection Q as ->. congruence. }
    eapply ev_bind with (a := a) (r := TColon :: rest); [|exact H].
    specialize (C (fun x => match x with Some t => argend t | None => false end) rest eq_refl eq_refl (fun x h => h)). unfold optional in C. subst wa. cbn [app] in *.
    rewrite peek_nn in C by assumption. rewrite A in C. exact C.
Qed.
Lemma c_range a wa b wb : Gopt_arg a wa TColon -> CGopt_arg a wa TColon -> CGopt_arg b wb TCloseS -> CG 0 (ESliceLit a b None) (TOpenS :: wa ++ TColon :: wb ++ [TCloseS]) Closed.
Proof. intros g C D rest _. simpl. rewrite <- app_assoc. simpl. rewrite <- app_assoc. simpl. apply (c_slit a wa); [exact g|exact C|]. now apply c_slit2. Qed.
Lemma c_range3 a wa b wb c wc : Gopt_arg a wa TColon -> CGopt_arg a wa TColon -> CGopt_arg b wb TColon -> CGopt_arg c wc TCloseS ->
    CG 0 (ESliceLit a b (Some c)) (TOpenS :: wa ++ TColon :: wb ++ TColon :: wc ++ [TCloseS]) Closed.
Proof.
  intros g C D F rest _. simpl. rewrite <- app_assoc. simpl. rewrite <- app_assoc. simpl. rewrite <- app_assoc. simpl. apply (c_slit a wa); [exact g|exact C|]. now apply c_slit3.
Qed.
Lemma ev_dict l d t w rest : argend t = false -> t <> TNewLine -> ev (fun n => p_items (ps n) None ((t :: w) ++ TCloseB :: rest)) (Got (l, d) (TCloseB :: rest)) ->
  ev (fun n => p_terminal (ps n) ((TOpenB :: (t :: w) ++ [TCloseB]) ++ rest)) (Got (ELiteral (match d with Some true => LDict | _ => LSet end) l) rest).
Proof.
  intros A B H. apply ev_terminal. unfold terminal. cbn [app peek skip hd_error advance tl]. unfold dict_or_set. rewrite <- app_assoc. cbn [app] in *. rewrite (peek_nn t) by assumption.
  assert (X : ev (fun n => bind (p_items (ps n) None (t :: w ++ TCloseB :: rest)) (fun l t => bind (expect (closes ClB) t) (fun _ t => Got (ELiteral (match snd l with Some true => LDict | _ => LSet end) (fst l)) t))) (Got (ELiteral (match d with Some true => LDict | _ => LSet end) l) rest)).
  { eapply ev_bind; [exact H|]. apply ev_const. reflexivity. }
  destruct t; try exact X; discriminate.
Qed.
Lemma c_set l x w : Gargs ClB l x w -> CGargs ClB l x w -> CG 0 (ELiteral LSet l) (TOpenB :: w ++ [TCloseB]) Closed.
Proof.
  intros g [_ C] rest _. destruct (gargs_start _ _ _ _ g) as (t & w' & -> & A & B & _). destruct (C eq_refl None rest) as (d' & N & X); [discriminate|].
  pose proof (ev_dict _ _ _ _ _ A B X) as Y. destruct d' as [[|]|]; [contradiction|exact Y|exact Y].
Qed.
Lemma gitems_start l p w : Gitems l p w -> exists t w', w = t :: w' /\ argend t = false /\ t <> TNewLine.
Proof.
  assert (I : forall l p w m, Gitem l p w m -> exists t w', w = t :: w' /\ argend t = false /\ t <> TNewLine).
  { intros l0 p0 w0 m0 g. destruct g as [? ? ? H|? ? ? ? ? ? H]; destruct (garg_start _ _ _ H) as (t & w' & -> & A & B & _); eexists _, _; split; try reflexivity; auto. }
  intros g. destruct g as [? ? ? ? H|? ? ? ? H|? ? ? ? ? ? ? H]; destruct (I _ _ _ _ H) as (t1 & w1 & -> & A & B); eexists _, _; split; try reflexivity; auto.
Qed.
Lemma c_dict l w : Gitems l true w -> CGitems l true w -> CG 0 (ELiteral LDict l) (TOpenB :: w ++ [TCloseB]) Closed.
Proof.
  intros g C rest _. destruct (gitems_start _ _ _ g) as (t & w' & -> & A & B). specialize (C None rest). exact (ev_dict _ _ _ _ _ A B (C ltac:(discriminate))).
Qed.
Lemma c_then c a wa ma b wb rest : G 11 a wa ma -> CG 11 a wa ma -> Gelse b wb -> CGelse b wb -> stop 9 rest -> assign_at rest = None ->
  ev (fun n => p_then (ps n) c (TThen :: wa ++ wb ++ rest)) (Got (EIf c a b) rest).
Proof.
  intros g Ha ge He S A. apply ev_then. unfold then_else. eapply ev_bind; [apply ev_const; intros n; reflexivity|]. cbv beta. cbn [advance skip tl].
  assert (X : exists t w', wb = t :: w' /\ ender t = true) by (destruct ge; eauto). destruct X as (t & w' & E & D).
  eapply ev_bind; [apply Ha; rewrite E; cbn [app]; [now apply okm_ender|now apply ender_stop|now apply ender_stop]|].
  exact (He c a rest S A).
Qed.
Lemma c_if c wc mc a wa ma b wb : G 11 c wc mc -> CG 11 c wc mc -> G 11 a wa ma -> CG 11 a wa ma -> Gelse b wb -> CGelse b wb -> CG 0 (EIf c a b) (TIf :: wc ++ TThen :: wa ++ wb) Open.
Proof.
  intros gc Hc ga Ha ge He rest [O _]. destruct (O eq_refl) as [S A]. apply ev_terminal. unfold terminal. simpl. rewrite <- app_assoc. simpl. rewrite <- app_assoc. unfold advance. simpl.
  eapply ev_bind with (g := fun n => p_then (ps n)); [apply Hc; [now apply okm_ender|now apply ender_stop|now apply ender_stop]|]. now apply (c_then c a wa ma).
Qed.
Lemma c_else b w m : CG 11 b w m -> CGelse b (TElse :: w).
Proof.
  intros H c a rest S A. unfold telse. cbn [app peek skip hd_error]. eapply ev_bind; [apply ev_const; intros n; reflexivity|]. cbv beta. cbn [advance skip tl].
  eapply ev_bind; [apply H; [now apply okm_stop|exact S|exact A]|]. apply ev_const. reflexivity.
Qed.
Lemma c_elif c wc mc a wa ma b wb : G 11 c wc mc -> CG 11 c wc mc -> G 11 a wa ma -> CG 11 a wa ma -> Gelse b wb -> CGelse b wb -> CGelse (EIf c a b) (TElif :: wc ++ TThen :: wa ++ wb).
Proof.
  intros gc Hc ga Ha ge He c0 a0 rest S A. unfold telse. simpl. rewrite <- app_assoc. simpl. rewrite <- app_assoc. cbn [peek skip hd_error advance tl].
  eapply ev_bind; [apply Hc; [now apply okm_ender|now apply ender_stop|now apply ender_stop]|].
  eapply ev_bind; [apply (c_then c a wa ma b wb rest); assumption|]. apply ev_const. reflexivity.
Qed.

(** * Arguments *)
Lemma c_opt_none : CGopt ENil [].
Proof. intros p t rest E A B. apply ev_const. intros n. unfold optional. cbn [app]. rewrite peek_nn by (now intros ->). now rewrite A. Qed.
Lemma c_opt_some e w m : G 11 e w m -> CG 11 e w m -> CGopt e w.
Proof.
  intros g H p t rest E A B. unfold optional. destruct (starts_peek w (t :: rest) (G_first _ _ _ _ g)) as (t' & w' & _ & F & Pt & _). rewrite Pt, (B _ F).
  apply H; [now apply okm_ender|now apply ender_stop|now apply ender_stop].
Qed.
Lemma c_opt_arg_none t : CGopt_arg ENil [] t.
Proof. intros p rest E A B. apply ev_const. intros n. unfold optional. cbn [app]. rewrite peek_nn by (now intros ->). now rewrite A. Qed.
Lemma c_opt_arg_some e w m t : Garg e w m -> CGarg e w m -> may_precede m (Some t) -> CGopt_arg e w t.
Proof.
  intros g H M p rest E A B. unfold optional. destruct (garg_start _ _ _ g) as (t' & w' & -> & N & Q & _). cbn [app]. rewrite peek_nn by exact Q. rewrite (B _ N). now apply (H t rest).
Qed.
Lemma ender_of t : argend t = true -> ender t = true. Proof. now destruct t. Qed.
Lemma ev_marked t v : match unary_fun t with Some _ => ends_arg (peek2 t) = false | None => True end -> ev (fun n => marked_arg (ps n) t) v -> ev (fun n => p_arg (ps n) t) v.
Proof. intros U H. apply ev_arg. unfold arg. destruct (unary_fun t); [rewrite U|]; exact H. Qed.
Lemma c_arg_unary f t : unary_fun [t] = Some f -> CGarg (EOp f) [t] Alone.
Proof.
  intros U t' rest M A. cbn [may_precede] in M. apply ev_arg, ev_const. intros n. unfold arg. unfold unary_fun in *.
  assert (N : t' <> TNewLine) by (now intros ->). destruct t; try discriminate; cbn [app peek skip hd_error] in *; unfold peek2, advance; cbn [skip tl]; rewrite ?peek_nn by exact N.
  - destruct s; try discriminate. rewrite M. now injection U as <-.
  - rewrite M. destruct t'; try discriminate M; now injection U as <-.
  - rewrite M. now injection U as <-.
Qed.
Lemma partial_spell o x : o <> BSym SSub -> notnl x -> (o = BIs -> hd_error x <> Some TKNot) -> partial_op (spelling (IBin o) ++ x) = Some (o, x).
Proof.
  intros N L I. destruct x as [|y x]; [contradiction|]. destruct o as [[]| | | |]; try contradiction; try reflexivity.
  unfold partial_op, long_op. cbn [spelling app peek skip hd_error]. change (peek2 (TIs :: y :: x)) with (peek (y :: x)). rewrite peek_nn by (now intros ->).
  destruct y; try reflexivity. exfalso. now apply I.
Qed.
Lemma spell_marked o x v : o <> BSym SSub -> notnl x -> ev (fun n => plain_arg (ps n) (spelling (IBin o) ++ x)) v -> ev (fun n => p_arg (ps n) (spelling (IBin o) ++ x)) v.
Proof.
  intros N L H. apply ev_marked; destruct x as [|y x]; try contradiction; destruct o as [[]| | | |]; try contradiction; try exact I; exact H.
Qed.
Lemma c_arg_binary o : o <> BSym SSub -> CGarg (EOp (FBin o)) (spelling (IBin o)) Alone.
Proof.
  intros N t rest M A. assert (NN : notnl (t :: rest)) by (now destruct t). apply spell_marked; [exact N|exact NN|]. unfold plain_arg. rewrite partial_spell; [|exact N|exact NN|intros _ Q; injection Q as ->; discriminate].
  rewrite peek_nn by (now intros ->). rewrite M. apply ev_const. reflexivity.
Qed.
Lemma c_arg_field x : CGarg (EField x) [TArrow; TId x] Full.
Proof. intros t rest _ A. apply ev_arg, ev_const. reflexivity. Qed.
Lemma c_arg_unroll e w m : CG 11 e w m -> CGarg (EUnroll e) (TEllipsis :: w) Full.
Proof.
  intros H t rest _ A. apply ender_of in A. apply ev_marked; [exact I|]. unfold marked_arg. cbn [app peek skip hd_error advance tl].
  eapply ev_bind; [apply H; [now apply okm_ender|now apply ender_stop|now apply ender_stop]|]. apply ev_const. reflexivity.
Qed.
Lemma first_noend t : first t = true -> ends_arg (Some t) = false. Proof. now destruct t. Qed.
Lemma c_arg_right o e w m : o <> BSym SSub -> G 11 e w m -> CG 11 e w m -> (o = BIs -> hd_error w <> Some TKNot) -> CGarg (ECall (EOpSwap (FBin o)) [e]) (spelling (IBin o) ++ w) Full.
Proof.
  intros N g H I t rest _ A. apply ender_of in A. rewrite <- app_assoc. pose proof (G_first _ _ _ _ g) as sw. assert (NN : notnl (w ++ t :: rest)) by (now apply starts_notnl).
  apply spell_marked; [exact N|exact NN|]. unfold plain_arg. rewrite partial_spell; [|exact N|exact NN|].
  2:{ intros Q. rewrite hd_app; [auto|]. destruct sw as (? & ? & -> & _). discriminate. }
  destruct (starts_peek w (t :: rest) sw) as (t' & w' & _ & F & Pt & _). rewrite Pt, (first_noend _ F).
  eapply ev_bind; [apply H; [now apply okm_ender|now apply ender_stop|now apply ender_stop]|]. apply ev_const. reflexivity.
Qed.
Lemma expr_marked w x k v : starts2 k w -> hd_error w <> Some (TSym SMul) -> partial_op (w ++ x) = None /\ (ev (fun n => plain_arg (ps n) (w ++ x)) v -> ev (fun n => p_arg (ps n) (w ++ x)) v).
Proof.
  intros (t & w' & -> & F & U) N. simpl in N. cbn [app].
  assert (P2 : unary_first t = true -> exists t', first t' = true /\ peek2 (t :: w' ++ x) = Some t').
  { intros Q. destruct (U Q) as [_ S']. destruct (starts_peek w' x S') as (t' & w'' & _ & F' & Pt & _). exists t'. split; [exact F'|]. unfold peek2. destruct t; try discriminate; exact Pt. }
  assert (T : t <> TNewLine) by (now intros ->).
  split.
  - unfold partial_op, long_op. rewrite peek_nn by exact T. destruct t; try discriminate; try reflexivity.
    + destruct s; try discriminate; try reflexivity. contradiction.
    + destruct (P2 eq_refl) as (t' & F' & ->). now destruct t'.
  - intros H. apply ev_marked.
    + unfold unary_fun. rewrite peek_nn by exact T. destruct t; try exact I; try (destruct (P2 eq_refl) as (t' & F' & ->); now destruct t').
      * destruct s; try exact I. destruct (P2 eq_refl) as (t' & F' & ->); now destruct t'.
    + unfold marked_arg. rewrite peek_nn by exact T. destruct t; try discriminate; exact H.
Qed.
Lemma c_arg_expr e w m : G 11 e w m -> CG 11 e w m -> hd_error w <> Some (TSym SMul) -> CGarg e w Full.
Proof.
  intros g H N t rest _ A. destruct (expr_marked w (t :: rest) 11 (Got e (t :: rest)) (G_starts _ _ _ _ g) N) as [P K]. apply K. unfold plain_arg. rewrite P.
  pose proof (ender_of _ A) as E.
  eapply ev_bind; [apply H; [now apply okm_ender|now apply ender_stop|now apply ender_stop]|]. apply ev_const. intros _. destruct t; try discriminate; reflexivity.
Qed.
Lemma c_arg_left o e w m : o <> BSym SSub -> G 11 e w m -> CG 11 e w m -> hd_error w <> Some (TSym SMul) -> CGarg (ECall (EOp (FBin o)) [e]) (w ++ spelling (IBin o)) Partial.
Proof.
  intros N g H M t rest Q A. simpl in Q. injection Q as ->. rewrite <- app_assoc.
  destruct (expr_marked w (spelling (IBin o) ++ TCloseP :: rest) 11 (Got (ECall (EOp (FBin o)) [e]) (TCloseP :: rest)) (G_starts _ _ _ _ g) M) as [P K]. apply K. unfold plain_arg. rewrite P.
  assert (I : o = BIs -> hd_error (TCloseP :: rest) <> Some TKNot) by discriminate.
  assert (I' : IBin o = IBin BIs -> hd_error (TCloseP :: rest) <> Some TKNot) by discriminate.
  destruct (spell_op (IBin o) (TCloseP :: rest) Logic.I I') as (B1 & B2 & B3 & B4).
  assert (S : stop 9 (spelling (IBin o) ++ TCloseP :: rest)).
  { split; [intros _; exact B3|]. intros j J. unfold op_stop. destruct (Nat.eq_dec j (precedence (IBin o))) as [->|D]; [|now rewrite (B2 j J D)].
    rewrite B1. split; [|reflexivity]. destruct o as [[]| | | |]; discriminate. }
  eapply ev_bind; [apply H; [now apply okm_stop|exact S|exact B4]|]. rewrite (partial_spell o (TCloseP :: rest) N Logic.I I). apply ev_const. reflexivity.
Qed.

(** * Lists of arguments *)
Lemma closer_end c : argend (closer c) = true. Proof. now destruct c. Qed.
Lemma closer_closes c : closes c (Some (closer c)) = true. Proof. now destruct c. Qed.
Lemma ev_item_set a t r d w : d <> Some true -> t <> TNewLine -> t <> TColon -> ev (fun n => p_arg (ps n) w) (Got a (t :: r)) -> exists d', d' <> Some true /\ ev (fun n => item (ps n) d w) (Got ([a], d') (t :: r)).
Proof.
  intros D N C H. exists (if is_unroll a then d else Some false). split; [now destruct (is_unroll a)|]. unfold item. eapply ev_bind; [exact H|].
  destruct (is_unroll a); [apply ev_const; reflexivity|]. destruct d as [[|]|]; [contradiction|apply ev_const; reflexivity|].
  rewrite peek_nn by exact N. apply ev_const. intros n. destruct t; try reflexivity. contradiction.
Qed.
Lemma c_args_last c a w m : CGarg a w m -> may_precede m (Some (closer c)) -> CGargs c [a] false w.
Proof.
  intros H M. split.
  - intros rest. exists a, [], (closer c), rest. split; [reflexivity|]. split; [apply (H (closer c) rest M), closer_end|]. split; [|auto].
    apply ev_args, ev_const. intros n. now destruct c.
  - intros -> d rest D. destruct (ev_item_set a TCloseB rest d (w ++ TCloseB :: rest) D) as (d' & D' & X); [discriminate|discriminate|apply (H TCloseB rest M); reflexivity|].
    exists d'. split; [exact D'|]. apply ev_items. unfold items. eapply ev_bind; [exact X|]. apply ev_const. reflexivity.
Qed.
Lemma c_args_trailing c a w m : CGarg a w m -> may_precede m (Some TComma) -> CGargs c [a] true (w ++ [TComma]).
Proof.
  intros H M. split.
  - intros rest. exists a, [], TComma, (closer c :: rest). rewrite <- app_assoc. split; [reflexivity|]. split; [now apply (H TComma)|]. split; [|auto].
    apply ev_args, ev_const. intros n. now destruct c.
  - intros -> d rest D. rewrite <- app_assoc. destruct (ev_item_set a TComma (TCloseB :: rest) d (w ++ TComma :: TCloseB :: rest) D) as (d' & D' & X); [discriminate|discriminate|now apply (H TComma)|].
    exists d'. split; [exact D'|]. apply ev_items. unfold items. eapply ev_bind; [exact X|]. apply ev_const. reflexivity.
Qed.
Lemma c_args_more c a w m l x wl : CGarg a w m -> may_precede m (Some TComma) -> Gargs c l x wl -> CGargs c l x wl -> CGargs c (a :: l) x (w ++ TComma :: wl).
Proof.
  intros H M g [C1 C2]. destruct (gargs_start _ _ _ _ g) as (t & w' & E & A & B & _). split.
  - intros rest. rewrite <- app_assoc. destruct (C1 rest) as (a1 & l' & u & ra & -> & X & Y & _).
    exists a, (a1 :: l'), TComma, (wl ++ closer c :: rest). split; [reflexivity|]. split; [now apply (H TComma)|]. split; [|auto].
    apply ev_args. unfold args. cbn [peek skip hd_error advance tl].
    assert (F : closes c (peek (wl ++ closer c :: rest)) = false) by (subst wl; cbn [app]; rewrite peek_nn by exact B; destruct c, t; try reflexivity; discriminate). rewrite F.
    eapply ev_bind; [exact X|]. eapply ev_bind; [exact Y|]. apply ev_const. reflexivity.
  - intros -> d rest D. rewrite <- app_assoc. destruct (ev_item_set a TComma (wl ++ TCloseB :: rest) d (w ++ TComma :: wl ++ TCloseB :: rest) D) as (d1 & D1 & X); [discriminate|discriminate|now apply (H TComma)|].
    destruct (C2 eq_refl d1 rest D1) as (d2 & D2 & Y). exists d2. split; [exact D2|]. apply ev_items. unfold items. eapply ev_bind; [exact X|]. cbn [peek skip hd_error advance tl].
    assert (F : closes ClB (peek (wl ++ TCloseB :: rest)) = false) by (subst wl; cbn [app]; rewrite peek_nn by exact B; destruct t; try reflexivity; discriminate). rewrite F.
    eapply ev_bind; [exact Y|]. apply ev_const. reflexivity.
Qed.
Lemma c_item_unroll e w m : CGarg (EUnroll e) w m -> CGitem [EUnroll e] false w m.
Proof.
  intros H d t rest D M T. unfold item. eapply ev_bind; [apply (H t rest M); now destruct T as [->| ->]|]. apply ev_const. reflexivity.
Qed.
Lemma c_item_pair a wa ma b wb mb : CGarg a wa ma -> may_precede ma (Some TColon) -> is_unroll a = false -> CGarg b wb mb -> CGitem [a; b] true (wa ++ TColon :: wb) mb.
Proof.
  intros H M U Hb d t rest D Mb T. rewrite <- app_assoc. unfold item. eapply ev_bind; [apply (H TColon (wb ++ t :: rest)); [exact M|reflexivity]|]. rewrite U.
  assert (X : ev (fun n => p_arg (ps n) (wb ++ t :: rest)) (Got b (t :: rest))) by (apply (Hb t rest Mb); now destruct T as [->| ->]).
  destruct d as [[|]|]; [|contradiction|].
  - eapply ev_bind; [apply ev_const; intros n; reflexivity|]. cbv beta. eapply ev_bind; [exact X|]. apply ev_const. reflexivity.
  - cbn [peek skip hd_error is_colon advance tl app]. eapply ev_bind; [exact X|]. apply ev_const. reflexivity.
Qed.
Lemma c_items_last l p w m : CGitem l p w m -> may_precede m (Some TCloseB) -> CGitems l p w.
Proof.
  intros H M d rest D. apply ev_items. unfold items. eapply ev_bind; [apply (H d TCloseB rest D M); auto|]. apply ev_const. reflexivity.
Qed.
Lemma c_items_trailing l p w m : CGitem l p w m -> may_precede m (Some TComma) -> CGitems l p (w ++ [TComma]).
Proof.
  intros H M d rest D. rewrite <- app_assoc. apply ev_items. unfold items. eapply ev_bind; [apply (H d TComma (TCloseB :: rest) D M); auto|]. apply ev_const. reflexivity.
Qed.
Lemma c_items_more l p w m l' p' w' : CGitem l p w m -> may_precede m (Some TComma) -> Gitems l' p' w' -> CGitems l' p' w' -> CGitems (l ++ l') (p || p') (w ++ TComma :: w').
Proof.
  intros H M g C d rest D. destruct (gitems_start _ _ _ g) as (t & w1 & E & A & B). rewrite <- app_assoc. apply ev_items. unfold items. eapply ev_bind; [apply (H d TComma (w' ++ TCloseB :: rest) D M); auto|].
  cbn [peek skip hd_error advance tl].
  assert (F : closes ClB (peek (w' ++ TCloseB :: rest)) = false) by (subst w'; cbn [app]; rewrite peek_nn by exact B; destruct t; try reflexivity; discriminate). rewrite F.
  eapply ev_bind; [apply C; cbn [snd]; now destruct p|]. apply ev_const. intros _. cbn [fst snd]. destruct p, p'; reflexivity.
Qed.
Theorem G_complete : forall k e w m, G k e w m -> CG k e w m.
Proof.
  apply (G_mut CG CGelse CGchain CGbare CGopt CGopt_arg CGarg CGargs CGitem CGitems).
  - exact c_atom.
  - intros; eapply c_paren; eauto.
  - exact c_nolist.
  - intros; eapply c_list; eauto.
  - intros; eapply c_range; eauto.
  - intros; eapply c_range3; eauto.
  - exact c_noset.
  - intros; eapply c_set; eauto.
  - intros; eapply c_dict; eauto.
  - intros; eapply c_if; eauto.
  - intros; eapply c_terminal; eauto.
  - intros; eapply c_call0; eauto.
  - intros; eapply c_call; eauto.
  - intros; eapply c_barecall; eauto.
  - intros; eapply c_index; eauto.
  - intros; eapply c_slice; eauto.
  - intros; eapply c_slice3; eauto.
  - intros; eapply c_field; eauto.
  - intros; eapply c_unary; eauto.
  - intros; eapply c_next; eauto.
  - intros; eapply c_infix; eauto.
  - intros; eapply c_compare; eauto.
  - intros; eapply c_expr; eauto.
  - intros; eapply c_assign; eauto.
  - intros; eapply c_single; eauto.
  - intros; eapply c_comma; eauto.
  - intros; eapply c_top; eauto.
  - intros; eapply c_top_assign; eauto.
  - intros; eapply c_else; eauto.
  - intros; eapply c_elif; eauto.
  - intros; eapply c_chain_last; eauto.
  - intros; eapply c_chain_more; eauto.
  - intros; eapply c_bare_last; eauto.
  - intros; eapply c_bare_more; eauto.
  - exact c_opt_none.
  - intros; eapply c_opt_some; eauto.
  - exact c_opt_arg_none.
  - intros; eapply c_opt_arg_some; eauto.
  - exact c_arg_unary.
  - exact c_arg_binary.
  - exact c_arg_field.
  - intros; eapply c_arg_unroll; eauto.
  - intros; eapply c_arg_right; eauto.
  - intros; eapply c_arg_expr; eauto.
  - intros; eapply c_arg_left; eauto.
  - intros; eapply c_args_last; eauto.
  - intros; eapply c_args_trailing; eauto.
  - intros; eapply c_args_more; eauto.
  - intros; eapply c_item_unroll; eauto.
  - intros; eapply c_item_pair; eauto.
  - intros; eapply c_items_last; eauto.
  - intros; eapply c_items_trailing; eauto.
  - intros; eapply c_items_more; eauto.
Qed.
