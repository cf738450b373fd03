(** The session of the machine follows the session of the source. *)
From Verif Require Import Base Native Err Vm VmProofs Graph GraphSpec GraphProofs Peep PeepSpec PeepProofs PeepProofs2 Lang LangSpec LangCheck Compile ReplRun Repl CompGraph CompGraph2 CompFlow CompInv CompUnf CompLv CompSim1 CompSim2 CompSim3 CompSim4 CompSim5 CompSim6 CompSim7 CompileSpec ReplSpec.
Local Open Scope nat_scope.
Local Arguments CompInv.mk : simpl never.

(** the machine without the extra checks *)
Lemma line_plain P C F : forall n d m r, run_line P C F (strict_step P) n d m = Some r -> r <> LStuck P -> run_line P C F (step P) n d m = Some r.
Proof.
  induction n as [|n IH]; intros d m r H Hr; [discriminate|]. cbn [run_line] in *.
  destruct (nth_error C (ip P m)) as [o|]; [|exact H].
  unfold strict_step in H at 1. destruct (self_store P o _); [injection H as <-; congruence|].
  destruct (step P o _) as [m'|e w|m'|t m'|k m'|]; auto.
  - destruct (_ =? _); auto.
  - destruct (run_tree P C F (strict_step P) n t m') as [[m1 v|e w|]|] eqn:E; try discriminate; try (injection H as <-; congruence);
    rewrite (proj2 (proj2 (strict_plain P C F n)) _ _ _ E) by discriminate; auto.
  - destruct (invoke P C F (strict_step P) n k m') as [[m1|m1|e w|]|] eqn:E; try discriminate; try (injection H as <-; congruence);
    rewrite (proj1 (proj2 (strict_plain P C F n)) _ _ _ E) by discriminate; auto.
Qed.

Lemma line_mono P C F : forall n d m r n', run_line P C F (step P) n d m = Some r -> n <= n' -> run_line P C F (step P) n' d m = Some r.
Proof.
  induction n as [|n IH]; intros d m r n' H L; [discriminate|]. destruct n' as [|n']; [lia|]. cbn [run_line] in *.
  destruct (nth_error C (ip P m)) as [o|]; [|exact H]. destruct (step P o (set_ip P (S (ip P m)) m)) as [m1|e w|m1|t m1|k m1|]; auto.
  - eapply IH; [exact H|lia].
  - destruct (length (frames P m1) =? d); auto. eapply IH; [exact H|lia].
  - destruct (run_tree P C F (step P) n t m1) as [x|] eqn:E; [|discriminate]. rewrite (tree_mono _ _ _ _ _ n' _ _ _ E) by lia. destruct x; auto. eapply IH; [exact H|lia].
  - destruct (invoke P C F (step P) n k m1) as [x|] eqn:E; [|discriminate]. rewrite (invoke_mono _ _ _ _ _ n' _ _ _ E) by lia. destruct x; auto; (eapply IH; [exact H|lia]).
Qed.
Lemma enter_det P report n n' l r x y : enter P report n l r = Some x -> enter P report n' l r = Some y -> x = y.
Proof.
  unfold enter. cbv zeta. intros A B.
  destruct (run_line P _ _ _ n 0 _) as [a|] eqn:Ea; [|discriminate]. destruct (run_line P _ _ _ n' 0 _) as [b|] eqn:Eb; [|discriminate].
  apply (line_mono _ _ _ _ _ _ _ (max n n')) in Ea; [|lia]. apply (line_mono _ _ _ _ _ _ _ (max n n')) in Eb; [|lia].
  rewrite Ea in Eb. injection Eb as ->. congruence.
Qed.
Lemma enters_det P report r ls a b : enters P report r ls a -> enters P report r ls b -> a = b.
Proof.
  intro H. revert b. induction H as [r|r l ls n r1 r2 H1 H2 IH]; intros b B.
  - now inversion B.
  - inversion B as [|? ? ? n' r1' r2' A1 A2]; subst. pose proof (enter_det _ _ _ _ _ _ _ _ H1 A1) as E. injection E as ->. now apply IH.
Qed.

Lemma Forall2_map_both {A B C} (R : A -> B -> Prop) (f : C -> A) (g : C -> B) l : (forall c, In c l -> R (f c) (g c)) -> Forall2 R (map f l) (map g l).
Proof. induction l; cbn; intros; constructor; auto. Qed.

Section sess.
Context (P : prims) (report : verr (E P) -> W P -> W P).
Local Notation st := (st P).
Local Notation fs0 := ([(0, 0)] : list (nat * nat)).

(** the functions are in their places *)
Definition units (C : list op) (T : list func) (FS : list sfun) : Prop :=
  forall f sf, nth_error FS f = Some sf -> exists fu sta, unit_ok C (nth_error T) f sf fu sta.

Record rel (FS : list sfun) (ls : list (option nat)) (s : st) (r : session P) : Prop := Rel {
  re_units : units (r_code P r) (r_funs P r) FS;
  re_len : length (r_funs P r) = length FS;
  re_dep : depths 0 (r_lv P r);
  re_vm : exists new h, ls = map Some new /\ globals P s = new /\ length new = length (r_lv P r) /\
    r_vm P r = mk P fs0 [] [] (length (r_code P r)) s (map SVar new) h /\
    inv P s (map SVar new) h /\ (forall j, capd h (map SVar new) j -> flagged (r_lv P r) j) }.

Lemma unit_app C l T T' f sf fu sta : unit_ok C (nth_error T) f sf fu sta -> unit_ok (C ++ l) (nth_error (T ++ T')) f sf fu sta.
Proof.
  intros [A B D E F G I]. split; auto; [|now apply laid_app]. rewrite nth_error_app1; auto. apply nth_error_Some. congruence.
Qed.
Lemma link_len fs : forall code, length (snd (link_funs (fun g => g) fs code)) = length fs.
Proof.
  induction fs as [|f fs IH]; intro code; [reflexivity|]. cbn [link_funs]. destruct (emit (pf_code f) code) as [c st] eqn:E.
  destruct (link_funs (fun g => g) fs c) as [c' t] eqn:E2. cbn. f_equal. specialize (IH c). now rewrite E2 in IH.
Qed.

(** the code of a line *)
Definition l_list (lv0 : list (nat * bool)) (b : stmts) : cs := cstmts true 0 None b (CS g_new false lv0 []).
Lemma open_new lv0 : isopen (cg (CS g_new false lv0 [])). Proof. exists [], []. reflexivity. Qed.
Lemma l_list_open lv0 b : isopen (cg (l_list lv0 b)).
Proof. eapply cgrow_open. apply (proj1 (proj2 stmt_grow) b true 0 None). apply open_new. Qed.
Lemma cline_grow lv0 b : cgrow (l_list lv0 b) (cline lv0 b).
Proof.
  pose proof (l_list_open lv0 b) as O. unfold cline. fold (l_list lv0 b). unfold cline_end. destruct (delay (l_list lv0 b)).
  - eapply cgrow_trans; [apply cgrow_push; exact O|]. pose proof (cgrow_open _ _ (cgrow_push (OConst (HNative NF_Print)) _ O)) as O1.
    eapply cgrow_trans; [apply cgrow_push; exact O1|]. pose proof (cgrow_open _ _ (cgrow_push OSwap _ O1)) as O2.
    eapply cgrow_trans; [apply cgrow_push; exact O2|]. pose proof (cgrow_open _ _ (cgrow_push (OCall 1 false) _ O2)) as O3.
    eapply cgrow_trans; [apply cgrow_push; exact O3|]. apply cgrow_push. exact (cgrow_open _ _ (cgrow_push OPop _ O3)).
  - apply cgrow_push. exact O.
Qed.
Lemma cline_ne lv0 b : cg (cline lv0 b) <> [].
Proof. destruct (cgrow_open _ _ (cline_grow lv0 b)) as (a & c & E). intro H. unfold opn in E. rewrite H in E. destruct a; discriminate. Qed.
Lemma lv_cline lv0 b : lv (cline lv0 b) = lv (l_list lv0 b).
Proof. unfold cline, cline_end. fold (l_list lv0 b). now destruct (delay (l_list lv0 b)). Qed.

Lemma decls_declared b : decls b = declared b. Proof. induction b; cbn; auto. Qed.

(** what is known after a line was added *)
Lemma add_rel FS ls s l r : rel FS ls s r -> forallb okF (l_funs l) = true -> (Z.of_nat (length (r_code P (add_line P l r))) < 2147483648)%Z ->
  let r' := add_line P l r in
  units (r_code P r') (r_funs P r') (FS ++ l_funs l) /\ length (r_funs P r') = length (FS ++ l_funs l) /\ r_vm P r' = r_vm P r /\
  r_lv P r' = lv (l_list (r_lv P r) (l_main l)) /\ exists sta, laid (r_code P r') (cg (cline (r_lv P r) (l_main l))) sta /\ nth 0 sta 0 = length (r_code P r).
Proof.
  intros [Ru Rl Rd Rv] Ok L. cbv zeta. unfold add_line in *.
  destruct (emit (cg (cline (r_lv P r) (l_main l))) (r_code P r)) as [c0 st0] eqn:E0. cbn [fst] in *.
  pose proof (link_len (map cfun (l_funs l)) c0) as LL. rewrite map_length in LL.
  destruct (link_funs (fun g => g) (map cfun (l_funs l)) c0) as [CC TT] eqn:E1. cbn [r_code r_funs r_vm r_lv snd] in *.
  destruct (link_funs_prefix (fun g => g) (map cfun (l_funs l)) c0) as [x X]. rewrite E1 in X. cbn [fst] in X. subst CC.
  destruct (emit_prefix _ _ _ _ E0) as [y Y].
  split; [|split; [|split; [|split]]].
  - intros f sf Hf. destruct (Nat.lt_ge_cases f (length FS)) as [Lt|Ge].
    + rewrite nth_error_app1 in Hf by exact Lt. destruct (Ru f sf Hf) as (fu & sta & U). exists fu, sta. rewrite Y, <- app_assoc. now apply unit_app.
    + rewrite nth_error_app2 in Hf by exact Ge. rewrite forallb_forall in Ok.
      destruct (link_units (l_funs l) c0 _ TT E1 L Ok _ _ Hf) as (fu & sta & [A B D E F G I]). exists fu, sta. split; auto.
      rewrite nth_error_app2 by lia. rewrite Rl. exact B.
  - rewrite !app_length. lia.
  - reflexivity.
  - apply lv_cline.
  - exists st0. split.
    + apply laid_app. eapply emit_laid; [exact E0|]. rewrite app_length in L. lia.
    + eapply emit_start0; [exact E0|apply cline_ne].
Qed.

Lemma yield_line C T m n : nth_error C (ip P m) = Some OYield -> run_line P C T (strict_step P) (S n) 0 m = Some (LYield P (set_ip P (S (ip P m)) m)).
Proof. intro H. cbn [run_line]. rewrite H. reflexivity. Qed.

Lemma enter_of r l m : (exists n, run_line P (r_code P (add_line P l r)) (nth_error (r_funs P (add_line P l r))) (strict_step P) n 0 (r_vm P r) = Some (LYield P m)) ->
  r_vm P (add_line P l r) = r_vm P r ->
  let r' := add_line P l r in
  exists n, enter P report n l r = Some (Done P (Session P (r_code P r') (r_funs P r') (r_lv P r') (recover P (length (r_lv P r')) (length (r_code P r')) m))).
Proof.
  intros [n H] Ev. cbv zeta. exists n. unfold enter. rewrite Ev. apply line_plain in H; [|discriminate]. change (fun i => nth_error (r_funs P (add_line P l r)) i) with (nth_error (r_funs P (add_line P l r))). rewrite H. reflexivity.
Qed.

(** one line *)
Lemma line_sim FS ls s l r : rel FS ls s r -> forallb okF (l_funs l) = true -> okB (length ls) [] [] None false false (l_main l) = true ->
  (Z.of_nat (length (r_code P (add_line P l r))) < 2147483648)%Z ->
  (forall ls' s', goes_on P (FS ++ l_funs l) ls s (l_main l) ls' s' ->
     exists n r', enter P report n l r = Some (Done P r') /\ rel (FS ++ l_funs l) ls' s' r' /\ length ls' = length ls + declared (l_main l) /\
       r_code P r' = r_code P (add_line P l r) /\ r_funs P r' = r_funs P (add_line P l r) /\ r_lv P r' = r_lv P (add_line P l r)) /\
  (forall e w, stops P (FS ++ l_funs l) ls s (l_main l) e w ->
     exists N, run P (r_code P (add_line P l r)) (nth_error (r_funs P (add_line P l r))) (strict_step P) N 0 (r_vm P r) = Some (VErr P e w)).
Proof.
  intros R Okf Okb L. pose proof (add_rel _ _ _ l _ R Okf L) as AR. cbv zeta in AR.
  destruct AR as (HU & HLen & Ev & Elv & sta & HL & H0).
  destruct R as [Ru Rl Rd (new0 & h0 & -> & Eg0 & Ln0 & Vm0 & I0 & Cp0)].
  set (r' := add_line P l r) in *. set (C := r_code P r') in *. set (T := nth_error (r_funs P r')) in *. set (FS' := FS ++ l_funs l) in *.
  set (G := cg (cline (r_lv P r) (l_main l))) in *. set (c0 := CS g_new false (r_lv P r) []).
  pose proof (open_new (r_lv P r)) as O0. fold c0 in O0.
  pose proof (cline_grow (r_lv P r) (l_main l)) as Gr. pose proof (l_list_open (r_lv P r) (l_main l)) as O1.
  assert (FG : CompFlow.fits G G) by apply fits_self.
  assert (F1 : CompFlow.fits (cg (l_list (r_lv P r) (l_main l))) G) by (eapply fits_cgrow; [exact Gr|exact FG]).
  assert (Hy : hyps P 0 fs0 (LX None None 0 0) 0 (Frame (map Some new0) []) [] [] s (map SVar new0) h0 c0).
  { split; [exact O0| |exact Rd|intros ? []|exact Logic.I]. split; auto.
    - split; [exact I0| |split; cbn [locals up]; [|intros; discriminate|congruence]|reflexivity].
      + intros i x Hx. rewrite Eg0 in Hx. rewrite nth_error_map, Hx. reflexivity.
      + intros i x Hx. rewrite nth_error_map in *. cbn [Nat.add]. destruct (nth_error new0 i); [|discriminate]. cbn in *. congruence.
    - cbn [lv c0]. rewrite map_length. exact Ln0.
    - cbn [locals lv c0]. rewrite map_length. exact Ln0.
    - intros ? []. }
  assert (EM : mk P fs0 [] [] (CompFlow.here sta (cg c0)) s (map SVar new0) h0 = r_vm P r).
  { unfold here, last_code. change (nth (length (cg c0) - 1) sta 0) with (nth 0 sta 0). rewrite H0, Vm0. cbn [cg c0 g_new last length]. rewrite Nat.add_0_r. reflexivity. }
  assert (Gk : gok P 0 false true (LX None None 0 0) (Frame (map Some new0) []) s).
  { intros _. split; [reflexivity|]. cbn [locals]. rewrite map_length, Eg0. repeat split. }
  rewrite map_length in Okb. rewrite Ln0 in Okb.
  assert (SIM : forall n x, exec_list P (table FS') n true (Frame (map Some new0) []) None (l_main l) s = Some x ->
    esim P C T fs0 (r_vm P r) (Some x) (QL P C T G sta 0 fs0 [] [] false (LX None None 0 0) true (Frame (map Some new0) []) (map SVar new0) s h0 (capsB (l_main l)) (r_vm P r) (CompFlow.here sta (cg (l_list (r_lv P r) (l_main l)))) (decls (l_main l)) (delay (l_list (r_lv P r) (l_main l))) (brk (l_list (r_lv P r) (l_main l))) (capok 0 (lv (l_list (r_lv P r) (l_main l))) []))).
  { intros n x Hx. pose proof (a_stm _ _ _ _ _ (all_sim P C T (table FS') HU n)) as A.
    destruct (A G sta 0 fs0 [] [] true false HL eq_refl) as (_ & PL & _).
    pose proof (PL (LX None None 0 0) 0 (Frame (map Some new0) []) [] [] s (map SVar new0) h0 c0 (l_main l) None Hy eq_refl F1 Okb Gk) as X.
    cbv zeta in X. cbn [x_lc dlv andb Nat.eqb] in X. rewrite app_nil_r, EM in X. rewrite Hx in X. exact X. }
  destruct (proj1 (proj2 lv_all) (l_main l) true 0 None c0 Rd) as (fl & Lf & Ell). change (cstmts true 0 None (l_main l) c0) with (l_list (r_lv P r) (l_main l)) in Ell. cbn [lv c0] in Ell.
  (* after the statements *)
  assert (NORM : forall n ls' v s1, exec_list P (table FS') n true (Frame (map Some new0) []) None (l_main l) s = Some (Ok P _ (ONorm ls' v) s1) ->
    exists new1 h1, ls' = map Some new1 /\ globals P s1 = new1 /\ length new1 = length new0 + declared (l_main l) /\ inv P s1 (map SVar new1) h1 /\
      (forall j, capd h1 (map SVar new1) j -> flagged (r_lv P r') j) /\ isS v = delay (l_list (r_lv P r) (l_main l)) /\ length new1 = length (r_lv P r') /\
      reaches P C T fs0 (r_vm P r) (mk P fs0 [] [] (CompFlow.here sta (cg (l_list (r_lv P r) (l_main l)))) s1 (map SVar new1 ++ dlv v) h1)).
  { intros n ls' v s1 Hx. apply SIM in Hx. cbn [esim QL] in Hx. destruct Hx as (h1 & new & -> & Ln & Dv & [Iv [Cv Eve]] & Eg & Rc & Cp).
    exists (new0 ++ new), h1. cbn [locals] in *. rewrite map_app. split; [reflexivity|]. split; [rewrite Eg, Eg0; reflexivity|].
    split; [rewrite app_length, Ln, decls_declared; reflexivity|]. split; [rewrite map_app; exact Iv|].
    split; [|split; [exact Dv|split; [|rewrite map_app; exact Rc]]].
    - intros j Q. rewrite Elv. rewrite map_app in Q. destruct (Cp j Q) as [?|[]]; auto.
    - rewrite Elv, Ell, app_length, app_length, mark_len, map_length. lia. }
  (* printing *)
  assert (PRINT : forall v s1 new1 h1 n, delay (l_list (r_lv P r) (l_main l)) = true -> inv P s1 (map SVar new1) h1 -> globals P s1 = new1 ->
    match scall P (table FS') n (HNative NF_Print) [v] s1 with
    | None => True
    | Some (Er _ _ e w) => failing P C T fs0 (mk P fs0 [] [] (CompFlow.here sta (cg (l_list (r_lv P r) (l_main l)))) s1 (map SVar new1 ++ [STmp v]) h1) e w
    | Some (Ok _ _ _ s2) => exists h2, post P 0 [] (map SVar new1) s1 h1 s2 h2 /\
        reaches P C T fs0 (mk P fs0 [] [] (CompFlow.here sta (cg (l_list (r_lv P r) (l_main l)))) s1 (map SVar new1 ++ [STmp v]) h1)
          (mk P fs0 [] [] (CompFlow.here sta (cg (cline_end (l_list (r_lv P r) (l_main l))))) s2 (map SVar new1) h2)
    end).
  { intros v s1 new1 h1 n Dl Iv Eg. assert (FG0 : CompFlow.fits (cg (cpush OYield (cline_end (l_list (r_lv P r) (l_main l))))) G) by exact FG. unfold cline_end in *. rewrite Dl in *.
    set (cl := l_list (r_lv P r) (l_main l)) in *.
    set (k1 := cpush (OConst (HNative NF_Print)) cl) in *. set (k2 := cpush OSwap k1) in *. set (k3 := cpush (OCall 1 false) k2) in *. set (k4 := cpush OPop k3) in *.
    pose proof (cgrow_open _ _ (cgrow_push (OConst (HNative NF_Print)) _ O1)) as P1. fold k1 in P1.
    pose proof (cgrow_open _ _ (cgrow_push OSwap _ P1)) as P2. fold k2 in P2.
    pose proof (cgrow_open _ _ (cgrow_push (OCall 1 false) _ P2)) as P3. fold k3 in P3.
    pose proof (cgrow_open _ _ (cgrow_push OPop _ P3)) as P4. fold k4 in P4.
    assert (F4 : CompFlow.fits (cg k4) G) by (eapply f_push; [exact P4|exact FG0]).
    assert (F3 : CompFlow.fits (cg k3) G) by (eapply f_push; [exact P3|exact F4]).
    assert (F2' : CompFlow.fits (cg k2) G) by (eapply f_push; [exact P2|exact F3]).
    assert (F1' : CompFlow.fits (cg k1) G) by (eapply f_push; [exact P1|exact F2']).
    assert (St : reaches P C T fs0 (mk P fs0 [] [] (CompFlow.here sta (cg cl)) s1 (map SVar new1 ++ [STmp v]) h1)
       (mk P fs0 [] [] (CompFlow.here sta (cg k2)) s1 ((map SVar new1 ++ [STmp (HNative NF_Print)]) ++ map STmp [v]) h1)).
    { eapply reaches_trans; [eapply (go_push P C T G sta (OConst (HNative NF_Print))); [exact HL|exact O1|exact F1'|apply s_const]|].
      eapply (go_push P C T G sta OSwap); [exact HL|exact P1|exact F2'|]. apply s_swap. }
    assert (Gl : glob P s1 (map SVar new1)). { intros i x Hx. rewrite Eg in Hx. rewrite nth_error_map, Hx. reflexivity. }
    pose proof (a_scall _ _ _ _ _ (all_sim P C T (table FS') HU n)) as SC.
    pose proof (call_push P C T (table FS') n G sta 1 (cg k2) (HNative NF_Print) [v] fs0 [] [] s1 (map SVar new1) h1 0 SC HL P2 F3 Iv Gl eq_refl) as X. cbv zeta in X.
    destruct (scall P (table FS') n (HNative NF_Print) [v] s1) as [[x s2|e w]|]; [| |exact Logic.I].
    - destruct X as (h2 & Po & Rc). exists h2. split; [exact Po|]. eapply reaches_trans; [exact St|]. eapply reaches_trans; [exact Rc|].
      eapply (go_push P C T G sta OPop); [exact HL|exact P3|exact F4|apply s_pop].
    - eapply reaches_failing; [exact St|exact X]. }
  (* the end *)
  assert (FINISH : forall s2 new1 h2, globals P s2 = new1 -> length new1 = length new0 + declared (l_main l) -> length new1 = length (r_lv P r') -> inv P s2 (map SVar new1) h2 ->
    (forall j, capd h2 (map SVar new1) j -> flagged (r_lv P r') j) ->
    reaches P C T fs0 (r_vm P r) (mk P fs0 [] [] (CompFlow.here sta (cg (cline_end (l_list (r_lv P r) (l_main l))))) s2 (map SVar new1) h2) ->
    exists n r2, enter P report n l r = Some (Done P r2) /\ rel FS' (map Some new1) s2 r2 /\ length (map Some new1) = length (map Some new0) + declared (l_main l) /\
       r_code P r2 = C /\ r_funs P r2 = r_funs P r' /\ r_lv P r2 = r_lv P r').
  { intros s2 new1 h2 Eg Ln1 Ln2 Iv Cp Rc.
    assert (Oe : isopen (cg (cline_end (l_list (r_lv P r) (l_main l))))).
    { unfold cline_end. destruct (delay (l_list (r_lv P r) (l_main l))); [|exact O1].
      exact (cgrow_open _ _ (cgrow_push OPop _ (cgrow_open _ _ (cgrow_push (OCall 1 false) _ (cgrow_open _ _ (cgrow_push OSwap _ (cgrow_open _ _ (cgrow_push (OConst (HNative NF_Print)) _ O1)))))))). }
    destruct (at_push C G sta HL OYield _ Oe FG) as [CE _].
    destruct (Rc 0 ltac:(cbn; lia)) as [k [_ K2]].
    destruct (enter_of r l (set_ip P (S (CompFlow.here sta (cg (cline_end (l_list (r_lv P r) (l_main l)))))) (mk P fs0 [] [] (CompFlow.here sta (cg (cline_end (l_list (r_lv P r) (l_main l))))) s2 (map SVar new1) h2))) as [n Hn].
    { exists (k + 1). apply K2. apply yield_line. exact CE. }
    { exact Ev. }
    cbv zeta in Hn. fold r' in Hn. eexists n, _. split; [exact Hn|]. cbn [r_code r_funs r_lv].
    split; [|split; [rewrite !map_length; exact Ln1|repeat split]].
    split; cbn [r_code r_funs r_lv r_vm]; [exact HU|exact HLen| |].
    - rewrite Elv, Ell. apply depths_fl; [apply depths_mark; exact Rd|lia].
    - exists new1, h2. split; [reflexivity|]. split; [exact Eg|]. split; [exact Ln2|]. split; [|split; [exact Iv|exact Cp]].
      unfold recover. unfold CompInv.mk, set_ip. cbn [Vm.stack Vm.frames Vm.unrolls Vm.gcount Vm.opens Vm.cells Vm.envs Vm.world length Nat.sub skipn].
      rewrite <- Ln2. rewrite firstn_all2 by (unfold render; rewrite !map_length; lia). reflexivity. }
  split.
  - intros ls' s' Gn. destruct Gn as [ls' s' [n Hn]|ls' v s1 x s2 [n Hn] [k Hk]].
    + destruct (NORM _ _ _ _ Hn) as (new1 & h1 & -> & Eg & Ln1 & Iv & Cp & Dv & Ln2 & Rc). cbn [isS dlv] in *. rewrite app_nil_r in Rc.
      apply (FINISH s' new1 h1); auto. unfold cline_end. rewrite <- Dv. exact Rc.
    + destruct (NORM _ _ _ _ Hn) as (new1 & h1 & -> & Eg & Ln1 & Iv & Cp & Dv & Ln2 & Rc). cbn [isS dlv] in *.
      pose proof (PRINT v s1 new1 h1 k (eq_sym Dv) Iv Eg) as X. fold FS' in Hk. rewrite Hk in X. destruct X as (h2 & Po & Rc2).
      apply (FINISH s2 new1 h2); auto.
      * destruct (po_ext _ _ _ _ _ _ _ _ Po) as [_ Ee]. congruence.
      * apply (po_inv _ _ _ _ _ _ _ _ Po).
      * intros j Q. apply Cp. destruct (po_cap _ _ _ _ _ _ _ _ Po _ Q) as [?|[? [[] _]]]; auto.
      * eapply reaches_trans; [exact Rc|exact Rc2].
  - intros e w St. destruct St as [e w [n Hn]|ls' v s1 e w [n Hn] [k Hk]].
    + apply SIM in Hn. cbn [esim] in Hn. apply (Hn 0). cbn. lia.
    + destruct (NORM _ _ _ _ Hn) as (new1 & h1 & -> & Eg & Ln1 & Iv & Cp & Dv & Ln2 & Rc). cbn [isS dlv] in *.
      pose proof (PRINT v s1 new1 h1 k (eq_sym Dv) Iv Eg) as X. fold FS' in Hk. rewrite Hk in X.
      eapply reach_fails; [apply Rc; cbn; lia|]. apply X. cbn. lia.
Qed.

(** ** A line that fails *)
Lemma line_fails FS ls s l r e w : rel FS ls s r -> forallb okF (l_funs l) = true -> okB (length ls) [] [] None false false (l_main l) = true ->
  (Z.of_nat (length (r_code P (add_line P l r))) < 2147483648)%Z -> stops P (FS ++ l_funs l) ls s (l_main l) e w -> e <> XYield ->
  exists n x, enter P report n l r = Some x /\ ended_by P report (add_line P l r) e w x.
Proof.
  intros R Of Ob L St Ne. destruct (line_sim FS ls s l r R Of Ob L) as [_ B]. destruct (B e w St) as [N H].
  destruct (run_line_run _ _ _ _ _ _ _ H) as (x & Hx & Fx).
  assert (Xm : exists m, x = LError P e m /\ world P m = w).
  { destruct x as [m|m|e' m|]; cbn [forget] in Fx; try discriminate; [injection Fx as <- <-; congruence|]. injection Fx as -> <-. now exists m. }
  destruct Xm as (m & -> & Wm). apply line_plain in Hx; [|discriminate].
  pose proof (add_rel _ _ _ _ _ R Of L) as AR. cbv zeta in AR. destruct AR as (_ & _ & Ev & _).
  exists N. unfold enter. cbv zeta. rewrite Ev.
  change (fun i => nth_error (r_funs P (add_line P l r)) i) with (nth_error (r_funs P (add_line P l r))). rewrite Hx.
  destruct e; (eexists; split; [reflexivity|]); cbn [ended_by]; try exact Wm;
    repeat split; cbn [r_vm r_code r_funs r_lv]; try reflexivity; unfold recover, set_world; cbn [Vm.world]; congruence.
Qed.

(** ** A history *)
Definition same (a b : session P) : Prop := r_code P a = r_code P b /\ r_funs P a = r_funs P b /\ r_lv P a = r_lv P b.
Lemma same_add l a b : same a b -> same (add_line P l a) (add_line P l b).
Proof.
  intros (A & B & D). unfold add_line. rewrite A, B, D. destruct (link_funs _ _ _) as [c f]. repeat split.
Qed.
Lemma same_code ls : forall a b, same a b -> code_after P a ls = code_after P b ls.
Proof. induction ls as [|l ls IH]; intros a b H; [apply H|]. unfold code_after in *. cbn [fold_left]. apply IH, same_add, H. Qed.
Lemma add_code l r : exists x, r_code P (add_line P l r) = r_code P r ++ x.
Proof.
  unfold add_line. destruct (emit (cg (cline (r_lv P r) (l_main l))) (r_code P r)) as [c0 st0] eqn:E0. cbn [fst].
  destruct (link_funs (fun g => g) (map cfun (l_funs l)) c0) as [CC TT] eqn:E1. cbn [r_code].
  destruct (link_funs_prefix (fun g => g) (map cfun (l_funs l)) c0) as [x X]. rewrite E1 in X. cbn [fst] in X.
  destruct (emit_prefix _ _ _ _ E0) as [y Y]. exists (y ++ x). rewrite X, Y. now rewrite app_assoc.
Qed.
Lemma code_after_prefix ls : forall r, exists x, code_after P r ls = r_code P r ++ x.
Proof.
  induction ls as [|l ls IH]; intro r; [exists []; symmetry; apply app_nil_r|]. unfold code_after in *. cbn [fold_left].
  destruct (IH (add_line P l r)) as [x X]. destruct (add_code l r) as [y Y]. exists (y ++ x). rewrite X, Y. now rewrite app_assoc.
Qed.

Lemma session_sim FS0 ls0 s0 lines FS' ls' s' : history P FS0 ls0 s0 lines FS' ls' s' -> forall r, rel FS0 ls0 s0 r -> ok_lines (length ls0) lines = true ->
  (Z.of_nat (length (code_after P r lines)) < 2147483648)%Z ->
  exists r', enters P report r lines r' /\ rel FS' ls' s' r' /\ r_code P r' = code_after P r lines /\ same r' (fold_left (fun r l => add_line P l r) lines r).
Proof.
  induction 1 as [fs ls s|fs ls s l rest ls1 s1 fs2 ls2 s2 Hl Hr IH]; intros r R Ok L.
  - exists r. split; [constructor|]. split; [exact R|]. split; [reflexivity|repeat split].
  - cbn [ok_lines] in Ok. apply andb_true_iff in Ok. destruct Ok as [Ok Ok3]. apply andb_true_iff in Ok. destruct Ok as [Ok1 Ok2].
    unfold code_after in L. cbn [fold_left] in L. change (r_code P (fold_left (fun r l => add_line P l r) rest (add_line P l r))) with (code_after P (add_line P l r) rest) in L.
    assert (L1 : (Z.of_nat (length (r_code P (add_line P l r))) < 2147483648)%Z).
    { destruct (code_after_prefix rest (add_line P l r)) as [x X]. rewrite X, app_length in L. lia. }
    destruct (line_sim _ _ _ _ _ R Ok1 Ok2 L1) as [A _]. destruct (A _ _ Hl) as (n & r1 & En & R1 & Ln & C1 & F1 & V1).
    assert (Sm : same r1 (add_line P l r)) by (repeat split; assumption).
    destruct (IH r1 R1) as (r2 & E2 & R2 & C2 & S2).
    { rewrite Ln. exact Ok3. }
    { rewrite (same_code rest _ _ Sm). exact L. }
    exists r2. split; [econstructor; eauto|]. split; [exact R2|]. split.
    + rewrite C2. unfold code_after at 2. cbn [fold_left]. apply (same_code rest _ _ Sm).
    + cbn [fold_left]. assert (G : forall ls a b, same a b -> same (fold_left (fun r l => add_line P l r) ls a) (fold_left (fun r l => add_line P l r) ls b)).
      { clear. induction ls as [|l ls IH]; intros a b H; [exact H|]. cbn. apply IH, same_add, H. }
      destruct S2 as (a & b & c). destruct (G rest _ _ Sm) as (a' & b' & c'). repeat split; congruence.
Qed.

Lemma rel_init w : rel [] [] (start P w) (session_init P w).
Proof.
  split.
  - intros [|f] sf H; discriminate.
  - reflexivity.
  - intros [|] ? ? ?; discriminate.
  - exists [], (Hp [] [] [] []). split; [reflexivity|]. split; [reflexivity|]. split; [reflexivity|]. split; [reflexivity|]. split.
    + split; try reflexivity; try (intros [|] ? ?; discriminate); try (intros [|] ? ? ?; discriminate); try (intros; discriminate). constructor.
    + intros j [k [l [Q _]]]. destruct k; discriminate.
Qed.

Theorem session_ok w lines FS' ls' s' : history P [] [] (start P w) lines FS' ls' s' -> ok_lines 0 lines = true ->
  (Z.of_nat (length (code_after P (session_init P w) lines)) < 2147483648)%Z ->
  exists r, enters P report (session_init P w) lines r /\ values P ls' s' (stack P (r_vm P r)) /\ world P (r_vm P r) = sworld P s' /\ at_prompt P r.
Proof.
  intros H Ok L. destruct (session_sim _ _ _ _ _ _ _ H _ (rel_init w) Ok L) as (r & E & [Ru Rl Rd (new & h & -> & Eg & Ln & Ev & Iv & _)] & _).
  exists r. split; [exact E|]. rewrite Ev. split; [|split; [reflexivity|]].
  - unfold values, CompInv.mk, render. cbn [Vm.stack]. rewrite map_map. apply Forall2_map_both. intros l Hl.
    apply In_nth_error in Hl. destruct Hl as [k Hk]. exists l. split; [reflexivity|].
    pose proof (i_var _ _ _ _ Iv k l ltac:(rewrite nth_error_map, Hk; reflexivity)) as B. cbn [sval]. apply nth_error_nth'. exact B.
  - unfold at_prompt. rewrite Ev. unfold CompInv.mk. cbn [Vm.ip Vm.frames Vm.lits Vm.stack]. unfold render. rewrite !map_length. repeat split. exact Ln.
Qed.

Theorem session_fails w lines FS' ls' s' l e w' : history P [] [] (start P w) lines FS' ls' s' -> ok_lines 0 (lines ++ [l]) = true ->
  (Z.of_nat (length (code_after P (session_init P w) (lines ++ [l]))) < 2147483648)%Z ->
  stops P (FS' ++ l_funs l) ls' s' (l_main l) e w' -> e <> XYield ->
  exists r n x, enters P report (session_init P w) lines r /\ enter P report n l r = Some x /\ ended_by P report (add_line P l r) e w' x.
Proof.
  intros H Ok L St Ne.
  assert (OkA : forall b a n, ok_lines n (a ++ b) = true -> ok_lines n a = true).
  { clear. induction a as [|x a IH]; intros n H; [reflexivity|]. cbn in *. apply andb_true_iff in H. destruct H as [A B]. rewrite A. cbn. eauto. }
  assert (CA : code_after P (session_init P w) (lines ++ [l]) = r_code P (add_line P l (fold_left (fun r l => add_line P l r) lines (session_init P w)))).
  { unfold code_after. rewrite fold_left_app. reflexivity. }
  destruct (session_sim _ _ _ _ _ _ _ H _ (rel_init w) (OkA _ _ _ Ok)) as (r & E & R & Cr & Sm).
  { rewrite CA in L. destruct (add_code l (fold_left (fun r l => add_line P l r) lines (session_init P w))) as [x X]. rewrite X, app_length in L. unfold code_after. lia. }
  assert (OkL : forall lines fs0 ls0 s0 FS' ls' s', history P fs0 ls0 s0 lines FS' ls' s' -> ok_lines (length ls0) (lines ++ [l]) = true -> forall r, rel fs0 ls0 s0 r ->
     (Z.of_nat (length (code_after P r lines)) < 2147483648)%Z -> okB (length ls') [] [] None false false (l_main l) = true /\ forallb okF (l_funs l) = true).
  { clear - report l. intros lines fs0 ls0 s0 FS' ls' s' H. induction H as [fs ls s|fs ls s x rest ls1 s1 fs2 ls2 s2 Hl Hr IH]; intros Ok r R L.
    - cbn in Ok. rewrite andb_true_r in Ok. apply andb_true_iff in Ok. tauto.
    - cbn [app ok_lines] in Ok. apply andb_true_iff in Ok. destruct Ok as [Ok Ok3]. apply andb_true_iff in Ok. destruct Ok as [Ok1 Ok2].
      unfold code_after in L. cbn [fold_left] in L. change (r_code P (fold_left (fun r l => add_line P l r) rest (add_line P x r))) with (code_after P (add_line P x r) rest) in L.
      assert (L1 : (Z.of_nat (length (r_code P (add_line P x r))) < 2147483648)%Z).
      { destruct (code_after_prefix rest (add_line P x r)) as [y X]. rewrite X, app_length in L. lia. }
      destruct (line_sim _ _ _ _ _ R Ok1 Ok2 L1) as [A _]. destruct (A _ _ Hl) as (n & r1 & En & R1 & Ln & C1 & F1 & V1).
      assert (Sm : same r1 (add_line P x r)) by (repeat split; assumption).
      apply (IH ltac:(rewrite Ln; exact Ok3) r1 R1). rewrite (same_code rest _ _ Sm). exact L. }
  destruct (OkL _ _ _ _ _ _ _ H Ok _ (rel_init w)) as [Ob Of].
  { rewrite CA in L. destruct (add_code l (fold_left (fun r l => add_line P l r) lines (session_init P w))) as [x X]. rewrite X, app_length in L. unfold code_after. lia. }
  destruct (line_fails _ _ _ l r e w' R Of Ob) as (n & x & En & Ex); auto.
  { destruct (same_add l _ _ Sm) as (A & _ & _). rewrite A, <- CA. exact L. }
  exists r, n, x. auto.
Qed.
End sess.
