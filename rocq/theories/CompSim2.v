(** Simulation of expressions. *)
From Verif Require Import Base Native Err Vm VmProofs Graph GraphSpec GraphProofs Peep PeepSpec PeepProofs Lang LangSpec Compile CompGraph CompGraph2 CompFlow CompInv CompSim1.
Local Open Scope nat_scope.

(** ** Growth facts as hints *)
Lemma o_push o g : isopen g -> isopen (g_push o g). Proof. intro. eapply grow_open, grow_push. auto. Qed.
Lemma o_pushes os g : isopen g -> isopen (g_pushes os g). Proof. intro. eapply grow_open, grow_pushes. auto. Qed.
Lemma o_expr e g : isopen g -> isopen (cexpr e g). Proof. intro. eapply grow_open, (proj1 expr_grow). auto. Qed.
Lemma o_bf g : isopen g -> isopen (fst (g_branch_forward g)). Proof. intro. eapply grow_open, grow_bf. auto. Qed.
Lemma o_br g : isopen g -> isopen (fst (g_branch_reverse g)). Proof. intro. eapply grow_open, grow_br. auto. Qed.
Lemma o_args a un g : isopen g -> isopen (fst (cargs a un g)). Proof. intro. eapply grow_open, (proj1 (proj2 expr_grow)). auto. Qed.
Lemma o_plain a g : isopen g -> isopen (cplain a g). Proof. intro. eapply grow_open, (proj1 (proj2 expr_grow)). auto. Qed.
Lemma o_lit a acc g : isopen g -> isopen (clit a acc g). Proof. intro. eapply grow_open, (proj1 (proj2 expr_grow)). auto. Qed.
Lemma f_push o g G : isopen g -> fits (g_push o g) G -> fits g G. Proof. intros. eapply fits_grow; [|eauto]. now apply grow_push. Qed.
Lemma f_pushes os g G : isopen g -> fits (g_pushes os g) G -> fits g G. Proof. intros. eapply fits_grow; [|eauto]. now apply grow_pushes. Qed.
Lemma f_expr e g G : isopen g -> fits (cexpr e g) G -> fits g G. Proof. intros. eapply fits_grow; [|eauto]. now apply expr_grow. Qed.
Lemma f_bf g G : isopen g -> fits (fst (g_branch_forward g)) G -> fits g G. Proof. intros. eapply fits_grow; [|eauto]. now apply grow_bf. Qed.
Lemma f_br g G : isopen g -> fits (fst (g_branch_reverse g)) G -> fits g G. Proof. intros. eapply fits_grow; [|eauto]. now apply grow_br. Qed.
Lemma f_args a un g G : isopen g -> fits (fst (cargs a un g)) G -> fits g G. Proof. intros. eapply fits_grow; [|eauto]. now apply expr_grow. Qed.
Lemma f_plain a g G : isopen g -> fits (cplain a g) G -> fits g G. Proof. intros. eapply fits_grow; [|eauto]. now apply expr_grow. Qed.
Lemma f_lit a acc g G : isopen g -> fits (clit a acc g) G -> fits g G. Proof. intros. eapply fits_grow; [|eauto]. now apply expr_grow. Qed.
Create HintDb cg.
#[export] Hint Resolve o_push o_pushes o_expr o_bf o_br o_args o_plain o_lit : cg.
Ltac unlet := repeat match goal with x := _ : graph |- _ => subst x end.
Ltac oo := solve [assumption | unlet; repeat first [assumption | simple apply o_push | simple apply o_pushes | simple apply o_expr | simple apply o_bf | simple apply o_br | simple apply o_args | simple apply o_plain | simple apply o_lit]].
Ltac peel H :=
  match type of H with
  | fits (g_push _ _) _ => apply f_push in H; [|oo]
  | fits (g_pushes _ _) _ => apply f_pushes in H; [|oo]
  | fits (cexpr _ _) _ => apply f_expr in H; [|oo]
  | fits (fst (g_branch_forward _)) _ => apply f_bf in H; [|oo]
  | fits (fst (g_branch_reverse _)) _ => apply f_br in H; [|oo]
  | fits (fst (cargs _ _ _)) _ => apply f_args in H; [|oo]
  | fits (cplain _ _) _ => apply f_plain in H; [|oo]
  | fits (clit _ _ _) _ => apply f_lit in H; [|oo]
  end.
Ltac same H := match type of H with fits ?x ?G => match goal with |- fits x G => exact H end end.
Ltac fit := solve [assumption | unlet; match goal with H : fits _ ?G |- fits _ ?G => solve [let HH := fresh in pose proof H as HH; clear H; repeat first [same HH | peel HH]] end].

Local Arguments CompInv.mk : simpl never.
Section sim2.
Context (P : prims) (C : list op) (T : nat -> option func) (funs : nat -> option sfun).
Local Notation reaches := (reaches P C T).
Local Notation failing := (failing P C T).
Local Notation esim := (esim P C T).
Local Notation goes := (goes P C T).
Local Notation branches := (branches P C T).
Local Notation inv := (inv P).
Local Notation glob := (glob P).
Local Notation mk := (mk P).
Local Notation sstep := (strict_step P).
Local Notation post := (post P).
Local Notation pre := (pre P).
Local Notation M := (M P).
Local Notation st := (st P).
Local Notation invoke := (invoke P C T sstep).
Local Notation run_tree := (run_tree P C T sstep).

(** ** Results *)
Definition Res {A} (fs : list (nat * nat)) (m0 : vm P) (F : nat) (L : list nat) (K : list slot) (s : st) (h : hp) (f : A -> st -> hp -> vm P) : A -> st -> Prop :=
  fun a s' => exists h', post F L K s h s' h' /\ reaches fs m0 (f a s' h').

Lemma esim_seq {A B} fs m0 (r : M A) (k : A -> st -> M B) F L1 L2 K s h f1 f2 :
  esim fs m0 r (Res fs m0 F L1 K s h f1) ->
  (forall a s1 h1, post F L1 K s h s1 h1 -> esim fs (f1 a s1 h1) (k a s1) (Res fs (f1 a s1 h1) F L2 K s1 h1 f2)) ->
  esim fs m0 (bind P r k) (Res fs m0 F (L1 ++ L2) K s h f2).
Proof.
  intros H I. eapply esim_bind; [exact H|]. intros a s1 [h1 [Po R]]. eapply esim_step; [exact R|exact (I a s1 h1 Po)|].
  intros b s2 [h2 [Po2 R2]]. exists h2. split; [eapply post_trans; eauto|]. eapply reaches_trans; eauto.
Qed.
Lemma esim_pre {A} fs m0 m1 (r : M A) F L K s h f : reaches fs m0 m1 -> esim fs m1 r (Res fs m1 F L K s h f) -> esim fs m0 r (Res fs m0 F L K s h f).
Proof. intros R H. eapply esim_step; [exact R|exact H|]. intros a s' [h' [Po R']]. exists h'. split; auto. eapply reaches_trans; eauto. Qed.
Lemma esim_post {A} fs m0 (r : M A) F L K s h (f1 f2 : A -> st -> hp -> vm P) : esim fs m0 r (Res fs m0 F L K s h f1) ->
  (forall a s' h', post F L K s h s' h' -> reaches fs (f1 a s' h') (f2 a s' h')) -> esim fs m0 r (Res fs m0 F L K s h f2).
Proof. intros H I. eapply esim_step; [apply reaches_refl|exact H|]. intros a s' [h' [Po R']]. exists h'. split; auto. eapply reaches_trans; eauto. Qed.
Lemma esim_incl {A} fs m0 (r : M A) F L L' K s h f : esim fs m0 r (Res fs m0 F L K s h f) -> (forall i, In i L -> In i L') -> esim fs m0 r (Res fs m0 F L' K s h f).
Proof. intros H I. eapply esim_step; [apply reaches_refl|exact H|]. intros a s' [h' [Po R']]. exists h'. split; auto. eapply post_incl; eauto. Qed.
Lemma esim_untmps {A} fs m0 (r : M A) F L K vs s h f : esim fs m0 r (Res fs m0 F L (K ++ map STmp vs) s h f) -> esim fs m0 r (Res fs m0 F L K s h f).
Proof. intros H. eapply esim_step; [apply reaches_refl|exact H|]. intros a s' [h' [Po R']]. exists h'. split; auto. eapply post_untmps; eauto. Qed.
Lemma esim_untmp {A} fs m0 (r : M A) F L K v s h f : esim fs m0 r (Res fs m0 F L (K ++ [STmp v]) s h f) -> esim fs m0 r (Res fs m0 F L K s h f).
Proof. apply (esim_untmps fs m0 r F L K [v]). Qed.
Lemma esim_ret {A} fs m0 (a : A) F K s h f : inv s K h -> reaches fs m0 (f a s h) -> esim fs m0 (ret P a s) (Res fs m0 F [] K s h f).
Proof. intros I R. exists h. split; auto. now apply post_refl. Qed.
Lemma esim_retw {A} fs m0 (a : A) w F K s h f : inv s K h -> reaches fs m0 (f a (with_world P w s) h) -> esim fs m0 (ret P a (with_world P w s)) (Res fs m0 F [] K s h f).
Proof. intros I R. exists h. split; auto. now apply post_world. Qed.
(** the state changed before the computation *)
Lemma esim_after {A} fs m0 (r : M A) F L0 L K s0 h0 s h f : post F L0 K s0 h0 s h -> esim fs m0 r (Res fs m0 F L K s h f) -> esim fs m0 r (Res fs m0 F (L0 ++ L) K s0 h0 f).
Proof. intros Po H. eapply esim_step; [apply reaches_refl|exact H|]. intros a s' [h' [Po2 R']]. exists h'. split; auto. eapply post_trans; eauto. Qed.

(** ** Statements of the simulation *)
Definition P_eval (n : nat) : Prop := forall G sta fr F fs li un e s K h g, laid C G sta -> isopen g -> fits (cexpr e g) G -> pre fr F fs K s h ->
  let m0 := mk fs li un (here sta g) s K h in
  esim fs m0 (eval P funs n fr e s) (Res fs m0 F (capsE e) K s h (fun v s' h' => mk fs li un (here sta (cexpr e g)) s' (K ++ [STmp v]) h')).
Definition P_plain (n : nat) : Prop := forall G sta fr F fs li un a s K h g, laid C G sta -> isopen g -> fits (cplain a g) G -> pre fr F fs K s h ->
  let m0 := mk fs li un (here sta g) s K h in
  esim fs m0 (eval_plain P funs n fr a s) (Res fs m0 F (capsA a) K s h (fun vs s' h' => mk fs li un (here sta (cplain a g)) s' (K ++ map STmp vs) h')).
Definition uns (b : bool) (u : Z) (un : list Z) : list Z := if b then u :: un else un.
Definition P_args (n : nat) : Prop := forall G sta fr F fs li un a b u s K h g, laid C G sta -> isopen g -> fits (fst (cargs a b g)) G -> pre fr F fs K s h ->
  (b = false -> u = 0%Z) ->
  let m0 := mk fs li (uns b u un) (here sta g) s K h in
  esim fs m0 (eval_args P funs n fr a s) (fun vs s' => (snd (cargs a b g) = false -> length vs = n_args a) /\
    Res fs m0 F (capsA a) K s h (fun vs s' h' =>
      mk fs li (uns (snd (cargs a b g)) (u + Z.of_nat (length vs) - Z.of_nat (n_args a))%Z un) (here sta (fst (cargs a b g))) s' (K ++ map STmp vs) h') vs s').
Definition P_chain (n : nat) : Prop := forall G sta fr F fs li un l r bs s K h g g0, laid C G sta -> grow g0 g -> brs_in g0 g bs -> fits (ccmps r bs g) G -> pre fr F fs K s h ->
  let m0 := mk fs li un (here sta g) s (K ++ [STmp l]) h in
  esim fs m0 (eval_chain P funs n fr l r s) (Res fs m0 F (capsC r) K s h (fun v s' h' => mk fs li un (here sta (ccmps r bs g)) s' (K ++ [STmp v]) h')).
Definition P_lit (n : nat) : Prop := forall G sta fr F fs li un l pend a s K h g, laid C G sta -> isopen g -> fits (clit a (length pend) g) G -> pre fr F fs K s h ->
  let m0 := mk fs (l :: li) un (here sta g) s (K ++ map STmp pend) h in
  esim fs m0 (eval_lit P funs n fr l pend a s) (Res fs m0 F (capsA a) K s h (fun l' s' h' => mk fs (l' :: li) un (here sta (clit a (length pend) g)) s' K h')).

(** builtins: all frames are left alone *)
Definition P_tree (n : nat) : Prop := forall t s K h fs li un i, inv s K h -> glob s K ->
  match stree P funs n t s with
  | None => True
  | Some (Er _ _ e w) => exists N, run_tree N t (mk fs li un i s K h) = Some (TFail P e w)
  | Some (Ok _ _ v s') => exists N h', run_tree N t (mk fs li un i s K h) = Some (TVal P (mk fs li un i s' K h') v) /\ post 0 [] K s h s' h'
  end.
(** a pushed frame runs until its OReturn *)
Definition returns (fs : list (nat * nat)) (m2 : vm P) (m' : vm P) : Prop :=
  exists mr, (forall d, d < S (length fs) -> CompFlow.reach P C T d m2 mr) /\ nth_error C (ip P mr) = Some OReturn /\
    sstep OReturn (set_ip P (S (ip P mr)) mr) = Ret P m'.
Definition P_scall (n : nat) : Prop := forall fv args s K h fs li un i, inv s K h -> glob s K ->
  let m0 := mk fs li un i s ((K ++ [STmp fv]) ++ map STmp args) h in
  match scall P funs n fv args s with
  | None => True
  | Some (Er _ _ e w) => (exists N, invoke N (length args) m0 = Some (IErr P e w)) \/
      (exists N m2, invoke N (length args) m0 = Some (IUser P m2) /\ length (frames P m2) = S (length fs) /\ forall d, d < S (length fs) -> CompFlow.fails P C T d m2 e w)
  | Some (Ok _ _ v s') => exists h', post 0 [] K s h s' h' /\ let m' := mk fs li un i s' (K ++ [STmp v]) h' in
      ((exists N, invoke N (length args) m0 = Some (INative P m')) \/
       (exists N m2, invoke N (length args) m0 = Some (IUser P m2) /\ length (frames P m2) = S (length fs) /\ returns fs m2 m'))
  end.
Lemma post_nil F F' K s h s' h' : post F [] K s h s' h' -> post F' [] K s h s' h'.
Proof. intros [A B D]. split; auto. intros x H. destruct (D x H) as [?|[i [[] _]]]. auto. Qed.

(** ** Operators, calls *)
Lemma s_prim p vs fs li un i s K h : length vs = prim_arity p ->
  sstep (OPrim p) (mk fs li un i s (K ++ map STmp vs) h) = Run P (p_op P p vs (sworld P s)) (mk fs li un i s K h).
Proof.
  intros E. unfold strict_step. cbn [self_store step]. rewrite <- E, slen_mk, stack_mk, app_length, map_length.
  replace (length vs <=? length K + length vs) with true by (symmetry; apply Nat.leb_le; lia).
  rewrite top_mk, below_mk. reflexivity.
Qed.
Lemma s_peek p vs fs li un i s K h : length vs = prim_arity p ->
  sstep (OPeek p) (mk fs li un i s (K ++ map STmp vs) h) = Run P (p_op P p vs (sworld P s)) (mk fs li un i s (K ++ map STmp vs) h).
Proof.
  intros E. unfold strict_step. cbn [self_store step]. rewrite <- E, slen_mk, stack_mk, app_length, map_length.
  replace (length vs <=? length K + length vs) with true by (symmetry; apply Nat.leb_le; lia).
  rewrite top_mk. reflexivity.
Qed.
Lemma prim_sim n p vs fs li un i s K h F : P_tree n -> inv s K h -> glob s K -> length vs = prim_arity p -> nth_error C i = Some (OPrim p) ->
  let m0 := mk fs li un i s (K ++ map STmp vs) h in
  esim fs m0 (stree P funs n (p_op P p vs (sworld P s)) s) (Res fs m0 F [] K s h (fun v s' h' => mk fs li un (S i) s' (K ++ [STmp v]) h')).
Proof.
  intros IT I G E HC m0. specialize (IT (p_op P p vs (sworld P s)) s K h fs li un (S i) I G).
  destruct (stree _ _ _ _ _) as [[v s'|e w]|]; cbn [CompSim1.esim]; auto.
  - destruct IT as [N [h' [R Po]]]. exists h'. split; [eapply post_nil; eauto|]. intros d _. rewrite <- push_mk.
    eapply reach_run; [exact HC|apply s_prim; exact E|exact R].
  - destruct IT as [N R]. intros d _. eapply fails_run; [exact HC|apply s_prim; exact E|exact R].
Qed.
Lemma peek_sim n p vs fs li un i s K h F : P_tree n -> inv s K h -> glob s K -> length vs = prim_arity p -> nth_error C i = Some (OPeek p) ->
  let m0 := mk fs li un i s (K ++ map STmp vs) h in
  esim fs m0 (stree P funs n (p_op P p vs (sworld P s)) s) (Res fs m0 F [] K s h (fun v s' h' => mk fs li un (S i) s' ((K ++ map STmp vs) ++ [STmp v]) h')).
Proof.
  intros IT I G E HC m0. specialize (IT (p_op P p vs (sworld P s)) s (K ++ map STmp vs) h fs li un (S i)).
  specialize (IT (inv_same _ _ _ _ _ (tmps_same K vs) I) (glob_same _ _ _ _ (tmps_same K vs) G)).
  destruct (stree _ _ _ _ _) as [[v s'|e w]|]; cbn [CompSim1.esim]; auto.
  - destruct IT as [N [h' [R Po]]]. exists h'. split; [eapply post_nil, post_untmps; eauto|]. intros d _. rewrite <- push_mk.
    eapply reach_run; [exact HC|apply s_peek; exact E|exact R].
  - destruct IT as [N R]. intros d _. eapply fails_run; [exact HC|apply s_peek; exact E|exact R].
Qed.
Lemma call_sim n fv args fs li un un' k b i s K h F : P_scall n -> inv s K h -> glob s K -> nth_error C i = Some (OCall k b) ->
  (forall m, m = mk fs li un (S i) s ((K ++ [STmp fv]) ++ map STmp args) h ->
     sstep (OCall k b) m = Invoke P (length args) (mk fs li un' (S i) s ((K ++ [STmp fv]) ++ map STmp args) h)) ->
  let m0 := mk fs li un i s ((K ++ [STmp fv]) ++ map STmp args) h in
  esim fs m0 (scall P funs n fv args s) (Res fs m0 F [] K s h (fun v s' h' => mk fs li un' (S i) s' (K ++ [STmp v]) h')).
Proof.
  intros IC I G HC HS m0. specialize (IC fv args s K h fs li un' (S i) I G). cbv zeta in IC. specialize (HS _ eq_refl).
  destruct (scall _ _ _ _ _ _) as [[v s'|e w]|]; cbn [CompSim1.esim]; auto.
  - destruct IC as [h' [Po R]]. exists h'. split; [eapply post_nil; eauto|]. intros d Hd.
    destruct R as [[N R]|[N [m2 [R [Lf [mr [R1 [R2 R3]]]]]]]].
    + eapply reach_invoke; [exact HC|exact HS|left; exact R].
    + eapply reach_trans; [eapply reach_invoke; [exact HC|exact HS|right; exact R]|].
      eapply reach_trans; [apply R1; lia|]. eapply reach_ret; [exact R2|exact R3|]. unfold CompInv.mk. cbn [Vm.frames]. lia.
  - intros d Hd. destruct IC as [[N R]|[N [m2 [R [Lf R1]]]]].
    + eapply fails_invoke; [exact HC|exact HS|exact R].
    + eapply reach_fails; [eapply reach_invoke; [exact HC|exact HS|right; exact R]|]. apply R1. lia.
Qed.
Lemma s_call0 k fs li un i s K h : sstep (OCall k false) (mk fs li un i s K h) = Invoke P k (mk fs li un i s K h).
Proof. reflexivity. Qed.
Lemma s_call1 k z fs li un i s K h : sstep (OCall k true) (mk fs li (z :: un) i s K h) = Invoke P (Z.to_nat (Z.of_nat k + z)) (mk fs li un i s K h).
Proof. reflexivity. Qed.

(** ** Closures *)
Lemma envs_len s K h : inv s K h -> length (h_en h) = length (senvs P s).
Proof. intros I. eapply Forall2_length, (i_env _ _ _ _ I). Qed.
Definition senv (se : list (list (option nat))) (s : st) : st := St P (store P s) se (globals P s) (sworld P s).
Lemma upd_last {A} (l : list A) x y : upd (l ++ [x]) (length l) y = l ++ [y].
Proof. rewrite <- (Nat.add_0_r (length l)) at 1. induction l; simpl in *; auto. f_equal. rewrite Nat.add_0_r in *. auto. Qed.
Lemma nth_last {A} (l : list A) x : nth_error (l ++ [x]) (length l) = Some x.
Proof. now rewrite nth_error_app2, Nat.sub_diag by lia. Qed.
Lemma s_closelocal j f K0 y fs li un i s h E0 e F : let K := K0 ++ [y] in
  sval (store P s) y = HClosure f (length E0) -> h_en h = E0 ++ [e] -> fpof fs = F ->
  forall o, sstep (OCloseLocal j) (mk fs li un i s K h) =
    Go P (mk fs li un i s K (let h1 := capt (F + j) o h in Hp (h_op h1) (h_ce h1) (E0 ++ [e ++ [cap_cell (F + j) h]]) (h_phi h1))).
Proof.
  intros K Hy He Ef o. unfold strict_step. cbn [self_store step]. unfold K. rewrite with_top_mk, Hy, fp_mk, Ef.
  unfold CompInv.mk, capt, cap_cell. cbn [Vm.ip Vm.stack Vm.frames Vm.lits Vm.unrolls Vm.gcount Vm.opens Vm.cells Vm.envs Vm.world]. rewrite He, nth_last.
  destruct (assoc (F + j) (h_op h)) as [k|]; unfold set_envs, set_cells, set_opens; cbn [Vm.ip Vm.stack Vm.frames Vm.lits Vm.unrolls Vm.gcount Vm.opens Vm.cells Vm.envs Vm.world h_op h_ce h_en h_phi];
  rewrite upd_last; reflexivity.
Qed.
Lemma s_closeup j f K0 y fs li un i s h E0 e k : let K := K0 ++ [y] in
  sval (store P s) y = HClosure f (length E0) -> h_en h = E0 ++ [e] -> up_cell P j (mk fs li un i s K h) = Some k ->
  sstep (OCloseUp j) (mk fs li un i s K h) = Go P (mk fs li un i s K (Hp (h_op h) (h_ce h) (E0 ++ [e ++ [k]]) (h_phi h))).
Proof.
  intros K Hy He Hk. unfold strict_step. cbn [self_store step]. unfold K in *. rewrite with_top_mk, Hy, Hk.
  unfold CompInv.mk. cbn [Vm.ip Vm.stack Vm.frames Vm.lits Vm.unrolls Vm.gcount Vm.opens Vm.cells Vm.envs Vm.world]. rewrite He, nth_last.
  unfold set_envs. cbn [Vm.ip Vm.stack Vm.frames Vm.lits Vm.unrolls Vm.gcount Vm.opens Vm.cells Vm.envs Vm.world h_op h_ce h_en h_phi].
  rewrite upd_last. reflexivity.
Qed.
Lemma frel_senvs fr F K s s' : frel P fr F K s -> (exists l, senvs P s' = senvs P s ++ l) -> frel P fr F K s'.
Proof.
  intros [A B D] [l X]. split; auto. intros N. destruct (D N) as (b & f & c & E1 & E2 & E3). exists b, f, c. repeat split; auto.
  rewrite X, nth_error_app1; auto. apply nth_error_Some. congruence.
Qed.
Lemma close_sim fr F fs li un f K0 y D cs : let K := K0 ++ [y] in fpof fs = F ->
  forall ls' se ls s h i E0 e, inv s K h -> glob s K -> h_en h = E0 ++ [e] -> length E0 = length se -> senvs P s = se ++ [ls] ->
  frel P fr F K (senv se s) -> sval (store P s) y = HClosure f (length se) -> captured fr cs = Some ls' ->
  (forall j o, nth_error (map close_op cs) j = Some o -> nth_error C (i + j) = Some o) ->
  exists h', reaches D (mk fs li un i s K h) (mk fs li un (i + length cs) (senv (se ++ [ls ++ ls']) s) K h') /\
    inv (senv (se ++ [ls ++ ls']) s) K h' /\ capgrow F (cap_locals cs) K h h'.
Proof.
  intros K Ef. induction cs as [|c cs IH]; intros ls' se ls s h i E0 e I G He Le Hs FR Hy Hc HC; cbn [captured] in Hc.
  - injection Hc as <-. exists h. rewrite app_nil_r, Nat.add_0_r.
    assert (senv (se ++ [ls]) s = s) as -> by (unfold senv; rewrite <- Hs; now destruct s).
    split; [apply reaches_refl|split; [exact I|apply capgrow_refl]].
  - destruct (captured fr cs) as [ls1|] eqn:Ec; [|discriminate].
    assert (X : exists o h1 e1, ls' = o :: ls1 /\ reaches D (mk fs li un i s K h) (mk fs li un (S i) (senv (se ++ [ls ++ [o]]) s) K h1) /\
      inv (senv (se ++ [ls ++ [o]]) s) K h1 /\ h_en h1 = E0 ++ [e1] /\ capgrow F (cap_locals [c]) K h h1).
    { pose proof (HC 0 _ eq_refl) as HC0. rewrite Nat.add_0_r in HC0.
      rewrite <- Le in Hy.
      assert (LOC : forall j o, (forall l, o = Some l -> nth_error K (F + j) = Some (SVar l)) -> nth_error C i = Some (OCloseLocal j) ->
         exists h1 e1, reaches D (mk fs li un i s K h) (mk fs li un (S i) (senv (se ++ [ls ++ [o]]) s) K h1) /\
           inv (senv (se ++ [ls ++ [o]]) s) K h1 /\ h_en h1 = E0 ++ [e1] /\ (forall x, capd h1 K x -> capd h K x \/ (o <> None /\ x = F + j))).
      { intros j o Ho Hop. destruct (inv_capt _ _ _ _ _ _ I Ho) as [I1 E1].
        eexists. eexists. split; [|split; [|split]].
        - eapply step_go; [exact Hop|]. erewrite (s_closelocal j f K0 y _ _ _ _ _ _ _ _ _ Hy He Ef o). reflexivity.
        - cbv zeta. pose proof (inv_add_env _ _ _ _ E0 e se ls (cap_cell (F + j) h) o I1) as I2. rewrite capt_en in I2.
          exact (I2 He Hs Le E1).
        - reflexivity.
        - intros x [k [l [H1 H2]]]. cbn [h_phi] in H1. eapply capt_capd; eauto. exists k, l. auto. }
      destruct c as [j|j|j]; cbn [close_op] in HC0.
      - destruct (nth_error (locals fr) j) as [[l|]|] eqn:E; try discriminate. injection Hc as <-.
        destruct (LOC j (Some l)) as (h1 & e1 & A1 & A2 & A3 & A4); [intros l' Q; injection Q as <-; eapply (fr_loc _ _ _ _ _ FR); eauto|exact HC0|].
        exists (Some l), h1, e1. split; [reflexivity|split; [exact A1|split; [exact A2|split; [exact A3|]]]]. intros x Hx. destruct (A4 x Hx) as [?|[_ ->]]; [auto|right]. exists j. split; auto. simpl. auto.
      - destruct (nth_error (up fr) j) as [o|] eqn:E; try discriminate. injection Hc as <-.
        assert (FRs : frel P fr F K s). { destruct FR as [Z1 Z2 Z3]. split; auto. intros Z. destruct (Z3 Z) as (b & f0 & c0 & Y1 & Y2 & Y3). exists b, f0, c0. repeat split; auto.
          rewrite Hs, nth_error_app1; auto. apply nth_error_Some. cbn [senv senvs] in Y3. congruence. }
        assert (Pr : pre fr F fs K s h) by (split; auto).
        destruct (up_cell_ex P fr F fs li un (S i) s K h j o Pr E) as [k [K1 K2]].
        exists o, (Hp (h_op h) (h_ce h) (E0 ++ [e ++ [k]]) (h_phi h)), (e ++ [k]). split; [reflexivity|].
        split; [|split; [|split]].
        + eapply step_go; [exact HC0|]. erewrite (s_closeup j f K0 y); eauto. reflexivity.
        + eapply inv_add_env; eauto.
        + reflexivity.
        + intros x [k' [l [H1 H2]]]. left. exists k', l. auto.
      - injection Hc as <-. destruct (LOC j None) as (h1 & e1 & A1 & A2 & A3 & A4); [discriminate|exact HC0|].
        exists None, h1, e1. split; [reflexivity|split; [exact A1|split; [exact A2|split; [exact A3|]]]]. intros x Hx. destruct (A4 x Hx) as [?|[Q _]]; [auto|contradiction]. }
    destruct X as (o & h1 & e1 & -> & R1 & I1 & He1 & CG1).
    destruct (IH ls1 se (ls ++ [o]) (senv (se ++ [ls ++ [o]]) s) h1 (S i) E0 e1 I1 G He1 Le eq_refl) as (h2 & R2 & I2 & CG2); auto.
    { intros j o' Ho'. specialize (HC (S j) o' Ho'). rewrite <- HC. f_equal. lia. }
    exists h2. rewrite <- app_assoc in R2, I2. cbn [app] in R2, I2. split; [|split].
    + eapply reaches_trans; [exact R1|]. cbn [length]. rewrite <- Nat.add_succ_comm. exact R2.
    + exact I2.
    + change (c :: cs) with ([c] ++ cs). unfold cap_locals. rewrite flat_map_app. eapply capgrow_trans; eauto.
Qed.
Lemma s_closure f fs li un i s K h : inv s K h -> sstep OClosure (mk fs li un i s (K ++ [STmp (HFun f)]) h) =
  Go P (mk fs li un i (senv (senvs P s ++ [[]]) s) (K ++ [STmp (HClosure f (length (senvs P s)))]) (Hp (h_op h) (h_ce h) (h_en h ++ [[]]) (h_phi h))).
Proof.
  intros I. unfold strict_step. cbn [self_store step]. rewrite pop1t_mk. rewrite <- push_mk. f_equal.
  unfold push, set_stack, set_envs, CompInv.mk, senv. cbn [Vm.ip Vm.stack Vm.frames Vm.lits Vm.unrolls Vm.gcount Vm.opens Vm.cells Vm.envs Vm.world h_op h_ce h_en h_phi store globals sworld senvs].
  now rewrite (envs_len _ _ _ I).
Qed.
Lemma closure_sim fr F fs li un f c cs i s K h ls : pre fr F fs K s h -> captured fr (c :: cs) = Some ls ->
  (forall j o, nth_error (closure_ops f (c :: cs)) j = Some o -> nth_error C (i + j) = Some o) ->
  let s' := snd (new_closure P f ls s) in let v := fst (new_closure P f ls s) in
  exists h', post F (cap_locals (c :: cs)) K s h s' h' /\
    reaches fs (mk fs li un i s K h) (mk fs li un (i + length (closure_ops f (c :: cs))) s' (K ++ [STmp v]) h').
Proof.
  intros Pr Hc HC s' v. pose proof Pr as [I G FR Ef].
  assert (R0 : reaches fs (mk fs li un i s K h) (mk fs li un (S (S i)) (senv (senvs P s ++ [[]]) s) (K ++ [STmp v]) (Hp (h_op h) (h_ce h) (h_en h ++ [[]]) (h_phi h)))).
  { eapply reaches_trans.
    - eapply step_go; [|apply s_const]. specialize (HC 0 _ eq_refl). rewrite Nat.add_0_r in HC. exact HC.
    - eapply step_go; [|apply s_closure; exact I]. specialize (HC 1 _ eq_refl). rewrite Nat.add_1_r in HC. exact HC. }
  assert (I1 : inv (senv (senvs P s ++ [[]]) s) (K ++ [STmp v]) (Hp (h_op h) (h_ce h) (h_en h ++ [[]]) (h_phi h))).
  { eapply inv_same; [apply tmp_same|]. apply (inv_new_env _ _ _ _ I). }
  assert (FR1 : frel P fr F (K ++ [STmp v]) (senv (senvs P s) (senv (senvs P s ++ [[]]) s))).
  { apply frel_more. eapply frel_senvs; [exact FR|]. exists []. now rewrite app_nil_r. }
  destruct (close_sim fr F fs li un f K (STmp v) fs (c :: cs) Ef ls (senvs P s) [] _ _ (S (S i)) (h_en h) [] I1) as (h' & R & I2 & CG); auto.
  { eapply glob_same; [apply tmp_same|]. exact G. }
  { exact (envs_len _ _ _ I). }
  { intros j o H. specialize (HC (S (S j)) o H). rewrite <- HC. f_equal. lia. }
  exists h'. split.
  - apply post_untmp with (v := v). split.
    + exact I2.
    + split; [|reflexivity]. exists [ls]. reflexivity.
    + intros x Hx. apply CG in Hx. destruct Hx as [[k [l [H1 H2]]]|?]; [left; exists k, l; auto|auto].
  - eapply reaches_trans; [exact R0|]. replace (i + length (closure_ops f (c :: cs))) with (S (S i) + length (c :: cs)); [exact R|].
    unfold closure_ops. cbn [length]. rewrite map_length. cbn [length]. lia.
Qed.
End sim2.
