(** Proofs for C43: gentle expressions are only reordered carefully. *)
From Verif Require Import Base Native Err Value Ops Vm Lang LangSpec CompGraph Opt OptSpec.
Local Open Scope nat_scope.
Section opt.
Context (dec : nat -> option value) (enc : value -> hval) (to_str : value -> list Z) (fmt : list Z -> value -> result value).
Local Notation purity := (purity dec).
Local Notation purity_args := (purity_args dec).
Local Notation light := (light dec).
Local Notation light_args := (light_args dec).
Local Notation others := (others dec).
Local Notation heavy := (heavy dec).
Local Notation gentle := (gentle dec).
Local Notation gentle_args := (gentle_args dec).
Local Notation gentle_cmps := (gentle_cmps dec).
Local Notation can_reorder := (can_reorder dec).
Local Notation careful := (careful dec).
Local Notation walk g := (walk dec enc to_str fmt g).
Local Notation walk_args g := (walk_args dec enc to_str fmt g).
Local Notation walk_cmps g := (walk_cmps dec enc to_str fmt g).
Local Notation visit_native g := (visit_native dec enc to_str fmt g).
Local Notation visit_call g := (visit_call dec enc to_str fmt g).
Local Notation visit_compose_other g := (visit_compose_other dec enc to_str fmt g).
Local Notation visit_compose g := (visit_compose dec enc to_str fmt g).

Lemma light_spread a : light_args a = true -> any_spread a = false.
Proof. induction a as [|s e r IH]; [reflexivity|]. cbn [OptSpec.light_args any_spread]. rewrite !andb_true_iff. intros [[A _] B]. rewrite (IH B). now destruct s. Qed.
Lemma light_pure : (forall e, light e = true -> is_none (purity e) = false /\ heap_free e = true /\ closure_free e = true) /\
  (forall a, light_args a = true -> is_none (purity_args a) = false /\ heap_free_args a = true /\ closure_free_args a = true) /\ (forall c : cmps, True).
Proof.
  apply expr_all; auto; try discriminate.
  - intros h H. destruct h; try discriminate; try (repeat split; reflexivity). cbn in H |- *. destruct (dec _) as [[]|]; try discriminate; auto.
  - intros c e _. destruct e; try discriminate. cbn; auto.
  - intros f _ a IH H. change (awaits f (n_args a) && light_args a = true) in H. apply andb_true_iff in H as [F A].
    pose proof (light_spread a A) as S. destruct (IH A) as (P1 & P2 & P3). destruct f as [h| | | | | | | | | | | | | | | | ]; try discriminate. destruct h as [| | | | |n| | |]; try discriminate.
    change (awaits (EConst (HNative n)) (n_args a)) with (is_partial (EConst (HNative n)) (n_args a)) in F.
    cbn [Opt.purity]. rewrite S, F. split; [|split; [exact P2|exact P3]]. cbn [Opt.purity purity_const]. change (is_none (pmin PureStrong (purity_args a)) = false). now destruct (purity_args a).
  - intros a IH f _ H. change (awaits f 1 && light a = true) in H. apply andb_true_iff in H as [F A].
    destruct (IH A) as (P1 & P2 & P3). destruct f as [h| | | | | | | | | | | | | | | | ]; try discriminate. destruct h as [| | | | |n| | |]; try discriminate.
    change (awaits (EConst (HNative n)) 1) with (is_partial (EConst (HNative n)) 1) in F.
    cbn [Opt.purity]. rewrite F. split; [cbn [Opt.purity purity_const]; now destruct (purity a)|]. cbn. now rewrite P2, P3.
  - intros s e IHe r IHr H. change (negb s && light e && light_args r = true) in H. rewrite !andb_true_iff in H. destruct H as [[_ E] R].
    destruct (IHe E) as (A1 & A2 & A3), (IHr R) as (B1 & B2 & B3).
    split; [change (is_none (pmin (purity e) (purity_args r)) = false); now destruct (purity e), (purity_args r)|].
    split; [change (heap_free e && heap_free_args r = true); now rewrite A2, B2|change (closure_free e && closure_free_args r = true); now rewrite A3, B3].
Qed.
(** where one of the two is light, [can_reorder] is [careful] *)
Lemma reorder_same a b : light a = true \/ light b = true -> can_reorder a b = careful a b.
Proof.
  intro H. unfold Opt.can_reorder, OptSpec.careful. destruct H as [H|H]; apply (proj1 light_pure) in H as (A & B & C); rewrite B, C.
  - destruct (purity a); cbn in *; try discriminate; destruct (purity b); reflexivity.
  - rewrite !andb_true_r, !orb_true_r. destruct (purity b); cbn in *; try discriminate; destruct (purity a); cbn; try reflexivity.
Qed.

Lemma others_append a b : others (args_append a b) = others a + others b.
Proof. induction a as [|s e r IH]; [reflexivity|]. cbn [args_append OptSpec.others]. rewrite IH. lia. Qed.
Lemma light_append a b : light_args (args_append a b) = light_args a && light_args b.
Proof. induction a as [|s e r IH]; [reflexivity|]. change (negb s && light e && light_args (args_append r b) = negb s && light e && light_args r && light_args b). rewrite IH. now rewrite !andb_assoc. Qed.
Lemma n_append a b : n_args (args_append a b) = n_args a + n_args b.
Proof. induction a as [|s e r IH]; [reflexivity|]. cbn [args_append n_args]. rewrite IH. reflexivity. Qed.
Lemma binary_heavy o l r sw : heavy (visit_binary dec enc to_str fmt o l r sw) = 0.
Proof. unfold visit_binary. destruct (into_const dec l), (into_const dec r); [destruct sw; destruct (binary_op _ _ _ _ _); reflexivity|destruct sw; reflexivity..]. Qed.
Lemma native_two g n x y : visit_native g n (ACons false x (ACons false y ANil)) =
  match native_binop n with
  | Some o => visit_binary dec enc to_str fmt o x y false
  | None => match native_binop (native_swap n) with Some o => visit_binary dec enc to_str fmt o y x (negb (g y x)) | None => ECall (EConst (HNative n)) (ACons false x (ACons false y ANil)) end
  end.
Proof. destruct x as [h| | | | | | | | | | | | | | | | ]; try reflexivity. destruct h as [| | | | |k| | |]; try reflexivity. destruct k; reflexivity. Qed.
Lemma native_same n a : others a <= 1 -> visit_native can_reorder n a = visit_native careful n a.
Proof.
  intro H. destruct a as [|[|] x [|[|] y [|]]]; try reflexivity. rewrite !native_two. destruct (native_binop n); [reflexivity|]. destruct (native_binop (native_swap n)); [|reflexivity].
  rewrite reorder_same; [reflexivity|]. cbn [OptSpec.others] in H. destruct (light x), (light y); auto. lia.
Qed.
Lemma native_heavy g n a : heavy (visit_native g n a) <= others a.
Proof.
  assert (D : heavy (ECall (EConst (HNative n)) a) <= others a) by (cbn; lia).
  destruct a as [|[|] x [|[|] y [|]]]; try exact D.
  - unfold Opt.visit_native. destruct x as [h| | | | | | | | | | | | | | | | ]; try exact D. destruct h as [| | | | |k| | |]; try exact D. destruct k; try exact D. destruct n; try exact D; cbn; lia.
  - unfold Opt.visit_native. destruct x as [h| | | | | | | | | | | | | | | | ]; try exact D. destruct h as [| | | | |k| | |]; try exact D. destruct k; exact D.
  - unfold Opt.visit_native. destruct x as [h| | | | | | | | | | | | | | | | ]; try exact D. destruct h as [| | | | |k| | |]; try exact D. destruct k; exact D.
  - rewrite native_two. destruct (native_binop n); [rewrite binary_heavy; lia|]. destruct (native_binop (native_swap n)); [rewrite binary_heavy; lia|exact D].
  - unfold Opt.visit_native. destruct x as [h| | | | | | | | | | | | | | | | ]; try exact D. destruct h as [| | | | |k| | |]; try exact D. destruct k; exact D.
Qed.
Lemma native_light g n a : awaits (EConst (HNative n)) (n_args a) = true -> visit_native g n a = ECall (EConst (HNative n)) a.
Proof.
  intro H. destruct a as [|[|] x [|[|] y [|]]]; try reflexivity.
  - unfold Opt.visit_native. destruct x as [h| | | | | | | | | | | | | | | | ]; try reflexivity. destruct h as [| | | | |k| | |]; try reflexivity. destruct k; try reflexivity. destruct n; try reflexivity; discriminate.
  - unfold Opt.visit_native. destruct x as [h| | | | | | | | | | | | | | | | ]; try reflexivity. destruct h as [| | | | |k| | |]; try reflexivity. destruct k; reflexivity.
  - unfold Opt.visit_native. destruct x as [h| | | | | | | | | | | | | | | | ]; try reflexivity. destruct h as [| | | | |k| | |]; try reflexivity. destruct k; reflexivity.
  - rewrite native_two. cbn [n_args] in H. destruct (native_binop n) eqn:B; [destruct n; discriminate|]. destruct (native_binop (native_swap n)) eqn:B'; [|reflexivity]. destruct n; discriminate.
  - unfold Opt.visit_native. destruct x as [h| | | | | | | | | | | | | | | | ]; try reflexivity. destruct h as [| | | | |k| | |]; try reflexivity. destruct k; reflexivity.
Qed.
Lemma call_same f a : heavy f + others a <= 1 -> visit_call can_reorder f a = visit_call careful f a.
Proof.
  intro H. unfold Opt.visit_call. destruct f as [h| | | | |g inner| | | | | | | | | | | ]; try reflexivity.
  - destruct h; try reflexivity. apply native_same. cbn in H. lia.
  - destruct g as [h| | | | | | | | | | | | | | | | ]; try reflexivity. destruct h; try reflexivity. destruct (_ && _); [|reflexivity]. apply native_same. rewrite others_append. cbn in H. lia.
Qed.
Lemma call_heavy g f a : heavy (visit_call g f a) <= heavy f + others a.
Proof.
  unfold Opt.visit_call. assert (D : heavy (ECall f a) <= heavy f + others a) by (cbn; lia). destruct f as [h| | | | |k inner| | | | | | | | | | | ]; try exact D.
  - destruct h; try exact D. cbn [OptSpec.heavy]. apply native_heavy.
  - destruct k as [h| | | | | | | | | | | | | | | | ]; try exact D. destruct h as [| | | | |n| | |]; try exact D. destruct (_ && _); [|exact D]. eapply Nat.le_trans; [apply native_heavy|]. rewrite others_append. cbn. lia.
Qed.
Lemma other_same a f : heavy f + (if light a then 0 else 1) <= 1 -> light a = true \/ light f = true -> visit_compose_other can_reorder a f = visit_compose_other careful a f.
Proof.
  intros H L. unfold Opt.visit_compose_other. rewrite (reorder_same f a) by tauto. destruct (careful f a); [|reflexivity]. apply call_same. cbn [OptSpec.others]. lia.
Qed.
Lemma compose_same a f : heavy f + (if light a then 0 else 1) <= 1 -> light a = true \/ light f = true -> visit_compose can_reorder a f = visit_compose careful a f.
Proof.
  intros H L. pose proof (other_same a f H L) as D. unfold Opt.visit_compose. destruct f as [| | | | | | |p items| | |t items| | | | | | ]; try exact D.
  - destruct p; try exact D; reflexivity.
  - destruct t; try exact D. destruct (any_spread items); [exact D|reflexivity].
Qed.
Lemma other_heavy g a f : heavy (visit_compose_other g a f) <= heavy f + (if light a then 0 else 1).
Proof.
  unfold Opt.visit_compose_other. destruct (g f a); [eapply Nat.le_trans; [apply call_heavy|cbn; lia]|].
  assert (D : heavy (ECompose a f) <= heavy f + (if light a then 0 else 1)) by (cbn; lia).
  destruct f as [h| | | | |k inner| | | | | | | | | | | ]; try exact D. destruct k as [h| | | | | | | | | | | | | | | | ]; try exact D. destruct h as [| | | | |n| | |]; try exact D.
  destruct inner as [|[|] r [|]]; try exact D. destruct (is_operator n); [|exact D]. destruct (native_binop n); [cbn; lia|]. destruct (native_binop (native_swap n)); cbn; lia.
Qed.
Lemma compose_heavy g a f : heavy (visit_compose g a f) <= heavy f + (if light a then 0 else 1).
Proof.
  pose proof (other_heavy g a f) as D. unfold Opt.visit_compose. destruct f as [| | | | | | |p items| | |t items| | | | | | ]; try exact D.
  - destruct p; try exact D; cbn; lia.
  - destruct t; try exact D. destruct (any_spread items); [exact D|]. destruct items as [|? ? [|]]; cbn; lia.
Qed.

Local Notation walk1 := (walk can_reorder).
Local Notation args1 := (walk_args can_reorder).
Local Notation cmps1 := (walk_cmps can_reorder).
Local Notation walk2 := (walk careful).
Local Notation args2 := (walk_args careful).
Local Notation cmps2 := (walk_cmps careful).
Definition goodE e := gentle e = true -> walk1 e = walk2 e /\ heavy (walk1 e) <= heavy e /\ (light e = true -> light (walk1 e) = true).
Definition goodA a := gentle_args a = true -> args1 a = args2 a /\ others (args1 a) <= others a /\ (light_args a = true -> light_args (args1 a) = true) /\ n_args (args1 a) = n_args a.
Definition goodC c := gentle_cmps c = true -> cmps1 c = cmps2 c.
Lemma walk_one g o x : walk g (EPrim (PUnary o) (ACons false x ANil)) = visit_unary dec enc o (walk g x). Proof. reflexivity. Qed.
Lemma walk_two g o x y : walk g (EPrim (PBinary o) (ACons false x (ACons false y ANil))) = visit_binary dec enc to_str fmt o (walk g x) (walk g y) false. Proof. reflexivity. Qed.
Lemma walk_cons g s e r : walk_args g (ACons s e r) = ACons s (walk g e) (walk_args g r). Proof. reflexivity. Qed.
Lemma good_all : (forall e, goodE e) /\ (forall a, goodA a) /\ (forall c, goodC c).
Proof.
  apply expr_all; unfold goodE, goodA, goodC.
  - intros; repeat split; auto.
  - intros; repeat split; auto.
  - intros; repeat split; auto.
  - intros; repeat split; auto.
  - intros; repeat split; auto.
  - intros f IHf a IHa G. change ((heavy f + others a <=? 1) && gentle f && gentle_args a = true) in G. rewrite !andb_true_iff in G. destruct G as [[L Gf] Ga]. apply Nat.leb_le in L.
    destruct (IHf Gf) as (A1 & A2 & A3), (IHa Ga) as (B1 & B2 & B3 & B4).
    change (walk1 (ECall f a)) with (visit_call can_reorder (walk1 f) (args1 a)). change (walk2 (ECall f a)) with (visit_call careful (walk2 f) (args2 a)). rewrite <- A1, <- B1. split; [|split].
    + apply call_same. lia.
    + eapply Nat.le_trans; [apply call_heavy|]. cbn. lia.
    + intro H. change (awaits f (n_args a) && light_args a = true) in H. apply andb_true_iff in H as [F A].
      destruct f as [h| | | | | | | | | | | | | | | | ]; try discriminate. destruct h as [| | | | |n| | |]; try discriminate. change (walk1 (EConst (HNative n))) with (EConst (HNative n)). cbn [Opt.visit_call].
      rewrite native_light by (now rewrite B4). change (awaits (EConst (HNative n)) (n_args (args1 a)) && light_args (args1 a) = true). now rewrite B4, F, B3.
  - intros a IHa f IHf G. change ((heavy f + (if light a then 0 else 1) <=? 1) && (light a || light f) && gentle a && gentle f = true) in G. rewrite !andb_true_iff in G. destruct G as [[[L O] Ga] Gf]. apply Nat.leb_le in L. apply orb_true_iff in O.
    destruct (IHf Gf) as (A1 & A2 & A3), (IHa Ga) as (B1 & B2 & B3).
    change (walk1 (ECompose a f)) with (visit_compose can_reorder (walk1 a) (walk1 f)). change (walk2 (ECompose a f)) with (visit_compose careful (walk2 a) (walk2 f)). rewrite <- A1, <- B1.
    assert (M : heavy (walk1 f) + (if light (walk1 a) then 0 else 1) <= heavy f + (if light a then 0 else 1)).
    { destruct (light a); [rewrite B3 by reflexivity; lia|]. destruct (light (walk1 a)); lia. }
    split; [|split].
    + apply compose_same; [lia|]. destruct O; auto.
    + eapply Nat.le_trans; [apply compose_heavy|exact M].
    + intro H. change (awaits f 1 && light a = true) in H. apply andb_true_iff in H as [F A].
      destruct f as [h| | | | | | | | | | | | | | | | ]; try discriminate. destruct h as [| | | | |n| | |]; try discriminate. change (walk1 (EConst (HNative n))) with (EConst (HNative n)). cbn [Opt.visit_compose].
      unfold Opt.visit_compose_other. change (can_reorder (EConst (HNative n)) (walk1 a)) with true. cbn [Opt.visit_call]. rewrite native_light by exact F.
      change (awaits (EConst (HNative n)) 1 && light_args (ACons false (walk1 a) ANil) = true). rewrite F. change (light (walk1 a) && true = true). now rewrite B3.
  - intros p a IHa G. change (gentle_args a = true) in G. destruct (IHa G) as (B1 & B2 & B3 & B4). split; [|split; [|discriminate]].
    + assert (D : EPrim p (args1 a) = EPrim p (args2 a)) by (now rewrite B1).
      destruct p; try exact D; destruct a as [|[|] x [|[|] y [|]]]; try exact D.
      * rewrite !walk_one. rewrite !walk_cons in B1. now injection B1 as ->.
      * rewrite !walk_two. rewrite !walk_cons in B1. now injection B1 as -> ->.
    + apply Nat.eq_le_incl. destruct p; try reflexivity; destruct a as [|[|] x [|[|] y [|]]]; try reflexivity.
      * rewrite walk_one. unfold visit_unary. destruct (into_const dec (walk1 x)); [destruct (unary_op _ _)|]; reflexivity.
      * rewrite walk_two. apply binary_heavy.
  - intros o a IHa b IHb G. change (gentle a && gentle b = true) in G. apply andb_true_iff in G as [Ga Gb]. destruct (IHa Ga) as (A1 & _), (IHb Gb) as (B1 & _).
    change (walk1 (EBinSwap o a b)) with (visit_binary dec enc to_str fmt o (walk1 a) (walk1 b) true). change (walk2 (EBinSwap o a b)) with (visit_binary dec enc to_str fmt o (walk2 a) (walk2 b) true). rewrite A1, B1, binary_heavy. repeat split; [lia|discriminate].
  - intros a IHa c b IHb r IHr G. change (gentle a && gentle b && gentle_cmps r = true) in G. rewrite !andb_true_iff in G. destruct G as [[Ga Gb] Gr]. destruct (IHa Ga) as (A1 & _), (IHb Gb) as (B1 & _). specialize (IHr Gr).
    split; [change (ECompare (walk1 a) c (walk1 b) (cmps1 r) = ECompare (walk2 a) c (walk2 b) (cmps2 r)); now rewrite A1, B1, IHr|]. split; [cbn; lia|discriminate].
  - intros t a IHa G. change (gentle_args a = true) in G. destruct (IHa G) as (A1 & _). split; [change (ELit t (args1 a) = ELit t (args2 a)); now rewrite A1|]. split; [cbn; lia|discriminate].
  - intros a IHa b IHb G. change (gentle a && gentle b = true) in G. apply andb_true_iff in G as [Ga Gb]. destruct (IHa Ga) as (A1 & _), (IHb Gb) as (B1 & _).
    split; [change (EAnd (walk1 a) (walk1 b) = EAnd (walk2 a) (walk2 b)); now rewrite A1, B1|]. split; [cbn; lia|discriminate].
  - intros a IHa b IHb G. change (gentle a && gentle b = true) in G. apply andb_true_iff in G as [Ga Gb]. destruct (IHa Ga) as (A1 & _), (IHb Gb) as (B1 & _).
    split; [change (EOr (walk1 a) (walk1 b) = EOr (walk2 a) (walk2 b)); now rewrite A1, B1|]. split; [cbn; lia|discriminate].
  - intros c IHc a IHa b IHb G. change (gentle c && gentle a && gentle b = true) in G. rewrite !andb_true_iff in G. destruct G as [[Gc Ga] Gb]. destruct (IHc Gc) as (C1 & _), (IHa Ga) as (A1 & A2 & _), (IHb Gb) as (B1 & B2 & _).
    change (walk1 (EIf c a b)) with (visit_if dec (walk1 c) (walk1 a) (walk1 b)). change (walk2 (EIf c a b)) with (visit_if dec (walk2 c) (walk2 a) (walk2 b)). rewrite <- C1, <- A1, <- B1. split; [reflexivity|]. split; [|discriminate]. unfold visit_if. cbn [OptSpec.heavy].
    destruct (into_const dec (walk1 c)) as [x|]; [destruct (to_bool x); lia|]. cbn [OptSpec.heavy]. lia.
  - intros a IHa i b IHb o G. change (gentle a && gentle b = true) in G. apply andb_true_iff in G as [Ga Gb]. destruct (IHa Ga) as (A1 & _), (IHb Gb) as (B1 & _).
    split; [change (ESwapField (walk1 a) i (walk1 b) o = ESwapField (walk2 a) i (walk2 b) o); now rewrite A1, B1|]. split; [cbn; lia|discriminate].
  - intros a IHa b IHb o c IHc G. change (gentle a && gentle b && gentle c = true) in G. rewrite !andb_true_iff in G. destruct G as [[Ga Gb] Gc]. destruct (IHc Gc) as (C1 & _), (IHa Ga) as (A1 & _), (IHb Gb) as (B1 & _).
    split; [change (EArrayOp (walk1 a) (walk1 b) o (walk1 c) = EArrayOp (walk2 a) (walk2 b) o (walk2 c)); now rewrite A1, B1, C1|]. split; [cbn; lia|discriminate].
  - intros x e IHe G. change (gentle e = true) in G. destruct (IHe G) as (A1 & _). split; [change (EAssign x (walk1 e) = EAssign x (walk2 e)); now rewrite A1|]. split; [cbn; lia|discriminate].
  - intros; repeat split; auto.
  - intros s e IHe r IHr G. change (gentle e && gentle_args r = true) in G. apply andb_true_iff in G as [Ge Gr]. destruct (IHe Ge) as (A1 & A2 & A3), (IHr Gr) as (B1 & B2 & B3 & B4).
    change (args1 (ACons s e r)) with (ACons s (walk1 e) (args1 r)). change (args2 (ACons s e r)) with (ACons s (walk2 e) (args2 r)). rewrite <- A1, <- B1. split; [reflexivity|]. split; [|split].
    + cbn [OptSpec.others]. destruct (light e); [rewrite A3 by reflexivity; lia|]. destruct (light (walk1 e)); lia.
    + intro H. change (negb s && light e && light_args r = true) in H. rewrite !andb_true_iff in H. destruct H as [[S E] R]. change (negb s && light (walk1 e) && light_args (args1 r) = true). now rewrite S, A3, B3.
    + cbn [n_args]. now rewrite B4.
  - intros o e IHe G. destruct (IHe G) as (A1 & _). change (CLast o (walk1 e) = CLast o (walk2 e)). now rewrite A1.
  - intros o e IHe r IHr G. change (gentle e && gentle_cmps r = true) in G. apply andb_true_iff in G as [Ge Gr]. destruct (IHe Ge) as (A1 & _). change (CCons o (walk1 e) (cmps1 r) = CCons o (walk2 e) (cmps2 r)). now rewrite A1, IHr.
Qed.
Lemma gentle_walk e : gentle e = true -> optimize dec enc to_str fmt e = walk2 e.
Proof. intro H. exact (proj1 (proj1 good_all e H)). Qed.
End opt.
Section mono.
Context (Q R : expr -> Prop) (QR : forall e, Q e -> R e).
Lemma all_o_mono e : all_o Q e -> all_o R e. Proof. destruct e; cbn; auto. Qed.
Lemma all_stmt_mono : (forall s, all_stmt Q s -> all_stmt R s) /\ (forall b, all_stmts Q b -> all_stmts R b) /\
  (forall e, all_else Q e -> all_else R e) /\ (forall e, all_os Q e -> all_os R e).
Proof. pose proof all_o_mono as O. apply stmt_all; cbn; intros; intuition auto. Qed.
Lemma all_program_mono p : all_program Q p -> all_program R p.
Proof.
  destruct all_stmt_mono as (_ & B & _). intros [A C]. split; [|now apply B]. eapply Forall_impl; [|exact A]. intros f [D E]. split; [eapply Forall_impl; [|exact D]; auto|].
  destruct (sf_body f); auto.
Qed.
End mono.
