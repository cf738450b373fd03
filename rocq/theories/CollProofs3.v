(** Proofs about sum, zip, counter, the set builtins and list mutation. *)
From Verif Require Import Base BaseProofs Native Value ValueSpec ValueProofs Err Iter Seq Ops OpsSpec OpsProofs OpsProofs2 Heap HeapProofs Coll CollSpec CollProofs.
From Coq Require Import Permutation Sorted.
Local Open Scope Z_scope.

(** ** sum *)
Definition sum_go := fix go (l : list value) (acc : Z) : result Z :=
     match l with
     | [] => Ok acc
     | v :: r => let? i := as_int_checked v in go r (i64 (acc + i))
     end.
Lemma is_int_checked v z : is_int_value v z -> as_int_checked v = Ok z.
Proof. intros [[-> _]|[[-> ->]|[-> ->]]]; reflexivity. Qed.
Lemma i64_add_l a b : i64 (i64 a + b) = i64 (a + b).
Proof. destruct (i64_cong a) as [k E]. apply (i64_eqm (a + b) _ k). rewrite E. ring. Qed.
Lemma sum_go_ok l zs : Forall2 is_int_value l zs -> forall acc, sum_go l (i64 acc) = Ok (i64 (acc + total zs)).
Proof.
  induction 1 as [|v z l zs Hv F IH]; intro acc; cbn [sum_go].
  - cbn. rewrite Z.add_0_r. reflexivity.
  - rewrite (is_int_checked v z Hv). cbn [bind]. rewrite i64_add_l, IH. do 2 f_equal. unfold total. cbn [fold_right]. ring.
Qed.
Lemma sum_ok l zs : Forall2 is_int_value l zs -> exists z, builtin_sum l = Ok (VInt z) /\ wraps_to z (total zs).
Proof.
  intro F. unfold builtin_sum. fold sum_go. replace 0 with (i64 0) by reflexivity. rewrite (sum_go_ok l zs F). cbn [bind].
  exists (wrap63 (total zs)). split; [|apply wraps_to_wrap63]. unfold of_int. rewrite wrap63_i64. reflexivity.
Qed.
Lemma sum_err l1 zs v l2 : Forall2 is_int_value l1 zs -> as_int_opt v = None -> builtin_sum (l1 ++ v :: l2) = Err (TypeErrorArgMustBeInt v).
Proof.
  intros F E. unfold builtin_sum. fold sum_go. assert (G : forall acc, sum_go (l1 ++ v :: l2) acc = Err (TypeErrorArgMustBeInt v)).
  { induction F as [|u z l zs Hu F IH]; intro acc; cbn [app sum_go]; [unfold as_int_checked; rewrite E; reflexivity|].
    rewrite (is_int_checked u z Hu). apply IH. }
  rewrite G. reflexivity.
Qed.

(** ** zip *)
Local Open Scope nat_scope.
Lemma zip_row_spec ls : match zip_row ls with
  | None => exists l, In l ls /\ l = []
  | Some (row, ls') => Forall2 (fun l xr => l = fst xr :: snd xr) ls (combine row ls') /\ length row = length ls /\ length ls' = length ls
  end.
Proof.
  induction ls as [|[|x l] ls IH]; cbn [zip_row].
  - cbn. split; [constructor|split; reflexivity].
  - exists []. cbn. auto.
  - destruct (zip_row ls) as [[row ls']|].
    + destruct IH as (F & L1 & L2). cbn. split; [constructor; auto|split; auto].
    + destruct IH as (e & Hi & ->). exists []. cbn. auto.
Qed.
Definition row_at (ls : list (list value)) (i : nat) : list (option value) := map (fun l => nth_error l i) ls.
Lemma zip_row_nth ls row ls' : zip_row ls = Some (row, ls') -> row_at ls 0 = map Some row /\ forall i, row_at ls (S i) = row_at ls' i.
Proof.
  revert row ls'. induction ls as [|[|x l] ls IH]; intros row ls' E; cbn [zip_row] in E; try discriminate.
  - injection E as <- <-. split; reflexivity.
  - destruct (zip_row ls) as [[row1 ls1]|]; [|discriminate]. injection E as <- <-. destruct (IH _ _ eq_refl) as [H1 H2]. unfold row_at in *. cbn [map]. split; [rewrite H1; reflexivity|].
    intro i. rewrite <- H2. reflexivity.
Qed.
Lemma zip_loop_ok : forall fuel ls, ls <> [] -> (exists l, In l ls /\ length l < fuel) ->
  exists rows, zip_loop fuel ls = map VVector rows /\ (forall l, In l ls -> length rows <= length l) /\ (exists l, In l ls /\ length l = length rows) /\
    forall i row, nth_error rows i = Some row -> row_at ls i = map Some row.
Proof.
  induction fuel as [|fuel IH]; intros ls Hn (l0 & Hi0 & Hl0); [lia|]. cbn [zip_loop].
  pose proof (zip_row_spec ls) as S. destruct (zip_row ls) as [[row ls']|] eqn:E.
  - destruct (zip_row_nth _ _ _ E) as [N0 NS]. destruct S as (F & L1 & L2).
    assert (Fwd : forall l, In l ls -> exists x l', l = x :: l' /\ In l' ls').
    { clear - F L1 L2. intros l Hl. assert (L : length row = length ls') by lia. clear L1 L2. revert row ls' L F. induction ls as [|m ls IH]; intros row ls' L F; [contradiction|].
      destruct row as [|x row], ls' as [|l' ls']; cbn in *; try (inversion F; fail); try discriminate. inversion F; subst. destruct Hl as [<-|Hl].
      - exists x, l'. auto.
      - destruct (IH Hl row ls') as (y & k & -> & Hk); auto. exists y, k. auto. }
    assert (Bwd : forall l', In l' ls' -> exists x, In (x :: l') ls).
    { clear - F L1 L2. intros l Hl. assert (L : length row = length ls') by lia. clear L1 L2. revert row ls' L F Hl. induction ls as [|m ls IH]; intros row ls' L F Hl.
      - destruct row as [|x row], ls' as [|l' ls']; cbn in *; try contradiction; try discriminate. inversion F.
      - destruct row as [|x row], ls' as [|l' ls']; cbn in *; try contradiction; try discriminate. inversion F; subst. destruct Hl as [<-|Hl]; [exists x; auto|].
        destruct (IH row ls') as (y & Hy); auto. exists y. auto. }
    destruct (IH ls') as (rows & Er & H1 & (l2 & Hi2 & Hl2) & H3).
    + intro C. subst ls'. destruct ls; [contradiction|discriminate].
    + destruct (Fwd l0 Hi0) as (x & l' & -> & Hi'). exists l'. cbn in Hl0. split; [auto|lia].
    + exists (row :: rows). cbn [map length]. rewrite Er. split; [reflexivity|]. split; [|split].
      * intros l Hl. destruct (Fwd l Hl) as (x & l' & -> & Hi'). specialize (H1 l' Hi'). cbn. lia.
      * destruct (Bwd l2 Hi2) as (x & Hx). exists (x :: l2). split; auto. cbn. lia.
      * intros [|i] r Hr; cbn in Hr; [injection Hr as <-; exact N0|]. rewrite NS. apply H3. exact Hr.
  - exists []. cbn. split; [reflexivity|]. split; [intros; lia|]. destruct S as (l & Hl & ->). split; [exists []; auto|]. intros [|i] r Hr; discriminate.
Qed.

(** ** set builtins *)
Lemma mem_insert q x l : mem q (set_insert x l) <-> mem q l \/ (set_mem x l = false /\ key_match q x = true).
Proof.
  unfold set_insert. destruct (set_mem x l) eqn:E.
  - split; auto. intros [H|[H _]]; auto. discriminate.
  - rewrite mem_app. split; intros [H|H]; auto.
    + right. destruct H as (y & [<-|[]] & H). auto.
    + right. exists x. cbn. tauto.
Qed.
Lemma mem_insert_wf q x l : all_wf l -> wf q -> wf x -> (mem q (set_insert x l) <-> mem q l \/ key_match q x = true).
Proof.
  intros Hl Hq Hx. rewrite mem_insert. split; [tauto|]. intros [H|H]; auto. destruct (set_mem x l) eqn:E; auto.
  left. apply set_mem_spec in E. apply (mem_compat x q l); auto. rewrite key_match_sym; auto.
Qed.
Lemma insert_set_wf x l : wf x -> wf (VSet l) -> wf (VSet (set_insert x l)).
Proof.
  intros Hx Hl. apply set_wf in Hl. destruct Hl as [Hw Hd]. unfold set_insert. destruct (set_mem x l) eqn:E; [constructor; auto|].
  constructor.
  - intros y Hy. apply in_app_or in Hy. destruct Hy as [Hy|[<-|[]]]; auto.
  - apply distinct_app. split; auto. split; [cbn; tauto|]. intros a b Ha [<-|[]]. destruct (key_match a x) eqn:E2; auto.
    exfalso. assert (M : mem x l) by (exists a; split; auto; rewrite key_match_sym; auto). apply set_mem_spec in M. congruence.
Qed.
Lemma union_ok : forall other this, wf (VSet this) -> all_wf other ->
  wf (VSet (builtin_union other this)) /\ (forall q, wf q -> (mem q (builtin_union other this) <-> mem q this \/ mem q other)) /\
  exists new, builtin_union other this = this ++ new /\ sublist new other.
Proof.
  induction other as [|x other IH]; intros this Ht Ho; cbn [builtin_union fold_left].
  - split; auto. split; [|exists []; rewrite app_nil_r; split; [auto|constructor]]. intros q Hq. split; auto. intros [H|(y & [] & _)]; auto.
  - assert (Hx : wf x) by (apply Ho; left; reflexivity). destruct (IH (set_insert x this)) as (W & M & (new & E & S)).
    + apply insert_set_wf; auto.
    + intros y Hy. apply Ho. right. exact Hy.
    + split; auto. split.
      * intros q Hq. unfold builtin_union in M. rewrite M, mem_insert_wf by (auto; apply set_wf in Ht; tauto). split.
        -- intros [[H|H]|H]; auto; right; [exists x; cbn; auto|]. destruct H as (y & Hy & E'). exists y. cbn. auto.
        -- intros [H|(y & [<-|Hy] & E')]; auto. right. exists y. auto.
      * unfold builtin_union in E. rewrite E. unfold set_insert. destruct (set_mem x this).
        -- exists new. split; auto. constructor. exact S.
        -- exists (x :: new). rewrite <- app_assoc. split; auto. apply sub_keep. exact S.
Qed.
Lemma to_set_mem other : all_wf other -> forall q, wf q -> (mem q (to_set other) <-> mem q other).
Proof.
  intros Ho q Hq. assert (W : wf (VSet [])) by (constructor; [intros x []|exact I]).
  destruct (union_ok other [] W Ho) as (_ & M & _). unfold builtin_union in M. unfold to_set. rewrite M by auto. split; auto. intros [(y & [] & _)|H]; auto.
Qed.
Lemma intersect_ok other this : wf (VSet this) -> all_wf other ->
  wf (VSet (builtin_intersect other this)) /\ (forall q, wf q -> (mem q (builtin_intersect other this) <-> mem q this /\ mem q other)) /\
  sublist (builtin_intersect other this) this.
Proof.
  intros Ht Ho. apply set_wf in Ht. destruct Ht as [Hw Hd]. unfold builtin_intersect. split; [|split].
  - constructor; [apply all_wf_filter; auto|]. eapply sublist_distinct; [apply sublist_filter|auto].
  - intros q Hq. split.
    + intros (y & Hy & E). apply filter_In in Hy. destruct Hy as [Hy F]. split; [exists y; auto|]. assert (Wy := Hw y Hy). apply set_mem_spec in F. apply (to_set_mem other Ho y Wy) in F.
      apply (mem_compat y q other); auto. rewrite key_match_sym; auto.
    + intros [(y & Hy & E) M]. exists y. split; auto. apply filter_In. split; auto. assert (Wy := Hw y Hy). apply set_mem_spec. apply to_set_mem; auto. apply (mem_compat q y other); auto.
  - apply sublist_filter.
Qed.

Lemma index_of_key_spec x l : match index_of_key x l with
  | None => forall y, In y l -> key_match x y = false
  | Some i => exists l1 y l2, l = l1 ++ y :: l2 /\ length l1 = i /\ key_match x y = true /\ forall z, In z l1 -> key_match x z = false
  end.
Proof.
  induction l as [|a l IH]; cbn; [intros y []|]. destruct (key_match x a) eqn:E.
  - exists [], a, l. cbn. repeat split; auto. intros z [].
  - destruct (index_of_key x l) as [i|].
    + destruct IH as (l1 & y & l2 & -> & <- & E2 & H). exists (a :: l1), y, l2. cbn. repeat split; auto. intros z [<-|Hz]; auto.
    + intros y [<-|Hy]; auto.
Qed.
Lemma update_app {A} (l1 : list A) y l2 z : update (l1 ++ y :: l2) (length l1) z = l1 ++ z :: l2.
Proof. induction l1; cbn; auto. rewrite IHl1. reflexivity. Qed.
Lemma firstn_but_last {A} (l : list A) x : firstn (length (l ++ [x]) - 1) (l ++ [x]) = l.
Proof. rewrite app_length. cbn. rewrite Nat.add_sub. rewrite firstn_app, Nat.sub_diag, firstn_all. cbn. apply app_nil_r. Qed.
Lemma swap_remove_perm x l1 y l2 : index_of_key x (l1 ++ y :: l2) = Some (length l1) -> Permutation (l1 ++ l2) (set_swap_remove x (l1 ++ y :: l2)).
Proof.
  intro E. unfold set_swap_remove. rewrite E, update_app.
  destruct (exists_last (l := y :: l2) ltac:(discriminate)) as (r & z & Er).
  assert (El : last (l1 ++ y :: l2) VNil = z) by (rewrite Er, app_assoc; apply last_last). rewrite El.
  destruct r as [|y' r]; cbn in Er.
  - injection Er as -> ->. rewrite firstn_but_last, app_nil_r. reflexivity.
  - injection Er as -> ->. replace (length (l1 ++ y' :: r ++ [z])) with (length ((l1 ++ z :: r) ++ [z])) by (rewrite !app_length; cbn; rewrite !app_length; cbn; lia).
    replace (l1 ++ z :: r ++ [z]) with ((l1 ++ z :: r) ++ [z]) by (rewrite <- app_assoc; reflexivity). rewrite firstn_but_last.
    apply Permutation_app_head. symmetry. apply Permutation_cons_append.
Qed.
Lemma mem_perm q l l' : Permutation l l' -> mem q l -> mem q l'.
Proof. intros P (y & Hy & E). exists y. split; auto. eapply Permutation_in; eassumption. Qed.
Lemma distinct_perm l l' : Permutation l l' -> all_wf l -> distinct key_match l -> distinct key_match l'.
Proof.
  induction 1 as [|x l l' P IH|x y l|l l' l'' P1 IH1 P2 IH2]; intros W D.
  - exact I.
  - destruct D as [D1 D2]. split; [|apply IH; auto; intros z Hz; apply W; right; auto]. intros z Hz. apply D1. eapply Permutation_in; [symmetry; exact P|exact Hz].
  - destruct D as [D1 [D2 D3]]. split; [|split; auto].
    + intros z [<-|Hz]; auto. rewrite key_match_sym; [apply D1; left; reflexivity| |]; apply W; cbn; auto.
    + intros z Hz. apply D1. right. exact Hz.
  - apply IH2; [|apply IH1; auto]. intros z Hz. apply W. eapply Permutation_in; [symmetry; exact P1|exact Hz].
Qed.
Lemma swap_remove_ok x l : wf x -> wf (VSet l) -> wf (VSet (set_swap_remove x l)) /\
  forall q, wf q -> (mem q (set_swap_remove x l) <-> mem q l /\ key_match q x = false).
Proof.
  intros Hx Hl. assert (Hl' := Hl). apply set_wf in Hl. destruct Hl as [Hw Hd]. pose proof (index_of_key_spec x l) as S. destruct (index_of_key x l) as [i|] eqn:E.
  - destruct S as (l1 & y & l2 & -> & <- & Ey & Hpre). assert (P := swap_remove_perm x l1 y l2 E).
    assert (Hy : wf y) by (apply Hw; apply in_or_app; right; left; reflexivity).
    apply distinct_app in Hd. destruct Hd as (D1 & [D2 D3] & D4).
    assert (W12 : all_wf (l1 ++ l2)) by (intros z Hz; apply Hw; apply in_app_or in Hz; apply in_or_app; cbn; tauto).
    assert (D12 : distinct key_match (l1 ++ l2)) by (apply distinct_app; repeat split; auto; intros; apply D4; cbn; auto).
    split.
    + constructor; [|eapply distinct_perm; eassumption]. intros z Hz. apply W12. eapply Permutation_in; [symmetry; exact P|exact Hz].
    + intros q Hq. assert (M : mem q (set_swap_remove x (l1 ++ y :: l2)) <-> mem q (l1 ++ l2)) by (split; apply mem_perm; [symmetry|]; exact P). rewrite M. split.
      * intros (z & Hz & Ez). assert (Wz := W12 z Hz). split; [exists z; split; auto; apply in_app_or in Hz; apply in_or_app; cbn; tauto|].
        destruct (key_match q x) eqn:Eq; auto. exfalso.
        assert (Exz : key_match x z = true) by (apply (key_match_trans x q z); auto; rewrite key_match_sym; auto).
        assert (Eyz : key_match y z = true) by (apply (key_match_trans y x z); auto; rewrite key_match_sym; auto).
        apply in_app_or in Hz. destruct Hz as [Hz|Hz]; [rewrite Hpre in Exz by auto|rewrite D2 in Eyz by auto]; discriminate.
      * intros [(z & Hz & Ez) Eq]. exists z. split; auto. apply in_app_or in Hz. apply in_or_app. destruct Hz as [Hz|[<-|Hz]]; auto.
        exfalso. enough (key_match q x = true) by congruence. apply (key_match_trans q y x); auto. rewrite key_match_sym; auto.
  - unfold set_swap_remove. rewrite E. split; auto. intros q Hq. split; [|tauto]. intros (y & Hy & Eq). split; [exists y; auto|].
    destruct (key_match q x) eqn:E2; auto. exfalso. specialize (S y Hy). enough (key_match x y = true) by congruence.
    apply (key_match_trans x q y); auto. rewrite key_match_sym; auto.
Qed.
Lemma difference_ok : forall other this, wf (VSet this) -> all_wf other ->
  wf (VSet (builtin_difference other this)) /\ (forall q, wf q -> (mem q (builtin_difference other this) <-> mem q this /\ ~ mem q other)).
Proof.
  induction other as [|x other IH]; intros this Ht Ho; cbn [builtin_difference fold_left].
  - split; auto. intros q Hq. split; [|tauto]. intro H. split; auto. intros (y & [] & _).
  - assert (Hx : wf x) by (apply Ho; left; reflexivity). destruct (swap_remove_ok x this Hx Ht) as [W M].
    destruct (IH (set_swap_remove x this)) as (W' & M'); auto; [intros y Hy; apply Ho; right; auto|]. split; auto.
    intros q Hq. unfold builtin_difference in M'. rewrite M', M by auto. split.
    + intros [[H1 H2] H3]. split; auto. intros (y & [<-|Hy] & E); [congruence|]. apply H3. exists y. auto.
    + intros [H1 H2]. split; [split; auto|].
      * destruct (key_match q x) eqn:E; auto. exfalso. apply H2. exists x. cbn. auto.
      * intros (y & Hy & E). apply H2. exists y. cbn. auto.
Qed.

(** ** counter *)
Definition tagc (m : list (value * Z)) : entries := map (fun p => (fst p, VInt (snd p))) m.
Definition bump (o : option value) : value := match o with Some (VInt n) => VInt (wrap63 (i64 (n + 1))) | _ => VInt 1 end.
Lemma tagc_count x m : tagc (count_up x m) = map_insert x (bump (map_get x (tagc m))) (tagc m).
Proof.
  induction m as [|[y n] m IH]; cbn [count_up tagc map map_insert map_get fst snd]; auto. destruct (key_match x y); cbn [map fst snd]; auto.
  fold (tagc m). fold (tagc (count_up x m)). rewrite IH. reflexivity.
Qed.
Lemma occ_app x l r : occurrences x (l ++ r) = occurrences x l + occurrences x r.
Proof. unfold occurrences. rewrite filter_app, app_length. reflexivity. Qed.
Lemma occ_compat a b l : all_wf l -> wf a -> wf b -> key_match a b = true -> occurrences a l = occurrences b l.
Proof.
  intros W Ha Hb E. unfold occurrences. f_equal. apply filter_ext_in. intros c Hc. assert (Wc := W c Hc).
  rewrite (key_match_sym a c), (key_match_sym b c) by auto. apply km_trans_eq; auto.
Qed.
Definition counts (p : list value) (m : list (value * Z)) : Prop :=
  wf_entries (tagc m) /\ map fst (tagc m) = to_set p /\
  forall q, wf q -> map_get q (tagc m) = match occurrences q p with O => None | n => Some (VInt (wrap63 (Z.of_nat n))) end.
Lemma wrap63_succ z : wrap63 (i64 (wrap63 z + 1)) = wrap63 (z + 1).
Proof.
  rewrite wrap63_i64. apply wraps_to_unique. destruct (wraps_to_wrap63 (wrap63 z + 1)) as [H1 [k H2]]. destruct (wraps_to_wrap63 z) as [_ [k' H']].
  split; auto. exists (k + k')%Z. rewrite H2, H'. ring.
Qed.
Lemma occ_zero q p : all_wf p -> (occurrences q p = O <-> set_mem q p = false).
Proof.
  intro W. unfold occurrences, set_mem. induction p as [|x p IH]; cbn; [tauto|]. destruct (key_match q x); cbn.
  - split; discriminate.
  - apply IH. intros y Hy. apply W. right. exact Hy.
Qed.
Lemma counts_step p m x : all_wf p -> wf x -> counts p m -> counts (p ++ [x]) (count_up x m).
Proof.
  intros Wp Wx (W & K & G). unfold counts. rewrite tagc_count. split; [|split].
  - apply map_insert_wf; auto. unfold bump. rewrite G by auto. destruct (occurrences x p); constructor.
    + unfold is_int63, MIN_INT, MAX_INT. lia.
    + apply (proj1 (wraps_to_wrap63 _)).
  - rewrite map_insert_keys, K. unfold to_set. rewrite fold_left_app. cbn [fold_left]. fold (to_set p). unfold set_insert.
    rewrite G by auto. pose proof (to_set_mem p Wp x Wx) as M. pose proof (occ_zero x p Wp) as Z.
    destruct (occurrences x p) eqn:E.
    + destruct (set_mem x (to_set p)) eqn:E2; auto. apply set_mem_spec in E2. apply M, set_mem_spec in E2. rewrite (proj1 Z eq_refl) in E2. discriminate.
    + assert (T : set_mem x (to_set p) = true); [|rewrite T; reflexivity]. apply set_mem_spec, M, set_mem_spec. destruct (set_mem x p); auto. assert (S n = O) by tauto. discriminate.
  - intros q Hq. rewrite map_get_insert by auto. rewrite occ_app. unfold occurrences at 2. cbn [filter]. destruct (key_match q x) eqn:E.
    + cbn [length]. unfold bump. rewrite G by auto. rewrite (occ_compat q x p) by auto. rewrite Nat.add_1_r. destruct (occurrences x p) as [|n].
      * reflexivity.
      * do 2 f_equal. rewrite wrap63_succ. f_equal. lia.
    + cbn [length]. rewrite Nat.add_0_r. apply G. auto.
Qed.
Lemma counts_ok : forall l p m, all_wf p -> all_wf l -> counts p m -> counts (p ++ l) (fold_left (fun m x => count_up x m) l m).
Proof.
  induction l as [|x l IH]; intros p m Wp Wl C; cbn [fold_left]; [rewrite app_nil_r; auto|].
  replace (p ++ x :: l) with ((p ++ [x]) ++ l) by (rewrite <- app_assoc; reflexivity).
  assert (Wx : wf x) by (apply Wl; left; reflexivity). apply IH.
  - apply all_wf_app; auto. intros y [<-|[]]. auto.
  - intros y Hy. apply Wl. right. exact Hy.
  - apply counts_step; auto.
Qed.
Lemma counter_ok l : all_wf l -> exists d, counter l = VDict d /\ map fst d = to_set l /\
  forall q, wf q -> dict_get d q = match occurrences q l with O => None | n => Some (VInt (wrap63 (Z.of_nat n))) end.
Proof.
  intro W. assert (C0 : counts [] []). { split; [intros k x []|]. split; [reflexivity|]. intros; reflexivity. }
  destruct (counts_ok l [] [] ltac:(intros x []) W C0) as (_ & K & G). cbn [app] in K, G. unfold counter. eexists. split; [reflexivity|]. split; [exact K|].
  intros q Hq. rewrite <- map_get_dict_get. apply G. exact Hq.
Qed.

(** ** collecting pairs *)
Lemma collect_fold : forall ps h m, tracks h m -> (forall k x, In (k, x) ps -> wf k /\ wf x) ->
  tracks (rev (map (fun p => Wrote (fst p) (snd p)) ps) ++ h) (fold_left (fun m p => map_insert (fst p) (snd p) m) ps m).
Proof.
  induction ps as [|[k x] ps IH]; intros h m T W; cbn [fold_left map rev fst snd]; auto. rewrite <- app_assoc. cbn [app].
  destruct (W k x (or_introl eq_refl)) as [Wk Wx]. apply IH; [apply tracks_write; auto|]. intros k' x' Hi. apply W. right. exact Hi.
Qed.
