(** The disassembly. *)
From Coq Require Import String ZArith Lia.
From Verif Require Import Base Native Str Vm.
From Verif Require Import LateBind Disasm DisasmSpec.
Local Open Scope nat_scope.

(** ** Names *)
Lemma is_key_eq k p : is_key k p = true <-> fst p = k.
Proof.
  destruct p as [[a b] t], k as [c d]. unfold is_key. cbn. rewrite andb_true_iff, !Nat.eqb_eq. split; [intros [-> ->]; reflexivity|intro H; injection H; auto].
Qed.
Definition look (m : list ((nat * nat) * list Z)) (k : nat * nat) : option (list Z) := fst (take k m).
Lemma look_app a b k : (forall p, In p a -> fst p <> k) -> look (a ++ b) k = look b k.
Proof.
  unfold look, take. cbn [fst]. induction a as [|p a IH]; intro H; [reflexivity|]. cbn [app find].
  destruct (is_key k p) eqn:E; [apply is_key_eq in E; exfalso; apply (H p); cbn; auto|]. apply IH. intros q Hq. apply H. now right.
Qed.
Lemma look_app2 a b k : (forall p, In p b -> fst p <> k) -> look (a ++ b) k = look a k.
Proof.
  intro H. unfold look, take. cbn [fst]. induction a as [|p a IH]; cbn [app find].
  - destruct (find (is_key k) b) as [p|] eqn:E; [|reflexivity]. apply find_some in E. destruct E as [I E]. apply is_key_eq in E. exfalso. now apply (H p).
  - destruct (is_key k p); [reflexivity|exact IH].
Qed.
Lemma look_take m k k' : k' <> k -> look (snd (take k m)) k' = look m k'.
Proof.
  intro N. unfold look, take. cbn [fst snd]. induction m as [|p m IH]; [reflexivity|]. cbn [filter find].
  destruct (is_key k p) eqn:E; cbn [negb].
  - apply is_key_eq in E. destruct (is_key k' p) eqn:E'; [apply is_key_eq in E'; congruence|exact IH].
  - cbn [find]. destruct (is_key k' p); [reflexivity|exact IH].
Qed.

(** block [k] of the code has the opcodes of [tb], with their names *)
Record rel (k : nat) (m : list ((nat * nat) * list Z)) (b : block) (tb : list (op * option (list Z))) : Prop := Rel {
  r_match : Forall2 (fun p q => snd p = fst q /\ look m (k, fst p) = snd q) b tb;
  r_nodup : NoDup (map fst b) }.
Fixpoint rels (k : nat) (m : list ((nat * nat) * list Z)) (bs : list block) (tbs : list (list (op * option (list Z)))) : Prop :=
  match bs, tbs with [], [] => True | b :: bs, tb :: tbs => rel k m b tb /\ rels (S k) m bs tbs | _, _ => False end.

Lemma push_all_ok k pushes : let '(b, m) := push_all k pushes in
  rel k m b pushes /\ map fst b = seq 0 (length pushes) /\ Forall (fun p => fst (fst p) = k /\ snd (fst p) < length pushes) m.
Proof.
  unfold push_all. induction pushes as [|[o t] ps IH] using rev_ind.
  - cbn. split; [constructor; constructor|]. split; [reflexivity|constructor].
  - rewrite fold_left_app. cbn [fold_left fst snd]. match goal with |- context [fold_left ?f ps ?a] => destruct (fold_left f ps a) as [b m] end. destruct IH as ([M N] & E & F).
    assert (L : length b = length ps) by (rewrite <- (map_length fst b), E, seq_length; reflexivity).
    rewrite app_length. cbn [length]. unfold push.
    set (m' := match t with Some t => ((k, length b), t) :: m | None => m end).
    assert (E' : map fst (b ++ [(length b, o)]) = seq 0 (length ps + 1)) by (rewrite map_app, E, seq_app, L; reflexivity).
    assert (Lk : forall i, i < length ps -> look m' (k, i) = look m (k, i)).
    { intros i Hi. unfold m'. destruct t as [t|]; [|reflexivity]. apply (look_app [((k, length b), t)]). intros p [<-|[]]. cbn. intro Q. injection Q as Q. lia. }
    split; [|split; [exact E'|]].
    + constructor.
      * apply Forall2_app.
        -- assert (B : Forall (fun p => fst p < length ps) b).
           { apply Forall_forall. intros p Hp. assert (I : In (fst p) (map fst b)) by now apply in_map. rewrite E in I. apply in_seq in I. lia. }
           clear -M B Lk. clearbody m'. revert B Lk. generalize (length ps). intros n B Lk. induction M as [|p q b qs [Q1 Q2] M IH]; constructor; [|apply IH; now inversion B].
           split; [exact Q1|]. rewrite Lk by now inversion B. exact Q2.
        -- constructor; [|constructor]. cbn [fst snd]. split; [reflexivity|]. unfold m'. destruct t as [t|].
           ++ unfold look, take. cbn [fst find]. assert (X : is_key (k, length b) ((k, length b), t) = true) by now apply is_key_eq. now rewrite X.
           ++ unfold look, take. cbn [fst]. destruct (find _ m) as [p|] eqn:Q; [|reflexivity]. apply find_some in Q. destruct Q as [I Q]. apply is_key_eq in Q.
              rewrite Forall_forall in F. destruct (F p I) as [_ F2]. rewrite Q in F2. cbn in F2. lia.
      * rewrite E'. apply seq_NoDup.
    + assert (F' : Forall (fun p : nat * nat * list Z => fst (fst p) = k /\ snd (fst p) < length ps + 1) m) by (eapply Forall_impl; [|exact F]; cbn; intros p [? ?]; split; [auto|lia]).
      unfold m'. destruct t; [constructor; [cbn; split; [reflexivity|lia]|exact F']|exact F'].
Qed.
Lemma rel_look k m m' b tb : (forall i, look m (k, i) = look m' (k, i)) -> rel k m b tb -> rel k m' b tb.
Proof. intros H [M N]. constructor; [|exact N]. clear N. induction M as [|p q b tb [A B] M IH]; constructor; [|exact IH]. split; [exact A|]. now rewrite <- H. Qed.
Lemma rels_look m m' : forall bs k tbs, (forall j i, k <= j -> look m (j, i) = look m' (j, i)) -> rels k m bs tbs -> rels k m' bs tbs.
Proof.
  induction bs as [|b bs IH]; intros k [|tb tbs] H R; cbn [rels] in *; try exact R. destruct R as [R1 R2]. split; [eapply rel_look; [|exact R1]; intro; apply H; lia|].
  apply IH; [|exact R2]. intros j i L. apply H. lia.
Qed.
Lemma build_ok : forall l k, rels k (names_of (build_from k l)) (blocks (build_from k l)) l /\ Forall (fun p => k <= fst (fst p)) (names_of (build_from k l)).
Proof.
  induction l as [|p l IH]; intro k; cbn [build_from]; [split; [exact I|constructor]|].
  pose proof (push_all_ok k p) as Q. destruct (push_all k p) as [b m]. destruct Q as (R & _ & F). destruct (IH (S k)) as [Rs Fs]. cbn [names_of blocks rels].
  rewrite Forall_forall in F, Fs. split; [split|].
  - eapply rel_look; [|exact R]. intro i. symmetry. apply look_app2. intros q Hq E. specialize (Fs q Hq). rewrite E in Fs. cbn in Fs. lia.
  - eapply rels_look; [|exact Rs]. intros j i L. symmetry. apply look_app. intros q Hq E. destruct (F q Hq) as [F1 _]. rewrite E in F1. cbn in F1. lia.
  - apply Forall_app. split; apply Forall_forall; intros q Hq; [destruct (F q Hq); lia|specialize (Fs q Hq); lia].
Qed.
Lemma F2_remove {A B} (P : A -> B -> Prop) a b : Forall2 P a b -> forall i, Forall2 P (remove_nth i a) (remove_nth i b).
Proof. induction 1 as [|x y a b H F IH]; intros [|i]; cbn; auto. constructor; [exact H|apply IH]. Qed.
Lemma remove_in {A} (l : list A) : forall i x, In x (remove_nth i l) -> In x l.
Proof. induction l as [|y l IH]; intros [|i] x; cbn; auto. intros [->|H]; [auto|right; eapply IH; exact H]. Qed.
Lemma remove_nodup {A} (l : list A) : NoDup l -> forall i, NoDup (remove_nth i l).
Proof. induction 1 as [|x l N D IH]; intros [|i]; [constructor|constructor|exact D|]. change (NoDup (x :: remove_nth i l)). constructor; [intro Q; apply N; eapply remove_in; exact Q|apply IH]. Qed.
Lemma remove_map {A B} (f : A -> B) (l : list A) : forall i, map f (remove_nth i l) = remove_nth i (map f l).
Proof. induction l as [|y l IH]; intros [|i]; cbn; auto. f_equal. apply IH. Qed.
Lemma set_fst o : forall (b : block) i, map fst (at_nth (fun p => (fst p, o)) i b) = map fst b.
Proof. induction b as [|p b IH]; intros [|i]; cbn; auto. now rewrite IH. Qed.
Lemma F2_set k m o : forall (b : block) (tb : list (op * option (list Z))) i, Forall2 (fun p q => snd p = fst q /\ look m (k, fst p) = snd q) b tb ->
  Forall2 (fun p q => snd p = fst q /\ look m (k, fst p) = snd q) (at_nth (fun p => (fst p, o)) i b) (at_nth (fun q => (o, snd q)) i tb).
Proof. intros b tb i F. revert i. induction F as [|p q b tb [H1 H2] F IH]; intros [|i]; cbn; constructor; auto. Qed.
Lemma rels_at f g k0 m : (forall k b tb, rel k m b tb -> rel k m (f b) (g tb)) -> forall bs tbs k, rels k0 m bs tbs -> rels k0 m (at_nth f k bs) (at_nth g k tbs).
Proof.
  intros H bs. revert k0. induction bs as [|b bs IH]; intros k0 [|tb tbs] k R; cbn [rels] in R; try contradiction; [now destruct k|]. destruct R as [R1 R2].
  destruct k; cbn [at_nth rels]; split; auto.
Qed.
Lemma edit_ok c bs e : rels 0 (names_of c) (blocks c) bs -> match e with EInsert _ _ _ => False | _ => True end ->
  rels 0 (names_of (edit_code c e)) (blocks (edit_code c e)) (tracked bs e).
Proof.
  intros R NI. destruct e as [k i|k i o|k i o]; [| |contradiction]; cbn [edit_code names_of blocks tracked]; apply rels_at; try exact R; intros j b tb [M N]; constructor.
  - now apply F2_remove.
  - rewrite remove_map. now apply remove_nodup.
  - now apply F2_set.
  - now rewrite set_fst.
Qed.
Lemma edits_ok : forall es c bs, rels 0 (names_of c) (blocks c) bs -> all_proper bs es ->
  rels 0 (names_of (fold_left edit_code es c)) (blocks (fold_left edit_code es c)) (fold_left tracked es bs).
Proof.
  induction es as [|e es IH]; intros c bs R P; cbn [fold_left]; [exact R|]. cbn [all_proper] in P. destruct P as [P1 P2].
  apply IH; [|exact P2]. apply edit_ok; [exact R|]. destruct e; [exact I|exact I|exact P1].
Qed.
Definition names1 (l : list (op * option (list Z))) : list (list Z) := flat_map (fun p => match snd p with Some n => [n] | None => [] end) l.
Lemma emit_block_ok k : forall b tb m, rel k m b tb -> exists m', emit_block k b m = (map fst tb, names1 tb, m') /\ forall j i, j <> k -> look m' (j, i) = look m (j, i).
Proof.
  induction b as [|[id o] b IH]; intros tb m [M N]; inversion M; subst; cbn [emit_block]; [eexists; split; [reflexivity|auto]|].
  destruct y as [o' n]. destruct H1 as [H1 H2]. cbn [fst snd] in *. subst o'. destruct (take (k, id) m) as [t m1] eqn:T.
  assert (Et : t = n) by (unfold look in H2; rewrite T in H2; exact H2). subst t.
  assert (Lm : forall j i, (j, i) <> (k, id) -> look m1 (j, i) = look m (j, i)) by (intros j i D; rewrite <- (look_take m (k, id)) by exact D; now rewrite T).
  inversion N; subst. destruct (IH l' m1) as (m' & E & L).
  { constructor; [|assumption]. assert (X : Forall (fun p => fst p <> id) b) by (apply Forall_forall; intros p Hp Q; apply H1; rewrite <- Q; now apply in_map).
    clear -H3 X Lm. induction H3 as [|p q b l [A B] F IH]; constructor; inversion X; subst; [|auto]. split; [exact A|]. rewrite Lm; [exact B|cbn in *; congruence]. }
  rewrite E. exists m'. split; [unfold names1; cbn [flat_map snd map fst]; now destruct (look m (k, id))|]. intros j i D. rewrite L, Lm by congruence. reflexivity.
Qed.
Lemma names1_app a b : names1 (a ++ b) = names1 a ++ names1 b. Proof. apply flat_map_app. Qed.
Lemma names1_none os : names1 (map (fun o => (o, None)) os) = []. Proof. induction os; auto. Qed.
Lemma emit_ok ends : forall bs k tbs m, rels k m bs tbs -> emit_from ends k bs m = (map fst (flat ends k tbs), names1 (flat ends k tbs)).
Proof.
  induction bs as [|b bs IH]; intros k [|tb tbs] m R; cbn [rels] in R; try contradiction; [reflexivity|]. destruct R as [R1 R2]. cbn [emit_from flat].
  destruct (emit_block_ok k b tb m R1) as (m' & E & L). rewrite E. rewrite (IH (S k) tbs m').
  - rewrite !map_app, !names1_app, names1_none, map_map. cbn [fst app]. now rewrite map_id.
  - eapply rels_look; [|exact R2]. intros j i Lj. symmetry. apply L. lia.
Qed.

(** ** Listing *)
Fixpoint asms (other : op -> list Z) (ip : nat) (names : list (list Z)) (os : list op) : list (list Z) :=
  match os with [] => [] | o :: r => fst (asm other ip o names) :: asms other (S ip) (snd (asm other ip o names)) r end.
Lemma goes_target word ip z : goes word ip z = target word ip z.
Proof. unfold goes, target. now replace (Z.of_nat ip + 1 + z)%Z with (Z.of_nat ip + (z + 1))%Z by lia. Qed.
Lemma named_some word i n names : named word i (n :: names) = (variable word i (Some n), names).
Proof. reflexivity. Qed.
Lemma asm_named other ip o n names : well_named (o, n) -> fst (asm other ip o (names1 [(o, n)] ++ names)) = shown other ip o n /\ snd (asm other ip o (names1 [(o, n)] ++ names)) = names.
Proof.
  unfold well_named. cbn [fst snd names1 flat_map app]. intro H.
  destruct o; try destruct pop; try destruct c; destruct n as [n|]; cbn in H; try discriminate; cbn [app asm cmp_word fst snd shown]; rewrite ?named_some, ?goes_target; split; reflexivity.
Qed.
Lemma asms_named other : forall tb ip i o n, Forall well_named tb -> nth_error tb i = Some (o, n) ->
  nth_error (asms other ip (names1 tb) (map fst tb)) i = Some (shown other (ip + i) o n).
Proof.
  induction tb as [|[o' n'] tb IH]; intros ip i o n F H; [destruct i; discriminate|]. inversion F; subst. cbn [map fst asms].
  change (names1 ((o', n') :: tb)) with (names1 ([(o', n')] ++ tb)). rewrite names1_app.
  destruct (asm_named other ip o' n' (names1 tb) H2) as [A B]. rewrite A, B. destruct i as [|i]; cbn [nth_error] in *.
  - injection H as -> ->. now rewrite Nat.add_0_r.
  - rewrite (IH (S ip) i o n H3 H). do 2 f_equal. lia.
Qed.
Lemma listing_length other w nb : forall code ip last names, length (listing_from other w nb ip last names code) = length code.
Proof. induction code as [|[o l] r IH]; intros; cbn [listing_from length]; [reflexivity|]. destruct (asm other ip o names). cbn [length]. now rewrite IH. Qed.
Definition line_from (a : option nat) (ls : list (option nat)) : option nat := fold_left (fun a l => match l with Some n => Some n | None => a end) ls a.
Definition label_from (n_lines : nat) (a b : option nat) : list Z :=
  match b, a with
  | Some n, Some m => if n =? m then repeat 32%Z (width n_lines + 3) else Scan.text "L" ++ zeros (width n_lines) (n + 1) ++ Scan.text ": "
  | Some n, None => Scan.text "L" ++ zeros (width n_lines) (n + 1) ++ Scan.text ": "
  | None, _ => repeat 32%Z (width n_lines + 3)
  end.
Lemma listing_nth other n_lines nb : forall code ip last names i a, nth_error (asms other ip names (map fst code)) i = Some a ->
  nth_error (listing_from other (width n_lines) nb ip last names code) i =
  Some (label_from n_lines (line_from last (firstn i (map snd code))) (line_from last (firstn (S i) (map snd code)))
        ++ (if nb then zeros 4 (Z.to_nat (Z.of_nat (ip + i) mod 10000)) else []) ++ Scan.text " " ++ a).
Proof.
  induction code as [|[o l] r IH]; intros ip last names i a H; [destruct i; discriminate|]. cbn [listing_from map fst asms] in *.
  destruct (asm other ip o names) as [a' names'] eqn:Ea. cbn [fst snd] in H. destruct i as [|i]; cbn [nth_error] in *.
  - injection H as ->. rewrite Nat.add_0_r. cbn [map snd firstn]. unfold line_from. cbn [fold_left]. f_equal. f_equal.
    unfold label_from, same. destruct l as [n|]; destruct last as [m|]; try reflexivity.
  - rewrite (IH _ _ _ _ _ H). cbn [map snd firstn]. unfold line_from. cbn [fold_left]. replace (S ip + i) with (ip + S i) by lia. reflexivity.
Qed.

(** ** Width *)
Lemma width_loop_more : forall f n k, n <= f -> width_loop (f + k) n = width_loop f n.
Proof.
  induction f as [|f IH]; intros n k L; [assert (n = 0) by lia; subst; now destruct k|]. cbn [width_loop Nat.add]. destruct n; [reflexivity|]. f_equal. apply IH.
  apply Nat.lt_succ_r. eapply Nat.lt_le_trans; [apply Nat.div_lt; lia|exact L].
Qed.
Lemma width_step n : 0 < n -> width n = S (width (n / 10)).
Proof.
  intro P. unfold width at 1. destruct n as [|n]; [lia|]. cbn [width_loop]. f_equal. unfold width.
  assert (D : S n / 10 <= n) by (apply Nat.lt_succ_r, Nat.div_lt; lia).
  replace n with (S n / 10 + (n - S n / 10)) at 1 by lia. now apply width_loop_more.
Qed.
Lemma digits_len : forall n f acc, 0 < n -> n < 10 ^ f -> length (digits_from f 10 (Z.of_nat n) acc) = width n + length acc.
Proof.
  intros n f. revert n. induction f as [|f IH]; intros n acc P B; [cbn in B; lia|]. cbn [digits_from]. destruct (Z.ltb_spec (Z.of_nat n) 10) as [L|L].
  - rewrite width_step, Nat.div_small by lia. reflexivity.
  - replace (Z.of_nat n / 10)%Z with (Z.of_nat (n / 10)) by (now rewrite Nat2Z.inj_div). rewrite IH.
    + rewrite (width_step n) by lia. cbn [length]. lia.
    + apply Nat.div_str_pos. lia.
    + apply Nat.div_lt_upper_bound; [lia|]. exact B.
Qed.
Lemma dec_len n : 0 < n -> length (show_dec (Z.of_nat n)) = width n.
Proof.
  intro P. unfold show_dec. destruct (Z.ltb_spec (Z.of_nat n) 0); [lia|]. unfold digits. rewrite digits_len; [cbn; lia|exact P|].
  pose proof (Z.log2_spec (Z.of_nat n) ltac:(lia)) as [_ Q]. set (l := Z.log2 (Z.of_nat n)) in *. assert (0 <= l)%Z by apply Z.log2_nonneg.
  apply Nat2Z.inj_lt. rewrite Nat2Z.inj_pow. eapply Z.lt_le_trans; [exact Q|]. replace (Z.of_nat (S (Z.to_nat l))) with (Z.succ l) by lia.
  apply Z.pow_le_mono_l. lia.
Qed.
Lemma width_mono : forall a b, a <= b -> width a <= width b.
Proof.
  induction a as [a IH] using lt_wf_ind. intros b L. destruct a as [|a]; [unfold width; cbn; lia|].
  rewrite (width_step (S a)), (width_step b) by lia. apply le_n_S. apply IH; [apply Nat.div_lt; lia|]. now apply Nat.div_le_mono.
Qed.
Lemma label_len n_lines a b : match b with Some n => n < n_lines | None => True end -> length (label_from n_lines a b) = width n_lines + 3.
Proof.
  assert (X : forall n, n < n_lines -> length (Scan.text "L" ++ zeros (width n_lines) (n + 1) ++ Scan.text ": ") = width n_lines + 3).
  { intros n L. assert (W : width (n + 1) <= width n_lines) by (apply width_mono; lia). unfold zeros. rewrite !app_length, repeat_length, dec_len by lia. cbn [length Scan.text list_ascii_of_string map]. lia. }
  intro L. unfold label_from. destruct b as [n|]; [destruct a as [m|]; [destruct (n =? m)|]|]; try apply repeat_length; now apply X.
Qed.
Lemma line_in ls : forall a n, line_from a ls = Some n -> a = Some n \/ In (Some n) ls.
Proof.
  induction ls as [|l ls IH]; intros a n H; [now left|]. unfold line_from in *. cbn [fold_left] in H. apply IH in H. destruct H as [H|H]; [|right; now right].
  destruct l as [m|]; [right; left; exact H|now left].
Qed.

(** ** The theorems *)
Theorem listing_lines other n_lines numbers (bs : list (list (op * option (list Z)))) es ends lines :
  Forall (Forall well_named) bs -> all_proper bs es -> (forall k, forallb (fun o => negb (is_var o)) (ends k) = true) ->
  let c := fold_left edit_code es (build bs) in
  let own := flat ends 0 (fold_left tracked es bs) in
  fst (emit ends c) = map fst own /\
  (length lines = length own ->
   let out := listing other n_lines numbers (snd (emit ends c)) (combine (fst (emit ends c)) lines) in
   length out = length own /\
   forall i o n, nth_error own i = Some (o, n) ->
     nth_error out i = Some (label n_lines lines i ++ (if numbers then zeros 4 (Z.to_nat (Z.of_nat i mod 10000)) else []) ++ Scan.text " " ++ shown other i o n)).
Proof.
  intros W P E c own. pose proof (edits_ok es (build bs) bs (proj1 (build_ok bs 0)) P) as R. fold c in R.
  unfold emit. rewrite (emit_ok ends _ 0 _ _ R). cbn [fst snd]. fold own. split; [reflexivity|]. intro L. set (out := listing _ _ _ _ _).
  assert (Em : map fst (combine (map fst own) lines) = map fst own /\ map snd (combine (map fst own) lines) = lines).
  { clear -L. revert lines L. induction own as [|[o n] own IH]; intros [|l ls] L; try discriminate; [auto|]. cbn in *. destruct (IH ls) as [A B]; [lia|]. now rewrite A, B. }
  destruct Em as [Em1 Em2]. split; [unfold out, listing; rewrite listing_length, combine_length, map_length; lia|].
  assert (Wo : Forall well_named own).
  { unfold own. assert (X : Forall (Forall well_named) (fold_left tracked es bs)).
    { clear -W P. revert bs W P. induction es as [|e es IH]; intros bs W P; [exact W|]. cbn [all_proper fold_left] in *. destruct P as [P1 P2]. apply IH; [|exact P2].
      destruct e as [k i|k i o|]; cbn [tracked proper] in *; [| |contradiction].
      - clear P2. revert k. induction W as [|b bs Wb W IHb]; intros [|k]; cbn; constructor; auto.
        clear -Wb. revert i. induction Wb as [|p b Hp Wb IH]; intros [|i]; try exact Wb; [constructor|constructor|]. change (Forall well_named (p :: remove_nth i b)). constructor; [exact Hp|apply IH].
      - clear P2. revert k P1. induction W as [|b bs Wb W IHb]; intros [|k] P1; cbn in *; constructor; auto.
        clear -Wb P1. revert i P1. induction Wb as [|p b Hp Wb IH]; intros [|i] P1; cbn in *; constructor; auto. unfold well_named in *. cbn. now rewrite <- P1. }
    clear -X E. generalize 0. induction X as [|b l Hb X IH]; intro k; cbn [flat]; [constructor|]. apply Forall_app. split; [exact Hb|]. apply Forall_app. split; [|apply IH].
    apply Forall_forall. intros p Hp. apply in_map_iff in Hp. destruct Hp as (o & <- & Ho). unfold well_named. cbn. specialize (E k). rewrite forallb_forall in E. specialize (E o Ho). now destruct (is_var o). }
  intros i o n H. unfold out, listing.
  rewrite (listing_nth other n_lines numbers (combine (map fst own) lines) 0 None (names1 own) i (shown other (0 + i) o n)).
  - rewrite Em2. reflexivity.
  - rewrite Em1. now apply asms_named.
Qed.
Theorem label_width n_lines lines i : (forall n, In (Some n) lines -> n < n_lines) -> length (label n_lines lines i) = width n_lines + 3.
Proof.
  intro H. change (label n_lines lines i) with (label_from n_lines (line_from None (firstn i lines)) (line_from None (firstn (S i) lines))).
  apply label_len. destruct (line_from None (firstn (S i) lines)) as [n|] eqn:E; [|exact I]. apply line_in in E. destruct E as [E|E]; [discriminate|].
  apply H. rewrite <- (firstn_skipn (S i) lines). apply in_or_app. now left.
Qed.
