(** Proofs for C72: whole reports, and traces. *)
From Coq Require Import String Lia Arith.
From Verif Require Import Base Native Value Str Report ReportSpec ReportProofs.
Local Open Scope nat_scope.

Lemma nth_repeat_lt {A} (x : A) k i : nth_error (repeat x k) i = if i <? k then Some x else None.
Proof. revert i. induction k as [|k IH]; intros [|i]; try reflexivity. cbn [repeat nth_error]. rewrite IH. reflexivity. Qed.

Lemma format_single name error trace t n s l loc : ascii t -> line_at t n s l -> width loc <> 0 -> s <= start loc <= s + length (strip_cr l) -> end_ loc <= s + length l -> strip_cr l <> [] ->
  exists marks, format name error trace t loc = Some (head name error trace (digits_of (n + 1)) ++ row (length (digits_of (n + 2))) n l ++ padded (length (digits_of (n + 2))) (n + 2) ++ Scan.text " |" ++ (32%Z :: marks) ++ [10%Z]) /\
    forall j, nth_error marks j = Some 94%Z <-> start loc <= s + j <= end_ loc.
Proof.
  intros A L W S E NE. pose proof (strip_length l) as SL. destruct (line_index t n s l A L) as (I & B & C).
  assert (F : lineno t loc = Some n). { unfold lineno, is_empty. destruct (Nat.eqb_spec (width loc) 0); [contradiction|]. f_equal. apply (fst_line t n s l); [assumption|assumption|lia]. }
  assert (EL : end_loop (length (starts t)) (starts t) (end_ loc) n = Some n).
  { pose proof (end_loop_spec (split_lines t) 0 (end_ loc) 0 n (length (starts t)) (s + length l + 1)) as H. rewrite !Nat.add_0_r in H. apply H; [exact C|lia|left; reflexivity|]. apply nth_error_split_lt in C. lia. }
  assert (NX : nth_error (lines t) n = Some (strip_cr l)) by (apply lines_nth; exact I).
  exists (map (fun c => if (c =? 9)%Z then 9%Z else 32%Z) (firstn (start loc - s) (strip_cr l)) ++ repeat 94%Z (count_to (start loc - s) (end_ loc - s))).
  assert (SE : start loc <= end_ loc) by (unfold end_; lia).
  split.
  - unfold format. cbv zeta. rewrite F. unfold is_empty. destruct (Nat.eqb_spec (width loc) 0); [contradiction|]. rewrite EL. rewrite Nat.eqb_refl. rewrite (skipn_nth _ _ _ NX). replace (n + 1 - n) with 1 by lia. cbn [firstn length seq combine flat_map fst snd].
    change (1 <? 1) with false. cbv iota. rewrite B. destruct (Nat.ltb_spec (start loc) s); [lia|]. destruct (Nat.ltb_spec (end_ loc) s); [lia|]. cbn [orb]. rewrite NX.
    unfold head, row, digits_of. destruct (strip_cr l) as [|c0 l0] eqn:X; [contradiction|]. unfold repeated. rewrite app_nil_r. rewrite <- !app_assoc. cbn [app]. rewrite <- !app_assoc. reflexivity.
  - intro j. assert (LF : length (firstn (start loc - s) (strip_cr l)) = start loc - s) by (rewrite firstn_length; lia). split.
    + intro Q. destruct (Nat.lt_ge_cases j (start loc - s)) as [J|J].
      * exfalso. rewrite nth_error_app1 in Q by (rewrite map_length; lia). rewrite nth_error_map in Q. destruct (nth_error (firstn (start loc - s) (strip_cr l)) j) as [c|]; [|discriminate]. cbn in Q. destruct (c =? 9)%Z; discriminate.
      * rewrite nth_error_app2 in Q by (rewrite map_length; lia). rewrite map_length, LF, nth_repeat_lt in Q. unfold count_to in Q. destruct (Nat.ltb_spec (j - (start loc - s)) (end_ loc - s + 1 - (start loc - s))); [lia|discriminate].
    + intro J. rewrite nth_error_app2 by (rewrite map_length; lia). rewrite map_length, LF, nth_repeat_lt. unfold count_to. destruct (Nat.ltb_spec (j - (start loc - s)) (end_ loc - s + 1 - (start loc - s))); [reflexivity|lia].
Qed.

Lemma format_multi name error trace t n s l n2 s2 l2 loc : ascii t -> line_at t n s l -> line_at t n2 s2 l2 -> n < n2 -> width loc <> 0 -> s <= start loc <= s + length l -> s2 < end_ loc <= s2 + length l2 ->
  exists rs marks, format name error trace t loc = Some (head name error trace (digits_of (n + 1) ++ Scan.text " - " ++ digits_of (n2 + 1)) ++ concat rs ++ padded (length (digits_of (n2 + 2))) (n2 + 2) ++ Scan.text " |" ++ marks ++ [10%Z]) /\
    length rs = n2 + 1 - n /\ (forall i r, nth_error rs i = Some r -> exists l, nth_error (split_lines t) (n + i) = Some l /\ r = row (length (digits_of (n2 + 2))) (n + i) l) /\ (marks = [] \/ exists k, marks = 32%Z :: repeat 94%Z k).
Proof.
  intros A L L2 N W S E. destruct (line_index t n s l A L) as (I & B & C). destruct (line_index t n2 s2 l2 A L2) as (I2 & B2 & C2).
  assert (F : lineno t loc = Some n). { unfold lineno, is_empty. destruct (Nat.eqb_spec (width loc) 0); [contradiction|]. f_equal. apply (fst_line t n s l); [assumption|assumption|lia]. }
  assert (LN : n2 < length (split_lines t)) by (apply nth_error_split_lt in I2; exact I2).
  assert (EL : end_loop (length (starts t)) (starts t) (end_ loc) n = Some n2).
  { pose proof (end_loop_spec (split_lines t) 0 (end_ loc) (n2 - n) n (length (starts t)) (s2 + length l2 + 1)) as H. replace (n + (n2 - n)) with n2 in H by lia. apply H; [exact C2|lia|right; exists s2; split; [exact B2|lia]|]. apply nth_error_split_lt in C2. lia. }
  destruct (rows_of t (length (digits_of (n2 + 2))) (n2 + 1 - n) n) as (rs & LR & R & FL & FM).
  { intros i Hi. destruct (nth_error (split_lines t) i) as [x|] eqn:X; [eauto|]. apply nth_error_None in X. lia. }
  set (mk := let m := fold_left Nat.max (map byte_len (firstn (n2 + 1 - n) (skipn n (lines t)))) 0 in if 0 <? m then 32%Z :: repeated 94 m else []).
  exists rs, mk. split; [|split; [exact LR|split; [exact R|]]].
  - unfold format. cbv zeta. rewrite F. unfold is_empty. destruct (Nat.eqb_spec (width loc) 0); [contradiction|]. rewrite EL. destruct (Nat.eqb_spec n n2); [lia|]. rewrite FL. rewrite Nat.ltb_irrefl. unfold digits_of in FM. rewrite FM. rewrite B, B2.
    assert (start loc <= end_ loc) by (unfold end_; lia).
    destruct (Nat.ltb_spec (start loc) s); [lia|]. destruct (Nat.ltb_spec (end_ loc) s2); [lia|]. cbn [orb]. fold mk. clearbody mk. unfold head, digits_of. rewrite <- !app_assoc. reflexivity.
  - unfold mk. cbv zeta. match goal with |- (if ?b then _ else _) = _ \/ _ => destruct b; [right; eexists; reflexivity|left; reflexivity] end.
Qed.

Lemma format_total name error trace t loc : (width loc = 0 \/ start loc <= length t /\ end_ loc <= length t + 1) -> exists r, format name error trace t loc = Some r.
Proof.
  intro H. pose proof (split_nonempty t) as NE. pose proof (split_length t) as SL. unfold format. cbv zeta. unfold is_empty at 1. destruct (Nat.eqb_spec (width loc) 0) as [W|W].
  - unfold lineno, is_empty. rewrite W. cbn [Nat.eqb]. destruct (lines t) as [|l ls] eqn:LS; [unfold lines in LS; destruct (split_lines t); [contradiction|discriminate]|]. cbn. eexists. reflexivity.
  - destruct H as [H|[SS E]]; [contradiction|]. set (first := partition_point (fun u => u <=? start loc) (starts t) - 1).
    assert (F : lineno t loc = Some first) by (unfold lineno, is_empty; destruct (Nat.eqb_spec (width loc) 0); [contradiction|reflexivity]).
    assert (LT : nth_error (starts t) (length (split_lines t)) = Some (total (split_lines t))) by (unfold starts; rewrite starts_nth by lia; rewrite firstn_all; reflexivity).
    assert (Q : exists a, nth_error (starts t) first = Some a /\ a <= start loc /\ first < length (split_lines t)).
    { unfold first. pose proof (total_ge t) as TG. assert (LTT : start loc < total (split_lines t)) by lia. clear - NE LTT LT. unfold starts in *. destruct (split_lines t) as [|l ls]; [contradiction|]. clear NE t.
      assert (G : forall ls s, s <= start loc -> start loc < s + total ls -> exists a, nth_error (starts_from s ls) (partition_point (fun u => u <=? start loc) (starts_from s ls) - 1) = Some a /\ a <= start loc /\ partition_point (fun u => u <=? start loc) (starts_from s ls) - 1 < length ls).
      { clear. induction ls as [|l ls IH]; intros s S T; [cbn in T; lia|]. cbn [starts_from partition_point total] in *. destruct (Nat.leb_spec s (start loc)); [|lia]. destruct (Nat.le_gt_cases (s + (byte_len l + 1)) (start loc)) as [Y|Y].
        - destruct (IH (s + (byte_len l + 1)) Y ltac:(lia)) as (a & A & B & C). destruct (partition_point (fun u => u <=? start loc) (starts_from (s + (byte_len l + 1)) ls)) as [|q] eqn:PP.
          + exfalso. destruct ls; cbn [starts_from partition_point] in PP; destruct (Nat.leb_spec (s + (byte_len l + 1)) (start loc)); try lia; discriminate.
          + cbn [Nat.sub] in *. rewrite Nat.sub_0_r in *. exists a. cbn [nth_error length]. repeat split; [exact A|exact B|lia].
        - assert (PP : partition_point (fun u => u <=? start loc) (starts_from (s + (byte_len l + 1)) ls) = 0). { destruct ls; cbn [starts_from partition_point]; destruct (Nat.leb_spec (s + (byte_len l + 1)) (start loc)); try lia; reflexivity. }
          rewrite PP. exists s. cbn [Nat.sub nth_error length]. repeat split; [exact S|lia]. }
      apply (G (l :: ls) 0); lia. }
    destruct Q as (a & A & AS & FL). rewrite F. set (ss := starts t) in *. assert (LSS : length ss = S (length (split_lines t))) by apply starts_length.
    assert (EL : exists last b, end_loop (length ss) ss (end_ loc) first = Some last /\ first <= last < length (split_lines t) /\ nth_error ss last = Some b /\ b <= end_ loc).
    { pose proof (total_ge t) as TG. assert (SE : start loc <= end_ loc) by (unfold end_; lia).
      assert (G : forall f n a, nth_error ss n = Some a -> a <= end_ loc -> n < length (split_lines t) -> length (split_lines t) - n < f -> exists last b, end_loop f ss (end_ loc) n = Some last /\ n <= last < length (split_lines t) /\ nth_error ss last = Some b /\ b <= end_ loc).
      { induction f as [|f IH]; intros n a0 A0 AE NL FF; [lia|]. cbn [end_loop]. destruct (nth_error ss (n + 1)) as [c|] eqn:C; [|apply nth_error_None in C; lia].
        destruct (Nat.ltb_spec c (end_ loc)) as [CE|CE]; [|exists n, a0; repeat split; auto; lia].
        assert (NL' : n + 1 < length (split_lines t)). { destruct (Nat.eq_dec (n + 1) (length (split_lines t))) as [Y|]; [|lia]. rewrite Y, LT in C. injection C as <-. lia. }
        destruct (IH (n + 1) c C ltac:(lia) NL' ltac:(lia)) as (last & b & X1 & X2 & X3 & X4). exists last, b. repeat split; auto; lia. }
      apply (G (length ss) first a); auto; lia. }
    destruct EL as (last & b & EL & BD & LB & BE). rewrite EL.
    assert (LL : length (lines t) = length (split_lines t)) by (unfold lines; apply map_length).
    destruct (Nat.ltb_spec (length (firstn (last + 1 - first) (skipn first (lines t)))) (last + 1 - first)) as [Y|_]; [rewrite firstn_length, skipn_length in Y; lia|].
    unfold is_empty. destruct (Nat.eqb_spec (width loc) 0); [contradiction|]. rewrite A, LB. destruct (Nat.ltb_spec (start loc) a); [lia|]. destruct (Nat.ltb_spec (end_ loc) b); [lia|]. cbn [orb]. eexists. reflexivity.
Qed.

(** ** Traces *)
Definition pend (s : trace_state) : list line := if REPEAT_LIMIT <? prev_count s then [Repeat (prev_count s - REPEAT_LIMIT)] else [].
Definition inv (s : trace_state) (done : list (nat * nat)) : Prop :=
  match prev_frame s with
  | None => out s = [] /\ done = [] /\ prev_count s = 0
  | Some p => read_trace (out s) <> [] /\ List.last (read_trace (out s)) (0, 0) = p /\ done = read_trace (out s) ++ repeat p (prev_count s - REPEAT_LIMIT)
  end.
Lemma read_snoc l x : read_trace (l ++ [x]) = read_line (read_trace l) x.
Proof. unfold read_trace. rewrite fold_left_app. reflexivity. Qed.
Lemma repeat_snoc {A} (x : A) k : repeat x k ++ [x] = repeat x (S k).
Proof. induction k as [|k IH]; [reflexivity|]. cbn [repeat app]. rewrite IH. reflexivity. Qed.
Lemma step_inv s done r : 0 < r -> inv s done -> inv (trace_step s r) (done ++ [(r - 1, prev_ip s)]) /\ prev_ip (trace_step s r) = r - 1.
Proof.
  intros R I. unfold trace_step. destruct (Nat.ltb_spec 0 r); [|lia]. cbv zeta. split; [|reflexivity]. unfold inv. cbn [prev_frame out prev_count]. unfold inv in I. unfold REPEAT_LIMIT in *.
  destruct (prev_frame s) as [[x y]|] eqn:PF; cbn [same_pair].
  - destruct I as (NE & LA & ->). destruct ((x =? fst (r - 1, prev_ip s)) && (y =? snd (r - 1, prev_ip s))) eqn:SM.
    + cbn [fst snd] in SM. apply andb_prop in SM. destruct SM as [S1 S2]. apply Nat.eqb_eq in S1, S2. subst x y. destruct (Nat.leb_spec (prev_count s + 1) 3).
      * rewrite read_snoc. cbn [read_line]. split; [destruct (read_trace (out s)); discriminate|]. split; [apply last_last|]. replace (prev_count s - 3) with 0 by lia. replace (prev_count s + 1 - 3) with 0 by lia. cbn [repeat]. rewrite !app_nil_r. reflexivity.
      * split; [exact NE|]. split; [exact LA|]. rewrite <- app_assoc, repeat_snoc. repeat f_equal. lia.
    + change (0 <=? 3) with true. cbv iota. rewrite read_snoc. cbn [read_line]. split; [intro Q; apply app_eq_nil in Q; destruct Q; discriminate|]. split; [apply last_last|]. cbn [Nat.sub repeat]. rewrite app_nil_r. f_equal.
      destruct (Nat.ltb_spec 3 (prev_count s)); [|replace (prev_count s - 3) with 0 by lia; apply app_nil_r]. rewrite read_snoc. cbn [read_line]. rewrite LA. reflexivity.
  - destruct I as (-> & -> & ->). cbn [Nat.ltb Nat.leb]. change (3 <? 0) with false. change (0 <=? 3) with true. cbv iota. cbn [app read_trace fold_left read_line]. split; [discriminate|]. split; reflexivity.
Qed.
Lemma steps_inv rs : forall s done, inv s done -> inv (fold_left trace_step rs s) (done ++ calls_from (prev_ip s) (filter (fun r => 0 <? r) rs)).
Proof.
  induction rs as [|r rs IH]; intros s done I; cbn [fold_left filter calls_from]; [rewrite app_nil_r; exact I|]. destruct (Nat.ltb_spec 0 r) as [R|R].
  - cbn [calls_from]. destruct (step_inv s done r R I) as [I' P]. specialize (IH _ _ I'). rewrite P in IH. rewrite <- app_assoc in IH. exact IH.
  - assert (E : trace_step s r = s) by (unfold trace_step; destruct (Nat.ltb_spec 0 r); [lia|reflexivity]). rewrite E. apply IH. exact I.
Qed.
Lemma trace_reads ip cs : read_trace (stack_trace ip cs) = calls ip cs.
Proof.
  unfold stack_trace, calls. cbv zeta. pose proof (steps_inv (rev cs) (St [] ip None 0) [] ltac:(cbn; auto)) as I. cbn [app prev_ip] in I. set (s := fold_left trace_step (rev cs) (St [] ip None 0)) in *. clearbody s.
  unfold inv in I. destruct (prev_frame s) as [p|].
  - destruct I as (NE & LA & I). symmetry. etransitivity; [exact I|]. clear I. unfold REPEAT_LIMIT in *. destruct (Nat.ltb_spec 3 (prev_count s)); [|replace (prev_count s - 3) with 0 by lia; rewrite app_nil_r; reflexivity]. rewrite read_snoc. cbn [read_line]. rewrite LA. reflexivity.
  - destruct I as (-> & I & ->). symmetry. etransitivity; [exact I|]. reflexivity.
Qed.

(** owners *)
Lemma find_none fs ip i : (forall f, In f fs -> contains_ip f ip = false) -> find_owning ip i fs = None.
Proof. revert i. induction fs as [|f fs IH]; intros i H; [reflexivity|]. cbn [find_owning]. rewrite (H f (or_introl eq_refl)). apply IH. intros g G. apply H. right. exact G. Qed.
Lemma emitted_after lens : forall pos f, In f (emit_functions pos lens) -> pos <= fst f.
Proof. induction lens as [|n r IH]; intros pos f I; [destruct I|]. destruct I as [<-|I]; [reflexivity|]. specialize (IH _ _ I). lia. Qed.
Lemma owner lens : forall pos k i f ip, (forall n, In n lens -> 0 < n) -> nth_error (emit_functions pos lens) i = Some f -> fst f <= ip <= snd f -> find_owning ip k (emit_functions pos lens) = Some (k + i).
Proof.
  induction lens as [|n r IH]; intros pos k i f ip P E B; [destruct i; discriminate|]. cbn [emit_functions find_owning]. destruct i as [|i].
  - cbn in E. injection E as <-. cbn [fst snd] in B. unfold contains_ip. cbn [fst snd]. destruct (Nat.leb_spec pos ip); [|lia]. destruct (Nat.leb_spec ip (pos + n - 1)); [|lia]. cbn. f_equal. lia.
  - cbn [emit_functions nth_error] in E. pose proof (emitted_after _ _ _ (nth_error_In _ _ E)) as L. pose proof (P n (or_introl eq_refl)). unfold contains_ip. cbn [fst snd]. destruct (Nat.leb_spec ip (pos + n - 1)); [lia|]. rewrite Bool.andb_false_r.
    rewrite (IH (pos + n) (S k) i f ip); [f_equal; lia|intros m M; apply P; right; exact M|exact E|exact B].
Qed.
