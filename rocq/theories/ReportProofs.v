(** Proofs for C72. *)
From Coq Require Import String Lia Arith.
From Verif Require Import Base Native Value Str Report ReportSpec.
Local Open Scope nat_scope.

Lemma split_nonempty t : split_lines t <> [].
Proof. destruct t as [|c r]; [discriminate|]. cbn [split_lines]. destruct (c =? 10)%Z; [discriminate|]. destruct (split_lines r); discriminate. Qed.
Lemma split_app a b : split_lines (a ++ 10%Z :: b) = split_lines a ++ split_lines b.
Proof.
  induction a as [|c a IH]; [reflexivity|]. cbn [app split_lines]. destruct (c =? 10)%Z; [rewrite IH; reflexivity|]. rewrite IH. destruct (split_lines a) eqn:E; [destruct (split_nonempty a E)|reflexivity].
Qed.
Lemma split_one l : ~ In 10%Z l -> split_lines l = [l].
Proof.
  induction l as [|c l IH]; intro H; [reflexivity|]. cbn [split_lines]. destruct (Z.eqb_spec c 10); [subst; destruct H; left; reflexivity|]. rewrite IH; [reflexivity|]. intro I. apply H. right. exact I.
Qed.
Lemma split_length t : length (split_lines t) = S (newlines t).
Proof.
  unfold newlines. induction t as [|c t IH]; [reflexivity|]. cbn [split_lines count_occ]. destruct (Z.eq_dec c 10) as [->|N].
  - rewrite Z.eqb_refl. cbn [length]. rewrite IH. reflexivity.
  - destruct (Z.eqb_spec c 10); [congruence|]. destruct (split_lines t); cbn [length] in *; lia.
Qed.
Lemma byte_len_ascii l : ascii l -> byte_len l = length l.
Proof.
  unfold byte_len, utf8. induction 1 as [|c l A _ IH]; [reflexivity|]. cbn [flat_map length]. rewrite app_length, IH. unfold utf8_char. destruct (Z.ltb_spec c 128); [reflexivity|lia].
Qed.
Lemma char_bytes c : 1 <= length (utf8_char c).
Proof. unfold utf8_char. repeat match goal with |- context [if ?b then _ else _] => destruct b end; cbn [length]; lia. Qed.
Lemma byte_len_ge l : length l <= byte_len l.
Proof. unfold byte_len, utf8. induction l as [|c l IH]; [reflexivity|]. cbn [flat_map length]. rewrite app_length. pose proof (char_bytes c). lia. Qed.

(** total length of lines *)
Fixpoint total (ls : list (list Z)) : nat := match ls with [] => 0 | l :: r => byte_len l + 1 + total r end.
Lemma total_app a b : total (a ++ b) = total a + total b.
Proof. induction a as [|x a IH]; [reflexivity|]. cbn [app total]. lia. Qed.
Lemma starts_nth ls : forall s n, n <= length ls -> nth_error (starts_from s ls) n = Some (s + total (firstn n ls)).
Proof.
  induction ls as [|l ls IH]; intros s n L; [destruct n; [cbn; f_equal; lia|cbn in L; lia]|]. destruct n as [|n]; [cbn; f_equal; lia|]. cbn [length] in L. cbn [starts_from nth_error firstn total]. rewrite IH by lia. f_equal. lia.
Qed.
Lemma starts_length ls s : length (starts_from s ls) = S (length ls).
Proof. revert s. induction ls as [|l ls IH]; intro s; [reflexivity|]. cbn [starts_from length]. rewrite IH. reflexivity. Qed.
Lemma total_ascii t : ascii t -> total (split_lines t) = length t + 1.
Proof.
  unfold ascii. induction 1 as [|c t A F IH]; [reflexivity|]. cbn [split_lines length]. destruct (Z.eqb_spec c 10); [cbn [total]; rewrite IH; cbn; lia|].
  destruct (split_lines t) as [|l ls] eqn:E; [destruct (split_nonempty t E)|]. cbn [total] in *. unfold byte_len, utf8 in *. cbn [flat_map]. rewrite app_length. unfold utf8_char at 1. destruct (Z.ltb_spec c 128); [|lia]. cbn [length]. lia.
Qed.
Lemma total_ge t : length t + 1 <= total (split_lines t).
Proof.
  induction t as [|c t IH]; [reflexivity|]. cbn [split_lines length]. destruct (Z.eqb_spec c 10); [cbn [total]; lia|].
  destruct (split_lines t) as [|l ls] eqn:E; [destruct (split_nonempty t E)|]. cbn [total] in *. unfold byte_len, utf8 in *. cbn [flat_map]. rewrite app_length. pose proof (char_bytes c). lia.
Qed.
Lemma ascii_app a b : ascii (a ++ b) <-> ascii a /\ ascii b.
Proof. unfold ascii. apply Forall_app. Qed.

(** the lines and where they start *)
Lemma line_index t n s l : ascii t -> line_at t n s l -> nth_error (split_lines t) n = Some l /\ nth_error (starts t) n = Some s /\ nth_error (starts t) (n + 1) = Some (s + length l + 1).
Proof.
  intros A (a & b & -> & CN & CL & HA & NL & HB). apply ascii_app in A. destruct A as [Aa A]. apply ascii_app in A. destruct A as [Al Ab].
  assert (SR : split_lines (l ++ b) = l :: (match b with [] => [] | _ :: b' => split_lines b' end)).
  { destruct HB as [->|[b' ->]]; [rewrite app_nil_r; apply split_one; exact NL|]. rewrite split_app, (split_one l NL). reflexivity. }
  assert (E : exists P, split_lines (a ++ l ++ b) = P ++ split_lines (l ++ b) /\ length P = n /\ total P = s).
  { destruct HA as [->|[a' ->]].
    - exists []. cbn in CN, CL. subst. repeat split.
    - exists (split_lines a'). rewrite <- app_assoc. cbn [app]. rewrite split_app. split; [reflexivity|]. rewrite split_length. unfold newlines in *. rewrite count_occ_app in CN. cbn in CN.
      apply ascii_app in Aa. rewrite (total_ascii a' (proj1 Aa)). rewrite app_length in CL. cbn in CL. split; lia. }
  destruct E as (P & E & LP & TP). unfold starts. rewrite E, SR. split; [|split].
  - rewrite nth_error_app2 by lia. replace (n - length P) with 0 by lia. reflexivity.
  - rewrite starts_nth by (rewrite app_length; cbn [length]; lia). rewrite <- LP, firstn_app, firstn_all, Nat.sub_diag. cbn [firstn]. rewrite app_nil_r. f_equal. lia.
  - rewrite starts_nth by (rewrite app_length; cbn [length]; lia). rewrite firstn_app, firstn_all2 by lia. replace (n + 1 - length P) with 1 by lia. cbn [firstn]. rewrite total_app. cbn [total]. rewrite (byte_len_ascii l Al). f_equal. lia.
Qed.
Lemma lines_nth t n l : nth_error (split_lines t) n = Some l -> nth_error (lines t) n = Some (strip_cr l).
Proof. intro E. unfold lines. rewrite nth_error_map, E. reflexivity. Qed.

(** starts are increasing *)
Lemma pp_spec ls : forall s n x a b, nth_error (starts_from s ls) n = Some a -> nth_error (starts_from s ls) (n + 1) = Some b -> a <= x < b -> partition_point (fun u => u <=? x) (starts_from s ls) = n + 1.
Proof.
  induction ls as [|l ls IH]; intros s n x a b A B L; [destruct n as [|[|n]]; cbn in B; discriminate|].
  cbn [starts_from partition_point] in *. destruct n as [|n].
  - cbn in A. injection A as <-. destruct (Nat.leb_spec s x); [|lia]. destruct ls; cbn in B; injection B as <-; cbn [starts_from partition_point]; (destruct (Nat.leb_spec (s + (byte_len l + 1)) x); [lia|reflexivity]).
  - cbn [nth_error] in A. change (S n + 1) with (S (n + 1)) in B. cbn [nth_error] in B.
    assert (LS : s <= a). { assert (Q : n <= length ls). { apply Nat.lt_succ_r. rewrite <- (starts_length ls (s + (byte_len l + 1))). apply nth_error_Some. congruence. } rewrite starts_nth in A by exact Q. injection A as <-. lia. }
    destruct (Nat.leb_spec s x); [|lia]. rewrite (IH _ _ _ _ _ A B L). lia.
Qed.
Lemma starts_mono ls s n m a b : nth_error (starts_from s ls) n = Some a -> nth_error (starts_from s ls) m = Some b -> n < m -> a < b.
Proof.
  intros A B L. assert (Qm : m <= length ls). { apply Nat.lt_succ_r. rewrite <- (starts_length ls s). apply nth_error_Some. congruence. }
  rewrite starts_nth in A by lia. rewrite starts_nth in B by lia. injection A as <-. injection B as <-.
  replace m with (n + S (m - n - 1)) by lia. assert (G : forall ls n k, n + S k <= length ls -> total (firstn n ls) < total (firstn (n + S k) ls)).
  { clear. induction ls as [|x ls IH]; intros n k L; [cbn in L; lia|]. destruct n as [|n]; [cbn [plus firstn total]; lia|]. cbn [plus firstn total length] in *. specialize (IH n k). lia. }
  specialize (G ls n (m - n - 1)). lia.
Qed.
(** the last line of a location *)
Lemma end_loop_spec ls s e : forall k n f b, nth_error (starts_from s ls) (n + k + 1) = Some b -> e <= b -> (k = 0 \/ exists a, nth_error (starts_from s ls) (n + k) = Some a /\ a < e) -> k < f -> end_loop f (starts_from s ls) e n = Some (n + k).
Proof.
  induction k as [|k IH]; intros n f b B L A F; (destruct f as [|f]; [lia|]); cbn [end_loop].
  - rewrite Nat.add_0_r in *. rewrite B. destruct (Nat.ltb_spec b e); [lia|reflexivity].
  - destruct A as [A|(a & A & AE)]; [discriminate|].
    assert (Q : exists c, nth_error (starts_from s ls) (n + 1) = Some c /\ c <= a).
    { destruct (nth_error (starts_from s ls) (n + 1)) as [c|] eqn:C; [|apply nth_error_None in C; assert (H : n + S k < length (starts_from s ls)) by (apply nth_error_Some; congruence); lia].
      exists c. split; [reflexivity|]. destruct k; [replace (n + 1) with (n + 1) in A by lia; rewrite A in C; injection C as ->; lia|]. pose proof (starts_mono ls s (n + 1) (n + S (S k)) c a C A ltac:(lia)). lia. }
    destruct Q as (c & C & CA). rewrite C. destruct (Nat.ltb_spec c e); [|lia]. rewrite (IH (n + 1) f b).
    + f_equal. lia.
    + replace (n + 1 + k + 1) with (n + S k + 1) by lia. exact B.
    + exact L.
    + destruct k; [left; reflexivity|]. right. exists a. replace (n + 1 + S k) with (n + S (S k)) by lia. auto.
    + lia.
Qed.
Lemma fst_line t n s l x : ascii t -> line_at t n s l -> s <= x <= s + length l -> partition_point (fun u => u <=? x) (starts t) - 1 = n.
Proof. intros A L X. destruct (line_index t n s l A L) as (_ & B & C). unfold starts in *. rewrite (pp_spec _ _ n x _ _ B C) by lia. lia. Qed.

Lemma nth_error_split_lt {A} (l : list A) n x : nth_error l n = Some x -> n < length l.
Proof. intro E. apply nth_error_Some. congruence. Qed.
Lemma skipn_nth {A} (l : list A) n x : nth_error l n = Some x -> skipn n l = x :: skipn (S n) l.
Proof. revert n. induction l as [|y l IH]; intros [|n] E; try discriminate; cbn in E; [injection E as ->; reflexivity|]. cbn [skipn]. rewrite (IH n E). destruct l; reflexivity. Qed.

Lemma strip_length l : length (strip_cr l) <= length l <= length (strip_cr l) + 1.
Proof. induction l as [|c [|d l] IH]; [cbn; lia|cbn [strip_cr]; destruct (c =? 13)%Z; cbn; lia|]. cbn [strip_cr length] in *. cbn [strip_cr length] in IH. lia. Qed.

(** the rows *)
Lemma rows_of t w : forall k n, (forall i, n <= i < n + k -> exists l, nth_error (split_lines t) i = Some l) ->
  exists rs, length rs = k /\ (forall i r, nth_error rs i = Some r -> exists l, nth_error (split_lines t) (n + i) = Some l /\ r = row w (n + i) l) /\ length (firstn k (skipn n (lines t))) = k /\
    flat_map (fun p => padded w (fst p + 1) ++ Scan.text " |" ++ (match snd p with [] => [] | l => 32%Z :: l end) ++ [10%Z]) (combine (seq n k) (firstn k (skipn n (lines t)))) = concat rs.
Proof.
  induction k as [|k IH]; intros n H; [exists []; repeat split; intros [|i] r E; discriminate|].
  destruct (H n ltac:(lia)) as [l E]. destruct (IH (S n)) as (rs & LR & R & FL & F); [intros i I; apply H; lia|]. exists (row w n l :: rs).
  pose proof (skipn_nth _ _ _ (lines_nth t n l E)) as SK. rewrite SK. cbn [firstn length seq combine flat_map concat fst snd]. rewrite F. repeat split; [lia| |lia].
  intros [|i] r X; cbn in X; [injection X as <-; exists l; rewrite Nat.add_0_r; auto|]. destruct (R i r X) as (l' & A & B). exists l'. replace (n + S i) with (S n + i) by lia. auto.
Qed.
