(** Proofs for C73. *)
From Coq Require Import String Lia Arith.
From Verif Require Import Base Seq SeqProofs Incr Struct StructSpec.
Local Open Scope nat_scope.

Lemma str_refl a : String.eqb a a = true. Proof. apply String.eqb_refl. Qed.
Lemma get_put {V} k (v : V) l k' : get String.eqb k' (put String.eqb k v l) = if String.eqb k k' then Some v else get String.eqb k' l.
Proof.
  induction l as [|[a w] l IH]; cbn [put get]; [reflexivity|]. destruct (String.eqb_spec a k) as [->|N]; cbn [get].
  - destruct (String.eqb k k'); reflexivity.
  - destruct (String.eqb_spec a k') as [->|N']; [|exact IH]. destruct (String.eqb_spec k k'); [congruence|reflexivity].
Qed.
Lemma pair_eqb_spec a b : reflect (a = b) (pair_eqb a b).
Proof. unfold pair_eqb. destruct a as [a1 a2], b as [b1 b2]. cbn. destruct (Nat.eqb_spec a1 b1), (Nat.eqb_spec a2 b2); constructor; congruence. Qed.
Lemma getp_put {V} k (v : V) l k' : get pair_eqb k' (put pair_eqb k v l) = if pair_eqb k k' then Some v else get pair_eqb k' l.
Proof.
  induction l as [|[a w] l IH]; cbn [put get]; [reflexivity|]. destruct (pair_eqb_spec a k) as [->|N]; cbn [get].
  - destruct (pair_eqb k k'); reflexivity.
  - destruct (pair_eqb_spec a k') as [->|N']; [|exact IH]. destruct (pair_eqb_spec k k'); [congruence|reflexivity].
Qed.
Lemma put_length {V} k (v : V) l : length (put String.eqb k v l) = match get String.eqb k l with Some _ => length l | None => S (length l) end.
Proof. induction l as [|[a w] l IH]; cbn [put get]; [reflexivity|]. destruct (String.eqb a k); cbn [length]; [reflexivity|]. rewrite IH. destruct (get String.eqb k l); reflexivity. Qed.

Definition idx (f : fields) (n : string) : option nat := option_map field_index (get String.eqb n (names f)).
Definition off (f : fields) (t : nat) (n : string) : option nat := match idx f n with Some i => get_offset f t i | None => None end.
Record inv (f : fields) : Prop := Inv {
  i_bound : forall n i, idx f n = Some i -> i < length (names f);
  i_inj : forall n m i, idx f n = Some i -> idx f m = Some i -> n = m;
  i_off : forall t i o, get_offset f t i = Some o -> i < length (names f) /\ t < types f }.

Lemma inv_start : inv (Fields [] [] 0).
Proof. split; cbn; discriminate. Qed.
Lemma inv_type f : inv f -> inv (fst (declare_type f)).
Proof. intros [A B C]. split; cbn; [exact A|exact B|]. intros t i o H. destruct (C t i o H). split; [assumption|lia]. Qed.
Lemma idx_declare name t o f m : idx (declare_field_offset name t o f) m = if String.eqb name m then Some (match idx f name with Some i => i | None => length (names f) end) else idx f m.
Proof. unfold idx, declare_field_offset. cbn [names]. rewrite get_put. destruct (String.eqb name m); [|reflexivity]. cbn. destruct (get String.eqb name (names f)); reflexivity. Qed.
Lemma idx_resolve name b f m : idx (resolve_field name b f) m = if String.eqb name m then Some (match idx f name with Some i => i | None => length (names f) end) else idx f m.
Proof.
  unfold idx, resolve_field. destruct (get String.eqb name (names f)) eqn:G; cbn [names].
  - destruct (String.eqb_spec name m) as [->|]; [rewrite G; reflexivity|reflexivity].
  - rewrite get_put. destruct (String.eqb name m); reflexivity.
Qed.
Lemma names_len_put name r (f : fields) : length (names f) <= length (put String.eqb name r (names f)).
Proof. rewrite put_length. destruct (get String.eqb name (names f)); lia. Qed.
Lemma inv_declare name t o f : inv f -> t < types f -> inv (declare_field_offset name t o f).
Proof.
  intros [A B C] T. split.
  - intros n i H. rewrite idx_declare in H. unfold declare_field_offset. cbn [names]. rewrite put_length. destruct (String.eqb_spec name n) as [->|N].
    + injection H as <-. unfold idx. destruct (get String.eqb n (names f)) as [r|] eqn:G; cbn; [apply (A n); unfold idx; rewrite G; reflexivity|lia].
    + specialize (A _ _ H). destruct (get String.eqb name (names f)); lia.
  - intros n m i H1 H2. rewrite idx_declare in H1, H2. destruct (String.eqb_spec name n) as [E1|N1], (String.eqb_spec name m) as [E2|N2]; [congruence| | |].
    + subst n. injection H1 as <-. destruct (idx f name) as [j|] eqn:J; [apply (B name m j J H2)|]. apply A in H2. lia.
    + subst m. injection H2 as <-. destruct (idx f name) as [j|] eqn:J; [apply (B n name j H1 J)|]. apply A in H1. lia.
    + apply (B n m i); assumption.
  - intros t' i o' H. unfold get_offset, declare_field_offset in H. cbn [lookup] in H. rewrite getp_put in H. unfold declare_field_offset. cbn [names types]. destruct (pair_eqb_spec (t, match get String.eqb name (names f) with Some r => field_index r | None => length (names f) end) (t', i)) as [E|N].
    + injection E as -> <-. split; [|exact T]. rewrite put_length. destruct (get String.eqb name (names f)) as [r|] eqn:G; [|lia]. apply (A name). unfold idx. rewrite G. reflexivity.
    + destruct (C t' i o' H). split; [|assumption]. pose proof (names_len_put name (FieldRef match get String.eqb name (names f) with Some r => field_index r | None => length (names f) end false) f). lia.
Qed.
Lemma inv_resolve name b f : inv f -> inv (resolve_field name b f).
Proof.
  intros [A B C]. pose proof (fun m => idx_resolve name b f m) as IR. assert (L : length (names f) <= length (names (resolve_field name b f)) /\ (idx f name = None -> length (names f) < length (names (resolve_field name b f)))).
  { unfold resolve_field, idx. destruct (get String.eqb name (names f)) eqn:G; cbn [names]; [split; [lia|discriminate]|]. rewrite put_length, G. split; lia. }
  split.
  - intros n i H. rewrite IR in H. destruct (String.eqb_spec name n) as [->|N]; [|apply A in H; lia]. injection H as <-. destruct (idx f n) as [j|] eqn:J; [apply A in J; lia|destruct L as [_ L]; specialize (L eq_refl); lia].
  - intros n m i H1 H2. rewrite IR in H1, H2. destruct (String.eqb_spec name n) as [E1|N1], (String.eqb_spec name m) as [E2|N2]; [congruence| | |].
    + subst n. injection H1 as <-. destruct (idx f name) as [j|] eqn:J; [apply (B name m j J H2)|]. apply A in H2. lia.
    + subst m. injection H2 as <-. destruct (idx f name) as [j|] eqn:J; [apply (B n name j H1 J)|]. apply A in H1. lia.
    + apply (B n m i); assumption.
  - intros t i o H. assert (GO : get_offset (resolve_field name b f) t i = get_offset f t i /\ types (resolve_field name b f) = types f) by (unfold resolve_field; destruct (get String.eqb name (names f)); split; reflexivity). destruct GO as [G1 G2]. rewrite G1 in H. rewrite G2. destruct (C _ _ _ H). split; [lia|assumption].
Qed.
Lemma off_declare name t o f t' m : inv f -> off (declare_field_offset name t o f) t' m = if (t =? t') && String.eqb name m then Some o else off f t' m.
Proof.
  intros [A B C]. unfold off. rewrite idx_declare. unfold get_offset, declare_field_offset. cbn [lookup]. fold (get_offset f).
  assert (K : match get String.eqb name (names f) with Some r => field_index r | None => length (names f) end = match idx f name with Some i => i | None => length (names f) end) by (unfold idx; destruct (get String.eqb name (names f)); reflexivity). rewrite K. clear K.
  destruct (String.eqb_spec name m) as [->|N].
  - rewrite getp_put. destruct (pair_eqb_spec (t, match idx f m with Some i => i | None => length (names f) end) (t', match idx f m with Some i => i | None => length (names f) end)) as [E|E].
    + injection E as ->. rewrite Nat.eqb_refl. reflexivity.
    + destruct (Nat.eqb_spec t t') as [->|]; [contradiction|]. cbn [andb]. destruct (idx f m) as [i|] eqn:I; [reflexivity|]. destruct (get pair_eqb (t', length (names f)) (lookup f)) eqn:G; [|reflexivity]. destruct (C t' (length (names f)) n0 G). lia.
  - rewrite Bool.andb_false_r. destruct (idx f m) as [i|] eqn:I; [|reflexivity]. rewrite getp_put. destruct (pair_eqb_spec (t, match idx f name with Some i => i | None => length (names f) end) (t', i)) as [E|E]; [|reflexivity].
    exfalso. injection E as _ E. destruct (idx f name) as [j|] eqn:J; [subst; apply N; apply (B _ _ i J I)|]. apply A in I. lia.
Qed.
Lemma off_resolve name b f t m : inv f -> off (resolve_field name b f) t m = off f t m.
Proof.
  intros [A B C]. unfold off. rewrite idx_resolve. assert (G : forall i, get_offset (resolve_field name b f) t i = get_offset f t i) by (unfold resolve_field; destruct (get String.eqb name (names f)); reflexivity).
  destruct (String.eqb_spec name m) as [->|N]; [|destruct (idx f m); auto]. rewrite G. destruct (idx f m) as [i|] eqn:I; [reflexivity|]. destruct (get_offset f t (length (names f))) eqn:GO; [|reflexivity]. destruct (C _ _ _ GO). lia.
Qed.
Lemma types_declare n t o f : types (declare_field_offset n t o f) = types f. Proof. reflexivity. Qed.
Lemma types_resolve n b f : types (resolve_field n b f) = types f. Proof. unfold resolve_field. destruct (get String.eqb n (names f)); reflexivity. Qed.
Lemma off_new f t m : inv f -> types f <= t -> off f t m = None.
Proof. intros [A B C] T. unfold off. destruct (idx f m) as [i|]; [|reflexivity]. destruct (get_offset f t i) eqn:G; [|reflexivity]. apply C in G. lia. Qed.

(** [use_all] *)
Lemma use_all_facts l : forall f, inv f -> inv (use_all l f) /\ types (use_all l f) = types f /\ (forall t m, off (use_all l f) t m = off f t m) /\ (forall n i, idx f n = Some i -> idx (use_all l f) n = Some i) /\ (forall n, In n l -> idx (use_all l f) n <> None).
Proof.
  induction l as [|n l IH]; intros f I; [cbn; split; [exact I|]; split; [reflexivity|]; split; [reflexivity|]; split; [auto|intros ? []]|]. unfold use_all in *. cbn [fold_left]. specialize (IH _ (inv_resolve n true f I)). destruct IH as (I1 & I2 & I3 & I4 & I5). split; [exact I1|]. split; [rewrite I2; apply types_resolve|]. split; [intros t m; rewrite I3; apply off_resolve; exact I|]. split.
  - intros k i H. apply I4. rewrite idx_resolve. destruct (String.eqb_spec n k) as [->|]; [rewrite H; reflexivity|exact H].
  - intros k [->|K]; [|apply I5; exact K]. specialize (I4 k (match idx f k with Some i => i | None => length (names f) end)). rewrite I4; [discriminate|]. rewrite idx_resolve, str_refl. reflexivity.
Qed.

(** position of a name *)
Fixpoint pos (n : string) (l : list string) : option nat := match l with [] => None | x :: r => if String.eqb x n then Some 0 else option_map S (pos n r) end.
Lemma pos_app n l r : pos n (l ++ r) = match pos n l with Some i => Some i | None => option_map (fun i => length l + i) (pos n r) end.
Proof. induction l as [|x l IH]; cbn [app pos length]; [destruct (pos n r); reflexivity|]. destruct (String.eqb x n); [reflexivity|]. rewrite IH. destruct (pos n l); [reflexivity|]. destruct (pos n r); reflexivity. Qed.
Lemma pos_none n l : pos n l = None <-> ~ In n l.
Proof.
  induction l as [|x l IH]; [split; [intros _ []|reflexivity]|]. cbn [pos In]. destruct (String.eqb_spec x n) as [->|N]; [split; [discriminate|intro H; exfalso; apply H; left; reflexivity]|].
  destruct (pos n l) as [i|]; cbn [option_map].
  - split; [discriminate|]. intro H. exfalso. assert (~ In n l) by tauto. apply IH in H0. discriminate.
  - split; [|reflexivity]. intros _ [Q|Q]; [contradiction|]. destruct IH as [IH _]. exact (IH eq_refl Q).
Qed.
Lemma pos_nth n l i : pos n l = Some i -> nth_error l i = Some n.
Proof. revert i. induction l as [|x l IH]; intros i H; [discriminate|]. cbn in H. destruct (String.eqb_spec x n) as [->|N]; [injection H as <-; reflexivity|]. destruct (pos n l) as [j|]; [|discriminate]. injection H as <-. apply IH. reflexivity. Qed.
Lemma nth_pos n l i : NoDup l -> nth_error l i = Some n -> pos n l = Some i.
Proof.
  revert i. induction l as [|x l IH]; intros i ND H; [destruct i; discriminate|]. inversion ND; subst. cbn. destruct i as [|i]; cbn in H.
  - injection H as ->. rewrite str_refl. reflexivity.
  - destruct (String.eqb_spec x n) as [->|N]; [exfalso; apply H2; apply (nth_error_In _ _ H)|]. rewrite (IH i H3 H). reflexivity.
Qed.
Lemma has_in n l : has n l = true <-> In n l.
Proof. unfold has. rewrite existsb_exists. split; [intros (x & I & E); apply String.eqb_eq in E; subst; exact I|intro I; exists n; split; [exact I|apply str_refl]]. Qed.

Lemma NoDup_app_snoc_or {A} (l : list A) x : NoDup l -> ~ In x l -> NoDup (l ++ [x]).
Proof. intros ND NI. apply NoDup_rev in ND. rewrite <- (rev_involutive (l ++ [x])). apply NoDup_rev. rewrite rev_app_distr. cbn. constructor; [rewrite <- in_rev; exact NI|exact ND]. Qed.
(** fields *)
Ltac parts := repeat match goal with |- _ /\ _ => split end.
Definition keep (f f' : fields) := forall n i, idx f n = Some i -> idx f' n = Some i.
Lemma keep_refl f : keep f f. Proof. intros n i H. exact H. Qed.
Lemma keep_trans f g h : keep f g -> keep g h -> keep f h. Proof. intros A B n i H. auto. Qed.
Lemma keep_declare n t o f : keep f (declare_field_offset n t o f).
Proof. intros m i H. rewrite idx_declare. destruct (String.eqb_spec n m) as [->|]; [rewrite H; reflexivity|exact H]. Qed.
Lemma fields_loop it l : forall f fs b, inv f -> it < types f -> (forall m, off f it m = pos m fs) -> NoDup fs -> exists f' fs' b',
  fold_left (fun x n => declare_field it n x) l (f, fs, b) = (f', fs', b') /\ inv f' /\ types f' = types f /\ keep f f' /\ (forall m, off f' it m = pos m fs') /\ (forall t m, t <> it -> off f' t m = off f t m) /\ (NoDup (fs ++ l) -> fs' = fs ++ l /\ b' = b) /\ (b' = true -> b = true /\ NoDup (fs ++ l)) /\ NoDup fs'.
Proof.
  induction l as [|n l IH]; intros f fs b I T O ND; cbn [fold_left].
  - exists f, fs, b. rewrite app_nil_r. parts; auto using keep_refl.
  - unfold declare_field at 2. destruct (has n fs) eqn:Hn.
    + apply has_in in Hn. assert (BAD : ~ NoDup (fs ++ n :: l)) by (intro Q; apply NoDup_remove_2 in Q; apply Q; apply in_or_app; auto).
      destruct (IH f fs false I T O ND) as (f' & fs' & b' & E & X1 & X2 & X3 & X4 & X5 & X6 & X7 & X8). exists f', fs', b'. rewrite E. parts; auto; try (intro Q; contradiction). intro Q. destruct (X7 Q). discriminate.
    + assert (NI : ~ In n fs) by (intro Q; apply has_in in Q; congruence).
      destruct (IH (declare_field_offset n it (length fs) f) (fs ++ [n]) b) as (f' & fs' & b' & E & X1 & X2 & X3 & X4 & X5 & X6 & X7 & X8).
      * apply inv_declare; assumption.
      * exact T.
      * intro m. rewrite off_declare by exact I. rewrite Nat.eqb_refl. cbn [andb]. rewrite pos_app, O. cbn [pos]. destruct (String.eqb_spec n m) as [->|N].
        -- apply pos_none in NI. rewrite NI. cbn. rewrite Nat.add_0_r. reflexivity.
        -- cbn. destruct (pos m fs); reflexivity.
      * apply NoDup_app_snoc_or. exact ND. exact NI.
      * exists f', fs', b'. rewrite <- app_assoc in X6, X7. cbn [app] in X6, X7. split; [exact E|]. split; [exact X1|]. split; [exact X2|]. split; [eapply keep_trans; [apply keep_declare|exact X3]|]. split; [exact X4|]. split; [|parts; auto].
        intros t m N. rewrite X5 by exact N. rewrite off_declare by exact I. destruct (Nat.eqb_spec it t); [congruence|reflexivity].
Qed.
