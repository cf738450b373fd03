(** Proofs for C73: running. *)
From Coq Require Import String Lia Arith.
From Verif Require Import Base Seq SeqProofs Incr Struct StructSpec StructProofs StructProofs2.
Local Open Scope nat_scope.

Lemma get_in {V} k (v : V) l : get String.eqb k l = Some v -> In (k, v) l.
Proof. induction l as [|[a w] l IH]; cbn; [discriminate|]. destruct (String.eqb_spec a k) as [->|]; [intro H; injection H as ->; auto|auto]. Qed.
Lemma in_get {V} k (v : V) l : NoDup (map fst l) -> In (k, v) l -> get String.eqb k l = Some v.
Proof.
  induction l as [|[a w] l IH]; cbn [get map fst]; intro ND; [intros []|]; intros [H|H]; [injection H as -> ->; rewrite str_refl; reflexivity|]. inversion ND; subst. destruct (String.eqb_spec a k) as [->|]; [exfalso; apply H2; apply in_map_iff; exists (k, v); auto|auto].
Qed.
Lemma compile_inv l s : compile l = Some s -> s = declare_all l start /\ ok s = true /\ existsb (fun e => undeclared (snd e)) (names (fields_of s)) = false.
Proof. unfold compile. cbv zeta. destruct (ok (declare_all l start) && negb (existsb (fun e => undeclared (snd e)) (names (fields_of (declare_all l start))))) eqn:E; [|discriminate]. intro H. injection H as <-. apply andb_prop in E. destruct E as [E1 E2]. apply Bool.negb_true_iff in E2. auto. Qed.
Lemma nodup_names l : ok (declare_all l start) = true -> NoDup (map fst (names (fields_of (declare_all l start)))).
Proof. intro B. apply (u_nodup _ _ _ _ (g_u _ _ (good_all l) B)). constructor. Qed.
Lemma undeclared_iff f : NoDup (map fst (names f)) -> existsb (fun e => undeclared (snd e)) (names f) = true <-> exists n, und f n = Some true.
Proof.
  intro ND. rewrite existsb_exists. split.
  - intros ([n r] & I & E). exists n. unfold und. rewrite (in_get n r _ ND I). cbn in *. congruence.
  - intros [n E]. unfold und in E. destruct (get String.eqb n (names f)) as [r|] eqn:G; [|discriminate]. exists (n, r). split; [apply get_in; exact G|]. cbn in *. congruence.
Qed.
Lemma verdict l : compile l <> None <-> (forall x, In x l -> distinct_members x) /\ (forall n x, In x l -> uses_item n x -> exists y, In y l /\ member n y).
Proof.
  pose proof (good_all l) as G. rewrite <- (g_ok _ _ G). unfold compile. cbv zeta. destruct (ok (declare_all l start)) eqn:B; cbn [andb]; [|split; [congruence|intros [Q _]; discriminate]].
  pose proof (nodup_names l B) as ND. pose proof (undeclared_iff _ ND) as UI. pose proof (g_u _ _ G B) as [A1 A2 A3 A4 A5 A6 A7 A8]. cbn in *.
  destruct (existsb (fun e => undeclared (snd e)) (names (fields_of (declare_all l start)))) eqn:E; cbn [negb].
  - split; [congruence|]. intros [_ H]. exfalso. destruct (proj1 UI eq_refl) as [n Q]. destruct (A5 n Q) as [R|(x & X & R)]; [discriminate|]. destruct (H n x X R) as (y & Y & M). assert (und (fields_of (declare_all l start)) n = Some false) by (apply A3; eauto). congruence.
  - split; [|congruence]. intros _. split; [reflexivity|]. intros n x X R. specialize (A4 n (ex_intro _ x (conj X R))). destruct (und (fields_of (declare_all l start)) n) as [[]|] eqn:Q; [exfalso|clear A4|congruence].
    + assert (false = true) by (apply UI; eauto). discriminate.
    + destruct (A6 n Q) as [R'|R']; [discriminate|exact R'].
Qed.
Lemma index_idx s n : index_at s n = idx (fields_of s) n. Proof. reflexivity. Qed.
Lemma declare_all_app l1 l2 s : declare_all (l1 ++ l2) s = declare_all l2 (declare_all l1 s). Proof. apply fold_left_app. Qed.
Lemma declare_keep x s : keep (fields_of s) (fields_of (declare x s)).
Proof.
  destruct x as [n|module name fs ms]; cbn [declare].
  - apply (u_keep _ _ _ _ (U_resolve n (fields_of s))).
  - unfold declare_type. cbn [names lookup types]. set (f2 := Fields (names (fields_of s)) (lookup (fields_of s)) (S (S (types (fields_of s))))). assert (K2 : keep (fields_of s) f2) by (intros n i H; exact H).
    assert (K3 : forall l f fs b, keep f (fst (fst (fold_left (fun x n => declare_field (types (fields_of s)) n x) l (f, fs, b))))).
    { induction l as [|n l IH]; intros f gs b; cbn [fold_left]; [apply keep_refl|]. unfold declare_field at 2. destruct (has n gs); [apply IH|]. eapply keep_trans; [apply keep_declare|apply IH]. }
    assert (K4 : forall l gs f ms nc b, keep f (fst (fst (fst (fold_left (fun x m => declare_method (S (types (fields_of s))) gs m x) l (f, ms, nc, b)))))).
    { induction l as [|m l IH]; intros gs f ms0 nc b; cbn [fold_left]; [apply keep_refl|]. unfold declare_method at 2. eapply keep_trans; [|apply IH]. eapply keep_trans; [exact (u_keep _ _ _ _ (U_use (muses_params m) f))|]. eapply keep_trans; [apply keep_declare|exact (u_keep _ _ _ _ (U_use (muses m) _))]. }
    destruct (if module then (f2, [], ok s) else fold_left (fun x n => declare_field (types (fields_of s)) n x) fs (f2, [], ok s)) as [[f3 fs3] b3] eqn:E3. assert (K : keep f2 f3). { destruct module; [injection E3 as <- _ _; apply keep_refl|]. specialize (K3 fs f2 [] (ok s)). rewrite E3 in K3. exact K3. }
    specialize (K4 ms fs3 f3 [] (nconst s) b3). destruct (fold_left (fun x m => declare_method (S (types (fields_of s))) fs3 m x) ms (f3, [], nconst s, b3)) as [[[f4 ms4] nc4] b4]. cbn [fields_of fst] in *. eapply keep_trans; [exact K2|]. eapply keep_trans; eassumption.
Qed.
Lemma index_stable l1 l2 s n i : compile (l1 ++ l2) = Some s -> index_at (declare_all l1 start) n = Some i -> index_at s n = Some i.
Proof.
  intros C H. apply compile_inv in C. destruct C as (-> & _). rewrite declare_all_app. generalize dependent (declare_all l1 start). induction l2 as [|x l2 IH]; intros s H; [exact H|]. cbn [declare_all fold_left]. apply IH. apply declare_keep. exact H.
Qed.
Lemma und_idx f n : und f n <> None -> exists i, idx f n = Some i.
Proof. unfold und, idx. destruct (get String.eqb n (names f)) as [r|]; [cbn; eauto|cbn; congruence]. Qed.
Lemma index_used l s n x : compile l = Some s -> In x l -> uses_item n x \/ member n x -> exists i, index_at s n = Some i.
Proof.
  intros C X H. apply compile_inv in C. destruct C as (-> & B & _). pose proof (g_u _ _ (good_all l) B) as [A1 A2 A3 A4 A5 A6 A7 A8]. rewrite index_idx. apply und_idx. destruct H as [H|H]; [apply A4; eauto|rewrite A3; [discriminate|eauto]].
Qed.
Lemma F2_get {A B} (R : A -> B -> Prop) l l' : Forall2 R l l' -> forall k x, nth_error l k = Some x -> exists y, nth_error l' k = Some y /\ R x y.
Proof. induction 1; intros [|k] z E; try discriminate; [injection E as <-; cbn; eauto|cbn in *; eauto]. Qed.
Lemma types_exist l s : compile l = Some s -> (forall x, In x l -> is_decl x = true -> exists t, declares l s x t) /\
  (forall k1 k2 t1 t2, nth_error (types_of s) k1 = Some t1 -> nth_error (types_of s) k2 = Some t2 -> instance_type t1 = instance_type t2 -> k1 = k2).
Proof.
  intro C. apply compile_inv in C. destruct C as (-> & B & _). pose proof (good_all l) as G. split.
  - intros x X D. assert (I : In x (filter is_decl l)) by (apply filter_In; auto). destruct (In_nth_error _ _ I) as [k K]. destruct (F2_get _ _ _ (g_shape _ _ G B) k x K) as (t & T & _). exists t, k. auto.
  - intros k1 k2 t1 t2 H1 H2 E. destruct (g_number _ _ G _ _ H1), (g_number _ _ G _ _ H2). lia.
Qed.
(** what a declaration gives *)
Lemma declared_facts l s x t : compile l = Some s -> declares l s x t -> shape x t /\ In t (types_of s).
Proof.
  intros C (k & K & T). apply compile_inv in C. destruct C as (-> & B & _). destruct (F2_get _ _ _ (g_shape _ _ (good_all l) B) k x K) as (t' & T' & S'). rewrite T in T'. injection T' as <-. split; [exact S'|apply (nth_error_In _ _ T)].
Qed.
Lemma shape_fields x t : shape x t -> tfields t = fields_of_decl x /\ map fst (tmethods t) = map mname (methods_of_decl x) /\ map (fun e => instance (snd e)) (tmethods t) = map mself (methods_of_decl x).
Proof. destruct x as [n|module name fs ms]; [intros []|]. intros (A & B & C & D & E). auto. Qed.
Lemma type_offsets l s t n i : compile l = Some s -> In t (types_of s) -> index_at s n = Some i ->
  NoDup (tfields t ++ map fst (tmethods t)) /\ get_offset (fields_of s) (instance_type t) i = pos n (tfields t) /\ get_offset (fields_of s) (constructor_type t) i = pos n (map fst (tmethods t)).
Proof.
  intros C T I. apply compile_inv in C. destruct C as (-> & B & _). destruct (g_off _ _ (good_all l) B t T) as [ND O]. split; [exact ND|]. destruct (O n) as [O1 O2]. unfold off in O1, O2. rewrite index_idx in I. rewrite I in O1, O2. auto.
Qed.
Lemma member_index l s t n : compile l = Some s -> In t (types_of s) -> In n (tfields t ++ map fst (tmethods t)) -> exists i, index_at s n = Some i.
Proof.
  intros C T I. apply compile_inv in C. destruct C as (-> & B & _). destruct (g_off _ _ (good_all l) B t T) as [ND O]. destruct (O n) as [O1 O2]. rewrite index_idx. unfold off in *. destruct (idx (fields_of (declare_all l start)) n) as [i|]; [eauto|]. symmetry in O1, O2. apply pos_none in O1, O2. apply in_app_or in I. tauto.
Qed.
Lemma pos_in n l : In n l -> exists i, pos n l = Some i.
Proof. intro H. destruct (pos n l) eqn:E; [eauto|]. apply pos_none in E. contradiction. Qed.
Lemma pos_lt n l i : pos n l = Some i -> i < length l.
Proof. intro H. apply pos_nth in H. apply nth_error_Some. congruence. Qed.

Lemma construct l s name fs ms t h args : compile l = Some s -> declares l s (IStruct false name fs ms) t ->
  (length args <> length fs -> call (fields_of s) (VType t) args h = Fail IncorrectArguments h) /\
  (length args = length fs -> exists h', call (fields_of s) (VType t) args h = Done (VObj (length h)) h' /\ length h' = S (length h) /\
    (forall b, b < length h -> nth_error h' b = nth_error h b) /\
    (forall i n v, nth_error fs i = Some n -> nth_error args i = Some v -> read s (VObj (length h)) n h' (Done v h'))).
Proof.
  intros C D. destruct (declared_facts _ _ _ _ C D) as [SH T]. destruct SH as (_ & SM & SF & _). cbn in SF. cbn [call]. rewrite SM, SF. split.
  - intro N. destruct (Nat.eqb_spec (length args) (length fs)); [contradiction|reflexivity].
  - intro E. rewrite (proj2 (Nat.eqb_eq _ _) E). cbn [negb]. exists (h ++ [Object t args]). split; [reflexivity|]. split; [rewrite app_length; cbn; lia|]. split; [intros b L; apply nth_error_app1; exact L|].
    intros i n v N V. destruct (member_index l s t n C T) as [ix IX]; [apply in_or_app; left; rewrite SF; apply (nth_error_In _ _ N)|]. destruct (type_offsets l s t n ix C T IX) as (ND & O1 & _). exists ix. split; [exact IX|]. cbn [get_field]. rewrite nth_error_app2 by lia. rewrite Nat.sub_diag. cbn [nth_error owner values]. rewrite O1, SF. apply NoDup_app_inv in ND. rewrite SF in ND. rewrite (nth_pos n fs i (proj1 ND) N), V. reflexivity.
Qed.
Lemma module_call l s name fs ms t h args : compile l = Some s -> declares l s (IStruct true name fs ms) t -> call (fields_of s) (VType t) args h = Fail NotEvaluable h.
Proof. intros C D. destruct (declared_facts _ _ _ _ C D) as [SH T]. destruct SH as (_ & SM & _). cbn [call]. rewrite SM. reflexivity. Qed.
Lemma nth_map {A B} (g : A -> B) l i : nth_error (map g l) i = option_map g (nth_error l i). Proof. apply nth_error_map. Qed.
Lemma read_spec l s x h a o n : compile l = Some s -> wf_heap s h -> nth_error h a = Some o -> declares l s x (owner o) ->
  (forall i, nth_error (fields_of_decl x) i = Some n -> exists v, nth_error (values o) i = Some v /\ read s (VObj a) n h (Done v h)) /\
  (forall m, In m (methods_of_decl x) -> mname m = n -> exists id, read s (VType (owner o)) n h (Done (VFun id) h) /\
     read s (VObj a) n h (if mself m then Done (VBound id (VObj a)) h else Fail FieldNotPresent h)) /\
  (~ In n (fields_of_decl x) -> ~ In n (map mname (methods_of_decl x)) -> forall r, read s (VObj a) n h r -> r = Fail FieldNotPresent h).
Proof.
  intros C W N D. destruct (declared_facts _ _ _ _ C D) as [SH T]. destruct (shape_fields _ _ SH) as (SF & SM & SI). destruct (proj1 (Forall_forall _ _) W o (nth_error_In _ _ N)) as (_ & LV & _). rewrite <- SF, <- SM. split; [|split].
  - intros i F. destruct (member_index l s (owner o) n C T) as [ix IX]; [apply in_or_app; left; apply (nth_error_In _ _ F)|]. destruct (type_offsets l s _ n ix C T IX) as (ND & O1 & _). apply NoDup_app_inv in ND.
    destruct (nth_error (values o) i) as [v|] eqn:V; [|apply nth_error_None in V; assert (i < length (tfields (owner o))) by (apply nth_error_Some; congruence); lia]. exists v. split; [reflexivity|]. exists ix. split; [exact IX|]. cbn [get_field]. rewrite N, O1, (nth_pos _ _ _ (proj1 ND) F), V. reflexivity.
  - intros m M E. assert (I : In n (map fst (tmethods (owner o)))) by (rewrite SM; apply in_map_iff; eauto). destruct (member_index l s (owner o) n C T) as [ix IX]; [apply in_or_app; right; exact I|]. destruct (type_offsets l s _ n ix C T IX) as (ND & O1 & O2). apply NoDup_app_inv in ND. destruct ND as (N1 & N2 & N3).
    destruct (In_nth_error _ _ M) as [j J]. assert (F : nth_error (map fst (tmethods (owner o))) j = Some n) by (rewrite SM, nth_map, J; cbn; congruence). pose proof F as F'. rewrite nth_map in F'. destruct (nth_error (tmethods (owner o)) j) as [[n' mm]|] eqn:TM; [|discriminate]. cbn in F'. injection F' as ->.
    assert (IS : instance mm = mself m). { assert (Q : nth_error (map (fun e => instance (snd e)) (tmethods (owner o))) j = Some (mself m)) by (rewrite SI, nth_map, J; reflexivity). rewrite nth_map, TM in Q. cbn in Q. congruence. }
    assert (P : pos n (tfields (owner o)) = None) by (apply pos_none; intro Q; exact (N3 n Q I)). exists (function_id mm). split; exists ix; (split; [exact IX|]); cbn [get_field]; [|rewrite N, O1, P]; rewrite O2, (nth_pos _ _ _ N2 F), TM; [reflexivity|]. rewrite IS. destruct (mself m); reflexivity.
  - intros F M r (ix & IX & <-). destruct (type_offsets l s _ n ix C T IX) as (ND & O1 & O2). cbn [get_field]. apply pos_none in F, M. rewrite N, O1, F, O2, M. reflexivity.
Qed.
Lemma update_at {A} (l : list A) i x j : i < length l -> nth_error (update l i x) j = if i =? j then Some x else nth_error l j.
Proof. intro L. rewrite update_spec. destruct (Nat.ltb_spec i (length l)); [|lia]. rewrite Bool.andb_true_r. reflexivity. Qed.
Lemma write_spec l s x h a o n v : compile l = Some s -> wf_heap s h -> nth_error h a = Some o -> declares l s x (owner o) ->
  (In n (fields_of_decl x) -> exists h', write s (VObj a) n v h (Done v h') /\ read s (VObj a) n h' (Done v h') /\
     (forall m w, m <> n -> read s (VObj a) m h (Done w h) <-> read s (VObj a) m h' (Done w h')) /\
     length h' = length h /\ (forall b, b <> a -> nth_error h' b = nth_error h b)) /\
  (~ In n (fields_of_decl x) -> forall r, write s (VObj a) n v h r -> r = Fail FieldNotPresent h).
Proof.
  intros C W N D. destruct (declared_facts _ _ _ _ C D) as [SH T]. destruct (shape_fields _ _ SH) as (SF & SM & SI). destruct (proj1 (Forall_forall _ _) W o (nth_error_In _ _ N)) as (_ & LV & _). rewrite <- SF. assert (LA : a < length h) by (apply nth_error_Some; congruence). split.
  - intro I. destruct (member_index l s (owner o) n C T) as [ix IX]; [apply in_or_app; left; exact I|]. destruct (type_offsets l s _ n ix C T IX) as (ND & O1 & _). destruct (pos_in _ _ I) as [k K]. pose proof (pos_lt _ _ _ K) as KL. rewrite <- LV in KL.
    set (o' := Object (owner o) (update (values o) k v)). exists (update h a o'). assert (NA : nth_error (update h a o') a = Some o') by (rewrite update_at, Nat.eqb_refl by exact LA; reflexivity). split; [|split; [|split; [|split]]].
    + exists ix. split; [exact IX|]. cbn [set_field]. rewrite N, O1, K. destruct (Nat.ltb_spec k (length (values o))); [reflexivity|lia].
    + exists ix. split; [exact IX|]. cbn [get_field]. rewrite NA. cbn [owner values o']. rewrite O1, K, update_at, Nat.eqb_refl by exact KL. reflexivity.
    + intros m w M. assert (E : forall im, index_at s m = Some im -> get_field (fields_of s) (VObj a) im h = Done w h <-> get_field (fields_of s) (VObj a) im (update h a o') = Done w (update h a o')).
      { intros im IM. destruct (type_offsets l s _ m im C T IM) as (_ & P1 & P2). cbn [get_field]. rewrite N, NA. cbn [owner values o']. rewrite P1, P2. destruct (pos m (tfields (owner o))) as [j|] eqn:PJ.
        - rewrite update_at by exact KL. destruct (Nat.eqb_spec k j) as [->|_]; [exfalso; apply pos_nth in PJ, K; congruence|]. destruct (nth_error (values o) j); split; intro Q; congruence.
        - destruct (pos m (map fst (tmethods (owner o)))) as [j|]; [|split; intro Q; discriminate]. destruct (nth_error (tmethods (owner o)) j) as [[? mm]|]; [|split; discriminate]. destruct (instance mm); split; intro Q; congruence. }
      split; intros (im & IM & Q); exists im; (split; [exact IM|]); apply (E im IM); exact Q.
    + apply update_length.
    + intros b B. rewrite update_at by exact LA. destruct (Nat.eqb_spec a b); [congruence|reflexivity].
  - intros I r (ix & IX & <-). destruct (type_offsets l s _ n ix C T IX) as (ND & O1 & _). cbn [set_field]. apply pos_none in I. rewrite N, O1, I. reflexivity.
Qed.
Lemma modify_spec l s x h a o n i old op v : compile l = Some s -> wf_heap s h -> nth_error h a = Some o -> declares l s x (owner o) ->
  nth_error (fields_of_decl x) i = Some n -> nth_error (values o) i = Some old ->
  (op old v = None -> modify s op (VObj a) n v h (Fail OperatorError h)) /\
  (forall y r, op old v = Some y -> write s (VObj a) n y h r -> modify s op (VObj a) n v h r).
Proof.
  intros C W N D F V. destruct (read_spec l s x h a o n C W N D) as (R & _). destruct (R i F) as (v' & V' & (ix & IX & Q)). rewrite V in V'. injection V' as <-. split.
  - intro E. exists ix. split; [exact IX|]. unfold swap_field. rewrite Q, E. reflexivity.
  - intros y r E (ix' & IX' & <-). rewrite IX in IX'. injection IX' as <-. exists ix. split; [exact IX|]. unfold swap_field. rewrite Q, E. reflexivity.
Qed.
Lemma type_spec l s x t h n : compile l = Some s -> declares l s x t ->
  (In n (map mname (methods_of_decl x)) -> exists id, read s (VType t) n h (Done (VFun id) h)) /\
  (In n (fields_of_decl x) -> exists i, read s (VType t) n h (Done (VGetter i) h) /\ forall v h', read s v n h' (call (fields_of s) (VGetter i) [v] h')) /\
  (~ In n (fields_of_decl x) -> ~ In n (map mname (methods_of_decl x)) -> forall r, read s (VType t) n h r -> r = Fail FieldNotPresent h).
Proof.
  intros C D. destruct (declared_facts _ _ _ _ C D) as [SH T]. destruct (shape_fields _ _ SH) as (SF & SM & SI). rewrite <- SF, <- SM. split; [|split].
  - intro I. destruct (member_index l s t n C T) as [ix IX]; [apply in_or_app; right; exact I|]. destruct (type_offsets l s _ n ix C T IX) as (ND & O1 & O2). destruct (pos_in _ _ I) as [k K]. pose proof (pos_lt _ _ _ K) as KL. rewrite map_length in KL. destruct (nth_error (tmethods t) k) as [[n' mm]|] eqn:TM; [|apply nth_error_None in TM; lia]. exists (function_id mm), ix. split; [exact IX|]. cbn [get_field]. rewrite O2, K, TM. reflexivity.
  - intro I. destruct (member_index l s t n C T) as [ix IX]; [apply in_or_app; left; exact I|]. destruct (type_offsets l s _ n ix C T IX) as (ND & O1 & O2). destruct (pos_in _ _ I) as [k K]. apply NoDup_app_inv in ND. destruct ND as (N1 & N2 & N3). assert (P : pos n (map fst (tmethods t)) = None) by (apply pos_none; apply N3; exact I). exists ix. split; [exists ix; split; [exact IX|]; cbn [get_field]; rewrite O2, P, O1, K; reflexivity|]. intros v h'. exists ix. split; [exact IX|reflexivity].
  - intros F M r (ix & IX & <-). destruct (type_offsets l s _ n ix C T IX) as (ND & O1 & O2). cbn [get_field]. apply pos_none in F, M. rewrite O2, M, O1, F. reflexivity.
Qed.
Lemma flat_once {A B} (g : A -> list B) l : NoDup (flat_map g l) -> forall a b x, In a l -> In b l -> In x (g a) -> In x (g b) -> a = b.
Proof.
  induction l as [|c l IH]; intros ND a b x A1 B1 XA XB; [destruct A1|]. cbn in ND. apply NoDup_app_inv in ND. destruct ND as (N1 & N2 & N3). destruct A1 as [->|A1], B1 as [->|B1]; auto; [| |apply (IH N2 a b x); assumption]; exfalso; apply (N3 x); auto; apply in_flat_map; eauto.
Qed.
Lemma nodup_nth {A} (l : list A) i j x : NoDup l -> nth_error l i = Some x -> nth_error l j = Some x -> i = j.
Proof. intros ND A1 A2. apply (proj1 (NoDup_nth_error l) ND); [apply nth_error_Some; congruence|congruence]. Qed.
Lemma functions_distinct l s t1 t2 h n1 n2 id : compile l = Some s -> In t1 (types_of s) -> In t2 (types_of s) ->
  read s (VType t1) n1 h (Done (VFun id) h) -> read s (VType t2) n2 h (Done (VFun id) h) -> t1 = t2 /\ n1 = n2.
Proof.
  intros C T1 T2 (i1 & I1 & R1) (i2 & I2 & R2).
  assert (K : forall t n i, In t (types_of s) -> index_at s n = Some i -> get_field (fields_of s) (VType t) i h = Done (VFun id) h -> exists j, nth_error (ids t) j = Some id /\ pos n (map fst (tmethods t)) = Some j).
  { intros t n i T I R. destruct (type_offsets l s _ n i C T I) as (ND & O1 & O2). cbn [get_field] in R. rewrite O1, O2 in R. destruct (pos n (map fst (tmethods t))) as [j|]; [|destruct (pos n (tfields t)); discriminate]. destruct (nth_error (tmethods t) j) as [[n' mm]|] eqn:TM; [|discriminate]. exists j. split; [|reflexivity]. unfold ids. rewrite nth_map, TM. cbn. congruence. }
  destruct (K t1 n1 i1 T1 I1 R1) as (j1 & J1 & P1). destruct (K t2 n2 i2 T2 I2 R2) as (j2 & J2 & P2). apply compile_inv in C. destruct C as (-> & B & _). destruct (g_ids _ _ (good_all l) B) as [ND _].
  assert (E : t1 = t2) by (apply (flat_once ids _ ND t1 t2 id); auto; eapply nth_error_In; eassumption). split; [exact E|]. subst t2.
  assert (NI : NoDup (ids t1)). { clear - ND T1. induction (types_of (declare_all l start)) as [|c r IH]; [destruct T1|]. cbn in ND. apply NoDup_app_inv in ND. destruct ND as (N1 & N2 & _). destruct T1 as [->|T1]; [exact N1|apply IH; assumption]. }
  assert (j1 = j2) by (apply (nodup_nth (ids t1) j1 j2 id); assumption). subst j2. apply pos_nth in P1, P2. congruence.
Qed.
Lemma others s v n x h r : (forall a, v <> VObj a) -> write s v n x h r \/ ((forall t, v <> VType t) /\ read s v n h r) -> r = Fail FieldNotPresent h.
Proof. intros NO [(i & I & <-)|(NT & i & I & <-)]; destruct v; try reflexivity; exfalso; [eapply NO|eapply NO|eapply NT]; reflexivity. Qed.

(** no panic *)
Lemma wf_val_grow s h h' v : length h <= length h' -> wf_val s h v -> wf_val s h' v.
Proof. intro L. induction v; cbn; auto. lia. Qed.
Lemma wf_object_grow s h h' o : length h <= length h' -> wf_object s h o -> wf_object s h' o.
Proof. intros L (A & B & C). split; [exact A|]. split; [exact B|]. revert C. apply Forall_impl. intros v. apply wf_val_grow. exact L. Qed.
Lemma Forall_update {A} (P : A -> Prop) l i x : Forall P l -> P x -> Forall P (update l i x).
Proof. revert i. induction l as [|y l IH]; intros [|i] F Px; cbn; auto; inversion F; subst; constructor; auto. Qed.
Lemma get_wf l s h v i n : compile l = Some s -> wf_heap s h -> wf_val s h v -> index_at s n = Some i -> wf_res s (get_field (fields_of s) v i h) /\ forall w h', get_field (fields_of s) v i h = Done w h' -> h' = h.
Proof.
  intros C W V I. destruct v as [a|t|j|id|id v|z]; cbn [get_field]; try (split; [exact W|discriminate]).
  - cbn in V. destruct (nth_error h a) as [o|] eqn:N; [|apply nth_error_None in N; lia]. destruct (proj1 (Forall_forall _ _) W o (nth_error_In _ _ N)) as (T & LV & FV). destruct (type_offsets l s _ n i C T I) as (ND & O1 & O2). rewrite O1, O2. destruct (pos n (tfields (owner o))) as [k|] eqn:K.
    + apply pos_lt in K. destruct (nth_error (values o) k) as [x|] eqn:X; [|apply nth_error_None in X; lia]. split; [|intros w h' Q; congruence]. split; [exact W|]. apply (proj1 (Forall_forall _ _) FV). apply (nth_error_In _ _ X).
    + destruct (pos n (map fst (tmethods (owner o)))) as [k'|] eqn:K'; [|split; [exact W|discriminate]]. apply pos_lt in K'. rewrite map_length in K'. destruct (nth_error (tmethods (owner o)) k') as [[? mm]|] eqn:X; [|apply nth_error_None in X; lia]. destruct (instance mm); (split; [|intros w h' Q; congruence]); [split; [exact W|exact V]|exact W].
  - cbn in V. destruct (type_offsets l s _ n i C V I) as (ND & O1 & O2). rewrite O1, O2. destruct (pos n (map fst (tmethods t))) as [k'|] eqn:K'.
    + apply pos_lt in K'. rewrite map_length in K'. destruct (nth_error (tmethods t) k') as [[? mm]|] eqn:X; [|apply nth_error_None in X; lia]. split; [|intros w h' Q; congruence]. split; [exact W|exact Logic.I].
    + destruct (pos n (tfields t)); (split; [|intros w h' Q; congruence]); [split; [exact W|exists n; exact I]|exact W].
Qed.
Lemma set_wf l s h v i n x : compile l = Some s -> wf_heap s h -> wf_val s h v -> wf_val s h x -> index_at s n = Some i -> wf_res s (set_field (fields_of s) v i x h).
Proof.
  intros C W V X I. destruct v as [a|t|j|id|id v|z]; cbn [set_field]; try exact W. cbn in V. destruct (nth_error h a) as [o|] eqn:N; [|apply nth_error_None in N; lia]. destruct (proj1 (Forall_forall _ _) W o (nth_error_In _ _ N)) as (T & LV & FV). destruct (type_offsets l s _ n i C T I) as (ND & O1 & O2). rewrite O1. destruct (pos n (tfields (owner o))) as [k|] eqn:K; [|exact W]. apply pos_lt in K. destruct (Nat.ltb_spec k (length (values o))); [|lia].
  assert (LE : length h <= length (update h a (Object (owner o) (update (values o) k x)))) by (rewrite update_length; lia). split.
  - apply Forall_update; [revert W; apply Forall_impl; intro o'; apply wf_object_grow; exact LE|]. split; [exact T|]. cbn [values owner]. split; [rewrite update_length; exact LV|]. apply Forall_update; [revert FV; apply Forall_impl; intro w; apply wf_val_grow; exact LE|apply (wf_val_grow s h); assumption].
  - apply (wf_val_grow s h); assumption.
Qed.
Lemma no_panic l s h : compile l = Some s -> wf_heap s h ->
  (forall v n r, wf_val s h v -> read s v n h r -> wf_res s r) /\
  (forall v n x r, wf_val s h v -> wf_val s h x -> write s v n x h r -> wf_res s r) /\
  (forall op v n x r, wf_val s h v -> (forall a b y, op a b = Some y -> wf_val s h a -> wf_val s h b -> wf_val s h y) -> wf_val s h x -> modify s op v n x h r -> wf_res s r) /\
  (forall f args, wf_val s h f -> Forall (wf_val s h) args -> wf_res s (call (fields_of s) f args h)).
Proof.
  intros C W. split; [|split; [|split]].
  - intros v n r V (i & I & <-). apply (get_wf l s h v i n C W V I).
  - intros v n x r V X (i & I & <-). apply (set_wf l s h v i n x); assumption.
  - intros op v n x r V OP X (i & I & <-). unfold swap_field. destruct (get_wf l s h v i n C W V I) as [GW GH]. destruct (get_field (fields_of s) v i h) as [old h'|e h'|]; [|exact GW|exact GW]. rewrite (GH old h' eq_refl) in *. destruct GW as [_ OW]. destruct (op old x) as [y|] eqn:Y; [|exact W]. apply (set_wf l s h v i n y); auto. apply (OP old x y); assumption.
  - intros f args F A. destruct f as [a|t|j|id|id v|z]; cbn [call]; try exact W.
    + destruct (is_module t); [exact W|]. destruct (Nat.eqb_spec (length args) (length (tfields t))); cbn [negb]; [|exact W]. assert (LE : length h <= length (h ++ [Object t args])) by (rewrite app_length; lia). split.
      * apply Forall_app. split; [revert W; apply Forall_impl; intro o; apply wf_object_grow; exact LE|]. constructor; [|constructor]. split; [exact F|]. cbn. split; [assumption|]. revert A. apply Forall_impl. intro v. apply wf_val_grow. exact LE.
      * cbn. rewrite app_length. cbn. lia.
    + destruct args as [|x [|? ?]]; try exact W. inversion A; subst. destruct F as [n F]. apply (get_wf l s h x j n C W H1 F).
Qed.
