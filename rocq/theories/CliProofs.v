(** Proofs about the command line. *)
From Coq Require Import String List Lia.
From Verif Require Import Base Str Scan Syntax Cli CliSpec.
Import ListNotations.
Local Open Scope Z_scope.

Lemma eqs_true a b : eqs a b = true <-> a = b.
Proof. unfold eqs. destruct (list_eq_dec Z.eq_dec a b); intuition congruence. Qed.
Lemma eqs_false a b : eqs a b = false <-> a <> b.
Proof. unfold eqs. destruct (list_eq_dec Z.eq_dec a b); intuition congruence. Qed.
Lemma eqs_refl a : eqs a a = true. Proof. apply eqs_true. reflexivity. Qed.

Lemma starts_spec p s : starts_with p s = true <-> exists r, s = p ++ r.
Proof.
  revert s. induction p as [|x p IH]; intro s; cbn.
  - split; [intros _; exists s; reflexivity|intros _; reflexivity].
  - destruct s as [|y s]; [split; [discriminate|intros [r H]; discriminate]|].
    rewrite Bool.andb_true_iff, IH, Z.eqb_eq. split.
    + intros [-> [r ->]]. exists r. reflexivity.
    + intros [r H]. injection H as -> ->. split; [reflexivity|]. exists r. reflexivity.
Qed.

Lemma split_once_spec c s : match split_once c s with Some (a, b) => s = a ++ c :: b /\ ~ In c a | None => ~ In c s end.
Proof.
  induction s as [|x r IH]; cbn; [tauto|]. destruct (Z.eqb_spec x c) as [->|n]; [split; [reflexivity|tauto]|].
  destruct (split_once c r) as [[a b]|].
  - destruct IH as [-> H]. split; [reflexivity|]. cbn. intuition congruence.
  - cbn. intuition congruence.
Qed.
Lemma split_once_app c a b : ~ In c a -> split_once c (a ++ c :: b) = Some (a, b).
Proof.
  induction a as [|x a IH]; cbn; intro H.
  - rewrite Z.eqb_refl. reflexivity.
  - destruct (Z.eqb_spec x c); [tauto|]. rewrite IH by tauto. reflexivity.
Qed.
Lemma split_char_nonempty c s : split_char c s <> [].
Proof. destruct s as [|x r]; cbn; [discriminate|]. destruct (x =? c); [discriminate|]. destruct (split_char c r); discriminate. Qed.
Lemma split_char_word c w : ~ In c w -> split_char c w = [w].
Proof. induction w as [|x w IH]; cbn; intro H; [reflexivity|]. destruct (Z.eqb_spec x c); [tauto|]. rewrite IH by tauto. reflexivity. Qed.
Lemma split_char_app c w s : ~ In c w -> split_char c (w ++ c :: s) = w :: split_char c s.
Proof. induction w as [|x w IH]; cbn; intro H; [rewrite Z.eqb_refl; reflexivity|]. destruct (Z.eqb_spec x c); [tauto|]. rewrite IH by tauto. reflexivity. Qed.
Lemma commas_split ws : ws <> [] -> Forall (fun w => ~ In 44 w) ws -> split_char 44 (commas ws) = ws.
Proof.
  induction ws as [|w ws IH]; [tauto|]. intros _ H. apply Forall_cons_iff in H as [Hw H]. destruct ws as [|w' ws]; [apply split_char_word; exact Hw|].
  change (commas (w :: w' :: ws)) with (w ++ 44 :: commas (w' :: ws)). rewrite split_char_app by exact Hw. rewrite IH; [reflexivity|discriminate|exact H].
Qed.
Lemma split_commas s : commas (split_char 44 s) = s /\ Forall (fun w => ~ In 44 w) (split_char 44 s).
Proof.
  induction s as [|x r [IH F]]; cbn; [split; [reflexivity|repeat constructor; tauto]|].
  destruct (Z.eqb_spec x 44) as [->|n].
  - split; [|constructor; [tauto|exact F]]. destruct (split_char 44 r) as [|l ls] eqn:E; [destruct (split_char_nonempty _ _ E)|]. cbn in *. rewrite IH. reflexivity.
  - destruct (split_char 44 r) as [|l ls] eqn:E; [destruct (split_char_nonempty _ _ E)|]. split.
    + destruct ls; cbn in *; rewrite <- IH; reflexivity.
    + apply Forall_cons_iff in F as [F1 F2]. constructor; [|exact F2]. cbn. intuition congruence.
Qed.
Lemma get_none k l : get k l = None <-> ~ In k (List.map fst l).
Proof.
  induction l as [|[a b] l IH]; cbn; [tauto|]. destruct (eqs k a) eqn:E.
  - apply eqs_true in E. split; [discriminate|]. intuition congruence.
  - apply eqs_false in E. rewrite IH. intuition congruence.
Qed.

Lemma category_spec k t : category k = Some t <-> exists n, In (t, n) category_names /\ k = text n.
Proof.
  unfold category, category_names. cbn [In]. split.
  - repeat (match goal with |- context [eqs k ?w] => destruct (eqs k w) eqn:? end; [apply eqs_true in Heqb; intro H; injection H as <-; subst k; eexists; split; [|reflexivity]; tauto|clear Heqb]). discriminate.
  - intros (n & H & ->). repeat (destruct H as [H|H]; [injection H as <- <-; reflexivity|]). destruct H.
Qed.
Lemma no_comma t n : In (t, n) category_names -> ~ In 44 (text n).
Proof. unfold category_names. cbn [In]. intro H. repeat (destruct H as [H|H]; [injection H as <- <-; cbn; lia|]). destruct H. Qed.
Lemma categories_spec ks set : match categories ks set with
  | Ok s => exists cs ns, ks = List.map text ns /\ Forall2 (fun c n => In (c, n) category_names) cs ns /\ s = rev cs ++ set
  | Bad e => exists cs ns k r, ks = List.map text ns ++ k :: r /\ Forall2 (fun c n => In (c, n) category_names) cs ns /\ category k = None /\ e = UnknownCategory k
  | Panic => False
  end.
Proof.
  revert set. induction ks as [|k ks IH]; intro set; cbn.
  - exists [], []. split; [reflexivity|]. split; [constructor|reflexivity].
  - destruct (category k) as [t|] eqn:E.
    + apply category_spec in E as (n & Hn & ->). specialize (IH (t :: set)). destruct (categories ks (t :: set)) as [s|e|].
      * destruct IH as (cs & ns & -> & F & ->). exists (t :: cs), (n :: ns). split; [reflexivity|]. split; [constructor; assumption|]. cbn. rewrite <- app_assoc. reflexivity.
      * destruct IH as (cs & ns & k & r & -> & F & H). exists (t :: cs), (n :: ns), k, r. split; [reflexivity|]. split; [constructor; assumption|exact H].
      * exact IH.
    + exists [], [], k, ks. split; [reflexivity|]. split; [constructor|]. auto.
Qed.
Lemma categories_good cs ns r set : Forall2 (fun c n => In (c, n) category_names) cs ns -> categories (List.map text ns ++ r) set = categories r (rev cs ++ set).
Proof.
  intro F. revert set. induction F as [|c n cs ns H F IH]; intro set; [reflexivity|]. cbn [List.map app categories].
  replace (category (text n)) with (Some c) by (symmetry; apply category_spec; exists n; auto). rewrite IH. cbn. rewrite <- app_assoc. reflexivity.
Qed.

(** the effect of one option *)
Definition step (op : opt) (o : options) : res options :=
  match op with
  | OMode m => set_mode o m
  | OOptimize => Ok (Options (file o) (args o) (omode o) true (no_line_numbers o) (links o) (format_no_style o) (format_no o))
  | ONoLines => Ok (Options (file o) (args o) (omode o) (optimize o) true (links o) (format_no_style o) (format_no o))
  | ONoStyle => Ok (Options (file o) (args o) (omode o) (optimize o) (no_line_numbers o) (links o) true (format_no o))
  | OLink m l => match get m (links o) with Some _ => Bad (DuplicateLink m) | None =>
      Ok (Options (file o) (args o) (omode o) (optimize o) (no_line_numbers o) (links o ++ [(m, l)]) (format_no_style o) (format_no o)) end
  | ONo cs => Ok (Options (file o) (args o) (omode o) (optimize o) (no_line_numbers o) (links o) (format_no_style o) (rev cs ++ format_no o))
  end.

Ltac flag := match goal with |- context [eqs ?a ?b] => first [replace (eqs a b) with true by (symmetry; reflexivity) | replace (eqs a b) with false by (symmetry; reflexivity)] end.

Lemma loop_no x r o : loop ((text "--format-no=" ++ x) :: r) o =
  match categories (split_char 44 x) (format_no o) with
  | Ok set => loop r (Options (file o) (args o) (omode o) (optimize o) (no_line_numbers o) (links o) (format_no_style o) set)
  | Bad e => Bad e | Panic => Panic end.
Proof.
  assert (forall f, In f flags -> eqs (text "--format-no=" ++ x) (text f) = false) as H.
  { intros f H. apply eqs_false. intro E. unfold flags in H. cbn [In] in H. repeat (destruct H as [<-|H]; [cbn in E; discriminate E|]). destruct H. }
  cbn [loop]. repeat (rewrite H by (unfold flags; cbn [In]; tauto)). cbn [orb].
  replace (starts_with (text "--format-no=") (text "--format-no=" ++ x)) with true by (symmetry; apply starts_spec; exists x; reflexivity).
  change (skipn 12 (text "--format-no=" ++ x)) with x. reflexivity.
Qed.
Lemma loop_link n r o : In n ["-l"; "--link"]%string -> loop (text n :: r) o =
  match r with [] => Bad NoLinkArgument | target :: r => match split_once 61 target with None => Bad (NoEquals target) | Some (m, l) =>
    match step (OLink m l) o with Ok o => loop r o | e => e end end end.
Proof.
  cbn [In]. intro H. destruct H as [<-|[<-|[]]]; destruct r as [|t r]; try reflexivity; cbn [loop]; repeat flag; cbn [orb]; destruct (split_once 61 t) as [[m l]|]; try reflexivity;
  cbn [step]; destruct (get m (links o)); reflexivity.
Qed.
Lemma loop_mode m n r o : In (m, n) mode_names -> loop (text n :: r) o = match set_mode o m with Ok o => loop r o | e => e end.
Proof. unfold mode_names. cbn [In]. intro H. repeat (destruct H as [H|H]; [injection H as <- <-; reflexivity|]). destruct H. Qed.
Lemma loop_file a r o : is_file a -> loop (a :: r) o = Ok (Options (Some a) (args o ++ r) (omode o) (optimize o) (no_line_numbers o) (links o) (format_no_style o) (format_no o)).
Proof.
  intros [H P]. assert (forall f, In f flags -> eqs a (text f) = false) as E by (intros f Hf; apply eqs_false; apply H; exact Hf).
  cbn [loop]. repeat (rewrite E by (unfold flags; cbn [In]; tauto)). cbn [orb].
  replace (starts_with (text "--format-no=") a) with false; [reflexivity|]. symmetry. apply Bool.not_true_is_false. intro S. apply starts_spec in S as [q ->]. exact (P q eq_refl).
Qed.
Lemma loop_written op w r o : written op w -> loop (w ++ r) o = match step op o with Ok o => loop r o | e => e end.
Proof.
  intro W. destruct W as [m n H|n H| | |n m l H N|cs ns N F].
  - cbn [app]. apply loop_mode. exact H.
  - cbn [In] in H. destruct H as [<-|[<-|[]]]; reflexivity.
  - reflexivity.
  - reflexivity.
  - cbn [app]. rewrite loop_link by exact H. rewrite split_once_app by exact N. reflexivity.
  - cbn [app]. rewrite loop_no, commas_split.
    + pose proof (categories_good _ _ [] (format_no o) F) as C. rewrite app_nil_r in C. rewrite C. reflexivity.
    + destruct F; [tauto|discriminate].
    + clear N. induction F as [|c n cs ns H F IH]; constructor; [eapply no_comma; exact H|exact IH].
Qed.

(** what is at the front of the arguments *)
Inductive front : list str -> Prop :=
| F_rest l : target l -> front l
| F_opt op w r : written op w -> front (w ++ r)
| F_link0 n : In n ["-l"; "--link"]%string -> front [text n]
| F_eq n t r : In n ["-l"; "--link"]%string -> ~ In 61 t -> front (text n :: t :: r)
| F_cat cs ns k ks r : Forall2 (fun c n => In (c, n) category_names) cs ns -> category k = None -> Forall (fun w => ~ In 44 w) (k :: ks) ->
    front ((text "--format-no=" ++ commas (List.map text ns ++ k :: ks)) :: r).

Lemma frontal l : front l.
Proof.
  destruct l as [|a r]; [apply F_rest; exact I|].
  destruct (in_dec (list_eq_dec Z.eq_dec) a (List.map text flags)) as [H|H].
  - apply in_map_iff in H as (f & <- & H). unfold flags in H. cbn [In] in H.
    repeat match type of H with
    | "-l"%string = _ \/ _ => destruct H as [<-|H]; [|]
    | "--link"%string = _ \/ _ => destruct H as [<-|[]]
    | _ \/ _ => destruct H as [<-|H]; [first
       [ refine (F_opt (OMode _) [_] r _); constructor; unfold mode_names; cbn [In]; tauto
       | refine (F_opt OOptimize [_] r _); constructor; cbn [In]; tauto
       | exact (F_opt ONoLines [_] r W_no_lines) | exact (F_opt ONoStyle [_] r W_no_style) ]|]
    end.
    all: (destruct r as [|t r]; [apply F_link0; cbn; tauto|]); pose proof (split_once_spec 61 t) as E; destruct (split_once 61 t) as [[m l]|];
      [destruct E as [-> E]; refine (F_opt (OLink m l) [_; _] r _); constructor; [cbn; tauto|exact E]|apply F_eq; [cbn; tauto|exact E]].
  - destruct (starts_with (text "--format-no=") a) eqn:E.
    + apply starts_spec in E as [x ->]. pose proof (split_commas x) as [J F]. pose proof (categories_spec (split_char 44 x) []) as C.
      destruct (categories (split_char 44 x) []) as [s|e|].
      * destruct C as (cs & ns & Es & F2 & _). rewrite <- J, Es. refine (F_opt (ONo cs) [_] r _). constructor; [|exact F2].
        intros ->. inversion F2; subst. destruct (split_char_nonempty _ _ Es).
      * destruct C as (cs & ns & k & ks & Es & F2 & K & _). rewrite <- J, Es. eapply F_cat; [exact F2|exact K|]. rewrite Es in F. apply Forall_app in F as [_ F]. exact F.
      * destruct C.
    + apply F_rest. split.
      * intros f Hf ->. apply H. apply in_map. exact Hf.
      * intros q ->. assert (starts_with (text "--format-no=") (text "--format-no=" ++ q) = true) as T by (apply starts_spec; exists q; reflexivity). congruence.
Qed.

Fixpoint steps (os : list opt) (o : options) : res options := match os with [] => Ok o | op :: r => match step op o with Ok o => steps r o | e => e end end.
Lemma steps_app a b o : steps (a ++ b) o = match steps a o with Ok o => steps b o | e => e end.
Proof. revert o. induction a as [|x a IH]; intro o; [reflexivity|]. cbn. destruct (step x o); auto. Qed.
Lemma loop_steps os ws r o o' : written_all os ws -> steps os o = Ok o' -> loop (ws ++ r) o = loop r o'.
Proof.
  intro W. revert o. induction W as [|op w os ws H W IH]; intros o E; cbn in E; [injection E as ->; reflexivity|].
  rewrite <- app_assoc, (loop_written _ _ _ _ H). destruct (step op o) as [o1| |]; [|discriminate|discriminate]. apply IH. exact E.
Qed.

(** what was read so far says [os] *)
Record read (os : list opt) (o : options) : Prop := Read {
  r_file : file o = None; r_args : args o = [];
  r_mode : omode o = hd MDefault (modes os); r_modes : (length (modes os) <= 1)%nat; r_nm : Forall (fun m => m <> MDefault) (modes os);
  r_opt : optimize o = true <-> In OOptimize os; r_lines : no_line_numbers o = true <-> In ONoLines os;
  r_links : links o = linked os; r_nodup : NoDup (List.map fst (linked os));
  r_style : format_no_style o = true <-> In ONoStyle os; r_no : forall t, In t (format_no o) <-> In t (omitted os) }.

Definition real (op : opt) : Prop := op <> OMode MDefault.
Lemma written_real op w : written op w -> real op.
Proof. intros W E. subst op. inversion W as [m n H| | | | |]; subst. unfold mode_names in H. cbn [In] in H. repeat (destruct H as [H|H]; [discriminate H|]). destruct H. Qed.

Lemma NoDup_snoc {A} (l : list A) x : NoDup (l ++ [x]) <-> NoDup l /\ ~ In x l.
Proof.
  split.
  - intro N. pose proof (NoDup_remove l [] x N) as [P Q]. rewrite app_nil_r in *. auto.
  - intros [N H]. induction N as [|y l Hy N IH]; cbn; [constructor; [tauto|constructor]|]. cbn in H. constructor; [rewrite in_app_iff; cbn; intuition congruence|]. apply IH. tauto.
Qed.

Lemma read_step os o op : read os o -> real op -> match step op o with
  | Ok o' => read (os ++ [op]) o' /\ consistent (os ++ [op])
  | Bad e => ~ consistent (os ++ [op]) /\ ((exists m, op = OMode m /\ modes os <> [] /\ e = ManyModes) \/ exists m l, op = OLink m l /\ In m (List.map fst (linked os)) /\ e = DuplicateLink m)
  | Panic => False end.
Proof.
  intros R RE. destruct R as [rf ra rm rms rnm ro rl rk rn rs rno].
  assert (forall f : opt -> list ttype, True) as _ by auto.
  unfold consistent.
  destruct op as [m| | | |m l|cs]; cbn [step].
  - unfold set_mode. destruct (modes os) as [|m0 ms] eqn:M.
    + rewrite rm. cbn [hd]. split.
      * constructor; cbn; auto; unfold modes, linked, omitted in *; rewrite ?flat_map_app, ?M; cbn; rewrite ?app_nil_r; auto.
        -- constructor; [intro H; apply RE; rewrite H; reflexivity|constructor].
        -- rewrite ro, in_app_iff. cbn. intuition discriminate.
        -- rewrite rl, in_app_iff. cbn. intuition discriminate.
        -- rewrite rs, in_app_iff. cbn. intuition discriminate.
      * unfold modes, linked in *. rewrite !flat_map_app, M. cbn. rewrite app_nil_r. auto.
    + assert (omode o <> MDefault) as N by (rewrite rm; cbn; apply Forall_cons_iff in rnm as [? _]; assumption).
      destruct (omode o); [tauto|..]; (split; [intros [H _]; unfold modes in *; rewrite flat_map_app, M in H; cbn in H; rewrite app_length in H; cbn in H; lia|]; left; exists m; split; [reflexivity|split; [discriminate|reflexivity]]).
  - split; [|unfold modes, linked in *; rewrite !flat_map_app; cbn; rewrite !app_nil_r; auto].
    constructor; cbn; auto; unfold modes, linked, omitted in *; rewrite ?flat_map_app; cbn; rewrite ?app_nil_r; auto; rewrite ?in_app_iff; cbn; intuition discriminate.
  - split; [|unfold modes, linked in *; rewrite !flat_map_app; cbn; rewrite !app_nil_r; auto].
    constructor; cbn; auto; unfold modes, linked, omitted in *; rewrite ?flat_map_app; cbn; rewrite ?app_nil_r; auto; rewrite ?in_app_iff; cbn; intuition discriminate.
  - split; [|unfold modes, linked in *; rewrite !flat_map_app; cbn; rewrite !app_nil_r; auto].
    constructor; cbn; auto; unfold modes, linked, omitted in *; rewrite ?flat_map_app; cbn; rewrite ?app_nil_r; auto; rewrite ?in_app_iff; cbn; intuition discriminate.
  - destruct (get m (links o)) eqn:G.
    + assert (In m (List.map fst (linked os))) as I. { rewrite <- rk. destruct (in_dec (list_eq_dec Z.eq_dec) m (List.map fst (links o))) as [H|H]; [exact H|]. apply get_none in H. congruence. }
      split; [|right; exists m, l; auto]. intros [_ H]. unfold linked in *. rewrite flat_map_app, map_app in H. cbn in H. apply NoDup_snoc in H. tauto.
    + apply get_none in G. rewrite rk in G.
      assert (NoDup (List.map fst (linked (os ++ [OLink m l])))) as ND. { unfold linked in *. rewrite flat_map_app, map_app. cbn. apply NoDup_snoc. auto. }
      split; [|unfold modes, linked in *; rewrite flat_map_app; cbn; rewrite app_nil_r; auto].
      constructor; cbn; auto; unfold modes, linked, omitted in *; rewrite ?flat_map_app; cbn; rewrite ?app_nil_r; auto; rewrite ?in_app_iff; cbn; try (intuition discriminate). rewrite rk. reflexivity.
  - split; [|unfold modes, linked in *; rewrite !flat_map_app; cbn; rewrite !app_nil_r; auto].
    constructor; cbn; auto; unfold modes, linked, omitted in *; rewrite ?flat_map_app; cbn; rewrite ?app_nil_r; auto; rewrite ?in_app_iff; cbn; try (intuition discriminate).
    intro t. rewrite !in_app_iff, <- in_rev, rno. tauto.
Qed.

Definition none := Options None [] MDefault false false [] false [].
Lemma read_none : read [] none.
Proof. constructor; cbn; auto; try (intuition discriminate); try tauto; constructor. Qed.

Lemma consistent_app a b : consistent (a ++ b) -> consistent a.
Proof.
  unfold consistent, modes, linked. rewrite !flat_map_app, map_app, app_length. intros [L N]. split; [lia|]. induction (List.map fst (flat_map (fun o => match o with OLink m l => [(m, l)] | _ => [] end) a)) as [|x l IH]; [constructor|].
  cbn in N. inversion N as [|? ? H N']; subst. constructor; [rewrite in_app_iff in H; tauto|auto].
Qed.
Lemma steps_read os : Forall real os -> forall pre o, read pre o -> consistent (pre ++ os) -> exists o', steps os o = Ok o' /\ read (pre ++ os) o'.
Proof.
  induction os as [|op os IH]; intros F pre o R C.
  - exists o. rewrite app_nil_r. auto.
  - apply Forall_cons_iff in F as [Fo F]. cbn. pose proof (read_step pre o op R Fo) as H. replace (pre ++ op :: os) with ((pre ++ [op]) ++ os) in * by (rewrite <- app_assoc; reflexivity).
    destruct (step op o) as [o1|e|].
    + destruct H as [R1 _]. apply (IH F); assumption.
    + destruct H as [H _]. apply consistent_app in C. tauto.
    + destruct H.
Qed.
Lemma written_all_real os ws : written_all os ws -> Forall real os.
Proof. induction 1; constructor; [eapply written_real; eassumption|assumption]. Qed.
Lemma written_all_app a wa b wb : written_all a wa -> written_all b wb -> written_all (a ++ b) (wa ++ wb).
Proof. induction 1; intro; [assumption|]. cbn. rewrite <- app_assoc. constructor; auto. Qed.

Definition finish (rest : list str) (o : options) : options :=
  match rest with [] => o | f :: r => Options (Some f) (args o ++ r) (omode o) (optimize o) (no_line_numbers o) (links o) (format_no_style o) (format_no o) end.
Lemma loop_target rest o : target rest -> loop rest o = Ok (finish rest o).
Proof. destruct rest as [|f r]; [reflexivity|]. apply loop_file. Qed.
Lemma says_finish os rest o : read os o -> says os rest (finish rest o).
Proof. intro R. destruct R as [rf ra rm rms rnm ro rl rk rn rs rno]. destruct rest as [|f r]; constructor; cbn; auto. rewrite ra. reflexivity. Qed.


Lemma wrong_loop os o r e : read os o -> wrong os r e -> loop r o = Bad e.
Proof.
  intros R W. destruct W as [m n r M H|n H|n t r H N|n m l r H N D|ns k ks r F K C].
  - rewrite (loop_mode _ _ _ _ H). pose proof (read_step os o (OMode m) R) as S. cbn [step] in S.
    assert (real (OMode m)) as RE by (eapply written_real; apply W_mode; exact H). specialize (S RE). destruct (set_mode o m) as [o1|e|] eqn:E.
    + destruct S as [_ [S _]]. unfold modes in *. rewrite flat_map_app, app_length in S. cbn in S. destruct (flat_map _ os); [tauto|cbn in S; lia].
    + destruct S as [_ [(? & _ & _ & ->)|(? & ? & X & _)]]; [reflexivity|discriminate X].
    + destruct S.
  - rewrite loop_link by exact H. reflexivity.
  - rewrite loop_link by exact H. pose proof (split_once_spec 61 t) as E. destruct (split_once 61 t) as [[a b]|]; [|reflexivity]. destruct E as [-> _]. exfalso. apply N. apply in_app_iff. cbn. auto.
  - rewrite loop_link, split_once_app by assumption. cbn [step]. destruct (get m (links o)) eqn:G; [reflexivity|]. apply get_none in G. rewrite (r_links _ _ R) in G. tauto.
  - assert (exists cs, Forall2 (fun c n => In (c, n) category_names) cs ns) as [cs F2].
    { clear -F. induction F as [|n ns H F [cs IH]]; [exists []; constructor|]. apply in_map_iff in H as ([c n'] & E & H). cbn in E. subst n'. exists (c :: cs). constructor; assumption. }
    rewrite loop_no, commas_split.
    + rewrite (categories_good _ _ _ _ F2). cbn [categories]. destruct (category k) as [t|] eqn:E; [|reflexivity]. apply category_spec in E as (n & H & ->). exfalso. apply K. apply in_map_iff. exists (t, n). auto.
    + destruct ns; discriminate.
    + apply Forall_app. split; [|exact C]. clear -F2. induction F2 as [|c n cs ns H F IH]; constructor; [eapply no_comma; exact H|exact IH].
Qed.

(** the arguments are read completely, or something is wrong *)
Lemma main_loop : forall n l, (length l <= n)%nat -> forall os o, read os o -> consistent os ->
  (exists os' ws rest, written_all os' ws /\ target rest /\ l = ws ++ rest /\ consistent (os ++ os')) \/
  (exists os' ws r e, written_all os' ws /\ consistent (os ++ os') /\ l = ws ++ r /\ wrong (os ++ os') r e).
Proof.
  induction n as [|n IH]; intros l L os o R C.
  - destruct l; [|cbn in L; lia]. left. exists [], [], []. rewrite (app_nil_r os). split; [constructor|]. split; [exact I|]. split; [reflexivity|exact C].
  - destruct (frontal l) as [l T|op w r W|x H|x t r H N|cs ns k ks r F K NC].
    + left. exists [], [], l. rewrite app_nil_r. split; [constructor|]. auto.
    + pose proof (read_step os o op R (written_real _ _ W)) as S. destruct (step op o) as [o1|e|] eqn:E.
      * destruct S as [R1 C1]. assert (length r <= n)%nat as L1. { rewrite app_length in L. destruct W; cbn in L; lia. }
        destruct (IH r L1 _ _ R1 C1) as [(os' & ws & rest & WA & T & -> & CC)|(os' & ws & q & e & WA & CC & -> & WR)].
        -- left. exists (op :: os'), (w ++ ws), rest. rewrite <- app_assoc in CC. split; [constructor; assumption|]. rewrite <- app_assoc. auto.
        -- right. exists (op :: os'), (w ++ ws), q, e. rewrite <- app_assoc in CC, WR. split; [constructor; assumption|]. rewrite <- app_assoc. auto.
      * destruct S as [_ [(m & -> & M & ->)|(m & lb & -> & I & ->)]].
        -- right. exists [], [], (w ++ r), ManyModes. rewrite app_nil_r. split; [constructor|]. split; [exact C|]. split; [reflexivity|]. inversion W; subst. cbn. eapply Wr_mode; eassumption.
        -- right. exists [], [], (w ++ r), (DuplicateLink m). rewrite app_nil_r. split; [constructor|]. split; [exact C|]. split; [reflexivity|]. inversion W; subst. cbn. apply Wr_twice; assumption.
      * destruct S.
    + right. exists [], [], [text x], NoLinkArgument. rewrite app_nil_r. split; [constructor|]. split; [exact C|]. split; [reflexivity|]. constructor. exact H.
    + right. exists [], [], (text x :: t :: r), (NoEquals t). rewrite app_nil_r. split; [constructor|]. split; [exact C|]. split; [reflexivity|]. constructor; assumption.
    + right. exists [], [], ((text "--format-no=" ++ commas (List.map text ns ++ k :: ks)) :: r), (UnknownCategory k). rewrite app_nil_r. split; [constructor|]. split; [exact C|]. split; [reflexivity|].
      constructor; [|intro I|exact NC].
      * clear -F. induction F as [|c n cs ns H F IH]; constructor; [apply in_map_iff; exists (c, n); auto|exact IH].
      * apply in_map_iff in I as ([c m] & E & I). cbn in E. assert (category k = Some c) by (apply category_spec; exists m; auto). congruence.
Qed.

Lemma consistent_nil : consistent [].
Proof. split; [cbn; lia|constructor]. Qed.
Lemma read_all os ws : written_all os ws -> consistent os -> exists o, read os o /\ forall r, loop (ws ++ r) none = loop r o.
Proof.
  intros W C. destruct (steps_read os (written_all_real _ _ W) [] none read_none C) as (o & E & R). exists o. split; [exact R|]. intro r. eapply loop_steps; eassumption.
Qed.

Lemma parse_good p os ws rest : written_all os ws -> target rest -> consistent os -> exists o, parse_args (p :: ws ++ rest) = Ok o /\ says os rest o.
Proof.
  intros W T C. destruct (read_all _ _ W C) as (o & R & E). exists (finish rest o). split; [|apply says_finish; exact R].
  unfold parse_args. fold none. rewrite E. apply loop_target. exact T.
Qed.
Lemma parse_bad p os ws r e : written_all os ws -> consistent os -> wrong os r e -> parse_args (p :: ws ++ r) = Bad e.
Proof. intros W C Wr. destruct (read_all _ _ W C) as (o & R & E). unfold parse_args. fold none. rewrite E. eapply wrong_loop; eassumption. Qed.
Lemma parse_cases l : (exists os ws rest, written_all os ws /\ target rest /\ l = ws ++ rest /\ consistent os) \/
  (exists os ws r e, written_all os ws /\ consistent os /\ l = ws ++ r /\ wrong os r e).
Proof. exact (main_loop _ l (le_n _) [] none read_none consistent_nil). Qed.

Lemma parse_iff p l o : parse_args (p :: l) = Ok o -> exists os ws rest, written_all os ws /\ target rest /\ l = ws ++ rest /\ consistent os /\ says os rest o.
Proof.
  intro E. destruct (parse_cases l) as [(os & ws & rest & W & T & -> & C)|(os & ws & r & e & W & C & -> & Wr)].
  - destruct (parse_good p _ _ _ W T C) as (o' & E' & Sy). rewrite E in E'. injection E' as <-. exists os, ws, rest. auto.
  - rewrite (parse_bad p _ _ _ _ W C Wr) in E. discriminate E.
Qed.
Lemma parse_bad_iff p l e : parse_args (p :: l) = Bad e <-> exists os ws r, written_all os ws /\ consistent os /\ l = ws ++ r /\ wrong os r e.
Proof.
  split.
  - intro E. destruct (parse_cases l) as [(os & ws & rest & W & T & -> & C)|(os & ws & r & e' & W & C & -> & Wr)].
    + destruct (parse_good p _ _ _ W T C) as (o' & E' & _). congruence.
    + rewrite (parse_bad p _ _ _ _ W C Wr) in E. injection E as <-. exists os, ws, r. auto.
  - intros (os & ws & r & W & C & -> & Wr). eapply parse_bad; eassumption.
Qed.
Lemma parse_total p l : parse_args (p :: l) <> Panic.
Proof.
  destruct (parse_cases l) as [(os & ws & rest & W & T & -> & C)|(os & ws & r & e' & W & C & -> & Wr)].
  - destruct (parse_good p _ _ _ W T C) as (o' & E' & _). congruence.
  - rewrite (parse_bad p _ _ _ _ W C Wr). discriminate.
Qed.
