(** Proofs for C43, concluded: whole programs. *)
From Verif Require Import Base Native Err Value Ops Vm Lang LangSpec CompGraph CompUnf LangProofs CompileSpec CompileProofs Opt OptSpec OptProofs OptProofs2 OptProofs3 OptProofs4 OptProofs5.
Local Open Scope nat_scope.

Section maps.
Context (g : expr -> expr) (Q : expr -> Prop).
Definition fwd (e e' : expr) : Prop := e' = e \/ Q e /\ e' = g e.
Definition bwd (e' e : expr) : Prop := fwd e e'.
Lemma rel_map_o m : all_o Q m -> rel_o fwd m (map_opt g m).
Proof. destruct m; cbn; constructor. right. auto. Qed.
Lemma rel_map : (forall s, all_stmt Q s -> rel_stmt fwd s (map_stmt g s)) /\ (forall b, all_stmts Q b -> rel_stmts fwd b (map_stmts g b)) /\
  (forall e, all_else Q e -> rel_else fwd e (map_else g e)) /\ (forall e, all_os Q e -> rel_os fwd e (map_os g e)).
Proof.
  assert (K : forall e, Q e -> fwd e (g e)) by (right; auto).
  assert (K' : forall e, fwd e e) by (left; auto).
  pose proof rel_map_o as K2.
  apply stmt_all; intros; cbn [all_stmt all_stmts all_else all_os map_stmt map_stmts map_else map_os] in *; constructor; try apply K'; try apply K2; try apply K; tauto.
Qed.
Lemma rel_map_fun f : all_fun Q f -> rel_fun fwd f (map_fun g f).
Proof.
  destruct f as [a d v b]. intros [H J]. split; cbn [map_fun sf_args sf_variadic sf_defs sf_body] in *; auto.
  - induction H; cbn [map]; constructor; auto. right; auto.
  - destruct b; cbn [map_body]; constructor; [now apply rel_map|right; auto].
Qed.
(** converse relation *)
Lemma conv_o R m m' : rel_o R m m' -> rel_o (fun a b => R b a) m' m.
Proof. destruct 1; constructor; auto. Qed.
End maps.
Scheme rel_stmt_i := Induction for rel_stmt Sort Prop with rel_stmts_i := Induction for rel_stmts Sort Prop with rel_else_i := Induction for rel_else Sort Prop with rel_os_i := Induction for rel_os Sort Prop.
Combined Scheme rel_all from rel_stmt_i, rel_stmts_i, rel_else_i, rel_os_i.
Section conv.
Context (R : expr -> expr -> Prop).
Local Notation C := (fun a b => R b a).
Lemma conv_all : (forall s s', rel_stmt R s s' -> rel_stmt C s' s) /\ (forall s s', rel_stmts R s s' -> rel_stmts C s' s) /\
  (forall s s', rel_else R s s' -> rel_else C s' s) /\ (forall s s', rel_os R s s' -> rel_os C s' s).
Proof. pose proof (conv_o R) as K. apply (rel_all R (fun s s' _ => rel_stmt C s' s) (fun s s' _ => rel_stmts C s' s) (fun s s' _ => rel_else C s' s) (fun s s' _ => rel_os C s' s)); intros; constructor; auto. Qed.
Lemma conv_fun f f' : rel_fun R f f' -> rel_fun C f' f.
Proof. intros [A B D E]. split; auto; [clear - D; induction D; constructor; auto|destruct E; constructor; auto; now apply conv_all]. Qed.
End conv.

Section opt.
Context (P : prims) (dec : nat -> option value) (enc : value -> hval) (to_str : value -> list Z) (fmt : list Z -> value -> result value).
Context (LW : lawful P dec enc to_str fmt).
Local Notation optimize := (optimize dec enc to_str fmt).
Local Notation walkc := (walk dec enc to_str fmt (careful dec)).
Lemma expr_same funs e : real dec e = true -> unswapped e = true -> optimize e = walkc e ->
  forall fr s v s', gives P funs fr e s v s' <-> gives P funs fr (optimize e) s v s'.
Proof. intros A B C. rewrite C. exact (proj2 (proj1 (ok_all P funs dec enc to_str fmt LW) e A B)). Qed.

Local Notation Q := (fun e => real dec e = true /\ unswapped e = true /\ optimize e = walkc e).
Lemma table_fwd p : all_program Q p -> forall i, match nth_error (pr_funs p) i, nth_error (pr_funs (map_program optimize p)) i with
  Some f, Some g => rel_fun (fwd optimize Q) f g | None, None => True | _, _ => False end.
Proof.
  intros [H _] i. cbn [map_program pr_funs]. rewrite nth_error_map. destruct (nth_error (pr_funs p) i) eqn:E; cbn [option_map]; [|exact Logic.I].
  apply rel_map_fun. apply nth_error_In in E. rewrite Forall_forall in H. exact (H _ E).
Qed.
Lemma program_same p w w' : all_program Q p -> completes P p w w' <-> completes P (optimize_program dec enc to_str fmt p) w w'.
Proof.
  intro H. unfold completes, optimize_program. split; intros (ls & last & s' & E & W); exists ls, last, s'; (split; [|exact W]); unfold runs in *.
  - destruct E as (n & l0 & E). cbn [map_program pr_main] in *.
    enough (okx P (fun m => exec_list P _ m true (Frame [] []) l0 _ (start P w)) (ONorm ls last) s') as [m M] by (exists m, l0; exact M).
    refine (t_list _ _ _ _ _ (tr_all P _ _ (fwd optimize Q) _ (table_fwd p H) n) _ _ _ _ _ _ _ _ _ E).
    + intros e e' [->|[K ->]] fr s v s2; [auto|]. now apply expr_same.
    + apply rel_map. apply H.
  - destruct E as (n & l0 & E). cbn [map_program pr_main] in *.
    enough (okx P (fun m => exec_list P _ m true (Frame [] []) l0 _ (start P w)) (ONorm ls last) s') as [m M] by (exists m, l0; exact M).
    refine (t_list _ _ _ _ _ (tr_all P _ _ (fun a b => fwd optimize Q b a) _ _ n) _ _ _ _ _ _ _ _ _ E).
    + intros e e' [->|[K ->]] fr s v s2; [auto|]. now apply expr_same.
    + intro i. pose proof (table_fwd p H i) as T. cbn [map_program pr_funs] in *. destruct (nth_error (pr_funs p) i), (nth_error (map (map_fun optimize) (pr_funs p)) i); try contradiction; auto. now apply conv_fun.
    + apply conv_all. apply rel_map. apply H.
Qed.
End opt.
