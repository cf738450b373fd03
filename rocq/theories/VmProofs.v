(** Basic facts about the machine. *)
From Verif Require Import Base Native Err Vm.
Local Open Scope nat_scope.

Section facts.
Context (P : prims) (code : list op) (funs : nat -> option func) (stp : op -> vm P -> effect P).
Local Notation run := (run P code funs stp).
Local Notation invoke := (invoke P code funs stp).
Local Notation run_tree := (run_tree P code funs stp).

Lemma run_S n drop m : run (S n) drop m = 
      match nth_error code (ip P m) with
      | None => Some (VStuck P)
      | Some o =>
          match stp o (set_ip P (S (ip P m)) m) with
          | Go _ m' => run n drop m'
          | Fail _ e w => Some (VErr P e w)
          | Ret _ m' => if length (frames P m') =? drop then Some (VDone P m') else run n drop m'
          | Run _ t m' =>
              match run_tree n t m' with
              | None => None
              | Some (TVal _ m'' v) => run n drop (push P v m'')
              | Some (TFail _ e w) => Some (VErr P e w)
              | Some (TStuck _) => Some (VStuck P)
              end
          | Invoke _ k m' =>
              match invoke n k m' with
              | None => None
              | Some (INative _ m'') | Some (IUser _ m'') => run n drop m''
              | Some (IErr _ e w) => Some (VErr P e w)
              | Some (IStuck _) => Some (VStuck P)
              end
          | Stuck _ => Some (VStuck P)
          end
      end.
Proof. reflexivity. Qed.
Lemma invoke_S n k m : invoke (S n) k m =
  match call_of P funs k m with
  | CallDone _ r => Some r
  | CallBuiltin _ t m1 =>
      match run_tree n t m1 with
      | None => None
      | Some (TVal _ m' v) => Some (INative P (set_stack P (below (stack P m') 1 ++ [v]) m'))
      | Some (TFail _ e w) => Some (IErr P e w)
      | Some (TStuck _) => Some (IStuck P)
      end
  end.
Proof. reflexivity. Qed.
Lemma tree_S n t m : run_tree (S n) t m = 
      match t with
      | TRet w v => Some (TVal P (set_world P w m) v)
      | TErr w e => Some (TFail P (XPrim e) w)
      | TCall w f args k =>
          let m1 := set_stack P (stack P m ++ f :: args) (set_world P w m) in
          match invoke n (length args) m1 with
          | None => None
          | Some (IErr _ e w) => Some (TFail P e w)
          | Some (IStuck _) => Some (TStuck P)
          | Some (INative _ m2) =>
              match rev (stack P m2) with
              | v :: r => run_tree n (k (world P m2) v) (set_stack P (rev r) m2)
              | [] => Some (TStuck P)
              end
          | Some (IUser _ m2) =>
              match run n (length (frames P m2) - 1) m2 with
              | None => None
              | Some (VDone _ m3) =>
                  match rev (stack P m3) with
                  | v :: r => run_tree n (k (world P m3) v) (set_stack P (rev r) m3)
                  | [] => Some (TStuck P)
                  end
              | Some (VErr _ e w) => Some (TFail P e w)
              | Some (VStuck _) => Some (TStuck P)
              end
          end
      end.
Proof. reflexivity. Qed.

(** more fuel does not change an outcome *)
Lemma mono : forall n,
  (forall n' drop m r, n <= n' -> run n drop m = Some r -> run n' drop m = Some r) /\
  (forall n' k m r, n <= n' -> invoke n k m = Some r -> invoke n' k m = Some r) /\
  (forall n' t m r, n <= n' -> run_tree n t m = Some r -> run_tree n' t m = Some r).
Proof.
  induction n as [|n [IH1 [IH2 IH3]]]; [repeat split; intros; discriminate|].
  repeat split; intros n' x m r Hle H; destruct n' as [|n']; try lia; assert (n <= n') as Hle' by lia; rewrite ?run_S, ?invoke_S, ?tree_S in H |- *.
  - destruct (nth_error code (ip P m)) as [o|]; [|auto].
    destruct (stp o (set_ip P (S (ip P m)) m)) as [m'| | m' | t m' | k m' |]; [eapply IH1; eauto | auto | | | | auto].
    + destruct (_ =? _); [auto | solve [eauto]].
    + destruct (run_tree n t m') as [q|] eqn:E; [|congruence]. rewrite (IH3 _ _ _ _ Hle' E).
      destruct q; auto; eapply IH1; eauto.
    + destruct (invoke n k m') as [q|] eqn:E; [|congruence]. rewrite (IH2 _ _ _ _ Hle' E).
      destruct q; auto; eapply IH1; eauto.
  - destruct (call_of P funs x m) as [|t m1]; auto.
    destruct (run_tree n t m1) as [q|] eqn:E; [|congruence]. rewrite (IH3 _ _ _ _ Hle' E). auto.
  - destruct x as [w v | w e | w f args k]; auto.
    cbv zeta in H |- *.
    match type of H with context [invoke n ?t ?mm] =>
        destruct (invoke n t mm) as [q|] eqn:E; [|discriminate]; rewrite (IH2 _ _ _ _ Hle' E) end.
    destruct q as [m2|m2| |]; auto.
    + destruct (rev _); auto; eapply IH3; eauto.
    + match type of H with context [run n ?t ?mm] =>
        destruct (run n t mm) as [q|] eqn:E2; [|discriminate]; rewrite (IH1 _ _ _ _ Hle' E2) end.
      destruct q; auto. destruct (rev _); auto; eapply IH3; eauto.
Qed.
Lemma run_mono n n' drop m r : run n drop m = Some r -> n <= n' -> run n' drop m = Some r.
Proof. intros. eapply (proj1 (mono n)); eauto. Qed.
Lemma invoke_mono n n' k m r : invoke n k m = Some r -> n <= n' -> invoke n' k m = Some r.
Proof. intros. eapply (proj1 (proj2 (mono n))); eauto. Qed.
Lemma tree_mono n n' t m r : run_tree n t m = Some r -> n <= n' -> run_tree n' t m = Some r.
Proof. intros. eapply (proj2 (proj2 (mono n))); eauto. Qed.

(** the outcome does not depend on the fuel *)
Lemma run_det n n' drop m r r' : run n drop m = Some r -> run n' drop m = Some r' -> r = r'.
Proof. intros A B. apply (run_mono _ (max n n')) in A; [|lia]. apply (run_mono _ (max n n')) in B; [|lia]. congruence. Qed.
End facts.
