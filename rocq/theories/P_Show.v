(** C71: `repr` and `str` of objects that may contain themselves. *)
From Coq Require Import String Lia Arith.
From Verif Require Import Base Native Value ValueSpec Err Str Repr ReprSpec Show ShowSpec ShowProofs P_Repr.
From Verif Require Scan.
Import Scan.
Local Open Scope nat_scope.

(** `repr` and `str` of every object in every heap, however the objects contain each other, end without a panic, with the text that
    [shows] describes: an object is written as dots exactly where it is a part of itself, and else in full, also where
    it occurs several times. *)
Theorem C71_ends (N : names) (H : heap) r : closed H -> valid H r ->
  exists n t, shows N H [] r t /\ (forall t', shows N H [] r t' -> t' = t) /\ (forall m, n <= m -> to_repr_str N H m r = Done t []) /\
    (forall m, n <= m -> to_str N H m r = Done (match r with Leaf v => str N v | _ => t end) []).
Proof.
  intros C V. destruct (show_ends N H C (length H) [] r) as (n & t & E); [constructor|intros a []|cbn; lia|exact V|].
  pose proof (proj2 (show_good N H n _ _ _ _ (E n (le_n n)))) as S. exists n, t. split; [exact S|]. split; [intros t' S'; exact (proj1 (shows_fun N H) _ _ _ S _ S')|]. split; [exact E|].
  intros m L. unfold to_str. destruct r; [reflexivity|apply E; exact L|apply E; exact L|apply E; exact L].
Qed.
Print Assumptions C71_ends.

(** At no point is there a panic (of the guard being empty), nor a result other than this text. *)
Theorem C71_only (N : names) (H : heap) r m : to_repr_str N H m r <> Panics /\ forall t rc, to_repr_str N H m r = Done t rc -> rc = [] /\ shows N H [] r t.
Proof. split; [apply show_calm|]. intros t rc E. apply (show_good N H m). exact E. Qed.
Print Assumptions C71_only.

(** An object that does not contain itself is written as the tree it stands for: the guard has no effect, and neither has sharing. *)
Theorem C71_tree (N : names) (H : heap) r k v : closed H -> valid H r -> tree H k r = Some v ->
  exists n, forall m, n <= m -> to_repr_str N H m r = Done (repr N v) [].
Proof.
  intros C V T. destruct (C71_ends N H r C V) as (n & t & S & U & E & _). exists n. intros m L. rewrite (E m L). f_equal. symmetry. apply U. eapply tree_shows; [exact T|]. intros a [].
Qed.
Print Assumptions C71_tree.

(** Hence, with C69: the text of such an object evaluates to that tree. *)
Theorem C71_eval (N : names) fmt (H : heap) r k v : closed H -> valid H r -> tree H k r = Some v -> readable N v -> wf v ->
  exists n t, (forall m, n <= m -> to_repr_str N H m r = Done t []) /\ evaluates N fmt t v.
Proof. intros C V T R W. destruct (C71_tree N H r k v C V T) as [n E]. exists n, (repr N v). split; [exact E|]. apply C69_round_trip; assumption. Qed.
Print Assumptions C71_eval.

(** A list that has itself as an element is written with dots at exactly these places of it: the elements that are other objects are not dots of it. *)
Theorem C71_itself (N : names) (H : heap) a l m t rc : nth_error H a = Some (NList l) -> to_repr_str N H m (Obj a) = Done t rc ->
  exists ts, t = map_join 91 93 ts /\ length ts = length l /\ forall i, nth_error l i = Some (Obj a) -> nth_error ts i = Some (text "[...]").
Proof.
  intros A E. apply (show_good N H m) in E. destruct E as [_ S]. inversion S as [| | |? ? d A' I|? ? d ts A' I P]; subst; [destruct I|]. rewrite A in A'. inversion A'; subst.
  inversion P as [? ? ? SA| | | | |]; subst. exists ts. split; [reflexivity|]. assert (D : forall t, shows N H [a] (Obj a) t -> t = text "[...]").
  { intros t S'. inversion S' as [| | |? ? d A2 I'|? ? d ? A2 I' ?]; subst; [|destruct I'; left; reflexivity]. rewrite A in A2. inversion A2. reflexivity. }
  clear - D SA. remember [a] as p. induction SA as [|p r l' t ts S _ IH]; [split; [reflexivity|]; intros [|i] X; discriminate|].
  destruct (IH Heqp D) as [L K]. split; [cbn; lia|]. intros [|i] X; [|apply K; exact X]. cbn in X. inversion X; subst. cbn. rewrite (D _ S). reflexivity.
Qed.
Print Assumptions C71_itself.

(** Examples: `let x = [1]; x.push(x); x.push({x: x})`, and a list that occurs twice. *)
Definition knot : heap := [NList [Leaf (VInt 1); Obj 0; Obj 1]; NDict [(Obj 0, Obj 2)]; NVector [Leaf VNil; Obj 2; REnumerate (Obj 1)]; NList [Obj 4; Obj 4]; NList [Leaf (VStr [120%Z])]].
Example ex_closed : closed knot.
Proof. intros d r D R. repeat (destruct D as [<-|D]; [cbn in R; repeat (destruct R as [<-|R]; [cbn; try lia; exact I|]); destruct R|]). destruct D. Qed.
Example ex_knot : map (to_repr_str no_names knot 20) [Obj 0; Obj 1; Obj 2; Obj 3] =
  [Done (text "[1, [...], {[...]: (nil, (...), enumerate({...}))}]") []; Done (text "{[1, [...], {...}]: (nil, (...), enumerate({...}))}") [];
   Done (text "(nil, (...), enumerate({[1, [...], {...}]: (...)}))") []; Done (text "[['x'], ['x']]") []].
Proof. vm_compute. reflexivity. Qed.
Example ex_tree : tree knot 3 (Obj 3) = Some (VList [VList [VStr [120%Z]]; VList [VStr [120%Z]]]) /\ tree knot 9 (Obj 0) = None.
Proof. split; vm_compute; reflexivity. Qed.
