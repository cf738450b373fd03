(** Vocabulary for memoised functions. *)
From Verif Require Import Base Native Value ValueSpec Err Coll Memo OpsProofs2.

(** equal argument tuples *)
Definition same (a b : list value) : Prop := key_match (VList a) (VList b) = true.
(** every argument tuple the program uses is well formed *)
Inductive tidy {U} : prog U -> Prop :=
| t_done r : tidy (Done r)
| t_act k : (forall u, tidy (snd (k u))) -> tidy (Act k)
| t_again args k : all_wf args -> (forall r, tidy (k r)) -> tidy (Again args k).
Definition answered (t : list happened) (a : list value) (v : value) : Prop := exists a', In (Answered a' v) t /\ same a a'.
Definition not_answered (t : list happened) (a : list value) : Prop := forall a' v, In (Answered a' v) t -> ~ same a a'.
