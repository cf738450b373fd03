(** Vocabulary for C40. *)
From Verif Require Import Base Native Err Vm Graph GraphSpec Peep.
Local Open Scope nat_scope.

Section spec.
Context (P : prims).

(** A store whose target is the very stack slot holding the operand, or (through an open
    upvalue) the slot of the running closure.  The parser never emits one: variables live
    strictly below operands, and the callee's slot is no variable. *)
Definition self_store (o : op) (m : vm P) : bool :=
  match o with
  | OStoreLocal i false => S (fp P m + i) =? length (stack P m)
  | OStoreGlobal i false => (i <? gcount P m) && (S i =? length (stack P m))
  | OStoreUp i =>
      match up_cell P i m with
      | Some k => match nth_error (cells P m) k with
                  | Some (Open s) => (S s =? length (stack P m)) || (S s =? fp P m)
                  | _ => false
                  end
      | None => false
      end
  | _ => false
  end.
(** the machine that panics at such a store *)
Definition strict_step (o : op) (m : vm P) : effect P := if self_store o m then Stuck P else step P o m.

(** The outcome of a whole program run by `run_until_completion` (vm/mod.rs:192-200): `exit`,
    or a runtime error, with the final world (output, heap).  Programs end in Exit. *)
Definition outcome := (verr (E P) * W P)%type.
Definition runs_to (stp : op -> vm P -> effect P) (prog : list op * list func) (w : W P) (r : outcome) : Prop :=
  exists n, run P (fst prog) (fun i => nth_error (snd prog) i) stp n 0 (vm_init P w) = Some (VErr P (fst r) (snd r)).
End spec.

(** functions as the parser leaves them: default argument entry points are blocks *)
Definition wf_pfun (f : pfun) : Prop :=
  wf_graph (pf_code f) /\ pf_code f <> [] /\ forall b, In b (pf_defaults f) -> b < length (pf_code f).
Definition wf_program (main : graph) (fs : list pfun) : Prop :=
  wf_graph main /\ main <> [] /\ forall f, In f fs -> wf_pfun f.
