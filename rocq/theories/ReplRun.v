(** A line of the interactive session on the machine: vm/mod.rs 70-87 (ExitType), 223-226 (run_until_completion). *)
From Verif Require Import Base Native Err Vm.
Local Open Scope nat_scope.

Section line.
Context (P : prims).
(** how a line ends: vm/mod.rs 70-87.  With an error comes the machine it leaves; of a builtin
    that fails in a function it has called, the state before it is taken, with the new world *)
Inductive line_end := LYield (m : vm P) | LReturn (m : vm P) | LError (e : verr (E P)) (m : vm P) | LStuck.

(** `run` (Vm.v) in the session: the state is kept when it stops *)
Section run_line.
Context (code : list op) (funs : nat -> option func) (stp : op -> vm P -> effect P).
Fixpoint run_line (n drop : nat) (m : vm P) : option line_end :=
  match n with
  | O => None
  | S n =>
      match nth_error code (ip P m) with
      | None => Some LStuck
      | Some o =>
          match stp o (set_ip P (S (ip P m)) m) with
          | Go _ m' => run_line n drop m'
          | Fail _ XYield _ => Some (LYield (set_ip P (S (ip P m)) m))
          | Fail _ e w => Some (LError e (set_world P w (set_ip P (S (ip P m)) m)))
          | Ret _ m' => if length (frames P m') =? drop then Some (LReturn m') else run_line n drop m'
          | Run _ t m' =>
              match run_tree P code funs stp n t m' with
              | None => None
              | Some (TVal _ m'' v) => run_line n drop (push P v m'')
              | Some (TFail _ e w) => Some (LError e (set_world P w m'))
              | Some (TStuck _) => Some LStuck
              end
          | Invoke _ k m' =>
              match invoke P code funs stp n k m' with
              | None => None
              | Some (INative _ m'') | Some (IUser _ m'') => run_line n drop m''
              | Some (IErr _ e w) => Some (LError e (set_world P w m'))
              | Some (IStuck _) => Some LStuck
              end
          | Stuck _ => Some LStuck
          end
      end
  end.
End run_line.
End line.
