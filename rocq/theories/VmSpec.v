(** Vocabulary for C31, C32, C46, C47. *)
From Verif Require Import Base Native Err Vm.
Local Open Scope nat_scope.

(** a function with [p] required parameters, then [d] optional ones, the last of which may be
    variadic, accepts [n] arguments *)
Definition accepts (p d : nat) (variadic : bool) (n : nat) : Prop := p <= n /\ (variadic = true \/ n <= p + d).
(** the function as declared *)
Record declared (fn : func) (p d : nat) (variadic : bool) : Prop := {
  d_args : fn_args fn = p + d;
  d_defaults : length (fn_defaults fn) = d;
  d_variadic : fn_variadic fn = variadic;
  d_last : variadic = true -> 0 < d        (* a variadic parameter counts as optional *)
}.
(** where the body is entered: after the code of the defaults that were given *)
Definition entry_point (fn : func) (p d n h : nat) : Prop :=
  (n = p /\ h = fn_head fn) \/
  (p < n /\ exists off, nth_error (fn_defaults fn) (Nat.min n (p + d) - p - 1) = Some off /\ h = fn_head fn + off).
(** arguments beyond the last parameter are collected into one vector *)
Definition collects (p d : nat) (variadic : bool) (n : nat) : bool := variadic && (p + d <=? n).

Section spec.
Context (P : prims).
(** everything but ip, stack, frames and world *)
Definition rest (m : vm P) := (lits P m, unrolls P m, gcount P m, opens P m, cells P m, envs P m).

(** a history of uses of global variables by the main program *)
Inductive gact := GDeclare (v : hval) | GRead (i : nat) | GWrite (i : nat) (v : hval).
(** what it should give: the values read, or the first undeclared variable *)
Fixpoint gspec (vars : list hval) (h : list gact) : list hval + (list hval * nat) :=
  match h with
  | [] => inl []
  | GDeclare v :: r => gspec (vars ++ [v]) r
  | GRead i :: r =>
      match nth_error vars i with
      | None => inr ([], i)
      | Some v => match gspec vars r with inl l => inl (v :: l) | inr (l, j) => inr (v :: l, j) end
      end
  | GWrite i v :: r => if i <? length vars then gspec (firstn i vars ++ v :: skipn (S i) vars) r else inr ([], i)
  end.
(** the instructions each use compiles to; a read value is left on top and noted *)
Definition gops (a : gact) : list op :=
  match a with
  | GDeclare v => [OConst v; OInitGlobal]
  | GRead i => [OPushGlobal i]
  | GWrite i v => [OConst v; OStoreGlobal i true]
  end.
Fixpoint exec (os : list op) (m : vm P) : option (vm P + nat) :=
  match os with
  | [] => Some (inl m)
  | o :: r => match step P o m with Go _ m' => exec r m' | Fail _ (XUndeclared i) _ => Some (inr i) | _ => None end
  end.
Fixpoint gexec (m : vm P) (h : list gact) : option (list hval + (list hval * nat)) :=
  match h with
  | [] => Some (inl [])
  | a :: r =>
      match exec (gops a) m with
      | None => None
      | Some (inr i) => Some (inr ([], i))
      | Some (inl m') =>
          match a with
          | GRead _ =>
              match rev (stack P m') with
              | v :: s => match gexec (set_stack P (rev s) m') r with
                          | Some (inl l) => Some (inl (v :: l)) | Some (inr (l, j)) => Some (inr (v :: l, j)) | None => None end
              | [] => None
              end
          | _ => gexec m' r
          end
      end
  end.
End spec.
