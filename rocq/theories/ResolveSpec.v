(** Vocabulary for C67: lexical scoping. *)
From Coq Require Import String.
From Verif Require Import Base Seq Resolve.
Local Open Scope nat_scope.

(** Well-bracketed histories: blocks and functions are left in the reverse of the order they were entered. *)
Inductive bracket := Block | Function.
Definition brackets (a : action) (b b' : list bracket) : Prop :=
  match a with
  | AEnter => b' = Block :: b
  | ALeave => b = Block :: b'
  | AFunction => b' = Function :: b
  | AEndFunction => b = Function :: b'
  | _ => b' = b
  end.
Inductive history : list bracket -> scopes -> Prop :=
| history_start : history [] start
| history_act b s a b' s' : history b s -> brackets a b b' -> act a s = Some s' -> history b' s'.

(** All variables in scope, in the order of declaration; the innermost one with the name [n] that is initialised. *)
Definition variables (s : scopes) : list local := flat_map flocals (frames s).
Definition innermost (n : string) (s : scopes) : option local := find (fun l => String.eqb (lname l) n && linit l) (rev (variables s)).
(** A variable is given by the depth of its function and its slot there. *)
Definition slot (l : local) : nat * nat := (ldepth l, lindex l).
(** The variable that entry [i] of the environment of the function at depth [d] is: the environment was made from
    variables (true) and the environment (false) of the function around it. *)
Fixpoint owner (fs : list frame) (d i : nat) : option (nat * nat) :=
  match d with
  | O => None
  | S k =>
      match nth_error (ups fs k) i with
      | Some (true, j) => Some (k, j)
      | Some (false, j) => owner fs k j
      | None => None
      end
  end.
(** the variable a reference in the current function is *)
Definition denotes (s : scopes) (r : reference) : option (nat * nat) :=
  match r with
  | RLocal i => Some (function_depth s, i)
  | RGlobal i => Some (0, i)
  | RUp i => owner (frames s) (function_depth s) i
  | RLate | RUndeclared => None
  end.
(** the environment of the functions inside the one at depth [d] already has the variable [v] *)
Definition already_captured (s : scopes) (d : nat) (v : nat * nat) : Prop := exists i, owner (frames s) (S d) i = Some v.

(** The compiler goes on from [s] to [s'] without leaving the function at depth [d]. *)
Inductive continues (d : nat) : scopes -> scopes -> Prop :=
| continues_refl s : continues d s s
| continues_act s a s' s'' : act a s = Some s' -> d < length (frames s') -> continues d s' s'' -> continues d s s''.
(** the name of the variable in a slot *)
Definition name_of (s : scopes) (v : nat * nat) : option string :=
  match nth_error (frames s) (fst v) with Some f => option_map lname (nth_error (flocals f) (snd v)) | None => None end.

(** [n] is a variable of the program, or not captured yet by the functions between it and this one. *)
Definition fresh (n : string) (s : scopes) : Prop :=
  forall l, innermost n s = Some l -> ~ (ldepth l = 0 /\ lscope l = 0) ->
  forall d, ldepth l < d < function_depth s -> ~ already_captured s d (slot l).
(** Histories in which every reference is like that. *)
Inductive tame : list bracket -> scopes -> Prop :=
| tame_start : tame [] start
| tame_act b s a b' s' : tame b s -> brackets a b b' -> (forall n, a = AReference n -> fresh n s) -> act a s = Some s' -> tame b' s'.

(** The compiler goes on from [s] with the brackets [b ++ base], inside of [base]. *)
Inductive inside (base : list bracket) : list bracket -> scopes -> list bracket -> scopes -> Prop :=
| inside_refl b s : inside base b s b s
| inside_act b s a b' s' b'' s'' : brackets a (b ++ base) (b' ++ base) -> act a s = Some s' -> inside base b' s' b'' s'' -> inside base b s b'' s''.
(** what is known of a variable, other than whether it is initialised and captured *)
Definition declaration (l : local) : string * nat * nat * nat := (lname l, ldepth l, lindex l, lscope l).
