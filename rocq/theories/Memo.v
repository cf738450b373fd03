(** Memoised functions: core/mod.rs:1064-1090 and core/collections.rs:635-640.

    The cache is a HashMap keyed by the vector of arguments.  The key is modelled by the
    list value of the arguments: `Vec<ValuePtr>` and lists hash and compare the same way
    (length, then the elements).  Mutation of an argument after it became a key is not
    modelled.

    The function underneath is any program: it ends with a result, changes the state of
    the interpreter, or calls the memoised function again.  [fuel] bounds the steps that
    are looked at; what happened until then is in the trace. *)
From Verif Require Import Base Native Value Err Coll.

Section Memo.
  Variable U : Type.                       (* the rest of the interpreter's state *)
  Inductive prog :=
  | Done (r : result value)
  | Act (k : U -> U * prog)
  | Again (args : list value) (k : result value -> prog).
  Variable body : list value -> prog.      (* the function underneath *)

  (** what happened: a call of the memoised function, the start and end of the function
      underneath, an answer of the memoised function *)
  Inductive happened :=
  | Called (args : list value)
  | Started (args : list value)
  | Finished (args : list value) (v : value)
  | Failed (args : list value)
  | Answered (args : list value) (v : value).

  Record state := State { cache : entries; user : U; trace : list happened }.
  Definition log (e : happened) (s : state) : state := State (cache s) (user s) (trace s ++ [e]).

  (** core/mod.rs:1065-1090 invoke_memoized *)
  Fixpoint run (fuel : nat) (p : prog) (s : state) : option (result value) * state :=
    match fuel with
    | O => (None, s)
    | S n =>
        match p with
        | Done r => (Some r, s)
        | Act k => let '(u, p') := k (user s) in run n p' (State (cache s) u (trace s))
        | Again args k =>
            match invoke_memoized n args s with
            | (Some r, s') => run n (k r) s'
            | (None, s') => (None, s')
            end
        end
    end
  with invoke_memoized (fuel : nat) (args : list value) (s : state) : option (result value) * state :=
    let s := log (Called args) s in
    match map_get (VList args) (cache s) with
    | Some ret => (Some (Ok ret), log (Answered args ret) s)
    | None =>
        match fuel with
        | O => (None, log (Started args) s)
        | S n =>
            match run n (body args) (log (Started args) s) with
            | (Some (Ok ret), s') =>
                let s' := log (Finished args ret) s' in
                let '(v, c) := map_or_insert (VList args) ret (cache s') in
                (Some (Ok v), log (Answered args v) (State c (user s') (trace s')))
            | (Some r, s') => (Some r, log (Failed args) s')
            | (None, s') => (None, s')
            end
        end
    end.
End Memo.
Arguments Done {U}. Arguments Act {U}. Arguments Again {U}.
Arguments run {U}. Arguments invoke_memoized {U}. Arguments State {U}. Arguments cache {U}. Arguments user {U}. Arguments trace {U}. Arguments log {U}.
