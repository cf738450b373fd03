(** Incremental compilation, as done for every line of the REPL and for every `eval`:
    compiler/mod.rs:64-198, compiler/parser/mod.rs:48-55, 215-268, and everything in the parser that changes
    what outlives one compilation (compiler/parser/semantic.rs:103-175, 766-790, 884-957, 975-990, 1087-1104, 1399-1480).

    The parser itself is not modelled here: a parse is an arbitrary sequence of these changes ([action]).
    Opcodes, locations, patterns, the code of a function before emission and the table of local variables are arbitrary types.
    u32 truncation of indices is not modelled. *)
From Coq Require Import String.
From Verif Require Import Base Seq.
Local Open Scope nat_scope.

(** Constants: literals, functions (vm/value/func.rs), and struct types (vm/value/mod.rs:744-789) with the
    numbers of the instance and constructor types; [None] as instance type is the u32::MAX of a native module
    (parser/mod.rs:405) *)
Inductive const := KNil | KLit (tag : Z) | KFun (head tail : nat) | KType (instance : option nat) (constructor : nat).
(** ptr.rs:330-388: literals compare by value, struct types by instance type (vm/value/mod.rs:791-795), functions by head
    (and the other fields of func.rs:26-47), and values of different types are different *)
Definition const_eqb (a b : const) : bool :=
  match a, b with
  | KNil, KNil => true
  | KLit x, KLit y => (x =? y)%Z
  | KFun h t, KFun h' t' => (h =? h') && (t =? t')
  | KType (Some x) _, KType (Some y) _ => x =? y
  | KType None _, KType None _ => true
  | _, _ => false
  end.

(** semantic.rs:103-128. [undeclared]: `loc` is Some: the field was used but not declared *)
Record fieldref := FieldRef { field_index : nat; undeclared : bool }.
Record fields := Fields { names : list (string * fieldref); lookup : list ((nat * nat) * nat); types : nat }.
Fixpoint get {K V} (eqb : K -> K -> bool) (k : K) (l : list (K * V)) : option V :=
  match l with [] => None | (a, v) :: r => if eqb a k then Some v else get eqb k r end.
(** HashMap::insert, and the modification of an entry *)
Fixpoint put {K V} (eqb : K -> K -> bool) (k : K) (v : V) (l : list (K * V)) : list (K * V) :=
  match l with [] => [(k, v)] | (a, w) :: r => if eqb a k then (a, v) :: r else (a, w) :: put eqb k v r end.
Definition pair_eqb (a b : nat * nat) : bool := (fst a =? fst b) && (snd a =? snd b).
(** semantic.rs:138-140 *)
Definition get_offset (f : fields) (t i : nat) : option nat := get pair_eqb (t, i) (lookup f).
(** semantic.rs:153-170 *)
Definition declare_field_offset (name : string) (t offset : nat) (f : fields) : fields :=
  let i := match get String.eqb name (names f) with Some r => field_index r | None => length (names f) end in
  Fields (put String.eqb name (FieldRef i false) (names f)) (put pair_eqb (t, i) offset (lookup f)) (types f).
(** semantic.rs:1467-1480; [b]: not in error recovery *)
Definition resolve_field (name : string) (b : bool) (f : fields) : fields :=
  match get String.eqb name (names f) with
  | Some _ => f
  | None => Fields (put String.eqb name (FieldRef (length (names f)) b) (names f)) (lookup f) (types f)
  end.
(** semantic.rs:172-176 *)
Definition declare_type (f : fields) : fields * nat := (Fields (names f) (lookup f) (S (types f)), types f).

Section compile.
Context {Op Loc Pat Body Locals : Type} (emit_ops : Body -> list Op) (emit_locs : Body -> list Loc).

(** compiler/mod.rs:124-138 (without the view of the source, and the flag).  [library]: semantic.rs:766-768 *)
Record params := Params {
  code : list Op; constants : list const; patterns : list Pat; globals : list string; locations : list Loc;
  pfields : fields; modules : list string; methods : list (nat * string); locals : Locals
}.
Definition set_constants (c : list const) (p : params) : params :=
  Params (code p) c (patterns p) (globals p) (locations p) (pfields p) (modules p) (methods p) (locals p).
Definition set_fields (f : fields) (p : params) : params :=
  Params (code p) (constants p) (patterns p) (globals p) (locations p) f (modules p) (methods p) (locals p).
Definition set_locals (l : Locals) (p : params) : params :=
  Params (code p) (constants p) (patterns p) (globals p) (locations p) (pfields p) (modules p) (methods p) l.
Definition add_code (b : Body) (p : params) : params :=
  Params (code p ++ emit_ops b) (constants p) (patterns p) (globals p) (locations p ++ emit_locs b) (pfields p) (modules p) (methods p) (locals p).
Definition add_patterns (l : list Pat) (p : params) : params :=
  Params (code p) (constants p) (patterns p ++ l) (globals p) (locations p) (pfields p) (modules p) (methods p) (locals p).
Definition add_global (n : string) (p : params) : params :=
  Params (code p) (constants p) (patterns p) (globals p ++ [n]) (locations p) (pfields p) (modules p) (methods p) (locals p).

(** The parser, parser/mod.rs:80-141: what it shares with the session, the functions (with the index of the constant
    reserved for each), patterns and code not yet emitted, the errors (is it an unexpected end of input?), and the
    types it declared *)
Record parser := Parser { shared : params; pending : list (nat * Body); pats : list Pat; output : Body; errors : list bool; my_types : list nat }.

(** semantic.rs:884-891: the index of a constant equal to [v], or a new one *)
Fixpoint position (v : const) (l : list const) : option nat :=
  match l with [] => None | x :: r => if const_eqb x v then Some 0 else option_map S (position v r) end.
Definition declare_const (v : const) (p : params) : params * nat :=
  match position v (constants p) with
  | Some i => (p, i)
  | None => (set_constants (constants p ++ [v]) p, length (constants p))
  end.
(** semantic.rs:1454-1464 *)
Fixpoint name_position (n : string) (l : list string) : option nat :=
  match l with [] => None | x :: r => if String.eqb x n then Some 0 else option_map S (name_position n r) end.
Definition declare_native (m n : string) (p : params) : params :=
  let '(ms, i) := match name_position m (modules p) with Some i => (modules p, i) | None => (modules p ++ [m], length (modules p)) end in
  Params (code p) (constants p) (patterns p) (globals p) (locations p) (pfields p) ms (methods p ++ [(i, n)]) (locals p).

(** What the parser can do.  Types are those it declared itself, by position. *)
Inductive action :=
| AConst (tag : Z)                                            (* declare_const of an int, string, complex *)
| AFunction (b : Body)                                        (* declare_function, semantic.rs:934-950 *)
| APattern (p : Pat)                                          (* declare_pattern, 953-957 *)
| AGlobal (n : string)                                        (* declare_local, 988 *)
| AType                                                       (* declare_type *)
| AField (t : nat) (n : string) (offset : nat)                (* declare_field, 1399-1411; declare_method, 1445 *)
| AResolve (n : string) (b : bool)                            (* resolve_field *)
| AModule (instance : option nat) (constructor : nat)         (* end_module, 921-929 *)
| ANative (m n : string)                                      (* declare_native *)
| ALocals (l : Locals)                                        (* any change of the local variables *)
| AEdit (i : nat) (b : Body)                                  (* the code of a function *)
| AOutput (b : Body)                                          (* the code of the main program *)
| AError (eof : bool).                                        (* an error *)

Definition on_shared (f : params -> params) (q : parser) : parser := Parser (f (shared q)) (pending q) (pats q) (output q) (errors q) (my_types q).
Definition set_pending (l : list (nat * Body)) (q : parser) : parser := Parser (shared q) l (pats q) (output q) (errors q) (my_types q).
(** Errors in error recovery mode are dropped (core/mod.rs:336-344); here they are kept: there is an error before them. *)
Definition add_error (eof : bool) (q : parser) : parser := Parser (shared q) (pending q) (pats q) (output q) (errors q ++ [eof]) (my_types q).
Definition edit (i : nat) (b : Body) (l : list (nat * Body)) : list (nat * Body) :=
  match nth_error l i with Some (id, _) => update l i (id, b) | None => l end.
Definition act (a : action) (q : parser) : parser :=
  match a with
  | AConst t => on_shared (fun p => fst (declare_const (KLit t) p)) q
  | AFunction b =>
      let p := shared q in
      Parser (set_constants (constants p ++ [KNil]) p) (pending q ++ [(length (constants p), b)]) (pats q) (output q) (errors q) (my_types q)
  | APattern x => Parser (shared q) (pending q) (pats q ++ [x]) (output q) (errors q) (my_types q)
  | AGlobal n => on_shared (add_global n) q
  | AType =>
      let '(f, t) := declare_type (pfields (shared q)) in
      Parser (set_fields f (shared q)) (pending q) (pats q) (output q) (errors q) (my_types q ++ [t])
  | AField t n o =>
      match nth_error (my_types q) t with
      | Some t => on_shared (fun p => set_fields (declare_field_offset n t o (pfields p)) p) q
      | None => q
      end
  | AResolve n b => on_shared (fun p => set_fields (resolve_field n b (pfields p)) p) q
  | AModule i c =>
      match match i with None => Some None | Some i => option_map Some (nth_error (my_types q) i) end, nth_error (my_types q) c with
      | Some i, Some c => on_shared (fun p => fst (declare_const (KType i c) p)) q
      | _, _ => q
      end
  | ANative m n => on_shared (declare_native m n) q
  | ALocals l => on_shared (set_locals l) q
  | AEdit i b => set_pending (edit i b (pending q)) q
  | AOutput b => Parser (shared q) (pending q) (pats q) b (errors q) (my_types q)
  | AError e => add_error e q
  end.

(** A parse: the actions of the rule; the effects of resolve_remaining_late_bindings on functions, and its errors
    (semantic.rs:1087-1097); is there an unexpected token at the end *)
Record parse := Parse { actions : list action; late : list (nat * Body); late_errors : list bool; trailing : bool }.
(** `Parser::bake`, semantic.rs:708-710, with parser/mod.rs:242-255 *)
Definition emit_function (p : params) (f : nat * Body) : params :=
  let head := length (code p) in
  let p := add_code (snd f) p in
  set_constants (update (constants p) (fst f) (KFun head (length (code p) - 1))) p.
(** semantic.rs:1098-1103 *)
Definition field_errors (f : fields) : list bool := map (fun _ => false) (filter (fun e => undeclared (snd e)) (names f)).
(** parser/mod.rs:230-268 teardown.  Patterns are mapped: their types are not distinguished here. *)
Definition teardown (x : parse) (q : parser) : parser :=
  let q := on_shared (add_code (output q)) q in
  let q := set_pending (fold_left (fun l e => edit (fst e) (snd e) l) (late x) (pending q)) q in
  let q := Parser (shared q) (pending q) (pats q) (output q) (errors q ++ late_errors x ++ field_errors (pfields (shared q))) (my_types q) in
  let q := Parser (fold_left emit_function (pending q) (shared q)) [] (pats q) (output q) (errors q) (my_types q) in
  let q := Parser (add_patterns (pats q) (shared q)) (pending q) [] (output q) (errors q) (my_types q) in
  if trailing x then add_error false q else q.
(** parser/mod.rs:48-55 parse_incremental; [empty]: Code::new *)
Definition parse_incremental (empty : Body) (x : parse) (p : params) : params * list bool :=
  let q := teardown x (fold_left (fun q a => act a q) (actions x) (Parser p [] [] empty [] [])) in
  (shared q, errors q).

Inductive result := Success | Errors | Aborted.
(** the loops at compiler/mod.rs:98-104 and 110-116: only the first error can abort *)
Definition verdict (abort_in_eof : bool) (errs : list bool) : result :=
  match errs with [] => Success | e :: _ => if e && abort_in_eof then Aborted else Errors end.
(** compiler/mod.rs:92-120; [scan]: the errors of the scanner *)
Definition try_incremental_compile (empty : Body) (scan : list bool) (x : parse) (abort_in_eof : bool) (p : params) : params * result :=
  match scan with
  | _ :: _ => (p, verdict abort_in_eof scan)
  | [] => let '(p, errs) := parse_incremental empty x p in (p, verdict abort_in_eof errs)
  end.
(** compiler/mod.rs:144-157, 175-198 *)
Record saved := Saved { s_code : nat; s_constants : nat; s_patterns : nat; s_globals : nat; s_locations : nat; s_fields : fields; s_functions : nat * nat; s_locals : Locals }.
Definition save (p : params) : saved :=
  Saved (length (code p)) (length (constants p)) (length (patterns p)) (length (globals p)) (length (locations p)) (pfields p)
    (length (modules p), length (methods p)) (locals p).
Definition restore (s : saved) (p : params) : params :=
  Params (firstn (s_code s) (code p)) (firstn (s_constants s) (constants p)) (firstn (s_patterns s) (patterns p)) (firstn (s_globals s) (globals p))
    (firstn (s_locations s) (locations p)) (s_fields s) (firstn (fst (s_functions s)) (modules p)) (firstn (snd (s_functions s)) (methods p)) (s_locals s).
(** compiler/mod.rs:67-78 *)
Definition incremental_compile (empty : Body) (scan : list bool) (x : parse) (p : params) : params * result :=
  let s := save p in
  let '(p, r) := try_incremental_compile empty scan x true p in
  match r with Success => (p, r) | _ => (restore s p, r) end.
(** compiler/mod.rs:86-90, vm/mod.rs:212-215: with its own, empty table of local variables *)
Definition eval_compile (empty : Body) (no_locals : Locals) (scan : list bool) (x : parse) (p : params) : params * result :=
  let '(q, r) := try_incremental_compile empty scan x false (set_locals no_locals p) in
  (set_locals (locals p) q, r).
End compile.
Arguments params : clear implicits. Arguments action : clear implicits. Arguments parse : clear implicits. Arguments parser : clear implicits.
