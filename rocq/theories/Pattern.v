(** Destructuring: the compiler's pattern builder (compiler/parser/semantic.rs:576-627)
    and the interpreter's `Pattern::apply` (core/pattern.rs).

    Parametric in the machine: [V] is the type of values (pointers), [S] the machine
    state, [look s v] what `v` points to in `s`.  A store of a freshly sliced list is one
    action (the list is allocated and stored at once).
    Array and field targets: the operands of `a[i]` and `a.f` are evaluated and pushed on
    the stack before the right hand side (semantic.rs:593-603, codegen.rs:260-264); here an
    operand is an opaque value of type [O] and the part of the stack holding operands is
    the list [stack], top first.
    Not modelled: late bound globals (patched to StoreOp::Global before the program runs),
    invalid references (an error was already reported). *)
From Verif Require Import Base Ptr Native Value Err Seq.
Local Open Scope Z_scope.

(** semantic.rs:303-345 LValue, LValueReference, after resolution *)
Inductive target (X O : Type) :=
| TVar (x : X)                 (* Local, Global, UpValue *)
| TArray (o : O)               (* a[i] *)
| TField (o : O) (f : nat)     (* a.f *)
| TThis.                       (* ThisField: a field named without `self.` in a method *)
Arguments TVar {X O}. Arguments TArray {X O}. Arguments TField {X O}. Arguments TThis {X O}.

Inductive lvalue (X O : Type) :=
| LEmpty                       (* _ *)
| LStarEmpty                   (* *_ *)
| LNamed (t : target X O)
| LStarNamed (t : target X O)
| LTerms (ts : list (lvalue X O)).
Arguments LEmpty {X O}. Arguments LStarEmpty {X O}. Arguments LNamed {X O}. Arguments LStarNamed {X O}. Arguments LTerms {X O}.

(** core/pattern.rs:10-23; vm/mod.rs StoreOp.  Array and Field terms are index terms with
    those store operations. *)
Inductive sop (X : Type) := OpVar (x : X) | OpArray | OpField (f : nat).
Arguments OpVar {X}. Arguments OpArray {X}. Arguments OpField {X}.
Inductive pattern (X : Type) := Pattern (len : nat) (variadic : bool) (terms : list (term X))
with term (X : Type) :=
| Index (i : Z) (o : sop X)
| Slice (lo hi : Z) (o : sop X)
| Sub (i : Z) (p : pattern X).
Arguments Pattern {X}. Arguments Index {X}. Arguments Slice {X}. Arguments Sub {X}.

Section Build.
  Variables X O : Type.
  (** semantic.rs:402-405 is_variadic *)
  Definition is_variadic (t : lvalue X O) : bool := match t with LStarEmpty | LStarNamed _ => true | _ => false end.
  (** semantic.rs:650-671 as_store_op, and the operands emitted for array and field targets;
      None is the panic "Invalid store from within pattern" *)
  Definition as_store_op (t : target X O) : option (sop X * list O) :=
    match t with
    | TVar x => Some (OpVar x, [])
    | TArray o => Some (OpArray, [o])
    | TField o f => Some (OpField f, [o])
    | TThis => None
    end.
  (** semantic.rs:576-627 do_build_pattern: the pattern, and the operands pushed, in order.
      [build_from] is the loop, [index] its variable. *)
  Fixpoint build (t : lvalue X O) : option (pattern X * list O) :=
    match t with
    | LTerms ts =>
        let v := existsb is_variadic ts in
        let len := if v then (length ts - 1)%nat else length ts in
        match (fix build_from (index : Z) (ts : list (lvalue X O)) : option (list (term X) * list O) :=
           match ts with
           | [] => Some ([], [])
           | t :: r =>
               let after_star := - (Z.of_nat len - index) in
               match t with
               | LEmpty => build_from (index + 1) r
               | LStarEmpty => build_from after_star r
               | LNamed l =>
                   match as_store_op l, build_from (index + 1) r with
                   | Some (o, e), Some (l', e') => Some (Index index o :: l', e ++ e')
                   | _, _ => None
                   end
               | LStarNamed l =>
                   match as_store_op l, build_from after_star r with
                   | Some (o, e), Some (l', e') => Some (Slice index after_star o :: l', e ++ e')
                   | _, _ => None
                   end
               | LTerms _ =>
                   match build t, build_from (index + 1) r with
                   | Some (p, e), Some (l', e') => Some (Sub index p :: l', e ++ e')
                   | _, _ => None
                   end
               end
           end) 0 ts with
        | Some (l, e) => Some (Pattern len v l, e)
        | None => None
        end
    | _ => None                  (* into_terms panics *)
    end.
End Build.
Arguments is_variadic {X O}. Arguments as_store_op {X O}. Arguments build {X O}.

(** what a value looks like to `len`, `get_index` and `get_slice` *)
Inductive shape (V : Type) :=
| Seq (list_not_vector : bool) (l : list V)    (* list, vector *)
| Chars (s : list Z)                           (* string *)
| Sized (n : nat)                              (* set, heap, range, enumerate: length but no index *)
| Dict (n : nat)
| NotIterable.
Arguments Seq {V}. Arguments Chars {V}. Arguments Sized {V}. Arguments Dict {V}. Arguments NotIterable {V}.

(** what gets stored: a value, or a new list or vector, or a new string *)
Inductive stored (V : Type) := Old (v : V) | NewSeq (list_not_vector : bool) (l : list V) | NewChars (s : list Z).
Arguments Old {V}. Arguments NewSeq {V}. Arguments NewChars {V}.

Inductive perror (E : Type) :=
| CannotUnpackGreater (expected actual : nat)
| CannotUnpackEqual (expected actual : nat)
| MustBeIterable | MustBeIndexable | MustBeSliceable
| OutOfBounds (i : Z) (len : Z)
| OfMachine (e : E).           (* raised by a store or by a dict's default *)
Arguments CannotUnpackGreater {E}. Arguments CannotUnpackEqual {E}. Arguments MustBeIterable {E}. Arguments MustBeIndexable {E}.
Arguments MustBeSliceable {E}. Arguments OutOfBounds {E}. Arguments OfMachine {E}.

(** outcome of an action: the state is kept when an error is raised *)
Inductive outcome (E S A : Type) := Good (a : A) (s : S) | Bad (e : perror E) (s : S) | Crash.
Arguments Good {E S A}. Arguments Bad {E S A}. Arguments Crash {E S A}.

Section Apply.
  Variables X O V S E : Type.
  Variable look : S -> V -> shape V.
  Variable char : Z -> V.                                   (* the one-character string *)
  Variable store : target X O -> stored V -> S -> outcome E S unit.
  Variable dict_get : V -> Z -> S -> outcome E S V.         (* get_dict_index *)

  (** vm/value/mod.rs:402-414 len (strings: characters) *)
  Definition len_of (v : V) (s : S) : option nat :=
    match look s v with
    | Seq _ l => Some (length l)
    | Chars c => Some (length c)
    | Sized n | Dict n => Some n
    | NotIterable => None
    end.
  (** vm/value/mod.rs:1017-1026 check_index *)
  Definition position (len i : Z) : option nat :=
    let raw := u64 (to_index len i) in if raw <? len then Some (Z.to_nat raw) else None.
  (** core/collections.rs:16-25 get_index (strings: byte length) *)
  Definition index_at (v : V) (i : Z) (s : S) : outcome E S V :=
    match look s v with
    | Seq _ l =>
        let n := Z.of_nat (length l) in
        match position n i with
        | None => Bad (OutOfBounds i n) s
        | Some k => match nth_error l k with Some x => Good x s | None => Crash end
        end
    | Chars c =>
        match position (byte_len c) i with
        | None => Bad (OutOfBounds i (byte_len c)) s
        | Some k => match nth_error c k with Some x => Good (char x) s | None => Crash end
        end
    | Dict _ => dict_get v i s
    | Sized _ | NotIterable => Bad MustBeIndexable s
    end.
  (** core/collections.rs:81-121 get_slice with step 1, core/pattern.rs:96-100 *)
  Definition cut {A} (len : Z) (l : list A) (lo hi : Z) : option (list A) :=
    let hi := if hi =? 0 then len else hi in
    let start := to_index len lo in
    let stop := to_index len hi in
    match accept_all len l (step_range (Z.to_nat (stop - start)) start stop 1) with Ok r => Some r | _ => None end.
  Definition slice_of (v : V) (lo hi : Z) (s : S) : outcome E S (stored V) :=
    match look s v with
    | Seq k l => match cut (Z.of_nat (length l)) l lo hi with Some r => Good (NewSeq k r) s | None => Crash end
    | Chars c => match cut (byte_len c) c lo hi with Some r => Good (NewChars r) s | None => Crash end
    | _ => Bad MustBeSliceable s
    end.

  (** vm/mod.rs:951-959 store, with :688-698 store_array, store_field popping their operands *)
  Definition do_store (o : sop X) (x : stored V) (stack : list O) (s : S) : outcome E S (list O) :=
    let at_target t stack' := match store t x s with Good _ s' => Good stack' s' | Bad e s' => Bad e s' | Crash => Crash end in
    match o, stack with
    | OpVar v, _ => at_target (TVar v) stack
    | OpArray, a :: r => at_target (TArray a) r
    | OpField f, a :: r => at_target (TField a f) r
    | _, [] => Crash
    end.

  Definition next {A B} (r : outcome E S A) (k : A -> S -> outcome E S B) : outcome E S B :=
    match r with Good a s => k a s | Bad e s => Bad e s | Crash => Crash end.

  (** core/pattern.rs:106-114 check_length *)
  Definition check_length (len : nat) (variadic : bool) (v : V) (s : S) : option (perror E) :=
    match len_of v s with
    | None => Some MustBeIterable
    | Some n =>
        if variadic then if (n <? len)%nat then Some (CannotUnpackGreater len n) else None
        else if (len =? n)%nat then None else Some (CannotUnpackEqual len n)
    end.

  (** core/pattern.rs:77-104 apply; the terms are visited from the last to the first *)
  Fixpoint apply (p : pattern X) (v : V) (stack : list O) (s : S) : outcome E S (list O) :=
    match p with
    | Pattern len variadic terms =>
        match check_length len variadic v s with
        | Some e => Bad e s
        | None =>
            (fix go (ts : list (term X)) : outcome E S (list O) :=
               match ts with
               | [] => Good stack s
               | t :: r =>
                   next (go r) (fun stack s =>
                     match t with
                     | Index i o => next (index_at v i s) (fun x s => do_store o (Old x) stack s)
                     | Slice lo hi o => next (slice_of v lo hi s) (fun x s => do_store o x stack s)
                     | Sub i q => next (index_at v i s) (fun x s => apply q x stack s)
                     end)
               end) terms
        end
    end.
End Apply.
