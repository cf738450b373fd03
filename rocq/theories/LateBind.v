(** References to names that are declared later: compiler/parser/semantic.rs 234-274, 360-371, 980-989, 1023-1104;
    compiler/parser/core/mod.rs 212-283 (push_load_lvalue, push_store_lvalue), compiler/parser/core/graph.rs 122-127, 208-216, 283-301.

    One block of code of a function: the code is complete before the names are declared (they are
    declared outside of the function), and bindings of other blocks do not touch it.  Names are
    numbers.  Of patterns (StorePattern) nothing is said; locations are left out. *)
From Verif Require Import Base Vm.
Local Open Scope nat_scope.

(** graph.rs 27-34: an id and an opcode each *)
Definition block := list (nat * op).
(** graph.rs 283-287 *)
Definition push (o : op) (b : block) : block := b ++ [(length b, o)].
(** graph.rs 289-301, without the debug_assert *)
Fixpoint position (id : nat) (b : block) : option nat :=
  match b with
  | [] => None
  | (i, _) :: r => if i =? id then Some 0 else match position id r with Some k => Some (S k) | None => None end
  end.
Definition insert (id : nat) (o : op) (b : block) : block :=
  match position id b with
  | Some k => firstn k b ++ (length b, o) :: skipn k b
  | None => b ++ [(0, o)]
  end.

(** semantic.rs 234-249: [b_this]: `self`, if there is one: a local variable (LocalThis) or an upvalue *)
Inductive this_ref := NoThis | ThisLocal (i : nat) | ThisUp (i : nat).
Inductive ref_type := RLoad (at_ : nat) | RStore (at_ : nat).
Record binding := Binding { b_name : nat; b_this : this_ref; b_type : ref_type; b_fallback : option nat }.

(** what the parser emits: an opcode, or a reference to a name not declared yet *)
Inductive item := IOp (o : op) | ILoad (name : nat) (this : this_ref) (fallback : option nat) | IStore (name : nat) (this : this_ref) (fallback : option nat).
Definition emit_item (x : item) (s : block * list binding) : block * list binding :=
  let '(b, l) := s in
  match x with
  | IOp o => (push o b, l)
  | ILoad n t f => (b, l ++ [Binding n t (RLoad (length b)) f])       (* core/mod.rs 235-238, next_opcode *)
  | IStore n t f => (b, l ++ [Binding n t (RStore (length b)) f])     (* core/mod.rs 273-276 *)
  end.
Definition emit_items (l : list item) : block * list binding := fold_left (fun s x => emit_item x s) l ([], []).

(** semantic.rs: LateBound *)
Inductive late_bound := BLocal (index : nat) | BMethod (function_id : nat) (instance : bool).

(** semantic.rs 1034-1076: one binding; [None]: a compile error *)
Definition bind (result : late_bound) (x : binding) (b : block) : option block :=
  match b_type x, result with
  | RLoad a, BLocal i => Some (insert a (OPushGlobal i) b)
  | RStore a, BLocal i => Some (insert a (OStoreGlobal i false) b)
  | RLoad a, BMethod f true =>
      match b_this x with
      | NoThis => None
      | ThisLocal i => Some (insert a (OPushLocal i) (insert a (OGetMethod f) b))
      | ThisUp i => Some (insert a (OPushUp i) (insert a (OGetMethod f) b))
      end
  | RLoad a, BMethod f false => Some (insert a (OConst (HFun f)) b)
  | RStore _, BMethod _ _ => None
  end.
(** Vec::swap_remove *)
Definition swap_remove {A} (i : nat) (l : list A) : list A :=
  match rev l with
  | [] => []
  | x :: _ => let r := removelast l in if i <? length r then firstn i r ++ x :: skipn (S i) r else r
  end.
(** semantic.rs 1024-1082: the loop over the bindings; [n] is at least the number of those left *)
Fixpoint resolve_loop (n i : nat) (name : nat) (result : late_bound) (l : list binding) (b : block) : option (list binding * block) :=
  match n with
  | O => Some (l, b)
  | S n =>
      match nth_error l i with
      | None => Some (l, b)
      | Some x =>
          if b_name x =? name then
            match bind result x b with Some b' => resolve_loop n i name result (swap_remove i l) b' | None => None end
          else resolve_loop n (S i) name result l b
      end
  end.
Definition resolve (d : nat * late_bound) (s : block * list binding) : option (block * list binding) :=
  match resolve_loop (length (snd s)) 0 (fst d) (snd d) (snd s) (fst s) with Some (l, b) => Some (b, l) | None => None end.
Fixpoint declare (ds : list (nat * late_bound)) (s : block * list binding) : option (block * list binding) :=
  match ds with [] => Some s | d :: r => match resolve d s with Some s' => declare r s' | None => None end end.
(** semantic.rs 1085-1096; [None]: an error *)
Fixpoint remaining (l : list binding) (b : block) : option block :=
  match l with
  | [] => Some b
  | x :: r =>
      match b_fallback x with
      | Some i => remaining r (match b_type x with RLoad a => insert a (OPushGlobal i) b | RStore a => insert a (OStoreGlobal i false) b end)
      | None => None
      end
  end.
(** the code of the block, after all declarations [ds] that follow *)
Definition compile_late (items : list item) (ds : list (nat * late_bound)) : option (list op) :=
  match declare ds (emit_items items) with
  | Some (b, l) => match remaining l b with Some b' => Some (map snd b') | None => None end
  | None => None
  end.
