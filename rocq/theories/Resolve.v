(** Local variables, scopes and captured variables in the compiler: compiler/parser/semantic.rs:50-102 (Locals),
    178-231 (UpValue, Local), 962-1015 (declaring), 1108-1167 (pop_locals), 1217-1337 (resolve_reference),
    1339-1392 (resolve_upvalue), 1394-1397 (init_local).

    Not modelled here: `self`, modules (module_depth is 0), builtins (their names cannot be declared), synthetic
    variables (they have names no program can write: they are ordinary variables here), the opcodes emitted. *)
From Coq Require Import String.
From Verif Require Import Base Seq.
Local Open Scope nat_scope.

(** semantic.rs:194-207 *)
Record local := Local { lname : string; lindex : nat; lscope : nat; ldepth : nat; linit : bool; lcaptured : bool }.
(** semantic.rs:51-68, without loops; upvalues, 179-186: (is_local, index) *)
Record frame := Frame { flocals : list local; fups : list (bool * nat) }.
(** `Parser.locals` (outermost function first) and `scope_depth`; `function_depth` is one less than the number of frames *)
Record scopes := Scopes { frames : list frame; scope_depth : nat }.
Definition function_depth (s : scopes) : nat := length (frames s) - 1.
Definition empty_frame : frame := Frame [] [].
(** Locals::empty, 72-74 *)
Definition start : scopes := Scopes [empty_frame] 0.
Definition current (s : scopes) : frame := last (frames s) empty_frame.
Definition set_current (f : frame) (s : scopes) : scopes := Scopes (removelast (frames s) ++ [f]) (scope_depth s).

(** 214-216 *)
Definition is_global (l : local) : bool := (ldepth l =? 0) && (lscope l =? 0).
(** 962-1015 declare_local; [None]: LocalVariableConflict *)
Definition declare_local (n : string) (s : scopes) : option scopes :=
  let f := current s in
  if existsb (fun l => (lscope l =? scope_depth s) && String.eqb (lname l) n) (flocals f) then None
  else Some (set_current (Frame (flocals f ++ [Local n (length (flocals f)) (scope_depth s) (function_depth s) false false]) (fups f)) s).
(** 1394-1402 *)
Definition init_local (i : nat) (s : scopes) : scopes :=
  let f := current s in
  match nth_error (flocals f) i with
  | Some l => set_current (Frame (update (flocals f) i (Local (lname l) (lindex l) (lscope l) (ldepth l) true (lcaptured l))) (fups f)) s
  | None => s
  end.

(** 1134-1167 pop_locals with Some(min) and modify_lvt: the loop over the indices below [n], from the last *)
Fixpoint pop_locals (n min : nat) (f : frame) : frame :=
  match n with
  | O => f
  | S i =>
      let f :=
        match nth_error (flocals f) i with
        | Some l =>
            if min <=? lscope l
            then Frame (removelast (flocals f))
                   match last (fups f) (false, 0) with
                   | (true, j) => if j =? i then removelast (fups f) else fups f
                   | _ => fups f
                   end
            else f
        | None => f
        end in
      pop_locals i min f
  end.
Definition pop_scope (s : scopes) : scopes := set_current (pop_locals (length (flocals (current s))) (scope_depth s) (current s)) s.

(** LValueReference, 334-372; [RLate]: bound later to a global, or an error *)
Inductive reference := RLocal (i : nat) | RGlobal (i : nat) | RUp (i : nat) | RLate | RUndeclared.
(** 218-226 *)
Definition as_reference (l : local) : reference := if is_global l then RGlobal (lindex l) else RLocal (lindex l).

(** the first entry (b, i) of a list of upvalues *)
Fixpoint find_up (b : bool) (i : nat) (l : list (bool * nat)) : option nat :=
  match l with
  | [] => None
  | (c, j) :: r => if Bool.eqb b c && (j =? i) then Some 0 else option_map S (find_up b i r)
  end.
Definition add_up (d : nat) (e : bool * nat) (fs : list frame) : list frame :=
  match nth_error fs d with Some f => update fs d (Frame (flocals f) (fups f ++ [e])) | None => fs end.
Definition ups (fs : list frame) (d : nat) : list (bool * nat) := match nth_error fs d with Some f => fups f | None => [] end.
(** the loop at 1366-1385, over the depths in [ds] *)
Fixpoint bubble (ds : list nat) (index : nat) (fs : list frame) : list frame * nat :=
  match ds with
  | [] => (fs, index)
  | d :: ds =>
      match find_up false index (ups fs d) with
      | Some _ => bubble ds index fs                       (* `index = upvalue.index` *)
      | None => bubble ds (length (ups fs d)) (add_up d (false, index) fs)
      end
  end.
(** 1342-1392 *)
Definition resolve_upvalue (local_depth local_index : nat) (s : scopes) : scopes * nat :=
  let '(fs, index) :=
    match find_up true local_index (ups (frames s) local_depth) with
    | Some i => (frames s, i)
    | None => (add_up local_depth (true, local_index) (frames s), length (ups (frames s) local_depth))
    end in
  let '(fs, index) := bubble (seq (S local_depth) (function_depth s - S local_depth)) index fs in
  (Scopes fs (scope_depth s), index).

(** 1233-1243: the enclosing functions below depth [d], innermost first *)
Fixpoint enclosing (n : string) (fs : list frame) (d : nat) : option (nat * local) :=
  match d with
  | O => None
  | S d =>
      match nth_error fs d with
      | Some f =>
          match find (fun l => String.eqb (lname l) n && linit l && negb (is_global l)) (rev (flocals f)) with
          | Some l => Some (d, l)
          | None => enclosing n fs d
          end
      | None => enclosing n fs d
      end
  end.
Definition mark_captured (d i : nat) (s : scopes) : scopes :=
  match nth_error (frames s) d with
  | Some f =>
      match nth_error (flocals f) i with
      | Some l => Scopes (update (frames s) d (Frame (update (flocals f) i (Local (lname l) (lindex l) (lscope l) (ldepth l) (linit l) true)) (fups f))) (scope_depth s)
      | None => s
      end
  | None => s
  end.
(** 1217-1337: step 1; steps 2 and 3; step 5 *)
Definition resolve_reference (n : string) (s : scopes) : scopes * reference :=
  match find (fun l => String.eqb (lname l) n && linit l) (rev (flocals (current s))) with
  | Some l => (s, as_reference l)
  | None =>
      match enclosing n (frames s) (function_depth s) with
      | Some (d, l) => let '(s, i) := resolve_upvalue d (lindex l) (mark_captured d (lindex l) s) in (s, RUp i)
      | None =>
          if 0 <? function_depth s then
            match find (fun l => String.eqb (lname l) n && linit l && is_global l) (rev (flocals (nth 0 (frames s) empty_frame))) with
            | Some l => (s, RGlobal (lindex l))
            | None => (s, RLate)
            end
          else (s, RUndeclared)
      end
  end.

(** What the parser does with variables: blocks (parser/mod.rs:306-315 and the loops), functions (600-705),
    declarations, references. *)
Inductive action := ADeclare (n : string) | AInit (i : nat) | AEnter | ALeave | AFunction | AEndFunction | AReference (n : string).
(** [None]: an error, or braces that do not match *)
Definition act (a : action) (s : scopes) : option scopes :=
  match a with
  | ADeclare n => declare_local n s
  | AInit i => Some (init_local i s)
  | AEnter => Some (Scopes (frames s) (S (scope_depth s)))
  | ALeave => match scope_depth s with O => None | S k => let s := pop_scope s in Some (Scopes (frames s) k) end
  | AFunction => Some (Scopes (frames s ++ [empty_frame]) (S (scope_depth s)))
  | AEndFunction =>
      match function_depth s, scope_depth s with
      | S _, S k => Some (Scopes (removelast (frames s)) k)
      | _, _ => None
      end
  | AReference n => Some (fst (resolve_reference n s))
  end.
(** 97-101 and parser/mod.rs:700: what the closure of a function just ended captures: variables of the function it was
    declared in (true), or of the environment of that function (false) *)
Definition closed_locals (s : scopes) : list (bool * nat) := fups (current s).
