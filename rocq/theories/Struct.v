(** Structs: declarations (parser/mod.rs:315-378, semantic.rs:746-757, 893-929, 1399-1450), access to fields and methods
    (vm/value/mod.rs:416-472, 683-735, vm/mod.rs:550-575, 690-698, 825-853).

    The table of fields is that of Incr.v.  Native modules are not modelled here (see C66).
    Functions are the index of their constant; u32 truncation is not modelled. *)
From Coq Require Import String.
From Verif Require Import Base Seq Incr.
Local Open Scope nat_scope.

(** semantic.rs:735-743, vm/value/mod.rs:739-757.  The methods with their names (the code keeps only the order after `bake`). *)
Record method := Method { function_id : nat; instance : bool }.
Record stype := SType { tname : string; tfields : list string; tmethods : list (string * method); instance_type : nat; constructor_type : nat; is_module : bool }.

(** What the parser sees: a use of a field (`x->n`, `(->n)`), or a declaration of a struct or module with its fields and methods.
    Of a method: its name, has it `self`, the fields used in its parameters, in its body, and how many other constants its body declares. *)
Record mdecl := MDecl { mname : string; mself : bool; muses_params : list string; muses : list string; mconsts : nat }.
Inductive item := IUse (n : string) | IStruct (module : bool) (name : string) (fs : list string) (ms : list mdecl).

(** [nconst]: the number of constants; [ok]: no error so far *)
Record st := St { fields_of : fields; nconst : nat; types_of : list stype; ok : bool }.

Definition has (n : string) (l : list string) : bool := existsb (String.eqb n) l.
Definition use_all (l : list string) (f : fields) : fields := fold_left (fun f n => resolve_field n true f) l f.
(** semantic.rs:1401-1411 *)
Definition declare_field (t : nat) (n : string) (x : fields * list string * bool) : fields * list string * bool :=
  let '(f, fs, ok) := x in
  if has n fs then (f, fs, false) else (declare_field_offset n t (length fs) f, fs ++ [n], ok).
(** semantic.rs:1416-1447, with the body parsed after it (parser/mod.rs:362-372).
    `declare_function` reserves a constant (semantic.rs:934-950). *)
Definition declare_method (t : nat) (fs : list string) (m : mdecl) (x : fields * list (string * method) * nat * bool) : fields * list (string * method) * nat * bool :=
  let '(f, ms, nc, ok) := x in
  let f := use_all (muses_params m) f in
  let ok := if has (mname m) fs || has (mname m) (map fst ms) then false else ok in
  let offset := length ms in
  let ms := put String.eqb (mname m) (Method nc (mself m)) ms in
  let f := declare_field_offset (mname m) t offset f in
  (use_all (muses m) f, ms, nc + 1 + mconsts m, ok).
(** parser/mod.rs:317-378 *)
Definition declare (x : item) (s : st) : st :=
  match x with
  | IUse n => St (resolve_field n true (fields_of s)) (nconst s) (types_of s) (ok s)
  | IStruct module name fs ms =>
      let '(f, it) := declare_type (fields_of s) in
      let '(f, ct) := declare_type f in
      let '(f, fs, b) := if module then (f, [], ok s) else fold_left (fun x n => declare_field it n x) fs (f, [], ok s) in
      let '(f, methods, nc, b) := fold_left (fun x m => declare_method ct fs m x) ms (f, [], nconst s, b) in
      St f (nc + 1) (types_of s ++ [SType name fs methods it ct module]) b
  end.
Definition declare_all (l : list item) (s : st) : st := fold_left (fun s x => declare x s) l s.
Definition start : st := St (Fields [] [] 0) 0 [] true.
(** parser/mod.rs:236-268, semantic.rs:1098-1103: used but not declared fields are errors *)
Definition compile (l : list item) : option st :=
  let s := declare_all l start in
  if ok s && negb (existsb (fun e => undeclared (snd e)) (names (fields_of s))) then Some s else None.

(** Values: a struct instance (its address), a struct type, the getter of a field, a function, a function bound to `self`, any other *)
Inductive val := VObj (a : nat) | VType (t : stype) | VGetter (i : nat) | VFun (id : nat) | VBound (id : nat) (self : val) | VOther (x : Z).
(** vm/value/mod.rs:687-691 *)
Record object := Object { owner : stype; values : list val }.
Definition heap := list object.
Inductive error := FieldNotPresent | IncorrectArguments | NotEvaluable | OperatorError.
Inductive res := Done (v : val) (h : heap) | Fail (e : error) (h : heap) | Panic.

(** vm/value/mod.rs:416-454 *)
Definition get_field (f : fields) (v : val) (i : nat) (h : heap) : res :=
  match v with
  | VObj a =>
      match nth_error h a with
      | None => Panic
      | Some o =>
          match get_offset f (instance_type (owner o)) i with
          | Some off => match nth_error (values o) off with Some x => Done x h | None => Panic end
          | None =>
              match get_offset f (constructor_type (owner o)) i with
              | Some off =>
                  match nth_error (tmethods (owner o)) off with
                  | None => Panic
                  | Some (_, m) => if instance m then Done (VBound (function_id m) v) h else Fail FieldNotPresent h
                  end
              | None => Fail FieldNotPresent h
              end
          end
      end
  | VType t =>
      match get_offset f (constructor_type t) i with
      | Some off => match nth_error (tmethods t) off with Some (_, m) => Done (VFun (function_id m)) h | None => Panic end
      | None => match get_offset f (instance_type t) i with Some _ => Done (VGetter i) h | None => Fail FieldNotPresent h end
      end
  | _ => Fail FieldNotPresent h
  end.
(** vm/value/mod.rs:456-472 *)
Definition set_field (f : fields) (v : val) (i : nat) (x : val) (h : heap) : res :=
  match v with
  | VObj a =>
      match nth_error h a with
      | None => Panic
      | Some o =>
          match get_offset f (instance_type (owner o)) i with
          | Some off => if off <? length (values o) then Done x (update h a (Object (owner o) (update (values o) off x))) else Panic
          | None => Fail FieldNotPresent h
          end
      end
  | _ => Fail FieldNotPresent h
  end.
(** codegen.rs:248-254: `a->f op= b`; [op] on the old and the new value ([None]: it fails) *)
Definition swap_field (f : fields) (op : val -> val -> option val) (v : val) (i : nat) (x : val) (h : heap) : res :=
  match get_field f v i h with
  | Done old h => match op old x with Some y => set_field f v i y h | None => Fail OperatorError h end
  | r => r
  end.
(** vm/mod.rs:825-853: calls of struct types and getters; other functions are not modelled *)
Definition call (f : fields) (g : val) (args : list val) (h : heap) : res :=
  match g with
  | VType t =>
      if is_module t then Fail NotEvaluable h
      else if negb (length args =? length (tfields t)) then Fail IncorrectArguments h
      else Done (VObj (length h)) (h ++ [Object t args])
  | VGetter i => match args with [x] => get_field f x i h | _ => Fail IncorrectArguments h end
  | _ => Fail NotEvaluable h
  end.
