(** Vocabulary for C73. *)
From Coq Require Import String.
From Verif Require Import Base Seq Incr Struct.
Local Open Scope nat_scope.

(** The index that the compiler uses for a name, at some point of a program. *)
Definition index_at (s : st) (n : string) : option nat := option_map field_index (get String.eqb n (names (fields_of s))).
(** `v->n`, `v->n = x`, `v->n op= x` in a compiled program *)
Definition read (s : st) (v : val) (n : string) (h : heap) (r : res) : Prop := exists i, index_at s n = Some i /\ get_field (fields_of s) v i h = r.
Definition write (s : st) (v : val) (n : string) (x : val) (h : heap) (r : res) : Prop := exists i, index_at s n = Some i /\ set_field (fields_of s) v i x h = r.
Definition modify (s : st) (op : val -> val -> option val) (v : val) (n : string) (x : val) (h : heap) (r : res) : Prop := exists i, index_at s n = Some i /\ swap_field (fields_of s) op v i x h = r.
(** The name [n] is used somewhere in the program. *)
Definition uses_item (n : string) (x : item) : Prop :=
  match x with IUse m => m = n | IStruct _ _ _ ms => exists m, In m ms /\ (In n (muses_params m) \/ In n (muses m)) end.
Definition member (n : string) (x : item) : Prop :=
  match x with IUse _ => False | IStruct module _ fs ms => module = false /\ In n fs \/ In n (map mname ms) end.
(** A declaration without names that are there twice. *)
Definition fields_of_decl (x : item) : list string := match x with IStruct false _ fs _ => fs | _ => [] end.
Definition methods_of_decl (x : item) : list mdecl := match x with IStruct _ _ _ ms => ms | _ => [] end.
Definition distinct_members (x : item) : Prop := NoDup (fields_of_decl x ++ map mname (methods_of_decl x)).
(** The type that is the value of the [k]th declaration (structs and modules, uses not counted). *)
Definition is_decl (x : item) : bool := match x with IUse _ => false | _ => true end.
Definition declares (l : list item) (s : st) (x : item) (t : stype) : Prop := exists k, nth_error (filter is_decl l) k = Some x /\ nth_error (types_of s) k = Some t.
(** Values and heaps of a program: objects exist, types are those of the program; every object belongs to one of its structs and has a value for each field. *)
Fixpoint wf_val (s : st) (h : heap) (v : val) : Prop :=
  match v with VObj a => a < length h | VType t => In t (types_of s) | VBound _ v => wf_val s h v | VGetter i => exists n, index_at s n = Some i | _ => True end.
Definition wf_object (s : st) (h : heap) (o : object) : Prop := In (owner o) (types_of s) /\ length (values o) = length (tfields (owner o)) /\ Forall (wf_val s h) (values o).
Definition wf_heap (s : st) (h : heap) : Prop := Forall (wf_object s h) h.
(** The result of an operation is a value of the program, or an error; and so is the heap. *)
Definition wf_res (s : st) (r : res) : Prop :=
  match r with Done v h => wf_heap s h /\ wf_val s h v | Fail _ h => wf_heap s h | Panic => False end.
