(** C73: fields and methods of structs. *)
From Coq Require Import String Lia Arith.
From Verif Require Import Base Seq SeqProofs Incr Struct StructSpec StructProofs StructProofs2 StructProofs3.
Local Open Scope nat_scope.
Local Open Scope string_scope.

(** A program compiles, as far as fields are concerned, if and only if no declaration has a name twice and every name used as a field is a field or
    method of some declaration, before or after the use. *)
Theorem C73_verdict l : compile l <> None <-> (forall x, In x l -> distinct_members x) /\ (forall n x, In x l -> uses_item n x -> exists y, In y l /\ member n y).
Proof. exact (verdict l). Qed.
Print Assumptions C73_verdict.

(** A name means the same field index everywhere: what was resolved at any point of a program is what the running program uses. *)
Theorem C73_index l1 l2 s n i : compile (l1 ++ l2)%list = Some s -> index_at (declare_all l1 start) n = Some i -> index_at s n = Some i.
Proof. exact (index_stable l1 l2 s n i). Qed.
Print Assumptions C73_index.
Theorem C73_used l s n x : compile l = Some s -> In x l -> uses_item n x \/ member n x -> exists i, index_at s n = Some i.
Proof. exact (index_used l s n x). Qed.
Print Assumptions C73_used.
(** Every declaration has its own type. *)
Theorem C73_types l s : compile l = Some s -> (forall x, In x l -> is_decl x = true -> exists t, declares l s x t) /\
  (forall k1 k2 t1 t2, nth_error (types_of s) k1 = Some t1 -> nth_error (types_of s) k2 = Some t2 -> instance_type t1 = instance_type t2 -> k1 = k2).
Proof. exact (types_exist l s). Qed.
Print Assumptions C73_types.

(** Constructors: the number of arguments must be that of the fields; the new object has the arguments as its fields, in order, and no other object changes. *)
Theorem C73_construct l s name fs ms t h args : compile l = Some s -> declares l s (IStruct false name fs ms) t ->
  (length args <> length fs -> call (fields_of s) (VType t) args h = Fail IncorrectArguments h) /\
  (length args = length fs -> exists h', call (fields_of s) (VType t) args h = Done (VObj (length h)) h' /\ length h' = S (length h) /\
    (forall b, b < length h -> nth_error h' b = nth_error h b) /\
    (forall i n v, nth_error fs i = Some n -> nth_error args i = Some v -> read s (VObj (length h)) n h' (Done v h'))).
Proof. exact (construct l s name fs ms t h args). Qed.
Print Assumptions C73_construct.
(** Modules are not constructors. *)
Theorem C73_module l s name fs ms t h args : compile l = Some s -> declares l s (IStruct true name fs ms) t -> call (fields_of s) (VType t) args h = Fail NotEvaluable h.
Proof. exact (module_call l s name fs ms t h args). Qed.
Print Assumptions C73_module.

(** Reading: a field gives its value; a method with self gives the function of the method, bound to the object; nothing else can be read. *)
Theorem C73_read l s x h a o n : compile l = Some s -> wf_heap s h -> nth_error h a = Some o -> declares l s x (owner o) ->
  (forall i, nth_error (fields_of_decl x) i = Some n -> exists v, nth_error (values o) i = Some v /\ read s (VObj a) n h (Done v h)) /\
  (forall m, In m (methods_of_decl x) -> mname m = n -> exists id, read s (VType (owner o)) n h (Done (VFun id) h) /\
     read s (VObj a) n h (if mself m then Done (VBound id (VObj a)) h else Fail FieldNotPresent h)) /\
  (~ In n (fields_of_decl x) -> ~ In n (map mname (methods_of_decl x)) -> forall r, read s (VObj a) n h r -> r = Fail FieldNotPresent h).
Proof. exact (read_spec l s x h a o n). Qed.
Print Assumptions C73_read.

(** Writing a field: it has the new value, all other fields and all other objects are as before; what is not a field cannot be written. *)
Theorem C73_write l s x h a o n v : compile l = Some s -> wf_heap s h -> nth_error h a = Some o -> declares l s x (owner o) ->
  (In n (fields_of_decl x) -> exists h', write s (VObj a) n v h (Done v h') /\ read s (VObj a) n h' (Done v h') /\
     (forall m w, m <> n -> read s (VObj a) m h (Done w h) <-> read s (VObj a) m h' (Done w h')) /\
     length h' = length h /\ (forall b, b <> a -> nth_error h' b = nth_error h b)) /\
  (~ In n (fields_of_decl x) -> forall r, write s (VObj a) n v h r -> r = Fail FieldNotPresent h).
Proof. exact (write_spec l s x h a o n v). Qed.
Print Assumptions C73_write.
(** `a->f op= v` writes the result of the operator on the old value and v; if the operator fails nothing is changed. *)
Theorem C73_modify l s x h a o n i old op v : compile l = Some s -> wf_heap s h -> nth_error h a = Some o -> declares l s x (owner o) ->
  nth_error (fields_of_decl x) i = Some n -> nth_error (values o) i = Some old ->
  (op old v = None -> modify s op (VObj a) n v h (Fail OperatorError h)) /\
  (forall y r, op old v = Some y -> write s (VObj a) n y h r -> modify s op (VObj a) n v h r).
Proof. exact (modify_spec l s x h a o n i old op v). Qed.
Print Assumptions C73_modify.

(** On the type itself: a method gives its function, a field gives its getter, which called with any value reads the field of that value. *)
Theorem C73_type l s x t h n : compile l = Some s -> declares l s x t ->
  (In n (map mname (methods_of_decl x)) -> exists id, read s (VType t) n h (Done (VFun id) h)) /\
  (In n (fields_of_decl x) -> exists i, read s (VType t) n h (Done (VGetter i) h) /\ forall v h', read s v n h' (call (fields_of s) (VGetter i) [v] h')) /\
  (~ In n (fields_of_decl x) -> ~ In n (map mname (methods_of_decl x)) -> forall r, read s (VType t) n h r -> r = Fail FieldNotPresent h).
Proof. exact (type_spec l s x t h n). Qed.
Print Assumptions C73_type.
(** Different methods are different functions. *)
Theorem C73_functions l s t1 t2 h n1 n2 id : compile l = Some s -> In t1 (types_of s) -> In t2 (types_of s) ->
  read s (VType t1) n1 h (Done (VFun id) h) -> read s (VType t2) n2 h (Done (VFun id) h) -> t1 = t2 /\ n1 = n2.
Proof. exact (functions_distinct l s t1 t2 h n1 n2 id). Qed.
Print Assumptions C73_functions.
(** Other values have no fields. *)
Theorem C73_others s v n x h r : (forall a, v <> VObj a) -> write s v n x h r \/ ((forall t, v <> VType t) /\ read s v n h r) -> r = Fail FieldNotPresent h.
Proof. exact (others s v n x h r). Qed.
Print Assumptions C73_others.

(** Nothing panics, and objects always have exactly the fields of their struct. *)
Theorem C73_no_panic l s h : compile l = Some s -> wf_heap s h ->
  (forall v n r, wf_val s h v -> read s v n h r -> wf_res s r) /\
  (forall v n x r, wf_val s h v -> wf_val s h x -> write s v n x h r -> wf_res s r) /\
  (forall op v n x r, wf_val s h v -> (forall a b y, op a b = Some y -> wf_val s h a -> wf_val s h b -> wf_val s h y) -> wf_val s h x -> modify s op v n x h r -> wf_res s r) /\
  (forall f args, wf_val s h f -> Forall (wf_val s h) args -> wf_res s (call (fields_of s) f args h)).
Proof. exact (no_panic l s h). Qed.
Print Assumptions C73_no_panic.

(** Examples *)
Definition ex_program : list item :=
  [IUse "y"; IStruct false "A" ["x"; "y"] [MDecl "len" true ["z"] ["x"] 2; MDecl "make" false [] [] 0]; IUse "len"; IStruct false "B" ["y"; "z"] []].
Example ex_compiles : exists s a b, compile ex_program = Some s /\ types_of s = [a; b] /\
  call (fields_of s) (VType a) [VOther 1; VOther 2] [] = Done (VObj 0) [Object a [VOther 1; VOther 2]] /\
  declares ex_program s (IStruct false "B" ["y"; "z"] []) b /\
  read s (VObj 0) "y" [Object b [VOther 1; VOther 2]] (Done (VOther 1) [Object b [VOther 1; VOther 2]]) /\
  write s (VObj 0) "z" (VOther 7) [Object b [VOther 1; VOther 2]] (Done (VOther 7) [Object b [VOther 1; VOther 7]]) /\
  read s (VObj 0) "len" [Object a [VOther 1; VOther 2]] (Done (VBound 0 (VObj 0)) [Object a [VOther 1; VOther 2]]) /\
  read s (VObj 0) "make" [Object a [VOther 1; VOther 2]] (Fail FieldNotPresent [Object a [VOther 1; VOther 2]]) /\
  wf_heap s [Object a [VOther 1; VOther 2]].
Proof.
  do 3 eexists. split; [vm_compute; reflexivity|]. split; [reflexivity|]. split; [reflexivity|]. split; [exists 1; split; reflexivity|].
  split; [eexists; split; reflexivity|]. split; [eexists; split; reflexivity|]. split; [eexists; split; reflexivity|]. split; [eexists; split; reflexivity|].
  constructor; [|constructor]. split; [left; reflexivity|]. split; [reflexivity|]. repeat constructor.
Qed.
Example ex_duplicate : compile [IStruct false "A" ["x"] [MDecl "x" false [] [] 0]] = None. Proof. reflexivity. Qed.
Example ex_undeclared : compile [IUse "x"; IStruct false "A" ["y"] []] = None. Proof. reflexivity. Qed.
