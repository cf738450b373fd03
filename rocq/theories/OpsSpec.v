(** Specification vocabulary for P_Ops.v *)
From Verif Require Import Base Native Value Err Ops ValueSpec.
From Coq Require Import QArith_base.
Local Open Scope Z_scope.

(** [v] is the int or bool [x] *)
Definition is_int_value (v : value) (x : Z) : Prop :=
  (v = VInt x /\ is_int63 x) \/ (v = VBool true /\ x = 1) \/ (v = VBool false /\ x = 0).

(** [z] is the representative of [m] modulo 2^63 in the int range *)
Definition wraps_to (z m : Z) : Prop := is_int63 z /\ exists k, z = m + k * 2 ^ 63.

(** [v] is the Gaussian integer re + im*i, components exact modulo 2^64; a real result
    is an int (hence modulo 2^63) *)
Definition is_complex_value (v : value) (re im : Z) : Prop :=
  match v with
  | VInt n => (exists k, im = k * 2 ^ 64) /\ wraps_to n re
  | VComplex r i => is_i64 r /\ is_i64 i /\ i <> 0 /\ (exists k, r = re + k * 2 ^ 64) /\ (exists k, i = im + k * 2 ^ 64)
  | _ => False
  end.

(** [v] is a number operand with these exact components *)
Definition complex_operand (v : value) (re im : Z) : Prop :=
  (is_int_value v re /\ im = 0) \/ (v = VComplex re im /\ is_i64 re /\ is_i64 im /\ im <> 0).

(** [v] is a rational operand of exact value [q] *)
Definition rational_operand (v : value) (q : Q) : Prop :=
  (exists x, is_int_value v x /\ q = (x # 1)%Q) \/ (exists n d, v = VRational n d /\ q = (n # d)%Q).

Definition not_vector (v : value) : Prop := match v with VVector _ => False | _ => True end.
Definition not_str (v : value) : Prop := match v with VStr _ => False | _ => True end.

(** [x] is (up to key equality) an element of [l] *)
Definition mem (x : value) (l : list value) : Prop := exists y, In y l /\ key_match x y = true.

(** [l'] keeps a subset of the positions of [l], in order *)
Inductive sublist {A} : list A -> list A -> Prop :=
| sub_nil : sublist [] []
| sub_skip x l l' : sublist l' l -> sublist l' (x :: l)
| sub_keep x l l' : sublist l' l -> sublist (x :: l') (x :: l).

(** Gaussian integer power *)
Fixpoint gpow (r i : Z) (n : nat) : Z * Z :=
  match n with O => (1, 0) | S n' => let '(a, b) := gpow r i n' in (r * a - i * b, r * b + i * a) end.

(** components small enough that no intermediate result of a complex division overflows *)
Definition tiny (x : Z) : Prop := Z.abs x <= 2 ^ 30.

Definition has_rational (a b : value) : Prop := (exists n d, a = VRational n d) \/ (exists n d, b = VRational n d).

Definition vector_op (o : binop) : bool :=
  match o with BMul | BDiv | BPow | BMod | BAdd | BSub | BLeftShift | BRightShift | BAnd | BOr | BXor => true | _ => false end.

(** components [i < n] given by [f i]; the result is that of collecting them left to right *)
Definition collected (f : nat -> result value) (n : nat) (r : result value) : Prop :=
  (exists z, r = Ok (VVector z) /\ length z = n /\ forall i, (i < n)%nat -> exists x, nth_error z i = Some x /\ f i = Ok x) \/
  (exists i, (i < n)%nat /\ (forall j, (j < i)%nat -> exists x, f j = Ok x) /\
     ((exists e, f i = Err e /\ r = Err e) \/ (f i = Panic /\ r = Panic))).

(** the two kinds of operands whose arithmetic crashes: a complex component -2^63, a zero rational *)
Inductive tame : value -> Prop :=
| tame_vector l : (forall x, In x l -> tame x) -> tame (VVector l)
| tame_complex r i : r <> - 2 ^ 63 -> i <> - 2 ^ 63 -> tame (VComplex r i)
| tame_rational n d : n <> 0 -> tame (VRational n d)
| tame_other v : match v with VVector _ | VComplex _ _ | VRational _ _ => False | _ => True end -> tame v.
