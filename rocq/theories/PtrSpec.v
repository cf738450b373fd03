(** Specification vocabulary for P_Ptr.v: what a value word is supposed to stand
    for, without reference to any bit pattern.  [store] and [load] only select the
    constructor / accessor functions of Ptr.v (ptr.rs:88-182 and 190-250). *)
From Verif Require Import Base Ptr.
Local Open Scope Z_scope.

(** ---- The abstract view used by the property statements ---- *)
(** What a word stands for, independent of any bit pattern. *)
Inductive inline :=
| INil | IBool (b : bool) | IInt (n : Z) | INative (f : Z) | IField (f : Z) | IStr (bytes : list Z) | IPtr (addr : Z).

Definition inline_ok (v : inline) : Prop :=
  match v with
  | INil | IBool _ => True
  | IInt n => is_int63 n
  | INative f => 0 <= f < 256
  | IField f => 0 <= f < 2 ^ 32
  | IStr bs => (forall b, In b bs -> 0 <= b < 256) /\ (length bs <= 7)%nat
  | IPtr a => 0 <= a < 2 ^ 64 /\ a mod 4 = 0
  end.

Definition store (v : inline) : word :=
  match v with
  | INil => from_nil | IBool b => from_bool b | IInt n => from_i64 n | INative f => from_native f
  | IField f => from_field f | IStr bs => from_small_str bs | IPtr a => from_shared a
  end.

Definition kind (v : inline) : wtype :=
  match v with
  | INil => TNil | IBool _ => TBool | IInt _ => TInt | INative _ => TNative
  | IField _ => TField | IStr _ => TShortStr | IPtr _ => TPtr
  end.

Definition load (w : word) : option inline :=
  match ty w with
  | TNil => Some INil | TBool => Some (IBool (as_bool w)) | TInt => Some (IInt (as_precise_int w))
  | TNative => Some (INative (as_native w)) | TField => Some (IField (as_field w))
  | TShortStr => Some (IStr (as_short_str w)) | TPtr => Some (IPtr (as_ptr w)) | TNever => None
  end.

(** the individual `is_*` predicates agree with the kind *)
Definition tests (w : word) : list bool :=
  [is_nil w; is_bool w; is_precise_int w; is_native w; is_field w; is_short_str w; is_ptr w].
Definition expected_tests (v : inline) : list bool :=
  match v with
  | INil      => [true;false;false;false;false;false;false]
  | IBool _   => [false;true;false;false;false;false;false]
  | IInt _    => [false;false;true;false;false;false;false]
  | INative _ => [false;false;false;true;false;false;false]
  | IField _  => [false;false;false;false;true;false;false]
  | IStr _    => [false;false;false;false;false;true;false]
  | IPtr _    => [false;false;false;false;false;false;true]
  end.

