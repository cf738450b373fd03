(** Machine arithmetic shared by all model files.

    Rust integers are mathematical integers ([Z]) together with an explicit
    wrap to the machine width.  The profile modelled is the *release* profile
    (/repo/Cargo.toml:6-7): `+ - *` on i64 wrap silently and shift counts are
    masked, as in rustc with overflow-checks off. *)
From Coq Require Export ZArith List Bool Lia.
From Coq Require Export ZifyBool ZifyNat ZifyN.
Export ListNotations.
Local Open Scope Z_scope.

(** Two's complement wrap of [x] to [n] bits, signed. *)
Definition swrap (n x : Z) : Z := (x + 2 ^ (n - 1)) mod 2 ^ n - 2 ^ (n - 1).
(** Unsigned wrap to [n] bits. *)
Definition uwrap (n x : Z) : Z := x mod 2 ^ n.

(** i64 / u64 conversions (`as i64`, `as u64`). *)
Definition i64 (x : Z) : Z := swrap 64 x.
Definition u64 (x : Z) : Z := uwrap 64 x.
Definition u32 (x : Z) : Z := uwrap 32 x.

(** The value an integer has once it was stored in a Cordy value:
    vm/value/ptr.rs:93-95 (`from_i64`) followed by 223-228 (`as_precise_int`).
    File Ptr.v models the two bit operations and PtrProofs.v proves that their
    composition is this function. *)
Definition wrap63 (x : Z) : Z := swrap 63 x.

(** vm/value/ptr.rs:84-85 MIN_INT and MAX_INT. *)
Definition MIN_INT : Z := - 2 ^ 62.
Definition MAX_INT : Z := 2 ^ 62 - 1.

Definition is_i64 (x : Z) : Prop := - 2 ^ 63 <= x < 2 ^ 63.
Definition is_int63 (x : Z) : Prop := MIN_INT <= x <= MAX_INT.
