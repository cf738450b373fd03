(** Tagged value words: vm/value/ptr.rs:62-311.

    A [word] is the 64-bit content of the `ValuePtr` union, as a [Z] in
    [0, 2^64).  The model is for 64-bit little-endian targets (`usize` = u64;
    ptr.rs:141-145).  A heap object is represented only by its address. *)
From Verif Require Import Base.
Local Open Scope Z_scope.

Definition word := Z.

(** ptr.rs:62-82 constants *)
Definition TAG_INT    : Z := 0.
Definition TAG_NIL    : Z := 1.            (* 0b000_01 *)
Definition TAG_BOOL   : Z := 5.            (* 0b001_01 *)
Definition TAG_FALSE  : Z := 5.            (* 0b0_001_01 *)
Definition TAG_TRUE   : Z := 37.           (* 0b1_001_01 *)
Definition TAG_NATIVE : Z := 9.            (* 0b010_01 *)
Definition TAG_FIELD  : Z := 13.           (* 0b011_01 *)
Definition TAG_STR    : Z := 17.           (* 0b100_01 *)
Definition TAG_PTR    : Z := 3.            (* 0b11 *)
Definition MASK_INT   : Z := 1.
Definition MASK_TAG5  : Z := 31.           (* MASK_NIL = MASK_BOOL = MASK_NATIVE = MASK_FIELD = MASK_STR *)
Definition MASK_PTR   : Z := 3.
Definition PTR_MASK   : Z := 2 ^ 64 - 4.   (* !0b11 *)
Definition STR_LEN_MASK : Z := 224.        (* 0b111_000_00 *)
Definition STR_TAG_BYTES : Z := 5.

(** ptr.rs:88-90 *)
Definition from_bool (b : bool) : word := if b then TAG_TRUE else TAG_FALSE.
(** ptr.rs:92-94: [(value << 1) as u64], the shift being an i64 shift *)
Definition from_i64 (v : Z) : word := Z.lor TAG_INT (u64 (i64 (Z.shiftl v 1))).
(** ptr.rs:180-182 *)
Definition from_nil : word := TAG_NIL.
(** ptr.rs:154-156, [f] is the discriminant of a `NativeFunction` (a u8) *)
Definition from_native (f : Z) : word := Z.lor TAG_NATIVE (u64 (Z.shiftl f 6)).
(** ptr.rs:158-160, [f] a u32 *)
Definition from_field (f : Z) : word := Z.lor TAG_FIELD (u64 (Z.shiftl f 6)).
(** ptr.rs:162-164, [addr] the address returned by Box::into_raw *)
Definition from_shared (addr : Z) : word := Z.lor TAG_PTR addr.

(** little-endian reading of a byte array: u64::from_ne_bytes, ptr.rs:149 *)
Fixpoint le_bytes (bs : list Z) : Z :=
  match bs with
  | [] => 0
  | b :: r => b + 256 * le_bytes r
  end.
(** ptr.rs:113-152; [bs] are the UTF-8 bytes, at most 7 of them.  The byte
    buffer is [tag; b0; ...; 0; 0]. *)
Definition from_small_str (bs : list Z) : word :=
  let tag := Z.lor (Z.shiftl (Z.of_nat (length bs)) STR_TAG_BYTES) TAG_STR in
  le_bytes (tag :: bs ++ repeat 0 (7 - length bs)).

(** Types an inline word can report; [TPtr] stands for "read the type from the
    heap header", `TNever` for the unused bit patterns (ptr.rs:252-269). *)
Inductive wtype := TNil | TBool | TInt | TNative | TField | TShortStr | TPtr | TNever.

Definition ty (w : word) : wtype :=
  let t2 := Z.land w MASK_PTR in
  if t2 =? TAG_NIL then
    let t5 := Z.land w MASK_TAG5 in
    if t5 =? TAG_NIL then TNil
    else if t5 =? TAG_BOOL then TBool
    else if t5 =? TAG_NATIVE then TNative
    else if t5 =? TAG_FIELD then TField
    else if t5 =? TAG_STR then TShortStr
    else TNever
  else if t2 =? TAG_PTR then TPtr
  else TInt.

(** ptr.rs:282-291 type tests *)
Definition is_nil (w : word) : bool := Z.land w MASK_TAG5 =? TAG_NIL.
Definition is_bool (w : word) : bool := Z.land w MASK_TAG5 =? TAG_BOOL.
Definition is_true (w : word) : bool := w =? TAG_TRUE.
Definition is_precise_int (w : word) : bool := Z.land w MASK_INT =? TAG_INT.
Definition is_int (w : word) : bool := is_precise_int w || is_bool w.
Definition is_short_str (w : word) : bool := Z.land w MASK_TAG5 =? TAG_STR.
Definition is_native (w : word) : bool := Z.land w MASK_TAG5 =? TAG_NATIVE.
Definition is_field (w : word) : bool := Z.land w MASK_TAG5 =? TAG_FIELD.
Definition is_ptr (w : word) : bool := Z.land w MASK_PTR =? TAG_PTR.

(** ptr.rs:223-228: arithmetic shift right of the word read as i64 *)
Definition as_precise_int (w : word) : Z := Z.shiftr (i64 w) 1.
(** ptr.rs:190-196 *)
Definition as_int (w : word) : Z :=
  if is_precise_int w then as_precise_int w else if is_true w then 1 else 0.
(** ptr.rs:230-233 *)
Definition as_bool (w : word) : bool := is_true w.
(** ptr.rs:235-238: [(self.tag >> 6) as u8] *)
Definition as_native (w : word) : Z := uwrap 8 (Z.shiftr w 6).
(** ptr.rs:240-243: [(self.long_tag >> 6) as u32] *)
Definition as_field (w : word) : Z := uwrap 32 (Z.shiftr w 6).
(** ptr.rs:306-311 *)
Definition as_ptr (w : word) : Z := Z.land w PTR_MASK.
(** [i]-th byte of the little-endian representation *)
Definition byte_at (w : word) (i : Z) : Z := Z.land (Z.shiftr w (8 * i)) 255.
(** ptr.rs:198-221: bytes 1..=len *)
Definition as_short_str (w : word) : list Z :=
  let len := Z.shiftr (Z.land w STR_LEN_MASK) STR_TAG_BYTES in
  map (fun k => byte_at w (Z.of_nat k)) (seq 1 (Z.to_nat len)).
