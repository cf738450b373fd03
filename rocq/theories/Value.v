(** Cordy values, equality, ordering and hashing: vm/value/ptr.rs:328-475, 546-590,
    vm/value/collections.rs, vm/value/mod.rs.

    Values are modelled by their current contents (an acyclic snapshot); identity
    and aliasing are modelled separately (Copy.v, Upvalue.v).  Strings are lists of
    Unicode code points.  Not modelled as values: memoized functions (their hash
    map cache), synthetic iterators, error values. *)
From Verif Require Import Base Ptr Native.
Local Open Scope Z_scope.

Inductive value : Type :=
| VNil
| VBool (b : bool)
| VInt (n : Z)                              (* 63-bit signed *)
| VComplex (re im : Z)                      (* im <> 0, number.rs:12-17 *)
| VRational (num : Z) (den : positive)      (* reduced *)
| VStr (s : list Z)
| VList (l : list value)
| VVector (l : list value)
| VSet (l : list value)                     (* insertion order *)
| VDict (l : list (value * value))          (* insertion order *)
| VHeap (l : list value)                    (* array order of the BinaryHeap *)
| VStruct (ty : Z) (l : list value)         (* instance_type and field values *)
| VStructType (ty : Z)
| VRange (start stop step : Z)
| VEnumerate (v : value)
| VSlice (lo hi step : value)
| VNative (f : native)
| VPartialNative (f : native) (args : list value)
| VField (i : Z)
| VFunction (id : Z)                        (* identity of the compiled function *)
| VClosure (id : Z) (env : Z)               (* function, and identity of the environment *)
| VPartial (f : value) (args : list value).

(** vm/value/mod.rs:42-72 enum Type, as reported by `ty()`; short and long
    strings are merged (they are distinguished only by byte length). *)
Inductive vtype :=
| YNil | YBool | YInt | YNative | YField | YStr | YComplex | YRational | YList | YSet | YDict | YHeap | YVector
| YStruct | YStructType | YRange | YEnumerate | YSlice | YFunction | YPartial | YPartialNative | YClosure.

Definition vty (v : value) : vtype :=
  match v with
  | VNil => YNil | VBool _ => YBool | VInt _ => YInt | VComplex _ _ => YComplex | VRational _ _ => YRational
  | VStr _ => YStr | VList _ => YList | VVector _ => YVector | VSet _ => YSet | VDict _ => YDict | VHeap _ => YHeap
  | VStruct _ _ => YStruct | VStructType _ => YStructType | VRange _ _ _ => YRange | VEnumerate _ => YEnumerate
  | VSlice _ _ _ => YSlice | VNative _ => YNative | VPartialNative _ _ => YPartialNative | VField _ => YField
  | VFunction _ => YFunction | VClosure _ _ => YClosure | VPartial _ _ => YPartial
  end.

(** UTF-8 encoding of one code point (std `char::encode_utf8`) *)
Definition utf8_char (c : Z) : list Z :=
  if c <? 128 then [c]
  else if c <? 2048 then [192 + c / 64; 128 + c mod 64]
  else if c <? 65536 then [224 + c / 4096; 128 + (c / 64) mod 64; 128 + c mod 64]
  else [240 + c / 262144; 128 + (c / 4096) mod 64; 128 + (c / 64) mod 64; 128 + c mod 64].
Definition utf8 (s : list Z) : list Z := flat_map utf8_char s.

(** What is fed to the hasher: words, bytes, length prefixes, rational parts. *)
Inductive htok := HWord (w : Z) | HByte (b : Z) | HLen (n : Z) | HRat (n : Z) (d : Z) | HFn (id : Z).

Definition htok_eqb (a b : htok) : bool :=
  match a, b with
  | HWord x, HWord y => x =? y
  | HByte x, HByte y => x =? y
  | HLen x, HLen y => x =? y
  | HRat n d, HRat n' d' => (n =? n') && (d =? d')
  | HFn x, HFn y => x =? y
  | _, _ => false
  end.
Fixpoint list_eqb {A} (e : A -> A -> bool) (l r : list A) : bool :=
  match l, r with
  | [], [] => true
  | a :: l', b :: r' => e a b && list_eqb e l' r'
  | _, _ => false
  end.

(** vm/value/ptr.rs:551-592 `Hash for ValuePtr`; collections.rs:108-118 (Set: no
    length prefix, insertion order), 168-180 (Dict), 233-239 (Heap); derived
    `Hash` for List, Vector, StructImpl (length prefix).  Rationals: the guard
    `denom() == 0` of ptr.rs:571 is never true, so rationals always hash their two
    parts.  Functions hash their identifying fields, abbreviated as [HFn]. *)
Fixpoint hwords (v : value) : list htok :=
  match v with
  | VNil => [HWord from_nil]
  | VBool b => [HWord (from_bool b)]
  | VInt n => [HWord (from_i64 n)]
  | VNative f => [HWord (from_native (native_index f))]
  | VField i => [HWord (from_field i)]
  | VStr s => let bs := utf8 s in
      if (length bs <=? 7)%nat then [HWord (from_small_str bs)] else map HByte bs ++ [HByte 255]
  | VComplex re im => [HWord (u64 re); HWord (u64 im)]
  | VRational n d => [HRat n (Zpos d)]
  | VList l | VVector l => HLen (Z.of_nat (length l)) :: flat_map hwords l
  | VSet l => flat_map hwords l
  | VHeap l => flat_map hwords l
  | VDict l => (fix go (l : list (value * value)) : list htok :=
                 match l with [] => [] | (k, x) :: r => hwords k ++ hwords x ++ go r end) l
  | VStruct t l => HWord t :: HLen (Z.of_nat (length l)) :: flat_map hwords l
  | VStructType t => [HWord t]
  | VRange a b s => [HWord (u64 a); HWord (u64 b); HWord (u64 s)]
  | VEnumerate x => hwords x
  | VSlice a b c => hwords a ++ hwords b ++ hwords c
  | VPartialNative f _ => [HWord (native_index f)]
  | VFunction i => [HFn i]
  | VClosure i _ => [HFn i]
  | VPartial f _ => hwords f
  end.

(** fxhash-0.2.1 `FxHasher` on word-sized writes (Cargo.lock pins 0.2.1; the set and
    dict types use FxBuildHasher, collections.rs:15-16):
    hash = (rotate_left(hash, 5) ^ word) * 0x517cc1b727220a95 modulo 2^64.
    Byte writes (long strings) and rationals are not modelled here: [None]. *)
Definition rotl64 (x k : Z) : Z := Z.lor (u64 (Z.shiftl x k)) (Z.shiftr x (64 - k)).
Definition fx_add (h w : Z) : Z := u64 (Z.lxor (rotl64 h 5) w * 5871781006564002453).
Fixpoint fx_tokens (h : Z) (ts : list htok) : option Z :=
  match ts with
  | [] => Some h
  | HWord w :: r | HLen w :: r => fx_tokens (fx_add h w) r
  | _ => None
  end.
Definition fx_hash (v : value) : option Z := fx_tokens 0 (hwords v).

Definition same_hash (a b : value) : bool := list_eqb htok_eqb (hwords a) (hwords b).

(** vm/value/ptr.rs:332-387 `PartialEq for ValuePtr`.
    - Set/Dict use IndexSet/IndexMap equality: same length and every entry is
      found in the other map, and a lookup finds an entry iff hash *and* key
      match (hash collisions of different hash inputs are not modelled);
    - Heap: collections.rs:214-218, element by element in array order;
    - func.rs: closures and partials compare only the underlying function. *)
Fixpoint value_eq (a b : value) {struct a} : bool :=
  let fix list_eq (l r : list value) {struct l} : bool :=
    match l, r with
    | [], [] => true
    | x :: l', y :: r' => value_eq x y && list_eq l' r'
    | _, _ => false
    end in
  match a, b with
  | VNil, VNil => true
  | VBool x, VBool y => Bool.eqb x y
  | VNative f, VNative g => native_eqb f g
  | VInt x, VInt y => x =? y
  | VInt x, VRational n d => (n =? x) && (Zpos d =? 1)
  | VRational n d, VInt x => (n =? x) && (Zpos d =? 1)
  | VRational n d, VRational n' d' => (n =? n') && (Zpos d =? Zpos d')
  | VField i, VField j => i =? j
  | VStr s, VStr t => list_eqb Z.eqb s t
  | VComplex r i, VComplex r' i' => (r =? r') && (i =? i')
  | VRange x y z, VRange x' y' z' => (x =? x') && (y =? y') && (z =? z')
  | VEnumerate x, VEnumerate y => value_eq x y
  | VPartial f _, VPartial g _ => value_eq f g
  | VPartialNative f _, VPartialNative g _ => native_eqb f g
  | VSlice x y z, VSlice x' y' z' => value_eq x x' && value_eq y y' && value_eq z z'
  | VList l, VList r => list_eq l r
  | VVector l, VVector r => list_eq l r
  | VHeap l, VHeap r => list_eq l r
  | VSet l, VSet r =>
      (length l =? length r)%nat &&
      (fix all_in (l : list value) : bool :=
         match l with
         | [] => true
         | x :: l' => existsb (fun y => same_hash x y && value_eq x y) r && all_in l'
         end) l
  | VDict l, VDict r =>
      (length l =? length r)%nat &&
      (fix all_in (l : list (value * value)) : bool :=
         match l with
         | [] => true
         | (k, x) :: l' =>
             (match find (fun p => same_hash k (fst p) && value_eq k (fst p)) r with
              | Some p => value_eq x (snd p)
              | None => false
              end) && all_in l'
         end) l
  | VStruct t l, VStruct t' r => (t =? t') && list_eq l r
  | VStructType t, VStructType t' => t =? t'
  | VFunction i, VFunction j => i =? j
  | VClosure i _, VClosure j _ => i =? j
  | _, _ => false
  end.

(** the match test of a hash lookup (indexmap `get_index_of`) *)
Definition key_match (a b : value) : bool := same_hash a b && value_eq a b.

(** lexicographic comparison (std `Ord` for slices); strings compare their UTF-8 bytes *)
Fixpoint lex_cmp {A} (c : A -> A -> comparison) (l r : list A) : comparison :=
  match l, r with
  | [], [] => Eq
  | [], _ => Lt
  | _, [] => Gt
  | x :: l', y :: r' => match c x y with Eq => lex_cmp c l' r' | o => o end
  end.
Definition then_cmp (a b : comparison) : comparison := match a with Eq => b | o => o end.

(** the integral view of nil/bool/int used for ordering (ptr.rs:406-411) with the
    ordinal of the type (Nil = 0, Bool = 1, Int = 2: mod.rs:44-47) *)
Definition real_key (v : value) : option (Z * Z) :=
  match v with
  | VNil => Some (0, 0)
  | VBool b => Some ((if b then 1 else 0), 1)
  | VInt n => Some (n, 2)
  | _ => None
  end.
(** comparison of the integer [n] with the rational [p/q] *)
Definition int_rat_cmp (n p : Z) (q : positive) : comparison := n * Zpos q ?= p.

(** vm/value/ptr.rs:392-475 `Ord for ValuePtr`; collections.rs:83-93 (Set),
    154-164 (Dict: keys only), 222-227 (Heap: the greatest of the `Reverse`d
    elements, i.e. the root of the array); mod.rs:703-709 (Struct: fields only). *)
Fixpoint value_cmp (a b : value) {struct a} : comparison :=
  let fix lex (l r : list value) {struct l} : comparison :=
    match l, r with
    | [], [] => Eq
    | [], _ => Lt
    | _, [] => Gt
    | x :: l', y :: r' => match value_cmp x y with Eq => lex l' r' | o => o end
    end in
  match a with
  | VNil | VBool _ | VInt _ =>
      match real_key a with
      | None => Eq
      | Some (x, tx) =>
          match b with
          | VNil | VBool _ | VInt _ =>
              match real_key b with Some (y, ty) => then_cmp (x ?= y) (tx ?= ty) | None => Eq end
          | VComplex _ im => 0 ?= im
          | VRational p q => int_rat_cmp x p q
          | _ => Eq
          end
      end
  | VComplex re im =>
      match b with
      | VNil | VBool _ | VInt _ => CompOpp (0 ?= im)
      | VComplex re' im' => then_cmp (im ?= im') (re ?= re')
      | VRational _ _ => im ?= 0
      | _ => Eq
      end
  | VRational p q =>
      match b with
      | VNil | VBool _ | VInt _ =>
          match real_key b with Some (y, _) => CompOpp (int_rat_cmp y p q) | None => Eq end
      | VComplex _ im => CompOpp (im ?= 0)
      | VRational p' q' => p * Zpos q' ?= p' * Zpos q
      | _ => Eq
      end
  | VStr s => match b with VStr t => lex_cmp Z.compare (utf8 s) (utf8 t) | _ => Eq end
  | VRange x y z => match b with
      | VRange x' y' z' => then_cmp (x ?= x') (then_cmp (y ?= y') (z ?= z'))
      | _ => Eq end
  | VEnumerate x => match b with VEnumerate y => value_cmp x y | _ => Eq end
  | VList l => match b with VList r => lex l r | _ => Eq end
  | VVector l => match b with VVector r => lex l r | _ => Eq end
  | VStruct _ l => match b with VStruct _ r => lex l r | _ => Eq end
  | VSet l => match b with VSet r => lex l r | _ => Eq end
  | VDict l => match b with
      | VDict r =>
          (fix go (l : list (value * value)) (r : list (value * value)) {struct l} : comparison :=
             match l, r with
             | [], [] => Eq
             | [], _ => Lt
             | _, [] => Gt
             | (k, _) :: l', (k', _) :: r' => match value_cmp k k' with Eq => go l' r' | o => o end
             end) l r
      | _ => Eq end
  | VHeap l => match b with
      | VHeap r =>
          match l, r with
          | [], [] => Eq
          | [], _ => Lt
          | _, [] => Gt
          | x :: _, y :: _ => CompOpp (value_cmp x y)
          end
      | _ => Eq end
  | _ => Eq
  end.

(** derived comparison operators (operator.rs:62-67; PartialOrd from Ord) *)
Definition vlt (a b : value) : bool := match value_cmp a b with Lt => true | _ => false end.
Definition vgt (a b : value) : bool := match value_cmp a b with Gt => true | _ => false end.
Definition vle (a b : value) : bool := match value_cmp a b with Gt => false | _ => true end.
Definition vge (a b : value) : bool := match value_cmp a b with Lt => false | _ => true end.

(** vm/value/mod.rs:309-324 `to_bool` *)
Fixpoint to_bool (v : value) : bool :=
  match v with
  | VNil => false
  | VBool b => b
  | VInt n => negb (n =? 0)
  | VStr s => negb (length s =? 0)%nat
  | VList l | VSet l | VHeap l | VVector l => negb (length l =? 0)%nat
  | VDict l => negb (length l =? 0)%nat
  | VRange _ _ step => negb (step =? 0)
  | VEnumerate x => to_bool x
  | _ => true
  end.

(** ptr.rs:285 `is_int` and 190-196 `as_int` on values *)
Definition as_int_opt (v : value) : option Z :=
  match v with VInt n => Some n | VBool b => Some (if b then 1 else 0) | _ => None end.
