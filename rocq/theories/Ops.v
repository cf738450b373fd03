(** Operators: vm/operator.rs, vm/value/number.rs.

    Two library functions are parameters: [to_str] (`ValuePtr::to_str`, used by
    string concatenation) and [fmt] (core::format_string, used by string `%`; see
    Format.v).  [core::copy] is the identity on the contents of values (see Copy.v
    for identity and sharing).  Rust memory exhaustion (repeating a string or list
    too often) is not modelled. *)
From Verif Require Import Base Ptr Native Value Err Iter Seq.
From Coq Require Import QArith_base Qreduction.
Local Open Scope Z_scope.

(** ** i64 helpers *)
Definition i64_min : Z := - 2 ^ 63.
(** num_integer-0.1 `Integer for i64`: div_floor and mod_floor from truncated
    division; Rust's `/` and `%` panic on i64::MIN / -1 in every profile. *)
Definition adjust (r y : Z) : bool := ((r >? 0) && (y <? 0)) || ((r <? 0) && (y >? 0)).
Definition div_floor (x y : Z) : result Z :=
  if (y =? 0) || ((x =? i64_min) && (y =? -1)) then Panic
  else Ok (if adjust (Z.rem x y) y then i64 (Z.quot x y - 1) else Z.quot x y).
Definition mod_floor (x y : Z) : result Z :=
  if (y =? 0) || ((x =? i64_min) && (y =? -1)) then Panic
  else Ok (if adjust (Z.rem x y) y then i64 (Z.rem x y + y) else Z.rem x y).
(** `i64::pow(u32)` with wrap-around multiplication *)
Definition pow_i64 (x : Z) (n : Z) : Z := i64 (x ^ n).
(** `<<` and `>>` on i64 by an i64 count: the count is masked to its low 6 bits *)
Definition shl_i64 (x n : Z) : Z := i64 (Z.shiftl x (n mod 64)).
Definition shr_i64 (x n : Z) : Z := Z.shiftr x (n mod 64).
(** operator.rs:363-371 *)
Definition i64_left_shift (x n : Z) : Z :=
  if n >=? 0 then shl_i64 x n else shr_i64 x (i64 (- n)).

(** ** complex: num_complex::Complex<i64> *)
Definition cplx : Type := (Z * Z)%type.
Definition c_add (a b : cplx) : cplx := (i64 (fst a + fst b), i64 (snd a + snd b)).
Definition c_sub (a b : cplx) : cplx := (i64 (fst a - fst b), i64 (snd a - snd b)).
Definition c_mul (a b : cplx) : cplx :=
  (i64 (i64 (fst a * fst b) - i64 (snd a * snd b)), i64 (i64 (fst a * snd b) + i64 (snd a * fst b))).
Definition c_neg (a : cplx) : cplx := (i64 (- fst a), i64 (- snd a)).
Definition c_conj (a : cplx) : cplx := (fst a, i64 (- snd a)).
Definition c_norm (a : cplx) : Z := i64 (i64 (fst a * fst a) + i64 (snd a * snd a)).
(** operator.rs:203-208 c64_div_floor *)
Definition c_div_floor (l r : cplx) : result cplx :=
  let n := c_norm r in
  let re := i64 (i64 (fst l * fst r) + i64 (snd l * snd r)) in
  let im := i64 (i64 (snd l * fst r) - i64 (fst l * snd r)) in
  let? a := div_floor re n in
  let? b := div_floor im n in
  Ok (a, b).
(** num_complex `powu`: repeated multiplication in the same ring *)
Definition c_pow (a : cplx) (n : nat) : cplx := Nat.iter n (c_mul a) (1, 0).

(** number.rs:57-61 IntoValue for ComplexType *)
Definition of_complex (c : cplx) : value :=
  if snd c =? 0 then VInt (wrap63 (fst c)) else VComplex (fst c) (snd c).
Definition of_int (x : Z) : value := VInt (wrap63 x).

(** number.rs:76-84 to_complex; is_complex *)
Definition to_complex (v : value) : option cplx :=
  match v with
  | VComplex re im => Some (re, im)
  | _ => match as_int_opt v with Some i => Some (i, 0) | None => None end
  end.
(** number.rs:129-137 to_rational (feature "rational", on by default): rug keeps
    numbers in lowest terms *)
Definition to_rational (v : value) : option Q :=
  match v with
  | VRational n d => Some (n # d)%Q
  | _ => match as_int_opt v with Some i => Some (i # 1)%Q | None => None end
  end.
Definition of_rational (q : Q) : value := let r := Qred q in VRational (Qnum r) (Qden r).

(** ** vectors: operator.rs:436-477.  [base] is the non-vector part of an operator:
    [None] when no other arm applies. *)
Definition zip_result (f : value -> value -> result value) : list value -> list value -> result (list value) :=
  fix go l r :=
    match l, r with
    | x :: l', y :: r' => let? z := f x y in let? zs := go l' r' in Ok (z :: zs)
    | _, _ => Ok []
    end.
Fixpoint lift1 (base : value -> option (result value)) (op : unop) (a : value) : result value :=
  match base a with
  | Some r => r
  | None =>
      match a with
      | VVector l =>
          let? l' := (fix go (l : list value) : result (list value) :=
             match l with
             | [] => Ok []
             | x :: r => let? y := lift1 base op x in let? ys := go r in Ok (y :: ys)
             end) l in Ok (VVector l')
      | _ => Err (TypeErrorUnaryOp op a)
      end
  end.
Fixpoint lift2 (base : value -> value -> option (result value)) (op : binop) (a : value) {struct a} : value -> result value :=
  fix inner (b : value) {struct b} : result value :=
  match base a b with
  | Some r => r
  | None =>
      match a with
      | VVector l =>
          match b with
          | VVector r =>
              let? z := (fix go (l r : list value) {struct l} : result (list value) :=
                 match l, r with
                 | x :: l', y :: r' => let? z := lift2 base op x y in let? zs := go l' r' in Ok (z :: zs)
                 | _, _ => Ok []
                 end) l r in Ok (VVector z)
          | _ =>
              let? z := (fix go (l : list value) : result (list value) :=
                 match l with
                 | x :: l' => let? z := lift2 base op x b in let? zs := go l' in Ok (z :: zs)
                 | [] => Ok []
                 end) l in Ok (VVector z)
          end
      | _ =>
          match b with
          | VVector r =>
              let? z := (fix go (r : list value) : result (list value) :=
                 match r with
                 | y :: r' => let? z := inner y in let? zs := go r' in Ok (z :: zs)
                 | [] => Ok []
                 end) r in Ok (VVector z)
          | _ => Err (TypeErrorBinaryOp op a b)
          end
      end
  end.

(** ** unary operators: operator.rs:117-139 *)
Definition unary_sub_base (a : value) : option (result value) :=
  match a with
  | VBool _ | VInt _ => match as_int_opt a with Some i => Some (Ok (of_int (i64 (- i)))) | None => None end
  | VComplex re im => Some (Ok (of_complex (c_neg (re, im))))
  | VRational n d => Some (Ok (of_rational (Qopp (n # d)%Q)))
  | _ => None
  end.
Definition unary_not_base (a : value) : option (result value) :=
  match a with
  | VBool b => Some (Ok (VBool (negb b)))
  | VInt i => Some (Ok (of_int (Z.lnot i)))
  | VComplex re im => Some (Ok (of_complex (c_conj (re, im))))
  | _ => None
  end.
Definition unary_op (o : unop) (a : value) : result value :=
  match o with
  | UNeg => lift1 unary_sub_base UNeg a
  | UNot => lift1 unary_not_base UNot a
  | ULogicalNot => Ok (VBool (negb (to_bool a)))
  end.

(** the numeric arms common to `+ - *`: (Bool|Int)^2, then (..|Complex)^2, then (..|Rational)^2 *)
Definition numeric (fi : Z -> Z -> Z) (fc : cplx -> cplx -> cplx) (fq : Q -> Q -> Q) (a b : value) : option (result value) :=
  match as_int_opt a, as_int_opt b with
  | Some x, Some y => Some (Ok (of_int (i64 (fi x y))))
  | _, _ =>
      match to_complex a, to_complex b with
      | Some x, Some y => Some (Ok (of_complex (fc x y)))
      | _, _ =>
          match to_rational a, to_rational b with
          | Some x, Some y => Some (Ok (of_rational (fq x y)))
          | _, _ => None
          end
      end
  end.

(** operator.rs:163-189 repetition.  `cycle().take(n)` with n computed in usize. *)
Fixpoint repeat_str (s : list Z) (n : nat) : list Z := match n with O => [] | S n' => s ++ repeat_str s n' end.
Definition cycle_take (l : list value) (n : nat) : list value :=
  match l with
  | [] => []
  | d :: _ => map (fun k => nth (k mod length l) l d) (seq 0 n)
  end.
Definition binary_str_repeat (s : list Z) (i : Z) : result value :=
  if i <? 0 then Err (ValueErrorBinaryOpMustNotBeNegative (VStr s) BMul i) else Ok (VStr (repeat_str s (Z.to_nat i))).
Definition binary_list_repeat (l : list value) (i : Z) (deep : bool) : result value :=
  if i <? 0 then Err (ValueErrorBinaryOpMustNotBeNegative (VList l) (if deep then BPow else BMul) i)
  else Ok (VList (cycle_take l (Z.to_nat (u64 (i * Z.of_nat (length l)))))).

(** operator.rs:142-161 *)
Definition mul_base (a b : value) : option (result value) :=
  match numeric Z.mul c_mul Qmult a b with
  | Some r => Some r
  | None =>
      match a, b with
      | VStr s, VInt i => Some (binary_str_repeat s i)
      | VInt i, VStr s => Some (binary_str_repeat s i)
      | VList l, VInt i => Some (binary_list_repeat l i false)
      | VInt i, VList l => Some (binary_list_repeat l i false)
      | _, _ => None
      end
  end.
(** operator.rs:191-219 *)
Definition div_base (a b : value) : option (result value) :=
  match as_int_opt a, as_int_opt b with
  | Some x, Some y =>
      Some (if y =? 0 then Err ValueErrorDivideByZero else let? q := div_floor x y in Ok (of_int q))
  | _, _ =>
      match to_complex a, to_complex b with
      | Some x, Some y =>
          Some (if c_norm y =? 0 then Err ValueErrorDivideByZero else let? q := c_div_floor x y in Ok (of_complex q))
      | _, _ =>
          match to_rational a, to_rational b with
          | Some x, Some y =>
              Some (if Qnum y =? 0 then Err ValueErrorDivideByZero else Ok (of_rational (Qdiv x y)))
          | _, _ => None
          end
      end
  end.
(** operator.rs:221-245 *)
Definition mod_base (fmt : list Z -> value -> result value) (a b : value) : option (result value) :=
  match as_int_opt a, as_int_opt b with
  | Some x, Some y =>
      Some (if y =? 0 then Err ValueErrorModuloByZero else let? q := mod_floor x y in Ok (of_int q))
  | _, _ =>
      match a with
      | VComplex re im =>
          match as_int_opt b with
          | Some y =>
              Some (if y =? 0 then Err ValueErrorModuloByZero
                    else let? p := mod_floor re y in let? q := mod_floor im y in Ok (of_complex (p, q)))
          | None => None
          end
      | VStr s => Some (fmt s b)
      | _ => None
      end
  end.
(** operator.rs:247-279; `rhs as u32` truncates the exponent *)
Definition pow_base (a b : value) : option (result value) :=
  match as_int_opt a, as_int_opt b with
  | Some x, Some y =>
      Some (if y >=? 0 then Ok (of_int (pow_i64 x (u32 y))) else Err (ValueErrorPowerByNegative y))
  | _, _ =>
      match a, b with
      | VComplex re im, _ =>
          match as_int_opt b with
          | Some y => Some (if y >=? 0 then Ok (of_complex (c_pow (re, im) (Z.to_nat (u32 y)))) else Err (ValueErrorPowerByNegative y))
          | None => None
          end
      | VRational n d, _ =>
          match as_int_opt b with
          | Some y =>
              Some (if (- 2 ^ 31 <=? y) && (y <? 2 ^ 31)
                    then (if (y <? 0) && (n =? 0) then Panic (* rug: division by zero *)
                          else Ok (of_rational (Qpower (n # d)%Q y)))
                    else Err ValueErrorValueWouldBeTooLarge)
          | None => None
          end
      | VList l, VInt i => Some (binary_list_repeat l i true)
      | VInt i, VList l => Some (binary_list_repeat l i true)
      | _, _ => None
      end
  end.

(** mod.rs:110-128 *)
Definition is_iterable (v : value) : bool :=
  match v with VStr _ | VList _ | VSet _ | VDict _ | VHeap _ | VVector _ | VRange _ _ _ | VEnumerate _ => true | _ => false end.
Definition is_evaluable (v : value) : bool :=
  match v with
  | VFunction _ | VPartial _ _ | VNative _ | VPartialNative _ _ | VClosure _ _ | VStructType _ | VSlice _ _ _ => true
  | _ => false
  end.
Definition is_some {A} (o : option A) : bool := match o with Some _ => true | None => false end.

(** operator.rs:282-304 *)
Definition binary_is (a b : value) (invert : bool) : result value :=
  let ret x := Ok (VBool (negb (Bool.eqb x invert))) in
  match b with
  | VNil => ret (match a with VNil => true | _ => false end)
  | VStructType t => ret (match a with VStruct t' _ => t' =? t | _ => false end)
  | VNative f =>
      match f with
      | NF_Bool => ret (match a with VBool _ => true | _ => false end)
      | NF_Int => ret (is_some (as_int_opt a))
      | NF_Complex => ret (is_some (to_complex a))
      | NF_Rational => ret (is_some (to_rational a))
      | NF_Str => ret (match a with VStr _ => true | _ => false end)
      | NF_Function => ret (is_evaluable a)
      | NF_List => ret (match a with VList _ => true | _ => false end)
      | NF_Set => ret (match a with VSet _ => true | _ => false end)
      | NF_Dict => ret (match a with VDict _ => true | _ => false end)
      | NF_Vector => ret (match a with VVector _ => true | _ => false end)
      | NF_Iterable => ret (is_iterable a)
      | NF_Heap => ret (match a with VHeap _ => true | _ => false end)
      | NF_Any => ret true
      | _ => Err (TypeErrorBinaryIs a b)
      end
  | _ => Err (TypeErrorBinaryIs a b)
  end.

(** std `str::contains` *)
Fixpoint is_prefix (p s : list Z) : bool :=
  match p, s with
  | [], _ => true
  | _, [] => false
  | x :: p', y :: s' => (x =? y) && is_prefix p' s'
  end.
Fixpoint str_contains (hay needle : list Z) : bool :=
  is_prefix needle hay || match hay with [] => false | _ :: r => str_contains r needle end.

(** indexmap lookup and insertion (hash and equality), IndexSet::insert keeps an existing element *)
Definition set_mem (x : value) (l : list value) : bool := existsb (key_match x) l.
Definition set_insert (x : value) (l : list value) : list value := if set_mem x l then l else l ++ [x].
Definition to_set (l : list value) : list value := fold_left (fun s x => set_insert x s) l [].

(** operator.rs:307-318 *)
Definition binary_in (a b : value) (invert : bool) : result value :=
  let ret x := Ok (VBool (negb (Bool.eqb x invert))) in
  match a, b with
  | VStr n, VStr h => ret (str_contains h n)
  | (VInt _ | VBool _), VRange x y z =>
      match as_int_opt a with Some i => ret (range_contains (Range x y z) i) | None => Panic end
  | _, (VList l | VVector l | VHeap l) => ret (existsb (fun e => value_eq e a) l)
  | _, VSet l => ret (set_mem a l)
  | _, VDict l => ret (existsb (fun p => key_match a (fst p)) l)
  | _, _ => Err (TypeErrorBinaryOp BIn a b)
  end.

(** operator.rs:320-340 *)
Definition add_base (to_str : value -> list Z) (a b : value) : option (result value) :=
  match numeric Z.add c_add Qplus a b with
  | Some r => Some r
  | None =>
      match a, b with
      | VList l, VList r => Some (Ok (VList (l ++ r)))
      | VStr s, _ => Some (Ok (VStr (s ++ to_str b)))
      | _, VStr s => Some (Ok (VStr (to_str a ++ s)))
      | _, _ => None
      end
  end.

(** indexmap set operations *)
Definition set_difference (l r : list value) : list value := filter (fun x => negb (set_mem x r)) l.
Definition set_intersection (l r : list value) : list value := filter (fun x => set_mem x r) l.
Definition set_union (l r : list value) : list value := l ++ set_difference r l.
Definition set_symdiff (l r : list value) : list value := set_difference l r ++ set_difference r l.

(** operator.rs:342-358 *)
Definition sub_base (a b : value) : option (result value) :=
  match numeric Z.sub c_sub Qminus a b with
  | Some r => Some r
  | None => match a, b with VSet l, VSet r => Some (Ok (VSet (to_set (set_difference l r)))) | _, _ => None end
  end.
(** operator.rs:361-381 *)
Definition shift_base (neg : bool) (a b : value) : option (result value) :=
  match as_int_opt a, as_int_opt b with
  | Some x, Some y => Some (Ok (of_int (i64_left_shift x (if neg then i64 (- y) else y))))
  | _, _ => None
  end.
(** operator.rs:394-431 *)
Definition bitwise_base (fb : bool -> bool -> bool) (fi : Z -> Z -> Z) (fs : list value -> list value -> list value)
    (a b : value) : option (result value) :=
  match a, b with
  | VBool x, VBool y => Some (Ok (VBool (fb x y)))
  | VSet l, VSet r => Some (Ok (VSet (to_set (fs l r))))
  | _, _ =>
      match as_int_opt a, as_int_opt b with
      | Some x, Some y => Some (Ok (of_int (fi x y)))
      | _, _ => None
      end
  end.

(** operator.rs:45-73 BinaryOp::apply *)
Definition binary_op (to_str : value -> list Z) (fmt : list Z -> value -> result value) (o : binop) (a b : value) : result value :=
  match o with
  | BMul => lift2 mul_base BMul a b
  | BDiv => lift2 div_base BDiv a b
  | BPow => lift2 pow_base BPow a b
  | BMod => lift2 (mod_base fmt) BMod a b
  | BIs => binary_is a b false
  | BIsNot => binary_is a b true
  | BAdd => lift2 (add_base to_str) BAdd a b
  | BSub => lift2 sub_base BSub a b
  | BLeftShift => lift2 (shift_base false) BLeftShift a b
  | BRightShift => lift2 (shift_base true) BRightShift a b
  | BAnd => lift2 (bitwise_base andb Z.land set_intersection) BAnd a b
  | BOr => lift2 (bitwise_base orb Z.lor set_union) BOr a b
  | BXor => lift2 (bitwise_base xorb Z.lxor set_symdiff) BXor a b
  | BIn => binary_in a b false
  | BNotIn => binary_in a b true
  | BLessThan => Ok (VBool (vlt a b))
  | BGreaterThan => Ok (VBool (vgt a b))
  | BLessThanEqual => Ok (VBool (vle a b))
  | BGreaterThanEqual => Ok (VBool (vge a b))
  | BEqual => Ok (VBool (value_eq a b))
  | BNotEqual => Ok (VBool (negb (value_eq a b)))
  | BMax => Ok (match value_cmp a b with Gt => a | _ => b end)   (* std::cmp::max: the second if equal *)
  | BMin => Ok (match value_cmp a b with Gt => b | _ => a end)   (* std::cmp::min: the first if equal *)
  end.
