(** Mathematical builtins: core/math.rs.

    From the library num_integer: `gcd` of two i64 is the greatest common divisor, as an i64 (2^63
    wraps); `lcm a b` is `(a * (b / gcd)).abs()`, or 0 if both are 0; `Roots::sqrt` is the
    integer square root, as is `sqrt` of rug's integers.  Rational numbers are exact (rug);
    parsing a rational from a text is a parameter. *)
From Verif Require Import Base Native Value Err Ops Str.
From Coq Require Import QArith_base QArith.Qabs Qreduction.
Local Open Scope Z_scope.

(** std i64::abs, wrapping in the release profile *)
Definition abs64 (x : Z) : Z := i64 (Z.abs x).
(** num_integer::gcd *)
Definition gcd64 (a b : Z) : Z := i64 (Z.gcd a b).
(** num_integer::lcm *)
Definition lcm64 (a b : Z) : Z :=
  if (a =? 0) && (b =? 0) then 0 else abs64 (i64 (a * Z.quot b (gcd64 a b))).
(** std count_ones on the 64 bits of an i64 *)
Fixpoint ones (n : nat) (x : Z) : Z := match n with O => 0 | S n => (if Z.testbit x (Z.of_nat n) then 1 else 0) + ones n x end.
Definition popcount (x : Z) : Z := ones 64 x.

Section math.
Context (parse : list Z -> result value).  (* math.rs:52-55: rug::Rational::parse, or an error *)

(** math.rs:14-36, for nil, bool, int, string and rational; [default] is the second argument.  The
    error of a text is returned only without default. *)
Definition to_int (v : value) (default : option value) : result value :=
  match v with
  | VNil => Ok (VInt 0)
  | VBool b => Ok (VInt (if b then 1 else 0))
  | VInt _ => Ok v
  | VStr s =>
      match from_str_radix 10 s with
      | Some n => Ok (of_int n)
      | None => match default with Some d => Ok d | None => Err (ValueErrorCannotConvertStringToIntBadParse v) end
      end
  | VRational n d =>
      if (d =? 1)%positive then
        if (MIN_INT <=? n) && (n <=? MAX_INT) then Ok (VInt n) else Err (ValueErrorCannotConvertRationalToIntTooLarge v)
      else Err (ValueErrorCannotConvertRationalToIntNotAnInteger v)
  | _ => Err (TypeErrorCannotConvertToInt v)
  end.
(** math.rs:38-59 *)
Definition to_rat (numer : value) (denom : option value) : result value :=
  match numer with
  | VStr s => parse s
  | _ =>
      match to_rational numer with
      | None => Err (TypeErrorCannotConvertToRational numer)
      | Some q =>
          match denom with
          | None => Ok (of_rational q)
          | Some d =>
              match to_rational d with
              | None => Err (TypeErrorCannotConvertToRational d)
              | Some r => if Qnum r =? 0 then Err ValueErrorDivideByZero else Ok (of_rational (q / r)%Q)
              end
          end
      end
  end.
End math.

(** math.rs:61-76; vectors by operator.rs:469-477 apply_vector_unary *)
Fixpoint absolute (v : value) : result value :=
  match v with
  | VBool b => Ok (of_int (abs64 (if b then 1 else 0)))
  | VInt n => Ok (of_int (abs64 n))
  | VComplex re im => Ok (of_complex (abs64 re, abs64 im))
  | VRational n d => Ok (of_rational (Qabs (n # d)))
  | VVector l =>
      let? l' := (fix go (l : list value) : result (list value) :=
         match l with [] => Ok [] | x :: r => let? y := absolute x in let? ys := go r in Ok (y :: ys) end) l in Ok (VVector l')
  | _ => Err (TypeErrorCannotConvertToInt v)
  end.
(** math.rs:78-99 *)
Definition square_root (v : value) : result value :=
  match v with
  | VBool b => Ok (of_int (if b then 1 else 0))
  | VInt n => if n <? 0 then Err (ValueErrorValueMustBeNonNegative v) else Ok (of_int (Z.sqrt n))
  | VRational n d => if n <? 0 then Err (ValueErrorValueMustBeNonNegative v) else Ok (of_rational (Z.sqrt n # Pos.sqrt d))
  | _ => Err (TypeErrorArgMustBeRational v)
  end.
(** math.rs:101-125; the arguments, or the elements of the one argument *)
Definition fold_ints (f : Z -> Z -> Z) (name : native) (l : list value) : result value :=
  match l with
  | [] => Err (ValueErrorArgMustBeNonEmpty name)
  | v :: r =>
      let? a := as_int_checked v in
      let? z := (fix go (l : list value) (acc : Z) : result Z :=
         match l with [] => Ok acc | x :: r => let? i := as_int_checked x in go r (f acc i) end) r a in Ok (of_int z)
  end.
Definition gcd_all (l : list value) : result value := fold_ints gcd64 NF_Gcd l.
Definition lcm_all (l : list value) : result value := fold_ints lcm64 NF_Lcm l.
(** math.rs:127-137 *)
Definition count_ones (v : value) : result value := let? i := as_int_checked v in Ok (of_int (popcount i)).
Definition count_zeros (v : value) : result value := let? i := as_int_checked v in Ok (of_int (64 - popcount i)).
(** math.rs:139-153 *)
Definition get_real (v : value) : result value :=
  match v with
  | VComplex re _ => Ok (of_int re)
  | VBool b => Ok (of_int (if b then 1 else 0))
  | VInt n => Ok (of_int n)
  | _ => Err (TypeErrorArgMustBeComplex v)
  end.
Definition get_imag (v : value) : result value :=
  match v with
  | VComplex _ im => Ok (of_int im)
  | VBool _ | VInt _ => Ok (of_int 0)
  | _ => Err (TypeErrorArgMustBeComplex v)
  end.
(** math.rs:155-169 *)
Definition get_numer (v : value) : result value :=
  match to_rational v with Some q => Ok (of_rational (Qnum q # 1)) | None => Err (TypeErrorArgMustBeRational v) end.
Definition get_denom (v : value) : result value :=
  match to_rational v with Some q => Ok (of_rational (Zpos (Qden q) # 1)) | None => Err (TypeErrorArgMustBeRational v) end.
