(** Strings: core/strings.rs.  A string is the list of its code points.
    Not modelled: regular expressions (the engine is the library fancy_regex); `split` is
    modelled from the list of matches on, and for separators without regex
    metacharacters the matches are the leftmost non-overlapping occurrences.
    `to_lower`/`to_upper` only for ASCII texts (std maps other letters by Unicode tables). *)
From Verif Require Import Base Native Value Err Ops.
Local Open Scope Z_scope.

(** ** characters, strings.rs:191-211 *)
(** std char::from_u32 *)
Definition char_from_u32 (c : Z) : option Z :=
  if (c <? 1114112) && negb ((55296 <=? c) && (c <=? 57343)) then Some c else None.
Definition chr (v : value) : result value :=
  let? i := as_int_checked v in
  if i <=? 0 then Err (ValueErrorInvalidCharacterOrdinal i) else
  match char_from_u32 (uwrap 32 i) with                     (* i as u32 *)
  | Some c => Ok (VStr [c])
  | None => Err (ValueErrorInvalidCharacterOrdinal i)
  end.
(** N.B. `text.len()` is the length in bytes *)
Definition ord (v : value) : result value :=
  match v with
  | VStr s => match utf8 s, s with
              | [_], c :: _ => Ok (of_int c)
              | _, _ => Err (TypeErrorArgMustBeChar v)
              end
  | _ => Err (TypeErrorArgMustBeStr v)
  end.

(** ** numerals *)
Definition digit_char (d : Z) : Z := if d <? 10 then 48 + d else 87 + d.
(** the digits of n >= 0 in front of acc; [fuel] bounds their number *)
Fixpoint digits_from (fuel : nat) (radix n : Z) (acc : list Z) : list Z :=
  match fuel with
  | O => acc
  | S f => if n <? radix then digit_char n :: acc else digits_from f radix (n / radix) (digit_char (n mod radix) :: acc)
  end.
Definition digits (radix n : Z) : list Z := digits_from (S (Z.to_nat (Z.log2 n))) radix n [].
(** Display for i64, and LowerHex/Binary, which show the two's complement *)
Definition show_dec (n : Z) : list Z := if n <? 0 then 45 :: digits 10 (- n) else digits 10 n.
Definition show_radix (radix n : Z) : list Z := digits radix (u64 n).

(** std i64::from_str_radix: optional sign, at least one digit, overflow is an error *)
Definition char_digit (radix c : Z) : option Z :=
  let d := if (48 <=? c) && (c <=? 57) then c - 48
           else if (97 <=? c) && (c <=? 122) then c - 87
           else if (65 <=? c) && (c <=? 90) then c - 55 else 99 in
  if d <? radix then Some d else None.
Definition in_i64 (x : Z) : bool := (-9223372036854775808 <=? x) && (x <=? 9223372036854775807).
Fixpoint parse_digits (radix sign acc : Z) (s : list Z) : option Z :=
  match s with
  | [] => Some acc
  | c :: r =>
      match char_digit radix c with
      | None => None
      | Some d =>
          if in_i64 (acc * radix) && in_i64 (acc * radix + sign * d)
          then parse_digits radix sign (acc * radix + sign * d) r else None
      end
  end.
Definition from_str_radix (radix : Z) (s : list Z) : option Z :=
  match s with
  | [] => None
  | [c] => if (c =? 43) || (c =? 45) then None else parse_digits radix 1 0 s
  | c :: r => if c =? 43 then parse_digits radix 1 0 r
              else if c =? 45 then parse_digits radix (-1) 0 r
              else parse_digits radix 1 0 s
  end.

(** strings.rs:213-233 hex, bin *)
Definition in_radix (radix : Z) (v : value) : result value :=
  match v with
  | VInt n => Ok (VStr (show_radix radix n))
  | VStr s => match from_str_radix radix s with Some n => Ok (of_int n) | None => Err (TypeErrorCannotConvertToInt v) end
  | _ => Err (TypeErrorArgMustBeIntOrStr v)
  end.
Definition hex (v : value) : result value := in_radix 16 v.
Definition bin (v : value) : result value := in_radix 2 v.
(** core/math.rs:14-36 convert_to_int, for nil, bools, ints and strings, no default *)
Definition convert_to_int (v : value) : result value :=
  match v with
  | VNil => Ok (VInt 0)
  | VBool b => Ok (VInt (if b then 1 else 0))
  | VInt n => Ok v
  | VStr s => match from_str_radix 10 s with Some n => Ok (of_int n) | None => Err (ValueErrorCannotConvertStringToIntBadParse v) end
  | _ => Err (TypeErrorCannotConvertToInt v)
  end.

(** ** formatting, strings.rs:239-341 *)
(** std Formatter::pad_integral with flag 0 and width *)
Definition pad_integral (zero : bool) (width : nat) (sign ds : list Z) : list Z :=
  let k := (width - length (sign ++ ds))%nat in
  if zero then sign ++ repeat 48 k ++ ds else repeat 32 k ++ sign ++ ds.
(** std Formatter::pad: the flag 0 has no effect on strings *)
Definition pad_str (width : nat) (s : list Z) : list Z := s ++ repeat 32 (width - length s).
(** the loop reading the width (:286-302); None is the error for a leading '0' *)
Fixpoint width_chars (buffer s : list Z) : option (list Z * list Z) :=
  match s with
  | [] => Some (buffer, [])
  | c :: r =>
      if (49 <=? c) && (c <=? 57) then width_chars (buffer ++ [c]) r
      else if c =? 48 then match buffer with [] => None | _ => width_chars (buffer ++ [48]) r end
      else Some (buffer, s)
  end.
Definition decimal (buffer : list Z) : Z := fold_left (fun a c => a * 10 + (c - 48)) buffer 0.

Section Format.
  Variable show : value -> list Z.     (* ValuePtr::to_str *)
  Definition directive (k : Z) (zero : bool) (width : nat) (v : value) : result (list Z) :=
    if k =? 100 then let? n := as_int_checked v in Ok (pad_integral zero width (if n <? 0 then [45] else []) (digits 10 (Z.abs n)))
    else if k =? 120 then let? n := as_int_checked v in Ok (pad_integral zero width [] (show_radix 16 n))
    else if k =? 98 then let? n := as_int_checked v in Ok (pad_integral zero width [] (show_radix 2 n))
    else Ok (pad_str width (show v)).
  Definition is_directive (k : Z) : bool := (k =? 100) || (k =? 120) || (k =? 98) || (k =? 115).
  (** [fuel] is at least the length of the rest of the format *)
  Fixpoint run_format (fuel : nat) (s : list Z) (args : list value) (out : list Z) : result value :=
    match fuel with
    | O => Panic
    | S f =>
        match s with
        | [] => match args with [] => Ok (VStr out) | e :: _ => Err (ValueErrorNotAllArgumentsUsedInStringFormatting e) end
        | c :: r =>
            if negb (c =? 37) then run_format f r args (out ++ [c]) else
            match r with
            | d :: r' =>
                if d =? 37 then run_format f r' args (out ++ [37]) else
                let zero := d =? 48 in
                match width_chars [] (if zero then r' else r) with
                | None => Err (ValueErrorInvalidFormatCharacter (Some 48))
                | Some (buffer, r) =>
                    if 18446744073709551616 <=? decimal buffer then Panic else      (* parse::<usize>().unwrap() *)
                    match r with
                    | [] => Err (ValueErrorInvalidFormatCharacter None)
                    | k :: r' =>
                        if negb (is_directive k) then Err (ValueErrorInvalidFormatCharacter (Some k)) else
                        match args with
                        | [] => Err ValueErrorMissingRequiredArgumentInStringFormatting
                        | v :: args' =>
                            let? text := directive k zero (Z.to_nat (decimal buffer)) v in
                            run_format f r' args' (out ++ text)
                        end
                    end
                end
            | [] => Err (ValueErrorInvalidFormatCharacter None)
            end
        end
    end.
  (** vm/value/mod.rs:357-362 as_sequence *)
  Definition format_args (v : value) : list value := match v with VList l | VVector l => l | _ => [v] end.
  Definition format_string (s : list Z) (args : value) : result value := run_format (S (length s)) s (format_args args) [].
End Format.

(** ** split and join, strings.rs:75-91, 120-189 *)
(** FancySplit: the text between the matches (start, end) and after the last one *)
Fixpoint split_matches (text : list Z) (last : nat) (ms : list (nat * nat)) : list (list Z) :=
  match ms with
  | [] => [skipn last text]
  | (a, b) :: r => firstn (a - last) (skipn last text) :: split_matches text b r
  end.
Fixpoint starts_with (p s : list Z) : bool :=
  match p, s with
  | [], _ => true
  | x :: p', y :: s' => (x =? y) && starts_with p' s'
  | _, [] => false
  end.
(** leftmost non-overlapping occurrences of a literal; [skip] characters of an occurrence
    are still to be passed *)
Fixpoint find_literal (sep s : list Z) (pos skip : nat) : list (nat * nat) :=
  match s with
  | [] => []
  | _ :: r =>
      match skip with
      | S k => find_literal sep r (S pos) k
      | O => if starts_with sep s then (pos, pos + length sep)%nat :: find_literal sep r (S pos) (length sep - 1)
             else find_literal sep r (S pos) 0
      end
  end.
Definition split (sep text : list Z) : list (list Z) :=
  match sep with
  | [] => map (fun c => [c]) text
  | _ => split_matches text 0 (find_literal sep text 0 0)
  end.
(** join, on strings *)
Fixpoint join_rest (sep : list Z) (l : list (list Z)) : list Z := match l with [] => [] | x :: r => sep ++ x ++ join_rest sep r end.
Definition join (sep : list Z) (l : list (list Z)) : list Z := match l with [] => [] | x :: r => x ++ join_rest sep r end.

(** ** trim (:26-31), std str::trim; char::is_whitespace is Unicode White_Space *)
Definition is_whitespace (c : Z) : bool :=
  ((9 <=? c) && (c <=? 13)) || (c =? 32) || (c =? 133) || (c =? 160) || (c =? 5760) || ((8192 <=? c) && (c <=? 8202))
  || (c =? 8232) || (c =? 8233) || (c =? 8239) || (c =? 8287) || (c =? 12288).
Fixpoint trim_start (s : list Z) : list Z := match s with [] => [] | c :: r => if is_whitespace c then trim_start r else s end.
Definition trim (s : list Z) : list Z := rev (trim_start (rev (trim_start s))).
(** to_lower, to_upper (:12-24) on ASCII texts *)
Definition lower_char (c : Z) : Z := if (65 <=? c) && (c <=? 90) then c + 32 else c.
Definition upper_char (c : Z) : Z := if (97 <=? c) && (c <=? 122) then c - 32 else c.
Definition to_lower (s : list Z) : list Z := map lower_char s.
Definition to_upper (s : list Z) : list Z := map upper_char s.
