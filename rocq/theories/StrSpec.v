(** Vocabulary for C28-C30: numerals, format pieces, occurrences. *)
From Verif Require Import Base Native Value Err Ops.
Local Open Scope Z_scope.

(** a Unicode scalar value *)
Definition scalar (c : Z) : Prop := 0 <= c <= 1114111 /\ ~ (55296 <= c <= 57343).

(** the (lower case) digit of value d *)
Definition digit_of (c d : Z) : Prop := (0 <= d <= 9 /\ c = 48 + d) \/ (10 <= d <= 35 /\ c = 97 + (d - 10)).
Definition number (radix : Z) (ds : list Z) : Z := fold_left (fun a d => a * radix + d) ds 0.
(** [s] is the usual way to write n >= 0 in this radix: digits, and no needless zero in front *)
Definition numeral (radix n : Z) (s : list Z) : Prop :=
  exists ds, Forall2 digit_of s ds /\ Forall (fun d => d < radix) ds /\ number radix ds = n /\
    (ds = [0] \/ exists d r, ds = d :: r /\ d <> 0).

(** pieces of a format: a character, `%%`, or a directive with flag 0, width and kind *)
Inductive kind := AsDecimal | AsHex | AsBinary | AsText.
Inductive piece := Plain (c : Z) | Percent | Directive (zero : bool) (width : list Z) (k : kind).
Definition letter_of (k : kind) : Z := match k with AsDecimal => 100 | AsHex => 120 | AsBinary => 98 | AsText => 115 end.
Definition piece_text (p : piece) : list Z :=
  match p with
  | Plain c => [c]
  | Percent => [37; 37]
  | Directive zero w k => 37 :: (if zero then [48] else []) ++ w ++ [letter_of k]
  end.
Definition spell (ps : list piece) : list Z := flat_map piece_text ps.
(** a width is empty or a decimal numeral without leading zeros (and it fits 64 bits) *)
Definition piece_ok (p : piece) : Prop :=
  match p with
  | Plain c => c <> 37
  | Percent => True
  | Directive _ w _ => w = [] \/ exists n, 0 < n < 2 ^ 64 /\ numeral 10 n w
  end.
Inductive width_is : list Z -> nat -> Prop :=
| width_none : width_is [] 0
| width_some w n : numeral 10 n w -> width_is w (Z.to_nat n).

(** the integer a value is taken for (bools count as 0 and 1) *)
Inductive int_of : value -> Z -> Prop :=
| int_of_int n : int_of (VInt n) n
| int_of_bool b : int_of (VBool b) (if b : bool then 1 else 0).

(** at least [w] characters: filled up with zeros after the sign, or blanks in front *)
Definition filled (zero : bool) (w : nat) (sign ds out : list Z) : Prop :=
  exists k, k = (w - (length sign + length ds))%nat /\
    out = if zero then sign ++ repeat 48 k ++ ds else repeat 32 k ++ sign ++ ds.
Inductive shows (show : value -> list Z) (zero : bool) (w : nat) (v : value) : kind -> list Z -> Prop :=
| shows_dec n ds out : int_of v n -> numeral 10 (Z.abs n) ds -> filled zero w (if n <? 0 then [45] else []) ds out -> shows show zero w v AsDecimal out
| shows_hex n ds out : int_of v n -> numeral 16 (n mod 2 ^ 64) ds -> filled zero w [] ds out -> shows show zero w v AsHex out
| shows_bin n ds out : int_of v n -> numeral 2 (n mod 2 ^ 64) ds -> filled zero w [] ds out -> shows show zero w v AsBinary out
| shows_text : shows show zero w v AsText (show v ++ repeat 32 (w - length (show v))).
(** the text for a list of pieces with exactly these arguments *)
Inductive renders (show : value -> list Z) : list piece -> list value -> list Z -> Prop :=
| renders_nil : renders show [] [] []
| renders_plain c ps args out : renders show ps args out -> renders show (Plain c :: ps) args (c :: out)
| renders_percent ps args out : renders show ps args out -> renders show (Percent :: ps) args (37 :: out)
| renders_directive zero w n k ps v args text out :
    width_is w n -> shows show zero n v k text -> renders show ps args out ->
    renders show (Directive zero w k :: ps) (v :: args) (text ++ out).
Definition directives (ps : list piece) : nat := length (filter (fun p => match p with Directive _ _ _ => true | _ => false end) ps).

(** [p] occurs in [s] *)
Definition occurs (p s : list Z) : Prop := exists a b, s = a ++ p ++ b.
(** [ms] are positions (start, end) in order, not overlapping, from [last] to at most [n] *)
Fixpoint in_order (last : nat) (ms : list (nat * nat)) (n : nat) : Prop :=
  match ms with
  | [] => (last <= n)%nat
  | (a, b) :: r => (last <= a <= b)%nat /\ in_order b r n
  end.
(** the matched texts *)
Definition matched (text : list Z) (ms : list (nat * nat)) : list (list Z) := map (fun m => firstn (snd m - fst m) (skipn (fst m) text)) ms.
(** alternate pieces and separators, starting with a piece *)
Fixpoint interleave (pieces seps : list (list Z)) : list Z :=
  match pieces with
  | [] => []
  | p :: ps => match seps with s :: ss => p ++ s ++ interleave ps ss | [] => p end
  end.
(** the arguments of a format: the elements of a list or vector, or one value *)
Inductive arguments : value -> list value -> Prop :=
| args_list l : arguments (VList l) l
| args_vector l : arguments (VVector l) l
| args_one v : (forall l, v <> VList l) -> (forall l, v <> VVector l) -> arguments v [v].

(** an accepted spelling of a number: sign, digits (upper or lower case), value in 64 bits *)
Definition reads_digit (c d : Z) : Prop := (48 <= c <= 57 /\ d = c - 48) \/ (97 <= c <= 122 /\ d = c - 87) \/ (65 <= c <= 90 /\ d = c - 55).
Inductive sign_of : list Z -> Z -> Prop :=
| no_sign : sign_of [] 1
| plus_sign : sign_of [43] 1
| minus_sign : sign_of [45] (-1).
Definition spelling (radix n : Z) (s : list Z) : Prop :=
  exists sign k body ds, s = sign ++ body /\ sign_of sign k /\ body <> [] /\ Forall2 reads_digit body ds /\ Forall (fun d => d < radix) ds /\
    n = k * number radix ds /\ -9223372036854775808 <= n <= 9223372036854775807.

(** a character without a meaning in regular expressions *)
Definition plain_char (c : Z) : Prop := ~ In c [92; 46; 43; 42; 63; 40; 41; 124; 91; 93; 123; 125; 94; 36].
(** white space (Unicode White_Space) *)
Definition blank (c : Z) : Prop := 9 <= c <= 13 \/ 8192 <= c <= 8202 \/ In c [32; 133; 160; 5760; 8232; 8233; 8239; 8287; 12288].
