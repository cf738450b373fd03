(** The lexical grammar, and what it means to cut a text into tokens. *)
From Verif Require Import Base Scan.
From Coq Require Import String List.
Local Open Scope Z_scope.

Definition space (c : Z) : Prop := c = 32 \/ c = 9 \/ c = 13 \/ c = 10.

(** operators and punctuation, as written *)
Local Open Scope string_scope.
Definition symbols : list (token * string) :=
  [(NotEquals, "!="); (TNot, "!"); (DoubleEquals, "=="); (TEquals, "="); (RightShiftEquals, ">>="); (RightShift, ">>"); (GreaterThanEquals, ">=");
   (GreaterThan, ">"); (LeftShiftEquals, "<<="); (LeftShift, "<<"); (LessThanEquals, "<="); (LessThan, "<"); (PlusEquals, "+="); (Plus, "+");
   (MinusEquals, "-="); (Arrow, "->"); (Minus, "-"); (MulEquals, "*="); (PowEquals, "**="); (Pow, "**"); (Mul, "*"); (DivEquals, "/="); (Div, "/");
   (OrEquals, "|="); (BitwiseOr, "|"); (AndEquals, "&="); (BitwiseAnd, "&"); (XorEquals, "^="); (BitwiseXor, "^"); (ModEquals, "%="); (Mod, "%");
   (DotEquals, ".="); (Ellipsis, "..."); (Dot, "."); (OpenParen, "("); (CloseParen, ")"); (OpenSquareBracket, "["); (CloseSquareBracket, "]");
   (OpenBrace, "{"); (CloseBrace, "}"); (Comma, ","); (Colon, ":"); (Underscore, "_"); (Semicolon, ";"); (At, "@"); (QuestionMark, "?")].
(** reserved words *)
Definition reserved : list (token * string) :=
  [(KeywordLet, "let"); (KeywordFn, "fn"); (KeywordReturn, "return"); (KeywordIf, "if"); (KeywordElif, "elif"); (KeywordElse, "else"); (KeywordThen, "then");
   (KeywordLoop, "loop"); (KeywordWhile, "while"); (KeywordFor, "for"); (KeywordIn, "in"); (KeywordIs, "is"); (KeywordNot, "not"); (KeywordBreak, "break");
   (KeywordContinue, "continue"); (KeywordDo, "do"); (KeywordTrue, "true"); (KeywordFalse, "false"); (KeywordNil, "nil"); (KeywordStruct, "struct");
   (KeywordExit, "exit"); (KeywordAssert, "assert"); (KeywordModule, "module"); (KeywordSelf, "self"); (KeywordNative, "native"); (LogicalAnd, "and"); (LogicalOr, "or")].
Local Close Scope string_scope.

Definition letter (c : Z) : Prop := 97 <= c <= 122 \/ 65 <= c <= 90.
Definition word_char (c : Z) : Prop := letter c \/ 48 <= c <= 57 \/ c = 95.
Definition word (w : list Z) : Prop := exists c r, w = c :: r /\ letter c /\ Forall word_char r.

(** [c] is a digit of value [d] *)
Definition digit (c d : Z) : Prop :=
  (48 <= c <= 57 /\ d = c - 48) \/ (97 <= c <= 102 /\ d = c - 97 + 10) \/ (65 <= c <= 70 /\ d = c - 65 + 10).
(** [w] is written with the digits [ds] in this radix, and underscores *)
Inductive digits (radix : Z) : list Z -> list Z -> Prop :=
| dg_nil : digits radix [] []
| dg_digit c d w ds : digit c d -> d < radix -> digits radix w ds -> digits radix (c :: w) (d :: ds)
| dg_under w ds : digits radix w ds -> digits radix (95 :: w) ds.
(** the number written with these digits, most significant first *)
Definition number (radix : Z) (ds : list Z) : Z := fold_left (fun a d => a * radix + d) ds 0.
(** [w] writes a number with value [v] (or too large a number) *)
Inductive numeral : list Z -> Z -> Prop :=
| n_zero : numeral [48] 0
| n_dec c d w ds : digit c d -> 0 < d < 10 -> digits 10 w ds -> numeral (c :: w) (number 10 (d :: ds))
| n_hex w ds : digits 16 w ds -> ds <> [] -> numeral (48 :: 120 :: w) (number 16 ds)
| n_bin w ds : digits 2 w ds -> ds <> [] -> numeral (48 :: 98 :: w) (number 2 ds).
(** a prefix without digits *)
Inductive no_digits : list Z -> Prop :=
| nd_hex w : digits 16 w [] -> no_digits (48 :: 120 :: w)
| nd_bin w : digits 2 w [] -> no_digits (48 :: 98 :: w).
Definition imaginary (c : Z) : Prop := c = 105 \/ c = 106.      (* i, j *)
Definition quote (c : Z) : Prop := c = 39 \/ c = 34.

(** the escape sequences *)
Definition escape (c d : Z) : Prop :=
  (c = 110 /\ d = 10) \/ (c = 114 /\ d = 13) \/ (c = 116 /\ d = 9) \/ (c = 92 /\ d = 92) \/ (c = 39 /\ d = 39) \/ (c = 34 /\ d = 34).
Definition escapable (c : Z) : Prop := exists d, escape c d.
(** [decodes q body s]: between quotes [q], [body] denotes the string [s]; carriage returns
    are dropped, an unknown escape stands for itself, backslash included *)
Inductive decodes (q : Z) : list Z -> list Z -> Prop :=
| d_nil : decodes q [] []
| d_cr b s : decodes q b s -> decodes q (13 :: b) s
| d_char c b s : c <> q -> c <> 92 -> c <> 13 -> decodes q b s -> decodes q (c :: b) (c :: s)
| d_escape crs c d b s : Forall (eq 13) crs -> escape c d -> decodes q b s -> decodes q (92 :: crs ++ c :: b) (d :: s)
| d_other crs c b s : Forall (eq 13) crs -> ~ escapable c -> c <> 13 -> decodes q b s -> decodes q (92 :: crs ++ c :: b) (92 :: c :: s).

(** how a token is written *)
Inductive spelled : token -> list Z -> Prop :=
| s_symbol t w : In (t, w) symbols -> spelled t (text w)
| s_reserved t w : In (t, w) reserved -> spelled t (text w)
| s_identifier w : word w -> (forall t k, In (t, k) reserved -> text k <> w) -> spelled (Identifier w) w
| s_int w v : numeral w v -> v < 2 ^ 63 -> spelled (IntLiteral v) w
| s_zero_i c : imaginary c -> spelled (IntLiteral 0) [48; c]
| s_complex w v c : numeral w v -> w <> [48] -> v < 2 ^ 63 -> imaginary c -> spelled (ComplexLiteral v) (w ++ [c])
| s_string q b s : quote q -> decodes q b s -> spelled (StringLiteral s) (q :: b ++ [q]).

(** the inside of a block comment, as the scanner reads it: single characters that are not
    stars, and stars together with a following character that is not a slash *)
Inductive comment_body : list Z -> Prop :=
| cb_nil : comment_body []
| cb_char c b : c <> 42 -> comment_body b -> comment_body (c :: b)
| cb_star c b : c <> 47 -> comment_body b -> comment_body (42 :: c :: b).

(** a text is a sequence of pieces *)
Inductive piece :=
| PToken (t : token) (w : list Z)
| PSpace (c : Z)
| PLine (w : list Z)
| PBlock (w : list Z)
| PBad (e : scan_error) (w : list Z).
Definition piece_text (p : piece) : list Z :=
  match p with PToken _ w | PLine w | PBlock w | PBad _ w => w | PSpace c => [c] end.
(** characters that can start no token or space *)
Definition foreign (c : Z) : Prop :=
  ~ space c /\ ~ word_char c /\ ~ quote c /\ forall t w, In (t, w) symbols -> forall r, text w <> c :: r.
(** [piece_ok p rest]: [p] is a proper piece when [rest] follows it *)
Inductive piece_ok : piece -> list Z -> Prop :=
| p_token t w rest : spelled t w -> piece_ok (PToken t w) rest
| p_space c rest : space c -> piece_ok (PSpace c) rest
| p_line b rest : ~ In 10 b -> piece_ok (PLine (47 :: 47 :: b ++ [10])) rest
| p_line_end b : ~ In 10 b -> piece_ok (PLine (47 :: 47 :: b)) []
| p_block b rest : (exists b', b = 42 :: b') \/ b = [] -> comment_body b -> piece_ok (PBlock (47 :: b ++ [42; 47])) rest
| p_foreign c rest : foreign c -> piece_ok (PBad (InvalidCharacter c) [c]) rest
| p_prefix d rest : word_char d -> piece_ok (PBad (InvalidNumericPrefix d) [48]) (d :: rest)
| p_too_big w v i rest : numeral w v -> 2 ^ 63 <= v -> i = [] \/ (exists c, i = [c] /\ imaginary c) -> piece_ok (PBad (InvalidNumericValue false) (w ++ i)) rest
| p_empty w i rest : no_digits w -> i = [] \/ (exists c, i = [c] /\ imaginary c) -> piece_ok (PBad (InvalidNumericValue true) (w ++ i)) rest
| p_open_string q b : quote q -> piece_ok (PBad UnterminatedStringLiteral (q :: b)) []
| p_open_comment b : piece_ok (PBad UnterminatedBlockComment (47 :: 42 :: b)) [].
Fixpoint pieces_ok (ps : list piece) : Prop :=
  match ps with [] => True | p :: r => piece_ok p (concat (map piece_text r)) /\ pieces_ok r end.

(** the tokens of the pieces, with the places where they are written *)
Fixpoint placed (i : Z) (ps : list piece) : list (location * token) :=
  match ps with
  | [] => []
  | p :: r => match p with PToken t w => [((i, Z.of_nat (length w)), t)] | _ => [] end ++ placed (i + Z.of_nat (length (piece_text p))) r
  end.
Definition bad (ps : list piece) : list scan_error := flat_map (fun p => match p with PBad e _ => [e] | _ => [] end) ps.
(** an unterminated string is reported, and still gives a token for what there is of it *)
Definition is_newline (x : location * token) : bool := match snd x with NewLine => true | _ => false end.
(** the tokens other than line breaks *)
Definition significant (l : list (location * token)) : list (location * token) := filter (fun x => negb (is_newline x)) l.
(** the places of the line breaks in a text *)
Fixpoint line_breaks (i : Z) (t : list Z) : list (location * token) :=
  match t with [] => [] | c :: r => (if c =? 10 then [((i, 1), NewLine)] else []) ++ line_breaks (i + 1) r end.
Definition unterminated (e : scan_error) : Prop := e = UnterminatedStringLiteral \/ e = UnterminatedBlockComment.
(** the same token further on *)
Definition moved {A} (k : Z) (x : location * A) : location * A := ((fst (fst x) + k, snd (fst x)), snd x).
(** a text of words, one on each line *)
Definition lines (ws : list (list Z)) : list Z := concat (map (fun w => w ++ [10]) ws).
(** [t] contains a double slash *)
Definition slashes (t : list Z) : Prop := exists x y, t = x ++ 47 :: 47 :: y.
(** how to write down a string *)
Definition written (s : list Z) : list Z :=
  39 :: flat_map (fun c => if (c =? 39) || (c =? 92) then [92; c] else if c =? 13 then [92; 114] else [c]) s ++ [39].
