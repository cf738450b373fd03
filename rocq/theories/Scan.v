(** The scanner: compiler/scanner.rs.  Characters are Unicode scalar values ([Z]); the
    tokens and errors are kept in the order they are pushed.

    Simplification: `usize` and `u32` arithmetic on positions is exact (the text is shorter
    than 2^32 characters).  The only subtraction that can go below zero is the one in
    [push_err 1 2] (`0a` as the very first characters: 1 - 2 + 1); it is exact in the
    release profile, where it wraps and wraps back, and panics in a debug build. *)
From Verif Require Import Base.
From Coq Require Import String Ascii List.
Local Open Scope Z_scope.

(** 57-63 ScanErrorType; ParseIntError is either "empty" or "overflow" here *)
Inductive scan_error :=
| InvalidNumericPrefix (c : Z)
| InvalidNumericValue (empty : bool)
| InvalidCharacter (c : Z)
| UnterminatedStringLiteral
| UnterminatedBlockComment.

(** 81-172 ScanToken; the keywords carry the text that screen_identifier matches *)
Inductive token :=
| Identifier (s : list Z) | StringLiteral (s : list Z) | IntLiteral (i : Z) | ComplexLiteral (i : Z)
| KeywordLet | KeywordFn | KeywordReturn | KeywordIf | KeywordElif | KeywordElse | KeywordThen | KeywordLoop | KeywordWhile
| KeywordFor | KeywordIn | KeywordIs | KeywordNot | KeywordBreak | KeywordContinue | KeywordDo | KeywordTrue | KeywordFalse
| KeywordNil | KeywordStruct | KeywordExit | KeywordAssert | KeywordModule | KeywordSelf | KeywordNative
| TEquals | PlusEquals | MinusEquals | MulEquals | DivEquals | AndEquals | OrEquals | XorEquals | LeftShiftEquals | RightShiftEquals
| ModEquals | PowEquals | DotEquals
| Plus | Minus | Mul | Div | BitwiseAnd | BitwiseOr | BitwiseXor | Mod | Pow | LeftShift | RightShift
| TNot | LogicalAnd | LogicalOr
| NotEquals | DoubleEquals | LessThan | LessThanEquals | GreaterThan | GreaterThanEquals
| OpenParen | CloseParen | OpenSquareBracket | CloseSquareBracket | OpenBrace | CloseBrace
| Comma | Dot | Colon | Arrow | Underscore | Semicolon | At | Ellipsis | QuestionMark
| NewLine.

Definition location : Type := Z * Z.            (* start, width; the source index is fixed *)

(** 193-199 Scanner *)
Record scanner := Scanner { chars : list Z; cursor : Z; tokens : list (location * token); errors : list (location * scan_error) }.

(** the characters of a Rust string literal *)
Definition text (s : string) : list Z := List.map (fun a => Z.of_nat (nat_of_ascii a)) (list_ascii_of_string s).
Definition ch (s : string) : Z := match text s with [c] => c | _ => 0 end.

(** 533-535 push, 542-547 push_err, 550-557 push_err_at *)
Definition push (width : Z) (t : token) (s : scanner) : scanner :=
  Scanner (chars s) (cursor s) (tokens s ++ [((cursor s - width, width), t)]) (errors s).
Definition push_err (offset width : Z) (e : scan_error) (s : scanner) : scanner :=
  Scanner (chars s) (cursor s) (tokens s) (errors s ++ [((cursor s - width + offset, width), e)]).
Definition push_err_at (start width : Z) (e : scan_error) (s : scanner) : scanner :=
  Scanner (chars s) (cursor s) (tokens s) (errors s ++ [((start, cursor s - start + width), e)]).
(** 581-590 advance: a newline is a token wherever it is read *)
Definition advance (s : scanner) : option Z * scanner :=
  match chars s with
  | [] => (None, s)
  | c :: r =>
      let s' := Scanner r (cursor s + 1) (tokens s) (errors s) in
      (Some c, if c =? 10 then push 1 NewLine s' else s')
  end.
(** 593-595 peek, 568-570 skip, 537-540 push_skip *)
Definition peek (s : scanner) : option Z := match chars s with [] => None | c :: _ => Some c end.
Definition skip (s : scanner) : scanner := snd (advance s).
Definition push_skip (width : Z) (t : token) (s : scanner) : scanner := push width t (skip s).
Definition peek_is (c : Z) (s : scanner) : bool := match peek s with Some d => d =? c | None => false end.

Definition in_range (lo hi c : Z) : bool := (lo <=? c) && (c <=? hi).
Definition is_letter (c : Z) : bool := in_range 97 122 c || in_range 65 90 c.
Definition is_digit (c : Z) : bool := in_range 48 57 c.
Definition is_word (c : Z) : bool := is_letter c || is_digit c || (c =? 95).
Definition is_hex (c : Z) : bool := is_digit c || in_range 65 70 c || in_range 97 102 c.
Definition is_bin (c : Z) : bool := (c =? 48) || (c =? 49).
Definition is_i (c : Z) : bool := (c =? 105) || (c =? 106).

(** 214-219 the identifier loop *)
Fixpoint word_loop (fuel : nat) (buffer : list Z) (s : scanner) : list Z * scanner :=
  match fuel, peek s with
  | S n, Some c => if is_word c then word_loop n (buffer ++ [c]) (skip s) else (buffer, s)
  | _, _ => (buffer, s)
  end.
(** 228-237, 244-253, 276-285 the digit loops; [extra_len] counts the underscores *)
Fixpoint digit_loop (digit : Z -> bool) (fuel : nat) (buffer : list Z) (extra_len : Z) (s : scanner) : list Z * Z * scanner :=
  match fuel, peek s with
  | S n, Some c =>
      if digit c then digit_loop digit n (buffer ++ [c]) extra_len (skip s)
      else if c =? 95 then digit_loop digit n buffer (extra_len + 1) (skip s)
      else (buffer, extra_len, s)
  | _, _ => (buffer, extra_len, s)
  end.

(** i64::from_str_radix on a buffer of digits of that radix *)
Definition digit_value (c : Z) : Z := if is_digit c then c - 48 else if in_range 97 102 c then c - 87 else c - 55.
Fixpoint parse_digits (radix : Z) (buffer : list Z) (acc : Z) : option Z :=
  match buffer with
  | [] => Some acc
  | c :: r => let v := acc * radix + digit_value c in if v <=? 2 ^ 63 - 1 then parse_digits radix r v else None
  end.
(** 512-530 screen_int *)
Definition screen_int (buffer : list Z) (radix extra_len : Z) (s : scanner) : scanner :=
  let is_complex := match peek s with Some c => is_i c | None => false end in
  let s := if is_complex then skip s else s in
  let len := Z.of_nat (length buffer) + extra_len + (if is_complex then 1 else 0) + (if radix =? 10 then 0 else 2) in
  match buffer with
  | [] => push_err 0 len (InvalidNumericValue true) s
  | _ => match parse_digits radix buffer 0 with
         | Some v => push len (if is_complex then ComplexLiteral v else IntLiteral v) s
         | None => push_err 0 len (InvalidNumericValue false) s
         end
  end.

(** 477-510 screen_identifier *)
Definition keywords : list (list Z * token) :=
  [(text "let", KeywordLet); (text "fn", KeywordFn); (text "return", KeywordReturn); (text "if", KeywordIf); (text "elif", KeywordElif);
   (text "else", KeywordElse); (text "then", KeywordThen); (text "loop", KeywordLoop); (text "while", KeywordWhile); (text "for", KeywordFor);
   (text "in", KeywordIn); (text "is", KeywordIs); (text "not", KeywordNot); (text "break", KeywordBreak); (text "continue", KeywordContinue);
   (text "do", KeywordDo); (text "true", KeywordTrue); (text "false", KeywordFalse); (text "nil", KeywordNil); (text "struct", KeywordStruct);
   (text "exit", KeywordExit); (text "assert", KeywordAssert); (text "module", KeywordModule); (text "self", KeywordSelf); (text "native", KeywordNative);
   (text "and", LogicalAnd); (text "or", LogicalOr)].
Fixpoint text_eqb (a b : list Z) : bool :=
  match a, b with [], [] => true | x :: a, y :: b => (x =? y) && text_eqb a b | _, _ => false end.
Fixpoint find_keyword (k : list (list Z * token)) (buffer : list Z) : token :=
  match k with
  | [] => Identifier buffer
  | (w, t) :: r => if text_eqb w buffer then t else find_keyword r buffer
  end.
Definition screen_identifier (buffer : list Z) (s : scanner) : scanner :=
  push (Z.of_nat (length buffer)) (find_keyword keywords buffer) s.

(** 293-342 the string loop: (buffer, scanner) *)
Fixpoint string_loop (fuel : nat) (open_ start : Z) (escaped : bool) (buffer : list Z) (s : scanner) : list Z * scanner :=
  match fuel with
  | O => (buffer, s)
  | S n =>
      match advance s with
      | (None, s) => (buffer, push_err_at start 1 UnterminatedStringLiteral s)
      | (Some c, s) =>
          if (c =? 39) || (c =? 34) then
            if escaped then string_loop n open_ start false (buffer ++ [c]) s
            else if negb (open_ =? c) then string_loop n open_ start escaped (buffer ++ [c]) s
            else (buffer, s)
          else if c =? 92 then
            if escaped then string_loop n open_ start false (buffer ++ [92]) s else string_loop n open_ start true buffer s
          else if c =? 13 then string_loop n open_ start escaped buffer s
          else if (c =? 110) && escaped then string_loop n open_ start false (buffer ++ [10]) s
          else if (c =? 114) && escaped then string_loop n open_ start false (buffer ++ [13]) s
          else if (c =? 116) && escaped then string_loop n open_ start false (buffer ++ [9]) s
          else string_loop n open_ start false ((if escaped then buffer ++ [92] else buffer) ++ [c]) s
      end
  end.
(** 390-399 a line comment *)
Fixpoint line_comment (fuel : nat) (s : scanner) : scanner :=
  match fuel with
  | O => s
  | S n => match advance s with
           | (Some c, s) => if c =? 10 then s else line_comment n s
           | (None, s) => s
           end
  end.
(** 400-420 a block comment; the `*` that opens it has not been consumed yet *)
Fixpoint block_comment (fuel : nat) (start : Z) (s : scanner) : scanner :=
  match fuel with
  | O => s
  | S n => match advance s with
           | (Some c, s) =>
               if c =? 42 then
                 match advance s with
                 | (Some d, s) => if d =? 47 then s else block_comment n start s
                 | (None, s) => push_err_at start 2 UnterminatedBlockComment s
                 end
               else block_comment n start s
           | (None, s) => push_err_at start 2 UnterminatedBlockComment s
           end
  end.

(** `match self.peek() { Some('=') => push_skip(2, a), _ => push(1, b) }` *)
Definition or_equals (a b : token) (s : scanner) : scanner := if peek_is 61 s then push_skip 2 a s else push 1 b s.

(** after `advance_peek` (574-577): `Some('=') => push_skip(3, a), _ => push(2, b)` *)
Definition then_equals (a b : token) (s : scanner) : scanner := if peek_is 61 s then push_skip 3 a s else push 2 b s.
(** 446-449 `self.cursor -= 1; ...; self.cursor += 1` *)
Definition move (d : Z) (s : scanner) : scanner := Scanner (chars s) (cursor s + d) (tokens s) (errors s).

(** 208-470 one iteration of the loop, after `advance` returned [c] *)
Definition scan_char (c : Z) (s : scanner) : scanner :=
  let fuel := S (length (chars s)) in
  if (c =? 32) || (c =? 9) || (c =? 13) || (c =? 10) then s
  else if is_letter c then let '(buffer, s) := word_loop fuel [c] s in screen_identifier buffer s
  else if c =? 48 then
    match peek s with
    | Some d =>
        if d =? 120 then let '(buffer, extra_len, s) := digit_loop is_hex fuel [] 0 (skip s) in screen_int buffer 16 extra_len s
        else if d =? 98 then let '(buffer, extra_len, s) := digit_loop is_bin fuel [] 0 (skip s) in screen_int buffer 2 extra_len s
        else if is_i d then push 2 (IntLiteral 0) (skip s)
        else if is_word d then push_err 1 2 (InvalidNumericPrefix d) s
        else push 1 (IntLiteral 0) s
    | None => push 1 (IntLiteral 0) (skip s)
    end
  else if in_range 49 57 c then let '(buffer, extra_len, s) := digit_loop is_digit fuel [c] 0 s in screen_int buffer 10 extra_len s
  else if (c =? 39) || (c =? 34) then
    let start := cursor s in
    let '(buffer, s) := string_loop fuel c start false [] s in
    push (cursor s - start + 1) (StringLiteral buffer) s
  else if c =? ch "!" then or_equals NotEquals TNot s
  else if c =? ch "=" then or_equals DoubleEquals TEquals s
  else if c =? ch ">" then
    if peek_is 62 s then then_equals RightShiftEquals RightShift (skip s) else or_equals GreaterThanEquals GreaterThan s
  else if c =? ch "<" then
    if peek_is 60 s then then_equals LeftShiftEquals LeftShift (skip s) else or_equals LessThanEquals LessThan s
  else if c =? ch "+" then or_equals PlusEquals Plus s
  else if c =? ch "-" then
    if peek_is 61 s then push_skip 2 MinusEquals s else if peek_is 62 s then push_skip 2 Arrow s else push 1 Minus s
  else if c =? ch "*" then
    if peek_is 61 s then push_skip 2 MulEquals s else if peek_is 42 s then then_equals PowEquals Pow (skip s) else push 1 Mul s
  else if c =? ch "/" then
    if peek_is 47 s then line_comment fuel s
    else if peek_is 42 s then block_comment fuel (cursor s) s
    else or_equals DivEquals Div s
  else if c =? ch "|" then or_equals OrEquals BitwiseOr s
  else if c =? ch "&" then or_equals AndEquals BitwiseAnd s
  else if c =? ch "^" then or_equals XorEquals BitwiseXor s
  else if c =? ch "%" then or_equals ModEquals Mod s
  else if c =? ch "." then
    if peek_is 61 s then push_skip 2 DotEquals s
    else if peek_is 46 s then
      let s := skip s in
      if peek_is 46 s then push_skip 3 Ellipsis s
      else let s := push 1 Dot (move (-1) s) in push 1 Dot (move 1 s)
    else push 1 Dot s
  else if c =? ch "(" then push 1 OpenParen s
  else if c =? ch ")" then push 1 CloseParen s
  else if c =? ch "[" then push 1 OpenSquareBracket s
  else if c =? ch "]" then push 1 CloseSquareBracket s
  else if c =? ch "{" then push 1 OpenBrace s
  else if c =? ch "}" then push 1 CloseBrace s
  else if c =? ch "," then push 1 Comma s
  else if c =? ch ":" then push 1 Colon s
  else if c =? ch "_" then push 1 Underscore s
  else if c =? ch ";" then push 1 Semicolon s
  else if c =? ch "@" then push 1 At s
  else if c =? ch "?" then push 1 QuestionMark s
  else push_err 0 1 (InvalidCharacter c) s.

(** 204-474 the loop *)
Fixpoint scan_loop (fuel : nat) (s : scanner) : option scanner :=
  match fuel with
  | O => None
  | S n => match advance s with
           | (None, s) => Some s
           | (Some c, s) => scan_loop n (scan_char c s)
           end
  end.
(** 14-28 scan *)
Definition scan (t : list Z) : option scanner := scan_loop (S (length t)) (Scanner t 0 [] []).
