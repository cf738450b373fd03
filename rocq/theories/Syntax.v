(** Syntax highlighting: cordy-sys/src/syntax.rs 17-130 and the formatter of
    cordy/src/main.rs 246-296.  A formatter is modelled by the list of the calls it gets. *)
From Verif Require Import Base Native Scan.
From Coq Require Import String List.
Local Open Scope Z_scope.

(** compiler/scanner.rs 67-77 ScanTokenType *)
Inductive ttype := TKeyword | TConstant | TNative | TType | TNumber | TString | TSyntax | TBlank | TComment.

(** compiler/scanner.rs 174-190 ty; [find] is NativeFunction::find (core/mod.rs 179-183), the
    table of names is not modelled *)
Definition is_type (n : native) : bool :=
  match n with
  | NF_Int | NF_Str | NF_Function | NF_List | NF_Heap | NF_Dict | NF_Set | NF_Vector | NF_Any | NF_Bool | NF_Iterable | NF_Complex | NF_Rational => true
  | _ => false
  end.
Definition ty (find : list Z -> option native) (t : token) : ttype :=
  match t with
  | StringLiteral _ => TString
  | IntLiteral _ | ComplexLiteral _ => TNumber
  | KeywordTrue | KeywordFalse | KeywordNil | LogicalAnd | LogicalOr | KeywordNot | KeywordIs | KeywordIn | KeywordSelf => TConstant
  | KeywordLet | KeywordFn | KeywordReturn | KeywordIf | KeywordElif | KeywordElse | KeywordThen | KeywordLoop | KeywordWhile | KeywordFor
  | KeywordBreak | KeywordContinue | KeywordDo | KeywordStruct | KeywordExit | KeywordAssert | KeywordModule | KeywordNative => TKeyword
  | Identifier it => match find it with Some n => if is_type n then TType else TNative | None => TSyntax end
  | NewLine => TBlank
  | _ => TSyntax
  end.

(** syntax.rs 17-21 the calls of a Formatter *)
Inductive event := Begin (t : ttype) | End (t : ttype) | Push (c : Z).

(** 84 the white space *)
Definition is_space (c : Z) : bool := (c =? 32) || (c =? 9) || (c =? 13) || (c =? 10).
Fixpoint spaces (cs : list Z) : list Z * list Z :=
  match cs with
  | c :: r => if is_space c then let '(sp, q) := spaces r in (c :: sp, q) else ([], cs)
  | [] => ([], [])
  end.
(** 61-64, 91-94 [n] times push(chars.next().unwrap()); None is the panic of unwrap.
    The loops count [index] up to a bound, so they run (bound - index) times. *)
Fixpoint take (n : nat) (cs : list Z) : option (list Z * list Z) :=
  match n, cs with
  | O, _ => Some ([], cs)
  | S n, c :: r => match take n r with Some (a, q) => Some (c :: a, q) | None => None end
  | S _, [] => None
  end.
(** 89-96 a comment section, if the loop runs at all *)
Definition commented (c : list Z) : list event :=
  match c with [] => [] | _ => Begin TComment :: List.map Push c ++ [End TComment] end.

(** 46-74 the loop over the tokens, and then the rest of the text *)
Fixpoint tokens_loop (find : list Z -> option native) (toks : list (location * token)) (cs : list Z) (index : Z) : option (list event) :=
  match toks with
  | [] => let '(sp, c) := spaces cs in Some (List.map Push sp ++ commented c)
  | ((start, width), t) :: r =>
      if start + width - 1 <? index then tokens_loop find r cs index
      else match ty find t with
      | TBlank => tokens_loop find r cs index
      | y =>
          let '(sp, cs) := spaces cs in
          let index := index + Z.of_nat (length sp) in
          match take (Z.to_nat (start - index)) cs with
          | None => None
          | Some (c, cs) =>
              let index := index + Z.of_nat (length c) in
              match take (Z.to_nat (start + width - index)) cs with
              | None => None
              | Some (w, cs) =>
                  match tokens_loop find r cs (index + Z.of_nat (length w)) with
                  | None => None
                  | Some es => Some (List.map Push sp ++ commented c ++ Begin y :: List.map Push w ++ End y :: es)
                  end
              end
          end
      end
  end.
(** 44 String::len: the number of bytes in UTF-8 *)
Definition byte_len (s : list Z) : Z := fold_right (fun c n => n + (if c <? 128 then 1 else if c <? 2048 then 2 else if c <? 65536 then 3 else 4)) 0 s.
(** 36-75 scan; compiler/mod.rs 17-22 the tokens are used even if there are errors *)
Definition highlight (find : list Z -> option native) (input prefix : list Z) : option (list event) :=
  match scan (prefix ++ input) with
  | None => None
  | Some s => tokens_loop find (tokens s) input (byte_len prefix)
  end.

(** 101-133 BlockingFormatter: the calls that it makes of the formatter inside *)
Definition opt_event (f : ttype -> event) (t : option ttype) : list event := match t with Some y => [f y] | None => [] end.
Fixpoint block (cur : option ttype) (es : list event) : list event :=
  match es with
  | [] => []
  | Begin t :: r => Begin t :: block (Some t) r
  | End _ :: r => opt_event End cur ++ block None r
  | Push c :: r =>
      if c =? 10 then opt_event End cur ++ Push 10 :: opt_event Begin cur ++ block cur r
      else Push c :: block cur r
  end.

(** cordy/src/main.rs 246-296 RenderedFormatter; [skip] is the set of --format-no *)
Definition class_name (t : ttype) : string :=
  match t with
  | TKeyword => "keyword" | TConstant => "constant" | TNative => "native" | TType => "type" | TNumber => "number" | TString => "string"
  | TSyntax => "syntax" | TBlank => "" | TComment => "comment"
  end.
Definition html_char (c : Z) : list Z :=
  if c =? 13 then [] else if c =? 9 then [32; 32; 32; 32]
  else if c =? 60 then text "&lt;" else if c =? 62 then text "&gt;" else if c =? 34 then text "&quot;"
  else if c =? 39 then text "&#39;" else if c =? 38 then text "&amp;" else [c].
Definition is_blank (t : ttype) : bool := match t with TBlank => true | _ => false end.
Definition html_event (skip : ttype -> bool) (e : event) : list Z :=
  match e with
  | Begin t => if negb (is_blank t) && negb (skip t) then text "<span class=""cordy-" ++ text (class_name t) ++ text """>" else []
  | End t => if negb (skip t) then text "</span>" else []
  | Push c => html_char c
  end.
Definition html (skip : ttype -> bool) (es : list event) : list Z := flat_map (html_event skip) es.
(** cordy/src/main.rs 155-166 what is inside the pre tag *)
Definition format_file (find : list Z -> option native) (skip : ttype -> bool) (t : list Z) : option (list Z) :=
  match highlight find t [] with None => None | Some es => Some (html skip (block None es)) end.

(** cordy-web/src/lib.rs 92-122 TerminalFormatter *)
Definition web_event (e : event) : list Z :=
  match e with
  | Begin t => match t with
    | TKeyword => text "[[b;#b5f;]" | TConstant => text "[[b;#27f;]" | TNative => text "[[;#b80;]" | TType => text "[[;#2aa;]" | TNumber => text "[[;#385;]"
    | TString => text "[[;#b10;]" | TComment => text "[[;#aaa;]" | _ => [] end
  | End t => match t with TSyntax | TBlank => [] | _ => text "]" end
  | Push c => if c =? 91 then text "&#91;" else if c =? 92 then text "&#92;" else if c =? 93 then text "&#93;" else [c]
  end.
(** cordy-web/src/lib.rs 45-51 scan *)
Definition web_scan (find : list Z -> option native) (input prefix : list Z) : option (list Z) :=
  match highlight find input prefix with None => None | Some es => Some (flat_map web_event (block None es)) end.
