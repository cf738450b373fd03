(** Values as text: `repr` and `str` (vm/value/mod.rs:174-289, number.rs:36-49, 106-108, range.rs:100-105, 156-158, slice.rs:48-62,
    func.rs:104-111, 147-153, 299-305, core/mod.rs:192); and reading a text as an expression: the scanner (Scan.v) followed by the
    parser (Parse.v), as `eval` does (compiler/mod.rs:86-198, parser/mod.rs:224-268).

    Values are finite trees here, so the recursion guard never finds a value inside of itself.
    [printable] stands for the tables of the Rust library: is a non-ASCII character shown as it is by `{:?}`. *)
From Coq Require Import String Ascii.
From Verif Require Import Base Native Value Err Iter Ops Str Coll.
From Verif Require Scan Parse.
Local Open Scope Z_scope.

(** Names in messages: name of a struct type, its fields, how the type is shown (mod.rs:783-788), name of a function,
    how it is shown (func.rs:109-111), and the same for builtins (core/mod.rs:60-192). *)
Record names := Names { struct_name : Z -> list Z; struct_fields : Z -> list (list Z); struct_show : Z -> list Z;
  fn_name : Z -> list Z; fn_show : Z -> list Z; native_name : native -> list Z; native_show : native -> list Z; printable : Z -> bool }.

(** std `Debug for str`: char::escape_debug, single quotes are left alone *)
Definition hex_digits (n : Z) : list Z := Str.digits 16 n.
Definition escape_char (N : names) (c : Z) : list Z :=
  if c =? 0 then [92; 48]
  else if c =? 9 then [92; 116]
  else if c =? 13 then [92; 114]
  else if c =? 10 then [92; 110]
  else if c =? 34 then [92; 34]
  else if c =? 92 then [92; 92]
  else if (if c <? 128 then (32 <=? c) && (c <? 127) else printable N c) then [c]
  else Scan.text "\u{" ++ hex_digits c ++ Scan.text "}".
(** mod.rs:233-236 *)
Definition repr_str (N : names) (s : list Z) : list Z := 39 :: flat_map (escape_char N) s ++ [39].

(** number.rs:36-49; `{:+}` shows a sign always *)
Definition repr_complex (re im : Z) : list Z :=
  if re =? 0 then show_dec im ++ Scan.text "i"
  else show_dec re ++ Scan.text " " ++ (if im <? 0 then Scan.text "- " else Scan.text "+ ") ++ Str.digits 10 (Z.abs im) ++ Scan.text "i".

(** `join` *)
Fixpoint joined (sep : list Z) (l : list (list Z)) : list Z :=
  match l with
  | [] => []
  | [x] => x
  | x :: r => x ++ sep ++ joined sep r
  end.
(** mod.rs:204-221 map_join, without the case of an empty collection, which gives the two brackets as well *)
Definition map_join (prefix suffix : Z) (l : list (list Z)) : list Z := prefix :: joined (Scan.text ", ") l ++ [suffix].
Definition slice_part (v : value) : list Z := match v with VInt n => show_dec n | _ => [] end.

(** mod.rs:195-289 *)
Fixpoint repr (N : names) (v : value) : list Z :=
  match v with
  | VNil => Scan.text "nil"
  | VBool b => if b then Scan.text "true" else Scan.text "false"
  | VInt n => show_dec n
  | VComplex re im => repr_complex re im
  | VRational n d => show_dec n ++ Scan.text " / " ++ show_dec (Zpos d)
  | VStr s => repr_str N s
  | VList l | VHeap l => map_join 91 93 (map (repr N) l)
  | VVector l => map_join 40 41 (map (repr N) l)
  | VSet l => map_join 123 125 (map (repr N) l)
  | VDict l => map_join 123 125 (map (fun p => repr N (fst p) ++ Scan.text ": " ++ repr N (snd p)) l)
  | VStruct t l => struct_name N t ++ map_join 40 41 ((fix go (l : list value) (fs : list (list Z)) : list (list Z) :=
      match l, fs with x :: l, f :: fs => (f ++ Scan.text "=" ++ repr N x) :: go l fs | _, _ => [] end) l (struct_fields N t))
  | VStructType t => struct_show N t
  | VRange a b s => if s =? 0 then Scan.text "range(empty)"
      else Scan.text "range(" ++ show_dec a ++ Scan.text ", " ++ show_dec b ++ Scan.text ", " ++ show_dec s ++ Scan.text ")"
  | VEnumerate x => Scan.text "enumerate(" ++ repr N x ++ Scan.text ")"
  | VSlice lo hi VNil => Scan.text "[" ++ slice_part lo ++ Scan.text ":" ++ slice_part hi ++ Scan.text "]"
  | VSlice lo hi step => Scan.text "[" ++ slice_part lo ++ Scan.text ":" ++ slice_part hi ++ Scan.text ":" ++ slice_part step ++ Scan.text "]"
  | VNative f | VPartialNative f _ => native_show N f
  | VField _ => Scan.text "(->)"
  | VFunction f | VClosure f _ => fn_show N f
  | VPartial f _ => repr N f
  end.
(** mod.rs:178-188 *)
Fixpoint str (N : names) (v : value) : list Z :=
  match v with
  | VStr s => s
  | VFunction f | VClosure f _ => fn_name N f
  | VPartial f _ => str N f
  | VNative f | VPartialNative f _ => native_name N f
  | _ => repr N v
  end.

(** ** Reading *)
(** the name that is written with these (ASCII) characters *)
Definition name_of (w : list Z) : string := fold_right (fun c s => String (ascii_of_nat (Z.to_nat c)) s) EmptyString w.
(** The tokens of the scanner as the parser takes them.  `fn` is [TOther]: function literals are not read here. *)
Definition token_of (t : Scan.token) : Parse.token :=
  match t with
  | Scan.NewLine => Parse.TNewLine
  | Scan.Identifier w => Parse.TId (name_of w)
  | Scan.StringLiteral s => Parse.TStr s
  | Scan.IntLiteral z => Parse.TInt z
  | Scan.ComplexLiteral z => Parse.TComplex z
  | Scan.KeywordNil => Parse.TNil | Scan.KeywordTrue => Parse.TTrue | Scan.KeywordFalse => Parse.TFalse
  | Scan.KeywordExit => Parse.TExit | Scan.KeywordSelf => Parse.TSelf | Scan.Underscore => Parse.TUnderscore
  | Scan.Mul => Parse.TSym Parse.SMul | Scan.Div => Parse.TSym Parse.SDiv | Scan.Mod => Parse.TSym Parse.SMod | Scan.Pow => Parse.TSym Parse.SPow
  | Scan.Plus => Parse.TSym Parse.SAdd | Scan.Minus => Parse.TSym Parse.SSub | Scan.LeftShift => Parse.TSym Parse.SShl | Scan.RightShift => Parse.TSym Parse.SShr
  | Scan.BitwiseAnd => Parse.TSym Parse.SAnd | Scan.BitwiseOr => Parse.TSym Parse.SOr | Scan.BitwiseXor => Parse.TSym Parse.SXor
  | Scan.LessThan => Parse.TSym Parse.SLt | Scan.LessThanEquals => Parse.TSym Parse.SLe | Scan.GreaterThan => Parse.TSym Parse.SGt
  | Scan.GreaterThanEquals => Parse.TSym Parse.SGe | Scan.DoubleEquals => Parse.TSym Parse.SEq | Scan.NotEquals => Parse.TSym Parse.SNe
  | Scan.KeywordIs => Parse.TIs | Scan.KeywordIn => Parse.TIn | Scan.KeywordNot => Parse.TKNot | Scan.TNot => Parse.TBang
  | Scan.LogicalAnd => Parse.TAnd | Scan.LogicalOr => Parse.TOr | Scan.Dot => Parse.TDot | Scan.TEquals => Parse.TEquals
  | Scan.PlusEquals => Parse.TOpEquals Parse.QAdd | Scan.MinusEquals => Parse.TOpEquals Parse.QSub | Scan.MulEquals => Parse.TOpEquals Parse.QMul
  | Scan.DivEquals => Parse.TOpEquals Parse.QDiv | Scan.AndEquals => Parse.TOpEquals Parse.QAnd | Scan.OrEquals => Parse.TOpEquals Parse.QOr
  | Scan.XorEquals => Parse.TOpEquals Parse.QXor | Scan.LeftShiftEquals => Parse.TOpEquals Parse.QShl | Scan.RightShiftEquals => Parse.TOpEquals Parse.QShr
  | Scan.ModEquals => Parse.TOpEquals Parse.QMod | Scan.PowEquals => Parse.TOpEquals Parse.QPow | Scan.DotEquals => Parse.TOpEquals Parse.QDot
  | Scan.OpenParen => Parse.TOpenP | Scan.CloseParen => Parse.TCloseP | Scan.OpenSquareBracket => Parse.TOpenS | Scan.CloseSquareBracket => Parse.TCloseS
  | Scan.OpenBrace => Parse.TOpenB | Scan.CloseBrace => Parse.TCloseB | Scan.Comma => Parse.TComma | Scan.Colon => Parse.TColon
  | Scan.Arrow => Parse.TArrow | Scan.Ellipsis => Parse.TEllipsis | Scan.KeywordIf => Parse.TIf | Scan.KeywordThen => Parse.TThen
  | Scan.KeywordElif => Parse.TElif | Scan.KeywordElse => Parse.TElse | Scan.At => Parse.TAt
  | Scan.KeywordFn => Parse.TOther 0 | Scan.KeywordLet => Parse.TOther 1 | Scan.KeywordReturn => Parse.TOther 2 | Scan.KeywordLoop => Parse.TOther 3
  | Scan.KeywordWhile => Parse.TOther 4 | Scan.KeywordFor => Parse.TOther 5 | Scan.KeywordBreak => Parse.TOther 6 | Scan.KeywordContinue => Parse.TOther 7
  | Scan.KeywordDo => Parse.TOther 8 | Scan.KeywordStruct => Parse.TOther 9 | Scan.KeywordAssert => Parse.TOther 10 | Scan.KeywordModule => Parse.TOther 11
  | Scan.KeywordNative => Parse.TOther 12 | Scan.Semicolon => Parse.TOther 13 | Scan.QuestionMark => Parse.TOther 14
  end.
(** compiler/mod.rs:125-150: an error of the scanner ends the compilation; parser/mod.rs:224-227, 264-267: one expression, and nothing after it *)
Definition read (fuel : nat) (t : list Z) : Parse.res Parse.expr :=
  match Scan.scan t with
  | None => Parse.Out
  | Some s =>
      match Scan.errors s with
      | [] => Parse.bind (Parse.parse fuel false (map token_of (map snd (Scan.tokens s))))
                (fun e rest => match Parse.peek rest with None => Parse.Got e [] | Some _ => Parse.Bad end)
      | _ => Parse.Bad
      end
  end.

(** ** What an expression made of literals evaluates to (codegen.rs:60-215, vm/mod.rs:478-493, 520-540, 602-612,
    vm/value/mod.rs:1050-1108); [None]: an error, or an expression of another kind.  `range` and `enumerate` are the builtins (core/mod.rs:896, 1024),
    that is, they have not been redefined. *)
Definition binop_of (o : Parse.binop) : binop :=
  match o with
  | Parse.BSym s => match s with
      | Parse.SMul => BMul | Parse.SDiv => BDiv | Parse.SMod => BMod | Parse.SPow => BPow | Parse.SAdd => BAdd | Parse.SSub => BSub
      | Parse.SShl => BLeftShift | Parse.SShr => BRightShift | Parse.SAnd => BAnd | Parse.SOr => BOr | Parse.SXor => BXor
      | Parse.SLt => BLessThan | Parse.SLe => BLessThanEqual | Parse.SGt => BGreaterThan | Parse.SGe => BGreaterThanEqual
      | Parse.SEq => BEqual | Parse.SNe => BNotEqual end
  | Parse.BIs => BIs | Parse.BIsNot => BIsNot | Parse.BIn => BIn | Parse.BNotIn => BNotIn
  end.
Definition unop_of (o : Parse.unop) : unop := match o with Parse.UNeg => UNeg | Parse.UBang => UNot | Parse.UNot => ULogicalNot end.
Definition okay (r : result value) : option value := match r with Ok v => Some v | _ => None end.
Fixpoint all_some {A} (l : list (option A)) : option (list A) :=
  match l with
  | [] => Some []
  | Some x :: r => match all_some r with Some r => Some (x :: r) | None => None end
  | None :: _ => None
  end.
Fixpoint pairs (l : list value) : option (list (value * value)) :=
  match l with
  | [] => Some []
  | k :: x :: r => match pairs r with Some r => Some ((k, x) :: r) | None => None end
  | [_] => None
  end.
(** vm/value/mod.rs:1073-1083 *)
Definition literal (k : Parse.litkind) (l : list value) : option value :=
  match k with
  | Parse.LList => Some (VList l)
  | Parse.LSet => Some (VSet (to_set l))
  | Parse.LDict => match pairs l with Some ps => Some (VDict (fold_left (fun m p => map_insert (fst p) (snd p) m) ps [])) | None => None end
  end.
(** slice.rs:24-36 *)
Definition is_bound (v : value) : bool := match v with VInt _ | VNil => true | _ => false end.
Definition new_slice (a b c : value) : option value := if is_bound a && is_bound b && is_bound c then Some (VSlice a b c) else None.
Definition call_builtin (f : string) (l : list value) : option value :=
  match l with
  | [x] => if String.eqb f "enumerate" then Some (VEnumerate x) else None
  | [a; b; c] =>
      if String.eqb f "range" then
        match as_int_opt a, as_int_opt b, as_int_opt c with
        | Some a, Some b, Some c => match range_from a b c with Some r => Some (VRange (r_start r) (r_stop r) (r_step r)) | None => None end
        | _, _, _ => None
        end
      else None
  | _ => None
  end.
Definition bind1 {A B} (o : option A) (f : A -> option B) : option B := match o with Some a => f a | None => None end.
Section Denote.
  Context (N : names) (fmt : list Z -> value -> result value).
  Fixpoint denote (e : Parse.expr) : option value :=
    match e with
    | Parse.ENil => Some VNil
    | Parse.EBool b => Some (VBool b)
    | Parse.EInt z => Some (of_int z)
    | Parse.EComplex z => Some (of_complex (0, z))
    | Parse.EStr s => Some (VStr s)
    | Parse.EUnary o a => bind1 (denote a) (fun a => okay (unary_op (unop_of o) a))
    | Parse.EBinary o a b => bind1 (denote a) (fun a => bind1 (denote b) (fun b => okay (binary_op (str N) fmt (binop_of o) a b)))
    | Parse.EComma [a] false _ => if Parse.is_unroll a then None else denote a                                  (* codegen.rs:36-38 *)
    | Parse.EComma l _ _ => bind1 (all_some (map denote l)) (fun l => Some (VVector l))     (* codegen.rs:39 *)
    | Parse.ELiteral k l => bind1 (all_some (map denote l)) (literal k)
    | Parse.ESliceLit a b c =>
        bind1 (denote a) (fun a => bind1 (denote b) (fun b =>
          match c with None => new_slice a b VNil | Some c => bind1 (denote c) (fun c => new_slice a b c) end))
    | Parse.ECall (Parse.EVar f) l => bind1 (all_some (map denote l)) (call_builtin f)
    | _ => None
    end.
End Denote.
