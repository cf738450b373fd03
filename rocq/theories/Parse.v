(** The expression parser: compiler/parser/mod.rs:1087-1090, 1196-2090, with peek and advance of compiler/parser/core/mod.rs:43-192
    and the constructors of compiler/parser/expr/mod.rs:240-396.

    Names are not resolved here (see Resolve.v), targets of assignments are not checked, and locations are left out.
    A syntax error is [Bad]: what the parser does after the first error is not modelled (there is no program then).
    A function literal, with a body in braces, is one token [TFun].  Fuel stands for the stack. *)
From Coq Require Import String.
From Verif Require Import Base.
Local Open Scope nat_scope.

(** compiler/scanner.rs:81-172 *)
Inductive sym := SMul | SDiv | SMod | SPow | SAdd | SSub | SShl | SShr | SAnd | SOr | SXor | SLt | SLe | SGt | SGe | SEq | SNe.
Inductive eqsym := QAdd | QSub | QMul | QDiv | QAnd | QOr | QXor | QShl | QShr | QMod | QPow | QDot.
Inductive token :=
| TNewLine | TId (x : string) | TInt (z : Z) | TComplex (z : Z) | TStr (s : list Z) | TNil | TTrue | TFalse | TExit | TSelf | TUnderscore
| TFun (id : nat) | TSym (s : sym) | TIs | TIn | TKNot | TBang | TAnd | TOr | TDot | TEquals | TOpEquals (q : eqsym)
| TOpenP | TCloseP | TOpenS | TCloseS | TOpenB | TCloseB | TComma | TColon | TArrow | TEllipsis | TIf | TThen | TElif | TElse | TAt
| TOther (n : nat).

(** vm/operator.rs: BinaryOp, UnaryOp *)
Inductive binop := BSym (s : sym) | BIs | BIsNot | BIn | BNotIn.
Inductive unop := UNeg | UBang | UNot.
(** the operators as functions, core/mod.rs: NativeFunction::Operator* *)
Inductive opfun := FBin (o : binop) | FBang | FNot.
(** 2028-2060 *)
Inductive assign_op := AOp (q : eqsym) | AMax | AMin.
Inductive litkind := LList | LSet | LDict.
(** expr/mod.rs:19-127 *)
Inductive expr :=
| ENil | EExit | EBool (b : bool) | EInt (z : Z) | EComplex (z : Z) | EStr (s : list Z)
| EOp (f : opfun) | EOpSwap (f : opfun)                                  (* NativeFunction(f), NativeFunction(f.swap()) *)
| EField (x : string) | EEmpty | EVarEmpty | EVar (x : string) | EVarArg (x : string) | ESelf | EFun (id : nat)
| EComma (l : list expr) (explicit bare : bool)
| ECall (f : expr) (l : list expr) | ECompose (a f : expr) | EUnroll (e : expr)
| EUnary (o : unop) (e : expr) | EBinary (o : binop) (a b : expr) | ECompare (a : expr) (l : list (sym * expr))
| EAnd (a b : expr) | EOr (a b : expr)
| EIndex (a i : expr) | ESlice (a x y : expr) | ESliceStep (a x y z : expr) | EIf (c a b : expr)
| EGetField (e : expr) (x : string)
| ELiteral (k : litkind) (l : list expr) | ESliceLit (x y : expr) (z : option expr)
| EAssign (a b : expr) | EOpAssign (q : assign_op) (a b : expr).

Inductive res (A : Type) := Out | Bad | Got (a : A) (rest : list token).
Arguments Out {A}. Arguments Bad {A}. Arguments Got {A}.
Definition bind {A B} (r : res A) (f : A -> list token -> res B) : res B := match r with Out => Out | Bad => Bad | Got a t => f a t end.

(** core/mod.rs:150-192: newlines are skipped; [hd_error] is peek_no_newline *)
Fixpoint skip (t : list token) : list token := match t with TNewLine :: t => skip t | _ => t end.
Definition peek (t : list token) : option token := hd_error (skip t).
Definition advance (t : list token) : list token := tl (skip t).
Definition peek2 (t : list token) : option token := peek (advance t).
Definition is_close_paren (t : option token) : bool := match t with Some TCloseP => true | _ => false end.
Definition is_colon (t : option token) : bool := match t with Some TColon => true | _ => false end.
Definition is_not (t : option token) : bool := match t with Some TKNot => true | _ => false end.
Definition is_in (t : option token) : bool := match t with Some TIn => true | _ => false end.
Definition is_equals (t : option token) : bool := match t with Some TEquals => true | _ => false end.
(** `Comma | CloseParen | CloseBrace | CloseSquareBracket` *)
Definition ends_arg (t : option token) : bool := match t with Some (TComma | TCloseP | TCloseB | TCloseS) => true | _ => false end.
(** core/mod.rs:64-72 *)
Inductive close := ClP | ClS | ClB.
Definition closes (c : close) (t : option token) : bool :=
  match c, t with ClP, Some TCloseP | ClS, Some TCloseS | ClB, Some TCloseB => true | _, _ => false end.
Definition expect (p : option token -> bool) (t : list token) : res unit := if p (peek t) then Got tt (advance t) else Bad.

(** 1412-1448, 1370-1410: operators in partial evaluation, with the rest of the input *)
Definition long_op (t : list token) : option (binop * list token) :=
  match peek t with
  | Some TIs => if is_not (peek2 t) then Some (BIsNot, advance (advance t)) else Some (BIs, advance t)
  | Some TIn => Some (BIn, advance t)
  | Some TKNot => if is_in (peek2 t) then Some (BNotIn, advance (advance t)) else None
  | _ => None
  end.
Definition partial_op (t : list token) : option (binop * list token) :=
  match peek t with
  | Some (TSym SSub) => None
  | Some (TSym s) => Some (BSym s, advance t)
  | _ => long_op t
  end.
(** 1356-1368 *)
Definition unary_fun (t : list token) : option opfun :=
  match peek t with
  | Some (TSym SSub) => Some (FBin (BSym SSub))
  | Some TBang => Some FBang
  | Some TKNot => if is_in (peek2 t) then None else Some FNot
  | _ => None
  end.

(** the operators of 1797-1960: those of one level, with the rest of the input *)
Inductive infix := IBin (o : binop) | IDot | IAnd | IOr.
Definition op_at (k : nat) (t : list token) : option (infix * list token) :=
  match k, peek t with
  | 3, Some (TSym ((SMul | SDiv | SMod | SPow) as s)) => Some (IBin (BSym s), advance t)
  | 3, _ => match long_op t with Some (o, r) => Some (IBin o, r) | None => None end
  | 4, Some (TSym ((SAdd | SSub) as s)) => Some (IBin (BSym s), advance t)
  | 5, Some (TSym ((SShl | SShr) as s)) => Some (IBin (BSym s), advance t)
  | 6, Some (TSym ((SAnd | SOr | SXor) as s)) => Some (IBin (BSym s), advance t)
  | 7, Some TDot => Some (IDot, advance t)
  | 8, Some (TSym ((SLt | SLe | SGt | SGe | SEq | SNe) as s)) => Some (IBin (BSym s), advance t)
  | 9, Some TAnd => Some (IAnd, advance t)
  | 9, Some TOr => Some (IOr, advance t)
  | _, _ => None
  end.
(** expr/mod.rs: binary, compose, logical *)
Definition apply (o : infix) (a b : expr) : expr :=
  match o with IBin o => EBinary o a b | IDot => ECompose a b | IAnd => EAnd a b | IOr => EOr a b end.
(** expr/mod.rs:353-363 *)
Definition compare (e : expr) (l : list (infix * expr)) : expr :=
  match l with
  | [] => e
  | [(o, b)] => apply o e b
  | _ => ECompare e (flat_map (fun p => match fst p with IBin (BSym s) => [(s, snd p)] | _ => [] end) l)
  end.
Definition combine (k : nat) (e : expr) (l : list (infix * expr)) : expr :=
  if k =? 8 then compare e l else fold_left (fun a p => apply (fst p) a (snd p)) l e.

(** 2024-2063: the assignment operators *)
Definition assign_at (t : list token) : option (option assign_op * list token) :=
  match peek t with
  | Some TEquals => Some (None, advance t)
  | Some (TOpEquals q) => Some (Some (AOp q), advance t)
  | Some (TId x) =>
      if String.eqb x "max" then if is_equals (peek2 t) then Some (Some AMax, advance (advance t)) else None
      else if String.eqb x "min" then if is_equals (peek2 t) then Some (Some AMin, advance (advance t)) else None
      else None
  | _ => None
  end.
Definition assign (q : option assign_op) (a b : expr) : expr := match q with None => EAssign a b | Some q => EOpAssign q a b end.
(** the tokens of 1769-1777 that start an argument without parentheses *)
Definition bare_start (t : list token) : bool :=
  match t with
  | TId _ :: r => negb (is_equals (peek r))
  | (TFun _ | TNil | TTrue | TFalse | TExit | TInt _ | TComplex _ | TStr _ | TAt | TIf) :: _ => true
  | _ => false
  end.
Definition is_unroll (e : expr) : bool := match e with EUnroll _ => true | _ => false end.
(** 1593-1619 *)
Fixpoint prefix (t : list token) : list unop * list token :=
  match t with
  | TNewLine :: r => match prefix r with ([], _) => ([], t) | p => p end
  | TSym SSub :: r => let '(l, r) := prefix r in (UNeg :: l, r)
  | TBang :: r => let '(l, r) := prefix r in (UBang :: l, r)
  | TKNot :: r => let '(l, r) := prefix r in (UNot :: l, r)
  | _ => ([], t)
  end.

(** The recursive functions of the parser *)
Record parsers := Parsers {
  p_expr : bool -> list token -> res expr;               (* parse_expr_11 *)
  p_bare : list token -> res (list expr);                (* the loop of parse_expr_10 *)
  p_level : nat -> list token -> res expr;               (* parse_expr_2_unary, parse_expr_3 to 9 *)
  p_loop : nat -> list token -> res (list (infix * expr)); (* their loops *)
  p_terminal : list token -> res expr;                   (* parse_expr_1_terminal *)
  p_suffix : expr -> list token -> res expr;             (* parse_expr_2_suffix_operators *)
  p_arg : list token -> res expr;                        (* parse_comma_expr_arg *)
  p_args : close -> list token -> res (list expr * bool); (* what follows an argument; with: is there a trailing comma *)
  p_items : option bool -> list token -> res (list expr * option bool);  (* the loop of a set or dict literal *)
  p_then : expr -> list token -> res expr                (* parse_inline_then_else *)
}.

(** 2012-2088 *)
Definition expr11 (P : parsers) (comma : bool) (t : list token) : res expr :=
  bind (if comma then p_level P 9 t else
          bind (p_level P 9 t) (fun e t => bind (p_bare P t) (fun l t => Got (match l with [] => e | _ => EComma (e :: l) true true end) t)))
    (fun e t =>
       match assign_at t with
       | Some (q, t) => bind (p_expr P comma t) (fun r t => Got (assign q e r) t)
       | None => Got e t
       end).
(** 1978-1998 *)
Definition bare10 (P : parsers) (t : list token) : res (list expr) :=
  match peek t with
  | Some TComma =>
      if is_close_paren (peek2 t) || is_equals (peek2 t) then Got [] t
      else bind (p_level P 7 (advance t)) (fun e t => bind (p_bare P t) (fun l t => Got (e :: l) t))
  | _ => Got [] t
  end.
(** 1575-1591 *)
Definition unary2 (P : parsers) (t : list token) : res expr :=
  let '(l, t) := prefix t in
  bind (p_terminal P t) (fun e t => bind (p_suffix P e t) (fun e t => Got (fold_right EUnary e l) t)).
(** 1797-1976 *)
Definition level (P : parsers) (k : nat) (t : list token) : res expr :=
  if k <=? 2 then unary2 P t else bind (p_level P (k - 1) t) (fun e t => bind (p_loop P k t) (fun l t => Got (combine k e l) t)).
Definition loop (P : parsers) (k : nat) (t : list token) : res (list (infix * expr)) :=
  match op_at k t with
  | Some (o, r) =>
      if negb (k =? 7) && is_close_paren (peek r) then Got [] t
      else bind (p_level P (k - 1) r) (fun e t => bind (p_loop P k t) (fun l t => Got ((o, e) :: l) t))
  | None => Got [] t
  end.
(** an expression, or nothing before one of the given tokens (1510-1535, 1641-1726) *)
Definition optional (p : list token -> res expr) (stop : option token -> bool) (t : list token) : res expr := if stop (peek t) then Got ENil t else p t.
Definition colon_or_close (t : option token) : bool := match t with Some (TColon | TCloseS) => true | _ => false end.
(** 1634-1729, after the bracket *)
Definition index_or_slice (P : parsers) (a : expr) (t : list token) : res expr :=
  bind (optional (p_expr P true) is_colon t) (fun x t =>
    match peek t with
    | Some TCloseS => Got (EIndex a x) (advance t)
    | Some TColon =>
        bind (optional (p_expr P true) colon_or_close (advance t)) (fun y t =>
          match peek t with
          | Some TCloseS => Got (ESlice a x y) (advance t)
          | Some TColon => bind (optional (p_expr P true) (closes ClS) (advance t)) (fun z t => bind (expect (closes ClS) t) (fun _ t => Got (ESliceStep a x y z) t))
          | _ => Bad
          end)
    | _ => Bad
    end).
(** 1286-1305 parse_comma_expr: with the flag `explicit` *)
Definition comma_expr (P : parsers) (t : list token) : res (list expr * bool) :=
  bind (p_arg P (advance t)) (fun a t => bind (p_args P ClP t) (fun l t => bind (expect (closes ClP) t) (fun _ t => Got (a :: fst l, snd l) t))).
(** 1621-1794 *)
Definition suffix (P : parsers) (e : expr) (t : list token) : res expr :=
  match t with
  | TOpenP :: r =>
      match peek r with
      | Some TCloseP => p_suffix P (ECall e []) (advance r)
      | Some _ => bind (comma_expr P t) (fun l t => p_suffix P (ECall e (fst l)) t)
      | None => Bad
      end
  | TOpenS :: r => bind (index_or_slice P e r) (p_suffix P)
  | _ =>
      if bare_start t then bind (p_terminal P t) (fun a t => p_suffix P (ECall e [a]) t)
      else
        match peek t with
        | Some TArrow => match peek (advance t) with Some (TId x) => p_suffix P (EGetField e x) (advance (advance t)) | _ => Bad end
        | _ => Got e t
        end
  end.
(** 1500-1536, at the first colon *)
Definition slice_literal (P : parsers) (x : expr) (t : list token) : res expr :=
  bind (optional (p_arg P) colon_or_close (advance t)) (fun y t =>
    match peek t with
    | Some TCloseS => Got (ESliceLit x y None) (advance t)
    | Some TColon => bind (optional (p_arg P) (closes ClS) (advance t)) (fun z t => bind (expect (closes ClS) t) (fun _ t => Got (ESliceLit x y (Some z)) t))
    | _ => Bad
    end).
(** 1450-1498, after the bracket *)
Definition list_or_slice (P : parsers) (t : list token) : res expr :=
  match peek t with
  | Some TCloseS => Got (ELiteral LList []) (advance t)
  | Some TColon => slice_literal P ENil t
  | _ =>
      bind (p_arg P t) (fun a t =>
        match peek t with
        | Some TCloseS => Got (ELiteral LList [a]) (advance t)
        | Some TColon => slice_literal P a t
        | Some TComma => bind (p_args P ClS t) (fun l t => bind (expect (closes ClS) t) (fun _ t => Got (ELiteral LList (a :: fst l)) t))
        | _ => Bad
        end)
  end.
(** 1538-1583, after the brace *)
Definition dict_or_set (P : parsers) (t : list token) : res expr :=
  match peek t with
  | Some TCloseB => Got (ELiteral LSet []) (advance t)
  | _ => bind (p_items P None t) (fun l t => bind (expect (closes ClB) t) (fun _ t => Got (ELiteral (match snd l with Some true => LDict | _ => LSet end) (fst l)) t))
  end.
(** 1198-1268 *)
Definition terminal (P : parsers) (t : list token) : res expr :=
  let r := advance t in
  match peek t with
  | Some TNil => Got ENil r
  | Some TTrue => Got (EBool true) r
  | Some TFalse => Got (EBool false) r
  | Some TExit => Got EExit r
  | Some (TInt z) => Got (EInt z) r
  | Some (TComplex z) => Got (EComplex z) r
  | Some (TStr s) => Got (EStr s) r
  | Some TUnderscore => Got EEmpty r
  | Some (TSym SMul) =>
      match peek r with Some TUnderscore => Got EVarEmpty (advance r) | Some (TId x) => Got (EVarArg x) (advance r) | _ => Bad end
  | Some (TId x) => Got (EVar x) r
  | Some TSelf => Got ESelf r
  | Some TOpenP => bind (comma_expr P t) (fun l t => Got (EComma (fst l) (snd l) false) t)
  | Some TOpenS => list_or_slice P r
  | Some TOpenB => dict_or_set P r
  | Some (TFun n) => Got (EFun n) r
  | Some TIf => bind (p_expr P true r) (p_then P)
  | _ => Bad
  end.
(** 1556-1573 *)
Definition then_else (P : parsers) (c : expr) (t : list token) : res expr :=
  bind (expect (fun x => match x with Some TThen => true | _ => false end) t) (fun _ t =>
  bind (p_expr P true t) (fun a t =>
    match peek t with
    | Some TElif => bind (p_expr P true (advance t)) (fun c' t => bind (p_then P c' t) (fun b t => Got (EIf c a b) t))
    | _ => bind (expect (fun x => match x with Some TElse => true | _ => false end) t) (fun _ t => bind (p_expr P true t) (fun b t => Got (EIf c a b) t))
    end)).
(** 1333-1353: a partially applied operator, or an expression *)
Definition plain_arg (P : parsers) (t : list token) : res expr :=
  match partial_op t with
  | Some (o, r) =>
      if ends_arg (peek r) then Got (EOp (FBin o)) r
      else bind (p_expr P true r) (fun e t => Got (ECall (EOpSwap (FBin o)) [e]) t)
  | None =>
      bind (p_expr P true t) (fun e t =>
        match partial_op t with
        | Some (o, r) => if ends_arg (peek r) then Got (ECall (EOp (FBin o)) [e]) r else Got e t
        | None => Got e t
        end)
  end.
(** 1307-1332 *)
Definition marked_arg (P : parsers) (t : list token) : res expr :=
  match peek t with
  | Some TArrow => match peek2 t with Some (TId x) => Got (EField x) (advance (advance t)) | _ => Bad end
  | Some TEllipsis => bind (p_expr P true (advance t)) (fun e t => Got (EUnroll e) t)
  | _ => plain_arg P t
  end.
Definition arg (P : parsers) (t : list token) : res expr :=
  match unary_fun t with
  | Some f => if ends_arg (peek2 t) then Got (EOp f) (advance t) else marked_arg P t
  | None => marked_arg P t
  end.
(** the loops at 1294-1302 and 1487-1494, with parse_optional_trailing_comma (core/mod.rs:43-61) *)
Definition args (P : parsers) (c : close) (t : list token) : res (list expr * bool) :=
  match peek t with
  | Some TComma =>
      let r := advance t in
      if closes c (peek r) then Got ([], true) r
      else bind (p_arg P r) (fun a t => bind (p_args P c t) (fun l t => Got (a :: fst l, snd l) t))
  | x => if closes c x then Got ([], false) t else Bad
  end.
(** the loop at 1551-1577; [item] is one entry *)
Definition item (P : parsers) (d : option bool) (t : list token) : res (list expr * option bool) :=
  bind (p_arg P t) (fun a t =>
    if is_unroll a then Got ([a], d) t
    else
      match d with
      | Some true => bind (expect is_colon t) (fun _ t => bind (p_arg P t) (fun b t => Got ([a; b], d) t))
      | Some false => Got ([a], d) t
      | None => if is_colon (peek t) then bind (p_arg P (advance t)) (fun b t => Got ([a; b], Some true) t) else Got ([a], Some false) t
      end).
Definition items (P : parsers) (d : option bool) (t : list token) : res (list expr * option bool) :=
  bind (item P d t) (fun l t =>
    match peek t with
    | Some TComma =>
        if closes ClB (peek (advance t)) then Got l (advance t)
        else bind (p_items P (snd l) (advance t)) (fun m t => Got (fst l ++ fst m, snd m) t)
    | x => if closes ClB x then Got l t else Bad
    end).

Definition no_parsers : parsers :=
  Parsers (fun _ _ => Out) (fun _ => Out) (fun _ _ => Out) (fun _ _ => Out) (fun _ => Out) (fun _ _ => Out) (fun _ => Out) (fun _ _ => Out) (fun _ _ => Out) (fun _ _ => Out).
Fixpoint ps (n : nat) : parsers :=
  match n with
  | O => no_parsers
  | S n =>
      let P := ps n in
      Parsers (expr11 P) (bare10 P) (level P) (loop P) (terminal P) (suffix P) (arg P) (args P) (items P) (then_else P)
  end.
(** 1074-1079: an expression as a statement; 1087-1090: elsewhere ([comma] is true) *)
Definition parse (n : nat) (comma : bool) (t : list token) : res expr := p_expr (ps n) comma t.
