(** Vocabulary for C68: the grammar of expressions, written from the documentation (docs/language.md:134-151).

    Precedences: 0 terminals, 1 calls, indexing, fields, 2 unary operators, 3 to 9 the binary operators of the
    documentation, 11 assignment.  10 and 12: comma separated patterns, and assignment to them, as a statement. *)
From Coq Require Import String.
From Verif Require Import Base Parse.
Local Open Scope nat_scope.

(** How operators are written, and the documented table. *)
Definition spelling (o : infix) : list token :=
  match o with
  | IBin (BSym s) => [TSym s] | IBin BIs => [TIs] | IBin BIsNot => [TIs; TKNot] | IBin BIn => [TIn] | IBin BNotIn => [TKNot; TIn]
  | IDot => [TDot] | IAnd => [TAnd] | IOr => [TOr]
  end.
Definition precedence (o : infix) : nat :=
  match o with
  | IBin (BSym (SMul | SDiv | SMod | SPow)) | IBin (BIs | BIsNot | BIn | BNotIn) => 3
  | IBin (BSym (SAdd | SSub)) => 4
  | IBin (BSym (SShl | SShr)) => 5
  | IBin (BSym (SAnd | SOr | SXor)) => 6
  | IDot => 7
  | IBin (BSym (SLt | SLe | SGt | SGe | SEq | SNe)) => 8
  | IAnd | IOr => 9
  end.
Definition unary_token (o : unop) : token := match o with UNeg => TSym SSub | UBang => TBang | UNot => TKNot end.
Definition assign_spelling (q : option assign_op) : list token :=
  match q with None => [TEquals] | Some AMax => [TId "max"; TEquals] | Some AMin => [TId "min"; TEquals] | Some (AOp q) => [TOpEquals q] end.
Definition closer (c : close) : token := match c with ClP => TCloseP | ClS => TCloseS | ClB => TCloseB end.
Definition atom (e : expr) (w : list token) : Prop :=
  match e with
  | ENil => w = [TNil] | EExit => w = [TExit] | EBool b => w = [if b then TTrue else TFalse] | EInt z => w = [TInt z] | EComplex z => w = [TComplex z]
  | EStr s => w = [TStr s] | EEmpty => w = [TUnderscore] | EVarEmpty => w = [TSym SMul; TUnderscore] | EVar x => w = [TId x] | EVarArg x => w = [TSym SMul; TId x]
  | ESelf => w = [TSelf] | EFun n => w = [TFun n]
  | _ => False
  end.
(** the tokens that can start an argument without parentheses *)
Definition bare_token (t : option token) : Prop :=
  match t with Some (TId _ | TFun _ | TNil | TTrue | TFalse | TExit | TInt _ | TComplex _ | TStr _ | TIf) => True | _ => False end.

(** How an expression ends: [Open] with an `else` whose expression takes all that can follow; [Bare] with a name as
    an argument without parentheses, which an `=` must not follow. *)
Inductive mode := Closed | Bare | Open.
Definition bare_mode (w : list token) (m : mode) : mode := match w with [TId _] => Bare | _ => m end.
(** What must follow an argument: anything; the end of the argument, for an operator alone; `)`, for `(x +)`. *)
Inductive amode := Full | Alone | Partial.
Definition may_precede (m : amode) (t : option token) : Prop :=
  match m with Full => True | Alone => ends_arg t = true | Partial => t = Some TCloseP end.
Definition comparison (a : expr) (l : list (sym * expr)) : expr := match l with [(s, b)] => EBinary (BSym s) a b | _ => ECompare a l end.

Inductive G : nat -> expr -> list token -> mode -> Prop :=
(* terminals *)
| G_atom e w : atom e w -> G 0 e w Closed
| G_paren l x w : Gargs ClP l x w -> G 0 (EComma l x false) (TOpenP :: w ++ [TCloseP]) Closed
| G_nolist : G 0 (ELiteral LList []) [TOpenS; TCloseS] Closed
| G_list l x w : Gargs ClS l x w -> G 0 (ELiteral LList l) (TOpenS :: w ++ [TCloseS]) Closed
| G_range a wa b wb : Gopt_arg a wa TColon -> Gopt_arg b wb TCloseS -> G 0 (ESliceLit a b None) (TOpenS :: wa ++ TColon :: wb ++ [TCloseS]) Closed
| G_range3 a wa b wb c wc : Gopt_arg a wa TColon -> Gopt_arg b wb TColon -> Gopt_arg c wc TCloseS ->
    G 0 (ESliceLit a b (Some c)) (TOpenS :: wa ++ TColon :: wb ++ TColon :: wc ++ [TCloseS]) Closed
| G_noset : G 0 (ELiteral LSet []) [TOpenB; TCloseB] Closed
| G_set l x w : Gargs ClB l x w -> G 0 (ELiteral LSet l) (TOpenB :: w ++ [TCloseB]) Closed
| G_dict l w : Gitems l true w -> G 0 (ELiteral LDict l) (TOpenB :: w ++ [TCloseB]) Closed
| G_if c wc mc a wa ma b wb : G 11 c wc mc -> G 11 a wa ma -> Gelse b wb -> G 0 (EIf c a b) (TIf :: wc ++ TThen :: wa ++ wb) Open
(* calls, indexing, fields *)
| G_terminal e w m : G 0 e w m -> G 1 e w m
| G_call0 f w m : G 1 f w m -> m <> Open -> G 1 (ECall f []) (w ++ [TOpenP; TCloseP]) Closed
| G_call f w m l x wl : G 1 f w m -> m <> Open -> Gargs ClP l x wl -> G 1 (ECall f l) (w ++ TOpenP :: wl ++ [TCloseP]) Closed
| G_bare f w m a wa ma : G 1 f w m -> m <> Open -> G 0 a wa ma -> bare_token (hd_error wa) -> G 1 (ECall f [a]) (w ++ wa) (bare_mode wa ma)
| G_index a w m i wi mi : G 1 a w m -> m <> Open -> G 11 i wi mi -> G 1 (EIndex a i) (w ++ TOpenS :: wi ++ [TCloseS]) Closed
| G_slice a w m x wx y wy : G 1 a w m -> m <> Open -> Gopt x wx -> Gopt y wy -> G 1 (ESlice a x y) (w ++ TOpenS :: wx ++ TColon :: wy ++ [TCloseS]) Closed
| G_slice3 a w m x wx y wy z wz : G 1 a w m -> m <> Open -> Gopt x wx -> Gopt y wy -> Gopt z wz ->
    G 1 (ESliceStep a x y z) (w ++ TOpenS :: wx ++ TColon :: wy ++ TColon :: wz ++ [TCloseS]) Closed
| G_field e w m x : G 1 e w m -> m <> Open -> G 1 (EGetField e x) (w ++ [TArrow; TId x]) Closed
(* unary and binary operators; `a is not b` is not `a is (not b)` *)
| G_unary o e w m : G 2 e w m -> G 2 (EUnary o e) (unary_token o :: w) m
| G_next k e w m : 1 <= k < 9 -> G k e w m -> G (S k) e w m
| G_infix k o a wa ma b wb mb : precedence o = k -> k <> 8 -> G k a wa ma -> ma <> Open -> G (k - 1) b wb mb ->
    (o = IBin BIs -> hd_error wb <> Some TKNot) -> G k (apply o a b) (wa ++ spelling o ++ wb) mb
| G_compare a wa ma l wl m : G 7 a wa ma -> ma <> Open -> Gchain l wl m -> G 8 (comparison a l) (wa ++ wl) m
(* assignment; comma separated patterns *)
| G_expr e w m : G 9 e w m -> G 11 e w m
| G_assign q a wa ma b wb m : G 9 a wa ma -> ma <> Open -> (q = None -> ma <> Bare) -> G 11 b wb m -> G 11 (assign q a b) (wa ++ assign_spelling q ++ wb) m
| G_single e w m : G 9 e w m -> G 10 e w m
| G_comma e w m l wl ml : G 9 e w m -> Gbare l wl ml -> G 10 (EComma (e :: l) true true) (w ++ wl) ml
| G_top e w m : G 10 e w m -> G 12 e w m
| G_top_assign q a wa ma b wb m : G 10 a wa ma -> ma <> Open -> (q = None -> ma <> Bare) -> G 12 b wb m -> G 12 (assign q a b) (wa ++ assign_spelling q ++ wb) m
with Gelse : expr -> list token -> Prop :=
| Gelse_else b w m : G 11 b w m -> Gelse b (TElse :: w)
| Gelse_elif c wc mc a wa ma b wb : G 11 c wc mc -> G 11 a wa ma -> Gelse b wb -> Gelse (EIf c a b) (TElif :: wc ++ TThen :: wa ++ wb)
(* comparisons a < b < c *)
with Gchain : list (sym * expr) -> list token -> mode -> Prop :=
| Gchain_last s b w m : precedence (IBin (BSym s)) = 8 -> G 7 b w m -> Gchain [(s, b)] (TSym s :: w) m
| Gchain_more s b w mb l wl m : precedence (IBin (BSym s)) = 8 -> G 7 b w mb -> mb <> Open -> Gchain l wl m -> Gchain ((s, b) :: l) (TSym s :: w ++ wl) m
with Gbare : list expr -> list token -> mode -> Prop :=
| Gbare_last e w m : G 7 e w m -> Gbare [e] (TComma :: w) m
| Gbare_more e w me l wl m : G 7 e w me -> Gbare l wl m -> Gbare (e :: l) (TComma :: w ++ wl) m
(* parts of slices that may be missing *)
with Gopt : expr -> list token -> Prop :=
| Gopt_none : Gopt ENil []
| Gopt_some e w m : G 11 e w m -> Gopt e w
with Gopt_arg : expr -> list token -> token -> Prop :=
| Gopt_arg_none t : Gopt_arg ENil [] t
| Gopt_arg_some e w m t : Garg e w m -> may_precede m (Some t) -> Gopt_arg e w t
(* arguments of calls, elements of literals *)
with Garg : expr -> list token -> amode -> Prop :=
| Garg_unary f t : unary_fun [t] = Some f -> Garg (EOp f) [t] Alone
| Garg_binary o : o <> BSym SSub -> Garg (EOp (FBin o)) (spelling (IBin o)) Alone
| Garg_field x : Garg (EField x) [TArrow; TId x] Full
| Garg_unroll e w m : G 11 e w m -> Garg (EUnroll e) (TEllipsis :: w) Full
| Garg_right o e w m : o <> BSym SSub -> G 11 e w m -> (o = BIs -> hd_error w <> Some TKNot) -> Garg (ECall (EOpSwap (FBin o)) [e]) (spelling (IBin o) ++ w) Full
| Garg_expr e w m : G 11 e w m -> hd_error w <> Some (TSym SMul) -> Garg e w Full
| Garg_left o e w m : o <> BSym SSub -> G 11 e w m -> hd_error w <> Some (TSym SMul) -> Garg (ECall (EOp (FBin o)) [e]) (w ++ spelling (IBin o)) Partial
with Gargs : close -> list expr -> bool -> list token -> Prop :=
| Gargs_last c a w m : Garg a w m -> may_precede m (Some (closer c)) -> Gargs c [a] false w
| Gargs_trailing c a w m : Garg a w m -> may_precede m (Some TComma) -> Gargs c [a] true (w ++ [TComma])
| Gargs_more c a w m l x wl : Garg a w m -> may_precede m (Some TComma) -> Gargs c l x wl -> Gargs c (a :: l) x (w ++ TComma :: wl)
(* entries of a dict: pairs, or `...`; is there a pair *)
with Gitem : list expr -> bool -> list token -> amode -> Prop :=
| Gitem_unroll e w m : Garg (EUnroll e) w m -> Gitem [EUnroll e] false w m
| Gitem_pair a wa ma b wb mb : Garg a wa ma -> may_precede ma (Some TColon) -> is_unroll a = false -> Garg b wb mb -> Gitem [a; b] true (wa ++ TColon :: wb) mb
with Gitems : list expr -> bool -> list token -> Prop :=
| Gitems_last l p w m : Gitem l p w m -> may_precede m (Some TCloseB) -> Gitems l p w
| Gitems_trailing l p w m : Gitem l p w m -> may_precede m (Some TComma) -> Gitems l p (w ++ [TComma])
| Gitems_more l p w m l' p' w' : Gitem l p w m -> may_precede m (Some TComma) -> Gitems l' p' w' -> Gitems (l ++ l') (p || p') (w ++ TComma :: w').

(** Where an expression ends for sure: at the end of the input, before a token that cannot be part of an expression
    there, or before a line that starts with a name, a literal or a bracket. *)
Definition ends (comma : bool) (rest : list token) : Prop :=
  match peek rest with
  | None => True
  | Some (TCloseP | TCloseS | TCloseB | TColon | TThen | TElif | TElse | TEllipsis | TUnderscore | TSelf | TOpenB | TOther _) => True
  | Some TComma => comma = true
  | Some (TInt _ | TComplex _ | TStr _ | TNil | TTrue | TFalse | TExit | TFun _ | TOpenP | TOpenS | TIf | TAt) => hd_error rest = Some TNewLine
  | Some (TId x) => hd_error rest = Some TNewLine /\ x <> "max"%string /\ x <> "min"%string
  | _ => False
  end.
(** the tokens other than newlines *)
Definition visible (t : list token) : list token := filter (fun x => match x with TNewLine => false | _ => true end) t.
(** Two inputs with the same tokens, where a newline stands before a bracket, a name or a literal in both or in none. *)
Definition line_matters (x : token) : bool :=
  match x with TOpenP | TOpenS | TId _ | TFun _ | TNil | TTrue | TFalse | TExit | TInt _ | TComplex _ | TStr _ | TAt | TIf => true | _ => false end.
Inductive same_lines : list token -> list token -> Prop :=
| same_end t t' : skip t = [] -> skip t' = [] -> same_lines t t'
| same_next t t' x r r' : skip t = x :: r -> skip t' = x :: r' -> (line_matters x = true -> (hd_error t = Some TNewLine <-> hd_error t' = Some TNewLine)) ->
    same_lines r r' -> same_lines t t'.
(** the input [t] parses to [e], leaving [rest] *)
Definition parses (comma : bool) (t : list token) (e : expr) (rest : list token) : Prop := exists n, forall m, n <= m -> parse m comma t = Got e rest.
Definition fails (comma : bool) (t : list token) : Prop := exists n, forall m, n <= m -> parse m comma t = Bad.
