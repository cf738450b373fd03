(** The command line: cordy/src/main.rs 56-82, 84-139, 149-185, 226-244.
    An argument is the list of its characters. Printing and running are not modelled here: [main_] says what is asked for. *)
From Verif Require Import Base Native Str Scan Syntax.
From Coq Require Import String List.
Local Open Scope Z_scope.

Definition str := list Z.
Definition eqs (a b : str) : bool := if list_eq_dec Z.eq_dec a b then true else false.

(** 226-227 *)
Inductive mode := MDefault | MHelp | MVersion | MDisassembly | MFormat.
(** 215-224 *)
Record options := Options { file : option str; args : list str; omode : mode; optimize : bool; no_line_numbers : bool;
  links : list (str * str); format_no_style : bool; format_no : list ttype }.
(** the errors of 105-131, 229-238 *)
Inductive cli_error := ManyModes | NoLinkArgument | NoEquals (target : str) | DuplicateLink (module : str) | UnknownCategory (key : str).
Inductive res {A} := Ok (a : A) | Bad (e : cli_error) | Panic.
Arguments res : clear implicits.

(** 229-238 Mode::set *)
Definition set_mode (o : options) (m : mode) : res options :=
  match omode o with
  | MDefault => Ok (Options (file o) (args o) m (optimize o) (no_line_numbers o) (links o) (format_no_style o) (format_no o))
  | _ => Bad ManyModes
  end.
(** std str::split_once of a character *)
Fixpoint split_once (c : Z) (s : str) : option (str * str) :=
  match s with
  | [] => None
  | x :: r => if x =? c then Some ([], r) else match split_once c r with Some (a, b) => Some (x :: a, b) | None => None end
  end.
(** std str::split of a character *)
Fixpoint split_char (c : Z) (s : str) : list str :=
  match s with
  | [] => [[]]
  | x :: r => if x =? c then [] :: split_char c r else match split_char c r with l :: ls => (x :: l) :: ls | [] => [[x]] end
  end.
(** std HashMap::get, on the list of entries *)
Fixpoint get (k : str) (l : list (str * str)) : option str := match l with (a, b) :: r => if eqs k a then Some b else get k r | [] => None end.

(** 117-129 *)
Definition category (key : str) : option ttype :=
  if eqs key (text "keyword") then Some TKeyword else if eqs key (text "constant") then Some TConstant else if eqs key (text "native") then Some TNative
  else if eqs key (text "type") then Some TType else if eqs key (text "number") then Some TNumber else if eqs key (text "string") then Some TString
  else if eqs key (text "syntax") then Some TSyntax else if eqs key (text "comment") then Some TComment else None.
Fixpoint categories (keys : list str) (set : list ttype) : res (list ttype) :=
  match keys with
  | [] => Ok set
  | k :: r => match category k with Some t => categories r (t :: set) | None => Bad (UnknownCategory k) end
  end.

(** 101-136 the loop; [o] is what was read so far *)
Fixpoint loop (l : list str) (o : options) : res options :=
  match l with
  | [] => Ok o
  | a :: r =>
    let m (m : mode) := match set_mode o m with Ok o => loop r o | e => e end in
    if eqs a (text "-h") || eqs a (text "--help") then m MHelp
    else if eqs a (text "-v") || eqs a (text "--version") then m MVersion
    else if eqs a (text "-d") || eqs a (text "--disassembly") then m MDisassembly
    else if eqs a (text "-f") || eqs a (text "--format") then m MFormat
    else if eqs a (text "-o") || eqs a (text "--optimize") then
      loop r (Options (file o) (args o) (omode o) true (no_line_numbers o) (links o) (format_no_style o) (format_no o))
    else if eqs a (text "--no-line-numbers") then
      loop r (Options (file o) (args o) (omode o) (optimize o) true (links o) (format_no_style o) (format_no o))
    else if eqs a (text "--format-no-style") then
      loop r (Options (file o) (args o) (omode o) (optimize o) (no_line_numbers o) (links o) true (format_no o))
    else if eqs a (text "-l") || eqs a (text "--link") then
      match r with
      | [] => Bad NoLinkArgument
      | target :: r =>
        match split_once 61 target with
        | None => Bad (NoEquals target)
        | Some (module, library) =>
          match get module (links o) with
          | Some _ => Bad (DuplicateLink module)
          | None => loop r (Options (file o) (args o) (omode o) (optimize o) (no_line_numbers o) (links o ++ [(module, library)]) (format_no_style o) (format_no o))
          end
        end
      end
    else if starts_with (text "--format-no=") a then
      match categories (split_char 44 (skipn 12 a)) (format_no o) with
      | Ok set => loop r (Options (file o) (args o) (omode o) (optimize o) (no_line_numbers o) (links o) (format_no_style o) set)
      | Bad e => Bad e
      | Panic => Panic
      end
    else (* 132-138: the first argument which is not an option, then the arguments of the program *)
      Ok (Options (Some a) (args o ++ r) (omode o) (optimize o) (no_line_numbers o) (links o) (format_no_style o) (format_no o))
  end.

(** 84-139; the first argument is the name of the executable *)
Definition parse_args (l : list str) : res options :=
  match l with
  | [] => Panic
  | _ :: r => loop r (Options None [] MDefault false false [] false [])
  end.

(** 56-82, 149-185: what is done.  [DUnsupported] is the panic of 175. *)
Inductive done :=
| DError (e : cli_error)
| DHelp | DVersion
| DRepl (links : list (str * str))
| DFormat (name : str) (style : bool) (no : list ttype)
| DDisassemble (name : str) (optimize lines : bool)
| DRun (name : str) (optimize : bool) (links : list (str * str)) (args : list str)
| DUnsupported.
Definition main_ (l : list str) : done :=
  match parse_args l with
  | Panic => DUnsupported
  | Bad e => DError e
  | Ok o =>
    match omode o with
    | MHelp => DHelp
    | MVersion => DVersion
    | _ =>
      match file o with
      | None => DRepl (links o)
      | Some name =>
        match omode o with
        | MFormat => DFormat name (negb (format_no_style o)) (format_no o)
        | MDisassembly => DDisassemble name (optimize o) (negb (no_line_numbers o))
        | MDefault => DRun name (optimize o) (links o) (args o)
        | _ => DUnsupported
        end
      end
    end
  end.
