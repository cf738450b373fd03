(** What a command line means, apart from the code. *)
From Coq Require Import String List.
From Verif Require Import Base Str Scan Syntax Cli.
Local Open Scope Z_scope.

(** One option, as the user thinks of it. *)
Inductive opt := OMode (m : mode) | OOptimize | ONoLines | ONoStyle | OLink (module library : str) | ONo (cs : list ttype).

Definition category_names : list (ttype * string) :=
  [(TKeyword, "keyword"); (TConstant, "constant"); (TNative, "native"); (TType, "type"); (TNumber, "number"); (TString, "string"); (TSyntax, "syntax"); (TComment, "comment")]%string.
Definition mode_names : list (mode * string) :=
  [(MHelp, "-h"); (MHelp, "--help"); (MVersion, "-v"); (MVersion, "--version"); (MDisassembly, "-d"); (MDisassembly, "--disassembly"); (MFormat, "-f"); (MFormat, "--format")]%string.

(** words joined by commas *)
Fixpoint commas (ws : list str) : str := match ws with [] => [] | [w] => w | w :: r => w ++ [44] ++ commas r end.

(** how an option is written *)
Inductive written : opt -> list str -> Prop :=
| W_mode m n : In (m, n) mode_names -> written (OMode m) [text n]
| W_optimize n : In n ["-o"; "--optimize"]%string -> written OOptimize [text n]
| W_no_lines : written ONoLines [text "--no-line-numbers"]
| W_no_style : written ONoStyle [text "--format-no-style"]
| W_link n m l : In n ["-l"; "--link"]%string -> ~ In 61 m -> written (OLink m l) [text n; m ++ 61 :: l]
| W_no cs ns : cs <> [] -> Forall2 (fun c n => In (c, n) category_names) cs ns -> written (ONo cs) [text "--format-no=" ++ commas (List.map text ns)].
Inductive written_all : list opt -> list str -> Prop :=
| WA_nil : written_all [] []
| WA_cons o w os ws : written o w -> written_all os ws -> written_all (o :: os) (w ++ ws).

(** what is not an option: the name of a file *)
Definition flags : list string := ["-h"; "--help"; "-v"; "--version"; "-d"; "--disassembly"; "-f"; "--format"; "-o"; "--optimize";
  "--no-line-numbers"; "--format-no-style"; "-l"; "--link"]%string.
Definition is_file (a : str) : Prop := (forall f, In f flags -> a <> text f) /\ forall r, a <> text "--format-no=" ++ r.
(** the part after the options: nothing, or a file and the arguments of the program *)
Definition target (rest : list str) : Prop := match rest with [] => True | f :: _ => is_file f end.

Definition modes (os : list opt) : list mode := flat_map (fun o => match o with OMode m => [m] | _ => [] end) os.
Definition linked (os : list opt) : list (str * str) := flat_map (fun o => match o with OLink m l => [(m, l)] | _ => [] end) os.
Definition omitted (os : list opt) : list ttype := flat_map (fun o => match o with ONo cs => cs | _ => [] end) os.

(** options which agree *)
Definition consistent (os : list opt) : Prop := (length (modes os) <= 1)%nat /\ NoDup (List.map fst (linked os)).

(** what the options and the rest say *)
Record says (os : list opt) (rest : list str) (o : options) : Prop := Says {
  says_file : file o = hd_error rest;
  says_args : args o = tl rest;
  says_mode : omode o = hd MDefault (modes os);
  says_optimize : optimize o = true <-> In OOptimize os;
  says_lines : no_line_numbers o = true <-> In ONoLines os;
  says_links : links o = linked os;
  says_style : format_no_style o = true <-> In ONoStyle os;
  says_no : forall t, In t (format_no o) <-> In t (omitted os) }.

(** What can be wrong after the options [os], in [l]; only one thing is reported, the first. *)
Inductive wrong (os : list opt) : list str -> cli_error -> Prop :=
| Wr_mode m n r : modes os <> [] -> In (m, n) mode_names -> wrong os (text n :: r) ManyModes
| Wr_link n : In n ["-l"; "--link"]%string -> wrong os [text n] NoLinkArgument
| Wr_equals n t r : In n ["-l"; "--link"]%string -> ~ In 61 t -> wrong os (text n :: t :: r) (NoEquals t)
| Wr_twice n m l r : In n ["-l"; "--link"]%string -> ~ In 61 m -> In m (List.map fst (linked os)) -> wrong os (text n :: (m ++ 61 :: l) :: r) (DuplicateLink m)
| Wr_category ns k ks r : Forall (fun n => In n (List.map snd category_names)) ns -> ~ In k (List.map (fun c => text (snd c)) category_names) ->
    Forall (fun w => ~ In 44 w) (k :: ks) -> wrong os ((text "--format-no=" ++ commas (List.map text ns ++ k :: ks)) :: r) (UnknownCategory k).
