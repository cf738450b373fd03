(** The command line (C76). *)
From Coq Require Import String List Lia.
From Verif Require Import Base Str Scan Syntax Cli CliSpec CliProofs.
Local Open Scope Z_scope.

(** Options in any order and of any number, of which at most one asks for another mode and
    no two link the same module, followed by nothing or by a file and arguments: this is
    accepted, and each option has its effect; all that follows the file is passed to the
    program as it is, even what looks like an option. *)
Theorem C76_accepted : forall p os ws rest, written_all os ws -> target rest -> consistent os ->
  exists o, parse_args (p :: ws ++ rest) = Ok o /\ says os rest o.
Proof. intros p os ws rest. apply parse_good. Qed.
Print Assumptions C76_accepted.

(** Nothing else is accepted: every list of arguments is read as options and a rest, or is
    wrong after some options, and then the error is the one for that. *)
Theorem C76_exact : forall p l,
  (forall o, parse_args (p :: l) = Ok o -> exists os ws rest, written_all os ws /\ target rest /\ l = ws ++ rest /\ consistent os /\ says os rest o) /\
  (forall e, parse_args (p :: l) = Bad e <-> exists os ws r, written_all os ws /\ consistent os /\ l = ws ++ r /\ wrong os r e) /\
  parse_args (p :: l) <> Panic.
Proof. intros p l. split; [intros o; apply parse_iff|]. split; [intro e; apply parse_bad_iff|apply parse_total]. Qed.
Print Assumptions C76_exact.

(** Where the options end is not ambiguous. *)
Theorem C76_unique : forall os ws rest os' ws' rest', written_all os ws -> target rest -> consistent os -> written_all os' ws' -> target rest' -> consistent os' ->
  ws ++ rest = ws' ++ rest' -> rest = rest' /\ linked os = linked os' /\ hd MDefault (modes os) = hd MDefault (modes os').
Proof.
  intros os ws rest os' ws' rest' W T C W' T' C' E.
  destruct (parse_good [] _ _ _ W T C) as (o & P & S). destruct (parse_good [] _ _ _ W' T' C') as (o' & P' & S').
  rewrite E, P' in P. injection P as ->. destruct S, S'.
  split; [|split; congruence]. rewrite says_file in says_file0. rewrite says_args in says_args0. destruct rest, rest'; cbn in *; congruence.
Qed.
Print Assumptions C76_unique.

(** What is done: help and version come first; without a file the mode does not matter
    and the links are given to the interactive session; with a file, it is shown or run
    with the options that were given. The program does not fail on any command line. *)
Theorem C76_done : forall p os ws rest, written_all os ws -> target rest -> consistent os ->
  match modes os, rest with
  | MHelp :: _, _ => main_ (p :: ws ++ rest) = DHelp
  | MVersion :: _, _ => main_ (p :: ws ++ rest) = DVersion
  | _, [] => main_ (p :: ws ++ rest) = DRepl (linked os)
  | MFormat :: _, f :: _ => exists style no, main_ (p :: ws ++ rest) = DFormat f style no /\ (style = true <-> ~ In ONoStyle os) /\ forall t, In t no <-> In t (omitted os)
  | MDisassembly :: _, f :: _ => exists opt lines, main_ (p :: ws ++ rest) = DDisassemble f opt lines /\ (opt = true <-> In OOptimize os) /\ (lines = true <-> ~ In ONoLines os)
  | _, f :: a => exists opt, main_ (p :: ws ++ rest) = DRun f opt (linked os) a /\ (opt = true <-> In OOptimize os)
  end.
Proof.
  intros p os ws rest W T C. destruct (parse_good p _ _ _ W T C) as (o & P & [sf sa sm so sl sk ss sn]). unfold main_. rewrite P, sm, sf, sk, sa.
  assert (forall b, negb b = true <-> ~ b = true) as NB by (intros []; cbn; intuition congruence).
  destruct (modes os) as [|m ms], rest as [|f a]; cbn [hd hd_error tl]; [reflexivity|exists (optimize o); auto|destruct m; reflexivity|].
  destruct m; try reflexivity.
  - exists (optimize o). auto.
  - exists (optimize o), (negb (no_line_numbers o)). rewrite NB, so, sl. split; [reflexivity|split; reflexivity].
  - exists (negb (format_no_style o)), (format_no o). rewrite NB, ss. split; [reflexivity|split; [reflexivity|exact sn]].
Qed.
Print Assumptions C76_done.
Theorem C76_no_failure : forall p l, main_ (p :: l) <> DUnsupported.
Proof.
  intros p l. pose proof (parse_total p l) as T. unfold main_. destruct (parse_args (p :: l)) as [o|e|]; [|discriminate|tauto].
  destruct (omode o), (file o); discriminate.
Qed.
Print Assumptions C76_no_failure.

Example C76_ex : let os := [ONo [TKeyword; TString]; OLink (text "m") (text "a=b"); OMode MFormat; OOptimize; OLink (text "n") []] in
  let ws := [text "--format-no=keyword,string"; text "-l"; text "m=a=b"; text "--format"; text "-o"; text "--link"; text "n="] in
  let rest := [text "--file"; text "-h"; text "-d"] in
  written_all os ws /\ target rest /\ consistent os /\
  main_ (text "cordy" :: ws ++ rest) = DFormat (text "--file") true [TString; TKeyword].
Proof.
  cbv zeta. split; [|split; [|split]].
  - refine (WA_cons _ [_] _ _ (W_no [TKeyword; TString] ["keyword"; "string"]%string _ _) _); [discriminate|repeat constructor; cbn; tauto|].
    refine (WA_cons _ [_; _] _ _ (W_link "-l" (text "m") (text "a=b") _ _) _); [cbn; tauto|cbn; lia|].
    refine (WA_cons _ [_] _ _ (W_mode MFormat "--format" _) _); [cbn; tauto|].
    refine (WA_cons _ [_] _ _ (W_optimize "-o" _) _); [cbn; tauto|].
    refine (WA_cons _ [_; _] [] [] (W_link "--link" (text "n") [] _ _) WA_nil); [cbn; tauto|cbn; lia].
  - split.
    + intros f H. cbn [flags In] in H. repeat (destruct H as [<-|H]; [discriminate|]). destruct H.
    + intros r E. cbn in E. discriminate E.
  - split; [cbn; lia|]. cbn. repeat constructor; cbn; intuition discriminate.
  - reflexivity.
Qed.
Example C76_ex_run : main_ [text "cordy"; text "-o"; text "x.cor"; text "-h"; text "1"] = DRun (text "x.cor") true [] [text "-h"; text "1"].
Proof. reflexivity. Qed.
Example C76_ex_bad : main_ [text "cordy"; text "-l"; text "m=a"; text "-l"; text "m=b"; text "x"] = DError (DuplicateLink (text "m")) /\
  main_ [text "cordy"; text "-h"; text "-v"] = DError ManyModes /\ main_ [text "cordy"; text "--format-no="] = DError (UnknownCategory []).
Proof. repeat split. Qed.
