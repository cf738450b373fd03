(** Syntax highlighting (C74) and the formatted page (C75). *)
From Verif Require Import Base Native Value Ops Scan ScanSpec ScanProofs2 Syntax SyntaxSpec SyntaxProofs.
From Coq Require Import String List.
Local Open Scope Z_scope.

(** the names of some natives, for the examples *)
Definition some_names (w : list Z) : option native :=
  if list_eq_dec Z.eq_dec w (text "print") then Some NF_Print else if list_eq_dec Z.eq_dec w (text "int") then Some NF_Int else None.

(** Highlighting never fails, for any text after any prefix: the characters it pushes are
    exactly those of the text, and the calls follow the grammar which is promised to
    formatters: sections are ended with their type, and are not nested. *)
Theorem C74_text : forall find input prefix, exists es, highlight find input prefix = Some es /\ List.map fst (colours None es) = input /\ proper es.
Proof. intros find input prefix. destruct (highlight_total find input prefix) as (es & E & P & Pr). exists es. rewrite <- pushed_colours. auto. Qed.
Print Assumptions C74_text.

(** Each token of a text is shown in the colour of its type, and between the tokens white
    space is plain and the rest, from the first other character on, is a comment; this
    describes exactly one colouring. *)
Theorem C74_painted : forall find t, exists s es, scan t = Some s /\ highlight find t [] = Some es /\
  painted find 0 t (significant (tokens s)) (colours None es) /\
  forall g, painted find 0 t (significant (tokens s)) g -> g = colours None es.
Proof. intros find t. destruct (highlight_painted find t) as (s & es & g & E & H & P & C & U). exists s, es. rewrite C. auto. Qed.
Print Assumptions C74_painted.
Example C74_painted_ex : highlight some_names (text "let x=int(' y)' // z") [] = Some
  (Begin TKeyword :: List.map Push (text "let") ++ End TKeyword :: Push 32 ::
   Begin TSyntax :: Push 120 :: End TSyntax :: Begin TSyntax :: Push 61 :: End TSyntax :: Begin TType :: List.map Push (text "int") ++ End TType ::
   Begin TSyntax :: Push 40 :: End TSyntax :: Begin TString :: List.map Push (text "' y)'") ++ End TString :: Push 32 ::
   Begin TComment :: List.map Push (text "// z") ++ [End TComment]).
Proof. vm_compute. reflexivity. Qed.

(** The types of tokens: words for constants and the operators which are words, other
    reserved words, literals, names; a name is a type exactly if it names a native which
    [is] accepts as a type. *)
Theorem C74_types : forall find,
  (forall t k, In (t, k) reserved -> ty find t = if in_dec string_dec k ["true"; "false"; "nil"; "and"; "or"; "not"; "is"; "in"; "self"]%string then TConstant else TKeyword) /\
  (forall t k, In (t, k) symbols -> ty find t = TSyntax) /\
  (forall v, ty find (IntLiteral v) = TNumber /\ ty find (ComplexLiteral v) = TNumber) /\ (forall v, ty find (StringLiteral v) = TString) /\
  (forall w, find w = None -> ty find (Identifier w) = TSyntax) /\
  (forall w n, find w = Some n -> (forall x, exists b, binary_is x (VNative n) false = Err.Ok (VBool b)) -> ty find (Identifier w) = TType) /\
  (forall w n, find w = Some n -> (forall x, binary_is x (VNative n) false = Err.Err (Err.TypeErrorBinaryIs x (VNative n))) -> ty find (Identifier w) = TNative) /\
  (forall n, (forall x, exists b, binary_is x (VNative n) false = Err.Ok (VBool b)) \/ forall x, binary_is x (VNative n) false = Err.Err (Err.TypeErrorBinaryIs x (VNative n))).
Proof.
  intro find. split; [|split; [|split; [auto|split; [reflexivity|split; [|split; [|split]]]]]].
  - intros t k H. unfold reserved in H. cbn [In] in H. repeat (destruct H as [H|H]; [injection H as <- <-; reflexivity|]). destruct H.
  - intros t k H. unfold symbols in H. cbn [In] in H. repeat (destruct H as [H|H]; [injection H as <- <-; reflexivity|]). destruct H.
  - intros w E. cbn [ty]. rewrite E. reflexivity.
  - intros w n E H. cbn [ty]. rewrite E. destruct (H VNil) as [b Hb]. destruct n; first [reflexivity|discriminate Hb].
  - intros w n E H. cbn [ty]. rewrite E. specialize (H VNil). destruct n; first [reflexivity|discriminate H].
  - intro n. destruct n; first [right; intro x; reflexivity|left; intro x; eexists; reflexivity].
Qed.
Print Assumptions C74_types.
Example C74_types_ex : some_names (text "int") = Some NF_Int /\ (forall x, exists b, binary_is x (VNative NF_Int) false = Err.Ok (VBool b)) /\
  some_names (text "print") = Some NF_Print /\ (forall x, binary_is x (VNative NF_Print) false = Err.Err (Err.TypeErrorBinaryIs x (VNative NF_Print))).
Proof. split; [reflexivity|]. split; [intro x; eexists; reflexivity|]. split; reflexivity. Qed.

(** A line that continues an ASCII text is shown as it is in the whole text, but for the
    white space it begins with. *)
Theorem C74_continuation_partial : forall find prefix sp rest, ascii prefix -> Forall space_char sp -> starts_plain rest ->
  exists es all, highlight find (sp ++ rest) prefix = Some es /\ highlight find (prefix ++ sp ++ rest) [] = Some all /\
    colours None es = as_ None sp ++ skipn (List.length (prefix ++ sp)) (colours None all).
Proof. intros find prefix sp rest A F P. exact (highlight_continued find prefix (sp ++ rest) sp rest A eq_refl F P). Qed.
Print Assumptions C74_continuation_partial.
Example C74_continuation_ex : ascii (text "let x = 'a ") /\ starts_plain (text "b' + 1") /\
  highlight some_names (text "b' + 1") (text "let x = 'a ") = Some
   (Begin TString :: Push 98 :: Push 39 :: End TString :: Push 32 :: Begin TSyntax :: Push 43 :: End TSyntax :: Push 32 :: Begin TNumber :: Push 49 :: [End TNumber]).
Proof. split; [repeat constructor; discriminate|]. split; [cbn; unfold space_char; lia|vm_compute; reflexivity]. Qed.
(** That white space is not shown as a part of the string which is continued. *)
Theorem C74_continued_string_refuted : exists find prefix input es all, highlight find input prefix = Some es /\ highlight find (prefix ++ input) [] = Some all /\
  colours None es = [(32, None); (39, Some TString)] /\ skipn (List.length prefix) (colours None all) = [(32, Some TString); (39, Some TString)].
Proof. exists some_names, (text "'"), (text " '"). do 2 eexists. split; [vm_compute; reflexivity|]. split; [vm_compute; reflexivity|]. split; reflexivity. Qed.
Print Assumptions C74_continued_string_refuted.
(** After a prefix which is not ASCII the colours are wrong: the prefix is measured in bytes,
    the tokens in characters.  After the line 'é' the line [12 3] is shown as a number of one
    digit, a comment, a blank number and another comment. *)
Theorem C74_prefix_refuted : exists find prefix input es all, starts_plain input /\ highlight find input prefix = Some es /\ highlight find (prefix ++ input) [] = Some all /\
  prefix = [39; 233; 39; 10] /\ input = text "12 3" /\
  colours None es = [(49, Some TNumber); (50, Some TComment); (32, Some TNumber); (51, Some TComment)] /\
  skipn (List.length prefix) (colours None all) = [(49, Some TNumber); (50, Some TNumber); (32, None); (51, Some TNumber)].
Proof. exists some_names, [39; 233; 39; 10], (text "12 3"). do 2 eexists. split; [cbn; unfold space_char; lia|]. split; [vm_compute; reflexivity|]. split; [vm_compute; reflexivity|]. split; [reflexivity|]. split; [reflexivity|]. split; vm_compute; reflexivity. Qed.
Print Assumptions C74_prefix_refuted.

(** The formatter that breaks sections at line feeds gives its inner formatter the same
    characters in the same colours, but line feeds without colour, and keeps to the grammar;
    so no section has a line feed inside. *)
Theorem C74_lines : forall es, proper es -> proper (block None es) /\
  colours None (block None es) = List.map (fun x => if fst x =? 10 then (10, None) else x) (colours None es) /\
  forall o, In (10, o) (colours None (block None es)) -> o = None.
Proof.
  intros es H. split; [apply block_proper; exact H|]. split; [apply block_colours|]. intros o I. rewrite block_colours in I. apply in_map_iff in I. destruct I as ([c x] & E & _).
  unfold unline in E. cbn [fst] in E. destruct (Z.eqb_spec c 10); congruence.
Qed.
Print Assumptions C74_lines.
Example C74_lines_ex : block None (Begin TString :: Push 97 :: Push 10 :: Push 98 :: [End TString]) =
  Begin TString :: Push 97 :: End TString :: Push 10 :: Begin TString :: Push 98 :: [End TString].
Proof. reflexivity. Qed.

(** The page written by --format, read as a browser does, shows the text in its colours:
    there are no tags or entities but those of the formatter, whatever the text, and
    nothing of the text is lost except carriage returns; tabs are four spaces, line feeds
    are outside of the sections, and the types to be left out have no colour. *)
Theorem C75_page : forall find skip t, exists p es, format_file find skip t = Some p /\ highlight find t [] = Some es /\
  List.map fst (colours None es) = t /\ page Out None p = Some (flat_map (on_page skip) (colours None es)).
Proof.
  intros find skip t. destruct (format_ok find skip t) as (p & es & F & E & P). destruct (highlight_total find t []) as (es' & E' & T & _). rewrite E in E'. injection E' as <-.
  exists p, es. rewrite <- pushed_colours. auto.
Qed.
Print Assumptions C75_page.
Example C75_page_ex : format_file some_names (fun t => match t with TSyntax => true | _ => false end) (text "print('<b>'" ++ [10] ++ text "&1)") =
  Some (text "<span class=""cordy-native"">print</span>(<span class=""cordy-string"">&#39;&lt;b&gt;&#39;</span>" ++ [10] ++ text "&amp;<span class=""cordy-number"">1</span>)").
Proof. vm_compute. reflexivity. Qed.
(** Two texts without tabs or carriage returns which look the same on the page are the same. *)
Theorem C75_faithful : forall find skip t t' p, format_file find skip t = Some p -> format_file find skip t' = Some p ->
  ~ In 13 t -> ~ In 9 t -> ~ In 13 t' -> ~ In 9 t' -> t = t'.
Proof.
  intros find skip t t' p F F' A B A' B'. destruct (C75_page find skip t) as (q & es & F1 & _ & T & P). destruct (C75_page find skip t') as (q' & es' & F2 & _ & T' & P').
  rewrite F in F1. injection F1 as <-. rewrite F' in F2. injection F2 as <-. rewrite P in P'. injection P' as P'.
  assert (G : forall l : shown, ~ In 13 (List.map fst l) -> ~ In 9 (List.map fst l) -> List.map fst (flat_map (on_page skip) l) = List.map fst l).
  { clear. induction l as [|[c o] l IH]; intros A B; [reflexivity|]. cbn [flat_map List.map fst In] in *. rewrite map_app, IH by tauto. unfold on_page. cbn [fst snd].
    destruct (Z.eqb_spec c 13); [tauto|]. destruct (Z.eqb_spec c 9); [tauto|]. destruct (Z.eqb_spec c 10) as [->|]; reflexivity. }
  apply (f_equal (List.map fst)) in P'. rewrite !G in P' by (rewrite ?T, ?T'; auto). congruence.
Qed.
Print Assumptions C75_faithful.
(** The web terminal does not escape ampersands: two different texts are shown alike. *)
Theorem C75_web_refuted : exists find t t' p, t <> t' /\ t = text "'['" /\ t' = text "'&#91;'" /\ web_scan find t [] = Some p /\ web_scan find t' [] = Some p.
Proof. exists some_names, (text "'['"), (text "'&#91;'"). eexists. split; [discriminate|]. split; [reflexivity|]. split; [reflexivity|]. split; vm_compute; reflexivity. Qed.
Print Assumptions C75_web_refuted.

(** Also in a text with errors, tokens other than line breaks come in the order of their
    places, do not overlap, are not empty, and lie within the text. *)
Theorem C48_ordered_always : forall t, exists s, scan t = Some s /\
  (forall x, In x (significant (tokens s)) -> 0 <= fst (fst x) /\ 0 < snd (fst x) /\ fst (fst x) + snd (fst x) <= Z.of_nat (List.length t)) /\
  forall i j (x y : location * token), (i < j)%nat -> nth_error (significant (tokens s)) i = Some x -> nth_error (significant (tokens s)) j = Some y ->
    fst (fst x) + snd (fst x) <= fst (fst y).
Proof.
  intro t. destruct (scan_toks t) as (s & E & T). exists s. split; auto. destruct (toks_pairs _ _ _ T) as [A B]. split; auto.
  intros x I. apply In_nth_error in I. destruct I as [n I]. apply (A n x) in I. lia.
Qed.
Print Assumptions C48_ordered_always.
Example C48_ordered_always_ex : exists s, scan (text "0a # 'b") = Some s /\ significant (tokens s) = [((1, 1), Identifier [97]); ((5, 2), StringLiteral [98])] /\ List.length (errors s) = 3%nat.
Proof. eexists. split; [vm_compute; reflexivity|]. split; vm_compute; reflexivity. Qed.
