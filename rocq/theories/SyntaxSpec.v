(** What a highlighted text should look like. *)
From Verif Require Import Base Native Scan Syntax.
From Coq Require Import String List.
Local Open Scope Z_scope.

(** the grammar in the comment of the Formatter trait (syntax.rs 10-16): sections are not
    nested, and each is ended with the type it has begun with *)
Inductive proper : list event -> Prop :=
| pr_nil : proper []
| pr_push c es : proper es -> proper (Push c :: es)
| pr_section t w es : proper es -> proper (Begin t :: List.map Push w ++ End t :: es).

(** what is shown: the characters, each with the type of the section it is in *)
Definition shown : Type := list (Z * option ttype).
Fixpoint colours (cur : option ttype) (es : list event) : shown :=
  match es with
  | [] => []
  | Begin t :: r => colours (Some t) r
  | End _ :: r => colours None r
  | Push c :: r => (c, cur) :: colours cur r
  end.
(** all of [w] in the colour [o] *)
Definition as_ (o : option ttype) (w : list Z) : shown := List.map (fun c => (c, o)) w.

(** the white space [w] at the beginning of a text *)
Definition space_char (c : Z) : Prop := c = 32 \/ c = 9 \/ c = 13 \/ c = 10.
Definition starts_plain (t : list Z) : Prop := match t with [] => True | c :: _ => ~ space_char c end.

(** the text between two tokens: white space is plain, and from the first other character
    on it is a comment *)
Inductive gap_shown : list Z -> shown -> Prop :=
| gap_ sp c : Forall space_char sp -> starts_plain c -> gap_shown (sp ++ c) (as_ None sp ++ as_ (Some TComment) c).

(** [painted find i t toks g]: [t], which begins at position [i], is shown as [g]: the text of
    each token in its type, the text between as a gap *)
Inductive painted (find : list Z -> option native) : Z -> list Z -> list (location * token) -> shown -> Prop :=
| pa_end i t g : gap_shown t g -> painted find i t [] g
| pa_token i a w t start tok toks g g' :
    start = i + Z.of_nat (length a) -> gap_shown a g ->
    painted find (start + Z.of_nat (length w)) t toks g' ->
    painted find i (a ++ w ++ t) (((start, Z.of_nat (length w)), tok) :: toks) (g ++ as_ (Some (ty find tok)) w ++ g').

Definition ascii (t : list Z) : Prop := Forall (fun c => 0 <= c < 128) t.

(** how a page is read: characters, entities, and tags that set the current type *)
Definition tags : list (list Z * option ttype) :=
  (text "/span", None) ::
  List.map (fun t => (text "span class=""cordy-" ++ text (class_name t) ++ text """", Some t)) [TKeyword; TConstant; TNative; TType; TNumber; TString; TSyntax; TComment].
Definition entities : list (list Z * Z) := [(text "lt", 60); (text "gt", 62); (text "quot", 34); (text "#39", 39); (text "amp", 38)].
Fixpoint look {A} (k : list Z) (l : list (list Z * A)) : option A :=
  match l with [] => None | (k', x) :: r => if list_eq_dec Z.eq_dec k k' then Some x else look k r end.
(** reading state: outside; inside of a tag or an entity, with what has been read of it *)
Inductive state := Out | InTag (acc : list Z) | InEntity (acc : list Z).
Fixpoint page (st : state) (cur : option ttype) (l : list Z) : option shown :=
  match l with
  | [] => match st with Out => Some [] | _ => None end
  | c :: r =>
      match st with
      | Out => if c =? 60 then page (InTag []) cur r else if c =? 38 then page (InEntity []) cur r
               else match page Out cur r with Some g => Some ((c, cur) :: g) | None => None end
      | InTag acc => if c =? 62 then match look acc tags with Some o => page Out o r | None => None end else page (InTag (acc ++ [c])) cur r
      | InEntity acc => if c =? 59 then match look acc entities, page Out cur r with Some d, Some g => Some ((d, cur) :: g) | _, _ => None end
                        else page (InEntity (acc ++ [c])) cur r
      end
  end.
(** the page does not show carriage returns, shows tabs as four spaces, line feeds outside of
    the sections, and the types to be skipped without colour *)
Definition on_page (skip : ttype -> bool) (x : Z * option ttype) : shown :=
  let o := match snd x with Some t => if skip t then None else Some t | None => None end in
  if fst x =? 13 then [] else if fst x =? 9 then [(32, o); (32, o); (32, o); (32, o)] else if fst x =? 10 then [(10, None)] else [(fst x, o)].
