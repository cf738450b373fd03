(** Vocabulary for C35: which values the parts of a pattern stand for. *)
From Verif Require Import Base Value Err Seq SeqSpec Pattern.
Local Open Scope Z_scope.

Section PatternSpec.
  Variables X O V S E : Type.
  Variable look : S -> V -> shape V.
  Variable char : Z -> V.
  Variable store : target X O -> stored V -> S -> outcome E S unit.
  Let lv := lvalue X O.
  Let binding := (target X O * stored V)%type.

  (** [v] is a sequence with elements [front ++ mid ++ back], and [x] is a new sequence of
      the same type with just the elements [mid] *)
  Inductive splits (s : S) (v : V) : list V -> list V -> list V -> stored V -> Prop :=
  | splits_seq k front mid back : look s v = Seq k (front ++ mid ++ back) -> splits s v front mid back (NewSeq k mid)
  | splits_chars a b c : look s v = Chars (a ++ b ++ c) -> splits s v (map char a) (map char b) (map char c) (NewChars b).
  Definition elements (s : S) (v : V) (l : list V) : Prop :=
    (exists k, look s v = Seq k l) \/ (exists c, look s v = Chars c /\ l = map char c).

  (** [one t x bs]: the pattern term [t], put against the value [x], matches and asks for
      the assignments [bs]; [each]: term by term; [binds]: a whole list of terms *)
  Inductive one (s : S) : lv -> V -> list binding -> Prop :=
  | one_blank x : one s LEmpty x []
  | one_name t x : one s (LNamed t) x [(t, Old x)]
  | one_nested ts x bs : binds s ts x bs -> one s (LTerms ts) x bs
  with each (s : S) : list lv -> list V -> list binding -> Prop :=
  | each_nil : each s [] [] []
  | each_cons t ts x xs b bs : one s t x b -> each s ts xs bs -> each s (t :: ts) (x :: xs) (b ++ bs)
  with binds (s : S) : list lv -> V -> list binding -> Prop :=
  | binds_exactly ts v l bs : elements s v l -> each s ts l bs -> binds s ts v bs
  | binds_star pre post v front mid back x b1 b2 :
      splits s v front mid back x -> each s pre front b1 -> each s post back b2 ->
      binds s (pre ++ LStarEmpty :: post) v (b1 ++ b2)
  | binds_star_named pre t post v front mid back x b1 b2 :
      splits s v front mid back x -> each s pre front b1 -> each s post back b2 ->
      binds s (pre ++ LStarNamed t :: post) v (b1 ++ (t, x) :: b2)
  (* sets, heaps and ranges cannot be indexed: only the number of their elements is looked at *)
  | binds_blanks m v n : look s v = Sized n -> n = m -> binds s (repeat LEmpty m) v []
  | binds_blanks_star m m' v n : look s v = Sized n -> (m + m' <= n)%nat ->
      binds s (repeat LEmpty m ++ LStarEmpty :: repeat LEmpty m') v [].

  (** carry out assignments in order *)
  Fixpoint perform (bs : list binding) (s : S) : outcome E S unit :=
    match bs with
    | [] => Good tt s
    | (t, x) :: r => match store t x s with Good _ s' => perform r s' | Bad e s' => Bad e s' | Crash => Crash end
    end.

  (** at most one `*` on every level *)
  Fixpoint one_star (t : lv) : Prop :=
    match t with
    | LTerms ts =>
        (length (filter is_variadic ts) <= 1)%nat /\
        (fix all (ts : list lv) : Prop := match ts with [] => True | t :: r => one_star t /\ all r end) ts
    | _ => True
    end.
  (** the targets of a pattern *)
  Fixpoint targets (t : lv) : list (target X O) :=
    match t with
    | LEmpty | LStarEmpty => []
    | LNamed t | LStarNamed t => [t]
    | LTerms ts => flat_map targets ts
    end.

  (** [w] is [v] or an element (of an element ...) of [v] *)
  Inductive inside (s : S) (v : V) : V -> Prop :=
  | inside_self : inside s v v
  | inside_seq u k l w : inside s v u -> look s u = Seq k l -> In w l -> inside s v w
  | inside_str u c x : inside s v u -> look s u = Chars c -> In x c -> inside s v (char x).
  (** nothing in [v] is a dictionary, a string with non-ASCII characters, or longer than 2^62 *)
  Definition plain (s : S) (v : V) : Prop :=
    forall w, inside s v w ->
      match look s w with
      | Seq _ l => Z.of_nat (length l) < 2 ^ 62
      | Chars c => ascii c /\ Z.of_nat (length c) < 2 ^ 62
      | Dict _ => False
      | _ => True
      end.
  Definition agree (s0 : S) (v : V) (s : S) : Prop := forall w, inside s0 v w -> look s w = look s0 w.
  (** assigning to the targets of the pattern does not change [v] or anything in it, and
      does not crash *)
  Definition quiet (s0 : S) (v : V) (ts : list lv) : Prop :=
    forall t x s, In t (targets (LTerms ts)) -> agree s0 v s ->
      match store t x s with Good _ s' => agree s0 v s' | Bad _ _ => True | Crash => False end.
End PatternSpec.
