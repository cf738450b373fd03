(** Vocabulary for C41, C42, C44, C45: runs of the definitional interpreter of LangSpec.v
    with enough fuel. *)
From Verif Require Import Base Native Err Vm Lang LangSpec Compile Lit.
Local Open Scope nat_scope.

Section spec.
Context (P : prims) (funs : nat -> option sfun).
Local Notation st := (st P).

(** expression [e] in frame [fr] and state [s] gives [r]: a value and a new state, or an error *)
Definition evals (fr : frame) (e : expr) (s : st) (r : res P hval) : Prop := exists n, eval P funs n fr e s = Some r.
(** statements [b] at the top level, with the variables of [fr] in scope *)
Definition runs (fr : frame) (b : stmts) (s : st) (r : res P outcome) : Prop := exists n last, exec_list P funs n true fr last b s = Some r.
(** a builtin tree, a call *)
Definition does (t : tree (W P) (E P)) (s : st) (r : res P hval) : Prop := exists n, stree P funs n t s = Some r.
Definition calls (f : hval) (args : list hval) (s : st) (r : res P hval) : Prop := exists n, scall P funs n f args s = Some r.

Definition start (w : W P) : st := St P [] [] [] w.
(** the main statements [b] end with [r], starting from variables [ls] and state [s] *)
Definition finishes (ls : list (option nat)) (b : stmts) (s : st) (r : verr (E P) * W P) : Prop :=
  (runs (Frame ls []) b s (Er P _ (fst r) (snd r))) \/
  (fst r = XExit /\ exists ls' last s', runs (Frame ls []) b s (Ok P _ (ONorm ls' last) s') /\ sworld P s' = snd r).
End spec.

(** The outcome of a whole program. *)
Definition source_outcome (P : prims) (p : program) (w : W P) (r : verr (E P) * W P) : Prop :=
  finishes P (fun i => nth_error (pr_funs p) i) [] (pr_main p) (start P w) r.

(** [pre] then [s] then [post] *)
Fixpoint sapp (a b : stmts) : stmts := match a with BNil => b | BCons s r => BCons s (sapp r b) end.
(** evaluate expressions and drop their values: `e1; e2; ..` *)
Fixpoint drops (es : list expr) : stmts := match es with [] => BNil | e :: r => BCons (SExpr e) (BCons SSemi (drops r)) end.
(** a program whose main part is `pre; let x = e; post` *)
Definition with_let (funs : list sfun) (pre : stmts) (e : expr) (post : stmts) : program :=
  Program funs (sapp pre (BCons (SLet e) post)).

(** The comparison chain e0 c1 e1 c2 e2 .. ck ek as an expression *)
Fixpoint chain_rest (c : cmpop) (e : expr) (l : list (cmpop * expr)) : cmps :=
  match l with [] => CLast c e | (c', e') :: r => CCons c e (chain_rest c' e' r) end.
Definition chain (e0 : expr) (c1 : cmpop) (e1 : expr) (c2 : cmpop) (e2 : expr) (l : list (cmpop * expr)) : expr :=
  ECompare e0 c1 e1 (chain_rest c2 e2 l).
(** What it means: operands are evaluated from the left, until a comparison of neighbours
    fails. [done] lists the operands evaluated, [b] is the result. *)
Inductive chain_ev (P : prims) (funs : nat -> option sfun) (fr : frame) : hval -> list (cmpop * expr) -> st P -> list expr -> bool -> st P -> Prop :=
| ch_end v s : chain_ev P funs fr v [] s [] true s
| ch_stop v c e l s x s' : evals P funs fr e s (Ok P _ x s') -> p_compare P (sworld P s') c v x = false ->
    chain_ev P funs fr v ((c, e) :: l) s [e] false s'
| ch_go v c e l s x s' d b s2 : evals P funs fr e s (Ok P _ x s') -> p_compare P (sworld P s') c v x = true ->
    chain_ev P funs fr x l s' d b s2 -> chain_ev P funs fr v ((c, e) :: l) s (e :: d) b s2.
(** the comparison operators as primitive operations agree with those of branches *)
Definition compare_ok (P : prims) : Prop :=
  forall w c a b, p_op P (PBinary (cmp_binop c)) [a; b] w = TRet w (HBool (p_compare P w c a b)).

(** Argument lists and the items of literals: the values, evaluated from the left; a spread
    contributes what [spread] says, in its place. *)
Section items.
Context (P : prims) (funs : nat -> option sfun) (spread : hval -> W P -> W P -> list hval -> Prop) (fr : frame).
Inductive items_ev : args -> st P -> list hval -> st P -> Prop :=
| ar_nil s : items_ev ANil s [] s
| ar_plain e r s v s1 vs s2 : evals P funs fr e s (Ok P _ v s1) -> items_ev r s1 vs s2 ->
    items_ev (ACons false e r) s (v :: vs) s2
| ar_spread e r s v s1 w l vs s2 : evals P funs fr e s (Ok P _ v s1) -> spread v (sworld P s1) w l ->
    items_ev r (with_world P w s1) vs s2 -> items_ev (ACons true e r) s (l ++ vs) s2.
End items.
(** a spread argument contributes its elements *)
Definition elements_of (P : prims) (v : hval) (w w' : W P) (l : list hval) : Prop := p_unroll P v w = (w', inr l).
Definition args_ev (P : prims) (funs : nat -> option sfun) (fr : frame) : args -> st P -> list hval -> st P -> Prop :=
  items_ev P funs (elements_of P) fr.
(** the same arguments, given as constants *)
Fixpoint consts (vs : list hval) : args := match vs with [] => ANil | v :: r => ACons false (EConst v) (consts r) end.
Fixpoint args_app (a b : args) : args := match a with ANil => b | ACons s e r => ACons s e (args_app r b) end.

(** In a dict literal the plain items between two spreads are keys and values in turn. *)
Fixpoint flushes (f : nat -> bool) (k : nat) (a : args) : bool :=
  match a with ANil => f k | ACons true _ r => f k && flushes f 0 r | ACons false _ r => flushes f (S k) r end.
Definition fits (t : littype) (k : nat) : bool := match t with LitDict => Nat.even k | _ => true end.
Definition whole (t : littype) (a : args) : bool := flushes (fits t) 0 a.

(** literals under construction of type [t] hold what was added so far; a spread of [v] adds
    what [spread] says *)
Record holds_elements (P : prims) (t : littype) (spread : hval -> W P -> W P -> list hval -> Prop) (reps : L P -> list hval -> Prop) : Prop := {
  he_new : forall n, reps (l_new P t n) [];
  he_acc : forall l xs vs w, reps l xs -> fits t (length vs) = true -> reps (l_acc P l vs w) (xs ++ vs);
  he_unroll : forall l xs v w w' ys, reps l xs -> spread v w w' ys ->
    exists l', l_unroll P l v w = (w', inr l') /\ reps l' (xs ++ ys) }.

(** Any primitive operations, with the literals of Lit.v in place of theirs: [same] is equality
    of keys, [not_pair] the error for a spread into a dict of something that is not a pair.
    An accumulator that has panicked stays [None]. *)
Definition with_literals (P : prims) (same : hval -> hval -> bool) (to_pair : hval -> option (hval * hval)) (not_pair : hval -> E P)
  (new_object : option (literal (V := hval)) -> W P -> W P * hval) : prims := {|
  W := W P; L := option (literal (V := hval)); E := E P; p_bool := p_bool P; p_compare := p_compare P; p_compare_msg := p_compare_msg P;
  p_op := p_op P; p_call := p_call P; p_vector := p_vector P; p_unroll := p_unroll P; p_next := p_next P;
  l_new t _ := Some (lit_new t);
  l_acc l vs _ := match l with Some l => lit_acc same l vs | None => None end;
  l_unroll l v w :=
    match p_unroll P v w with
    | (w, inl e) => (w, inl e)
    | (w, inr vs) =>
        match l with
        | None => (w, inr None)
        | Some l => match lit_unroll same to_pair l vs with Some l => (w, inr (Some l)) | None => (w, inl (not_pair v)) end
        end
    end;
  l_end := new_object |}.
(** What a literal is made of: lists and vectors have the items in order; a set has each item
    that does not match an earlier one; a dict is filled key by key, value by value, from the left. *)
Fixpoint distinct (same : hval -> hval -> bool) (seen l : list hval) : list hval :=
  match l with [] => [] | x :: r => if existsb (same x) seen then distinct same seen r else x :: distinct same (seen ++ [x]) r end.
Fixpoint entries_of (l : list hval) : list (hval * hval) := match l with k :: x :: r => (k, x) :: entries_of r | _ => [] end.
Definition literal_of (same : hval -> hval -> bool) (t : littype) (items : list hval) : literal :=
  match t with
  | LitList => LList items | LitVector => LVector items
  | LitSet => LSet (distinct same [] items)
  | LitDict => LDict (fold_left (fun d e => imap_insert same (fst e) (snd e) d) (entries_of items) [])
  end.
(** what a spread contributes: elements, or for a dict the keys and values of elements that are pairs *)
Inductive pairs_of (to_pair : hval -> option (hval * hval)) : list hval -> list hval -> Prop :=
| po_nil : pairs_of to_pair [] []
| po_cons v k x vs l : to_pair v = Some (k, x) -> pairs_of to_pair vs l -> pairs_of to_pair (v :: vs) (k :: x :: l).
Definition contributes (P : prims) (to_pair : hval -> option (hval * hval)) (t : littype) (v : hval) (w w' : W P) (l : list hval) : Prop :=
  match t with LitDict => exists vs, elements_of P v w w' vs /\ pairs_of to_pair vs l | _ => elements_of P v w w' l end.

(** Scoping: every variable a frame, a closure or the globals refer to exists. *)
Definition loc_in (P : prims) (s : st P) (l : nat) : Prop := l < length (store P s).
Definition refers (ls : list (option nat)) (l : nat) : Prop := In (Some l) ls.
Definition scoped (P : prims) (fr : frame) (s : st P) : Prop :=
  (forall l, refers (locals fr) l -> loc_in P s l) /\ (forall l, refers (up fr) l -> loc_in P s l) /\
  (forall ls l, In ls (senvs P s) -> refers ls l -> loc_in P s l) /\ (forall l, In l (globals P s) -> loc_in P s l).

(** From [s] to [s']: variables are only added, and what closures and globals refer to stays. *)
Definition ahead (P : prims) (s s' : st P) : Prop := length (store P s) <= length (store P s') /\
  (forall c ls, nth_error (senvs P s) c = Some ls -> nth_error (senvs P s') c = Some ls) /\
  (forall i l, nth_error (globals P s) i = Some l -> nth_error (globals P s') i = Some l).
(** variable [x] of frame [fr] is the one at location [l] *)
Definition is_at (P : prims) (fr : frame) (x : var) (s : st P) (l : nat) : Prop :=
  match x with
  | VLocal i => nth_error (locals fr) i = Some (Some l)
  | VUp i => nth_error (up fr) i = Some (Some l)
  | VGlobal i => nth_error (globals P s) i = Some l
  end.
(** nothing that is in scope somewhere refers to [l] *)
Definition fresh (P : prims) (fr : frame) (s : st P) (l : nat) : Prop :=
  ~ refers (locals fr) l /\ ~ refers (up fr) l /\ (forall ls, In ls (senvs P s) -> ~ refers ls l) /\ ~ In l (globals P s).

Definition equivalence (same : hval -> hval -> bool) : Prop :=
  (forall x, same x x = true) /\ (forall x y, same x y = same y x) /\ (forall x y z, same x y = true -> same y z = true -> same x z = true).
(** the value of a key is the one given last *)
Fixpoint lookup_last (same : hval -> hval -> bool) (k : hval) (l : list (hval * hval)) : option hval :=
  match l with [] => None | (k', x) :: r => match lookup_last same k r with Some y => Some y | None => if same k k' then Some x else None end end.
Fixpoint lookup_first (same : hval -> hval -> bool) (k : hval) (l : list (hval * hval)) : option hval :=
  match l with [] => None | (k', x) :: r => if same k k' then Some x else lookup_first same k r end.
