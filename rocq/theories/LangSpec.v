(** What programs mean: a definitional interpreter for the syntax of Lang.v.

    Variables live in a store of locations that are allocated when a declaration is executed
    and never reused; a closure is a function with the list of locations it captured.
    Operators, builtins and collections are those of the record [prims]; builtins are trees
    that may call back.  Evaluation is left to right.  [None] means: not finished with this
    much fuel, or the program is not meaningful (reads a variable that does not exist, breaks
    out of nothing, ...), in which case nothing is claimed. *)
From Verif Require Import Base Native Err Vm Lang.
Local Open Scope nat_scope.

Section sem.
Context (P : prims) (funs : nat -> option sfun).

Record st := St {
  store : list hval;                     (* location -> value *)
  senvs : list (list (option nat));      (* closure number -> captured locations; None: never used *)
  globals : list nat;                    (* location of each global declared so far *)
  sworld : W P }.
Definition with_world w s := St (store s) (senvs s) (globals s) w.
(** locals: None for the hidden variable of a `for` loop *)
Record frame := Frame { locals : list (option nat); up : list (option nat) }.

(** A finished computation: a value and a state, or an error and the final world. *)
Inductive res (A : Type) := Ok (a : A) (s : st) | Er (e : verr (E P)) (w : W P).
Arguments Ok {A}. Arguments Er {A}.
Definition M (A : Type) := option (res A).
Definition ret {A} (a : A) (s : st) : M A := Some (Ok a s).
Definition bind {A B} (m : M A) (k : A -> st -> M B) : M B :=
  match m with None => None | Some (Er e w) => Some (Er e w) | Some (Ok a s) => k a s end.
Notation "'do' ( x , s ) <- m ;; k" := (bind m (fun x s => k)) (at level 200, m at level 100, k at level 200).

Definition alloc (v : hval) (s : st) : nat * st :=
  (length (store s), St (store s ++ [v]) (senvs s) (globals s) (sworld s)).
Fixpoint alloc_list (vs : list hval) (s : st) : list (option nat) * st :=
  match vs with
  | [] => ([], s)
  | v :: r => let '(l, s) := alloc v s in let '(ls, s) := alloc_list r s in (Some l :: ls, s)
  end.
Definition set_loc (l : nat) (v : hval) (s : st) : st := St (upd (store s) l v) (senvs s) (globals s) (sworld s).
(** location of a variable; a global that is not declared yet is an error *)
Definition var_loc (fr : frame) (x : var) (s : st) : M nat :=
  match x with
  | VLocal i => match nth_error (locals fr) i with Some (Some l) => ret l s | _ => None end
  | VUp i => match nth_error (up fr) i with Some (Some l) => ret l s | _ => None end
  | VGlobal i => match nth_error (globals s) i with Some l => ret l s | None => Some (Er (XUndeclared i) (sworld s)) end
  end.
Definition read (l : nat) (s : st) : M hval := match nth_error (store s) l with Some v => ret v s | None => None end.
(** a fresh closure *)
Fixpoint captured (fr : frame) (cs : list capref) : option (list (option nat)) :=
  match cs with
  | [] => Some []
  | c :: r =>
      match captured fr r with
      | None => None
      | Some ls =>
          match c with
          | CapLocal i => match nth_error (locals fr) i with Some (Some l) => Some (Some l :: ls) | _ => None end
          | CapUp i => match nth_error (up fr) i with Some o => Some (o :: ls) | None => None end
          | CapStale _ => Some (None :: ls)
          end
      end
  end.
Definition new_closure (f : nat) (ls : list (option nat)) (s : st) : hval * st :=
  (HClosure f (length (senvs s)), St (store s) (senvs s ++ [ls]) (globals s) (sworld s)).
(** declare a variable; [g]: a global *)
Definition declare (g : bool) (v : hval) (fr : frame) (s : st) : list (option nat) * st :=
  let '(l, s) := alloc v s in
  (locals fr ++ [Some l], if g then St (store s) (senvs s) (globals s ++ [l]) (sworld s) else s).

(** calling convention: number of required arguments, and whether [n] arguments are acceptable *)
Definition required (f : sfun) : nat := sf_args f - length (sf_defs f).
Definition accepts (f : sfun) (n : nat) : bool := (required f <=? n) && (sf_variadic f || (n <=? sf_args f)).

(** outcome of a statement: the variables in scope after it and the value it leaves *)
Inductive outcome := ONorm (locals : list (option nat)) (last : option hval) | OBreak | OContinue | OReturned (v : hval).

(** the comparison chain of Python: each operand evaluated once *)
Fixpoint eval (n : nat) (fr : frame) (e : expr) (s : st) {struct n} : M hval :=
  match n with
  | O => None
  | S n =>
    match e with
    | EConst v => ret v s
    | EQuit => Some (Er XExit (sworld s))
    | EVar x => do (l, s) <- var_loc fr x s ;; read l s
    | EMethod f e => do (v, s) <- eval n fr e s ;; ret (HPartial (HFun f) [v]) s
    | EClosure f c cs =>
        match captured fr (c :: cs) with
        | Some ls => let '(v, s) := new_closure f ls s in ret v s
        | None => None
        end
    | ECall f a => do (fv, s) <- eval n fr f s ;; do (vs, s) <- eval_args n fr a s ;; scall n fv vs s
    | ECompose a f => do (v, s) <- eval n fr a s ;; do (fv, s) <- eval n fr f s ;; scall n fv [v] s
    | EPrim p a =>
        do (vs, s) <- eval_plain n fr a s ;;
        if length vs =? prim_arity p then stree n (p_op P p vs (sworld s)) s else None
    | EBinSwap o lhs rhs =>
        do (r, s) <- eval n fr rhs s ;; do (l, s) <- eval n fr lhs s ;; stree n (p_op P (PBinary o) [l; r] (sworld s)) s
    | ECompare lhs c e rest =>
        do (l, s) <- eval n fr lhs s ;; do (r, s) <- eval n fr e s ;;
        if p_compare P (sworld s) c l r then eval_chain n fr r rest s else ret (HBool false) s
    | ELit t a => do (l, s) <- eval_lit n fr (l_new P t (n_args a)) [] a s ;; let '(w, v) := l_end P l (sworld s) in ret v (with_world w s)
    | EAnd a b => do (v, s) <- eval n fr a s ;; if p_bool P (sworld s) v then eval n fr b s else ret v s
    | EOr a b => do (v, s) <- eval n fr a s ;; if p_bool P (sworld s) v then ret v s else eval n fr b s
    | EIf c a b => do (v, s) <- eval n fr c s ;; if p_bool P (sworld s) v then eval n fr a s else eval n fr b s
    | ESwapField a i b o =>
        do (x, s) <- eval n fr a s ;; do (old, s) <- stree n (p_op P (PGetField i) [x] (sworld s)) s ;;
        do (y, s) <- eval n fr b s ;; do (v, s) <- stree n (p_op P (PBinary o) [old; y] (sworld s)) s ;;
        stree n (p_op P (PSetField i) [x; v] (sworld s)) s
    | EArrayOp a i o b =>
        do (x, s) <- eval n fr a s ;; do (ix, s) <- eval n fr i s ;;
        do (old, s) <- stree n (p_op P PIndex [x; ix] (sworld s)) s ;;
        do (y, s) <- eval n fr b s ;;
        do (v, s) <- match o with Some o => stree n (p_op P (PBinary o) [old; y] (sworld s)) s | None => scall n y [old] s end ;;
        stree n (p_op P PStoreArray [x; ix; v] (sworld s)) s
    | EAssign x e =>
        do (v, s) <- eval n fr e s ;; do (l, s) <- var_loc fr x s ;;
        if l <? length (store s) then ret v (set_loc l v s) else None
    end
  end
(** arguments of a call; a spread contributes its elements in place *)
with eval_args (n : nat) (fr : frame) (a : args) (s : st) {struct n} : M (list hval) :=
  match n with
  | O => None
  | S n =>
    match a with
    | ANil => ret [] s
    | ACons spread e r =>
        do (v, s) <- eval n fr e s ;;
        if spread then
          match p_unroll P v (sworld s) with
          | (w, inl x) => Some (Er (XPrim x) w)
          | (w, inr l) => do (vs, s) <- eval_args n fr r (with_world w s) ;; ret (l ++ vs) s
          end
        else do (vs, s) <- eval_args n fr r s ;; ret (v :: vs) s
    end
  end
(** operands of an operator: no spreads *)
with eval_plain (n : nat) (fr : frame) (a : args) (s : st) {struct n} : M (list hval) :=
  match n with
  | O => None
  | S n =>
    match a with
    | ANil => ret [] s
    | ACons true _ _ => None
    | ACons false e r => do (v, s) <- eval n fr e s ;; do (vs, s) <- eval_plain n fr r s ;; ret (v :: vs) s
    end
  end
(** the rest of a comparison chain whose left operand is [l] *)
with eval_chain (n : nat) (fr : frame) (l : hval) (r : cmps) (s : st) {struct n} : M hval :=
  match n with
  | O => None
  | S n =>
    match r with
    | CLast c e => do (v, s) <- eval n fr e s ;; stree n (p_op P (PBinary (cmp_binop c)) [l; v] (sworld s)) s
    | CCons c e r =>
        do (v, s) <- eval n fr e s ;;
        if p_compare P (sworld s) c l v then eval_chain n fr v r s else ret (HBool false) s
    end
  end
(** elements of a collection literal; [pend]: elements not yet added (they are added together) *)
with eval_lit (n : nat) (fr : frame) (l : L P) (pend : list hval) (a : args) (s : st) {struct n} : M (L P) :=
  match n with
  | O => None
  | S n =>
    let flush := match pend with [] => l | _ => l_acc P l pend (sworld s) end in
    match a with
    | ANil => ret flush s
    | ACons true e r =>
        do (v, s) <- eval n fr e s ;;
        match l_unroll P flush v (sworld s) with
        | (w, inl x) => Some (Er (XPrim x) w)
        | (w, inr l) => eval_lit n fr l [] r (with_world w s)
        end
    | ACons false e r => do (v, s) <- eval n fr e s ;; eval_lit n fr l (pend ++ [v]) r s
    end
  end
(** statements; [g]: declarations here are global *)
with exec (n : nat) (g : bool) (fr : frame) (c : stmt) (s : st) {struct n} : M outcome :=
  match n with
  | O => None
  | S n =>
    let skip s := ret (ONorm (locals fr) None) s in
    match c with
    | SExpr e => do (v, s) <- eval n fr e s ;; ret (ONorm (locals fr) (Some v)) s
    | SSemi => skip s
    | SLet e => do (v, s) <- eval n fr e s ;; let '(ls, s) := declare g v fr s in ret (ONorm ls None) s
    | SLetNil => let '(ls, s) := declare g HNil fr s in ret (ONorm ls None) s
    | SStruct v => let '(ls, s) := declare g v fr s in ret (ONorm ls None) s
    | SFn f [] => let '(ls, s) := declare g (HFun f) fr s in ret (ONorm ls None) s
    | SFn f cs =>
        (* the function's own variable can be captured *)
        let '(ls, s) := declare g (HClosure f (length (senvs s))) fr s in
        match captured (Frame ls (up fr)) cs with
        | Some cl => let '(_, s) := new_closure f cl s in ret (ONorm ls None) s
        | None => None
        end
    | SReturn None => ret (OReturned HNil) s
    | SReturn (Some e) => do (v, s) <- eval n fr e s ;; ret (OReturned v) s
    | SIf e b el => do (v, s) <- eval n fr e s ;; if p_bool P (sworld s) v then exec_block n fr b s else exec_else n fr el s
    | SWhile e b el =>
        do (v, s) <- eval n fr e s ;;
        do (o, s') <- (if p_bool P (sworld s) v then exec_block n fr b s else exec_opt n fr el s) ;;
        (match o with
         | OBreak => skip s'
         | OContinue => exec n g fr (SWhile e b el) s'
         | ONorm _ _ => if p_bool P (sworld s) v then exec n g fr (SWhile e b el) s' else skip s'
         | OReturned _ => ret o s'
         end)
    | SLoop b =>
        do (o, s) <- exec_block n fr b s ;;
        (match o with
         | OBreak => skip s
         | OContinue | ONorm _ _ => exec n g fr (SLoop b) s
         | OReturned _ => ret o s
         end)
    | SDo b e el =>
        do (o, s) <- exec_block n fr b s ;;
        (match o with
         | OBreak => skip s
         | OContinue => exec n g fr (SDo b e el) s
         | OReturned _ => ret o s
         | ONorm _ _ =>
             do (again, s) <- (match e with
                               | None => ret false s
                               | Some e => do (v, s) <- eval n fr e s ;; ret (p_bool P (sworld s) v) s
                               end) ;;
             if (again : bool) then exec n g fr (SDo b e el) s
             else do (o, s) <- exec_opt n fr el s ;;
               (match o with
                | OContinue => exec n g fr (SDo b e el) s
                | OReturned _ => ret o s
                | OBreak | ONorm _ _ => skip s
                end)
         end)
    | SFor named e b el =>
        do (v, s) <- eval n fr e s ;; do (it, s) <- stree n (p_op P PInitIter [v] (sworld s)) s ;; exec_for n fr named it b el s
    | SBreak => ret OBreak s
    | SContinue => ret OContinue s
    | SAssert e msg =>
        do (v, s) <- eval n fr e s ;;
        if p_bool P (sworld s) v then skip s
        else do (x, s) <- (match msg with Some e => eval n fr e s | None => ret HNil s end) ;;
          Some (Er (XAssert x HNil) (sworld s))
    | SAssertCmp c swap a b msg =>
        do (p, s) <- (if swap then do (y, s) <- eval n fr b s ;; do (x, s) <- eval n fr a s ;; ret (x, y) s
                      else do (x, s) <- eval n fr a s ;; do (y, s) <- eval n fr b s ;; ret (x, y) s) ;;
        if p_compare P (sworld s) c (fst p) (snd p) then skip s
        else let '(w, text) := p_compare_msg P (sworld s) c (fst p) (snd p) in
          do (x, s) <- (match msg with Some e => eval n fr e (with_world w s) | None => ret HNil (with_world w s) end) ;;
          Some (Er (XAssert x text) (sworld s))
    end
  end
(** a fresh location for the loop variable in each iteration *)
with exec_for (n : nat) (fr : frame) (named : bool) (it : hval) (b : stmts) (el : option_stmts) (s : st) {struct n} : M outcome :=
  match n with
  | O => None
  | S n =>
    match p_next P it (sworld s) with
    | (w, None) =>
        do (o, s) <- exec_opt n fr el (with_world w s) ;;
        match o with OBreak | ONorm _ _ => ret (ONorm (locals fr) None) s | OContinue => None | OReturned _ => ret o s end
    | (w, Some v) =>
        let '(ls, s) := if named then declare false v fr (with_world w s) else (locals fr, with_world w s) in
        do (o, s) <- exec_block n (Frame (ls ++ [None]) (up fr)) b s ;;
        match o with
        | OBreak => ret (ONorm (locals fr) None) s
        | OContinue | ONorm _ _ => exec_for n fr named it b el s
        | OReturned _ => ret o s
        end
    end
  end
(** a statement list; [last]: the value left by the statement before *)
with exec_list (n : nat) (g : bool) (fr : frame) (last : option hval) (b : stmts) (s : st) {struct n} : M outcome :=
  match n with
  | O => None
  | S n =>
    match b with
    | BNil => ret (ONorm (locals fr) last) s
    | BCons c r =>
        do (o, s) <- exec n g fr c s ;;
        match o with ONorm ls v => exec_list n g (Frame ls (up fr)) v r s | _ => ret o s end
    end
  end
(** a block: its variables go out of scope *)
with exec_block (n : nat) (fr : frame) (b : stmts) (s : st) {struct n} : M outcome :=
  match n with
  | O => None
  | S n =>
    do (o, s) <- exec_list n false fr None b s ;;
    match o with ONorm _ _ => ret (ONorm (locals fr) None) s | _ => ret o s end
  end
with exec_opt (n : nat) (fr : frame) (el : option_stmts) (s : st) {struct n} : M outcome :=
  match n with
  | O => None
  | S n => match el with NoElse => ret (ONorm (locals fr) None) s | Else b => exec_block n fr b s end
  end
with exec_else (n : nat) (fr : frame) (el : else_) (s : st) {struct n} : M outcome :=
  match n with
  | O => None
  | S n =>
    match el with
    | ElNone => ret (ONorm (locals fr) None) s
    | ElBlock b => exec_block n fr b s
    | ElIf c b el => do (v, s) <- eval n fr c s ;; if p_bool P (sworld s) v then exec_block n fr b s else exec_else n fr el s
    end
  end
(** calling [fv] with [args] *)
with scall (n : nat) (fv : hval) (args : list hval) (s : st) {struct n} : M hval :=
  match n with
  | O => None
  | S n =>
    match fv with
    | HFun f | HClosure f _ =>
        match funs f with
        | None => None
        | Some fn =>
            if length args <? required fn then ret (match args with [] => fv | _ => HPartial fv args end) s
            else if accepts fn (length args) then
              if sf_variadic fn && (sf_args fn <=? length args) then
                let k := sf_args fn - 1 in
                let '(w, v) := p_vector P (skipn k args) (sworld s) in
                enter n fv fn (firstn k args ++ [v]) (with_world w s)
              else enter n fv fn args s
            else Some (Er (XArgs f (length args)) (sworld s))
        end
    | HPartial ((HFun f | HClosure f _) as fv') pargs =>
        match funs f with
        | None => None
        | Some fn =>
            let all := pargs ++ args in
            if length all <? required fn then ret (HPartial fv' all) s
            else if accepts fn (length all) then
              (* nothing is claimed about filling the variadic parameter of a partially
                 applied function: see C32 *)
              if sf_variadic fn && (sf_args fn <=? length all) then None else enter n fv' fn all s
            else Some (Er (XArgs f (length all)) (sworld s))
        end
    | _ => stree n (p_call P fv args (sworld s)) s
    end
  end
(** run the body of [fn] with the given first parameters; the others take their defaults *)
with enter (n : nat) (fv : hval) (fn : sfun) (vals : list hval) (s : st) {struct n} : M hval :=
  match n with
  | O => None
  | S n =>
    let ups := match fv with HClosure _ c => nth_error (senvs s) c | _ => Some [] end in
    match ups with
    | None => None
    | Some ups =>
        do (ds, s) <- eval_defs n (skipn (length vals - required fn) (sf_defs fn)) s ;;
        let '(ls, s) := alloc_list (vals ++ ds) s in
        match sf_body fn with
        | BodyExpr e => eval n (Frame ls ups) e s
        | BodyBlock b =>
            do (o, s) <- exec_list n false (Frame ls ups) None b s ;;
            match o with
            | OReturned v => ret v s
            | ONorm _ (Some v) => ret v s
            | ONorm _ None => ret HNil s
            | _ => None
            end
        end
    end
  end
(** default values are evaluated in order; they can only refer to globals *)
with eval_defs (n : nat) (ds : list expr) (s : st) {struct n} : M (list hval) :=
  match n with
  | O => None
  | S n =>
    match ds with
    | [] => ret [] s
    | d :: r => do (v, s) <- eval n (Frame [] []) d s ;; do (vs, s) <- eval_defs n r s ;; ret (v :: vs) s
    end
  end
with stree (n : nat) (t : tree (W P) (E P)) (s : st) {struct n} : M hval :=
  match n with
  | O => None
  | S n =>
    match t with
    | TRet w v => ret v (with_world w s)
    | TErr w e => Some (Er (XPrim e) w)
    | TCall w f args k => do (v, s) <- scall n f args (with_world w s) ;; stree n (k (sworld s) v) s
    end
  end.

(** A whole program: it ends by an error, by `exit`, or at its end (which is an exit, too). *)
Definition run_main (n : nat) (main : stmts) (w : W P) : option (verr (E P) * W P) :=
  match exec_list n true (Frame [] []) None main (St [] [] [] w) with
  | Some (Er e w) => Some (e, w)
  | Some (Ok (ONorm _ _) s) => Some (XExit, sworld s)
  | _ => None
  end.
End sem.
