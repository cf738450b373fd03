(** Unfolding equations of the interpreter (generated from LangSpec.v). *)
From Verif Require Import Base Native Err Vm Lang LangSpec.
Local Open Scope nat_scope.
Section unf.
Context (P : prims) (funs : nat -> option sfun).
Local Notation "'do' ( x , s ) <- m ;; k" := (bind P m (fun x s => k)) (at level 200, m at level 100, k at level 200).

Local Notation with_world := (with_world P).
Local Notation ret := (ret P).
Local Notation bind := (bind P).
Local Notation sworld := (sworld P).
Local Notation senvs := (senvs P).
Local Notation store := (store P).
Local Notation globals := (globals P).
Local Notation alloc := (alloc P).
Local Notation alloc_list := (alloc_list P).
Local Notation set_loc := (set_loc P).
Local Notation var_loc := (var_loc P).
Local Notation read := (read P).
Local Notation new_closure := (new_closure P).
Local Notation declare := (declare P).
Local Notation st := (st P).
Local Notation M := (M P).
Local Notation Er e w := (Er P _ e w).
Local Notation eval := (eval P funs).
Local Notation eval_args := (eval_args P funs).
Local Notation eval_plain := (eval_plain P funs).
Local Notation eval_chain := (eval_chain P funs).
Local Notation eval_lit := (eval_lit P funs).
Local Notation exec := (exec P funs).
Local Notation exec_for := (exec_for P funs).
Local Notation exec_list := (exec_list P funs).
Local Notation exec_block := (exec_block P funs).
Local Notation exec_opt := (exec_opt P funs).
Local Notation exec_else := (exec_else P funs).
Local Notation scall := (scall P funs).
Local Notation enter := (enter P funs).
Local Notation eval_defs := (eval_defs P funs).
Local Notation stree := (stree P funs).
Lemma eval_S (n : nat) (fr : frame) (e : expr) (s : st) : eval (S n) fr e s =
  match e with
    | EConst v => ret v s
    | EQuit => Some (Er XExit (sworld s))
    | EVar x => do (l, s) <- var_loc fr x s ;; read l s
    | EMethod f e => do (v, s) <- eval n fr e s ;; ret (HPartial (HFun f) [v]) s
    | EClosure f c cs =>
        match captured fr (c :: cs) with
        | Some ls => let '(v, s) := new_closure f ls s in ret v s
        | None => None
        end
    | ECall f a => do (fv, s) <- eval n fr f s ;; do (vs, s) <- eval_args n fr a s ;; scall n fv vs s
    | ECompose a f => do (v, s) <- eval n fr a s ;; do (fv, s) <- eval n fr f s ;; scall n fv [v] s
    | EPrim p a =>
        do (vs, s) <- eval_plain n fr a s ;;
        if length vs =? prim_arity p then stree n (p_op P p vs (sworld s)) s else None
    | EBinSwap o lhs rhs =>
        do (r, s) <- eval n fr rhs s ;; do (l, s) <- eval n fr lhs s ;; stree n (p_op P (PBinary o) [l; r] (sworld s)) s
    | ECompare lhs c e rest =>
        do (l, s) <- eval n fr lhs s ;; do (r, s) <- eval n fr e s ;;
        if p_compare P (sworld s) c l r then eval_chain n fr r rest s else ret (HBool false) s
    | ELit t a => do (l, s) <- eval_lit n fr (l_new P t (n_args a)) [] a s ;; let '(w, v) := l_end P l (sworld s) in ret v (with_world w s)
    | EAnd a b => do (v, s) <- eval n fr a s ;; if p_bool P (sworld s) v then eval n fr b s else ret v s
    | EOr a b => do (v, s) <- eval n fr a s ;; if p_bool P (sworld s) v then ret v s else eval n fr b s
    | EIf c a b => do (v, s) <- eval n fr c s ;; if p_bool P (sworld s) v then eval n fr a s else eval n fr b s
    | ESwapField a i b o =>
        do (x, s) <- eval n fr a s ;; do (old, s) <- stree n (p_op P (PGetField i) [x] (sworld s)) s ;;
        do (y, s) <- eval n fr b s ;; do (v, s) <- stree n (p_op P (PBinary o) [old; y] (sworld s)) s ;;
        stree n (p_op P (PSetField i) [x; v] (sworld s)) s
    | EArrayOp a i o b =>
        do (x, s) <- eval n fr a s ;; do (ix, s) <- eval n fr i s ;;
        do (old, s) <- stree n (p_op P PIndex [x; ix] (sworld s)) s ;;
        do (y, s) <- eval n fr b s ;;
        do (v, s) <- match o with Some o => stree n (p_op P (PBinary o) [old; y] (sworld s)) s | None => scall n y [old] s end ;;
        stree n (p_op P PStoreArray [x; ix; v] (sworld s)) s
    | EAssign x e =>
        do (v, s) <- eval n fr e s ;; do (l, s) <- var_loc fr x s ;;
        if l <? length (store s) then ret v (set_loc l v s) else None
    end.
Proof. reflexivity. Qed.
Lemma eval_args_S (n : nat) (fr : frame) (a : args) (s : st) : eval_args (S n) fr a s =
  match a with
    | ANil => ret [] s
    | ACons spread e r =>
        do (v, s) <- eval n fr e s ;;
        if spread then
          match p_unroll P v (sworld s) with
          | (w, inl x) => Some (Er (XPrim x) w)
          | (w, inr l) => do (vs, s) <- eval_args n fr r (with_world w s) ;; ret (l ++ vs) s
          end
        else do (vs, s) <- eval_args n fr r s ;; ret (v :: vs) s
    end.
Proof. reflexivity. Qed.
Lemma eval_plain_S (n : nat) (fr : frame) (a : args) (s : st) : eval_plain (S n) fr a s =
  match a with
    | ANil => ret [] s
    | ACons true _ _ => None
    | ACons false e r => do (v, s) <- eval n fr e s ;; do (vs, s) <- eval_plain n fr r s ;; ret (v :: vs) s
    end.
Proof. reflexivity. Qed.
Lemma eval_chain_S (n : nat) (fr : frame) (l : hval) (r : cmps) (s : st) : eval_chain (S n) fr l r s =
  match r with
    | CLast c e => do (v, s) <- eval n fr e s ;; stree n (p_op P (PBinary (cmp_binop c)) [l; v] (sworld s)) s
    | CCons c e r =>
        do (v, s) <- eval n fr e s ;;
        if p_compare P (sworld s) c l v then eval_chain n fr v r s else ret (HBool false) s
    end.
Proof. reflexivity. Qed.
Lemma eval_lit_S (n : nat) (fr : frame) (l : L P) (pend : list hval) (a : args) (s : st) : eval_lit (S n) fr l pend a s =
  let flush := match pend with [] => l | _ => l_acc P l pend (sworld s) end in
    match a with
    | ANil => ret flush s
    | ACons true e r =>
        do (v, s) <- eval n fr e s ;;
        match l_unroll P flush v (sworld s) with
        | (w, inl x) => Some (Er (XPrim x) w)
        | (w, inr l) => eval_lit n fr l [] r (with_world w s)
        end
    | ACons false e r => do (v, s) <- eval n fr e s ;; eval_lit n fr l (pend ++ [v]) r s
    end.
Proof. reflexivity. Qed.
Lemma exec_S (n : nat) (g : bool) (fr : frame) (c : stmt) (s : st) : exec (S n) g fr c s =
  let skip s := ret (ONorm (locals fr) None) s in
    match c with
    | SExpr e => do (v, s) <- eval n fr e s ;; ret (ONorm (locals fr) (Some v)) s
    | SSemi => skip s
    | SLet e => do (v, s) <- eval n fr e s ;; let '(ls, s) := declare g v fr s in ret (ONorm ls None) s
    | SLetNil => let '(ls, s) := declare g HNil fr s in ret (ONorm ls None) s
    | SStruct v => let '(ls, s) := declare g v fr s in ret (ONorm ls None) s
    | SFn f [] => let '(ls, s) := declare g (HFun f) fr s in ret (ONorm ls None) s
    | SFn f cs =>
        (* the function's own variable can be captured *)
        let '(ls, s) := declare g (HClosure f (length (senvs s))) fr s in
        match captured (Frame ls (up fr)) cs with
        | Some cl => let '(_, s) := new_closure f cl s in ret (ONorm ls None) s
        | None => None
        end
    | SReturn None => ret (OReturned HNil) s
    | SReturn (Some e) => do (v, s) <- eval n fr e s ;; ret (OReturned v) s
    | SIf e b el => do (v, s) <- eval n fr e s ;; if p_bool P (sworld s) v then exec_block n fr b s else exec_else n fr el s
    | SWhile e b el =>
        do (v, s) <- eval n fr e s ;;
        do (o, s') <- (if p_bool P (sworld s) v then exec_block n fr b s else exec_opt n fr el s) ;;
        (match o with
         | OBreak => skip s'
         | OContinue => exec n g fr (SWhile e b el) s'
         | ONorm _ _ => if p_bool P (sworld s) v then exec n g fr (SWhile e b el) s' else skip s'
         | OReturned _ => ret o s'
         end)
    | SLoop b =>
        do (o, s) <- exec_block n fr b s ;;
        (match o with
         | OBreak => skip s
         | OContinue | ONorm _ _ => exec n g fr (SLoop b) s
         | OReturned _ => ret o s
         end)
    | SDo b e el =>
        do (o, s) <- exec_block n fr b s ;;
        (match o with
         | OBreak => skip s
         | OContinue => exec n g fr (SDo b e el) s
         | OReturned _ => ret o s
         | ONorm _ _ =>
             do (again, s) <- (match e with
                               | None => ret false s
                               | Some e => do (v, s) <- eval n fr e s ;; ret (p_bool P (sworld s) v) s
                               end) ;;
             if (again : bool) then exec n g fr (SDo b e el) s
             else do (o, s) <- exec_opt n fr el s ;;
               (match o with
                | OContinue => exec n g fr (SDo b e el) s
                | OReturned _ => ret o s
                | OBreak | ONorm _ _ => skip s
                end)
         end)
    | SFor named e b el =>
        do (v, s) <- eval n fr e s ;; do (it, s) <- stree n (p_op P PInitIter [v] (sworld s)) s ;; exec_for n fr named it b el s
    | SBreak => ret OBreak s
    | SContinue => ret OContinue s
    | SAssert e msg =>
        do (v, s) <- eval n fr e s ;;
        if p_bool P (sworld s) v then skip s
        else do (x, s) <- (match msg with Some e => eval n fr e s | None => ret HNil s end) ;;
          Some (Er (XAssert x HNil) (sworld s))
    | SAssertCmp c swap a b msg =>
        do (p, s) <- (if swap then do (y, s) <- eval n fr b s ;; do (x, s) <- eval n fr a s ;; ret (x, y) s
                      else do (x, s) <- eval n fr a s ;; do (y, s) <- eval n fr b s ;; ret (x, y) s) ;;
        if p_compare P (sworld s) c (fst p) (snd p) then skip s
        else let '(w, text) := p_compare_msg P (sworld s) c (fst p) (snd p) in
          do (x, s) <- (match msg with Some e => eval n fr e (with_world w s) | None => ret HNil (with_world w s) end) ;;
          Some (Er (XAssert x text) (sworld s))
    end.
Proof. reflexivity. Qed.
Lemma exec_for_S (n : nat) (fr : frame) (named : bool) (it : hval) (b : stmts) (el : option_stmts) (s : st) : exec_for (S n) fr named it b el s =
  match p_next P it (sworld s) with
    | (w, None) =>
        do (o, s) <- exec_opt n fr el (with_world w s) ;;
        match o with OBreak | ONorm _ _ => ret (ONorm (locals fr) None) s | OContinue => None | OReturned _ => ret o s end
    | (w, Some v) =>
        let '(ls, s) := if named then declare false v fr (with_world w s) else (locals fr, with_world w s) in
        do (o, s) <- exec_block n (Frame (ls ++ [None]) (up fr)) b s ;;
        match o with
        | OBreak => ret (ONorm (locals fr) None) s
        | OContinue | ONorm _ _ => exec_for n fr named it b el s
        | OReturned _ => ret o s
        end
    end.
Proof. reflexivity. Qed.
Lemma exec_list_S (n : nat) (g : bool) (fr : frame) (last : option hval) (b : stmts) (s : st) : exec_list (S n) g fr last b s =
  match b with
    | BNil => ret (ONorm (locals fr) last) s
    | BCons c r =>
        do (o, s) <- exec n g fr c s ;;
        match o with ONorm ls v => exec_list n g (Frame ls (up fr)) v r s | _ => ret o s end
    end.
Proof. reflexivity. Qed.
Lemma exec_block_S (n : nat) (fr : frame) (b : stmts) (s : st) : exec_block (S n) fr b s =
  do (o, s) <- exec_list n false fr None b s ;;
    match o with ONorm _ _ => ret (ONorm (locals fr) None) s | _ => ret o s end.
Proof. reflexivity. Qed.
Lemma exec_opt_S (n : nat) (fr : frame) (el : option_stmts) (s : st) : exec_opt (S n) fr el s =
  match el with NoElse => ret (ONorm (locals fr) None) s | Else b => exec_block n fr b s end.
Proof. reflexivity. Qed.
Lemma exec_else_S (n : nat) (fr : frame) (el : else_) (s : st) : exec_else (S n) fr el s =
  match el with
    | ElNone => ret (ONorm (locals fr) None) s
    | ElBlock b => exec_block n fr b s
    | ElIf c b el => do (v, s) <- eval n fr c s ;; if p_bool P (sworld s) v then exec_block n fr b s else exec_else n fr el s
    end.
Proof. reflexivity. Qed.
Lemma scall_S (n : nat) (fv : hval) (args : list hval) (s : st) : scall (S n) fv args s =
  match fv with
    | HFun f | HClosure f _ =>
        match funs f with
        | None => None
        | Some fn =>
            if length args <? required fn then ret (match args with [] => fv | _ => HPartial fv args end) s
            else if accepts fn (length args) then
              if sf_variadic fn && (sf_args fn <=? length args) then
                let k := sf_args fn - 1 in
                let '(w, v) := p_vector P (skipn k args) (sworld s) in
                enter n fv fn (firstn k args ++ [v]) (with_world w s)
              else enter n fv fn args s
            else Some (Er (XArgs f (length args)) (sworld s))
        end
    | HPartial ((HFun f | HClosure f _) as fv') pargs =>
        match funs f with
        | None => None
        | Some fn =>
            let all := pargs ++ args in
            if length all <? required fn then ret (HPartial fv' all) s
            else if accepts fn (length all) then
              (* nothing is claimed about filling the variadic parameter of a partially
                 applied function: see C32 *)
              if sf_variadic fn && (sf_args fn <=? length all) then None else enter n fv' fn all s
            else Some (Er (XArgs f (length all)) (sworld s))
        end
    | _ => stree n (p_call P fv args (sworld s)) s
    end.
Proof. reflexivity. Qed.
Lemma enter_S (n : nat) (fv : hval) (fn : sfun) (vals : list hval) (s : st) : enter (S n) fv fn vals s =
  let ups := match fv with HClosure _ c => nth_error (senvs s) c | _ => Some [] end in
    match ups with
    | None => None
    | Some ups =>
        do (ds, s) <- eval_defs n (skipn (length vals - required fn) (sf_defs fn)) s ;;
        let '(ls, s) := alloc_list (vals ++ ds) s in
        match sf_body fn with
        | BodyExpr e => eval n (Frame ls ups) e s
        | BodyBlock b =>
            do (o, s) <- exec_list n false (Frame ls ups) None b s ;;
            match o with
            | OReturned v => ret v s
            | ONorm _ (Some v) => ret v s
            | ONorm _ None => ret HNil s
            | _ => None
            end
        end
    end.
Proof. reflexivity. Qed.
Lemma eval_defs_S (n : nat) (ds : list expr) (s : st) : eval_defs (S n) ds s =
  match ds with
    | [] => ret [] s
    | d :: r => do (v, s) <- eval n (Frame [] []) d s ;; do (vs, s) <- eval_defs n r s ;; ret (v :: vs) s
    end.
Proof. reflexivity. Qed.
Lemma stree_S (n : nat) (t : tree (W P) (E P)) (s : st) : stree (S n) t s =
  match t with
    | TRet w v => ret v (with_world w s)
    | TErr w e => Some (Er (XPrim e) w)
    | TCall w f args k => do (v, s) <- scall n f args (with_world w s) ;; stree n (k (sworld s) v) s
    end.
Proof. reflexivity. Qed.
End unf.
