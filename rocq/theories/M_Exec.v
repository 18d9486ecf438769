(* Model of the execution of pseudocode: frames, contours, commands, early error rules, pseudocode_semantics.py. *)
From Verif Require Import M_Base M_Dict.

(* values: parse nodes and other atoms, booleans, and Lists, which are mutable and so live in a heap *)
Inductive val := VAtom (n : nat) | VBool (b : bool) | VList (loc : nat).
(* the syntax trees, reduced to the constructs with control flow, variables or calls;
   the other constructs are EPrim and CTest, with argument expressions *)
Inductive expr :=
| EVar (x : nat)                                    (* {var} *)
| ELit (v : val)
| EFocus (k : nat)                                  (* {PROD_REF}, resolved against the focus node *)
| EPrim (k : nat) (args : list expr)
| EList (args : list expr)                          (* a new List *)
| ECovered (k : nat) (e : expr)                     (* the {nonterminal} that is covered by {LOCAL_REF} *)
| EWhere (ea : expr) (x : nat) (eb : expr)          (* {EX}, where {DEFVAR} is {EX} *)
| EIf (ea : expr) (c : cond) (eb : expr)            (* {EX} if {CONDITION}. Otherwise, it is {EXPR} *)
| ECall (op : nat) (focus : option expr) (args : list expr)
with cond :=
| CTest (k : nat) (args : list expr)
| COr (cs : list cond)
| CAnd (cs : list cond)
| CUnless (a b : cond).
Inductive cmd :=
| CLet (x : nat) (e : expr)
| CSet (x : nat) (e : expr)
| CReturn (e : expr)
| CSeq (a b : cmd)                                  (* {COMMANDS}{_NL_N} {COMMAND} *)
| CIf (c : cond) (a b : cmd)                        (* both {IF_CLOSED} and {IF_OTHER}, with its tail as b *)
| CNop                                              (* {IF_TAIL} : {EPSILON} *)
| CFor (x : nat) (e : expr) (body : cmd)            (* For each element _x_ of e, body *)
| CAssert (c : cond)
| CAppend (e l : expr).
Inductive rule :=
| RIf (c : cond)                                    (* It is a Syntax Error if c. *)
| RForEach (x : nat) (e : expr) (c : cond)          (* For each _x_ in e: It is a Syntax Error if c. *)
| RAlg (c : cond) (b : bool) (body : cmd)           (* It is a Syntax Error if c and the following algorithm returns b: *)
| RApply (c : cond) (rules : list nat).             (* If c, the Early Error rules for ... are applied. *)
Inductive body := BRules (rs : list rule) | BSteps (c : cmd) | BExpr (e : expr).
Inductive algname := Contains | BoundNames | OtherAlg.
Record alg := mkAlg { a_name : algname; a_params : list nat; a_body : body }.

(* pseudocode_semantics.py:2920-2971  Frame *)
Record frame := mkFrame { fid : nat; f_focus : option val; contours : list (list (nat * val)); f_ret : option val }.
(* ds.agent: the stack (top first), the Lists, the early errors found, the next frame identity *)
Record st := mkSt { stack : list frame; heap : list (list val); errs : list nat; next : nat }.
(* ReferenceToNonexistentThing, or a Python exception *)
Inductive xn := NoThing | Py (e : exn).
Inductive out (A : Type) := Val (a : A) | Exc (e : xn).
Arguments Val {A} a. Arguments Exc {A} e.
(* effects happen even if an exception is raised afterwards *)
Definition M (A : Type) := st -> st * out A.
Definition ret {A} (a : A) : M A := fun s => (s, Val a).
Definition raise {A} (e : xn) : M A := fun s => (s, Exc e).
Definition bindM {A B} (m : M A) (k : A -> M B) : M B :=
  fun s => match m s with (s', Val a) => k a s' | (s', Exc e) => (s', Exc e) end.
Notation "'run!' x <- m ;; k" := (bindM m (fun x => k)) (at level 200, x pattern, m at level 100, k at level 200).
Definition lift {A} (r : res A) : M A := fun s => match r with Ok a => (s, Val a) | Err e => (s, Exc (Py e)) end.
Definition assertM (b : bool) : M unit := lift (assert_ b).
(* try: m  except ReferenceToNonexistentThing: h *)
Definition try_ {A} (m h : M A) : M A := fun s => match m s with (s', Exc NoThing) => h s' | r => r end.
Definition get : M st := fun s => (s, Val s).

(* pseudocode_semantics.py:2808-2811  curr_frame *)
Definition curr_frame : M frame := fun s => match stack s with f :: _ => (s, Val f) | [] => (s, Exc (Py IndexError)) end.
(* attributes of the frame on top of the stack are changed in place *)
Definition put_frame (f : frame) : M unit := fun s =>
  match stack s with _ :: r => (mkSt (f :: r) (heap s) (errs s) (next s), Val tt) | [] => (s, Exc (Py IndexError)) end.
Definition is_returning (f : frame) : bool := match f_ret f with Some _ => true | None => false end.

(* pseudocode_semantics.py:3056-3057, 3059-3060 *)
Definition start_contour (cs : list (list (nat * val))) := [] :: cs.
Definition end_contour (cs : list (list (nat * val))) : res (list (list (nat * val))) := match cs with _ :: cs' => Ok cs' | [] => Err IndexError end.
Definition in_contour (x : nat) (c : list (nat * val)) : bool := match nget c x with Some _ => true | None => false end.
(* pseudocode_semantics.py:3062-3076  let_var_be_value *)
Definition let_var (cs : list (list (nat * val))) (x : nat) (v : val) : res (list (list (nat * val))) :=
  do _ <- assert_ (forallb (fun c => negb (in_contour x c)) cs) ;;
  match cs with c :: cs' => Ok (nset c x v :: cs') | [] => Err IndexError end.
(* pseudocode_semantics.py:3078-3094  set_settable_to_value, for a variable *)
Definition set_var (cs : list (list (nat * val))) (x : nat) (v : val) : res (list (list (nat * val))) :=
  do _ <- assert_ (length (filter (in_contour x) cs) =? 1) ;;
  Ok (map (fun c => if in_contour x c then nset c x v else c) cs).
(* pseudocode_semantics.py:3096-3119  get_value_referenced_by_var (other than _NcapturingParens_) *)
Fixpoint get_var (cs : list (list (nat * val))) (x : nat) : res val :=
  match cs with
  | [] => Err AssertionError
  | c :: cs' => match nget c x with Some v => Ok v | None => get_var cs' x end
  end.
Definition on_contours (g : list (list (nat * val)) -> res (list (list (nat * val)))) : M unit :=
  run! f <- curr_frame ;;
  run! cs <- lift (g (contours f)) ;;
  put_frame (mkFrame (fid f) (f_focus f) cs (f_ret f)).
(* pseudocode_semantics.py:3044-3052 *)
Definition start_returning (v : val) : M unit :=
  run! f <- curr_frame ;;
  run! _ <- assertM (negb (is_returning f)) ;;
  put_frame (mkFrame (fid f) (f_focus f) (contours f) (Some v)).
Definition stop_returning : M unit :=
  run! f <- curr_frame ;;
  run! _ <- lift (if is_returning f then Ok tt else Err AttributeError) ;;
  put_frame (mkFrame (fid f) (f_focus f) (contours f) None).
(* pseudocode_semantics.py:6970-6974  it_is_a_syntax_error; the error is identified by its rule's frame *)
Definition it_is_a_syntax_error : M unit :=
  run! f <- curr_frame ;;
  fun s => (mkSt (stack s) (heap s) (errs s ++ [fid f]) (next s), Val tt).
Definition new_list (vs : list val) : M val := fun s => (mkSt (stack s) (heap s ++ [vs]) (errs s) (next s), Val (VList (length (heap s)))).
Definition list_at (v : val) : M nat := match v with VList l => ret l | _ => raise (Py AssertionError) end.
Definition elements (l : nat) : M (list val) := fun s => match nth_error (heap s) l with Some vs => (s, Val vs) | None => (s, Exc (Py KeyError)) end.
Fixpoint set_nth {A} (l : list A) (n : nat) (a : A) : list A :=
  match l, n with [], _ => [] | _ :: l', 0 => a :: l' | x :: l', S n' => x :: set_nth l' n' a end.
Definition append_one (l : nat) (v : val) : M unit :=
  run! vs <- elements l ;;
  fun s => (mkSt (stack s) (set_nth (heap s) l (vs ++ [v])) (errs s) (next s), Val tt).
(* the frame object with this identity (its owner's reference to it) *)
Definition own_frame (i : nat) : M frame := fun s =>
  match find (fun f => fid f =? i) (stack s) with Some f => (s, Val f) | None => (s, Exc (Py KeyError)) end.

(* one thing for the interpreter to do *)
Inductive task :=
| TExpr (e : expr) | TExprs (es : list expr) | TCond (c : cond) | TAny (cs : list cond) | TAll (cs : list cond)
| TCmd (c : cmd) | TLoop (x l i : nat) (body : cmd)
| TRule (r : rule) | TRules (own : nat) (rs : list rule) | TRuleLoop (x l i : nat) (c : cond)
| TCall (a : nat) (focus : option val) (args : list val) | TApply (rules : list nat).
(* what it gives *)
Inductive rv := RNone | RVal (v : val) | RVals (vs : list val) | RBool (b : bool).
Definition as_val (r : rv) : M val := match r with RVal v => ret v | _ => raise (Py AssertionError) end.
Definition as_vals (r : rv) : M (list val) := match r with RVals vs => ret vs | _ => raise (Py AssertionError) end.
Definition as_bool (r : rv) : M bool := match r with RBool b => ret b | _ => raise (Py AssertionError) end.
Definition as_none (r : rv) : M unit := match r with RNone => ret tt | _ => raise (Py AssertionError) end.
(* pseudocode_semantics.py:3286-3288  EXEC, its first assertion *)
Definition guard : M unit := run! f <- curr_frame ;; assertM (negb (is_returning f)).
(* pseudocode_semantics.py:2944-2954  the parameters, in Frame.__init__ *)
Fixpoint let_params (cs : list (list (nat * val))) (ps : list nat) (vs : list val) : res (list (list (nat * val))) :=
  match ps, vs with
  | [], [] => Ok cs
  | p :: ps', v :: vs' => do cs' <- let_var cs p v ;; let_params cs' ps' vs'
  | _, _ => Err AssertionError
  end.
Definition init_contours (ps : list nat) (vs : list val) : res (list (list (nat * val))) :=
  do _ <- assert_ (length vs =? length ps) ;; let_params [[]] ps vs.
Definition push_frame (focus : option val) (cs : list (list (nat * val))) : M nat := fun s =>
  (mkSt (mkFrame (next s) focus cs None :: stack s) (heap s) (errs s) (S (next s)), Val (next s)).
(* pseudocode_semantics.py:2912-2913  pop, and assert rframe is frame *)
Definition pop_frame (i : nat) : M unit := fun s =>
  match stack s with
  | [] => (s, Exc (Py IndexError))
  | f :: r => let s' := mkSt r (heap s) (errs s) (next s) in if fid f =? i then (s', Val tt) else (s', Exc (Py AssertionError))
  end.
Definition val_eqb (a b : val) : bool :=
  match a, b with VAtom m, VAtom n => m =? n | VBool x, VBool y => eqb x y | VList m, VList n => m =? n | _, _ => false end.

Section Exec.
  (* the constructs without control flow, given the Lists and the argument values *)
  Variable prim : nat -> list (list val) -> list val -> res val.
  Variable test : nat -> list (list val) -> list val -> res bool.
  (* resolve_focus_reference and the_nonterminal_that_is_covered_by_pnode *)
  Variable resolve : nat -> option val -> res val.
  Variable covered : nat -> val -> option val.
  (* algorithm definitions; the one chosen by an operation's name and the focus node (6170-6205, 6528-6610): it and its focus node, or at once a result *)
  Variable algs : nat -> option alg.
  Variable dispatch : nat -> option val -> res ((nat * option val) + val).

  (* one task, given how to do others *)
  Definition step (run : task -> M rv) (t : task) : M rv :=
    let ex (e : expr) : M val := run! r <- run (TExpr e) ;; as_val r in
    let exs (es : list expr) : M (list val) := run! r <- run (TExprs es) ;; as_vals r in
    let cd (c : cond) : M bool := run! r <- run (TCond c) ;; as_bool r in
    let cm (c : cmd) : M unit := run! r <- run (TCmd c) ;; as_none r in
      match t with
      | TExpr e =>
        run! _ <- guard ;;
        match e with
        | EVar x => run! f <- curr_frame ;; run! v <- lift (get_var (contours f) x) ;; ret (RVal v)
        | ELit v => ret (RVal v)
        | EFocus k => run! f <- curr_frame ;; run! v <- lift (resolve k (f_focus f)) ;; ret (RVal v)
        | EPrim k args => run! vs <- exs args ;; run! s <- get ;; run! v <- lift (prim k (heap s) vs) ;; ret (RVal v)
        | EList args => run! vs <- exs args ;; run! v <- new_list vs ;; ret (RVal v)
        (* pseudocode_semantics.py:5043-5049 *)
        | ECovered k e' => run! v <- ex e' ;; match covered k v with Some w => ret (RVal w) | None => raise NoThing end
        (* pseudocode_semantics.py:5817-5824 *)
        | EWhere ea x eb =>
          run! v <- ex eb ;;
          run! _ <- on_contours (fun cs => Ok (start_contour cs)) ;;
          run! _ <- on_contours (fun cs => let_var cs x v) ;;
          run! r <- ex ea ;;
          run! _ <- on_contours end_contour ;;
          ret (RVal r)
        (* pseudocode_semantics.py:5296-5299 *)
        | EIf ea c eb => run! b <- cd c ;; run! v <- ex (if b then ea else eb) ;; ret (RVal v)
        (* pseudocode_semantics.py:6121-6130, 6528-6610 *)
        | ECall op fo args =>
          run! fv <- match fo with None => ret None | Some fe => run! v <- ex fe ;; ret (Some v) end ;;
          run! vs <- exs args ;;
          run! d <- lift (dispatch op fv) ;;
          match d with
          | inr v => ret (RVal v)
          | inl (a, fv') => run! r <- run (TCall a fv' vs) ;; run! v <- as_val r ;; ret (RVal v)
          end
        end
      (* pseudocode_semantics.py:6156-6166 *)
      | TExprs [] => ret (RVals [])
      | TExprs (e :: es) => run! v <- ex e ;; run! vs <- exs es ;; ret (RVals (v :: vs))
      | TCond c =>
        run! _ <- guard ;;
        match c with
        | CTest k args => run! vs <- exs args ;; run! s <- get ;; run! b <- lift (test k (heap s) vs) ;; ret (RBool b)
        (* pseudocode_semantics.py:5909-5914, 5923-5928 *)
        | COr cs => run (TAny cs)
        | CAnd cs => run (TAll cs)
        (* pseudocode_semantics.py:6000-6002 *)
        | CUnless a b => run! x <- cd a ;; if x then run! y <- cd b ;; ret (RBool (negb y)) else ret (RBool false)
        end
      | TAny [] => ret (RBool false)
      | TAny (c :: cs) => run! b <- cd c ;; if b then ret (RBool true) else run (TAny cs)
      | TAll [] => ret (RBool true)
      | TAll (c :: cs) => run! b <- cd c ;; if b then run (TAll cs) else ret (RBool false)
      | TCmd c =>
        run! _ <- guard ;;
        match c with
        (* pseudocode_semantics.py:5699-5702 *)
        | CLet x e => run! v <- ex e ;; run! _ <- on_contours (fun cs => let_var cs x v) ;; ret RNone
        (* pseudocode_semantics.py:5852-5855 *)
        | CSet x e => run! v <- ex e ;; run! _ <- on_contours (fun cs => set_var cs x v) ;; ret RNone
        (* pseudocode_semantics.py:5874-5876 *)
        | CReturn e => run! v <- ex e ;; run! _ <- start_returning v ;; ret RNone
        (* pseudocode_semantics.py:5140-5144 *)
        | CSeq a b =>
          run! _ <- cm a ;;
          run! f <- curr_frame ;;
          if is_returning f then ret RNone else run! _ <- cm b ;; ret RNone
        (* pseudocode_semantics.py:5169-5174, 5264-5282 *)
        | CIf c a b => run! x <- cd c ;; run! _ <- cm (if x then a else b) ;; ret RNone
        | CNop => ret RNone
        (* pseudocode_semantics.py:5379-5387; the List itself is iterated over, not a copy (10115-10119) *)
        | CFor x e b => run! v <- ex e ;; run! l <- list_at v ;; run (TLoop x l 0 b)
        (* pseudocode_semantics.py:5614-5617 *)
        | CAssert c => run! x <- cd c ;; run! _ <- assertM x ;; ret RNone
        (* pseudocode_semantics.py:10398-10406 *)
        | CAppend e le => run! v <- ex e ;; run! w <- ex le ;; run! l <- list_at w ;; run! _ <- append_one l v ;; ret RNone
        end
      | TLoop x l i b =>
        run! vs <- elements l ;;
        match nth_error vs i with
        | None => ret RNone
        | Some v =>
          run! _ <- on_contours (fun cs => Ok (start_contour cs)) ;;
          run! _ <- on_contours (fun cs => let_var cs x v) ;;
          run! _ <- cm b ;;
          run! _ <- on_contours end_contour ;;
          run! f <- curr_frame ;;
          if is_returning f then ret RNone else run (TLoop x l (S i) b)
        end
      | TRule r =>
        run! _ <- guard ;;
        match r with
        (* pseudocode_semantics.py:6815-6818 *)
        | RIf c => run! b <- cd c ;; run! _ <- (if b then it_is_a_syntax_error else ret tt) ;; ret RNone
        (* pseudocode_semantics.py:6955-6966 *)
        | RForEach x e c => run! v <- ex e ;; run! l <- list_at v ;; run (TRuleLoop x l 0 c)
        (* pseudocode_semantics.py:6867-6879 *)
        | RAlg c b steps =>
          run! y <- cd c ;;
          if y then
            run! _ <- cm steps ;;
            run! f <- curr_frame ;;
            match f_ret f with
            | None => raise (Py AssertionError)
            | Some v => run! _ <- stop_returning ;; run! _ <- (if val_eqb v (VBool b) then it_is_a_syntax_error else ret tt) ;; ret RNone
            end
          else ret RNone
        (* pseudocode_semantics.py:6921-6943 *)
        | RApply c rules => run! b <- cd c ;; if b then run (TApply rules) else ret RNone
        end
      | TRuleLoop x l i c =>
        run! vs <- elements l ;;
        match nth_error vs i with
        | None => ret RNone
        | Some v =>
          run! _ <- on_contours (fun cs => Ok (start_contour cs)) ;;
          run! _ <- on_contours (fun cs => let_var cs x v) ;;
          run! b <- cd c ;;
          run! _ <- (if b then it_is_a_syntax_error else ret tt) ;;
          run! _ <- on_contours end_contour ;;
          run (TRuleLoop x l (S i) c)
        end
      (* pseudocode_semantics.py:3012-3023 *)
      | TRules own [] => ret RNone
      | TRules own (r :: rs) =>
        run! _ <- try_ (run! x <- run (TRule r) ;; as_none x) (ret tt) ;;
        run! f <- own_frame own ;;
        run! _ <- assertM (negb (is_returning f)) ;;
        run (TRules own rs)
      | TApply [] => ret RNone
      | TApply (a :: rules) => run! f <- curr_frame ;; run! _ <- run (TCall a (f_focus f) []) ;; run (TApply rules)
      (* pseudocode_semantics.py:2879-2916  execute_alg_defn; 2994-3042  Frame.run *)
      | TCall a fo args =>
        match algs a with
        | None => raise (Py KeyError)
        | Some al =>
          run! cs <- lift (init_contours (a_params al) args) ;;
          run! i <- push_frame fo cs ;;
          run! r <-
            match a_body al with
            | BRules rs => run (TRules i rs)
            | BSteps c =>
              try_ (run! _ <- cm c ;; run! f <- own_frame i ;; match f_ret f with Some v => ret (RVal v) | None => raise (Py AssertionError) end)
                   match a_name al with
                   | Contains => ret (RVal (VBool false))
                   | BoundNames => run! v <- new_list [] ;; ret (RVal v)
                   | OtherAlg => raise (Py KeyError)
                   end
            | BExpr e => run! v <- ex e ;; ret (RVal v)
            end ;;
          run! _ <- pop_frame i ;;
          ret r
        end
      end.
  Fixpoint run (n : nat) : task -> M rv :=
    match n with
    | 0 => fun _ => raise (Py OutOfFuel)
    | S n => step (run n)
    end.
End Exec.
