(* Model of the static type analysis of commands and conditions, pseudocode_semantics.py.
   Variables and texts of expressions are numbered as in M_Env.  Left out: nested invocations (arguments are variables),
   the messages that only comment on a type (1930-1950, 1968-1985, 1680-1691), the re-use of outer variables (731-755),
   the special cases for particular texts (_v_, _value_; _highest_, _lowest_; the If steps of 5233-5255; _result_ 5349-5354),
   and algorithms that return completion records (1661-1664). *)
From Verif Require Import M_Base M_Dict M_Types M_Env.

Definition T_not_passed := 15.    (* numbers of the hierarchy types not_passed, not_returned *)
Definition T_not_returned := 16.

(* a variable; the invocation of an operation on variables, with its text *)
Inductive expr := EVar (x : nat) | EOp (key op : nat) (args : list nat).
Definition text_of (e : expr) : nat := match e with EVar x => x | EOp k _ _ => k end.

Inductive cond :=
| TypeTest (id : nat) (e : expr) (c : copula) (sub_t sup_t : ty)   (* a condition whose s_cond is env0.with_type_test(e, c, (sub_t, sup_t), asserting) *)
| Opaque (id : nat)                                                (* a condition whose s_cond is (env0, env0) *)
| Never                                                            (* 5656-5661 "This step is never reached" *)
| And (l : list cond)
| Or (l : list cond)
| NotBoth (a b : cond).                                            (* 5929-5934 *)

Inductive cmd :=
| Let (x : nat) (e : expr)
| SetV (x : nat) (e : expr)
| Perform (e : expr)
| Return (e : expr)
| Note
| Seq (c1 c2 : cmd)
| Assert (c : cond)
| AssertIf (c1 c2 : cond)
| IfClosed (c : cond) (c1 c2 : cmd)
| IfOther (c : cond) (c1 : cmd) (t : tail)
| RepeatCond (until : bool) (c : cond) (body : cmd)
| Repeat (body : cmd)
| ForEach (x : nat) (item_t : ty) (coll : nat) (coll_t : ty) (body : cmd)
with tail := ElseIf (c : cond) (c1 : cmd) (t : tail) | Else (c1 : cmd) | NoElse.

(* what add_pass_error is called for *)
Inductive perr :=
| NotDefined (x : nat)        (* 5676-5680 *)
| ReLet (x : nat)             (* 700-703, 720-730 *)
| WrongType (x : nat)         (* 811 *)
| NoArg                       (* 2383-2386 *)
| WrongArg (x : nat)          (* 2425-2429 *)
| SetParam (x : nat)          (* 975-978 *)
| SetChanges (x : nat)        (* 1021-1025 *)
| TypeTestErr (e : pass_error)
| CannotBeTrue | CannotBeFalse (* 5203-5206, 5212-5215 *)
| FallsOff                    (* 5119-5122 *)
| BadReturn.                  (* 1668-1671 *)

(* a result, the errors added to pass_errors and the environments added to return_envs meanwhile *)
Notation out A := (res (A * (list perr * list env))).
Definition ret {A} (x : A) : out A := Ok (x, ([], [])).
Definition bindw {A B} (m : out A) (k : A -> out B) : out B :=
  do (x, w) <- m ;; do (y, w') <- k x ;; Ok (y, (fst w ++ fst w', snd w ++ snd w')).
Definition tell (e : perr) : out unit := Ok (tt, ([e], [])).
Definition lift {A} (r : res A) : out A := do x <- r ;; ret x.
Notation "'doo' x <- m ;; k" := (bindw m (fun x => k)) (at level 61, x name, m at next level, right associativity).
Notation "'doo' ' p <- m ;; k" := (bindw m (fun x => match x with p => k end)) (at level 61, p pattern, m at next level, right associativity).

Section STA.
  Variable h : hier.
  Variable schemas : list (nat * option nat).
  Variable uf : nat.
  Variable sorted : list nat -> list nat.
  Variable params_of : nat -> list ty.     (* parameters_with_types of an operation *)
  Variable return_of : nat -> ty.          (* return_type of an operation *)
  Variable parameter_names : list nat.     (* of the parret of the algorithm *)
  Variable expected_return_type : ty.

  Notation sub := (is_a_subtype_of_or_equal_to h schemas).
  (* None.attr *)
  Definition need (o : option env) : res env := match o with Some e => Ok e | None => Err AttributeError end.

  (* 1906-1951 for a variable, and 5667-5683 *)
  Definition tc_var (x : nat) (e : env) : out ty :=
    match nget (e_vars e) x with Some t => ret t | None => doo _ <- tell (NotDefined x) ;; ret TBD end.

  (* 791-830  ensure_expr_is_of_type for a variable *)
  Definition ensure_var (e : env) (x : nat) (expected_t : ty) : out env :=
    doo _ <- lift (assert_ (negb (ty_eqb expected_t TBD))) ;;
    doo t <- tc_var x e ;;
    if ty_eqb t TBD then ret (set_var e x expected_t)
    else
      doo s <- lift (sub t expected_t) ;;
      if s then ret e
      else doo _ <- tell (WrongType x) ;; ret (set_var e x expected_t).

  (* 2362-2440  tc_args; env_and is envs_and of two *)
  Fixpoint tc_args (ps : list ty) (args : list nat) (env0 out_env : env) : out env :=
    match ps with
    | [] => match args with [] => ret out_env | _ => lift (Err AssertionError) end
    | p :: ps' =>
      doo '(not_passed_part, passed_part) <- (if ty_eqb p TBD then ret (TBD, TBD) else lift (split_by h schemas uf p (Hier T_not_passed))) ;;
      match args with
      | [] =>
        doo _ <- (if ty_eqb not_passed_part T_0 then tell NoArg else ret tt) ;;
        tc_args ps' [] env0 out_env
      | x :: args' =>
        doo t <- tc_var x env0 ;;
        doo env2 <-
          (if ty_eqb passed_part TBD then ret env0
           else if ty_eqb t TBD then ensure_var env0 x passed_part
           else
             doo s <- lift (sub t passed_part) ;;
             if s then ret env0
             else if ty_eqb t (Hier T_List) && match passed_part with ListT _ => true | _ => false end then ret env0
             else doo _ <- tell (WrongArg x) ;; ret env0) ;;
        doo out' <- lift (envs_and h schemas uf [out_env; env2]) ;;
        tc_args ps' args' env0 out'
      end
    end.

  (* 1906-1951  tc_expr *)
  Definition tc_expr (e : expr) (env0 : option env) : out (ty * env) :=
    doo env0 <- lift (need env0) ;;
    match e with
    | EVar x => doo t <- tc_var x env0 ;; ret (t, env0)
    | EOp key op args =>
      match nget (e_vars env0) key with
      | Some t => ret (t, env0)
      | None => doo _ <- lift (assert_ (length args <=? length (params_of op))) ;;
                doo env1 <- tc_args (params_of op) args env0 env0 ;; ret (return_of op, env1)
      end
    end.

  (* 692-764  plus_new_entry *)
  Definition plus_new_entry (e : env) (x : nat) (t : ty) : out env :=
    match nget (e_vars e) x with
    | Some var_t =>
      doo _ <- tell (ReLet x) ;;
      if ty_eqb t var_t then ret e
      else if ty_eqb t TBD then ret e
      else
        doo s <- lift (sub t var_t) ;;
        doo _ <- tell (ReLet x) ;;
        if s then lift (with_expr_type_narrowed h schemas x var_t e t)
        else ret (set_var e x t)
    | None => ret (set_var e x t)
    end.

  (* 910-1029  set_A_to_B for a variable; 946-973, when setting a parameter is not worth a message, are left out *)
  Definition set_A_to_B (self : env) (x : nat) (e : expr) : out env :=
    doo '(expr_type, env1) <- tc_expr e (Some self) ;;
    doo settable_type <- tc_var x env1 ;;
    let env2 := env1 in
    doo _ <- (if nmem x parameter_names then tell (SetParam x) else ret tt) ;;
    if ty_eqb settable_type TBD && ty_eqb expr_type TBD then ret env2
    else if ty_eqb settable_type TBD then ret (set_var self x expr_type)
    else if ty_eqb expr_type TBD then ret (set_var self (text_of e) settable_type)
    else if ty_eqb expr_type settable_type then ret env2
    else if ty_eqb expr_type (Hier T_List) && match settable_type with ListT _ => true | _ => false end then ret env2
    else
      doo s <- lift (sub expr_type settable_type) ;;
      doo _ <- (if s then ret tt else if ty_eqb settable_type (Hier T_not_passed) then ret tt else tell (SetChanges x)) ;;
      ret (set_var env2 x expr_type).

  (* 1632-1693 *)
  Definition proc_add_return (e : env) (t : ty) : out unit :=
    doo s <- lift (sub t expected_return_type) ;;
    doo _ <- (if s then ret tt else tell BadReturn) ;;
    Ok (tt, ([], [set_var e 0 t])).      (* text 0 is '*return*' *)

  Definition env_or (a b : option env) : out (option env) := lift (envs_or h uf sorted [a; b]).

  (* 1731-1799  tc_cond, tc_logical *)
  Fixpoint tc_cond (c : cond) (env0 : option env) (asserting : bool) : out (option env * option env) :=
    match c with
    | TypeTest _ e cop sub_t sup_t =>
      doo env0 <- lift (need env0) ;;
      doo '(t, env1) <- tc_expr e (Some env0) ;;
      doo '(r, errs) <- lift (with_type_test h schemas uf (text_of e) t env1 cop sub_t sup_t asserting) ;;
      Ok (r, (map TypeTestErr errs, []))
    | Opaque _ => ret (env0, env0)
    | Never => doo _ <- lift (assert_ asserting) ;; ret (None, env0)
    | And l =>
      doo '(t_env, f_envs) <-
        (fix go (l : list cond) (t_env : option env) (f_envs : list (option env)) : out (option env * list (option env)) :=
           match l with
           | [] => ret (t_env, f_envs)
           | c :: l' => doo '(t_env, f_env) <- tc_cond c t_env asserting ;; go l' t_env (f_envs ++ [f_env])
           end) l env0 [] ;;
      doo f <- lift (envs_or h uf sorted f_envs) ;; ret (t_env, f)
    | Or l =>
      doo '(t_envs, f_env) <-
        (fix go (l : list cond) (t_envs : list (option env)) (f_env : option env) : out (list (option env) * option env) :=
           match l with
           | [] => ret (t_envs, f_env)
           | c :: l' => doo '(t_env, f_env) <- tc_cond c f_env (match l' with [] => asserting | _ => false end) ;; go l' (t_envs ++ [t_env]) f_env
           end) l [] env0 ;;
      doo t <- lift (envs_or h uf sorted t_envs) ;; ret (t, f_env)
    | NotBoth a b =>
      doo '(t1, f1) <- tc_cond a env0 asserting ;;
      doo '(t2, f2) <- tc_cond b t1 asserting ;;
      doo f <- lift (envs_or h uf sorted [f1; f2]) ;; ret (f, t2)
    end.

  (* 1198-1204 *)
  Definition reduce (e : env) (names : list nat) : env := with_vars e (filter (fun b => nmem (fst b) names) (e_vars e)).

  (* 5389-5459  tc_loop, from the pass passi on *)
  Fixpoint tc_loop (n passi : nat) (preloop : env) (check : env -> out (option env * option env)) (body : option env -> out (option env)) (top : env) : out (option env) :=
    match n with
    | 0 => Err AssertionError
    | S n' =>
      do (r, w) <- (doo '(stay, exit) <- check top ;;
                    doo bottom <- body stay ;;
                    doo b <- lift (need bottom) ;;
                    doo new_top <- env_or (Some (reduce b (map fst (e_vars preloop)))) (Some preloop) ;;
                    doo nt <- lift (need new_top) ;;
                    ret (exit, nt)) ;;
      let '(exit, nt) := r in
      if vars_eqb (e_vars nt) (e_vars top) then do _ <- assert_ ((1 <=? passi) && (passi <=? 2)) ;; Ok (exit, w)
      else do (r', w') <- tc_loop n' (S passi) preloop check body nt ;; Ok (r', (fst w', snd w ++ snd w'))
    end.

  (* 1697-1727  tc_nonvalue *)
  Fixpoint tc (c : cmd) (env0 : option env) : out (option env) :=
    match c with
    | Let x e => doo '(t, env1) <- tc_expr e env0 ;; doo r <- plus_new_entry env1 x t ;; ret (Some r)        (* 5687-5697 *)
    | SetV x e => doo env0 <- lift (need env0) ;; doo r <- set_A_to_B env0 x e ;; ret (Some r)              (* 5844-5850 *)
    | Perform e => doo '(t, env1) <- tc_expr e env0 ;; ret (Some env1)
    | Return e => doo '(t, env1) <- tc_expr e env0 ;; doo _ <- proc_add_return env1 t ;; ret None            (* 5860-5872 *)
    | Note => ret env0                                                                                    (* 5881-5884 *)
    | Seq c1 c2 => doo env1 <- tc c1 env0 ;; tc c2 env1                                                    (* 5131-5138 *)
    | Assert c => doo '(t_env, _) <- tc_cond c env0 true ;; ret t_env                                      (* 5606-5612 *)
    | AssertIf c1 c2 =>                                                                                   (* 5619-5626 *)
      doo '(t1, f1) <- tc_cond c1 env0 false ;;
      doo '(t2, _) <- tc_cond c2 t1 true ;;
      env_or f1 t2
    | IfClosed c c1 c2 =>                                                                                 (* 5159-5167 *)
      doo '(t_env, f_env) <- tc_cond c env0 false ;;
      doo b1 <- tc c1 t_env ;;
      doo b2 <- tc c2 f_env ;;
      env_or b1 b2
    | IfOther c c1 t =>                                                                                   (* 5177-5231 *)
      doo '(t_env, f_env) <- tc_cond c env0 false ;;
      doo b1 <- tc c1 t_env ;;
      doo bs <- tc_tail t f_env ;;
      lift (envs_or h uf sorted (b1 :: bs))
    | RepeatCond until c body =>                                                                          (* 5324-5347 *)
      doo pre <- lift (need env0) ;;
      tc_loop 5 1 pre (fun e => doo '(t, f) <- tc_cond c (Some e) false ;; ret (if until : bool then (f, t) else (t, f))) (tc body) pre
    | Repeat body =>                                                                                      (* 5311-5322 *)
      doo pre <- lift (need env0) ;;
      tc_loop 5 1 pre (fun e => ret (Some e, None)) (tc body) pre
    | ForEach x item_t coll coll_t body =>                                                                (* 5366-5377, 5485-5565 *)
      doo pre <- lift (need env0) ;;
      tc_loop 5 1 pre (fun e => doo env1 <- ensure_var e coll coll_t ;; doo env2 <- plus_new_entry env1 x item_t ;; ret (Some env2, Some e)) (tc body) pre
    end
  (* 5196-5229  the environments that the rest of the If appends to benvs *)
  with tc_tail (t : tail) (f_env : option env) : out (list (option env)) :=
    match t with
    | ElseIf c c1 t' =>
      doo '(t_env, f_env) <- tc_cond c f_env false ;;
      doo bs <- (match t_env with
                 | None => doo _ <- tell CannotBeTrue ;; ret []
                 | Some _ => doo b <- tc c1 t_env ;; ret [b]
                 end) ;;
      match f_env with
      | None => doo _ <- tell CannotBeFalse ;; ret bs
      | Some _ => doo bs' <- tc_tail t' f_env ;; ret (bs ++ bs')
      end
    | Else c1 => doo b <- tc c1 f_env ;; ret [b]
    | NoElse => ret [f_env]
    end.

  (* 5112-5127 {EMU_ALG_BODY} : {IND_COMMANDS}{nlai} *)
  Definition tc_body (c : cmd) (env0 : env) : out unit :=
    doo env1 <- tc c (Some env0) ;;
    match env1 with
    | Some e => doo _ <- tell FallsOff ;; proc_add_return e (Hier T_not_returned)
    | None => ret tt
    end.

  (* 522-570  make_env, for a header whose species is not bif: and without a for-parameter, for which there is one variable more.
     In the message for a mixed return type the name op_name is not defined (555).  Second: returns_completion_records *)
  Definition make_env (return_type : ty) (parameter_types : list (nat * ty)) : res (env * bool) :=
    let e := fold_left (fun e p => set_var e (fst p) (snd p)) parameter_types (mkEnv 0 0 0 [] None) in
    let e := set_var e 0 return_type in
    do (cr, noncr) <- split_by h schemas uf return_type T_Completion_Record ;;
    if negb (ty_eqb cr T_0) && negb (ty_eqb noncr T_0) then Err NameError
    else if negb (ty_eqb cr T_0) then Ok (e, true)
    else if negb (ty_eqb noncr T_0) then Ok (e, false)
    else Err AssertionError.

  (* 1556-1606  the definitions of an operation, one after another *)
  Fixpoint tc_defns (cs : list cmd) (init_env : env) : out unit :=
    match cs with
    | [] => ret tt
    | c :: cs' => doo _ <- tc_body c init_env ;; tc_defns cs' init_env
    end.
End STA.
